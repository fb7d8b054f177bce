(** Items on one page: what scanning finds after writing, tearing, removing and damaging items. *)
From Coq Require Import List NArith ZArith Arith Bool Lia ZifyBool ZifyNat ZifyN.
From Verif Require Import Base BaseP Crc CrcP Flash Cache State Item Generic GeomP ScanP WpP ItemP QSpec QObs.
Import ListNotations.
Local Opaque crc16 acrc crc32.

Section Items.
Context {K : Type} (g : geom).
Implicit Types s : st K.

(** * Specification *)
(** Scanning the area from [a] to [e] finds the items [l], with their addresses. *)
Inductive finds (e : nat) : st K -> nat -> list (nat * list N) -> Prop :=
| FNil s a nx s' : item_next g (tfuel a e) a e s = (Ok (None, nx), s') -> finds e s a []
| FCons s a h ad nx s' l : item_next g (tfuel a e) a e s = (Ok (Some (h, ad), nx), s') -> finds e s' nx l ->
    finds e s a ((ad, firstn (h_len h) (s_buf s')) :: l).

(** The same state with power for [p] bytes (all bytes for [None]), src/mock_flash.rs. *)
Definition with_power (p : option nat) s : st K := set_fl s (mkflash (f_mem (s_fl s)) (f_wc (s_fl s)) (f_er (s_fl s)) p (f_ae (s_fl s)) (f_aw (s_fl s)) (f_bad (s_fl s))).
(** Write items one after the other. *)
Fixpoint write_all (a : nat) (ds : list (list N)) : M K nat :=
  match ds with
  | [] => ret a
  | d :: t => write_new g a d ;;; write_all (a + HL g + rup g (length d)) t
  end.
(** Where these items are. *)
Fixpoint placed (a : nat) (ds : list (list N)) : list (nat * list N) :=
  match ds with
  | [] => []
  | d :: t => (a, d) :: placed (a + HL g + rup g (length d)) t
  end.
Definition total (ds : list (list N)) : nat := list_sum (map (fun d => HL g + rup g (length d)) ds).
(** The area from [a] to [e] is aligned and inside the storage, and the buffer is large enough. *)
Definition area (a e : nat) s : Prop := a mod W g = 0 /\ START g <= a /\ e <= FEND g /\ e - a <= length (s_buf s).
Definition blank (f : flash) (a e : nat) : Prop := forall x, a <= x < e -> f_mem f x = 255%N.
Definition is_data (d : list N) : Prop := Forall is_byte d /\ (N.of_nat (length d) <= 65535)%N.

(** * Proofs *)
Context (gok : geom_ok g).
Notation ssize := (ssize g).
Notation seg := (seg g).
Fixpoint lives (a : nat) (sl : list slot) : list (nat * list N) :=
  match sl with
  | [] => []
  | x :: t => match x with SLive d => [(a, d)] | _ => [] end ++ lives (a + ssize x) t
  end.
Lemma lives_app sl1 : forall a sl2, lives a (sl1 ++ sl2) = lives a sl1 ++ lives (a + sizes g sl1) sl2.
Proof.
  induction sl1 as [|x t IH]; intros a sl2; cbn [lives app].
  - unfold sizes. cbn. now rewrite Nat.add_0_r.
  - rewrite IH. rewrite <- app_assoc. replace (a + ssize x + sizes g t) with (a + sizes g (x :: t)); auto. unfold sizes. cbn [map list_sum fold_right]. unfold list_sum. lia.
Qed.

Lemma finds_det e s a l : finds e s a l -> forall s2 l', s_fl s2 = s_fl s -> s2 = s -> finds e s2 a l' -> l' = l.
Proof.
  induction 1 as [s a nx s' E|s a h ad nx s' l E F IH]; intros s2 l' FE -> H2; inversion H2 as [? ? ? ? E2|? ? ? ? ? ? ? E2 F2]; subst; rewrite E in E2; try discriminate; auto.
  injection E2 as -> -> -> ->. f_equal. now apply (IH s'0).
Qed.

Lemma fits_slot m e a x n : slot_at g m e a x -> e - a <= n -> fits_buf g n x.
Proof. intros S L. pose proof (slot_at_le g gok m e a x S). unfold ScanP.ssize in *. destruct x; cbn in *; auto; lia. Qed.
Lemma fits_seg m e n pre : forall a c, e - a <= n -> seg m e a pre c -> Forall (fits_buf g n) pre.
Proof.
  induction pre as [|x t IH]; intros a c L H; constructor; destruct H as [H1 H2]; [eapply fits_slot; eauto|]. eapply (IH (a + ssize x)); eauto. lia.
Qed.
Lemma finds_seg e : forall sl s a b, area a e s -> seg (f_mem (s_fl s)) e a sl b -> hdr_at g (f_mem (s_fl s)) e b = HEnd -> finds e s a (lives a sl).
Proof.
  intros sl. remember (length sl) as n eqn:LN. revert sl LN. induction (lt_wf n) as [n _ IH]. intros sl LN s a b (AL & ST & EE & BL) SG EN.
  assert (AL' : al g a) by exact AL.
  (* split at the first live slot *)
  assert (SP : (forallb (fun x => negb (is_live x)) sl = true) \/ exists pre d post, sl = pre ++ SLive d :: post /\ forallb (fun x => negb (is_live x)) pre = true).
  { clear. induction sl as [|x t IH]; [now left|]. destruct x as [d| | |]; [right; exists [], d, t; auto| | |]; (destruct IH as [IH|(pre & d & post & -> & P)]; [left; cbn; auto|right; eexists (_ :: pre), d, post; split; [reflexivity|cbn; auto]]). }
  assert (FB : forall pre c, seg (f_mem (s_fl s)) e a pre c -> Forall (fits_buf g (length (s_buf s))) pre) by (intros; eapply fits_seg; eauto).
  destruct SP as [NL|(pre & d & post & -> & NL)].
  - destruct (item_next_eq g gok e sl (tfuel a e) a b s EE AL' ST SG NL (FB _ _ SG) (tfuel_len' g gok _ _ _ _ _ SG)) as [H _].
    destruct (H EN) as (buf & _ & X). replace (lives a sl) with (@nil (nat * list N)); [eapply FNil; eauto|].
    clear - NL. revert a. induction sl as [|x t IHs]; intros a; auto. cbn in NL. destruct x; try discriminate; cbn [lives app]; auto.
  - apply seg_app in SG. destruct SG as (c & SG1 & SG2). destruct SG2 as [SL SG2].
    destruct (item_next_eq g gok e pre (tfuel a e) a c s EE AL' ST SG1 NL (FB _ _ SG1) (tfuel_len' g gok _ _ _ _ _ SG1)) as [_ H].
    assert (RB : rup g (length d) <= length (s_buf s)).
    { pose proof (slot_at_le g gok _ _ _ _ SL) as LE. pose proof (seg_le g _ _ _ _ _ SG1). unfold ScanP.ssize in LE. cbn in LE. lia. }
    destruct (H d SL RB) as (buf & BLn & BF & X). rewrite lives_app. rewrite <- (seg_end g _ _ _ _ _ SG1). cbn [lives].
    replace (lives a pre) with (@nil (nat * list N)); [|clear - NL; revert a; induction pre as [|x t IHs]; intros a; auto; cbn in NL; destruct x; try discriminate; cbn [lives app]; auto].
    cbn [app]. replace (c, d) with (c, firstn (h_len (mkhdr (length d) (Some (acrc d)))) (s_buf (set_buf s buf))) by (cbn; now rewrite BF).
    eapply FCons; [exact X|]. eapply (IH (length post)); eauto; [rewrite LN, app_length; cbn; lia|].
    pose proof (seg_le g _ _ _ _ _ SG1). split; [|split; [|split]]; cbn [s_buf set_buf]; try lia.
    apply (seg_al g gok _ _ _ _ _ SG1) in AL'. apply (al_add g gok c (ssize (SLive d))); auto. apply ssize_al; auto.
Qed.

(** Pages made of items, followed by erased flash. *)
Definition page_has (f : flash) (a e : nat) (sl : list slot) : Prop :=
  seg (f_mem f) e a sl (a + sizes g sl) /\ ff_on (f_mem f) (a + sizes g sl) e /\ Forall (solid g) sl.
Lemma has_finds e s a sl : area a e s -> page_has (s_fl s) a e sl -> finds e s a (lives a sl).
Proof. intros A (S & F & _). eapply finds_seg; eauto. apply ff_end; auto. Qed.
Lemma sizes_cons x t : sizes g (x :: t) = ssize x + sizes g t.
Proof. reflexivity. Qed.
Lemma sizes_one x : sizes g [x] = ssize x.
Proof. rewrite sizes_cons. unfold sizes. cbn. lia. Qed.
Lemma lives_map ds : forall a, lives a (map SLive ds) = placed a ds.
Proof. induction ds as [|d t IH]; intros a; auto. cbn [map lives placed app]. f_equal. rewrite IH. f_equal. unfold ScanP.ssize. cbn [shdr h_len]. lia. Qed.
Lemma sizes_map ds : sizes g (map SLive ds) = total ds.
Proof. induction ds as [|d t IH]; auto. cbn [map]. rewrite sizes_cons, IH. reflexivity. Qed.
Lemma solid_map ds : Forall (solid g) (map SLive ds).
Proof. apply Forall_forall. intros x H. apply in_map_iff in H. destruct H as (d & <- & _). exact I. Qed.
Lemma placed_app ds1 : forall a ds2, placed a (ds1 ++ ds2) = placed a ds1 ++ placed (a + total ds1) ds2.
Proof.
  induction ds1 as [|d t IH]; intros a ds2; cbn [placed app]; [unfold total; cbn; now rewrite Nat.add_0_r|]. rewrite IH. change (total (d :: t)) with (HL g + rup g (length d) + total t). rewrite !Nat.add_assoc. reflexivity.
Qed.
Lemma write_new_wp d a s (Q : res unit -> st K -> Prop) : is_data d -> al g a -> START g <= a -> a + ssize (SLive d) <= FEND g ->
  (forall s', s_buf s' = s_buf s -> prog (s_fl s) (s_fl s') a (item_bytes g d) -> Q (Ok tt) s') ->
  (forall s' j, f_fuel (s_fl s) <> None -> s_buf s' = s_buf s -> j < length (item_bytes g d) -> (HL g <= f_aw (s_fl s) -> j = 0 \/ HL g <= j) ->
     prog (s_fl s) (s_fl s') a (firstn j (item_bytes g d)) -> Q (Err cut) s') ->
  let '(r, s') := write_new g a d s in Q r s'.
Proof.
  intros D A ST E H1 H2. rewrite write_new_raw by apply D. pose proof (wp_write_raw g gok d a (fun r s' => Q (Ok r) s') (fun e s' => Q (Err e) s') s D A ST E) as X.
  cbv zeta in X. unfold wp in X. destruct (write_raw g (ihdr d) d a s) as [[[]|e] s'] eqn:WR; apply X; intros; try (apply H1; auto; reflexivity); eapply H2; eauto; reflexivity.
Qed.
Lemma prog_has f f' a e sl d : is_data d -> page_has f a e sl -> a + sizes g sl + ssize (SLive d) <= e -> prog f f' (a + sizes g sl) (item_bytes g d) ->
  page_has f' a e (sl ++ [SLive d]).
Proof.
  intros D (S & F & SO) L P. unfold page_has. rewrite sizes_app, sizes_one. pose proof (item_bytes_length g gok d) as IL. split; [|split].
  - apply seg_app. exists (a + sizes g sl). split.
    + eapply seg_ext_solid; eauto. intros x X. rewrite (pg_mem _ _ _ _ P). apply mem_and_out. lia.
    + cbn [ScanP.seg]. split; [|lia]. apply (slot_written g gok (f_mem f) (f_mem f') e (a + sizes g sl) d D); [intros x X; apply F; lia|intros; apply (pg_mem _ _ _ _ P)|auto].
  - intros x X. rewrite (pg_mem _ _ _ _ P). rewrite mem_and_out by lia. apply F. lia.
  - apply Forall_app. split; auto. constructor; [exact I|constructor].
Qed.
Lemma area_al a e s : area a e s -> al g a. Proof. intros A. apply A. Qed.
Lemma total_cons d t : total (d :: t) = HL g + rup g (length d) + total t.
Proof. reflexivity. Qed.

Lemma al_step a (d : list N) : al g a -> al g (a + HL g + rup g (length d)).
Proof. intros A. apply (al_add g gok); [apply (al_add g gok); auto; apply al_HL; auto|apply al_rup; auto]. Qed.
Lemma write_all_ok e ds : forall s a0 sl b, Forall is_data ds -> al g b -> START g <= b -> e <= FEND g -> f_fuel (s_fl s) = None -> b = a0 + sizes g sl -> page_has (s_fl s) a0 e sl -> b + total ds <= e ->
  exists s', write_all b ds s = (Ok (b + total ds), s') /\ page_has (s_fl s') a0 e (sl ++ map SLive ds) /\ s_buf s' = s_buf s /\ f_fuel (s_fl s') = None /\
    f_aw (s_fl s') = f_aw (s_fl s) /\ (forall x, x < b \/ b + total ds <= x -> f_mem (s_fl s') x = f_mem (s_fl s) x) /\ (is_mem (f_mem (s_fl s)) -> is_mem (f_mem (s_fl s'))).
Proof.
  induction ds as [|d t IH]; intros s a0 sl b D A ST EE FU B P L.
  - exists s. cbn [write_all map]. rewrite app_nil_r. unfold total. cbn. rewrite Nat.add_0_r. repeat split; auto; apply P.
  - inversion D as [|? ? D1 D2]; subst. rewrite total_cons in L |- *. set (b := a0 + sizes g sl) in *.
    pose proof (write_new_wp d b s (fun r s' => r = Ok tt /\ s_buf s' = s_buf s /\ prog (s_fl s) (s_fl s') b (item_bytes g d)) D1 A ST) as X.
    destruct (write_new g b d s) as [r s1] eqn:WN. destruct X as (-> & SB & PR); auto; [unfold ScanP.ssize; cbn; lia|intros; congruence|].
    assert (SS : ssize (SLive d) = HL g + rup g (length d)) by reflexivity.
    destruct (IH s1 a0 (sl ++ [SLive d]) (b + HL g + rup g (length d))) as (s' & E & P' & SB' & FU' & AW' & O & IM); auto.
    + now apply al_step.
    + lia.
    + apply (pg_fuel _ _ _ _ PR FU).
    + rewrite sizes_app, sizes_one. lia.
    + eapply prog_has; eauto. lia.
    + lia.
    + exists s'. rewrite <- app_assoc in P'. split; [|split; [exact P'|split; [congruence|split; [auto|split]]]].
      * cbn [write_all]. unfold bind. rewrite WN, E. do 2 f_equal. lia.
      * rewrite AW'. apply (pg_aw _ _ _ _ PR).
      * split; [|intros; apply IM; eapply prog_mem; eauto]. intros x X. rewrite O by lia. apply (prog_out _ _ _ _ x PR). rewrite item_bytes_length by auto. lia.
Qed.

Lemma has_nil f a e : blank f a e -> page_has f a e [].
Proof. intros B. unfold page_has. replace (a + sizes g []) with a by (unfold sizes; cbn; lia). repeat split; auto. Qed.
(** Writing items. *)
Lemma items_read_back e ds s a : area a e s -> blank (s_fl s) a e -> f_fuel (s_fl s) = None -> Forall is_data ds -> a + total ds <= e ->
  exists s', write_all a ds s = (Ok (a + total ds), s') /\ finds e s' a (placed a ds) /\
    forall x, x < a \/ a + total ds <= x -> f_mem (s_fl s') x = f_mem (s_fl s) x.
Proof.
  intros (A & ST & EE & BL) B FU D L. destruct (write_all_ok e ds s a [] a) as (s' & E & P & SB & _ & _ & O & _); auto; try (unfold sizes; cbn; lia).
  { now apply has_nil. }
  exists s'. split; auto. split; auto. rewrite <- lives_map. apply has_finds; auto. repeat split; auto. now rewrite SB.
Qed.

(** A torn item write. *)
Lemma scan_end e s a sl : area a e s -> page_has (s_fl s) a e sl -> a <= e ->
  traverse g (tfuel a e) (fun _ => true) a e s = (Ok (None, a + sizes g sl, a + sizes g sl), s) /\ blank (s_fl s) (a + sizes g sl) e.
Proof.
  intros (A & ST & EE & BL) (S & F & _) L. split; auto. eapply traverse_eq; eauto; [| |eapply tfuel_len'; eauto].
  - clear. induction sl as [|x t IH]; auto. cbn. rewrite IH. unfold skipped. now destruct (shdr x).
  - unfold stop_at. rewrite ff_end; auto.
Qed.
Lemma item_torn e ds s a s1 d p r s2 : area a e s -> blank (s_fl s) a e -> f_fuel (s_fl s) = None -> Forall is_data ds -> is_data d -> no_collision d -> 8 <= W g \/ HL g <= f_aw (s_fl s) ->
  a + total (ds ++ [d]) <= e -> write_all a ds s = (Ok (a + total ds), s1) -> write_new g (a + total ds) d (with_power p s1) = (r, s2) ->
  (r = Ok tt /\ finds e s2 a (placed a (ds ++ [d])) \/ r = Err cut /\ (finds e s2 a (placed a ds) \/ finds e s2 a (placed a (ds ++ [d])))) /\
  exists b, traverse g (tfuel a e) (fun _ => true) a e s2 = (Ok (None, b, b), s2) /\ blank (s_fl s2) b e.
Proof.
  intros AR B FU D Dd NC WW L WA WN. pose proof AR as (A & ST & EE & BL). assert (T : total (ds ++ [d]) = total ds + (HL g + rup g (length d))).
  { rewrite <- !sizes_map, map_app, sizes_app. cbn [map]. rewrite sizes_one. reflexivity. } rewrite T in L.
  destruct (write_all_ok e ds s a [] a) as (s' & E & P & SB & FU' & AW & O & _); auto; try (unfold sizes; cbn; lia); try lia.
  { now apply has_nil. }
  rewrite E in WA. injection WA as ->. cbn [app] in P. rewrite <- (sizes_map ds) in WN.
  set (s0 := with_power p s1) in WN. assert (P0 : page_has (s_fl s0) a e (map SLive ds)) by exact P. assert (AL1 : al g (a + sizes g (map SLive ds))).
  { destruct P as (SG & _). eapply seg_al; eauto. }
  pose proof (sizes_map ds) as SM. assert (SS : ssize (SLive d) = HL g + rup g (length d)) by reflexivity.
  set (CONC := fun r (s2 : st K) => (r = Ok tt /\ finds e s2 a (placed a (ds ++ [d])) \/ r = Err cut /\ (finds e s2 a (placed a ds) \/ finds e s2 a (placed a (ds ++ [d])))) /\
    exists b, traverse g (tfuel a e) (fun _ => true) a e s2 = (Ok (None, b, b), s2) /\ blank (s_fl s2) b e).
  enough (X : let '(r, s2) := write_new g (a + sizes g (map SLive ds)) d s0 in CONC r s2) by (rewrite WN in X; exact X).
  apply write_new_wp; auto; try lia.
  - intros s3 SB3 PR. assert (P3 : page_has (s_fl s3) a e (map SLive (ds ++ [d]))) by (rewrite map_app; eapply prog_has; eauto; lia).
    assert (AR3 : area a e s3) by (repeat split; auto; rewrite SB3; cbn; now rewrite SB). split.
    + left. split; auto. rewrite <- lives_map. now apply has_finds.
    + eexists. eapply scan_end; eauto. lia.
  - intros s3 j _ SB3 J AWj PR. assert (AR3 : area a e s3) by (repeat split; auto; rewrite SB3; cbn; now rewrite SB).
    destruct P0 as (SG & FF & SO). set (b := a + sizes g (map SLive ds)) in *.
    destruct (slot_torn g gok (f_mem (s_fl s0)) (f_mem (s_fl s3)) e b d j Dd NC) as (tl & SG3 & FF3 & L3 & TL); auto.
    { destruct WW as [WW|WW]; auto. right. apply AWj. cbn. rewrite AW. exact WW. } { lia. } { apply (pg_mem _ _ _ _ PR). }
    assert (P3 : page_has (s_fl s3) a e (map SLive ds ++ tl)).
    { unfold page_has. rewrite sizes_app. rewrite Nat.add_assoc. fold b. split; [|split; auto].
      - apply seg_app. exists b. split; auto. eapply seg_ext_solid; eauto. intros x X. rewrite (pg_mem _ _ _ _ PR). apply mem_and_out. lia.
      - apply Forall_app. split; auto. destruct TL as [->|[[-> W8]|[->| ->]]]; repeat constructor; auto. }
    split.
    + right. split; auto. pose proof (has_finds e s3 a _ AR3 P3) as FI. rewrite lives_app, lives_map in FI. fold b in FI.
      destruct TL as [->|[[-> W8]|[->| ->]]]; cbn [lives app] in FI; rewrite ?app_nil_r in FI; auto. right. rewrite placed_app. cbn [placed]. rewrite <- SM. exact FI.
    + eexists. eapply scan_end; eauto. lia.
Qed.

(** Removing an item. *)

Lemma lives_split sl : forall a L1 ad d L2, lives a sl = L1 ++ (ad, d) :: L2 ->
  exists sl1 sl2, sl = sl1 ++ SLive d :: sl2 /\ lives a sl1 = L1 /\ ad = a + sizes g sl1 /\ L2 = lives (ad + ssize (SLive d)) sl2.
Proof.
  induction sl as [|x t IH]; intros a L1 ad d L2 H; cbn [lives] in H; [destruct L1; discriminate|].
  assert (STEP : forall L0, lives (a + ssize x) t = L0 ++ (ad, d) :: L2 -> (match x with SLive d => [(a, d)] | _ => [] end) ++ L0 = L1 ->
    exists sl1 sl2, x :: t = sl1 ++ SLive d :: sl2 /\ lives a sl1 = L1 /\ ad = a + sizes g sl1 /\ L2 = lives (ad + ssize (SLive d)) sl2).
  { intros L0 E <-. destruct (IH _ _ _ _ _ E) as (sl1 & sl2 & -> & <- & -> & ->). exists (x :: sl1), sl2. repeat split; auto. try rewrite sizes_cons; lia. }
  destruct x as [d0| | |]; try (now apply (STEP L1)). cbn [app] in H. destruct L1 as [|y L1].
  - injection H as -> -> H. exists [], t. cbn [app lives]. replace (ad + sizes g []) with ad by (unfold sizes; cbn; lia). auto.
  - injection H as <- H. now apply (STEP L1).
Qed.
Lemma finds_total e s a l : area a e s -> finds e s a l -> exists sl b, seg (f_mem (s_fl s)) e a sl b /\ hdr_at g (f_mem (s_fl s)) e b = HEnd /\ l = lives a sl.
Proof.
  intros A F. destruct (seg_total g gok (f_mem (s_fl s)) e a) as (sl & b & S & E). exists sl, b. repeat split; auto.
  eapply finds_det; [exact (finds_seg e sl s a b A S E)|reflexivity|reflexivity|exact F].
Qed.
Lemma erase_cut h ad s : al g ad -> START g <= ad -> ad + HL g <= FEND g ->
  let hb := hdr_bytes g (mkhdr (h_len h) None) in
  let post := fun s' j => (forall x, f_mem (s_fl s') x = mem_and (f_mem (s_fl s)) ad (firstn j hb) x) /\ s_buf s' = s_buf s in
  wp (erase_data g h ad) (fun _ s' => post s' (HL g)) (fun e s' => e = EStorage SShutoff /\ f_fuel (s_fl s) <> None /\ exists j, post s' j) s.
Proof.
  intros A ST EE hb post. assert (LH : length hb = HL g) by apply (hdr_bytes_length g gok). pose proof (HL_ge g gok) as HG.
  unfold erase_data. apply wp_bind. unfold wp at 1, c_item_erased. cbv zeta. set (s1 := set_ca s _). unfold hdr_write. fold hb.
  apply (wp_write g gok); rewrite ?LH; auto; try lia.
  - apply al_HL; auto.
  - intros f' P. split; [|reflexivity]. intros x. rewrite <- LH, firstn_all. apply (pg_mem _ _ _ _ P).
  - intros f' j FU J _ P. split; auto. split; auto. exists j. split; [|reflexivity]. apply (pg_mem _ _ _ _ P).
Qed.
Lemma solid_any sl : 8 <= W g -> Forall (solid g) sl.
Proof. intros W8. apply Forall_forall. intros [| | |] _; cbn; auto. Qed.
Lemma erase_seg e s a sl1 d sl2 b : area a e s -> seg (f_mem (s_fl s)) e a (sl1 ++ SLive d :: sl2) b -> hdr_at g (f_mem (s_fl s)) e b = HEnd -> Forall (solid g) sl1 ->
  is_mem (f_mem (s_fl s)) -> let gone := lives a sl1 ++ lives (a + sizes g sl1 + ssize (SLive d)) sl2 in
  wp (erase_data g (mkhdr (length d) (Some (acrc d))) (a + sizes g sl1)) (fun _ s' => finds e s' a gone)
    (fun er s' => er = EStorage SShutoff /\ f_fuel (s_fl s) <> None /\ (finds e s' a gone \/ finds e s' a (lives a (sl1 ++ SLive d :: sl2)))) s.
Proof.
  intros AR SG EN SO IM gone. pose proof AR as (A & ST & EE & BL). apply seg_app in SG. destruct SG as (c & SG1 & SL & SG2).
  pose proof (seg_end g _ _ _ _ _ SG1) as EC. subst gone. rewrite <- EC in *. pose proof (slot_at_le g gok _ _ _ _ SL) as LE.
  assert (SS : ssize (SLive d) = HL g + rup g (length d)) by reflexivity. pose proof (HL_ge g gok) as HG.
  assert (AC : al g c) by (eapply seg_al; eauto). pose proof (seg_le g _ _ _ _ _ SG1).
  assert (STEP : forall s' j, (forall x, f_mem (s_fl s') x = mem_and (f_mem (s_fl s)) c (firstn j (hdr_bytes g (mkhdr (length d) None))) x) /\ s_buf s' = s_buf s ->
    finds e s' a (lives a sl1 ++ lives (c + ssize (SLive d)) sl2) \/ j < 4 /\ finds e s' a (lives a (sl1 ++ SLive d :: sl2))).
  { intros s' j [ME SB]. assert (AR' : area a e s') by (repeat split; auto; now rewrite SB).
    destruct (slot_erased g gok (f_mem (s_fl s)) (f_mem (s_fl s')) e c d j IM SL ME) as (y & SY & ZY & Y & Y4).
    assert (OUT : forall x, x < c \/ c + HL g <= x -> f_mem (s_fl s') x = f_mem (s_fl s) x).
    { intros x X. rewrite ME. apply mem_and_out. rewrite firstn_length, hdr_bytes_length by auto. lia. }
    assert (S1' : seg (f_mem (s_fl s')) e a sl1 c) by (eapply seg_ext_solid; eauto; intros x X; apply OUT; lia).
    assert (S2' : seg (f_mem (s_fl s')) e (c + ssize y) sl2 b) by (rewrite ZY; eapply (seg_ext g gok); eauto; intros x X; apply OUT; lia).
    assert (E' : hdr_at g (f_mem (s_fl s')) e b = HEnd) by (apply (hdr_end_ext g (f_mem (s_fl s))); auto; intros x X; apply OUT; pose proof (seg_le g _ _ _ _ _ SG2); lia).
    assert (F : finds e s' a (lives a (sl1 ++ y :: sl2))) by (eapply finds_seg; eauto; apply seg_app; exists c; split; auto; split; auto).
    rewrite lives_app in F. rewrite <- EC in F. cbn [lives] in F. rewrite ZY in F. destruct Y as [[-> ->]|[->|[cc ->]]].
    - right. split; [lia|]. rewrite lives_app, <- EC. exact F.
    - left. exact F.
    - left. exact F. }
  eapply wp_mono; [apply (erase_cut (mkhdr (length d) (Some (acrc d))) c s AC ltac:(lia) ltac:(lia))| |]; cbn beta zeta; cbn [h_len].
  - intros [] s' P. destruct (STEP _ _ P) as [F|[J F]]; auto. lia.
  - intros er s' (-> & FU & j & P). split; auto. split; auto. destruct (STEP _ _ P) as [F|[J F]]; auto.
Qed.
(** Damage to the data of one item. *)
Lemma seg_pre m m' e sl : forall a c n, seg m e a sl c -> HL g <= n -> same_on m m' a (c + n) -> seg m' e a sl c.
Proof.
  induction sl as [|x t IH]; intros a c n S L SO; auto. destruct S as [S1 S2]. pose proof (seg_le g _ _ _ _ _ S2). pose proof (ssize_pos g gok x). split.
  - eapply (slot_at_ext g gok); eauto. intros y Y. apply SO. lia.
  - eapply IH; eauto. intros y Y. apply SO. lia.
Qed.
Lemma damage_isolated e s s' a L1 ad d L2 : area a e s -> area a e s' -> finds e s a (L1 ++ (ad, d) :: L2) ->
  (forall x, ~ ad + HL g <= x < ad + HL g + length d -> f_mem (s_fl s') x = f_mem (s_fl s) x) ->
  let d' := rd (f_mem (s_fl s')) (ad + HL g) (length d) in
  finds e s' a (L1 ++ (if (acrc d' =? acrc d)%N then [(ad, d')] else []) ++ L2).
Proof.
  intros AR AR' F SAME d'. destruct (finds_total _ _ _ _ AR F) as (sl & b & SG & EN & LV). symmetry in LV. apply lives_split in LV. destruct LV as (sl1 & sl2 & -> & <- & EA & ->).
  apply seg_app in SG. destruct SG as (c & SG1 & [SH SD] & SG2). pose proof (seg_end g _ _ _ _ _ SG1) as EC. rewrite <- EC in EA. subst c ad.
  set (ad := a + sizes g sl1) in *. assert (SS : ssize (SLive d) = HL g + rup g (length d)) by reflexivity. pose proof (rup_ge g gok (length d)). pose proof (seg_le g _ _ _ _ _ SG2).
  assert (LD : length d' = length d) by apply rd_length. pose proof (HL_ge g gok).
  assert (S1' : seg (f_mem (s_fl s')) e a sl1 ad) by (eapply (seg_pre _ _ _ _ _ _ (HL g) SG1); auto; intros x X; apply SAME; lia).
  assert (S2' : seg (f_mem (s_fl s')) e (ad + ssize (SLive d)) sl2 b) by (eapply (seg_ext g gok); eauto; intros x X; apply SAME; lia).
  assert (E' : hdr_at g (f_mem (s_fl s')) e b = HEnd) by (apply (hdr_end_ext g (f_mem (s_fl s))); auto; intros x X; apply SAME; lia).
  assert (SH' : hdr_at g (f_mem (s_fl s')) e ad = HOk (mkhdr (length d) (Some (acrc d)))).
  { cbn [shdr] in SH. rewrite <- SH. apply hdr_at_ext. intros x X. apply SAME. lia. }
  set (y := if (acrc d' =? acrc d)%N then SLive d' else SCorr (length d) (acrc d)).
  assert (SY : slot_at g (f_mem (s_fl s')) e ad y).
  { unfold y. destruct (N.eqb_spec (acrc d') (acrc d)) as [Q|Q]; split; cbn [shdr]; rewrite ?Q, ?LD; auto. }
  assert (ZY : ssize y = ssize (SLive d)) by (unfold y; destruct (acrc d' =? acrc d)%N; unfold ScanP.ssize; cbn [shdr h_len]; rewrite ?LD; auto).
  assert (FF : finds e s' a (lives a (sl1 ++ y :: sl2))).
  { eapply finds_seg; eauto. apply seg_app. exists ad. split; auto. split; auto. now rewrite ZY. }
  rewrite lives_app in FF. fold ad in FF. cbn [lives] in FF. rewrite ZY in FF. unfold y in FF. destruct (acrc d' =? acrc d)%N; exact FF.
Qed.
(** Removing an item that was written. *)
Lemma placed_split ds : forall a L1 ad d L2, placed a ds = L1 ++ (ad, d) :: L2 -> exists ds1 ds2, ds = ds1 ++ d :: ds2 /\ L1 = placed a ds1 /\ ad = a + total ds1.
Proof.
  induction ds as [|x t IH]; intros a [|y L1] ad d L2 H; try discriminate; cbn [placed app] in H.
  - injection H as -> -> H. exists [], t. repeat split; auto; unfold total; cbn; lia.
  - injection H as <- H. destruct (IH _ _ _ _ _ H) as (ds1 & ds2 & -> & -> & ->). exists (x :: ds1), ds2. repeat split; auto. rewrite total_cons. lia.
Qed.
Lemma removal e ds s a s1 L1 ad d L2 p : area a e s -> blank (s_fl s) a e -> f_fuel (s_fl s) = None -> is_mem (f_mem (s_fl s)) -> Forall is_data ds -> a + total ds <= e ->
  write_all a ds s = (Ok (a + total ds), s1) -> placed a ds = L1 ++ (ad, d) :: L2 ->
  wp (erase_data g (mkhdr (length d) (Some (acrc d))) ad) (fun _ s' => finds e s' a (L1 ++ L2))
    (fun er s' => er = EStorage SShutoff /\ p <> None /\ (finds e s' a (L1 ++ L2) \/ finds e s' a (L1 ++ (ad, d) :: L2))) (with_power p s1).
Proof.
  intros (A & ST & EE & BL) B FU IM D L WA PL. destruct (write_all_ok e ds s a [] a) as (s' & E & P & SB & FU' & AW & O & IM'); auto; try (unfold sizes; cbn; lia); try lia.
  { now apply has_nil. }
  rewrite E in WA. injection WA as ->. cbn [app] in P. specialize (IM' IM). destruct P as (SG & FF & SO).
  rewrite <- lives_map in PL. pose proof PL as PL'. apply lives_split in PL. destruct PL as (sl1 & sl2 & EM & <- & -> & ->). rewrite EM in SG, FF, SO, PL'.
  apply Forall_app in SO. destruct SO as [SO1 _].
  eapply wp_mono; [apply (erase_seg e (with_power p s1) a sl1 d sl2 _ ltac:(repeat split; auto; cbn; now rewrite SB) SG (ff_end g _ _ _ FF) SO1 IM')| |]; cbn beta zeta.
  - intros _ s2 F. exact F.
  - intros er s2 (-> & FU2 & F). repeat split; auto. rewrite <- PL'. exact F.
Qed.
Lemma removal_any e s a L1 ad d L2 : 8 <= W g -> area a e s -> is_mem (f_mem (s_fl s)) -> finds e s a (L1 ++ (ad, d) :: L2) ->
  wp (erase_data g (mkhdr (length d) (Some (acrc d))) ad) (fun _ s' => finds e s' a (L1 ++ L2))
    (fun er s' => er = EStorage SShutoff /\ f_fuel (s_fl s) <> None /\ (finds e s' a (L1 ++ L2) \/ finds e s' a (L1 ++ (ad, d) :: L2))) s.
Proof.
  intros W8 AR IM F. destruct (finds_total _ _ _ _ AR F) as (sl & b & SG & EN & LV). pose proof LV as LV'. symmetry in LV. apply lives_split in LV. destruct LV as (sl1 & sl2 & -> & <- & -> & ->).
  rewrite LV'. exact (erase_seg e s a sl1 d sl2 b AR SG EN (solid_any _ W8) IM).
Qed.
Lemma removal_cases e ds s a s1 L1 ad d L2 p r s2 : area a e s -> blank (s_fl s) a e -> f_fuel (s_fl s) = None -> is_mem (f_mem (s_fl s)) -> Forall is_data ds -> a + total ds <= e ->
  write_all a ds s = (Ok (a + total ds), s1) -> placed a ds = L1 ++ (ad, d) :: L2 -> erase_data g (mkhdr (length d) (Some (acrc d))) ad (with_power p s1) = (r, s2) ->
  (r = Ok tt /\ finds e s2 a (L1 ++ L2)) \/ (r = Err cut /\ p <> None /\ (finds e s2 a (L1 ++ L2) \/ finds e s2 a (L1 ++ (ad, d) :: L2))).
Proof.
  intros A B FU IM D L WA PL E. pose proof (removal e ds s a s1 L1 ad d L2 p A B FU IM D L WA PL) as X. unfold wp in X. rewrite E in X. destruct r as [[]|er]; auto.
  destruct X as (-> & X). right. split; [reflexivity|exact X].
Qed.
Lemma removal_any_cases e s a L1 ad d L2 r s2 : 8 <= W g -> area a e s -> is_mem (f_mem (s_fl s)) -> finds e s a (L1 ++ (ad, d) :: L2) ->
  erase_data g (mkhdr (length d) (Some (acrc d))) ad s = (r, s2) ->
  (r = Ok tt /\ finds e s2 a (L1 ++ L2)) \/ (r = Err cut /\ f_fuel (s_fl s) <> None /\ (finds e s2 a (L1 ++ L2) \/ finds e s2 a (L1 ++ (ad, d) :: L2))).
Proof.
  intros W8 A IM F E. pose proof (removal_any e s a L1 ad d L2 W8 A IM F) as X. unfold wp in X. rewrite E in X. destruct r as [[]|er]; auto.
  destruct X as (-> & X). right. split; [reflexivity|exact X].
Qed.
End Items.
