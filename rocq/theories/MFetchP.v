(** Fetching from a map on layouts. *)
From Coq Require Import List NArith ZArith Arith Bool Lia ZifyBool ZifyNat ZifyN.
From Verif Require Import Base BaseP Crc CrcP Flash Cache State Item Generic Map Codec CodecP GeomP ScanP WpP ItemP CalcP PageP WorldP LayP QPushP KeyP MLogP.
Import ListNotations.
Local Opaque crc16 acrc crc32.

(** Map layouts: pages fill up from page zero; later exactly one page is kept open, except during a migration. *)
Definition minv (Y : lay) : Prop :=
  (y_f Y = 0 \/ y_k Y + y_bad Y <= 1) /\ (y_pt Y = None -> 1 <= y_k Y /\ y_bad Y = 0) /\ (y_bad Y = 1 -> y_k Y = 0).

(** Bounds kept for all items in flash: their longest padded length and any other property of them. *)
Record lim := mklim { lim_n :> nat; lim_P : list N -> Prop }.

Section Rules.
Context {K : Type}.
Implicit Types s : st K.
Lemma wp_unmark {B} (f : unit -> M K B) (Q : B -> st K -> Prop) E s :
  wp (f tt) Q E (set_ca s (set_dirty (s_ca s) false)) -> wp (bind c_unmark f) Q E s.
Proof. auto. Qed.
Lemma wp_unmark1 (Q : unit -> st K -> Prop) E s : Q tt (set_ca s (set_dirty (s_ca s) false)) -> wp c_unmark Q E s.
Proof. auto. Qed.
Lemma wp_bind_inv {A B} (c : M K A) (f : A -> M K B) (Q : B -> st K -> Prop) E s :
  wp (bind c f) Q E s -> wp c (fun a s' => wp (f a) Q E s') E s.
Proof. unfold wp, bind. destruct (c s) as [[a|e] s']; auto. Qed.
End Rules.

Section Fetch.
Context (g : geom) (gok : geom_ok g) (ws ae : bool) (aw : nat).
Context {K : Type} (KO : keyops K) (legal : K -> Prop) (KC : key_codec KO legal) (B : lim).
Notation W := (W g).
Notation HL := (HL g).
Notation rup := (rup g).
Notation NP := (NP g).
Notation st := (st K).
Implicit Types (s : st) (pg : nat -> page) (Y : lay).
Notation world := (world g ws ae aw).
Notation crashed := (crashed g ws ae aw).
Notation sworld := (sworld g ws ae aw).
Notation newest := (newest KO).
Notation lastd := (lastd KO).
Notation ents := (ents g).

Definition kcoh (es : list ent) (c : kpcache K) : Prop :=
  match c with
  | KPNone => True
  | KPArray l => l <> [] /\ exists en, kp_is legal l en /\ forall k a, In (k, a) en -> exists d, newest k es = Some (a, d)
  end.
Definition kwf (c : kpcache K) : Prop := match c with KPNone => True | KPArray l => l <> [] end.

(** What the slots of a layout must be like. *)
Definition tearok (d : list N) : Prop := lim_P B d /\ data_ok d /\ (ws = true \/ torn_safe d /\ (8 <= W \/ HL <= aw)).
Definition mok Y : Prop :=
  Forall (Forall (fits_buf g B)) (uslots Y) /\ Forall (good KO legal) (content Y) /\ Forall tearok (content Y).
(** What reading needs of a layout: the states of the pages and the items on them. *)
Definition rlay Y pg : Prop := ringst NP (fun p => st_of (pg p)) (y_f Y) (y_c Y) (y_b Y) (y_k Y) (y_bad Y) /\
  forall i, i < y_c Y + y_b Y -> readable (pg ((y_f Y + i) mod NP)) /\ slots_of (pg ((y_f Y + i) mod NP)) = nth i (uslots Y) [].
Lemma rring Y pg : rlay Y pg -> ring_ex g pg.
Proof. intros [H _]. unfold ring_ex. eauto 10. Qed.
Lemma layok_rlay Y pg : layok NP Y pg -> rlay Y pg.
Proof.
  intros LY. pose proof (npos g gok) as N1. pose proof (lay_ring NP Y pg N1 LY) as R. split; auto. intros i Hi.
  pose proof LY as [(_ & _ & P) _]. rewrite P by (destruct R as (_ & T & _); lia). destruct (nth_uslots Y i Hi) as (A & B0 & _). split; auto using used_readable.
Qed.

Definition r_mw Y pg f0 L s : Prop :=
  rlay Y pg /\ world pg f0 L s /\ kcoh (ents Y) (c_kp (s_ca s)) /\ B <= length (s_buf s).
(** Unchanged besides cache and buffer contents. *)
Definition mfr s s' : Prop := s_qi s' = s_qi s /\ s_mi s' = s_mi s /\ length (s_buf s') = length (s_buf s).
Lemma mfr_refl s : mfr s s. Proof. repeat split. Qed.
Lemma mfr_trans s1 s2 s3 : mfr s1 s2 -> mfr s2 s3 -> mfr s1 s3.
Proof. intros (A & B0 & C) (A' & B' & C'). repeat split; congruence. Qed.
Lemma fr_mfr s s' : fr s s' -> mfr s s'.
Proof. intros (A & B0 & C & D). repeat split; congruence. Qed.
Lemma r_mw_fr Y pg f0 L s s' : r_mw Y pg f0 L s -> world pg f0 L s' -> fr s s' -> r_mw Y pg f0 L s'.
Proof. intros (A & B0 & C & D) Wd (E & _ & _ & F). split; auto. split; auto. rewrite E, F. auto. Qed.
Lemma r_mw_buf Y pg f0 L s b : r_mw Y pg f0 L s -> length b = length (s_buf s) -> r_mw Y pg f0 L (set_buf s b).
Proof. intros (A & B0 & C & D) E. split; auto. split; auto. split; auto. cbn. lia. Qed.
Lemma r_mw_dirty Y pg f0 L s b : r_mw Y pg f0 L s -> r_mw Y pg f0 L (set_ca s (set_dirty (s_ca s) b)).
Proof. intros (A & (B1 & B2 & B3) & C & D). split; auto. split; [split; [exact B1|split; [exact B2|exact B3]]|]. split; auto. Qed.
Lemma mfr_dirty s b : mfr s (set_ca s (set_dirty (s_ca s) b)).
Proof. repeat split. Qed.

(** * Key cache *)
Lemma kcoh_wf es c : kcoh es c -> kwf c.
Proof. destruct c; cbn; tauto. Qed.
Lemma kwf_inval es c : kwf c -> kcoh es (kp_inval c).
Proof.
  destruct c as [|l]; cbn; auto. intros NE. split; [destruct l; cbn; congruence|]. exists []. split; [|intros k a []].
  exists (length l). split; [unfold entries; cbn; clear; induction l; cbn; auto; now f_equal|]. split; constructor.
Qed.
Lemma kcoh_ext es es' c : (forall k, newest k es = newest k es') -> kcoh es c -> kcoh es' c.
Proof. intros H. destruct c; cbn; auto. intros (A & en & B0 & C). split; auto. exists en. split; auto. intros k a I. rewrite <- H. auto. Qed.
Lemma kcoh_mono es es' c : (forall k e, legal k -> newest k es = Some e -> newest k es' = Some e) -> kcoh es c -> kcoh es' c.
Proof. intros H. destruct c; cbn; auto. intros (A & en & B0 & C). split; auto. exists en. split; auto. intros k a I. destruct (C k a I) as (d & E). exists d. apply H; auto.
  destruct B0 as (m & _ & _ & LG). rewrite Forall_forall in LG. exact (LG _ I). Qed.
Lemma kcoh_get es c k a : kcoh es c -> legal k -> kp_get (k_eqb KO) c k = Some a -> exists d, newest k es = Some (a, d).
Proof.
  destruct c as [|l]; [discriminate|]. intros (NE & en & KI & C) L. rewrite (kp_get_is (k_eqb KO) legal) with (es := en); auto; [|apply (kc_eqb KO legal KC)].
  unfold recall. destruct (find _ en) as [[k' a']|] eqn:F; [|discriminate]. intros [= ->]. apply find_some in F. destruct F as [I E].
  cbn in E. destruct KI as (m & _ & _ & LG). rewrite Forall_forall in LG. pose proof (LG _ I) as L'. cbn in L'. apply (kc_eqb KO legal KC) in E; auto. subst k'. now apply C.
Qed.
(** Noting the newest item of a key. *)
Lemma kcoh_notice es es' c k a d : kcoh es c -> legal k -> a <> 0 -> newest k es' = Some (a, d) ->
  (forall k', k' <> k -> legal k' -> forall e, newest k' es = Some e -> newest k' es' = Some e) ->
  exists c', kp_notice (k_eqb KO) c k a = Some c' /\ kcoh es' c'.
Proof.
  destruct c as [|l]; [eexists; split; [reflexivity|exact I]|]. intros (NE & en & KI & C) L A N O.
  destruct (kp_notice_is (k_eqb KO) legal (kc_eqb KO legal KC) l en k a KI L A NE) as (l' & E & LL & KI').
  exists (KPArray l'). split; auto. cbn. split; [intros ->; destruct l; cbn in LL; congruence|].
  exists (firstn (length l) ((k, a) :: forget (k_eqb KO) k en)). split; auto.
  intros k' a' I. assert (I' : In (k', a') ((k, a) :: forget (k_eqb KO) k en)).
  { rewrite <- (firstn_skipn (length l)). apply in_or_app. auto. }
  destruct I' as [[= <- <-]|I']; [eauto|]. apply filter_In in I'. destruct I' as [I' NQ]. cbn in NQ.
  destruct (C k' a' I') as (d' & E'). exists d'. destruct KI as (m & _ & _ & LG). rewrite Forall_forall in LG. pose proof (LG _ I') as L'. cbn in L'.
  apply O; auto. intros ->. assert (k_eqb KO k k = true) by (apply (kc_eqb KO legal KC); auto). rewrite H in NQ. discriminate.
Qed.

Lemma wp_note (k : K) (a : nat) (b : bool) (Q : unit -> st -> Prop) (E : err -> st -> Prop) s kp :
  kp_notice (k_eqb KO) (c_kp (s_ca s)) k a = Some kp ->
  Q tt (set_ca s (mkcache (if b then true else c_dirty (s_ca s)) (c_ps (s_ca s)) (c_pp (s_ca s)) kp)) ->
  wp (c_notice_key (k_eqb KO) k a b) Q E s.
Proof. intros H. unfold wp, c_notice_key. rewrite H. auto. Qed.
Lemma world_kp pg f0 L s (b : bool) (kp : kpcache K) : world pg f0 L s -> world pg f0 L (set_ca s (mkcache b (c_ps (s_ca s)) (c_pp (s_ca s)) kp)).
Proof. intros (A & B0 & C). split; [exact A|split; [exact B0|exact C]]. Qed.

(** * One page *)
Lemma first_live rest : forallb (fun x => negb (is_live x)) rest = true \/
  exists l d r, rest = l ++ SLive d :: r /\ forallb (fun x => negb (is_live x)) l = true.
Proof.
  induction rest as [|x rest IH]; [auto|]. destruct (is_live x) eqn:E.
  - right. destruct x; try discriminate. exists [], d, rest. auto.
  - destruct IH as [IH|(l & d & r & -> & IH)]; [left; cbn; now rewrite E|right]. exists (x :: l), d, r. cbn. rewrite E. auto.
Qed.
Lemma nolive_ents a l : forallb (fun x => negb (is_live x)) l = true -> ents_sl g a l = [].
Proof. revert a. induction l as [|x l IH]; intros a; cbn [forallb ents_sl]; auto. intros H. apply andb_true_iff in H. destruct H. rewrite IH by auto. destruct x; auto; discriminate. Qed.
Lemma nolive_live l : forallb (fun x => negb (is_live x)) l = true -> live_of l = [].
Proof. unfold live_of. induction l as [|x l IH]; cbn [forallb flat_map]; auto. intros H. apply andb_true_iff in H. destruct H. rewrite IH by auto. destruct x; auto; discriminate. Qed.

(** The next item from a place on a page. *)
Lemma r_item_next_body p s sl pre rest fuel :
  jbody g (f_mem (s_fl s)) p sl -> p < NP -> sl = pre ++ rest -> Forall (fits_buf g (length (s_buf s))) rest -> length rest < fuel ->
  exists buf, length buf = length (s_buf s) /\
  ((forallb (fun x => negb (is_live x)) rest = true /\
    item_next g fuel (dstart g p + sizes g pre) (dend g p) s = (Ok (None, dstart g p + sizes g sl), set_buf s buf)) \/
   exists l d r, rest = l ++ SLive d :: r /\ forallb (fun x => negb (is_live x)) l = true /\
    firstn (length d) buf = d /\ length d <= length buf /\
    item_next g fuel (dstart g p + sizes g pre) (dend g p) s =
      (Ok (Some (ihdr d, dstart g p + sizes g (pre ++ l)), dstart g p + sizes g (pre ++ l ++ [SLive d])), set_buf s buf)).
Proof.
  intros BD Hp SP FB FU. destruct (jbody_seg g gok _ _ _ BD) as (SG & SC & HE).
  assert (AP : al g (dstart g p + sizes g pre)) by (pose proof (sizes_al g gok pre); auto with al).
  assert (SL : START g <= dstart g p + sizes g pre) by (pose proof (START_paddr g p); unfold dstart; lia).
  assert (DE : dend g p <= FEND g) by (pose proof (dend_lt g gok p); pose proof (pend_FEND g p Hp); lia).
  rewrite SP in SG. apply (seg_app g) in SG. destruct SG as (x & S1 & S2). pose proof (seg_end g _ _ _ _ _ S1) as E1. subst x.
  destruct (first_live rest) as [NL|(l & d & r & RE & NL)].
  - destruct (item_next_eq g gok (dend g p) rest fuel _ _ s DE AP SL S2 NL FB FU) as [H _]. rewrite <- SP in H.
    destruct (H HE) as (buf & LB & EQ). exists buf. split; auto.
  - rewrite RE in S2, FB, FU. apply (seg_app g) in S2. destruct S2 as (x & S2 & S3). pose proof (seg_end g _ _ _ _ _ S2) as E2. subst x. cbn [seg] in S3. destruct S3 as [SD _].
    apply Forall_app in FB. destruct FB as [F1 F2]. inversion F2 as [|x y F3 F4]; subst x y. rewrite app_length in FU. cbn [length] in FU.
    destruct (item_next_eq g gok (dend g p) l fuel _ _ s DE AP SL S2 NL F1 ltac:(lia)) as [_ H].
    destruct (H d SD F3) as (buf & LB & FN & EQ). exists buf. split; auto. right. exists l, d, r. split; auto. split; auto. split; auto.
    cbn [fits_buf] in F3. pose proof (rup_ge g gok (length d)). split; [lia|]. rewrite EQ. unfold ihdr. rewrite !sizes_app, sizes_cons, !Nat.add_assoc. change (sizes g []) with 0. rewrite Nat.add_0_r. reflexivity.
Qed.

Lemma buf_split (d buf : list N) : firstn (length d) buf = d -> buf = d ++ skipn (length d) buf.
Proof. intros H. rewrite <- H at 1. symmetry. apply firstn_skipn. Qed.

Lemma r_scan_page_eq k p sl : p < NP -> Forall (good KO legal) (live_of sl) -> forall n s pre rest found fuel, length rest <= n ->
  jbody g (f_mem (s_fl s)) p sl -> sl = pre ++ rest -> Forall (fits_buf g (length (s_buf s))) sl -> length rest < fuel ->
  exists buf, length buf = length (s_buf s) /\
  scan_page KO g fuel k (dstart g p + sizes g pre) (dend g p) found s =
  (Ok (match newest k (ents_sl g (dstart g p + sizes g pre) rest) with Some (a, d) => Some (a, dklen KO d) | None => found end), set_buf s buf).
Proof.
  intros Hp GD. induction n as [|n IH]; intros s pre rest found fuel LN BD SP FB FU.
  - destruct rest; [|cbn in LN; lia]. destruct fuel as [|fuel]; [lia|]. cbn [scan_page].
    destruct (r_item_next_body p s sl pre [] (tfuel (dstart g p + sizes g pre) (dend g p)) BD Hp SP (Forall_nil _)) as (buf & LB & [(N1 & EQ)|(l & d & r & RE & _)]).
    + unfold tfuel. cbn. lia.
    + exists buf. split; auto. unfold bind at 1. rewrite EQ. reflexivity.
    + destruct l; discriminate.
  - destruct fuel as [|fuel]; [lia|]. cbn [scan_page].
    assert (FR : Forall (fits_buf g (length (s_buf s))) rest) by (rewrite SP in FB; apply Forall_app in FB; tauto).
    assert (TF : length rest < tfuel (dstart g p + sizes g pre) (dend g p)).
    { destruct (jbody_seg g gok _ _ _ BD) as (SG & SC & HE). rewrite SP in SG. apply (seg_app g) in SG. destruct SG as (x & S1 & S2).
      pose proof (seg_end g _ _ _ _ _ S1) as E1. subst x. exact (tfuel_len' g gok _ _ _ _ _ S2). }
    destruct (r_item_next_body p s sl pre rest _ BD Hp SP FR TF) as (buf & LB & [(N1 & EQ)|(l & d & r & RE & NL & FN & LD & EQ)]).
    + exists buf. split; auto. unfold bind at 1. rewrite EQ. rewrite nolive_ents by auto. reflexivity.
    + unfold bind at 1. rewrite EQ. unfold bind at 1, get_buf. cbn [s_buf set_buf]. 
      assert (Gd : good KO legal d).
      { rewrite SP, RE in GD. rewrite !live_app in GD. apply Forall_app in GD. destruct GD as [_ GD]. apply Forall_app in GD. destruct GD as [_ GD]. cbn in GD. now inversion GD. }
      destruct (good_de KO legal KC d Gd) as (kd & Lk & Ek & LK & PF). destruct (PF (skipn (length d) buf)) as [P1 _].
      rewrite <- (buf_split d buf FN) in P1. unfold bind at 1, ser_lift. rewrite P1. cbv beta iota. cbn [ret fst snd].
      assert (SP' : sl = (pre ++ l ++ [SLive d]) ++ r) by (rewrite SP, RE, <- !app_assoc; reflexivity).
      destruct (IH (set_buf s buf) (pre ++ l ++ [SLive d]) r (if k_eqb KO kd k then Some (dstart g p + sizes g (pre ++ l), dklen KO d) else found) fuel) as (buf2 & LB2 & EQ2); auto.
      * rewrite RE, app_length in LN. cbn in LN. lia.
      * cbn [s_buf set_buf]. rewrite LB. auto.
      * rewrite RE, app_length in FU. cbn in FU. lia.
      * exists buf2. split; [cbn in LB2; lia|]. rewrite set_buf_eq in EQ2. unfold ret. rewrite EQ2. f_equal. f_equal.
        rewrite RE, ents_sl_app, newest_app, (nolive_ents _ l NL). cbn [MLogP.newest ents_sl app]. 
        rewrite !sizes_app, sizes_cons. change (sizes g []) with 0. rewrite !Nat.add_assoc, Nat.add_0_r.
        destruct (newest k (ents_sl g (dstart g p + sizes g pre + sizes g l + ssize g (SLive d)) r)) as [[a' d']|]; auto.
        cbn [snd]. unfold hask. rewrite Ek. destruct (k_eqb KO kd k); auto.
Qed.

(** * Searches *)
Section Srch.
Context (Y : lay) (pg : nat -> page) (LY : rlay Y pg) (MI : minv Y).
Notation f := (y_f Y).
Notation c := (y_c Y).
Notation b := (y_b Y).
Notation k := (y_k Y).
Notation bad := (y_bad Y).
Let npos : 1 <= NP. Proof. exact (npos g gok). Qed.
Let RG := proj1 LY.
Let flt : f < NP. Proof. apply RG. Qed.
Let total : c + b + k + bad = NP. Proof. apply RG. Qed.
Lemma y_b_pt : match y_pt Y with Some _ => b = 1 | None => b = 0 end.
Proof. unfold y_b. destruct (y_pt Y); auto. Qed.
Lemma r_at_ring i : i < NP -> st_of (pg ((f + i) mod NP)) = cls c b k i.
Proof.
  intros Hi. destruct RG as (_ & _ & _ & _ & H). rewrite H by (apply Nat.mod_upper_bound; lia). now rewrite pos_mod.
Qed.
Lemma r_bad_ring q : q < NP -> st_of (pg q) = None -> bad = 1.
Proof.
  intros Hq E. destruct RG as (_ & T & _ & BL & H). rewrite H in E by auto. pose proof (pos_lt NP npos f q flt Hq).
  unfold cls in E. destruct (Nat.ltb_spec (pos NP f q) c); [discriminate|]. destruct (Nat.ltb_spec (pos NP f q) (c + b)); [discriminate|].
  destruct (Nat.ltb_spec (pos NP f q) (c + b + k)); [discriminate|]. lia.
Qed.
Lemma gp_in p l1 l2 a : get_pages g a = l1 ++ p :: l2 -> p < NP.
Proof. intros E. pose proof (get_pages_lt g gok a) as G. rewrite Forall_forall in G. apply G. rewrite E. apply in_or_app. right. now left. Qed.

Lemma r_ffP : match y_pt Y with
            | Some _ => ff pg PartialOpen (get_pages g 0) = Some (Some ((f + c) mod NP)) \/
                        (ff pg PartialOpen (get_pages g 0) = None /\ bad = 1)
            | None => ff pg PartialOpen (get_pages g 0) = Some None
            end.
Proof.
  pose proof y_b_pt as PB. pose proof (ff_cases pg PartialOpen (get_pages g 0)) as F1. destruct MI as (_ & M2 & _).
  destruct (ff pg PartialOpen (get_pages g 0)) as [[p|]|].
  - destruct F1 as (l1 & l2 & E & S & _). pose proof (gp_in _ _ _ _ E) as Hp.
    apply (ring_part NP npos _ _ _ _ _ _ RG p Hp) in S. destruct S as [S1 S]. destruct (y_pt Y); [|lia]. left. do 2 f_equal.
    rewrite <- S. symmetry. apply mod_pos; auto.
  - destruct (y_pt Y); auto. exfalso. destruct (F1 ((f + c) mod NP)) as [_ X].
    + apply in_get_pages; auto. apply Nat.mod_upper_bound. lia.
    + apply X. rewrite r_at_ring by lia. unfold cls. destruct (Nat.ltb_spec c c); [lia|]. destruct (Nat.ltb_spec c (c + b)); [auto|lia].
  - destruct F1 as (q & Hq & S3). assert (q < NP) by (pose proof (get_pages_lt g gok 0) as G; rewrite Forall_forall in G; auto).
    apply r_bad_ring in S3; auto. destruct (y_pt Y); auto. destruct (M2 eq_refl). lia.
Qed.
Lemma r_ffO : y_pt Y = None -> ff pg Open (get_pages g 0) = Some (Some ((f + c) mod NP)).
Proof.
  intros PT. pose proof y_b_pt as PB. rewrite PT in PB. destruct MI as (M1 & M2 & _). destruct (M2 PT) as [K1 B0].
  assert (OC : st_of (pg ((f + c) mod NP)) = Some Open).
  { rewrite r_at_ring by lia. unfold cls. destruct (Nat.ltb_spec c c); [lia|]. destruct (Nat.ltb_spec c (c + b)); [lia|]. destruct (Nat.ltb_spec c (c + b + k)); [auto|lia]. }
  pose proof (ff_cases pg Open (get_pages g 0)) as F1. destruct (ff pg Open (get_pages g 0)) as [[p|]|].
  - destruct F1 as (l1 & l2 & E & S & H). pose proof (gp_in _ _ _ _ E) as Hp. do 2 f_equal.
    apply (ring_open NP npos _ _ _ _ _ _ RG p Hp) in S. destruct M1 as [F0|M1].
    + destruct (get_pages_split g 0 l1 p l2 ltac:(lia) E) as (i & Hi & E2 & H2). rewrite Nat.mod_small in E2 by lia. cbn in E2. subst i.
      rewrite F0 in *. unfold pos in S. rewrite Nat.sub_0_r in S. cbn [Nat.leb] in S. rewrite Nat.mod_small by lia. cbn [plus].
      destruct (Nat.eq_dec p c); auto. exfalso. specialize (H2 c ltac:(lia)). cbn [plus] in H2. apply H in H2. destruct H2 as [_ X]. apply X. exact OC.
    + assert (P : pos NP f p = c) by lia. rewrite <- P. symmetry. apply mod_pos; auto.
  - exfalso. destruct (F1 ((f + c) mod NP)) as [_ X]; auto. apply in_get_pages; auto. apply Nat.mod_upper_bound. lia.
  - exfalso. destruct F1 as (q & Hq & S3). assert (q < NP) by (pose proof (get_pages_lt g gok 0) as G; rewrite Forall_forall in G; auto).
    apply r_bad_ring in S3; auto. lia.
Qed.
Lemma r_prev_mod i : i < NP -> prev_page g ((f + S i) mod NP) = (f + i) mod NP.
Proof.
  intros Hi. assert (E : forall x, x < NP + NP -> x mod NP = if x <? NP then x else x - NP).
  { intros x Hx. destruct (Nat.ltb_spec x NP); [apply Nat.mod_small; auto|]. replace x with ((x - NP) + 1 * NP) at 1 by lia. rewrite Nat.mod_add by lia. apply Nat.mod_small. lia. }
  rewrite !E by lia. unfold prev_page. destruct (Nat.ltb_spec (f + S i) NP); destruct (Nat.ltb_spec (f + i) NP); try lia.
  - replace (f + S i) with (S (f + i)) by lia. auto.
  - replace (f + S i - NP) with 0 by lia. lia.
  - replace (f + S i - NP) with (S (f + i - NP)) by lia. auto.
Qed.
Lemma r_prev_first : prev_page g ((f + 0) mod NP) = (f + (NP - 1)) mod NP.
Proof.
  rewrite Nat.add_0_r, Nat.mod_small by auto. unfold prev_page. pose proof flt as FL. revert FL. generalize f. clear -npos. intros f FL. destruct f as [|f'].
  - cbn [plus]. rewrite Nat.mod_small; lia.
  - replace (S f' + (NP - 1)) with (f' + 1 * NP) by lia. rewrite Nat.mod_add by lia. rewrite Nat.mod_small; lia.
Qed.
Lemma r_loc_page i : i < c + b -> readable (pg ((f + i) mod NP)) /\ slots_of (pg ((f + i) mod NP)) = nth i (uslots Y) [].
Proof.
  intros Hi. apply (proj2 LY); auto.
Qed.
End Srch.

(** * Reading an item at a known place *)
Lemma r_read_at pg f0 L s p l d r : world pg f0 L s -> p < NP -> readable (pg p) -> slots_of (pg p) = l ++ SLive d :: r ->
  rup (length d) <= length (s_buf s) -> let a := dstart g p + sizes g l in
  a <> 0 /\ pindex g a = p /\
  forall e, e = Some (dend g p) \/ e = None ->
  read_new g a e s = (Ok (Some (ihdr d)), s) /\
  exists buf, length buf = length (s_buf s) /\ firstn (length d) buf = d /\ length d <= length buf /\ read_item g (ihdr d) a e s = (Ok (MPresent (ihdr d)), set_buf s buf).
Proof.
  intros (_ & FW & _) Hp US SL FB a. pose proof (readable_body g ws ae aw pg _ p FW Hp US) as BD. rewrite SL in BD.
  destruct (jslot_in_page g gok _ _ _ _ _ BD) as [SA LE]. fold a in SA, LE. cbn [ssize shdr h_len] in LE. change (ssize g (SLive d)) with (HL + rup (length d)) in LE.
  assert (AA : al g a) by (unfold a; pose proof (sizes_al g gok l); auto with al).
  assert (SS : START g <= a) by (pose proof (START_paddr g p); unfold a, dstart; lia).
  assert (DE : dend g p <= FEND g) by (pose proof (dend_lt g gok p); pose proof (pend_FEND g p Hp); lia).
  pose proof (HL_ge g gok) as HG. pose proof (W_pos g gok) as WP.
  split; [unfold a, dstart; lia|]. split; [apply (pindex_data g gok); unfold a; unfold a in LE; lia|].
  intros e He. destruct SA as [HA RD]. cbn [shdr] in HA.
  set (m := f_mem (s_fl s)) in *.
  assert (RI : read_data g 1 (ihdr d) (acrc d) (a + HL) (rup (length d)) s =
    (Ok (MPresent (ihdr d)), set_buf s (put_front (rd m (a + HL) (rup (length d))) (s_buf s)))).
  { pose proof (read_data_eq g gok 1 (ihdr d) (acrc d) (a + HL) s) as R. cbn zeta in R. cbn [ihdr h_len] in R. rewrite R; auto with al; try lia.
    fold m. rewrite RD, N.eqb_refl. reflexivity. }
  destruct (buf_live g gok m a d (s_buf s) RD FB) as [BL1 BL2]. pose proof (rup_ge g gok (length d)).
  split.
  - destruct He as [-> | ->].
    + rewrite (read_new_eq g gok) by auto. fold m. rewrite HA. reflexivity.
    + unfold read_new. cbn [beyond]. unfold bind at 1. rewrite (read_hdr_eq g gok) by (auto; lia). cbn zeta. fold m.
      unfold hdr_at in HA. destruct (dend g p <? a + HL); [discriminate|]. destruct (all_ff (rd m a HL)); [discriminate|].
      destruct (lcrc_ok (rd m a HL)); cbn [negb] in HA; [|discriminate]. destruct (dend g p <? next_addr g a (hdr_of (rd m a HL))); [discriminate|].
      assert (HA' : hdr_of (rd m a HL) = ihdr d) by (unfold ihdr; congruence). rewrite HA'. reflexivity.
  - eexists. split; [exact BL2|]. split; [exact BL1|]. split; [lia|]. unfold read_item. cbn [ihdr h_crc h_len].
    replace (beyond e (a + HL + rup (length d))) with false.
    2:{ destruct He as [-> | ->]; cbn [beyond]; auto. symmetry. apply Nat.ltb_ge. lia. }
    unfold bind, get_buf. destruct (Nat.ltb_spec (length (s_buf s)) (rup (length d))); [lia|]. exact RI.
Qed.
(** The newest item of a key, found at its address. *)
Lemma r_read_newest Y pg f0 L s k a d : r_mw Y pg f0 L s -> mok Y -> newest k (ents Y) = Some (a, d) ->
  a <> 0 /\ good KO legal d /\ hask KO k d = true /\
  forall e, e = Some (dend g (pindex g a)) \/ e = None ->
  read_new g a e s = (Ok (Some (ihdr d)), s) /\
  exists buf, length buf = length (s_buf s) /\ firstn (length d) buf = d /\ length d <= length buf /\ read_item g (ihdr d) a e s = (Ok (MPresent (ihdr d)), set_buf s buf).
Proof.
  intros (LY & Wd & KH & LB) (M1 & M2 & M3) N. destruct (newest_in _ _ _ _ N) as [I H]. cbn [snd] in H.
  assert (Gd : good KO legal d). { rewrite Forall_forall in M2. apply M2. rewrite <- (ents_data g). apply in_map_iff. exists (a, d). auto. }
  destruct (ents_pg_in g _ _ _ I) as (i & l & r & Hi & NI & EA). cbn [fst snd] in *. rewrite uslots_len in Hi.
  destruct (r_loc_page Y pg LY i Hi) as [US SL]. rewrite NI in SL.
  assert (Hp : (y_f Y + i) mod NP < NP) by (apply Nat.mod_upper_bound; pose proof (npos g gok); lia).
  assert (FB : rup (length d) <= length (s_buf s)).
  { rewrite Forall_forall in M1. assert (IN : In (nth i (uslots Y) []) (uslots Y)) by (apply nth_In; rewrite uslots_len; auto).
    specialize (M1 _ IN). rewrite NI in M1. apply Forall_app in M1. destruct M1 as [_ M1]. inversion M1; subst. cbn [fits_buf] in *. lia. }
  destruct (r_read_at pg f0 L s _ l d r Wd Hp US SL FB) as (A & PI & R). rewrite <- EA in *. rewrite PI. auto.
Qed.

(** * Start of a call *)
Definition r_smw Y pg s : Prop :=
  rlay Y pg /\ sworld pg s /\ kwf (c_kp (s_ca s)) /\ (c_dirty (s_ca s) = true \/ kcoh (ents Y) (c_kp (s_ca s))) /\ B <= length (s_buf s).
Lemma r_mw_inval Y pg f0 L s : r_mw Y pg f0 L s -> r_mw Y pg f0 L (set_ca s (cache_inval (s_ca s))).
Proof.
  intros (A & (B1 & B2 & B3) & C & D). split; auto. split; [split; [exact B1|split; [exact B2|]]|split; [|exact D]].
  - apply coh_inval. now apply coh_wf in B3.
  - cbn. apply kwf_inval. now apply kcoh_wf in C.
Qed.
Lemma r_wp_check_mw Y pg f0 L (Q : unit -> st -> Prop) (E : err -> st -> Prop) s : r_mw Y pg f0 L s ->
  (forall s', r_mw Y pg f0 L s' -> mfr s s' -> s_fl s' = s_fl s -> s_buf s' = s_buf s -> Q tt s') -> wp c_check_dirty Q E s.
Proof.
  intros M H. unfold wp, c_check_dirty, bind, c_is_dirty. destruct (c_dirty (s_ca s)).
  - cbn. apply H; auto; [now apply r_mw_inval|repeat split].
  - cbn. apply H; auto. apply mfr_refl.
Qed.
Lemma r_wp_check_smw Y pg (Q : unit -> st -> Prop) (E : err -> st -> Prop) s : r_smw Y pg s ->
  (forall s', r_mw Y pg (s_fl s) [] s' -> mfr s s' -> s_fl s' = s_fl s -> s_buf s' = s_buf s -> Q tt s') -> wp c_check_dirty Q E s.
Proof.
  intros (LY & (FW & WF & DC) & KW & DK & LB) H. unfold wp, c_check_dirty, bind, c_is_dirty. destruct (c_dirty (s_ca s)) eqn:DT.
  - cbn. apply H; auto; [|repeat split]. split; auto. split; [split; [reflexivity|split; [exact FW|now apply coh_inval]]|].
    split; [cbn; now apply kwf_inval|exact LB].
  - cbn. apply H; auto; [|apply mfr_refl]. destruct DC as [DC|DC]; [discriminate|]. destruct DK as [DK|DK]; [discriminate|].
    split; auto. split; [|auto]. split; [reflexivity|auto].
Qed.

(** * Fetching *)
Definition fres k Y (r : option (hdr * nat * option nat)) s : Prop :=
  match newest k (ents Y) with
  | None => r = None
  | Some (a, d) => exists okl, r = Some (ihdr d, a, okl) /\ (okl = None \/ okl = Some (dklen KO d)) /\
      firstn (length d) (s_buf s) = d /\ length d <= length (s_buf s)
  end.

Lemma r_wp_fetch_cached Y pg f0 L k s (Q : option (hdr * nat) -> st -> Prop) (E : err -> st -> Prop) :
  r_mw Y pg f0 L s -> mok Y -> legal k ->
  (forall s' r, r_mw Y pg f0 L s' -> mfr s s' -> s_fl s' = s_fl s ->
     (r = None \/ exists a d, newest k (ents Y) = Some (a, d) /\ r = Some (ihdr d, a) /\ firstn (length d) (s_buf s') = d /\ length d <= length (s_buf s')) -> Q r s') ->
  wp (fetch_cached KO g k) Q E s.
Proof.
  intros M OK LK H. unfold fetch_cached. unfold c_key_loc. apply wp_bind. unfold wp at 1. cbv beta iota.
  destruct (kp_get (k_eqb KO) (c_kp (s_ca s)) k) as [a|] eqn:EK.
  2:{ apply wp_ret. apply H; auto. apply mfr_refl. }
  destruct (kcoh_get _ _ _ _ (proj1 (proj2 (proj2 M))) LK EK) as (d & N).
  destruct (r_read_newest Y pg f0 L s k a d M OK N) as (A & Gd & HK & R). destruct (R _ (or_introl eq_refl)) as (R1 & buf & LB & FN & LD & R2).
  eapply wp_ok; [exact R1|]. cbv beta iota. eapply wp_ok; [exact R2|]. cbv beta iota. apply wp_ret.
  apply H; [now apply r_mw_buf|repeat split; auto|auto|]. right. exists a, d. auto.
Qed.

Lemma skipn_cons {A} (dflt : A) l j : j < length l -> skipn j l = nth j l dflt :: skipn (S j) l.
Proof. revert j. induction l as [|x l IH]; intros j H; [cbn in H; lia|]. destruct j; cbn; auto. apply IH. cbn in H. lia. Qed.
Lemma firstn_S_nth {A} (dflt : A) l j : j < length l -> firstn (S j) l = firstn j l ++ [nth j l dflt].
Proof. revert j. induction l as [|x l IH]; intros j H; [cbn in H; lia|]. destruct j; cbn; auto. f_equal. apply IH. cbn in H. lia. Qed.

Lemma ents_at Y i : i < y_c Y + y_b Y ->
  ents Y = ents_pg g (y_f Y) (firstn i (uslots Y)) ++ ents_sl g (dstart g ((y_f Y + i) mod NP)) (nth i (uslots Y) []) ++ ents_pg g (y_f Y + S i) (skipn (S i) (uslots Y)).
Proof.
  intros H. rewrite <- uslots_len in H. unfold MLogP.ents. rewrite <- (firstn_skipn i (uslots Y)) at 1. rewrite ents_pg_app, (skipn_cons [] _ i) by auto.
  cbn [ents_pg]. rewrite firstn_length_le by lia. do 3 f_equal. lia.
Qed.

Lemma r_page_st_at Y pg i : rlay Y pg -> i < NP -> st_of (pg ((y_f Y + i) mod NP)) = cls (y_c Y) (y_b Y) (y_k Y) i.
Proof. intros LY. apply (r_at_ring Y pg LY). Qed.
Lemma r_lay_total Y pg : rlay Y pg -> y_f Y < NP /\ y_c Y + y_b Y + y_k Y + y_bad Y = NP /\ y_b Y <= 1 /\ y_bad Y <= 1.
Proof. intros LY. destruct (proj1 LY) as (A & B0 & C & D & _). auto. Qed.

Lemma r_wp_fetch_pages Y pg f0 L k : forall i fuel s (Q : option (nat * nat) -> st -> Prop) (E : err -> st -> Prop),
  r_mw Y pg f0 L s -> mok Y -> minv Y -> legal k -> i < y_c Y + y_b Y -> i < fuel ->
  newest k (ents_pg g (y_f Y + S i) (skipn (S i) (uslots Y))) = None ->
  (forall s' r, r_mw Y pg f0 L s' -> mfr s s' -> s_fl s' = s_fl s ->
     r = match newest k (ents Y) with Some (a, d) => Some (a, dklen KO d) | None => None end -> Q r s') ->
  (forall s', y_bad Y = 1 -> newest k (ents Y) = None -> r_mw Y pg f0 L s' -> mfr s s' -> s_fl s' = s_fl s -> E ECorrupted s') ->
  wp (fetch_pages KO g fuel k ((y_f Y + i) mod NP)) Q E s.
Proof.
  induction i as [|i IH]; intros fuel s Q E M OK MI LK Hi FU NL HQ HE; (destruct fuel as [|fuel]; [lia|]); cbn [fetch_pages];
    pose proof M as (LY & Wd & KH & LB); pose proof OK as (O1 & O2 & O3);
    pose proof (r_lay_total Y pg LY) as (TF & TT & TB & TBAD); pose proof (npos g gok) as N1.
  - set (p := (y_f Y + 0) mod NP) in *. assert (Hp : p < NP) by (apply Nat.mod_upper_bound; lia).
    destruct (r_loc_page Y pg LY 0 Hi) as [US SL]. fold p in US, SL. pose proof Wd as (_ & FW & _).
    pose proof (readable_body g ws ae aw pg _ p FW Hp US) as BD. rewrite SL in BD.
    assert (IN : In (nth 0 (uslots Y) []) (uslots Y)) by (apply nth_In; rewrite uslots_len; auto).
    pose proof (ents_at Y 0 Hi) as EA. fold p in EA.
    destruct (r_scan_page_eq k p (nth 0 (uslots Y) []) Hp) with (n := length (nth 0 (uslots Y) [])) (s := s) (pre := @nil slot) (rest := nth 0 (uslots Y) []) (found := @None (nat * nat)) (fuel := tfuel (dstart g p) (dend g p)) as (buf & LBf & EQ); auto.
    { rewrite Forall_forall in *. intros x Hx. apply O2. unfold content. apply in_flat_map. eauto. }
    { rewrite Forall_forall in O1. specialize (O1 _ IN). eapply Forall_impl; [|exact O1]. intros x Hx. destruct x; cbn [fits_buf] in *; auto; lia. }
    { destruct (jbody_seg g gok _ _ _ BD) as (SG & SC & HD). exact (tfuel_len' g gok _ _ _ _ _ SG). }
    change (sizes g []) with 0 in EQ. rewrite Nat.add_0_r in EQ. eapply wp_ok; [exact EQ|].
    assert (NE : newest k (ents Y) = newest k (ents_sl g (dstart g p) (nth 0 (uslots Y) []))).
    { rewrite EA. cbn [firstn ents_pg app]. now rewrite newest_app, NL. }
    rewrite <- NE. destruct (newest k (ents Y)) as [[a d]|] eqn:EN.
    + destruct (r_read_newest Y pg f0 L s k a d M OK EN) as (A & Gd & HK & _).
      destruct (kcoh_notice (ents Y) (ents Y) (c_kp (s_ca s)) k a d KH LK A EN) as (kp & EKP & KH'); [auto|].
      apply wp_bind. eapply wp_note; [exact EKP|]. apply wp_ret. apply HQ; auto.
      * split; auto. split; [apply (world_kp pg f0 L (set_buf s buf)); exact Wd|]. split; [exact KH'|cbn; lia].
      * repeat split; auto.
    + set (M' := r_mw_buf Y pg f0 L s buf M LBf). apply wp_bind. eapply wp_psc; [exact gok|exact (proj1 (proj2 M'))| | | |].
      * unfold p. rewrite (r_prev_first Y pg LY). apply Nat.mod_upper_bound. lia.
      * eapply rring; eauto.
      * intros s1 x ST W1 F1 _ FL1. unfold p in ST. rewrite (r_prev_first Y pg LY), (r_page_st_at Y pg) in ST by (auto; lia).
        assert (X : pstate_eqb x Closed = false).
        { unfold cls in ST. pose proof (y_b_pt Y) as PB. destruct MI as (MI1 & MI2 & MI3).
          destruct (Nat.ltb_spec (NP - 1) (y_c Y)).
          { exfalso. destruct (y_pt Y); [lia|]. destruct (MI2 eq_refl). lia. }
          destruct (Nat.ltb_spec (NP - 1) (y_c Y + y_b Y)); [now injection ST as <-|].
          destruct (Nat.ltb_spec (NP - 1) (y_c Y + y_b Y + y_k Y)); [now injection ST as <-|discriminate]. }
        rewrite X. cbn [negb]. apply wp_unmark. apply wp_ret. apply HQ; auto.
        { apply r_mw_dirty. eapply r_mw_fr; eauto. }
        { eapply mfr_trans; [|apply mfr_dirty]. eapply mfr_trans; [|apply fr_mfr; exact F1]. repeat split; auto. }
      * intros ST. unfold p in ST. rewrite (r_prev_first Y pg LY) in ST. apply (r_bad_ring Y pg LY) in ST; [|apply Nat.mod_upper_bound; lia].
        apply HE; auto. repeat split; auto.
  - set (p := (y_f Y + S i) mod NP) in *. assert (Hp : p < NP) by (apply Nat.mod_upper_bound; lia).
    destruct (r_loc_page Y pg LY (S i) Hi) as [US SL]. fold p in US, SL. pose proof Wd as (_ & FW & _).
    pose proof (readable_body g ws ae aw pg _ p FW Hp US) as BD. rewrite SL in BD.
    assert (IN : In (nth (S i) (uslots Y) []) (uslots Y)) by (apply nth_In; rewrite uslots_len; auto).
    pose proof (ents_at Y (S i) Hi) as EA. fold p in EA.
    destruct (r_scan_page_eq k p (nth (S i) (uslots Y) []) Hp) with (n := length (nth (S i) (uslots Y) [])) (s := s) (pre := @nil slot) (rest := nth (S i) (uslots Y) []) (found := @None (nat * nat)) (fuel := tfuel (dstart g p) (dend g p)) as (buf & LBf & EQ); auto.
    { rewrite Forall_forall in *. intros x Hx. apply O2. unfold content. apply in_flat_map. eauto. }
    { rewrite Forall_forall in O1. specialize (O1 _ IN). eapply Forall_impl; [|exact O1]. intros x Hx. destruct x; cbn [fits_buf] in *; auto; lia. }
    { destruct (jbody_seg g gok _ _ _ BD) as (SG & SC & HD). exact (tfuel_len' g gok _ _ _ _ _ SG). }
    change (sizes g []) with 0 in EQ. rewrite Nat.add_0_r in EQ. eapply wp_ok; [exact EQ|].
    destruct (newest k (ents_sl g (dstart g p) (nth (S i) (uslots Y) []))) as [[a d]|] eqn:EN1.
    + assert (EN : newest k (ents Y) = Some (a, d)) by (rewrite EA, newest_app, newest_app, NL, EN1; auto).
      destruct (r_read_newest Y pg f0 L s k a d M OK EN) as (A & Gd & HK & _).
      destruct (kcoh_notice (ents Y) (ents Y) (c_kp (s_ca s)) k a d KH LK A EN) as (kp & EKP & KH'); [auto|].
      apply wp_bind. eapply wp_note; [exact EKP|]. apply wp_ret. apply HQ.
      * split; auto. split; [apply (world_kp pg f0 L (set_buf s buf)); exact Wd|]. split; [exact KH'|cbn; lia].
      * repeat split; auto.
      * auto.
      * now rewrite EN.
    + set (M' := r_mw_buf Y pg f0 L s buf M LBf). unfold p. rewrite (r_prev_mod Y pg LY) by lia. apply wp_bind. eapply wp_psc; [exact gok|exact (proj1 (proj2 M'))| | | |].
      * apply Nat.mod_upper_bound. lia.
      * eapply rring; eauto.
      * intros s1 x ST W1 F1 _ FL1. rewrite (r_page_st_at Y pg) in ST by (auto; lia).
        assert (X : x = Closed). { unfold cls in ST. destruct (Nat.ltb_spec i (y_c Y)); [congruence|lia]. }
        subst x. cbn [pstate_eqb negb]. apply IH; auto; try lia.
        { eapply r_mw_fr; eauto. }
        { rewrite (skipn_cons [] _ (S i)) by (rewrite uslots_len; auto). cbn [ents_pg]. rewrite newest_app.
          replace (S (y_f Y + S i)) with (y_f Y + S (S i)) by lia. rewrite NL. fold p. exact EN1. }
        { intros s' r M1 MF FL2 ER. apply HQ; auto; [|exact (eq_trans FL2 FL1)].
          eapply mfr_trans; [|exact MF]. eapply mfr_trans; [|apply fr_mfr; exact F1]. repeat split; auto. }
        { intros s' BD1 NN M1 MF FL2. apply HE; auto; [|exact (eq_trans FL2 FL1)].
          eapply mfr_trans; [|exact MF]. eapply mfr_trans; [|apply fr_mfr; exact F1]. repeat split; auto. }
      * intros ST. exfalso. rewrite (r_page_st_at Y pg) in ST by (auto; lia). unfold cls in ST. destruct (Nat.ltb_spec i (y_c Y)); [discriminate|lia].
Qed.

Lemma r_wp_last_used Y pg f0 L s (Q : option nat -> st -> Prop) (E : err -> st -> Prop) :
  r_mw Y pg f0 L s -> minv Y ->
  (forall s' r, r_mw Y pg f0 L s' -> mfr s s' -> s_fl s' = s_fl s ->
     r = (if y_c Y + y_b Y =? 0 then None else Some ((y_f Y + (y_c Y + y_b Y - 1)) mod NP)) -> Q r s') ->
  (forall s', y_bad Y = 1 -> r_mw Y pg f0 L s' -> mfr s s' -> s_fl s' = s_fl s -> E ECorrupted s') ->
  wp (last_used g) Q E s.
Proof.
  intros M MI HQ HE. pose proof M as (LY & Wd & KH & LB). pose proof (rring Y pg LY) as RE. pose proof (npos g gok) as N1.
  pose proof (r_lay_total Y pg LY) as (TF & TT & TB & TBAD). pose proof (r_ffP Y pg LY MI) as FP. pose proof (y_b_pt Y) as PB.
  unfold last_used. apply wp_bind. eapply wp_find_first; [exact gok|exact Wd|exact RE| |].
  - intros s1 r ST W1 F1 FL1 _ _. pose proof (r_mw_fr Y pg f0 L s s1 M W1 F1) as M1.
    destruct (y_pt Y) as [sl|] eqn:PT.
    + destruct FP as [FP|[FP _]]; [|congruence]. rewrite FP in ST. injection ST as <-. apply wp_ret. apply HQ; auto using fr_mfr.
      destruct (Nat.eqb_spec (y_c Y + y_b Y) 0); [lia|]. do 2 f_equal. lia.
    + rewrite FP in ST. injection ST as <-. apply wp_bind. eapply wp_find_first; [exact gok|exact W1|exact RE| |].
      * intros s2 r ST W2 F2 FL2 _ _. rewrite (r_ffO Y pg LY MI PT) in ST. injection ST as <-. cbv zeta.
        pose proof (r_mw_fr Y pg f0 L s1 s2 M1 W2 F2) as M2. destruct (MI) as (MI1 & MI2 & MI3). destruct (MI2 PT) as [K1 B0].
        destruct (Nat.eq_dec (y_c Y) 0) as [C0|C0].
        -- rewrite C0. rewrite (r_prev_first Y pg LY). apply wp_bind. eapply wp_psc; [exact gok|exact W2| |exact RE| |].
           ++ apply Nat.mod_upper_bound. lia.
           ++ intros s3 x ST W3 F3 _ FL3. rewrite (r_page_st_at Y pg) in ST by (auto; lia).
              assert (X : pstate_eqb x Closed = false).
              { unfold cls in ST. destruct (Nat.ltb_spec (NP - 1) (y_c Y)); [lia|]. destruct (Nat.ltb_spec (NP - 1) (y_c Y + y_b Y)); [lia|].
                destruct (Nat.ltb_spec (NP - 1) (y_c Y + y_b Y + y_k Y)); [now injection ST as <-|discriminate]. }
              rewrite X. apply wp_unmark. apply wp_ret. apply HQ.
              { apply r_mw_dirty. eapply r_mw_fr; eauto. }
              { eapply mfr_trans; [|apply mfr_dirty]. eapply mfr_trans; [apply fr_mfr; exact F1|]. eapply mfr_trans; apply fr_mfr; eassumption. }
              { exact (eq_trans FL3 (eq_trans FL2 FL1)). }
              { destruct (Nat.eqb_spec (y_c Y + y_b Y) 0); [auto|lia]. }
           ++ intros ST. apply (r_bad_ring Y pg LY) in ST; [|apply Nat.mod_upper_bound; lia]. lia.
        -- assert (EP : prev_page g ((y_f Y + y_c Y) mod NP) = (y_f Y + (y_c Y - 1)) mod NP).
           { replace (y_c Y) with (S (y_c Y - 1)) at 1 by lia. apply (r_prev_mod Y pg LY). lia. }
           rewrite EP. apply wp_bind. eapply wp_psc; [exact gok|exact W2| |exact RE| |].
           ++ apply Nat.mod_upper_bound. lia.
           ++ intros s3 x ST W3 F3 _ FL3. rewrite (r_page_st_at Y pg) in ST by (auto; lia).
              assert (X : x = Closed). { unfold cls in ST. destruct (Nat.ltb_spec (y_c Y - 1) (y_c Y)); [congruence|lia]. }
              subst x. cbn [pstate_eqb]. apply wp_ret. apply HQ.
              { eapply r_mw_fr; eauto. }
              { eapply mfr_trans; [apply fr_mfr; exact F1|]. eapply mfr_trans; apply fr_mfr; eassumption. }
              { exact (eq_trans FL3 (eq_trans FL2 FL1)). }
              { destruct (Nat.eqb_spec (y_c Y + y_b Y) 0); [lia|]. do 2 f_equal. lia. }
           ++ intros ST. apply (r_bad_ring Y pg LY) in ST; [|apply Nat.mod_upper_bound; lia]. lia.
      * intros s2 ST. rewrite (r_ffO Y pg LY MI PT) in ST. discriminate.
  - intros s1 ST W1 F1. apply HE; auto using fr_mfr; [|eapply r_mw_fr; eauto|destruct W1 as (W1 & _), Wd as (Wd & _); congruence].
    destruct (y_pt Y); [|congruence]. destruct FP as [FP|[FP X]]; [congruence|auto].
Qed.

Definition r_mstart Y pg f0 L s : Prop := r_mw Y pg f0 L s \/ (r_smw Y pg s /\ f0 = s_fl s /\ L = []).
Lemma r_wp_check Y pg f0 L (Q : unit -> st -> Prop) (E : err -> st -> Prop) s : r_mstart Y pg f0 L s ->
  (forall s', r_mw Y pg f0 L s' -> mfr s s' -> s_fl s' = s_fl s -> s_buf s' = s_buf s -> Q tt s') -> wp c_check_dirty Q E s.
Proof. intros [M|(M & -> & ->)]; [now apply r_wp_check_mw|now apply r_wp_check_smw]. Qed.
Lemma r_wp_fetch_loc Y pg f0 L k s (Q : option (hdr * nat * option nat) -> st -> Prop) (E : err -> st -> Prop) :
  r_mstart Y pg f0 L s -> mok Y -> minv Y -> legal k ->
  (forall s' r, r_mw Y pg f0 L s' -> mfr s s' -> s_fl s' = s_fl s -> fres k Y r s' -> Q r s') ->
  (forall s', y_bad Y = 1 -> r_mw Y pg f0 L s' -> mfr s s' -> s_fl s' = s_fl s -> E ECorrupted s') ->
  wp (fetch_loc KO g k) Q E s.
Proof.
  intros MS OK MI LK HQ HE. unfold fetch_loc. apply wp_bind. eapply r_wp_check; [exact MS|]. intros s1 M1 F1 FL1 _.
  apply wp_bind. eapply (r_wp_fetch_cached Y pg f0 L); auto. intros s2 r M2 F2 FL2 [->|(a & d & N & -> & FN & LD)].
  2:{ apply wp_ret. apply HQ; auto; [eapply mfr_trans; eassumption|exact (eq_trans FL2 FL1)|]. unfold fres. rewrite N. exists None. auto. }
  apply wp_bind. eapply (r_wp_last_used Y pg f0 L); auto.
  - intros s3 r M3 F3 FL3 ->. pose proof (r_lay_total Y pg (proj1 M3)) as (TF & TT & TB & TBAD).
    destruct (Nat.eqb_spec (y_c Y + y_b Y) 0) as [Z|Z].
    + apply wp_ret. apply HQ; auto; [eapply mfr_trans; [exact F1|]; eapply mfr_trans; eassumption|exact (eq_trans FL3 (eq_trans FL2 FL1))|].
      unfold fres, MLogP.ents. replace (uslots Y) with (@nil (list slot)); [reflexivity|].
      symmetry. apply length_zero_iff_nil. now rewrite uslots_len.
    + apply wp_bind. eapply (r_wp_fetch_pages Y pg f0 L k); auto; try lia.
      * rewrite skipn_all2 by (rewrite uslots_len; lia). reflexivity.
      * intros s4 r M4 F4 FL4 ->. assert (F04 : mfr s s4) by (eapply mfr_trans; [exact F1|]; eapply mfr_trans; [exact F2|]; eapply mfr_trans; eassumption).
        assert (FL04 : s_fl s4 = s_fl s) by exact (eq_trans FL4 (eq_trans FL3 (eq_trans FL2 FL1))).
        destruct (newest k (ents Y)) as [[a d]|] eqn:EN.
        2:{ apply wp_ret. apply HQ; auto. unfold fres. now rewrite EN. }
        apply wp_unmark. pose proof (r_mw_dirty Y pg f0 L s4 false M4) as M5.
        match type of M5 with r_mw _ _ _ _ ?x => set (s5 := x) in * end.
        destruct (r_read_newest Y pg f0 L s5 k a d M5 OK EN) as (A & Gd & HK & R). destruct (R _ (or_intror eq_refl)) as (R1 & buf & LB & FN & LD & R2).
        eapply wp_ok; [exact R1|]. cbv beta iota. eapply wp_ok; [exact R2|]. cbv beta iota. apply wp_ret.
        apply HQ; [now apply r_mw_buf| |exact FL04|].
        { eapply mfr_trans; [exact F04|]. apply (mfr_trans _ s5); [exact (mfr_dirty s4 false)|repeat split; auto]. }
        unfold fres. rewrite EN. exists (Some (dklen KO d)). auto.
      * intros s4 B1 NN M4 F4 FL4. apply HE; auto; [|exact (eq_trans FL4 (eq_trans FL3 (eq_trans FL2 FL1)))].
        eapply mfr_trans; [exact F1|]; eapply mfr_trans; [exact F2|]; eapply mfr_trans; eassumption.
  - intros s3 B1 M3 F3 FL3. apply HE; auto; [|exact (eq_trans FL3 (eq_trans FL2 FL1))].
    eapply mfr_trans; [exact F1|]; eapply mfr_trans; eassumption.
Qed.

(** * The same for proper layouts *)
Definition mw Y pg f0 L s : Prop :=
  layok NP Y pg /\ world pg f0 L s /\ kcoh (ents Y) (c_kp (s_ca s)) /\ B <= length (s_buf s).
Definition smw Y pg s : Prop :=
  layok NP Y pg /\ sworld pg s /\ kwf (c_kp (s_ca s)) /\ (c_dirty (s_ca s) = true \/ kcoh (ents Y) (c_kp (s_ca s))) /\ B <= length (s_buf s).
Definition mstart Y pg f0 L s : Prop := mw Y pg f0 L s \/ (smw Y pg s /\ f0 = s_fl s /\ L = []).
Lemma mw_r Y pg f0 L s : mw Y pg f0 L s -> r_mw Y pg f0 L s.
Proof. intros (A & H). split; auto. now apply layok_rlay. Qed.
Lemma r_to Y pg f0 L s s' : mw Y pg f0 L s -> r_mw Y pg f0 L s' -> mw Y pg f0 L s'.
Proof. intros (A & _) (_ & H). split; auto. Qed.
Lemma smw_r Y pg s : smw Y pg s -> r_smw Y pg s.
Proof. intros (A & H). split; auto. now apply layok_rlay. Qed.
Lemma mstart_r Y pg f0 L s : mstart Y pg f0 L s -> r_mstart Y pg f0 L s.
Proof. intros [H|(H & E)]; [left; now apply mw_r|right; split; auto; now apply smw_r]. Qed.
Lemma mstart_lay Y pg f0 L s : mstart Y pg f0 L s -> layok NP Y pg.
Proof. intros [H|(H & E)]; apply H. Qed.
Lemma mw_fr Y pg f0 L s s' : mw Y pg f0 L s -> world pg f0 L s' -> fr s s' -> mw Y pg f0 L s'.
Proof. intros (A & B0 & C & D) Wd (E & _ & _ & F). split; auto. split; auto. rewrite E, F. auto. Qed.
Lemma mw_buf Y pg f0 L s b : mw Y pg f0 L s -> length b = length (s_buf s) -> mw Y pg f0 L (set_buf s b).
Proof. intros (A & B0 & C & D) E. split; auto. split; auto. split; auto. cbn. lia. Qed.
Lemma mw_dirty Y pg f0 L s b : mw Y pg f0 L s -> mw Y pg f0 L (set_ca s (set_dirty (s_ca s) b)).
Proof. intros (A & (B1 & B2 & B3) & C & D). split; auto. split; [split; [exact B1|split; [exact B2|exact B3]]|]. split; auto. Qed.
Lemma mw_inval Y pg f0 L s : mw Y pg f0 L s -> mw Y pg f0 L (set_ca s (cache_inval (s_ca s))).
Proof.
  intros (A & (B1 & B2 & B3) & C & D). split; auto. split; [split; [exact B1|split; [exact B2|]]|split; [|exact D]].
  - apply coh_inval. now apply coh_wf in B3.
  - cbn. apply kwf_inval. now apply kcoh_wf in C.
Qed.
Section Srch2.
Context (Y : lay) (pg : nat -> page) (LY : layok NP Y pg) (MI : minv Y).
Lemma at_ring i : i < NP -> st_of (pg (((y_f Y) + i) mod NP)) = cls (y_c Y) (y_b Y) (y_k Y) i.
Proof. eapply (r_at_ring Y pg (layok_rlay Y pg LY)); eauto. Qed.
Lemma bad_ring q : q < NP -> st_of (pg q) = None -> (y_bad Y) = 1.
Proof. eapply (r_bad_ring Y pg (layok_rlay Y pg LY)); eauto. Qed.
Lemma ffP : match y_pt Y with
            | Some _ => ff pg PartialOpen (get_pages g 0) = Some (Some (((y_f Y) + (y_c Y)) mod NP)) \/
                        (ff pg PartialOpen (get_pages g 0) = None /\ (y_bad Y) = 1)
            | None => ff pg PartialOpen (get_pages g 0) = Some None
            end.
Proof. eapply (r_ffP Y pg (layok_rlay Y pg LY) MI); eauto. Qed.
Lemma ffO : y_pt Y = None -> ff pg Open (get_pages g 0) = Some (Some (((y_f Y) + (y_c Y)) mod NP)).
Proof. eapply (r_ffO Y pg (layok_rlay Y pg LY) MI); eauto. Qed.
Lemma prev_mod i : i < NP -> prev_page g (((y_f Y) + S i) mod NP) = ((y_f Y) + i) mod NP.
Proof. eapply (r_prev_mod Y pg (layok_rlay Y pg LY)); eauto. Qed.
Lemma prev_first : prev_page g (((y_f Y) + 0) mod NP) = ((y_f Y) + (NP - 1)) mod NP.
Proof. eapply (r_prev_first Y pg (layok_rlay Y pg LY)); eauto. Qed.
Lemma loc_page i : i < y_c Y + y_b Y -> used (pg ((y_f Y + i) mod NP)) /\ slots_of (pg ((y_f Y + i) mod NP)) = nth i (uslots Y) [].
Proof.
  intros Hi. pose proof LY as [(_ & _ & P) _]. pose proof (lay_ring NP Y pg (npos g gok) LY) as (_ & T & _). rewrite P by lia. destruct (nth_uslots Y i Hi) as (A & B0 & _). auto.
Qed.
End Srch2.
Lemma page_st_at Y pg i : layok NP Y pg -> i < NP -> st_of (pg ((y_f Y + i) mod NP)) = cls (y_c Y) (y_b Y) (y_k Y) i.
Proof. intros LY. apply (at_ring Y pg LY). Qed.
Lemma lay_total Y pg : layok NP Y pg -> y_f Y < NP /\ y_c Y + y_b Y + y_k Y + y_bad Y = NP /\ y_b Y <= 1 /\ y_bad Y <= 1.
Proof. intros LY. destruct (lay_ring NP Y pg (npos g gok) LY) as (A & B0 & C & D & _). auto. Qed.
Lemma read_newest Y pg f0 L s k a d : mw Y pg f0 L s -> mok Y -> newest k (ents Y) = Some (a, d) ->
  a <> 0 /\ good KO legal d /\ hask KO k d = true /\
  forall e, e = Some (dend g (pindex g a)) \/ e = None ->
  read_new g a e s = (Ok (Some (ihdr d)), s) /\
  exists buf, length buf = length (s_buf s) /\ firstn (length d) buf = d /\ length d <= length buf /\ read_item g (ihdr d) a e s = (Ok (MPresent (ihdr d)), set_buf s buf).
Proof. intros M. apply r_read_newest with (L := L) (f0 := f0) (pg := pg). now apply mw_r. Qed.
Lemma wp_check_mw Y pg f0 L (Q : unit -> st -> Prop) (E : err -> st -> Prop) s : mw Y pg f0 L s ->
  (forall s', mw Y pg f0 L s' -> mfr s s' -> s_fl s' = s_fl s -> s_buf s' = s_buf s -> Q tt s') -> wp c_check_dirty Q E s.
Proof.
  intros M H. unfold wp, c_check_dirty, bind, c_is_dirty. destruct (c_dirty (s_ca s)).
  - cbn. apply H; auto; [now apply mw_inval|repeat split].
  - cbn. apply H; auto. apply mfr_refl.
Qed.
Lemma wp_check_smw Y pg (Q : unit -> st -> Prop) (E : err -> st -> Prop) s : smw Y pg s ->
  (forall s', mw Y pg (s_fl s) [] s' -> mfr s s' -> s_fl s' = s_fl s -> s_buf s' = s_buf s -> Q tt s') -> wp c_check_dirty Q E s.
Proof.
  intros (LY & (FW & WF & DC) & KW & DK & LB) H. unfold wp, c_check_dirty, bind, c_is_dirty. destruct (c_dirty (s_ca s)) eqn:DT.
  - cbn. apply H; auto; [|repeat split]. split; auto. split; [split; [reflexivity|split; [exact FW|now apply coh_inval]]|].
    split; [cbn; now apply kwf_inval|exact LB].
  - cbn. apply H; auto; [|apply mfr_refl]. destruct DC as [DC|DC]; [discriminate|]. destruct DK as [DK|DK]; [discriminate|].
    split; auto. split; [|auto]. split; [reflexivity|auto].
Qed.
Lemma wp_fetch_cached Y pg f0 L k s (Q : option (hdr * nat) -> st -> Prop) (E : err -> st -> Prop) :
  mw Y pg f0 L s -> mok Y -> legal k ->
  (forall s' r, mw Y pg f0 L s' -> mfr s s' -> s_fl s' = s_fl s ->
     (r = None \/ exists a d, newest k (ents Y) = Some (a, d) /\ r = Some (ihdr d, a) /\ firstn (length d) (s_buf s') = d /\ length d <= length (s_buf s')) -> Q r s') ->
  wp (fetch_cached KO g k) Q E s.
Proof. intros M OK LK H. eapply r_wp_fetch_cached; [apply mw_r; exact M|auto|auto|]. intros s' r M'. apply H. eapply r_to; eauto. Qed.
Lemma wp_fetch_pages Y pg f0 L k : forall i fuel s (Q : option (nat * nat) -> st -> Prop) (E : err -> st -> Prop),
  mw Y pg f0 L s -> mok Y -> minv Y -> legal k -> i < y_c Y + y_b Y -> i < fuel ->
  newest k (ents_pg g (y_f Y + S i) (skipn (S i) (uslots Y))) = None ->
  (forall s' r, mw Y pg f0 L s' -> mfr s s' -> s_fl s' = s_fl s ->
     r = match newest k (ents Y) with Some (a, d) => Some (a, dklen KO d) | None => None end -> Q r s') ->
  (forall s', y_bad Y = 1 -> newest k (ents Y) = None -> mw Y pg f0 L s' -> mfr s s' -> s_fl s' = s_fl s -> E ECorrupted s') ->
  wp (fetch_pages KO g fuel k ((y_f Y + i) mod NP)) Q E s.
Proof.
  intros i fuel s Q E M OK MI LK Hi FU NL HQ HE. eapply r_wp_fetch_pages; eauto; [apply mw_r; exact M| |].
  - intros s' r M'. apply HQ. eapply r_to; eauto.
  - intros s' B1 NN M'. apply HE; auto. eapply r_to; eauto.
Qed.
Lemma wp_last_used Y pg f0 L s (Q : option nat -> st -> Prop) (E : err -> st -> Prop) :
  mw Y pg f0 L s -> minv Y ->
  (forall s' r, mw Y pg f0 L s' -> mfr s s' -> s_fl s' = s_fl s ->
     r = (if y_c Y + y_b Y =? 0 then None else Some ((y_f Y + (y_c Y + y_b Y - 1)) mod NP)) -> Q r s') ->
  (forall s', y_bad Y = 1 -> mw Y pg f0 L s' -> mfr s s' -> s_fl s' = s_fl s -> E ECorrupted s') ->
  wp (last_used g) Q E s.
Proof.
  intros M MI HQ HE. eapply r_wp_last_used; [apply mw_r; exact M|auto| |].
  - intros s' r M'. apply HQ. eapply r_to; eauto.
  - intros s' B1 M'. apply HE; auto. eapply r_to; eauto.
Qed.
Lemma wp_check Y pg f0 L (Q : unit -> st -> Prop) (E : err -> st -> Prop) s : mstart Y pg f0 L s ->
  (forall s', mw Y pg f0 L s' -> mfr s s' -> s_fl s' = s_fl s -> s_buf s' = s_buf s -> Q tt s') -> wp c_check_dirty Q E s.
Proof. intros [M|(M & -> & ->)]; [now apply wp_check_mw|now apply wp_check_smw]. Qed.
Lemma wp_fetch_loc Y pg f0 L k s (Q : option (hdr * nat * option nat) -> st -> Prop) (E : err -> st -> Prop) :
  mstart Y pg f0 L s -> mok Y -> minv Y -> legal k ->
  (forall s' r, mw Y pg f0 L s' -> mfr s s' -> s_fl s' = s_fl s -> fres k Y r s' -> Q r s') ->
  (forall s', y_bad Y = 1 -> mw Y pg f0 L s' -> mfr s s' -> s_fl s' = s_fl s -> E ECorrupted s') ->
  wp (fetch_loc KO g k) Q E s.
Proof.
  intros M OK MI LK HQ HE. pose proof (mstart_lay _ _ _ _ _ M) as LY. eapply r_wp_fetch_loc; [apply mstart_r; exact M|auto|auto|auto| |].
  - intros s' r (_ & M'). apply HQ. split; auto.
  - intros s' B1 (_ & M'). apply HE; auto. split; auto.
Qed.
Lemma scan_page_eq k p sl : p < NP -> Forall (good KO legal) (live_of sl) -> forall n s pre rest found fuel, length rest <= n ->
  body g ws (s_fl s) p sl -> sl = pre ++ rest -> Forall (fits_buf g (length (s_buf s))) sl -> length rest < fuel ->
  exists buf, length buf = length (s_buf s) /\
  scan_page KO g fuel k (dstart g p + sizes g pre) (dend g p) found s =
  (Ok (match newest k (ents_sl g (dstart g p + sizes g pre) rest) with Some (a, d) => Some (a, dklen KO d) | None => found end), set_buf s buf).
Proof. intros Hp G n s pre rest found fuel Hn BD. eapply r_scan_page_eq; eauto using body_jbody. Qed.
Lemma read_at pg f0 L s p l d r : world pg f0 L s -> p < NP -> used (pg p) -> slots_of (pg p) = l ++ SLive d :: r ->
  rup (length d) <= length (s_buf s) -> let a := dstart g p + sizes g l in
  a <> 0 /\ pindex g a = p /\
  forall e, e = Some (dend g p) \/ e = None ->
  read_new g a e s = (Ok (Some (ihdr d)), s) /\
  exists buf, length buf = length (s_buf s) /\ firstn (length d) buf = d /\ length d <= length buf /\ read_item g (ihdr d) a e s = (Ok (MPresent (ihdr d)), set_buf s buf).
Proof. intros W Hp U. eapply r_read_at; eauto using used_readable. Qed.
Lemma item_next_body p s sl pre rest fuel :
  body g ws (s_fl s) p sl -> p < NP -> sl = pre ++ rest -> Forall (fits_buf g (length (s_buf s))) rest -> length rest < fuel ->
  exists buf, length buf = length (s_buf s) /\
  ((forallb (fun x => negb (is_live x)) rest = true /\
    item_next g fuel (dstart g p + sizes g pre) (dend g p) s = (Ok (None, dstart g p + sizes g sl), set_buf s buf)) \/
   exists l d r, rest = l ++ SLive d :: r /\ forallb (fun x => negb (is_live x)) l = true /\
    firstn (length d) buf = d /\ length d <= length buf /\
    item_next g fuel (dstart g p + sizes g pre) (dend g p) s =
      (Ok (Some (ihdr d, dstart g p + sizes g (pre ++ l)), dstart g p + sizes g (pre ++ l ++ [SLive d])), set_buf s buf)).
Proof. intros BD. apply r_item_next_body. now apply body_jbody with (ws := ws). Qed.
End Fetch.
