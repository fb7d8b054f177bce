(** Removing keys from a map, on layouts. *)
From Coq Require Import List NArith ZArith Arith Bool Lia ZifyBool ZifyNat ZifyN.
From Verif Require Import Base BaseP Crc CrcP Flash Cache State Item Generic Map Codec CodecP GeomP ScanP WpP ItemP CalcP PageP WorldP LayP QPushP QRepP QStepP KeyP MLogP MFetchP MMigP MStoreP MCallP.
Import ListNotations.
Local Opaque crc16 acrc crc32.

Section Rem.
Context (g : geom) (gok : geom_ok g) (ws ae : bool) (aw : nat) (np2 : 2 <= NP g).
Context {K : Type} (KO : keyops K) (legal : K -> Prop) (KC : key_codec KO legal) (B : lim).
Notation W := (W g).
Notation HL := (HL g).
Notation rup := (rup g).
Notation NP := (NP g).
Notation st := (st K).
Implicit Types (s : st) (pg : nat -> page) (Y : lay).
Notation world := (world g ws ae aw).
Notation crashed := (crashed g ws ae aw).
Notation sworld := (sworld g ws ae aw).
Notation newest := (newest KO).
Notation lastd := (lastd KO).
Notation ents := (ents g).
Notation good := (good KO legal).
Notation tearok := (tearok g ws aw B).
Notation mok := (mok g ws aw KO legal B).
Notation mw := (mw g ws ae aw KO legal B).
Notation mgood := (mgood g ws aw KO legal B).
Notation same := (same KO legal).
Notation kcoh := (kcoh KO legal).
Notation ymig := (ymig g KO).
Notation migops := (migops g KO).
Notation y_cur := (y_cur g).

Notation yst := (yst g KO).
Notation yrp := (yrp g KO).
Notation yadv := (yadv g KO).
Notation smw := (smw g ws ae aw KO legal B).
Notation mcrash := (mcrash g ws ae aw KO legal B).
Notation newok := (newok g ws aw B).
Notation after := (after KO legal).
Notation cst := (cst KO legal).


(** * What is removed *)
Definition mt (sk : option K) (d : list N) : bool := match sk with Some k => hask KO k d | None => true end.
Definition erf sk (ds : list (list N)) : list (list N) := filter (fun d => negb (mt sk d)) ds.
Definition rmx sk (x : slot) : slot := match x with SLive d => if mt sk d then SDead (length d) else x | _ => x end.
Definition rmsl sk (sl : list slot) : list slot := map (rmx sk) sl.
Definition yrm sk Y : lay := mklay (y_f Y) (map (rmsl sk) (y_cl Y)) (option_map (rmsl sk) (y_pt Y)) (y_k Y) (y_bad Y).
Fixpoint rmops_sl sk (a : nat) (sl : list slot) : list dop :=
  match sl with
  | [] => []
  | x :: t => (match x with SLive d => if mt sk d then [erase_op g a d] else [] | _ => [] end) ++ rmops_sl sk (a + ssize g x) t
  end.
Fixpoint rmops sk (q : nat) (us : list (list slot)) : list dop :=
  match us with [] => [] | sl :: t => rmops_sl sk (dstart g (q mod NP)) sl ++ rmops sk (S q) t end.
Definition kills (sk : option K) (k : K) : Prop := match sk with Some k' => k = k' | None => True end.

Lemma rmx_size sk x : ssize g (rmx sk x) = ssize g x.
Proof. destruct x; cbn [rmx]; auto. destruct (mt sk d); auto. Qed.
Lemma rmsl_sizes sk sl : sizes g (rmsl sk sl) = sizes g sl.
Proof. induction sl as [|x sl IH]; auto. unfold rmsl in *. cbn [map]. rewrite !sizes_cons, rmx_size. lia. Qed.
Lemma rmsl_app sk a b : rmsl sk (a ++ b) = rmsl sk a ++ rmsl sk b. Proof. apply map_app. Qed.
Lemma rmops_sl_app sk b : forall a x, rmops_sl sk x (a ++ b) = rmops_sl sk x a ++ rmops_sl sk (x + sizes g a) b.
Proof.
  induction a as [|s a IH]; intros x; cbn [rmops_sl app]; [change (sizes g []) with 0; now rewrite Nat.add_0_r|].
  rewrite IH, <- app_assoc, sizes_cons, Nat.add_assoc. reflexivity.
Qed.
Lemma nolive_rm sk l : forallb (fun x => negb (is_live x)) l = true -> rmsl sk l = l /\ forall a, rmops_sl sk a l = [].
Proof.
  induction l as [|x l IH]; cbn [forallb]; [auto|]. intros H. apply andb_true_iff in H. destruct H as [H1 H2]. destruct (IH H2) as [A C].
  unfold rmsl in *. cbn [map rmops_sl]. rewrite A. split; [|intros a; rewrite C]; destruct x; cbn in *; auto; discriminate.
Qed.
Lemma erf_app sk a b : erf sk (a ++ b) = erf sk a ++ erf sk b. Proof. unfold erf. apply filter_app. Qed.
Lemma live_rm sk sl : live_of (rmsl sk sl) = erf sk (live_of sl).
Proof.
  induction sl as [|x sl IH]; auto. change (x :: sl) with ([x] ++ sl). rewrite rmsl_app, !live_app, erf_app, IH. f_equal.
  destruct x; cbn [rmsl map rmx]; auto. unfold erf. cbn [live_of flat_map app filter]. destruct (mt sk d); reflexivity.
Qed.
Lemma flat_rm sk us : flat_map live_of (map (rmsl sk) us) = erf sk (flat_map live_of us).
Proof. induction us as [|sl us IH]; auto. cbn [map flat_map]. now rewrite erf_app, IH, live_rm. Qed.
Lemma yrm_uslots sk Y : uslots (yrm sk Y) = map (rmsl sk) (uslots Y).
Proof. unfold uslots, yrm. cbn [y_cl y_pt]. rewrite map_app. f_equal. destruct (y_pt Y); auto. Qed.
Lemma yrm_content sk Y : content (yrm sk Y) = erf sk (content Y).
Proof. unfold content. rewrite yrm_uslots. apply flat_rm. Qed.

(** The value of a key afterwards. *)
Lemma lastd_erf sk k ds : Forall good ds -> legal k -> (match sk with Some k' => legal k' | None => True end) ->
  (kills sk k -> lastd k (erf sk ds) = None) /\ (~ kills sk k -> lastd k (erf sk ds) = lastd k ds).
Proof.
  intros G LK LS. induction ds as [|d ds IH]; [split; auto|]. inversion G as [|x y Gd Gs]; subst. destruct (IH Gs) as [A C]. unfold erf in *. cbn [filter]. split; intros H.
  - destruct (mt sk d) eqn:MT; cbn [negb]; auto. cbn [MLogP.lastd]. rewrite (A H). destruct sk as [k'|]; [|discriminate MT]. cbn [kills mt] in *. subst k'. now rewrite MT.
  - cbn [MLogP.lastd]. destruct (mt sk d) eqn:MT; cbn [negb MLogP.lastd]; rewrite (C H); auto. destruct sk as [k'|]; [|now destruct H]. cbn [kills mt] in *.
    destruct (hask KO k d) eqn:HK; [|destruct (lastd k ds); auto].
    apply (good_hask KO legal KC) in HK; auto. apply (good_hask KO legal KC) in MT; auto. congruence.
Qed.

(** A slot that is or is being removed. *)
Definition srel (x y : slot) : Prop := y = x \/ exists d, x = SLive d /\ (y = SDead (length d) \/ exists c, y = SCorr (length d) c).
Definition yrel Y Y' : Prop := y_f Y' = y_f Y /\ y_k Y' = y_k Y /\ y_bad Y' = y_bad Y /\ y_c Y' = y_c Y /\ y_b Y' = y_b Y /\ Forall2 (Forall2 srel) (uslots Y) (uslots Y').
Lemma srel_fits x y : srel x y -> fits_buf g B x -> fits_buf g B y.
Proof. intros [->|(d & -> & [->|(c & ->)])]; cbn [fits_buf]; auto. Qed.
Lemma srel_live sl sl' : Forall2 srel sl sl' -> incl (live_of sl') (live_of sl).
Proof.
  induction 1 as [|x y l l' H _ IH]; [apply incl_refl|]. change (x :: l) with ([x] ++ l). change (y :: l') with ([y] ++ l'). rewrite !live_app.
  apply incl_app; [|now apply incl_appr]. apply incl_appl. destruct H as [->|(d & -> & [->|(c & ->)])]; [apply incl_refl|intros z []|intros z []].
Qed.
Lemma yrel_ok Y Y' : yrel Y Y' -> mok Y -> minv Y -> mok Y' /\ minv Y'.
Proof.
  intros (A1 & A2 & A3 & A4 & A5 & F) (O1 & O2 & O3) (I1 & I2 & I3). split.
  - assert (I : incl (content Y') (content Y)).
    { unfold content. clear -F. induction F as [|x y l l' H _ IH]; [apply incl_refl|]. cbn [flat_map]. apply incl_app; [apply incl_appl; now apply srel_live|now apply incl_appr]. }
    split; [|split; eapply incl_Forall; eauto]. clear -F O1. induction F as [|x y l l' H _ IH]; [constructor|]. inversion O1; subst. constructor; auto.
    clear -H H2. induction H as [|x y l l' H _ IH]; [constructor|]. inversion H2; subst. constructor; auto. eapply srel_fits; eauto.
  - unfold minv. rewrite A1, A2, A3. split; [exact I1|]. split; [|exact I3]. intros P. apply I2. pose proof (y_b_pt Y) as P1. pose proof (y_b_pt Y') as P2. rewrite P in P2. destruct (y_pt Y); auto. lia.
Qed.
Lemma srel_refl l : Forall2 srel l l. Proof. induction l; constructor; auto. now left. Qed.
Lemma srel_rm sk l : Forall2 srel l (rmsl sk l).
Proof. induction l as [|x l IH]; constructor; auto. destruct x; try now left. cbn [rmx]. destruct (mt sk d); [right; eauto|now left]. Qed.
Lemma yrel_rm sk Y : yrel Y (yrm sk Y).
Proof.
  repeat split; auto.
  - unfold y_c, yrm. cbn [y_cl]. apply map_length.
  - unfold y_b, yrm. cbn [y_pt]. destruct (y_pt Y); auto.
  - rewrite yrm_uslots. induction (uslots Y); constructor; auto. apply srel_rm.
Qed.
Lemma yrm_good sk Y : (match sk with Some k' => legal k' | None => True end) -> mgood Y -> mgood (yrm sk Y).
Proof.
  intros LS (MI & OK & CP). destruct (yrel_ok Y (yrm sk Y) (yrel_rm sk Y) OK MI) as [OK' MI']. split; [exact MI'|]. split; [exact OK'|].
  intros K0 B0. change (y_k (yrm sk Y)) with (y_k Y) in K0. change (y_bad (yrm sk Y)) with (y_bad Y) in B0. specialize (CP K0 B0).
  unfold yrm, y_sl in *. cbn [y_cl y_pt]. rewrite flat_rm.
  assert (E : live_of (match option_map (rmsl sk) (y_pt Y) with Some sl => sl | None => [] end) = erf sk (live_of (match y_pt Y with Some sl => sl | None => [] end))).
  { destruct (y_pt Y); cbn [option_map]; [apply live_rm|reflexivity]. }
  rewrite E. unfold copies in *. destruct OK as (_ & GG & _). unfold content, uslots in GG. rewrite flat_map_app in GG. apply Forall_app in GG. destruct GG as [G1 G2].
  assert (G3 : Forall good (live_of (match y_pt Y with Some sl => sl | None => [] end))).
  { destruct (y_pt Y); cbn [ptl flat_map] in G2; [now rewrite app_nil_r in G2|constructor]. }
  rewrite Forall_forall in *. intros d I. unfold erf in I. apply filter_In in I. destruct I as [I NM]. destruct (CP d I) as (k & DK & LD). exists k. split; auto.
  destruct (good_de KO legal KC d (G3 d I)) as (k2 & LK2 & DK2 & _). assert (k2 = k) as -> by congruence.
  destruct (lastd_erf sk k (flat_map live_of (y_cl Y))) as [_ X]; auto; [now rewrite Forall_forall|]. rewrite X; auto.
  intros KL. destruct sk as [k'|]; [|discriminate NM]. cbn [kills mt] in *. subst k'. assert (hask KO k d = true) by (apply (good_hask KO legal KC); auto). rewrite H in NM. discriminate.
Qed.

(** * One page *)
Definition isbadslot (x : slot) : bool := match x with SBad => true | _ => false end.
Lemma first_hdr rest : forallb isbadslot rest = true \/ exists l x r h, rest = l ++ x :: r /\ forallb isbadslot l = true /\ shdr x = Some h.
Proof.
  induction rest as [|x rest IH]; [auto|]. destruct (isbadslot x) eqn:E.
  - destruct IH as [IH|(l & y & r & h & -> & F & H)]; [left; cbn; now rewrite E|]. right. exists (x :: l), y, r, h. cbn. rewrite E. auto.
  - right. destruct x; try discriminate E; eexists [], _, rest, _; repeat split; reflexivity.
Qed.
Lemma bad_skipped l : forallb isbadslot l = true -> forallb (skipped (fun _ => false)) l = true.
Proof. intros H. rewrite forallb_forall in *. intros x I. specialize (H x I). destruct x; try discriminate. reflexivity. Qed.
Lemma bad_nolive l : forallb isbadslot l = true -> forallb (fun x => negb (is_live x)) l = true.
Proof. intros H. rewrite forallb_forall in *. intros x I. specialize (H x I). destruct x; try discriminate. reflexivity. Qed.

Lemma trav_hdr p s sl pre rest : body g ws (s_fl s) p sl -> p < NP -> sl = pre ++ rest ->
  let T := traverse g (tfuel (dstart g p + sizes g pre) (dend g p)) (fun _ => false) (dstart g p + sizes g pre) (dend g p) s in
  (forallb isbadslot rest = true -> T = (Ok (None, dstart g p + sizes g sl, dstart g p + sizes g sl), s)) /\
  (forall l x r h, rest = l ++ x :: r -> forallb isbadslot l = true -> shdr x = Some h ->
    T = (Ok (Some h, dstart g p + sizes g (pre ++ l), dstart g p + sizes g (pre ++ l ++ [x])), s)).
Proof.
  intros BD Hp -> T. destruct (body_seg g gok ws _ _ _ BD) as (SG & SC & HE). apply (seg_app g) in SG. destruct SG as (c & S1 & S2).
  pose proof (seg_end g _ _ _ _ _ S1) as ->. pose proof (dend_lt g gok p). pose proof (pend_FEND g p Hp). pose proof (START_paddr g p).
  assert (AL : al g (dstart g p + sizes g pre)) by (apply (al_add g gok); auto with al; now apply sizes_al).
  split.
  - intros F. unfold T. eapply (traverse_eq g gok (dend g p)); [lia|exact AL|unfold dstart; lia|exact S2|now apply bad_skipped| |].
    + unfold stop_at. pose proof (seg_end g _ _ _ _ _ S2) as E2. rewrite E2. rewrite sizes_app, Nat.add_assoc in *. rewrite HE. reflexivity.
    + eapply tfuel_len'; eauto.
  - intros l x r h -> F Hh. apply (seg_app g) in S2. destruct S2 as (c & S2 & S3). pose proof (seg_end g _ _ _ _ _ S2) as ->. cbn [seg] in S3. destruct S3 as [S3 S4].
    unfold T. eapply (traverse_eq g gok (dend g p)); [lia|exact AL|unfold dstart; lia|exact S2|now apply bad_skipped| |].
    + unfold stop_at. destruct S3 as [S3 _]. rewrite S3, Hh. f_equal. f_equal; [f_equal|].
      * rewrite sizes_app. lia.
      * rewrite !sizes_app. unfold next_addr. assert (sizes g [x] = HL + rup (h_len h)) as ->; [|lia].
        unfold sizes. cbn. unfold ssize. rewrite Hh. lia.
    + eapply tfuel_len'; eauto.
Qed.

Section Items.
Context (sk : option K) (LS : match sk with Some k' => legal k' | None => True end) (ES : list ent) (f0 : flash).
Definition rmw Y pg L s : Prop := layok NP Y pg /\ world pg f0 L s /\ kcoh ES (c_kp (s_ca s)) /\ B <= length (s_buf s).
Lemma rmw_buf Y pg L s b : rmw Y pg L s -> length b = length (s_buf s) -> rmw Y pg L (set_buf s b).
Proof. intros (A & B0 & C & D) E. split; auto. split; auto. split; auto. cbn. lia. Qed.
Lemma rmw_fr Y pg L s s' : rmw Y pg L s -> world pg f0 L s' -> fr s s' -> rmw Y pg L s'.
Proof. intros (A & B0 & C & D) Wd (E & _ & _ & F). split; auto. split; auto. rewrite E, F. auto. Qed.

(** A cut in the middle of the page. *)
Definition cutsl (sl sl' : list slot) : Prop := exists a d y r, sl = a ++ SLive d :: r /\ mt sk d = true /\ sl' = rmsl sk a ++ y :: r /\
  (y = SLive d \/ y = SDead (length d) \/ (exists c, y = SCorr (length d) c)).


Lemma list_set_set {A} (l : list A) : forall j a b, list_set (list_set l j a) j b = list_set l j b.
Proof. induction l as [|x l IH]; intros [|j] a b; cbn [list_set]; auto. now rewrite IH. Qed.
Lemma yset_yset Y j a b : j < y_c Y + y_b Y -> yset (yset Y j a) j b = yset Y j b.
Proof.
  intros H. unfold yset. destruct (Nat.ltb_spec j (y_c Y)) as [C|C].
  - unfold y_c. cbn [y_cl y_f y_pt y_k y_bad]. rewrite list_set_length. unfold y_c in C. destruct (Nat.ltb_spec j (length (y_cl Y))); [|lia].
    now rewrite list_set_set.
  - unfold y_c in *. cbn [y_cl y_f y_pt y_k y_bad]. destruct (Nat.ltb_spec j (length (y_cl Y))); [lia|]. reflexivity.
Qed.
Lemma kpk_erase_data h a : kpk (K := K) (erase_data g h a).
Proof. unfold erase_data. apply kpk_bind; [intros s; repeat split|intros; apply kpk_write]. Qed.

Lemma wp_remove_items Y j sl : j < y_c Y + y_b Y -> sl = nth j (uslots Y) [] -> Forall good (live_of sl) -> Forall (fits_buf g B) sl ->
  let p := (y_f Y + j) mod NP in
  forall fuel pre rest pg L s (Q : unit -> st -> Prop) (E : err -> st -> Prop), 
  sl = pre ++ rest -> length rest < fuel -> rmw (yset Y j (rmsl sk pre ++ rest)) pg L s ->
  (forall s' pg', rmw (yset Y j (rmsl sk sl)) pg' (L ++ rmops_sl sk (dstart g p + sizes g pre) rest) s' -> mfr s s' -> Q tt s') ->
  (forall s' pg' sl', cutsl sl sl' -> layok NP (yset Y j sl') pg' ->
     crashed pg' f0 (L ++ rmops_sl sk (dstart g p + sizes g pre) rest) s' -> kwfs s' -> E (EStorage SShutoff) s') ->
  wp (remove_items KO g fuel sk (dstart g p + sizes g pre) (dend g p)) Q E s.
Proof.
  intros Hj NT GD FB p. induction fuel as [|fuel IH]; intros pre rest pg L s Q E SP FU M HQ HC; [lia|].
  pose proof M as (LY & Wd & KH & LB). pose proof (npos g gok) as NPp. assert (Hp : p < NP) by (apply Nat.mod_upper_bound; lia).
  set (Yc := yset Y j (rmsl sk pre ++ rest)) in *.
  assert (Hjc : j < y_c Yc + y_b Yc) by (unfold Yc; rewrite yset_c, yset_b; auto).
  destruct (loc_page g gok Yc pg LY j Hjc) as [US SO]. unfold Yc in US, SO. rewrite (yset_nth Y j) in SO by auto. rewrite yset_f in US, SO. fold p in US, SO.
  destruct Wd as (RW & FW & CO). pose proof (used_body g ws ae aw pg _ p FW Hp US) as BD. rewrite SO in BD.
  destruct (trav_hdr p s _ (rmsl sk pre) rest BD Hp eq_refl) as [TN TS]. rewrite rmsl_sizes in TN, TS.
  cbn [remove_items].
  destruct (first_hdr rest) as [AB|(l & x & r & h & RE & AB & SH)].
  - (* no further header *)
    eapply wp_ok; [exact (TN AB)|]. cbv beta iota. apply wp_ret. destruct (nolive_rm sk rest (bad_nolive _ AB)) as [R1 R2]. apply (HQ s pg); [|apply mfr_refl].
    rewrite R2, app_nil_r, SP, rmsl_app, R1. exact M.
  - eapply wp_ok; [exact (TS l x r h RE AB SH)|]. clear TN TS. cbv beta iota. subst rest.
    destruct (nolive_rm sk l (bad_nolive _ AB)) as [R1 R2].
    assert (FX : fits_buf g B x) by (rewrite SP in FB; apply Forall_app in FB; destruct FB as [_ FB]; apply Forall_app in FB; destruct FB as [_ FB]; now inversion FB).
    assert (FXL : fits_buf g (length (s_buf s)) x) by (revert FX; destruct x; cbn [fits_buf]; auto; lia).
    destruct (body_seg g gok ws _ _ _ BD) as (SG & SC & HE). rewrite app_assoc in SG. apply (seg_app g) in SG. destruct SG as (c & S1 & S2).
    pose proof (seg_end g _ _ _ _ _ S1) as E1. cbn [seg] in S2. destruct S2 as [S2 _].
    assert (AE : dstart g p + sizes g (rmsl sk pre ++ l) = dstart g p + sizes g (pre ++ l)) by (rewrite !sizes_app, rmsl_sizes; reflexivity). rewrite AE in E1. subst c.
    pose proof (dend_lt g gok p). pose proof (pend_FEND g p Hp). pose proof (START_paddr g p).
    assert (AL : al g (dstart g p + sizes g (pre ++ l))) by (apply (al_add g gok); auto with al; now apply sizes_al).
    pose proof (read_item_slot g gok (dend g p) (dstart g p + sizes g (pre ++ l)) s x h ltac:(lia) AL ltac:(unfold dstart; lia) S2 SH FXL) as RI.
    rewrite AE. eapply wp_ok; [exact RI|]. clear RI.
    assert (NXT : dstart g p + sizes g (rmsl sk pre ++ l ++ [x]) = dstart g p + sizes g (pre ++ l ++ [x])) by (rewrite !sizes_app, rmsl_sizes; reflexivity). rewrite NXT.
    assert (SP' : sl = (pre ++ l ++ [x]) ++ r) by (rewrite SP, <- !app_assoc; reflexivity).
    assert (FU' : length r < fuel) by (rewrite app_length in FU; cbn [length] in FU; lia).
    assert (OPS : forall X, rmops_sl sk (dstart g p + sizes g pre) (l ++ x :: r) = X ++ rmops_sl sk (dstart g p + sizes g (pre ++ l ++ [x])) r <-> 
       (match x with SLive d => if mt sk d then [erase_op g (dstart g p + sizes g (pre ++ l)) d] else [] | _ => [] end) = X).
    { intros X. rewrite rmops_sl_app, R2, app_nil_l. cbn [rmops_sl]. replace (dstart g p + sizes g pre + sizes g l) with (dstart g p + sizes g (pre ++ l)) by (rewrite sizes_app; lia).
      replace (dstart g p + sizes g (pre ++ l) + ssize g x) with (dstart g p + sizes g (pre ++ l ++ [x])) by (rewrite !sizes_app, sizes_cons; change (sizes g []) with 0; lia).
      split; [apply app_inv_tail|now intros ->]. }
    destruct (is_live x) eqn:ISL.
    2:{ (* nothing here *)
        assert (RX : rmx sk x = x) by (destruct x; try discriminate ISL; reflexivity).
        match goal with |- wp _ _ _ ?z => set (s2 := z) end.
        assert (exists b, length b = length (s_buf s) /\ s2 = set_buf s b) as (b & LBB & S2E).
        { unfold s2. assert (RUP : rup (h_len h) <= length (s_buf s) \/ exists n, x = SDead n) by (destruct x; try discriminate; cbn [shdr] in SH; injection SH as <-; cbn [fits_buf h_len] in *; eauto).
          destruct x; try discriminate; [exists (s_buf s); split; auto; now rewrite set_buf_self|]. destruct RUP as [RUP|(n' & RUP)]; [|discriminate].
          eexists; split; [|reflexivity]. rewrite put_front_length; rewrite ?rd_length; lia. }
        assert (wp (remove_items KO g fuel sk (dstart g p + sizes g (pre ++ l ++ [x])) (dend g p)) Q E s2) as GOAL; [|destruct x; try discriminate; exact GOAL].
        assert (CUR : rmsl sk (pre ++ l ++ [x]) ++ r = rmsl sk pre ++ l ++ x :: r).
        { rewrite !rmsl_app, R1. cbn [rmsl map]. rewrite RX, <- !app_assoc. reflexivity. }
        eapply (IH (pre ++ l ++ [x]) r pg L); [exact SP'|exact FU'|rewrite CUR, S2E; now apply rmw_buf| |].
        - intros s' pg' M' F'. assert (X : rmops_sl sk (dstart g p + sizes g pre) (l ++ x :: r) = [] ++ rmops_sl sk (dstart g p + sizes g (pre ++ l ++ [x])) r) by (apply OPS; destruct x; try discriminate; reflexivity).
          rewrite X in HQ. apply (HQ s' pg'); auto. eapply mfr_trans; [|exact F']. rewrite S2E. repeat split; auto.
        - intros s' pg' sl' C1 C2 C3 C4. assert (X : rmops_sl sk (dstart g p + sizes g pre) (l ++ x :: r) = [] ++ rmops_sl sk (dstart g p + sizes g (pre ++ l ++ [x])) r) by (apply OPS; destruct x; try discriminate; reflexivity).
          rewrite X in HC. eapply HC; eauto. }
    destruct x as [d| | |]; try discriminate ISL. clear ISL. cbn [item_of]. cbn [shdr] in SH. injection SH as <-.
    assert (Gd : good d) by (rewrite SP in GD; rewrite !live_app in GD; apply Forall_app in GD; destruct GD as [_ GD]; apply Forall_app in GD; destruct GD as [_ GD]; now inversion GD).
    destruct (good_de KO legal KC d Gd) as (k0 & LK0 & DK0 & _ & DE0).
    match goal with |- wp _ _ _ (set_buf s ?z) => set (buf := z) end. 
    destruct (buf_live g gok (f_mem (s_fl s)) (dstart g p + sizes g (pre ++ l)) d (s_buf s)) as [BF BLn]; [apply S2|exact FXL|]. cbn [h_len] in buf. fold buf in BF, BLn.
    assert (MV : forall k (Q2 : bool -> st -> Prop), sk = Some k -> Q2 (mt sk d) (set_buf s buf) -> wp (b <- get_buf ;; kl <- ser_lift (k_de KO b) ;; ret (k_eqb KO (fst kl) k)) Q2 E (set_buf s buf)).
    { intros k Q2 -> X. unfold get_buf. eapply wp_ok; [reflexivity|]. cbv beta. change (s_buf (set_buf s buf)) with buf. 
      destruct (DE0 (skipn (length d) buf)) as [DE1 _]. rewrite <- (buf_split d buf BF) in DE1. rewrite DE1. cbn [ser_lift]. eapply wp_ok; [reflexivity|]. apply wp_ret. cbn [fst]. revert X. cbn [mt]. unfold hask. now rewrite DK0. }
    assert (MW : rmw Yc pg L (set_buf s buf)) by (apply rmw_buf; auto).
    set (CONT := fun m : bool => (if m then erase_data g {| h_len := length d; h_crc := Some (acrc d) |} (dstart g p + sizes g (pre ++ l)) else ret tt) ;;; remove_items KO g fuel sk (dstart g p + sizes g (pre ++ l ++ [SLive d])) (dend g p)).
    assert (REST : wp (CONT (mt sk d)) Q E (set_buf s buf)).
    { unfold CONT. apply wp_bind. destruct (mt sk d) eqn:MT.
      - assert (CUR : rmsl sk (pre ++ l ++ [SLive d]) ++ r = (rmsl sk pre ++ l) ++ SDead (length d) :: r).
        { rewrite !rmsl_app, R1. cbn [rmsl map rmx]. rewrite MT, <- !app_assoc. reflexivity. }
        pose proof (proj2 (OPS [erase_op g (dstart g p + sizes g (pre ++ l)) d]) eq_refl) as OP. 
        assert (SO' : slots_of (pg p) = (rmsl sk pre ++ l) ++ SLive d :: r) by (rewrite SO, app_assoc; reflexivity).
        assert (LYS : forall z, layok NP (yset Y j z) (upd pg p (with_slots (pg p) z))).
        { intros z. pose proof (lay_set NP Yc pg j z NPp LY Hjc) as X. unfold Yc in X. rewrite yset_f, yset_yset in X by auto. exact X. }
        apply wp_kpk; [apply kpk_erase_data|].
        eapply (wp_erase_item g gok ws ae aw p _ d (rmsl sk pre ++ l) r (dstart g p + sizes g (pre ++ l)) pg f0 L); [apply MW|exact Hp|exact US|exact SO'|now rewrite AE|reflexivity| |].
        + intros s3 W3 F3 _ KE3. eapply (IH (pre ++ l ++ [SLive d]) r _ (L ++ [erase_op g (dstart g p + sizes g (pre ++ l)) d])); [exact SP'|exact FU'| | |].
          * split; [|split; [exact W3|split]].
            -- rewrite CUR. apply LYS.
            -- rewrite KE3. exact KH.
            -- destruct F3 as (F3 & _). rewrite F3. change (s_buf (set_buf s buf)) with buf. lia.
          * intros s' pg' M' F'. rewrite OP in HQ. rewrite <- app_assoc in M'. apply (HQ s' pg'); auto. eapply mfr_trans; [|exact F']. apply fr_mfr in F3. eapply mfr_trans; [|exact F3]. repeat split; auto.
          * intros s' pg' sl' C1 C2 C3 C4. rewrite OP in HC. rewrite <- app_assoc in C3. eapply HC; eauto.
        + intros s3 y Hy CR KE3. rewrite OP in HC. eapply (HC s3 _ (rmsl sk (pre ++ l) ++ y :: r)).
          * exists (pre ++ l), d, y, r. split; [now rewrite SP, <- app_assoc|]. auto.
          * apply LYS.
          * rewrite app_assoc. apply crashed_app. rewrite rmsl_app, R1. exact CR.
          * unfold kwfs. rewrite KE3. eapply kcoh_wf. exact KH.
      - apply wp_ret. pose proof (proj2 (OPS []) eq_refl) as OP. 
        assert (CUR : rmsl sk (pre ++ l ++ [SLive d]) ++ r = rmsl sk pre ++ l ++ SLive d :: r).
        { rewrite !rmsl_app, R1. cbn [rmsl map rmx]. rewrite MT, <- !app_assoc. reflexivity. }
        eapply (IH (pre ++ l ++ [SLive d]) r pg L); [exact SP'|exact FU'|rewrite CUR; exact MW| |].
        + intros s' pg' M' F'. rewrite OP in HQ. apply (HQ s' pg'); auto. eapply mfr_trans; [|exact F']. repeat split; auto.
        + intros s' pg' sl' C1 C2 C3 C4. rewrite OP in HC. eapply HC; eauto. }
    apply wp_bind. destruct sk as [k|] eqn:SK.
    + eapply MV; [reflexivity|]. exact REST.
    + apply wp_ret. exact REST.
Qed.
End Items.
End Rem.
