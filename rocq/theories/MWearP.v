(** Map histories without power failures: erase order, write counters, and runs with different caches. *)
From Coq Require Import List NArith ZArith Arith Bool Lia ZifyBool ZifyNat ZifyN.
From Verif Require Import Base BaseP Crc CrcP Flash Cache State Item Generic Map Codec CodecP GeomP ScanP WpP ItemP CalcP PageP WorldP LayP QPushP QRepP QStepP QCallP KeyP MLogP MFetchP MMigP MStoreP MCallP MRemP MRmvP MIterP Client QSpec QObs QHistP QPropsP MClient MSpec MExecP MHistP MObs.
Import ListNotations.
Local Opaque crc16 acrc crc32.

(** Write counters of a layout. *)
Section Wc.
Context (g : geom) (gok : geom_ok g).
Notation NP := (NP g).
Lemma lay_wc Y pg fl : layok NP Y pg -> (forall p, p < NP -> page_is g true fl p (pg p)) -> forall x, START g <= x < FEND g ->
  f_wc fl x <= 2 /\ (yall alive Y -> f_wc fl x <= 1) /\ (1 < f_wc fl x -> exists h, h <= x < h + HL g /\ removed_header fl h).
Proof.
  intros LY FW x Hx. pose proof (npos g gok) as N. pose proof (ES_pos g gok) as E0.
  remember (pindex g x) as p eqn:Ep. assert (Hp : p < NP). { rewrite Ep. unfold pindex. apply Nat.div_lt_upper_bound; [lia|]. unfold FEND in Hx. lia. }
  assert (Hb : paddr g p <= x < pend g p).
  { rewrite Ep. unfold paddr, pend, pindex. pose proof (Nat.div_mod (x - START g) (ES g) ltac:(lia)). pose proof (Nat.mod_upper_bound (x - START g) (ES g) ltac:(lia)). lia. }
  pose proof (FW p Hp) as PI. destruct (page_wc g gok fl p (pg p) PI x Hb) as [A B]. split; auto. split.
  - intros AL. apply B. rewrite (pgof_ok g gok Y pg LY p Hp). unfold pgof. destruct (nth_in_or_default (pos NP (y_f Y) p) (pages Y) POpen) as [I|I]; [|rewrite I; constructor].
    remember (nth (pos NP (y_f Y) p) (pages Y) POpen) as v eqn:Ev. clear Ev.
    unfold pages in I. rewrite !in_app_iff in I. unfold yall, uslots in AL. apply Forall_app in AL. destruct AL as [A1 A2].
    destruct I as [I|[I|[I|I]]].
    + apply in_map_iff in I. destruct I as (sl & <- & I). rewrite Forall_forall in A1. apply A1; auto.
    + apply in_map_iff in I. destruct I as (sl & <- & I). rewrite Forall_forall in A2. apply A2; auto.
    + apply repeat_spec in I. rewrite I. constructor.
    + apply repeat_spec in I. rewrite I. constructor.
  - intros G. pose proof (dstart_lt g gok p). pose proof (dend_lt g gok p).
    assert (BODY : forall sl, body g true fl p sl -> dstart g p <= x < dend g p -> exists h, h <= x < h + HL g /\ removed_header fl h).
    { intros sl (b & SE & _ & BL & C) Hb2. destruct (C eq_refl) as [C1 C2]. pose proof (seg_end g _ _ _ _ _ SE). destruct (Nat.lt_ge_cases x b) as [L|L].
      - eapply wc_two; eauto. lia.
      - destruct (BL x ltac:(lia)) as [_ Z]. rewrite (Z eq_refl) in G. lia. }
    destruct (pg p) as [sl|sl| | |X|X sl]; cbn [page_is] in PI; try (destruct PI; discriminate).
    + destruct PI as (_ & _ & B1 & C). destruct (Nat.lt_ge_cases x (dstart g p)) as [L|L]; [specialize (C eq_refl x ltac:(lia)); lia|].
      destruct (Nat.lt_ge_cases x (dend g p)) as [L2|L2]; [|specialize (C eq_refl x ltac:(lia)); lia]. eapply BODY; eauto.
    + destruct PI as (_ & _ & B1 & C). destruct (C eq_refl) as [C1 C2]. destruct (Nat.lt_ge_cases x (dstart g p)) as [L|L]; [specialize (C1 x ltac:(lia)); lia|].
      destruct (Nat.lt_ge_cases x (dend g p)) as [L2|L2]; [eapply BODY; eauto|]. destruct (C2 x ltac:(lia)) as [_ Z]. rewrite (Z eq_refl) in G. lia.
    + destruct (PI x Hb) as [_ Z]. rewrite (Z eq_refl) in G. lia.
Qed.
Lemma erase_counts fl k : f_er fl = rev (map (rng g) (map (fun i => i mod NP) (seq 0 k))) ->
  forall p p', p < NP -> p' < NP -> erase_count g fl p <= erase_count g fl p' + 1.
Proof.
  intros EK. pose proof (npos g gok) as N.
  assert (CE : forall p, p < NP -> erase_count g fl p = count_occ Nat.eq_dec (map (fun i => i mod NP) (seq 0 k)) p).
  { intros p Hp. unfold erase_count. rewrite EK. generalize (map (fun i => i mod NP) (seq 0 k)). intros L. rewrite <- map_rev.
    rewrite <- (rev_involutive L) at 2. generalize (rev L). clear - gok Hp. intros L. 
    assert (XX : forall L, count_occ Nat.eq_dec (rev L) p = count_occ Nat.eq_dec L p).
    { induction L0 as [|x L0 IH]; auto. cbn [rev]. rewrite count_occ_app, IH. cbn [count_occ]. destruct (Nat.eq_dec x p); lia. }
    rewrite XX. induction L as [|x L IH]; auto. cbn [map filter count_occ rng fst snd]. pose proof (ES_pos g gok).
    destruct (Nat.eq_dec x p) as [->|NE].
    - rewrite !Nat.eqb_refl. cbn [andb length]. now rewrite IH.
    - assert (paddr g x =? paddr g p = false) as ->; [|cbn [andb]; exact IH]. apply Nat.eqb_neq. unfold paddr. intros X. apply NE. nia. }
  intros p p' Hp Hp'. rewrite !CE by auto. rewrite !(count_mod NP) by auto. destruct (p <? _), (p' <? _); lia.
Qed.
End Wc.

Section MWear.
Context (g : geom) (gok : geom_ok g) (ws ae : bool) (aw : nat) (np2 : 2 <= NP g).
Context {K : Type} (KO : keyops K) (legal : K -> Prop) (KC : key_codec KO legal).
Notation NP := (NP g).
Notation HL := (HL g).
Notation st := (st K).
Implicit Types (s : st) (pg : nat -> page) (Y : lay).
Notation yst := (yst g KO).
Notation yrp := (yrp g KO).
Notation yadv := (yadv g KO).
Notation ysto := (ysto g KO).
Notation mgood := (mgood g ws aw KO legal).
Notation mlay := (mlay g ws ae aw KO legal).
Notation acts := (acts g KO).
Notation rot := (rot g).

Definition B0 (n : nat) : lim := mklim n (fun _ => True).
Lemma mgood_B0 n log Y : mgood (Bl KO n log) Y -> mgood (B0 n) Y.
Proof. intros H. eapply mgood_restrict; [| |exact H]; auto. apply Forall_forall. intros; exact I. Qed.
Lemma mcok_B0 n c : mcok g ws aw KO legal n c -> mcallok g ws aw KO legal (B0 n) c.
Proof.
  destruct c as [b k v|b k|b k|b|b bs]; cbn [mcok mcallok]; auto. intros (LK & LB & H). split; auto. split; auto. intros d E. destruct (H d E) as (H1 & H2 & H3).
  split; auto. intros _. exact I.
Qed.

(** Stores on settled layouts. *)
Lemma ysto_settled Y D : nocorr D -> settled Y -> y_bad Y = 0 -> ysto Y D = yst NP Y D.
Proof.
  intros ND (NM & S2) BZ. unfold MCallP.ysto. destruct (yst NP Y D) as [[x L] Y'] eqn:E. destruct x as [u|e]; auto. destruct e; auto. exfalso.
  destruct (y_pt Y) as [sl|] eqn:PT.
  - assert (RD : ready Y) by (split; [eauto|unfold nomig in NM; lia]). destruct (yst_ready g np2 KO _ _ _ _ _ _ ND RD E) as [X _]. now apply X.
  - specialize (S2 eq_refl). assert (NR : exists r, NP = S r) by (exists (NP - 1); lia). destruct NR as (r & NR). rewrite NR in E. cbn [MStoreP.yst] in E. rewrite PT in E. destruct (yst r _ D) as [[x2 L2] Y2] eqn:E2. injection E as -> _ _.
    assert (RD : ready (mklay (y_f Y) (y_cl Y) (Some []) (y_k Y - 1) 0)) by (split; [cbn; eauto|cbn; lia]).
    destruct (yst_ready g np2 KO _ _ _ _ _ _ ND RD E2) as [X _]. now apply X.
Qed.
Lemma ysto_bad Y D : nocorr D -> minv Y -> y_bad Y = 1 -> ysto Y D = (let '(x, L, Y') := ysto (yrep Y) D in (x, rops g Y ++ L, Y')).
Proof.
  intros ND (_ & I2 & I3) BO. pose proof (I3 BO) as I4. destruct (y_pt Y) as [sl|] eqn:PT; [|destruct (I2 eq_refl); lia].
  assert (E1 : yst NP Y D = (Err ECorrupted, [], Y)). { assert (NR : exists r, NP = S r) by (exists (NP - 1); lia). destruct NR as (r & NR). rewrite NR. cbn [MStoreP.yst]. rewrite PT. destruct (Nat.eqb_spec (y_k Y) 0); [reflexivity|lia]. }
  assert (RD : ready (yrep Y)) by (split; [cbn; eauto|cbn; lia]).
  rewrite (ysto_settled (yrep Y) D ND (ready_settled g np2 _ RD) eq_refl). unfold MCallP.ysto. rewrite E1. unfold MStoreP.yrp. rewrite BO. cbn [Nat.eqb app].
  destruct (yst NP (yrep Y) D) as [[x L] Y']. reflexivity.
Qed.

(** Erase order. *)
Lemma des_mops ds : forall a, des (mops g a ds) = [].
Proof. induction ds as [|d ds IH]; intros a; cbn [mops]; auto. rewrite des_app, des_item. apply IH. Qed.
Lemma yadv_rot f cl k : f < NP -> rot f (fst (yadv f cl k)) (y_f (snd (yadv f cl k))) /\ y_f (snd (yadv f cl k)) < NP.
Proof.
  intros Hf. unfold MStoreP.yadv. destruct k as [|k]; [destruct cl as [|src cl]|]; cbn [fst snd y_f ymig]; try (split; auto; apply rot_0; auto; fail).
  split; [|apply Nat.mod_upper_bound; lia]. apply rot_1; auto. unfold migops. rewrite !des_app, des_mops. reflexivity.
Qed.
Lemma yst_rot r : forall Y D x L Y', y_f Y < NP -> yst r Y D = (x, L, Y') -> rot (y_f Y) L (y_f Y') /\ y_f Y' < NP.
Proof.
  induction r as [|r IH]; intros Y D x L Y' Hf H; cbn [MStoreP.yst] in H; [injection H as <- <- <-; split; auto; now apply rot_0|].
  destruct (y_pt Y) as [sl|] eqn:PT.
  - destruct (y_k Y =? 0); [injection H as <- <- <-; split; auto; now apply rot_0|]. destruct D as [d|e]; [|injection H as <- <- <-; split; auto; now apply rot_0].
    destruct (too_big g (length d)); [injection H as <- <- <-; split; auto; now apply rot_0|].
    destruct (fitsb g sl (length d)). { injection H as <- <- <-. split; auto. apply rot_0; auto. apply des_item. }
    destruct (yadv_rot (y_f Y) (y_cl Y ++ [sl]) (y_k Y - 1) Hf) as [R1 R2]. destruct (yadv (y_f Y) (y_cl Y ++ [sl]) (y_k Y - 1)) as [L1 Y1]. cbn [fst snd] in *.
    destruct (yst r Y1 (inl d)) as [[x2 L2] Y2] eqn:E2. injection H as <- <- <-. destruct (IH _ _ _ _ _ R2 E2) as [R3 R4]. split; auto.
    eapply rot_app; eauto.
  - destruct (yst r _ D) as [[x2 L2] Y2] eqn:E2. injection H as <- <- <-. destruct (IH (mklay (y_f Y) (y_cl Y) (Some []) (y_k Y - 1) 0) _ _ _ _ Hf E2) as [R3 R4]. split; auto.

Qed.
Lemma des_rm sk : forall us q, des (rmops g KO sk q us) = [].
Proof.
  assert (X : forall sl a, des (rmops_sl g KO sk a sl) = []).
  { induction sl as [|y sl IH]; intros a; cbn [rmops_sl]; auto. rewrite des_app, IH, app_nil_r. destruct y; auto. destruct (mt KO sk d); auto. }
  induction us as [|sl us IH]; intros q; cbn [rmops]; auto. now rewrite des_app, X, IH.
Qed.
(** New items only. *)
Lemma alive_map ds : Forall alive (map SLive ds).
Proof. induction ds; constructor; auto. reflexivity. Qed.
Lemma yadv_alive f cl k : Forall (Forall alive) cl -> yall alive (snd (yadv f cl k)).
Proof.
  intros A. unfold MStoreP.yadv, yall, uslots. destruct k as [|k]; [destruct cl as [|src cl]|]; cbn [fst snd ymig y_cl y_pt ptl]; apply Forall_app; split; auto.
  - now inversion A.
  - constructor; auto. apply alive_map.
Qed.
Lemma yst_alive r : forall Y D x L Y', yall alive Y -> yst r Y D = (x, L, Y') -> yall alive Y'.
Proof.
  induction r as [|r IH]; intros Y D x L Y' A H; cbn [MStoreP.yst] in H; [injection H as <- <- <-; auto|].
  assert (A2 : Forall (Forall alive) (y_cl Y) /\ Forall (Forall alive) (ptl (y_pt Y))) by (unfold yall, uslots in A; now apply Forall_app in A). destruct A2 as [A2 A3].
  destruct (y_pt Y) as [sl|] eqn:PT.
  - destruct (y_k Y =? 0); [injection H as <- <- <-; auto|]. destruct D as [d|e]; [|injection H as <- <- <-; auto].
    destruct (too_big g (length d)); [injection H as <- <- <-; auto|]. cbn [ptl] in A3. inversion A3 as [|? ? A4 _]; subst.
    destruct (fitsb g sl (length d)).
    { injection H as <- <- <-. unfold yall, uslots, y_put, y_sl. cbn [y_cl y_pt]. rewrite PT. cbn [ptl]. apply Forall_app. split; auto. constructor; auto. apply Forall_app. split; auto. constructor; auto. reflexivity. }
    pose proof (yadv_alive (y_f Y) (y_cl Y ++ [sl]) (y_k Y - 1) ltac:(apply Forall_app; split; auto)) as R. destruct (yadv (y_f Y) (y_cl Y ++ [sl]) (y_k Y - 1)) as [L1 Y1]. cbn [fst snd] in *.
    destruct (yst r Y1 (inl d)) as [[x2 L2] Y2] eqn:E2. injection H as <- <- <-. eauto.
  - destruct (yst r _ D) as [[x2 L2] Y2] eqn:E2. injection H as <- <- <-. eapply IH; [|exact E2]. unfold yall, uslots. cbn. apply Forall_app. split; auto.
Qed.

Definition nodel (c : mcall K) : Prop := match c with MRemove _ _ | MRemoveAll _ => False | _ => True end.
Lemma acts_rot c Y a L Y' : settled Y -> y_bad Y = 0 -> y_f Y < NP -> acts c Y a L Y' -> rot (y_f Y) L (y_f Y') /\ (nodel c -> yall alive Y -> yall alive Y').
Proof.
  intros SE BZ Hf AC. destruct (rops_0 g Y BZ) as [R0 R1]. destruct c as [b k v|b k|b k|b|b bs]; cbn [MExecP.acts nodel] in *.
  - destruct AC as (x & -> & E). rewrite ysto_settled in E by auto using dser_nocorr. split; [eapply yst_rot; eauto|]. intros _ A. eapply yst_alive; eauto.
  - destruct AC as (_ & [[-> ->]|(X & _)]); [|lia]. split; auto. now apply rot_0.
  - destruct AC as (_ & -> & ->). rewrite R0, R1. split; [|intros []]. apply rot_0; auto. apply des_rm.
  - destruct AC as (_ & -> & ->). rewrite R0, R1. split; [|intros []]. apply rot_0; auto. apply des_rm.
  - destruct AC as (_ & -> & ->). split; auto. now apply rot_0.
Qed.

(** * Two runs *)
Lemma run_fuel ops : forall f f', f_fuel f = None -> run g f ops = (None, f') -> f_fuel f' = None.
Proof.
  induction ops as [|o ops IH]; intros f f' F H; cbn [run] in H; [congruence|]. destruct (run1 g f o) as [[e|] f1] eqn:R; [discriminate|]. eapply IH; [|exact H].
  destruct o; cbn [run1] in R.
  - unfold dev_write, spend in R. rewrite F in R. destruct (chk _ _ _ _); [discriminate|]. now injection R as <-.
  - unfold dev_erase, spend in R. rewrite F in R. destruct (chk _ _ _ _); [discriminate|]. now injection R as <-.
Qed.
Definition near Y1 (f1 : flash) Y2 (f2 : flash) : Prop :=
  (Y1 = Y2 /\ f1 = f2) \/ (y_bad Y1 = 1 /\ Y2 = yrep Y1 /\ run g f1 (rops g Y1) = (None, f2)) \/ (y_bad Y2 = 1 /\ Y1 = yrep Y2 /\ run g f2 (rops g Y2) = (None, f1)).
Lemma near_sym Y1 f1 Y2 f2 : near Y1 f1 Y2 f2 -> near Y2 f2 Y1 f1.
Proof. intros [[-> ->]|[H|H]]; [now left|right; now right|right; now left]. Qed.
Lemma near_rep Y1 f1 Y2 f2 : near Y1 f1 Y2 f2 -> yrep Y1 = yrep Y2.
Proof. intros [[-> ->]|[(A & -> & _)|(A & -> & _)]]; auto; unfold yrep; cbn; f_equal; lia. Qed.
(** The same operations after the repair. *)
Lemma near_run Y1 f1 Y2 f2 L f1' f2' : near Y1 f1 Y2 f2 -> run g f1 (rops g Y1 ++ L) = (None, f1') -> run g f2 (rops g Y2 ++ L) = (None, f2') -> f1' = f2'.
Proof.
  intros [[-> ->]|[(A & -> & R)|(A & -> & R)]] H1 H2; [congruence| |].
  - rewrite run_app, R in H1. change (rops g (yrep Y1)) with (@nil dop) in H2. cbn in H2. congruence.
  - rewrite run_app, R in H2. change (rops g (yrep Y2)) with (@nil dop) in H1. cbn in H1. congruence.
Qed.
Lemma cov_false t (c : mcall K) : covered false t c None -> covered ae t c None.
Proof. destruct c; cbn [covered]; auto; intros [A [B|B]]; try discriminate; auto. Qed.
Definition okmode (t : mode) (c : mcall K) : mode :=
  match c with MStore _ _ _ => calm0 | MFetch _ _ => mkmode (sure t) true (whole t) | MIter _ _ => t | _ => mkmode (sure t) true true end.
Definition side n (t : mode) Y s : Prop := mlay (fresh t) Y s /\ mgood (B0 n) Y /\ (whole t = true -> y_bad Y = 0).
Definition two n (t1 t2 : mode) s1 s2 : Prop := exists Y1 Y2, side n t1 Y1 s1 /\ side n t2 Y2 s2 /\ near Y1 (s_fl (power s1 None)) Y2 (s_fl (power s2 None)).

Lemma side_step n t Y s c a s' : side n t Y s -> mcok g ws aw KO legal n c -> covered ae t c None -> m_exec KO g c (power s None) = (a, s') ->
  exists L Y', acts c Y a L Y' /\ run g (s_fl (power s None)) L = (None, s_fl s') /\ side n (okmode t c) Y' s' /\ s_fl (power s' None) = s_fl s'.
Proof.
  intros (ML & MG & WH) CO CV E.
  assert (PR : mpre ae c None (fresh t) Y). { pose proof (mlay_whole g gok ws ae aw np2 KO legal _ _ _ ML) as AE. destruct c; cbn [MSpec.covered mpre] in *; tauto. }
  destruct (exec_spec g gok ws ae aw np2 KO legal KC (B0 n) c None (fresh t) Y s a s' ML MG (mcok_B0 n c CO) PR (fun _ => eq_refl) E) as [(L & Y' & AC & ML' & MG' & R)|(_ & _ & X & _)].
  2:{ exfalso. apply X. reflexivity. }
  exists L, Y'. split; auto. split; auto. assert (FU : f_fuel (s_fl s') = None) by (eapply run_fuel; [|exact R]; reflexivity). split.
  2:{ unfold power. cbn. destruct (s_fl s'). cbn in *. now subst. }
  split; [|split; auto].
  - assert (WK : forall b, mlay b Y' s'). { intros [|]; auto. destruct ML' as (pg & X1 & X2 & X3 & X4 & X5). exists pg. repeat (split; auto); discriminate. } apply WK.
  - intros W. pose proof ML as (pg & LY & _). destruct c as [b k v|b k|b k|b|b bs]; cbn [MExecP.acts okmode whole] in *.
    + destruct AC as (x & -> & YS). destruct (ysto_ok g gok ws aw np2 KO legal KC (B0 n) Y pg _ x L Y' LY MG (dser_nocorr KO (length b) k v) YS) as (RD & _).
      apply (ready_bad g); auto; [apply MG'|eapply mlay_bad; eauto].
    + destruct AC as (_ & [[-> _]|(X & -> & _)]); auto.
    + destruct AC as (_ & -> & _). reflexivity.
    + destruct AC as (_ & -> & _). reflexivity.
    + destruct AC as (_ & -> & _). auto.
Qed.
Lemma content_rep Y1 Y2 : yrep Y1 = yrep Y2 -> content Y1 = content Y2.
Proof. intros H. rewrite <- (yrep_content Y1), H. apply yrep_content. Qed.
Lemma ysto_rep Y D x L Y' : nocorr D -> minv Y -> y_bad Y <= 1 -> ysto Y D = (x, L, Y') -> exists L0, L = rops g Y ++ L0 /\ ysto (yrep Y) D = (x, L0, Y').
Proof.
  intros ND MI BB H. destruct (Nat.eq_dec (y_bad Y) 1) as [E|E].
  - rewrite ysto_bad in H by auto. destruct (ysto (yrep Y) D) as [[x0 L0] Y0]. injection H as <- <- <-. eauto.
  - destruct (rops_0 g Y ltac:(lia)) as [R0 R1]. rewrite R1. exists L. rewrite R0. auto.
Qed.
Lemma two_step n t1 t2 s1 s2 c a1 a2 s1' s2' : two n t1 t2 s1 s2 -> mcok g ws aw KO legal n c -> covered ae t1 c None -> covered ae t2 c None ->
  m_exec KO g c (power s1 None) = (a1, s1') -> m_exec KO g c (power s2 None) = (a2, s2') -> a1 = a2 /\ two n (okmode t1 c) (okmode t2 c) s1' s2'.
Proof.
  intros (Y1 & Y2 & S1 & S2 & NR) CO C1 C2 E1 E2. pose proof (near_rep _ _ _ _ NR) as RP.
  destruct (side_step n t1 Y1 s1 c a1 s1' S1 CO C1 E1) as (L1 & Y1' & A1 & R1 & S1' & P1).
  destruct (side_step n t2 Y2 s2 c a2 s2' S2 CO C2 E2) as (L2 & Y2' & A2 & R2 & S2' & P2).
  assert (B1 : y_bad Y1 <= 1) by (destruct S1 as (X & _); eapply mlay_bad; eauto). assert (B2 : y_bad Y2 <= 1) by (destruct S2 as (X & _); eapply mlay_bad; eauto).
  assert (EQ : a1 = a2 -> Y1' = Y2' -> s_fl s1' = s_fl s2' -> a1 = a2 /\ two n (okmode t1 c) (okmode t2 c) s1' s2').
  { intros A B C. split; auto. exists Y1', Y2'. split; auto. split; auto. left. split; auto. congruence. }
  destruct c as [b k v|b k|b k|b|b bs]; cbn [MExecP.acts] in A1, A2.
  - destruct A1 as (x1 & -> & Q1). destruct A2 as (x2 & -> & Q2).
    destruct (ysto_rep Y1 _ _ _ _ (dser_nocorr KO (length b) k v) ltac:(apply S1) B1 Q1) as (M1 & -> & Q1').
    destruct (ysto_rep Y2 _ _ _ _ (dser_nocorr KO (length b) k v) ltac:(apply S2) B2 Q2) as (M2 & -> & Q2').
    rewrite RP, Q2' in Q1'. injection Q1' as <- <- <-. apply EQ; auto. eapply near_run; eauto.
  - destruct A1 as (-> & Q1). destruct A2 as (-> & Q2). split; [now rewrite (content_rep _ _ RP)|]. exists Y1', Y2'. split; auto. split; auto. rewrite P1, P2.
    remember (s_fl (power s1 None)) as f1 eqn:F1. remember (s_fl (power s2 None)) as f2 eqn:F2. clear F1 F2.
    destruct Q1 as [[-> ->]|(X1 & -> & ->)], Q2 as [[-> ->]|(X2 & -> & ->)]; cbn [run] in R1, R2.
    + replace (s_fl s1') with f1 by congruence. replace (s_fl s2') with f2 by congruence. exact NR.
    + replace (s_fl s1') with f1 by congruence. destruct NR as [[-> NE]|[(Z1 & -> & _)|(_ & -> & Z)]].
      * right; left. rewrite NE. auto.
      * cbn in X2. lia.
      * left. split; auto. congruence.
    + replace (s_fl s2') with f2 by congruence. destruct NR as [[-> NE]|[(_ & -> & Z)|(Z1 & -> & _)]].
      * right; right. rewrite <- NE. auto.
      * left. split; auto. congruence.
      * cbn in X1. lia.
    + left. split; auto. destruct NR as [[-> NE]|[(_ & -> & Z)|(_ & -> & Z)]]; [rewrite NE in R1; congruence| |]; cbn in X1, X2; lia.
  - destruct A1 as (-> & -> & ->). destruct A2 as (-> & -> & ->). apply EQ; auto; [now rewrite RP|].
    assert (EU : uslots Y1 = uslots Y2 /\ y_f Y1 = y_f Y2) by (unfold uslots; injection RP as X1 X2 X3 _; now rewrite X1, X2, X3). destruct EU as [EU EF]. rewrite EU, EF in R1. eapply near_run; eauto.
  - destruct A1 as (-> & -> & ->). destruct A2 as (-> & -> & ->). apply EQ; auto; [now rewrite RP|].
    assert (EU : uslots Y1 = uslots Y2 /\ y_f Y1 = y_f Y2) by (unfold uslots; injection RP as X1 X2 X3 _; now rewrite X1, X2, X3). destruct EU as [EU EF]. rewrite EU, EF in R1. eapply near_run; eauto.
  - destruct A1 as (-> & -> & ->). destruct A2 as (-> & -> & ->). split; [now rewrite (content_rep _ _ RP)|]. exists Y1, Y2. split; auto. split; auto. rewrite P1, P2. cbn [run] in R1, R2. injection R1 as R1. injection R2 as R2. rewrite <- R1, <- R2. exact NR.
Qed.
Lemma two_boot n t1 t2 s1 s2 c : fresh_cache NP c -> two n t1 t2 s1 s2 -> two n (mkmode (sure t1) true (whole t1)) t2 (set_ca s1 c) s2.
Proof. intros F (Y1 & Y2 & (A & B & C) & S2 & NR). exists Y1, Y2. split; [|split; auto]. split; [cbn [fresh]; eapply mlay_boot; eauto|]. split; auto. Qed.
Lemma two_sym n t1 t2 s1 s2 : two n t1 t2 s1 s2 -> two n t2 t1 s2 s1.
Proof. intros (Y1 & Y2 & A & B & C). exists Y2, Y1. split; auto. split; auto. now apply near_sym. Qed.
Fixpoint okmodes (t : mode) (evs : list (mev K)) : mode :=
  match evs with [] => t | MCall c _ :: e => okmodes (okmode t c) e | MBoot _ :: e => okmodes (mkmode (sure t) true (whole t)) e end.
Definition mevok2 n (e : mev K) : Prop := match e with MCall c _ => mcok g ws aw KO legal n c | MBoot c => fresh_cache NP c end.
Theorem two_hist m n : forall evs1 evs2 t1 t2 s1 s2 l1 l2 s1' s2', length evs1 + length evs2 <= m -> m_calls evs1 = m_calls evs2 ->
  Forall (mevok2 n) evs1 -> Forall (mevok2 n) evs2 -> easy t1 evs1 -> easy t2 evs2 -> two n t1 t2 s1 s2 ->
  m_run KO g s1 evs1 = (l1, s1') -> m_run KO g s2 evs2 = (l2, s2') ->
  l1 = l2 /\ two n (okmodes t1 evs1) (okmodes t2 evs2) s1' s2'.
Proof.
  induction m as [|m IH]; intros evs1 evs2 t1 t2 s1 s2 l1 l2 s1' s2' LN EC V1 V2 Z1 Z2 TW E1 E2.
  { destruct evs1, evs2; cbn in LN; try lia. cbn in E1, E2. injection E1 as <- <-. injection E2 as <- <-. auto. }
  destruct evs1 as [|[c1 p1|c1] evs1].
  - destruct evs2 as [|[c2 p2|c2] evs2]; [|discriminate|].
    + cbn in E1, E2. injection E1 as <- <-. injection E2 as <- <-. auto.
    + inversion V2; subst. cbn [m_run] in E2. cbn [easy okmodes] in *. eapply (IH [] evs2 t1 _ s1 (set_ca s2 c2)); eauto; [cbn in LN |- *; lia|]. apply two_sym, two_boot; auto. now apply two_sym.
  - destruct evs2 as [|[c2 p2|c2] evs2]; [discriminate| |].
    + cbn [m_calls flat_map app] in EC. injection EC as <- <- EC. inversion V1 as [|? ? CO V1']; subst. inversion V2 as [|? ? _ V2']; subst. cbn [easy] in Z1, Z2. destruct Z1 as (-> & K1 & Z1). destruct Z2 as (_ & K2 & Z2).
      cbn [m_run] in E1, E2. destruct (m_exec KO g c1 (power s1 None)) as [a1 u1] eqn:X1. destruct (m_exec KO g c1 (power s2 None)) as [a2 u2] eqn:X2.
      destruct (m_run KO g u1 evs1) as [k1 w1] eqn:R1. destruct (m_run KO g u2 evs2) as [k2 w2] eqn:R2. injection E1 as <- <-. injection E2 as <- <-.
      destruct (two_step n _ _ _ _ _ _ _ _ _ TW CO (cov_false _ _ K1) (cov_false _ _ K2) X1 X2) as [-> TW']. cbn [okmodes]. destruct (IH evs1 evs2 (okmode t1 c1) (okmode t2 c1) u1 u2 k1 k2 w1 w2) as [-> TW2]; auto; cbn in LN; lia.
    + inversion V2; subst. cbn [m_run] in E2. cbn [easy okmodes] in *. eapply (IH (MCall c1 p1 :: evs1) evs2 t1 _ s1 (set_ca s2 c2)); eauto; [cbn in LN |- *; lia|]. apply two_sym, two_boot; auto. now apply two_sym.
  - inversion V1; subst. cbn [m_run] in E1. cbn [easy okmodes] in *. eapply (IH evs1 evs2 _ t2 (set_ca s1 c1) s2); eauto; [cbn in LN |- *; lia|]. now apply two_boot.
Qed.
Lemma two_eq n t1 t2 s1 s2 : two n t1 t2 s1 s2 -> whole t1 = true -> whole t2 = true -> s_fl (power s1 None) = s_fl (power s2 None).
Proof.
  intros (Y1 & Y2 & (_ & _ & W1) & (_ & _ & W2) & NR) T1 T2. specialize (W1 T1). specialize (W2 T2). destruct NR as [[_ E]|[(X & _)|(X & _)]]; auto; lia.
Qed.
Lemma easy_calm (evs : list (mev K)) : Forall (fun e => match e with MCall _ p => p = None | MBoot _ => True end) evs -> easy calm0 evs /\ okmodes calm0 evs = calm0.
Proof.
  induction 1 as [|[c p|c] evs H _ [I1 I2]]; cbn [easy okmodes]; auto.
  assert (E : okmode calm0 c = calm0) by (destruct c; reflexivity). unfold okmode in E. split; [split; auto; split; [destruct c; cbn; auto|]|]; [now rewrite E|]. fold (okmode calm0 c) in E. now rewrite E.
Qed.
Lemma easy_fresh (evs : list (mev K)) : forall t, easy t evs -> easy (mkmode (sure t) true (whole t)) evs.
Proof.
  induction evs as [|[c p|c] evs IH]; intros t; cbn [easy]; auto. intros (P & C & Z). split; auto. split; [destruct c; cbn in *; tauto|]. destruct c; auto.
Qed.

(** Histories without power failures. *)
Lemma wear_hist n (evs : list (mev K)) : ws = true -> forall Y s l s', side n calm0 Y s -> settled Y -> Forall (mevok2 n) evs -> easy calm0 evs -> m_run KO g s evs = (l, s') ->
  exists Y', side n calm0 Y' s' /\ settled Y' /\ (exists ops, f_er (s_fl s') = rev (map (rng g) (des ops)) ++ f_er (s_fl s) /\ rot (y_f Y) ops (y_f Y')) /\
    (Forall mkeeps evs -> yall alive Y -> yall alive Y').
Proof.
  intros WS. induction evs as [|[c p|c] evs IH]; intros Y s l s' SD SE EV EZ E; cbn [m_run] in E.
  - injection E as <- <-. exists Y. split; auto. split; auto. split; auto. exists []. split; auto. destruct SD as ((pg & LY & _) & _). apply rot_0; auto. apply LY.
  - inversion EV as [|? ? CO EV']; subst. cbn [easy] in EZ. destruct EZ as (-> & CV & EZ). destruct (m_exec KO g c (power s None)) as [a s1] eqn:E1. destruct (m_run KO g s1 evs) as [l2 s2] eqn:E2. injection E as <- <-.
    destruct (side_step n calm0 Y s c a s1 SD CO (cov_false _ _ CV) E1) as (L & Y1 & AC & R & SD1 & _). assert (OM : okmode calm0 c = calm0) by (destruct c; reflexivity). fold (okmode calm0 c) in EZ. rewrite OM in *.
    assert (BZ : y_bad Y = 0) by (now apply SD). assert (Hf : y_f Y < NP) by (destruct SD as ((pg & LY & _) & _); apply LY).
    destruct (acts_rot c Y a L Y1 SE BZ Hf AC) as [RT AL].
    assert (SE1 : settled Y1).
    { pose proof SD as ((pg & LY & _) & MG & _). destruct (rops_0 g Y BZ) as [_ RY]. destruct c as [b k v|b k|b k|b|b bs]; cbn [MExecP.acts] in AC.
      - destruct AC as (x & -> & YS). destruct (ysto_ok g gok ws aw np2 KO legal KC (B0 n) Y pg _ x L Y1 LY MG (dser_nocorr KO (length b) k v) YS) as (RD & _). now apply (ready_settled g np2).
      - destruct AC as (_ & [[-> _]|(X & _)]); auto. lia.
      - destruct AC as (_ & -> & _). rewrite RY. now apply rm_settled.
      - destruct AC as (_ & -> & _). rewrite RY. now apply rm_settled.
      - destruct AC as (_ & -> & _). auto. }
    destruct (IH Y1 s1 _ _ SD1 SE1 EV' EZ E2) as (Y' & SD' & SE' & (ops2 & EO & RO) & AL').
    exists Y'. split; auto. split; auto. split.
    + exists (L ++ ops2). split; [|eapply rot_app; eauto]. rewrite EO. rewrite (run_er _ _ _ _ R). rewrite des_app, map_app, rev_app_distr, <- app_assoc. reflexivity.
    + intros F A. inversion F; subst. apply AL'; auto.
  - inversion EV as [|? ? CF EV']; subst. cbn [easy] in EZ. destruct SD as (A & B & C).
    destruct (IH Y (set_ca s c) l s' (conj (mlay_boot g ws ae aw np2 KO legal _ _ _ _ CF A) (conj B C)) SE EV' EZ E) as (Y' & SD' & SE' & RT & AL). exists Y'. split; auto. split; auto. split; auto.
    intros F. inversion F; subst. auto.
Qed.
End MWear.
