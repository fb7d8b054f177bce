(** Abstract pages and what flash operations do to them. *)
From Coq Require Import List NArith ZArith Arith Bool Lia ZifyBool ZifyNat ZifyN.
From Verif Require Import Base BaseP Crc CrcP Flash Cache State Item Generic GeomP ScanP WpP ItemP CalcP.
Import ListNotations.
Local Opaque crc16 acrc crc32.

(** A page: closed or partially open with its slots, erased, or half-erased.  [PStale X]: a partially open page with the slots [X]
    of which the front was erased, so that it looks open; [PJunk X sl]: such a page that was marked as partially open again and
    now reads as the slots [sl]. *)
Inductive page := PClosed (sl : list slot) | PPart (sl : list slot) | POpen | PBad | PStale (X : list slot) | PJunk (X sl : list slot).

Definition st_of (x : page) : option pstate :=
  match x with
  | PClosed _ => Some Closed
  | PPart _ | PJunk _ _ => Some PartialOpen
  | POpen | PStale _ => Some Open
  | PBad => None
  end.
Definition slots_of (x : page) : list slot := match x with PClosed sl | PPart sl | PJunk _ sl => sl | _ => [] end.
Definition with_slots (x : page) (sl : list slot) : page :=
  match x with PClosed _ => PClosed sl | PPart _ => PPart sl | y => y end.

Definition clean (s : slot) : Prop := match s with SLive _ | SDead _ => True | _ => False end.

Lemma count_zeros_0 : count_zeros 0 = 8. Proof. reflexivity. Qed.
Lemma count_zeros_255 : count_zeros 255 = 0. Proof. reflexivity. Qed.
Lemma marked_zero l : In 0%N l -> marked l = true.
Proof.
  intros H. unfold marked. apply Nat.leb_le. induction l as [|x l IH]; [contradiction|].
  cbn [map list_sum fold_right]. unfold list_sum in *. destruct H as [->|H].
  - rewrite count_zeros_0. lia.
  - apply IH in H. lia.
Qed.
Lemma marked_ff l : (forall x, In x l -> x = 255%N) -> marked l = false.
Proof.
  intros H. unfold marked. apply Nat.leb_gt. assert (E : list_sum (map count_zeros l) = 0).
  { induction l as [|x l IH]; auto. cbn [map list_sum fold_right]. unfold list_sum in *. rewrite (H x) by (left; auto).
    rewrite count_zeros_255. cbn. apply IH. intros. apply H. now right. }
  rewrite E. lia.
Qed.
Lemma marked_rd_ff m a n : ff_on m a (a + n) -> marked (rd m a n) = false.
Proof. intros H. apply marked_ff. intros x Hx. rewrite rd_ff in Hx by auto. now apply repeat_spec in Hx. Qed.
Lemma marked_rd_zero m a n x : a <= x < a + n -> m x = 0%N -> marked (rd m a n) = true.
Proof. intros H Z. apply marked_zero. rewrite <- Z. unfold rd. apply in_map. apply in_seq. lia. Qed.
(** Erasing bytes only removes zero bits. *)
Lemma marked_mono m m' a n : (forall x, m' x = m x \/ m' x = 255%N) -> marked (rd m' a n) = true -> marked (rd m a n) = true.
Proof.
  intros H. unfold marked. rewrite !Nat.leb_le. intros L. eapply Nat.le_trans; [exact L|]. clear L. unfold rd.
  rewrite !map_map. induction (seq a n) as [|x l IH]; cbn [map list_sum fold_right]; auto. unfold list_sum in *.
  assert (count_zeros (m' x) <= count_zeros (m x)).
  { destruct (H x) as [->| ->]; auto. rewrite count_zeros_255. lia. }
  lia.
Qed.

Section Page.
Context (g : geom) (gok : geom_ok g) (ws : bool).
Notation W := (W g).
Notation HL := (HL g).
Notation rup := (rup g).

Definition blank (fl : flash) (x : nat) : Prop := f_mem fl x = 255%N /\ (ws = true -> f_wc fl x = 0).
Definition blank_on (fl : flash) (lo hi : nat) : Prop := forall x, lo <= x < hi -> blank fl x.

(** Write counters of slots: data at most once, headers at most twice, headers of live items once. *)
Fixpoint wc_slots (wc : nat -> nat) (a : nat) (sl : list slot) : Prop :=
  match sl with
  | [] => True
  | s :: t => (forall x, a <= x < a + HL -> wc x <= (if is_live s then 1 else 2)) /\
              (forall x, a + HL <= x < a + ssize g s -> wc x <= 1) /\ wc_slots wc (a + ssize g s) t
  end.

Definition body (fl : flash) (p : nat) (sl : list slot) : Prop :=
  exists b, seg g (f_mem fl) (dend g p) (dstart g p) sl b /\ Forall (solid g) sl /\ blank_on fl b (dend g p) /\
    (ws = true -> Forall clean sl /\ wc_slots (f_wc fl) (dstart g p) sl).

(** The end-marker word: zero on [lo, hi), erased elsewhere. *)
Definition endz (m : nat -> N) (p lo hi : nat) : Prop :=
  dend g p <= lo /\ lo <= hi /\ hi <= pend g p /\
  (forall x, lo <= x < hi -> m x = 0%N) /\
  (forall x, dend g p <= x < pend g p -> x < lo \/ hi <= x -> m x = 255%N).

(** Slots that may be read on a page with the slots [X] after its front was erased: the same live items or fewer. *)
Definition jslots (X sl : list slot) : Prop :=
  Forall (solid g) sl /\ (forall d, In (SLive d) sl -> In (SLive d) X) /\ (forall n, Forall (fits_buf g n) X -> Forall (fits_buf g n) sl).
Definition jbody (m : nat -> N) (p : nat) (sl : list slot) : Prop :=
  exists b, seg g m (dend g p) (dstart g p) sl b /\ hdr_at g m (dend g p) b = HEnd.
(** However much of the front is erased. *)
Definition jmem (m : nat -> N) (p : nat) (X : list slot) : Prop :=
  forall j, exists sl, jbody (mem_ff m (dstart g p) j) p sl /\ jslots X sl.

Definition page_is (fl : flash) (p : nat) (x : page) : Prop :=
  let m := f_mem fl in
  match x with
  | PStale X => ws = false /\ marked (rd m (paddr g p) (RS g)) = false /\
      ff_on m (pend g p - RS g) (pend g p) /\ jmem m p X
  | PJunk X sl => ws = false /\ marked (rd m (paddr g p) (RS g)) = true /\
      ff_on m (pend g p - RS g) (pend g p) /\ jmem m p X /\ jbody m p sl /\ jslots X sl
  | PClosed sl => marked (rd m (paddr g p) (RS g)) = true /\
      (exists hi, endz m p (dend g p) hi /\ pend g p - RS g < hi) /\ body fl p sl /\
      (ws = true -> forall y, paddr g p <= y < dstart g p \/ dend g p <= y < pend g p -> f_wc fl y <= 1)
  | PPart sl => marked (rd m (paddr g p) (RS g)) = true /\
      (exists hi, endz m p (dend g p) hi /\ hi <= pend g p - RS g) /\ body fl p sl /\
      (ws = true -> (forall y, paddr g p <= y < dstart g p -> f_wc fl y <= 1) /\ blank_on fl (dend g p) (pend g p))
  | POpen => blank_on fl (paddr g p) (pend g p)
  | PBad => ws = false /\ marked (rd m (paddr g p) (RS g)) = false /\
      exists lo hi, endz m p lo hi /\ lo < hi /\ pend g p - RS g < hi
  end.

Definition eq_on (fl fl' : flash) (lo hi : nat) : Prop :=
  forall x, lo <= x < hi -> f_mem fl' x = f_mem fl x /\ f_wc fl' x = f_wc fl x.

Lemma eq_on_sub fl fl' lo hi lo' hi' : eq_on fl fl' lo hi -> lo <= lo' -> hi' <= hi -> eq_on fl fl' lo' hi'.
Proof. intros H A B x Hx. apply H. lia. Qed.
Lemma eq_on_mem fl fl' lo hi : eq_on fl fl' lo hi -> same_on (f_mem fl) (f_mem fl') lo hi.
Proof. intros H x Hx. now apply H. Qed.
Lemma blank_on_ext fl fl' lo hi : eq_on fl fl' lo hi -> blank_on fl lo hi -> blank_on fl' lo hi.
Proof. intros H B x Hx. destruct (H x Hx) as [E1 E2]. unfold blank. rewrite E1, E2. now apply B. Qed.
Lemma blank_on_sub fl lo hi lo' hi' : blank_on fl lo hi -> lo <= lo' -> hi' <= hi -> blank_on fl lo' hi'.
Proof. intros H A B x Hx. apply H. lia. Qed.
Lemma blank_ff fl lo hi : blank_on fl lo hi -> ff_on (f_mem fl) lo hi.
Proof. intros H x Hx. now apply H. Qed.

Lemma wc_slots_ext wc wc' sl : forall a, (forall x, a <= x < a + list_sum (map (fun s => Nat.max HL (ssize g s)) sl) + HL -> wc' x = wc x) ->
  wc_slots wc a sl -> wc_slots wc' a sl.
Proof.
  induction sl as [|s sl IH]; intros a H C; cbn [wc_slots map list_sum fold_right] in *; auto.
  destruct C as (C1 & C2 & C3). unfold list_sum in *. repeat split.
  - intros x Hx. rewrite H by lia. auto.
  - intros x Hx. rewrite H by lia. auto.
  - apply IH; auto. intros x Hx. apply H. lia.
Qed.
Lemma wc_slots_ext' wc wc' sl a : (forall x, a <= x < a + sizes g sl -> wc' x = wc x) -> Forall (solid g) sl ->
  wc_slots wc a sl -> wc_slots wc' a sl.
Proof.
  revert a. induction sl as [|s sl IH]; intros a H F C; cbn [wc_slots] in *; auto. inversion F; subst.
  unfold sizes in H. cbn [map list_sum fold_right] in H. fold (list_sum (map (ssize g) sl)) in H. fold (sizes g sl) in H.
  pose proof (solid_HL g gok s H2). destruct C as (C1 & C2 & C3). repeat split.
  - intros x Hx. rewrite H by lia. auto.
  - intros x Hx. rewrite H by lia. auto.
  - apply IH; auto. intros x Hx. apply H. lia.
Qed.
Lemma wc_slots_app wc a s1 s2 : wc_slots wc a (s1 ++ s2) <-> wc_slots wc a s1 /\ wc_slots wc (a + sizes g s1) s2.
Proof.
  revert a. induction s1 as [|s s1 IH]; intros a; cbn [app wc_slots].
  - unfold sizes. cbn. rewrite Nat.add_0_r. tauto.
  - rewrite IH. unfold sizes. cbn [map list_sum fold_right]. rewrite Nat.add_assoc. unfold list_sum. tauto.
Qed.

Lemma body_ext fl fl' p sl : eq_on fl fl' (dstart g p) (dend g p) -> body fl p sl -> body fl' p sl.
Proof.
  intros H (b & S & F & B & Wc). pose proof (seg_end g _ _ _ _ _ S) as Eb. pose proof (dstart_lt g gok p).
  pose proof (seg_le_end g gok _ _ _ _ _ S) as L. exists b. split; [|split; [auto|split]].
  - apply (seg_ext g gok (f_mem fl)); auto. apply eq_on_mem; auto.
  - eapply blank_on_ext; [|exact B]. eapply eq_on_sub; [exact H| |]; lia.
  - intros E. destruct (Wc E) as [C1 C2]. split; auto. apply (wc_slots_ext' (f_wc fl)); auto.
    intros x Hx. apply H. lia.
Qed.

Lemma jbody_ext m m' p sl : same_on m m' (dstart g p) (dend g p) -> jbody m p sl -> jbody m' p sl.
Proof.
  intros H (b & S & E). exists b. pose proof (seg_le g _ _ _ _ _ S). split.
  - eapply seg_ext; eauto.
  - eapply hdr_end_ext; [|exact E]. intros y Hy. apply H. lia.
Qed.
Lemma jmem_ext m m' p X : same_on m m' (dstart g p) (dend g p) -> jmem m p X -> jmem m' p X.
Proof.
  intros H J j. destruct (J j) as (sl & A & B). exists sl. split; auto. eapply jbody_ext; [|exact A].
  intros y Hy. unfold mem_ff. rewrite (H y Hy). reflexivity.
Qed.
Lemma jslots_refl X : Forall (solid g) X -> jslots X X.
Proof. intros F. split; auto. Qed.
Lemma jmem_now m p X : jmem m p X -> exists sl, jbody m p sl /\ jslots X sl.
Proof.
  intros J. destruct (J 0) as (sl & A & B). exists sl. split; auto. eapply jbody_ext; [|exact A].
  intros y Hy. rewrite mem_ff_out by lia. reflexivity.
Qed.
Lemma jmem_front m p X j : jmem m p X -> jmem (mem_ff m (dstart g p) j) p X.
Proof.
  intros J j'. destruct (J (Nat.max j j')) as (sl & A & B). exists sl. split; auto. eapply jbody_ext; [|exact A].
  intros y Hy. unfold mem_ff. destruct (Nat.leb_spec (dstart g p) y); cbn [andb]; auto.
  destruct (Nat.ltb_spec y (dstart g p + j)), (Nat.ltb_spec y (dstart g p + j')), (Nat.ltb_spec y (dstart g p + Nat.max j j')); auto; lia.
Qed.
Lemma body_jbody fl p sl : body fl p sl -> jbody (f_mem fl) p sl.
Proof.
  intros (b & S & F & B & _). exists b. split; auto. apply ff_end. now apply blank_ff.
Qed.
Lemma jmem_erase m m' p X j : jmem m p X -> (forall y, m' y = mem_ff m (paddr g p) j y) -> jmem m' p X.
Proof.
  intros J M. pose proof (W_pos g gok). eapply jmem_ext; [|apply (jmem_front m p X (j - W)); exact J].
  intros y Hy. rewrite M. unfold mem_ff, dstart in *.
  destruct (Nat.leb_spec (paddr g p) y), (Nat.leb_spec (paddr g p + W) y), (Nat.ltb_spec y (paddr g p + j)), (Nat.ltb_spec y (paddr g p + W + (j - W))); cbn [andb]; auto; lia.
Qed.

Lemma page_is_ext fl fl' p x : eq_on fl fl' (paddr g p) (pend g p) -> page_is fl p x -> page_is fl' p x.
Proof.
  intros H. pose proof (dstart_lt g gok p). pose proof (dend_lt g gok p). pose proof (pend_eq g p). pose proof (RS_le_W g).
  pose proof (ES_big g gok).
  assert (RD : rd (f_mem fl') (paddr g p) (RS g) = rd (f_mem fl) (paddr g p) (RS g)).
  { apply rd_ext. intros y Hy. apply H. lia. }
  assert (EZ : forall lo hi, endz (f_mem fl) p lo hi -> endz (f_mem fl') p lo hi).
  { intros lo hi (A & B & C & D & E). repeat split; auto.
    - intros y Hy. rewrite <- (D y Hy). apply H. unfold dstart in *. lia.
    - intros y Hy Hy'. rewrite <- (E y Hy Hy'). apply H. unfold dstart in *. lia. }
  assert (BD : forall sl, body fl p sl -> body fl' p sl).
  { intros sl. apply body_ext. eapply eq_on_sub; [exact H| |]; unfold dstart; lia. }
  destruct x; unfold page_is; cbn zeta.
  - intros (A & (hi & B & B') & C & D). rewrite RD. split; auto. split; [eauto|]. split; auto. intros E y Hy.
    destruct (H y) as [_ ->]; auto. unfold dstart in *. lia.
  - intros (A & (hi & B & B') & C & D). rewrite RD. split; auto. split; [eauto|]. split; auto. intros E. destruct (D E) as [D1 D2]. split.
    + intros y Hy. destruct (H y) as [_ ->]; auto. unfold dstart in *. lia.
    + eapply blank_on_ext; [|exact D2]. eapply eq_on_sub; [exact H| |]; unfold dstart in *; lia.
  - apply blank_on_ext; auto.
  - intros (A & B & lo & hi & C & D). rewrite RD. split; auto. split; auto. exists lo, hi. split; auto.
  - intros (A & B & C & D). rewrite RD. repeat split; auto.
    + intros y Hy. rewrite <- (C y Hy). apply H. unfold dstart in *. lia.
    + eapply jmem_ext; [|exact D]. intros y Hy. apply H. unfold dstart in *. lia.
  - intros (A & B & C & D & F & G). rewrite RD. split; auto. split; auto. split; [|split; [|split; auto]].
    + intros y Hy. rewrite <- (C y Hy). apply H. unfold dstart in *. lia.
    + eapply jmem_ext; [|exact D]. intros y Hy. apply H. unfold dstart in *. lia.
    + eapply jbody_ext; [|exact F]. intros y Hy. apply H. unfold dstart in *. lia.
Qed.

(** * Page states *)
Context {K : Type}.

Lemma page_state_eq p x (s : st K) : p < NP g -> page_is (s_fl s) p x ->
  page_state g p s = (match st_of x with Some y => Ok y | None => Err ECorrupted end, s).
Proof.
  intros P H. unfold page_state, bind, fl_read, on_read, steady, dev_read.
  rewrite (chk_marker_lo g gok), (chk_marker_hi g gok) by auto.
  pose proof (pend_eq g p) as PE. pose proof (ES_big g gok). pose proof (RS_le_W g). pose proof (dend_lt g gok p).
  replace (paddr g p + (ES g - RS g)) with (pend g p - RS g) by lia.
  pose proof (RS_pos g gok) as RP. set (m := f_mem (s_fl s)) in *.
  assert (MZ : forall lo hi, endz m p lo hi -> lo < hi -> pend g p - RS g < hi -> marked (rd m (pend g p - RS g) (RS g)) = true).
  { intros lo hi (A & B & C & D & E) L1 L2. apply (marked_rd_zero _ _ _ (hi - 1)); [lia|]. apply D. lia. }
  destruct x; unfold page_is in H; cbn zeta in H; fold m in H; cbn [st_of].
  - destruct H as (-> & (hi & B & B') & _). rewrite (MZ (dend g p) hi); auto. lia.
  - destruct H as (-> & (hi & (A & B & C & D & E) & B') & _).
    rewrite marked_rd_ff; auto. intros y Hy. apply E; lia.
  - rewrite !marked_rd_ff; auto; intros y Hy; apply H; lia.
  - destruct H as (_ & -> & lo & hi & B & L1 & L2). rewrite (MZ lo hi); auto.
  - destruct H as (_ & -> & B & _). rewrite marked_rd_ff; auto. intros y Hy. apply B. lia.
  - destruct H as (_ & -> & B & _). rewrite marked_rd_ff; auto. intros y Hy. apply B. lia.
Qed.

(** * Erasing a page *)
Lemma page_erased fl fl' p : erad g fl fl' p (ES g) -> page_is fl' p POpen.
Proof.
  intros [M C _ _ _ _] x Hx. rewrite pend_eq in Hx. unfold blank. rewrite M, C, mem_ff_in, wc_zero_in by lia. auto.
Qed.

(** What a cut erase can leave. *)
Definition torn_page (x x' : page) : Prop :=
  x' = x \/ match x with PClosed _ | PBad => x' = PBad \/ x' = POpen | PStale X | PJunk X _ => x' = PStale X | _ => False end.

Lemma page_torn_erase fl fl' p x j : ws = false -> page_is fl p x -> j < ES g -> erad g fl fl' p j ->
  j = 0 \/ (match x with PPart _ => False | _ => True end) ->
  exists x', page_is fl' p x' /\ torn_page x x'.
Proof.
  intros Ws H J [M C _ _ _ _] HP. pose proof (pend_eq g p) as PE. pose proof (RS_le_W g). pose proof (dend_lt g gok p) as DL.
  pose proof (ES_big g gok). pose proof (RS_pos g gok). pose proof (dstart_lt g gok p).
  set (pa := paddr g p) in *.
  assert (OUT : forall y, pa + j <= y -> f_mem fl' y = f_mem fl y /\ f_wc fl' y = f_wc fl y).
  { intros y Hy. rewrite M, C, mem_ff_out, wc_zero_out by lia. auto. }
  assert (INN : forall y, pa <= y < pa + j -> f_mem fl' y = 255%N).
  { intros y Hy. rewrite M, mem_ff_in; auto. }
  destruct (Nat.eq_dec j 0) as [->|J0].
  { exists x. split; [|now left]. eapply page_is_ext; [|exact H]. intros y Hy. apply OUT. fold pa in Hy. lia. }
  destruct HP as [HP|HP]; [contradiction|].
  assert (STALE : forall X, ff_on (f_mem fl) (pend g p - RS g) (pend g p) -> jmem (f_mem fl) p X ->
     marked (rd (f_mem fl') pa (RS g)) = false -> page_is fl' p (PStale X)).
  { intros X B D MK. split; auto. split; auto. split; [|eapply jmem_erase; eauto].
    intros y Hy. destruct (le_lt_dec (pa + j) y) as [Y|Y]; [|apply INN; lia]. destruct (OUT y Y) as [-> _]. apply B. auto. }
  assert (GEN : forall lo hi, endz (f_mem fl) p lo hi -> lo < hi -> pend g p - RS g < hi ->
     (marked (rd (f_mem fl') pa (RS g)) = true -> False) ->
     page_is fl' p PBad \/ page_is fl' p POpen).
  { intros lo hi (A & B & Cc & D & E) L1 L2 NM. destruct (le_lt_dec hi (pa + j)) as [X|X].
    - right. intros y Hy. split; [|congruence]. fold pa in Hy. destruct (le_lt_dec (pa + j) y) as [Y|Y]; [|apply INN; lia].
      destruct (OUT y Y) as [-> _]. apply E; lia.
    - left. split; auto. split. { fold pa. destruct (marked (rd (f_mem fl') pa (RS g))); auto. exfalso; auto. }
      exists (Nat.max lo (pa + j)), hi. split; [|lia]. repeat split; try lia.
      + intros y Hy. destruct (OUT y ltac:(lia)) as [-> _]. apply D. lia.
      + intros y Hy Hy'. destruct (le_lt_dec (pa + j) y) as [Y|Y]; [|apply INN; unfold dstart in *; fold pa in H3; lia].
        destruct (OUT y Y) as [-> _]. apply E; lia. }
  destruct x; unfold page_is in H; cbn zeta in H; fold pa in H.
  - destruct H as (A & (hi & B & B') & Bd & _).
    destruct (marked (rd (f_mem fl') pa (RS g))) eqn:MK.
    + (* start marker still readable: only part of it was erased *)
      exists (PClosed sl). split; [|now left].
      assert (JR : j < RS g). { destruct (le_lt_dec (RS g) j) as [X|]; auto. rewrite marked_rd_ff in MK; [discriminate|]. intros y Hy. apply INN. lia. }
      unfold page_is. cbn zeta. fold pa. split; auto.
      assert (EQ : eq_on fl fl' (dstart g p) (pend g p)). { intros y Hy. apply OUT. unfold dstart in Hy. fold pa in Hy. lia. }
      split; [exists hi; split; auto|].
      * destruct B as (B1 & B2 & B3 & B4 & B5). repeat split; auto; intros y Hy.
        -- destruct (EQ y) as [-> _]; [lia|auto].
        -- intros Hy'. destruct (EQ y) as [-> _]; [lia|auto].
      * split; [|congruence]. eapply body_ext; [|exact Bd]. eapply eq_on_sub; [exact EQ| |]; lia.
    + destruct (GEN (dend g p) hi B ltac:(lia) B') as [X|X]; [congruence| |]; eexists; (split; [exact X|]); right; cbn; auto.
  - contradiction.
  - exists POpen. split; [|now left]. intros y Hy. split; [|congruence].
    destruct (le_lt_dec (pa + j) y) as [Y|Y]; [|apply INN; fold pa in Hy; lia]. destruct (OUT y Y) as [-> _]. now apply H.
  - destruct H as (_ & A & lo & hi & B & L1 & L2).
    assert (NM : marked (rd (f_mem fl') pa (RS g)) = true -> False).
    { intros X. apply (marked_mono (f_mem fl)) in X; [rewrite A in X; discriminate|]. intros y.
      rewrite M. unfold mem_ff. match goal with |- context [if ?c then _ else _] => destruct c end; auto. }
    destruct (GEN lo hi B L1 L2 NM) as [X|X]; eexists; (split; [exact X|]); [now left|right; cbn; auto].
  - destruct H as (_ & A & B & D). exists (PStale X). split; [|now left].
    apply (STALE _ B D). destruct (marked (rd (f_mem fl') pa (RS g))) eqn:MK; auto.
    apply (marked_mono (f_mem fl)) in MK; [congruence|]. intros y. rewrite M. unfold mem_ff.
    match goal with |- context [if ?c then _ else _] => destruct c end; auto.
  - destruct H as (_ & A & B & D & F & G). destruct (marked (rd (f_mem fl') pa (RS g))) eqn:MK.
    + exists (PJunk X sl). split; [|now left].
      assert (JR : j < RS g). { destruct (le_lt_dec (RS g) j) as [Z|]; auto. rewrite marked_rd_ff in MK; [discriminate|]. intros y Hy. apply INN. lia. }
      split; auto. split; auto. split; [|split; [|split; auto]].
      * intros y Hy. destruct (OUT y) as [-> _]; [lia|]. apply B. auto.
      * eapply jmem_erase; eauto.
      * eapply jbody_ext; [|exact F]. intros y Hy. apply OUT. unfold dstart in Hy. fold pa in Hy. lia.
    + exists (PStale X). split; [|right; reflexivity]. apply (STALE _ B D). auto.
Qed.

(** A cut erase of a partially open page. *)
Lemma page_torn_part fl fl' p sl j : ws = false -> page_is fl p (PPart sl) -> jmem (f_mem fl) p sl -> j < ES g -> erad g fl fl' p j ->
  (page_is fl' p (PPart sl) /\ same_on (f_mem fl) (f_mem fl') (dstart g p) (dend g p)) \/ page_is fl' p (PStale sl).
Proof.
  intros Ws H JM J [M C _ _ _ _]. pose proof (pend_eq g p) as PE. pose proof (RS_le_W g). pose proof (dend_lt g gok p) as DL.
  pose proof (ES_big g gok). pose proof (RS_pos g gok). pose proof (dstart_lt g gok p).
  assert (OUT : forall y, paddr g p + j <= y -> f_mem fl' y = f_mem fl y /\ f_wc fl' y = f_wc fl y).
  { intros y Hy. rewrite M, C, mem_ff_out, wc_zero_out by lia. auto. }
  assert (INN : forall y, paddr g p <= y < paddr g p + j -> f_mem fl' y = 255%N).
  { intros y Hy. rewrite M, mem_ff_in; auto. }
  destruct H as (A & (hi & B & B') & Bd & _).
  destruct (marked (rd (f_mem fl') (paddr g p) (RS g))) eqn:MK.
  - left. assert (JR : j < RS g). { destruct (le_lt_dec (RS g) j) as [X|]; auto. rewrite marked_rd_ff in MK; [discriminate|]. intros y Hy. apply INN. lia. }
    assert (EQ : eq_on fl fl' (dstart g p) (pend g p)). { intros y Hy. apply OUT. unfold dstart in Hy. lia. }
    split; [|intros y Hy; apply EQ; lia]. unfold page_is. cbn zeta. split; auto. split; [exists hi; split; auto|].
    + destruct B as (B1 & B2 & B3 & B4 & B5). repeat split; auto; intros y Hy.
      * destruct (EQ y) as [-> _]; [lia|auto].
      * intros Hy'. destruct (EQ y) as [-> _]; [lia|auto].
    + split; [|congruence]. eapply body_ext; [|exact Bd]. eapply eq_on_sub; [exact EQ| |]; lia.
  - right. split; auto. split; auto. split; [|eapply jmem_erase; eauto].
    intros y Hy. destruct (le_lt_dec (paddr g p + j) y) as [Y|Y]; [|apply INN; lia].
    destruct (OUT y Y) as [-> _]. destruct B as (B1 & B2 & B3 & B4 & B5). apply B5; lia.
Qed.

(** * Markers *)
Lemma land_zeros m a n x : a <= x < a + n -> mem_and m a (repeat 0%N n) x = 0%N.
Proof.
  intros H. rewrite mem_and_in by (rewrite repeat_length; lia). 
  rewrite (nth_indep _ 255%N 0%N) by (rewrite repeat_length; lia). rewrite nth_repeat. apply N.land_0_r.
Qed.
Lemma firstn_repeat {A} (x : A) j n : j <= n -> firstn j (repeat x n) = repeat x j.
Proof. intros. replace n with (j + (n - j)) by lia. rewrite repeat_app. apply firstn_app_exact, repeat_length. Qed.

Lemma page_started fl fl' p j : page_is fl p POpen -> 1 <= j <= W -> prog fl fl' (paddr g p) (repeat 0%N j) ->
  page_is fl' p (PPart []).
Proof.
  intros H J P. pose proof (pend_eq g p) as PE. pose proof (RS_le_W g). pose proof (dend_lt g gok p) as DL.
  pose proof (ES_big g gok). pose proof (RS_pos g gok). pose proof (dstart_lt g gok p). unfold page_is. cbn zeta.
  assert (OUT : eq_on fl fl' (dstart g p) (pend g p)).
  { intros y Hy. eapply prog_out; [exact P|]. rewrite repeat_length. unfold dstart in Hy. lia. }
  assert (BL : blank_on fl' (dstart g p) (pend g p)).
  { eapply blank_on_ext; [exact OUT|]. eapply blank_on_sub; [exact H| |]; unfold dstart; lia. }
  split; [|split; [|split]].
  - apply (marked_rd_zero _ _ _ (paddr g p)); [lia|]. rewrite (pg_mem _ _ _ _ P). apply land_zeros. lia.
  - exists (dend g p). split; [|lia]. repeat split; try lia. intros y Hy _. apply BL. lia.
  - exists (dstart g p). cbn [seg]. split; auto. split; auto. split.
    + eapply blank_on_sub; [exact BL| |]; lia.
    + intros _. split; [constructor|exact I].
  - intros E. split; [|eapply blank_on_sub; [exact BL| |]; lia].
    intros y Hy. rewrite (pg_wc _ _ _ _ P), repeat_length. destruct (le_lt_dec (paddr g p + j) y).
    + rewrite wc_inc_out by lia. destruct (H y) as [_ ->]; auto. unfold dstart in *. lia.
    + rewrite wc_inc_in by lia. destruct (H y) as [_ ->]; auto. unfold dstart in *. lia.
Qed.

(** Marking a page that looks open. *)
Definition started (x x' : page) : Prop :=
  match x with POpen => x' = PPart [] | PStale X => exists sl, x' = PJunk X sl | _ => False end.
Lemma page_restarted fl fl' p x j : page_is fl p x -> st_of x = Some Open -> 1 <= j <= W -> prog fl fl' (paddr g p) (repeat 0%N j) ->
  exists x', started x x' /\ page_is fl' p x'.
Proof.
  intros H So J P. destruct x; try discriminate.
  - exists (PPart []). split; [reflexivity|]. eapply page_started; eauto.
  - destruct H as (A & B & C & D). pose proof (pend_eq g p) as PE. pose proof (RS_le_W g). pose proof (dend_lt g gok p) as DL.
    pose proof (ES_big g gok). pose proof (RS_pos g gok). pose proof (dstart_lt g gok p).
    assert (OUT : same_on (f_mem fl) (f_mem fl') (dstart g p) (pend g p)).
    { intros y Hy. eapply prog_out; [exact P|]. rewrite repeat_length. unfold dstart in Hy. lia. }
    assert (D' : jmem (f_mem fl') p X). { eapply jmem_ext; [|exact D]. intros y Hy. apply OUT. lia. }
    destruct (jmem_now _ _ _ D') as (sl & S1 & S2). exists (PJunk X sl). split; [exists sl; reflexivity|].
    split; auto. split; [|split; auto].
    + apply (marked_rd_zero _ _ _ (paddr g p)); [lia|]. rewrite (pg_mem _ _ _ _ P). apply land_zeros. lia.
    + intros y Hy. rewrite OUT by lia. apply C. lia.
Qed.

Lemma page_closing fl fl' p sl j : page_is fl p (PPart sl) -> j <= W -> prog fl fl' (dend g p) (repeat 0%N j) ->
  (j = W -> page_is fl' p (PClosed sl)) /\ (ws = false -> page_is fl' p (PPart sl) \/ page_is fl' p (PClosed sl)).
Proof.
  intros (A & (hi & (B1 & B2 & B3 & B4 & B5) & L) & Bd & Wc) J P.
  pose proof (pend_eq g p) as PE. pose proof (RS_le_W g). pose proof (dend_lt g gok p) as DL.
  pose proof (ES_big g gok). pose proof (RS_pos g gok). pose proof (dstart_lt g gok p).
  assert (OUT : eq_on fl fl' (paddr g p) (dend g p)).
  { intros y Hy. eapply prog_out; [exact P|]. lia. }
  assert (A' : marked (rd (f_mem fl') (paddr g p) (RS g)) = true).
  { rewrite <- A. f_equal. apply rd_ext. intros y Hy. apply OUT. unfold dstart in *. lia. }
  assert (Bd' : body fl' p sl). { eapply body_ext; [|exact Bd]. eapply eq_on_sub; [exact OUT| |]; unfold dstart; lia. }
  set (hi' := Nat.max hi (dend g p + j)).
  assert (EZ : endz (f_mem fl') p (dend g p) hi').
  { unfold hi'. repeat split; try lia.
    - intros y Hy. rewrite (pg_mem _ _ _ _ P). destruct (le_lt_dec (dend g p + j) y).
      + rewrite mem_and_out by (rewrite repeat_length; lia). apply B4. lia.
      + apply land_zeros. lia.
    - intros y Hy Hy'. rewrite (pg_mem _ _ _ _ P), mem_and_out by (rewrite repeat_length; lia). apply B5; lia. }
  split.
  - intros ->. unfold page_is. cbn zeta. split; auto. split; [exists hi'; split; auto; unfold hi'; lia|]. split; auto.
    intros E y Hy. destruct (Wc E) as [C1 C2]. rewrite (pg_wc _ _ _ _ P), repeat_length. destruct Hy as [Hy|Hy].
    + rewrite wc_inc_out by (unfold dstart in *; lia). auto.
    + rewrite wc_inc_in by lia. destruct (C2 y) as [_ ->]; auto.
  - intros E. destruct (le_lt_dec hi' (pend g p - RS g)) as [X|X].
    + left. unfold page_is. cbn zeta. split; auto. split; [exists hi'; auto|]. split; auto. congruence.
    + right. unfold page_is. cbn zeta. split; auto. split; [exists hi'; auto|]. split; auto. congruence.
Qed.

(** * Items *)
Definition cap : nat := ES g - 2 * W.
Lemma cap_eq p : dstart g p + cap = dend g p.
Proof. pose proof (pend_eq g p). pose proof (dend_lt g gok p). pose proof (ES_big g gok). unfold cap, dstart. lia. Qed.

Lemma body_seg fl p sl : body fl p sl ->
  seg g (f_mem fl) (dend g p) (dstart g p) sl (dstart g p + sizes g sl) /\ sizes g sl <= cap /\
  hdr_at g (f_mem fl) (dend g p) (dstart g p + sizes g sl) = HEnd.
Proof.
  intros (b & S & F & B & _). pose proof (seg_end g _ _ _ _ _ S) as Eb. pose proof (dstart_lt g gok p). subst b.
  pose proof (seg_le_end g gok _ _ _ _ _ S) as L. pose proof (cap_eq p). split; auto. split; [lia|].
  apply ff_end. now apply blank_ff.
Qed.
Lemma page_body fl p x : page_is fl p x -> (match x with PClosed _ | PPart _ => True | _ => False end) -> body fl p (slots_of x).
Proof. destruct x; cbn; try contradiction; intros H _; tauto. Qed.
Lemma sizes_al sl : al g (sizes g sl).
Proof.
  unfold sizes. induction sl as [|s sl IH]; cbn [map list_sum fold_right]; auto with al.
  apply (al_add g gok); auto. apply ssize_al; auto.
Qed.

(** A page keeps everything but its slots when only data bytes change. *)
Lemma page_with fl fl' p x sl' : page_is fl p x -> (match x with PClosed _ | PPart _ => True | _ => False end) ->
  (forall y, y < dstart g p \/ dend g p <= y -> f_mem fl' y = f_mem fl y /\ f_wc fl' y = f_wc fl y) ->
  body fl' p sl' -> page_is fl' p (with_slots x sl').
Proof.
  intros H Hx OUT Bd. pose proof (pend_eq g p) as PE. pose proof (RS_le_W g). pose proof (dend_lt g gok p) as DL.
  pose proof (ES_big g gok). pose proof (dstart_lt g gok p).
  assert (RD : rd (f_mem fl') (paddr g p) (RS g) = rd (f_mem fl) (paddr g p) (RS g)).
  { apply rd_ext. intros y Hy. apply OUT. unfold dstart in *. lia. }
  assert (EZ : forall lo hi, endz (f_mem fl) p lo hi -> endz (f_mem fl') p lo hi).
  { intros lo hi (A & B & C & D & E). repeat split; auto.
    - intros y Hy. rewrite <- (D y Hy). apply OUT. lia.
    - intros y Hy Hy'. rewrite <- (E y Hy Hy'). apply OUT. lia. }
  destruct x; try contradiction; unfold page_is, with_slots in *; cbn zeta in *.
  - destruct H as (A & (hi & B & B') & C & D). rewrite RD. split; auto. split; [eauto|]. split; auto. intros E y Hy.
    destruct (OUT y) as [_ ->]; auto. lia.
  - destruct H as (A & (hi & B & B') & C & D). rewrite RD. split; auto. split; [eauto|]. split; auto. intros E.
    destruct (D E) as [D1 D2]. split.
    + intros y Hy. destruct (OUT y) as [_ ->]; auto. lia.
    + eapply blank_on_ext; [|exact D2]. intros y Hy. apply OUT. lia.
Qed.

Lemma body_write fl fl' p sl d : body fl p sl -> data_ok d ->
  sizes g sl + ssize g (SLive d) <= cap ->
  prog fl fl' (dstart g p + sizes g sl) (item_bytes g d) -> body fl' p (sl ++ [SLive d]).
Proof.
  intros (b & S & F & B & Wc) DO L P. pose proof (seg_end g _ _ _ _ _ S) as Eb. pose proof (cap_eq p). rewrite <- Eb in P.
  pose proof (item_bytes_length g gok d) as IL.
  exists (b + ssize g (SLive d)). split; [|split; [|split]].
  - apply seg_app. exists b. split.
    + apply (seg_ext_solid g gok (f_mem fl)); auto. intros x Hx. eapply prog_out; [exact P|]. lia.
    + cbn [seg]. split; [|reflexivity]. apply (slot_written g gok (f_mem fl)); auto; [|apply P|lia].
      eapply blank_ff, blank_on_sub; [exact B| |]; lia.
  - apply Forall_app. split; auto. constructor; auto. exact I.
  - eapply blank_on_ext; [|eapply blank_on_sub; [exact B| |]]; try lia. intros x Hx. eapply prog_out; [exact P|]. lia.
  - intros E. destruct (Wc E) as [C1 C2]. split.
    + apply Forall_app. split; auto. constructor; auto. exact I.
    + apply wc_slots_app. split.
      * apply (wc_slots_ext' (f_wc fl)); auto. intros x Hx. eapply prog_out; [exact P|]. lia.
      * rewrite <- Eb. cbn [wc_slots is_live].
        assert (Z : forall x, b <= x < b + ssize g (SLive d) -> f_wc fl' x <= 1).
        { intros x Hx. rewrite (pg_wc _ _ _ _ P), wc_inc_in by lia. destruct (B x) as [_ ->]; auto. lia. }
        pose proof (solid_HL g gok (SLive d) I). repeat split; auto; intros x Hx; apply Z; lia.
Qed.

(** What a cut item write can leave behind. *)
Definition torn_item (d : list N) (tl : list slot) : Prop :=
  tl = [] \/ (tl = [SBad] /\ 8 <= W) \/ tl = [SCorr (length d) (acrc d)] \/ tl = [SLive d].

Lemma body_torn fl fl' p sl d j : ws = false -> body fl p sl -> data_ok d -> torn_safe d ->
  sizes g sl + ssize g (SLive d) <= cap -> (8 <= W \/ j = 0 \/ HL <= j) -> j < length (item_bytes g d) ->
  prog fl fl' (dstart g p + sizes g sl) (firstn j (item_bytes g d)) -> exists tl, torn_item d tl /\ body fl' p (sl ++ tl).
Proof.
  intros Ws (b & S & F & B & Wc) DO TS L WJ J P. pose proof (seg_end g _ _ _ _ _ S) as Eb. pose proof (cap_eq p). rewrite <- Eb in P.
  pose proof (item_bytes_length g gok d) as IL.
  destruct (slot_torn g gok (f_mem fl) (f_mem fl') (dend g p) b d j) as (tl & T1 & T2 & T3 & T4); auto.
  - now apply blank_ff.
  - lia.
  - apply P.
  - exists tl. split; auto. exists (b + sizes g tl). split; [|split; [|split; [|congruence]]].
    + apply seg_app. exists b. split; auto.
      apply (seg_ext_solid g gok (f_mem fl)); auto. intros x Hx. eapply prog_out; [exact P|]. lia.
    + apply Forall_app. split; auto. destruct T4 as [->|[[-> W8]|[->| ->]]]; repeat constructor; auto.
    + intros x Hx. split; [|congruence]. apply T2. lia.
Qed.

Lemma body_erase fl fl' p l d r j : is_mem (f_mem fl) -> body fl p (l ++ SLive d :: r) ->
  prog fl fl' (dstart g p + sizes g l) (firstn j (hdr_bytes g (mkhdr (length d) None))) ->
  (HL <= j -> body fl' p (l ++ SDead (length d) :: r)) /\
  (ws = false -> exists y, ((y = SLive d /\ j = 0) \/ y = SDead (length d) \/ exists c, y = SCorr (length d) c) /\ body fl' p (l ++ y :: r)).
Proof.
  intros IM (b & S & F & B & Wc) P. apply seg_app in S. destruct S as (a & S1 & S2). cbn [seg] in S2. destruct S2 as [S2 S3].
  pose proof (seg_end g _ _ _ _ _ S1) as Ea. pose proof (seg_end g _ _ _ _ _ S3) as Eb.
  rewrite <- Ea in P. apply Forall_app in F. destruct F as [F1 F2]. inversion F2 as [|? ? _ F3]; subst x l0.
  pose proof (HL_ge g gok). assert (HS : HL <= ssize g (SLive d)) by (apply solid_HL; auto; exact I).
  assert (FL : length (firstn j (hdr_bytes g (mkhdr (length d) None))) <= HL) by (rewrite firstn_length, hdr_bytes_length by auto; lia).
  destruct (slot_erased g gok (f_mem fl) (f_mem fl') (dend g p) a d j IM S2 (pg_mem _ _ _ _ P)) as (y & Y1 & Y2 & Y3 & Y4).
  assert (SY : solid g y). { destruct Y3 as [[-> _]|[->|[c ->]]]; exact I. }
  assert (G : seg g (f_mem fl') (dend g p) (dstart g p) (l ++ y :: r) b).
  { apply seg_app. exists a. split.
    - apply (seg_ext_solid g gok (f_mem fl)); auto. intros x Hx. eapply prog_out; [exact P|]. lia.
    - cbn [seg]. split; auto. rewrite Y2. apply (seg_ext_solid g gok (f_mem fl)); auto. intros x Hx. eapply prog_out; [exact P|]. lia. }
  assert (Fy : Forall (solid g) (l ++ y :: r)) by (apply Forall_app; split; auto).
  assert (Bk : blank_on fl' b (dend g p)).
  { eapply blank_on_ext; [|exact B]. intros x Hx. eapply prog_out; [exact P|]. lia. }
  split.
  - intros J. assert (y = SDead (length d)) as -> by (apply Y4; lia). exists b. split; auto. split; auto. split; auto.
    intros E. destruct (Wc E) as [C1 C2]. split.
    + apply Forall_app in C1. destruct C1 as [C1 C1']. inversion C1'; subst. apply Forall_app. split; auto.
    + apply wc_slots_app in C2. destruct C2 as [C2 C2']. cbn [wc_slots is_live] in C2'. destruct C2' as (D1 & D2 & D3).
      apply wc_slots_app. rewrite <- Ea in *. split; [|cbn [wc_slots is_live]; repeat split].
      * apply (wc_slots_ext' (f_wc fl)); auto. intros x Hx. eapply prog_out; [exact P|]. lia.
      * intros x Hx. rewrite (pg_wc _ _ _ _ P). unfold wc_inc. specialize (D1 x Hx).
        destruct (_ && _); lia.
      * intros x Hx. destruct (prog_out _ _ _ _ x P) as [_ ->]; [lia|]. apply D2. rewrite <- Y2. auto.
      * rewrite Y2. apply (wc_slots_ext' (f_wc fl)); auto. intros x Hx. eapply prog_out; [exact P|]. lia.
  - intros E. exists y. split; auto. exists b. split; auto. split; auto. split; auto. congruence.
Qed.

Lemma jbody_seg m p sl : jbody m p sl ->
  seg g m (dend g p) (dstart g p) sl (dstart g p + sizes g sl) /\ sizes g sl <= cap /\ hdr_at g m (dend g p) (dstart g p + sizes g sl) = HEnd.
Proof.
  intros (b & S & E). pose proof (seg_end g _ _ _ _ _ S) as Eb. pose proof (dstart_lt g gok p). subst b.
  pose proof (seg_le_end g gok _ _ _ _ _ S) as L. pose proof (cap_eq p). split; auto. split; [lia|auto].
Qed.
Lemma jslot_in_page m p l d r : jbody m p (l ++ SLive d :: r) ->
  slot_at g m (dend g p) (dstart g p + sizes g l) (SLive d) /\ dstart g p + sizes g l + ssize g (SLive d) <= dend g p.
Proof.
  intros (b & S & _). apply seg_app in S. destruct S as (a & S1 & S2). cbn [seg] in S2. destruct S2 as [S2 _].
  pose proof (seg_end g _ _ _ _ _ S1) as Ea. subst a. split; auto. now apply slot_at_le in S2.
Qed.

(** Slots are inside their page. *)
Lemma slot_in_page fl p l d r : body fl p (l ++ SLive d :: r) ->
  slot_at g (f_mem fl) (dend g p) (dstart g p + sizes g l) (SLive d) /\
  dstart g p + sizes g l + ssize g (SLive d) <= dend g p.
Proof.
  intros (b & S & _). apply seg_app in S. destruct S as (a & S1 & S2). cbn [seg] in S2. destruct S2 as [S2 _].
  pose proof (seg_end g _ _ _ _ _ S1) as Ea. subst a. split; auto. now apply slot_at_le in S2.
Qed.
End Page.
