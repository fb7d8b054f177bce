(** Two flashes that differ only in marker bits the library does not look at. *)
From Coq Require Import List NArith ZArith Arith Bool Lia ZifyBool ZifyNat ZifyN.
From Verif Require Import Base BaseP Crc CrcP Flash Cache State Item Generic GeomP ScanP ItemP WorldP WpP.
Import ListNotations.
Local Opaque crc16 acrc crc32.

Section Noise.
Context (g : geom) (gok : geom_ok g).
Notation NP := (NP g).
Notation RS := (RS g).
Notation dstart := (dstart g).
Notation dend := (dend g).

(** The word of [RS] bytes at [b] and all its ends count the same. *)
Definition word_eq (m m2 : nat -> N) (b : nat) : Prop := forall j, j <= RS -> marked (rd m2 (b + j) (RS - j)) = marked (rd m (b + j) (RS - j)).
Definition data_eq (m m2 : nat -> N) : Prop := forall p x, p < NP -> dstart p <= x < dend p -> m2 x = m x.
Definition noise (m m2 : nat -> N) : Prop := data_eq m m2 /\ forall p, p < NP -> word_eq m m2 (paddr g p) /\ word_eq m m2 (paddr g p + (ES g - RS)).
(** All bytes of the marker words are 00 or FF. *)
Definition clean (m : nat -> N) : Prop := forall p x, p < NP -> paddr g p <= x < dstart p \/ dend p <= x < pend g p -> m x = 0%N \/ m x = 255%N.

Lemma zsum_app l1 l2 : list_sum (map count_zeros (l1 ++ l2)) = list_sum (map count_zeros l1) + list_sum (map count_zeros l2).
Proof. rewrite map_app. apply list_sum_app. Qed.
Lemma zsum_in (m : nat -> N) b n x : b <= x < b + n -> count_zeros (m x) <= list_sum (map count_zeros (rd m b n)).
Proof.
  intros H. unfold rd. rewrite map_map. assert (I : In x (seq b n)) by (apply in_seq; lia). induction (seq b n) as [|y l IH]; [easy|]. cbn [map]. change (list_sum (?a :: ?t)) with (a + list_sum t).
  destruct I as [->|I]; [lia|]. specialize (IH I). lia.
Qed.
Lemma marked_zero (m : nat -> N) b n x : b <= x < b + n -> m x = 0%N -> marked (rd m b n) = true.
Proof. intros H E. unfold marked. apply Nat.leb_le. pose proof (zsum_in m b n x H) as Z. rewrite E in Z. change (count_zeros 0) with 8 in Z. lia. Qed.
Lemma marked_skip (m : nat -> N) b n k : k <= n -> (forall x, b <= x < b + k -> m x = 255%N) -> marked (rd m b n) = marked (rd m (b + k) (n - k)).
Proof.
  intros L H. replace n with (k + (n - k)) at 1 by lia. rewrite rd_app. unfold marked. rewrite zsum_app. replace (list_sum (map count_zeros (rd m b k))) with 0; [reflexivity|].
  unfold rd. rewrite map_map. symmetry. assert (Z : forall l, (forall x, In x l -> m x = 255%N) -> list_sum (map (fun x => count_zeros (m x)) l) = 0).
  { induction l as [|y l IH]; intros Hl; [reflexivity|]. cbn [map]. change (list_sum (?a :: ?t)) with (a + list_sum t). rewrite (Hl y (or_introl eq_refl)), IH; [reflexivity|]. intros x Hx. apply Hl. now right. }
  apply Z. intros x Hx. apply in_seq in Hx. apply H. lia.
Qed.
Lemma word_ext m m2 m' m2' b : (forall x, b <= x < b + RS -> m' x = m x) -> (forall x, b <= x < b + RS -> m2' x = m2 x) -> word_eq m m2 b -> word_eq m' m2' b.
Proof. intros A B H j J. rewrite (rd_ext m m'), (rd_ext m2 m2'); [now apply H| |]; intros x Hx; [apply B|apply A]; lia. Qed.

(** Programming zeros. *)
Lemma zeros_in m a bs x : Forall (eq 0%N) bs -> a <= x < a + length bs -> mem_and m a bs x = 0%N.
Proof.
  intros F H. unfold mem_and. destruct (Nat.leb_spec a x), (Nat.ltb_spec x (a + length bs)); cbn [andb]; try lia.
  rewrite Forall_forall in F. rewrite <- (F (nth (x - a) bs 255%N)); [apply N.land_0_r|]. apply nth_In. lia.
Qed.
Lemma word_zeros m m2 a bs b : Forall (eq 0%N) bs -> word_eq m m2 b -> word_eq (mem_and m a bs) (mem_and m2 a bs) b.
Proof.
  intros F H j J. destruct (le_lt_dec (Nat.min (b + RS) (a + length bs)) (Nat.max (b + j) a)) as [O|O].
  - rewrite (rd_ext m (mem_and m a bs)), (rd_ext m2 (mem_and m2 a bs)); [now apply H| |]; intros x Hx; apply mem_and_out; lia.
  - set (x := Nat.max (b + j) a) in *. rewrite (marked_zero (mem_and m2 a bs) _ _ x), (marked_zero (mem_and m a bs) _ _ x); auto; try lia; apply zeros_in; auto; lia.
Qed.
Lemma data_and m m2 a bs : data_eq m m2 -> data_eq (mem_and m a bs) (mem_and m2 a bs).
Proof. intros H p x P X. unfold mem_and. now rewrite (H p x P X). Qed.
Lemma data_not_marker p q x : p < NP -> q < NP -> dstart p <= x < dend p -> (x < paddr g q \/ dstart q <= x) /\ (x < dend q \/ pend g q <= x).
Proof.
  intros P Q X. pose proof (dend_lt g gok p) as DL. pose proof (W_pos g gok) as WP. pose proof (pend_eq g p) as PE. pose proof (pend_eq g q) as QE. unfold Flash.dstart in X.
  assert (I : pindex g x = p) by (apply (pindex_in g gok); lia).
  assert (J : paddr g q <= x < paddr g q + ES g -> p = q) by (intros Z; rewrite <- I; apply (pindex_in g gok); lia).
  destruct (Nat.eq_dec p q) as [<-|NE]; [unfold Flash.dstart; lia|]. pose proof (dend_lt g gok q). pose proof (dstart_lt g gok q). pose proof (ES_big g gok). unfold Flash.dstart in *.
  destruct (le_lt_dec (paddr g q) x); [|split; [lia|]; left; lia]. destruct (le_lt_dec (paddr g q + ES g) x); [|exfalso; apply NE, J; lia]. split; [right; lia|right; lia].
Qed.

Lemma noise_zeros m m2 a bs : Forall (eq 0%N) bs -> noise m m2 -> noise (mem_and m a bs) (mem_and m2 a bs).
Proof. intros F (A & B). split; [now apply data_and|]. intros p P. destruct (B p P). split; now apply word_zeros. Qed.
Lemma lo_in p : RS <= W g /\ paddr g p + RS <= dstart p. Proof. pose proof (RS_le_W g). unfold Flash.dstart. lia. Qed.
Lemma hi_in p : dend p <= paddr g p + (ES g - RS) /\ paddr g p + (ES g - RS) + RS = pend g p.
Proof. pose proof (RS_le_W g). pose proof (pend_eq g p). pose proof (ES_big g gok). unfold Flash.dend. lia. Qed.
Lemma noise_data p m m2 a bs : p < NP -> dstart p <= a -> a + length bs <= dend p -> noise m m2 -> noise (mem_and m a bs) (mem_and m2 a bs).
Proof.
  intros P L1 L2 (A & B). split; [now apply data_and|]. intros q Q. destruct (B q Q) as (B1 & B2).
  assert (X : forall m x, paddr g q <= x < dstart q \/ dend q <= x < pend g q -> mem_and m a bs x = m x).
  { intros m0 x H. destruct (le_lt_dec a x) as [X1|X1], (le_lt_dec (a + length bs) x) as [X2|X2]; try (apply mem_and_out; lia).
    destruct (data_not_marker p q x P Q ltac:(lia)). lia. }
  pose proof (lo_in q). pose proof (hi_in q). split; (eapply word_ext; [| |eassumption]); intros x Hx; apply X; lia.
Qed.
(** Erasing the first [k] bytes of a range. *)
Lemma ff_in m a k x : a <= x < a + k -> mem_ff m a k x = 255%N.
Proof. intros H. unfold mem_ff. destruct (Nat.leb_spec a x), (Nat.ltb_spec x (a + k)); cbn [andb]; lia. Qed.
Lemma word_ff m m2 a k b : a <= b \/ b + RS <= a -> word_eq m m2 b -> word_eq (mem_ff m a k) (mem_ff m2 a k) b.
Proof.
  intros C H. destruct (le_lt_dec (b + RS) a) as [C1|C1]; [eapply word_ext; [| |exact H]; intros x Hx; apply mem_ff_out; lia|]. destruct C as [C|C]; [|lia].
  destruct (le_lt_dec (a + k) b) as [C2|C2]; [eapply word_ext; [| |exact H]; intros x Hx; apply mem_ff_out; lia|].
  intros j J. destruct (le_lt_dec (a + k) (b + j)) as [C3|C3].
  - rewrite (rd_ext m (mem_ff m a k)), (rd_ext m2 (mem_ff m2 a k)); [now apply H| |]; intros x Hx; apply mem_ff_out; lia.
  - set (d := Nat.min (RS - j) (a + k - (b + j))). rewrite (marked_skip (mem_ff m2 a k) (b + j) (RS - j) d), (marked_skip (mem_ff m a k) (b + j) (RS - j) d); try lia; try (intros x Hx; apply ff_in; lia).
    replace (b + j + d) with (b + (j + d)) by lia. replace (RS - j - d) with (RS - (j + d)) by lia.
    rewrite (rd_ext m (mem_ff m a k)), (rd_ext m2 (mem_ff m2 a k)); [apply H; lia| |]; intros x Hx; apply mem_ff_out; lia.
Qed.
Lemma noise_ff p k m m2 : p < NP -> k <= ES g -> noise m m2 -> noise (mem_ff m (paddr g p) k) (mem_ff m2 (paddr g p) k).
Proof.
  intros P L (A & B). split.
  - intros q x Q X. unfold mem_ff. destruct (_ && _); auto. now apply (A q).
  - intros q Q. destruct (B q Q) as (B1 & B2). pose proof (lo_in q). pose proof (hi_in q). pose proof (ES_big g gok). pose proof (pend_eq g q).
    destruct (Nat.lt_trichotomy p q) as [C|[<-|C]].
    + assert (paddr g p + ES g <= paddr g q) by (unfold Flash.paddr; nia). split; apply word_ff; auto; lia.
    + split; apply word_ff; auto; lia.
    + assert (paddr g q + ES g <= paddr g p) by (unfold Flash.paddr; nia). split; apply word_ff; auto; lia.
Qed.
Lemma noise_refl m : noise m m. Proof. split; [easy|]. intros p P. split; intros j J; reflexivity. Qed.
Lemma noise_sym m m2 : noise m m2 -> noise m2 m.
Proof. intros (A & B). split; [intros p x P X; symmetry; eauto|]. intros p P. destruct (B p P). split; intros j J; symmetry; auto. Qed.
Lemma noise_trans m m2 m3 : noise m m2 -> noise m2 m3 -> noise m m3.
Proof.
  intros (A & B) (A' & B'). split; [intros p x P X; rewrite (A' p x P X); eauto|]. intros p P. destruct (B p P), (B' p P). split; intros j J; etransitivity; eauto.
Qed.

(** Clean markers stay clean. *)
Lemma clean_and m a bs : Forall (eq 0%N) bs \/ (exists p, p < NP /\ dstart p <= a /\ a + length bs <= dend p) -> clean m -> clean (mem_and m a bs).
Proof.
  intros H C q x Q X. destruct (le_lt_dec a x) as [X1|X1], (le_lt_dec (a + length bs) x) as [X2|X2]; try (rewrite mem_and_out by lia; now apply (C q)).
  destruct H as [H|(p & P & H1 & H2)]; [left; now apply zeros_in|]. destruct (data_not_marker p q x P Q ltac:(lia)). lia.
Qed.
Lemma clean_ff m a k : clean m -> clean (mem_ff m a k).
Proof. intros C q x Q X. unfold mem_ff. destruct (_ && _); auto. now apply (C q). Qed.

(** * Two runs *)
Context {K : Type}.
Implicit Types s : st K.
Definition wm s (m : nat -> N) : st K := let f := s_fl s in set_fl s (mkflash m (f_wc f) (f_er f) (f_fuel f) (f_ae f) (f_aw f) (f_bad f)).
(** [c] answers alike and ends alike when it starts in [s] with noise in the markers. *)
Definition rok {A} (c : M K A) s : Prop := forall m2, noise (f_mem (s_fl s)) m2 -> exists m3, c (wm s m2) = (fst (c s), wm (snd (c s)) m3) /\ noise (f_mem (s_fl (snd (c s)))) m3.
Lemma rok_ret {A} (a : A) s : rok (ret a) s. Proof. intros m2 N. exists m2. auto. Qed.
Lemma rok_fail {A} e s : rok (fail e : M K A) s. Proof. intros m2 N. exists m2. auto. Qed.
Lemma rok_bind {A B} (c : M K A) (f : A -> M K B) s : rok c s -> (forall a s', c s = (Ok a, s') -> rok (f a) s') -> rok (bind c f) s.
Proof.
  intros H1 H2 m2 N. destruct (H1 m2 N) as (m3 & E & N3). unfold bind. rewrite E. destruct (c s) as [[a|e] s'] eqn:C; cbn [fst snd] in *.
  - apply (H2 a s' eq_refl); auto.
  - exists m3. auto.
Qed.
Lemma rok_attempt {A B} (c : M K A) (f : res A -> M K B) s : rok c s -> (forall r s', c s = (r, s') -> rok (f r) s') -> rok (bind (attempt c) f) s.
Proof.
  intros H1 H2 m2 N. destruct (H1 m2 N) as (m3 & E & N3). unfold bind, attempt, on_result, steady, hand_on. rewrite E. destruct (c s) as [r s'] eqn:C; cbn [fst snd] in *. apply (H2 r s' eq_refl); auto.
Qed.
Lemma rok_attempt1 {A} (c : M K A) s : rok c s -> rok (attempt c) s.
Proof. intros H1 m2 N. destruct (H1 m2 N) as (m3 & E & N3). unfold attempt, on_result, steady, hand_on. rewrite E. destruct (c s) as [r s'] eqn:C; cbn [fst snd] in *. eauto. Qed.
(** Commands that look at the data areas only and keep the flash. *)
Lemma rok_pure {A} (c : M K A) s : f_mem (s_fl (snd (c s))) = f_mem (s_fl s) -> (forall m2, noise (f_mem (s_fl s)) m2 -> c (wm s m2) = (fst (c s), wm (snd (c s)) m2)) -> rok c s.
Proof. intros H1 H2 m2 N. exists m2. split; auto. now rewrite H1. Qed.
End Noise.
(** Reading or changing anything but the flash. *)
Ltac rst := let m := fresh in let N := fresh in intros m N; exists m; split; [reflexivity|exact N].
