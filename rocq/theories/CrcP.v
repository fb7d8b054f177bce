(** Algebra of the checksums: linearity, injectivity, and what follows for error detection. *)
From Coq Require Import List NArith ZArith Arith Bool Lia ZifyBool ZifyNat ZifyN.
From Verif Require Import Base BaseP Crc.
Import ListNotations.
Local Open Scope N_scope.

Lemma lt_pow2_testbit a n : (forall i, n <= i -> N.testbit a i = false) -> a < 2 ^ n.
Proof.
  intros H. destruct (N.eq_dec a 0) as [->|Ha]; [apply N.neq_0_lt_0, N.pow_nonzero; lia|].
  apply N.log2_lt_pow2; [lia|].
  destruct (N.lt_ge_cases (N.log2 a) n); auto.
  specialize (H _ H0). rewrite (N.bit_log2 a Ha) in H. discriminate.
Qed.

Lemma testbit_lt_pow2 a n i : a < 2 ^ n -> n <= i -> N.testbit a i = false.
Proof.
  intros Ha Hi. destruct (N.eq_dec a 0) as [->|]; [apply N.bits_0|].
  apply N.bits_above_log2. apply N.log2_lt_pow2 in Ha; lia.
Qed.

Lemma lxor_lt a b n : a < 2 ^ n -> b < 2 ^ n -> N.lxor a b < 2 ^ n.
Proof.
  intros. apply lt_pow2_testbit. intros. rewrite N.lxor_spec, !(testbit_lt_pow2 _ n); auto.
Qed.

Lemma shiftr1_lt a n : a < 2 ^ n -> N.shiftr a 1 < 2 ^ n.
Proof.
  intros. apply lt_pow2_testbit. intros. rewrite N.shiftr_spec' . rewrite (testbit_lt_pow2 _ n); auto. lia.
Qed.

Fixpoint iter {A} (n : nat) (f : A -> A) (x : A) : A := match n with O => x | S n' => f (iter n' f x) end.

(** * A generic reflected shift register *)
Section Reg.
Variable P : N.

Definition bitstep (c : N) : N := if N.testbit c 0 then N.lxor (N.shiftr c 1) P else N.shiftr c 1.

Lemma bitstep_lxor a b : bitstep (N.lxor a b) = N.lxor (bitstep a) (bitstep b).
Proof.
  unfold bitstep. rewrite N.lxor_spec, N.shiftr_lxor.
  destruct (N.testbit a 0), (N.testbit b 0); cbn [xorb];
    apply N.bits_inj; intros i; rewrite ?N.lxor_spec;
    destruct (N.testbit (N.shiftr a 1) i), (N.testbit (N.shiftr b 1) i), (N.testbit P i); reflexivity.
Qed.

Lemma bitstep_0 : bitstep 0 = 0.
Proof. reflexivity. Qed.

Lemma bitstep_double y : bitstep (2 * y) = y.
Proof.
  unfold bitstep. rewrite N.testbit_even_0. rewrite N.shiftr_div_pow2. change (2 ^ 1) with 2.
  rewrite N.mul_comm. apply N.div_mul. lia.
Qed.

Definition steps (n : nat) (c : N) : N := iter n bitstep c.

Lemma steps_S n c : steps (S n) c = bitstep (steps n c).
Proof. reflexivity. Qed.

Lemma steps_S' n c : steps (S n) c = steps n (bitstep c).
Proof. unfold steps. induction n; cbn in *; auto. now rewrite IHn. Qed.

Lemma steps_add n m c : steps (n + m) c = steps n (steps m c).
Proof. unfold steps. induction n; cbn; auto. now rewrite IHn. Qed.

Lemma steps_lxor n a b : steps n (N.lxor a b) = N.lxor (steps n a) (steps n b).
Proof. unfold steps. induction n; cbn; auto. now rewrite IHn, bitstep_lxor. Qed.

Lemma steps_0 n : steps n 0 = 0.
Proof. unfold steps. induction n; cbn [iter]; auto. now rewrite IHn. Qed.

Lemma steps_shift n y : steps n (2 ^ N.of_nat n * y) = y.
Proof.
  revert y; induction n; intros y.
  - unfold steps; cbn [iter]. change (2 ^ N.of_nat 0) with 1. lia.
  - rewrite steps_S'. replace (2 ^ N.of_nat (S n) * y) with (2 * (2 ^ N.of_nat n * y)).
    + now rewrite bitstep_double.
    + rewrite Nat2N.inj_succ, N.pow_succ_r'. lia.
Qed.

Definition bytestep (c b : N) : N := steps 8 (N.lxor c b).

Lemma lxor_disjoint_add b x : b < 256 -> N.lxor b (256 * x) = b + 256 * x.
Proof.
  intros H. symmetry. apply N.add_nocarry_lxor. apply N.bits_inj. intros i.
  rewrite N.land_spec, N.bits_0. rewrite (N.mul_comm 256). change 256 with (2 ^ 8).
  destruct (N.lt_ge_cases i 8).
  - rewrite N.mul_pow2_bits_low by auto. apply andb_false_r.
  - rewrite (testbit_lt_pow2 b 8); auto.
Qed.

(** Feeding bytes one by one is the same as xor-ing the whole message in and stepping. *)
Lemma fold_bytes_steps l : Forall is_byte l -> forall s,
  fold_left bytestep l s = steps (8 * length l) (N.lxor s (le_val l)).
Proof.
  induction 1 as [|b l Hb Hl IH]; intros s.
  - cbn. now rewrite N.lxor_0_r.
  - cbn [fold_left length]. rewrite IH. unfold bytestep.
    replace (8 * S (length l))%nat with (8 * length l + 8)%nat by lia. rewrite steps_add. f_equal.
    cbn [le_val]. rewrite <- lxor_disjoint_add by exact Hb.
    rewrite <- N.lxor_assoc, (steps_lxor 8 (N.lxor s b)). f_equal.
    symmetry. exact (steps_shift 8 (le_val l)).
Qed.

(** Two messages that differ by [p] at byte offset [j] of [len]: their registers differ by the steps of [p]. *)
Lemma steps_burst len j p : (j <= len)%nat -> steps (8 * len) (p * 2 ^ (8 * N.of_nat j)) = steps (8 * (len - j)) p.
Proof.
  intros. replace (8 * len)%nat with (8 * (len - j) + 8 * j)%nat by lia. rewrite steps_add. f_equal.
  rewrite N.mul_comm. replace (8 * N.of_nat j) with (N.of_nat (8 * j)) by lia. apply steps_shift.
Qed.

Variable n : N.
Hypothesis HP : P < 2 ^ n.
Hypothesis Hn : 0 < n.
Hypothesis Htop : N.testbit P (n - 1) = true.

Lemma bitstep_lt c : c < 2 ^ n -> bitstep c < 2 ^ n.
Proof.
  intros. unfold bitstep. destruct (N.testbit c 0).
  - apply lxor_lt; auto. now apply shiftr1_lt.
  - now apply shiftr1_lt.
Qed.

Lemma steps_lt k c : c < 2 ^ n -> steps k c < 2 ^ n.
Proof. intros; induction k; cbn; auto. now apply bitstep_lt. Qed.

Definition unstep (c : N) : N := if N.testbit c (n - 1) then 2 * N.lxor c P + 1 else 2 * c.

Lemma shiftr1_top c : c < 2 ^ n -> N.testbit (N.shiftr c 1) (n - 1) = false.
Proof. intros. rewrite N.shiftr_spec'. apply (testbit_lt_pow2 _ n); auto. lia. Qed.

Lemma div2_odd c : c = 2 * N.shiftr c 1 + (if N.testbit c 0 then 1 else 0).
Proof.
  rewrite N.shiftr_div_pow2, N.bit0_odd. change (2 ^ 1) with 2.
  rewrite <- N.div2_div. pose proof (N.div2_odd c) as E. unfold N.b2n in E. destruct (N.odd c); exact E.
Qed.

Lemma unstep_bitstep c : c < 2 ^ n -> unstep (bitstep c) = c.
Proof.
  intros H. unfold unstep, bitstep. pose proof (div2_odd c) as D.
  destruct (N.testbit c 0).
  - rewrite N.lxor_spec, shiftr1_top, Htop by auto. cbn [xorb].
    rewrite N.lxor_assoc, N.lxor_nilpotent, N.lxor_0_r. lia.
  - rewrite shiftr1_top by auto. lia.
Qed.

Lemma bitstep_inj a b : a < 2 ^ n -> b < 2 ^ n -> bitstep a = bitstep b -> a = b.
Proof. intros Ha Hb E. rewrite <- (unstep_bitstep a), <- (unstep_bitstep b), E; auto. Qed.

Lemma steps_inj k a b : a < 2 ^ n -> b < 2 ^ n -> steps k a = steps k b -> a = b.
Proof.
  intros Ha Hb. induction k; cbn; auto. intros E. apply IHk. apply bitstep_inj; auto; now apply steps_lt.
Qed.

Lemma steps_unsteps k a b : a < 2 ^ n -> steps k a = b -> a = iter k unstep b.
Proof.
  intros Ha. revert b. induction k; intros b; cbn; auto. intros E.
  apply (f_equal unstep) in E. rewrite unstep_bitstep in E by now apply steps_lt.
  apply IHk in E. rewrite E. clear. revert b; induction k; intros; cbn; auto. now rewrite IHk.
Qed.

End Reg.

(** * The instances *)
Lemma crc32_byte_eq c b : crc32_byte c b = bytestep 0x82f63b78 c b.
Proof. reflexivity. Qed.
Lemma crc16_byte_eq c b : crc16_byte c b = bytestep 0x1a2e c b.
Proof. reflexivity. Qed.

Definition T32 := steps 0x82f63b78.
Definition T16 := steps 0x1a2e.

Lemma crc32_steps d : Forall is_byte d ->
  crc32 d = N.lxor (T32 (8 * length d) (N.lxor 0xEEEEEEEE (le_val d))) 0xffffffff.
Proof. intros. unfold crc32, crc32_with_initial. f_equal. apply (fold_bytes_steps 0x82f63b78 d H). Qed.

Lemma bytestep_lt P n c b : P < 2 ^ n -> 8 <= n -> c < 2 ^ n -> b < 256 -> bytestep P c b < 2 ^ n.
Proof.
  intros. unfold bytestep. apply steps_lt; auto; try lia. apply lxor_lt; auto.
  eapply N.lt_le_trans; [eassumption|]. change 256 with (2 ^ 8). apply N.pow_le_mono_r; lia.
Qed.

Lemma fold_lt P n l c : P < 2 ^ n -> 8 <= n -> c < 2 ^ n -> Forall is_byte l -> fold_left (bytestep P) l c < 2 ^ n.
Proof. intros HP Hn Hc Hl. revert c Hc. induction Hl; cbn; auto. intros. apply IHHl. now apply bytestep_lt. Qed.

Lemma crc32_lt d : Forall is_byte d -> crc32 d < 2 ^ 32.
Proof.
  intros. unfold crc32, crc32_with_initial. apply lxor_lt; [|reflexivity].
  apply (fold_lt 0x82f63b78 32); auto; reflexivity || lia.
Qed.

Lemma acrc_lt d : Forall is_byte d -> acrc d < 2 ^ 32.
Proof.
  intros H. unfold acrc. pose proof (crc32_lt d H).
  destruct (N.eqb_spec (crc32 d) 0); [reflexivity|].
  destruct (_ || _); auto. apply lxor_lt; auto. reflexivity.
Qed.

Lemma lxor1_low v : (N.lxor v 1) mod 256 = N.lxor (v mod 256) 1.
Proof.
  change 256 with (2 ^ 8). rewrite <- !N.land_ones. apply N.bits_inj. intros i.
  rewrite N.land_spec, !N.lxor_spec, N.land_spec. change 1 with (N.ones 1).
  destruct (N.lt_ge_cases i 8).
  - rewrite (N.ones_spec_low 8) by auto. now rewrite !andb_true_r.
  - rewrite (N.ones_spec_high 8), (N.ones_spec_high 1) by lia. now rewrite !andb_false_r.
Qed.

Lemma acrc_low d : acrc d mod 256 <> 0 /\ acrc d mod 256 <> 255.
Proof.
  unfold acrc. destruct (N.eqb_spec (crc32 d) 0); [cbv; split; discriminate|].
  destruct (N.eqb_spec (crc32 d mod 256) 0) as [E|E].
  - cbn [orb]. rewrite lxor1_low, E. cbv; split; discriminate.
  - destruct (N.eqb_spec (crc32 d mod 256) 255) as [E'|E'].
    + cbn [orb]. rewrite lxor1_low, E'. cbv; split; discriminate.
    + cbn [orb]. auto.
Qed.

Lemma acrc_nonzero d : acrc d <> 0.
Proof. intros E. destruct (acrc_low d) as [H _]. apply H. now rewrite E. Qed.

Lemma acrc_not_erased d : acrc d <> 0xffffffff.
Proof. intros E. destruct (acrc_low d) as [_ H]. apply H. now rewrite E. Qed.

(** The adapted checksum loses at most the lowest bit. *)
Lemma acrc_eq a b : acrc a = acrc b -> crc32 a = crc32 b \/ N.lxor (crc32 a) (crc32 b) = 1.
Proof.
  assert (A : forall d, acrc d = crc32 d \/ acrc d = N.lxor (crc32 d) 1).
  { intros d. unfold acrc. destruct (N.eqb_spec (crc32 d) 0) as [->|]; auto. destruct (_ || _); auto. }
  assert (X : forall u v, N.lxor u 1 = v -> u = N.lxor v 1).
  { intros u v <-. now rewrite N.lxor_assoc, N.lxor_nilpotent, N.lxor_0_r. }
  assert (Y : forall u, N.lxor u (N.lxor u 1) = 1).
  { intros. now rewrite <- N.lxor_assoc, N.lxor_nilpotent, N.lxor_0_l. }
  destruct (A a) as [->| ->], (A b) as [->| ->]; auto; intros E.
  - right. rewrite E, N.lxor_comm. apply Y.
  - right. rewrite <- E. apply Y.
  - left. apply X in E. rewrite E. now rewrite N.lxor_assoc, N.lxor_nilpotent, N.lxor_0_r.
Qed.

Lemma le_val_app a b : le_val (a ++ b) = le_val a + 256 ^ N.of_nat (length a) * le_val b.
Proof.
  induction a; cbn [app le_val length].
  - change (256 ^ N.of_nat 0) with 1. lia.
  - rewrite IHa, Nat2N.inj_succ, N.pow_succ_r'. lia.
Qed.

Lemma pow256 k : 256 ^ N.of_nat k = 2 ^ (8 * N.of_nat k).
Proof. change 256 with (2 ^ 8). now rewrite <- N.pow_mul_r. Qed.

Lemma le_val_app_lxor a b : Forall is_byte a -> le_val (a ++ b) = N.lxor (le_val a) (le_val b * 2 ^ (8 * N.of_nat (length a))).
Proof.
  intros H. rewrite le_val_app, pow256. rewrite (N.mul_comm (2 ^ _)).
  apply N.add_nocarry_lxor. apply N.bits_inj. intros i. rewrite N.land_spec, N.bits_0.
  destruct (N.lt_ge_cases i (8 * N.of_nat (length a))).
  - rewrite N.mul_pow2_bits_low by auto. apply andb_false_r.
  - rewrite (testbit_lt_pow2 (le_val a) (8 * N.of_nat (length a))); auto.
    rewrite <- pow256. now apply le_val_bound.
Qed.

(** Replacing a middle part of a message changes the raw checksum by the steps of the difference. *)
Lemma crc32_diff pre x y post : Forall is_byte (pre ++ x ++ post) -> Forall is_byte y -> length x = length y ->
  N.lxor (crc32 (pre ++ x ++ post)) (crc32 (pre ++ y ++ post)) =
  T32 (8 * (length x + length post)) (N.lxor (le_val x) (le_val y)).
Proof.
  intros F Fy L. apply Forall_app in F. destruct F as [Fp F]. apply Forall_app in F. destruct F as [Fx Fq].
  rewrite !crc32_steps by (repeat (apply Forall_app; split); auto).
  replace (length (pre ++ y ++ post)) with (length (pre ++ x ++ post)) by (rewrite !app_length; lia).
  set (n := length (pre ++ x ++ post)).
  assert (E : forall A B c, N.lxor (N.lxor A c) (N.lxor B c) = N.lxor A B).
  { intros. apply N.bits_inj; intros i; rewrite !N.lxor_spec.
    destruct (N.testbit A i), (N.testbit B i), (N.testbit c i); reflexivity. }
  rewrite E. unfold T32. rewrite <- steps_lxor.
  replace (N.lxor (N.lxor 0xEEEEEEEE (le_val (pre ++ x ++ post))) (N.lxor 0xEEEEEEEE (le_val (pre ++ y ++ post))))
    with (N.lxor (le_val x) (le_val y) * 2 ^ (8 * N.of_nat (length pre))).
  - unfold n. rewrite steps_burst by (rewrite app_length; lia). f_equal. rewrite !app_length. lia.
  - rewrite !(le_val_app_lxor pre), !(le_val_app_lxor x), !(le_val_app_lxor y) by auto. rewrite L.
    rewrite <- !N.shiftl_mul_pow2.
    apply N.bits_inj; intros i; rewrite ?N.shiftl_lxor, ?N.lxor_spec.
    repeat match goal with |- context [N.testbit ?a ?b] => destruct (N.testbit a b) end; reflexivity.
Qed.

(** Every error confined to four adjacent bytes changes the raw CRC-32. *)
Lemma crc32_burst pre x y post : Forall is_byte (pre ++ x ++ post) -> Forall is_byte y -> length x = length y ->
  (length x <= 4)%nat -> x <> y -> crc32 (pre ++ x ++ post) <> crc32 (pre ++ y ++ post).
Proof.
  intros F Fy L L4 N E. pose proof (crc32_diff pre x y post F Fy L) as D.
  rewrite E, N.lxor_nilpotent in D.
  apply Forall_app in F. destruct F as [_ F]. apply Forall_app in F. destruct F as [Fx _].
  assert (B : forall l, Forall is_byte l -> (length l <= 4)%nat -> le_val l < 2 ^ 32).
  { intros l Hl HL. eapply N.lt_le_trans; [apply le_val_bound; auto|]. rewrite pow256. apply N.pow_le_mono_r; lia. }
  assert (X : N.lxor (le_val x) (le_val y) = 0).
  { apply (steps_inj 0x82f63b78 32) with (k := (8 * (length x + length post))%nat); try reflexivity || lia.
    - apply lxor_lt; apply B; auto; lia.
    - rewrite steps_0. symmetry. exact D. }
  apply N.lxor_eq in X. apply N. rewrite <- (le_bytes_le_val x), <- (le_bytes_le_val y), X, L; auto.
Qed.

(** * Any change of one byte is detected by the adapted checksum *)
Fixpoint orbit_ok (k : nat) (x : N) : bool :=
  match k with
  | O => true
  | S k' => let x' := iter 8 (unstep 0x82f63b78 32) x in (255 <? x') && orbit_ok k' x'
  end.

Lemma orbit_ok_all : orbit_ok (N.to_nat 65535) 1 = true.
Proof. vm_compute. reflexivity. Qed.

Lemma iter_add {A} (f : A -> A) n m x : iter (n + m) f x = iter n f (iter m f x).
Proof. induction n; cbn; auto. now rewrite IHn. Qed.

Lemma orbit_ok_spec k : forall x j, orbit_ok k x = true -> (0 < j <= k)%nat ->
  255 < iter (8 * j) (unstep 0x82f63b78 32) x.
Proof.
  induction k; intros x j H Hj; [lia|].
  cbn [orbit_ok] in H. apply andb_true_iff in H. destruct H as [H1 H2].
  destruct j as [|j]; [lia|]. destruct j as [|j].
  - apply N.ltb_lt in H1. exact H1.
  - specialize (IHk _ (S j) H2). replace (8 * S (S j))%nat with (8 * S j + 8)%nat by lia.
    rewrite iter_add. apply IHk. lia.
Qed.

Lemma acrc_byte pre x y post : Forall is_byte (pre ++ x :: post) -> is_byte y -> x <> y ->
  N.of_nat (length (pre ++ x :: post)) <= 65535 -> acrc (pre ++ x :: post) <> acrc (pre ++ y :: post).
Proof.
  intros F Fy Ne Len E. apply acrc_eq in E.
  assert (Fx : is_byte x) by (apply Forall_app in F; destruct F as [_ F]; now inversion F).
  destruct E as [E|E].
  - revert E. apply (crc32_burst pre [x] [y] post); cbn; auto; try lia. congruence.
  - pose proof (crc32_diff pre [x] [y] post F ltac:(auto) eq_refl) as D.
    change ([x] ++ post) with (x :: post) in D. change ([y] ++ post) with (y :: post) in D. rewrite E in D.
    symmetry in D. unfold T32 in D. cbn [le_val] in D. rewrite !N.mul_0_r, !N.add_0_r in D.
    assert (X : N.lxor x y < 256) by (change 256 with (2 ^ 8); apply lxor_lt; [exact Fx|exact Fy]).
    apply (steps_unsteps 0x82f63b78 32) in D; try reflexivity || lia.
    pose proof (orbit_ok_spec _ 1 (length [x] + length post) orbit_ok_all) as O.
    cbn [length] in *. rewrite app_length in Len. cbn [length] in Len.
    rewrite <- D in O. specialize (O ltac:(lia)). lia.
Qed.

(** * Erased bytes are never a valid item (raw checksum) *)
Fixpoint ff_ok (k : nat) (s : N) : bool :=
  match k with
  | O => negb (N.lxor s 0xffffffff =? 0xffffffff)
  | S k' => negb (N.lxor s 0xffffffff =? 0xffffffff) && ff_ok k' (crc32_byte s 255)
  end.

Lemma ff_ok_all : ff_ok (N.to_nat 65535) 0xEEEEEEEE = true.
Proof. vm_compute. reflexivity. Qed.

Lemma ff_ok_spec k : forall s j, ff_ok k s = true -> (j <= k)%nat ->
  N.lxor (fold_left crc32_byte (repeat 255 j) s) 0xffffffff <> 0xffffffff.
Proof.
  induction k; intros s j H Hj.
  - replace j with 0%nat by lia. cbn [ff_ok] in H. apply negb_true_iff, N.eqb_neq in H. exact H.
  - cbn [ff_ok] in H. apply andb_true_iff in H. destruct H as [H1 H2].
    destruct j as [|j].
    + apply negb_true_iff, N.eqb_neq in H1. exact H1.
    + cbn [repeat fold_left]. apply IHk; auto. lia.
Qed.

Lemma crc32_ff n : N.of_nat n <= 65535 -> crc32 (repeat 255 n) <> 0xffffffff.
Proof. intros. apply (ff_ok_spec _ _ _ ff_ok_all). lia. Qed.

(** * The length checksum *)
Lemma crc16_lt d : Forall is_byte d -> crc16 d < 2 ^ 16.
Proof.
  intros H. unfold crc16. destruct (N.eqb_spec (N.lxor (fold_left crc16_byte d 65535) 65535) 65535); [reflexivity|].
  apply lxor_lt; [|reflexivity]. apply (fold_lt 0x1a2e 16); auto; reflexivity || lia.
Qed.

Lemma crc16_not_erased d : crc16 d <> 0xffff.
Proof. unfold crc16. destruct (N.eqb_spec (N.lxor (fold_left crc16_byte d 65535) 65535) 65535); auto. discriminate. Qed.

Lemma crc16_eq a b : crc16 a = crc16 b ->
  let D := N.lxor (fold_left crc16_byte a 0xffff) (fold_left crc16_byte b 0xffff) in D = 0 \/ D = 1.
Proof.
  cbn zeta. unfold crc16.
  set (x := fold_left crc16_byte a 65535). set (y := fold_left crc16_byte b 65535).
  assert (I : forall u v, N.lxor u 65535 = v -> u = N.lxor v 65535).
  { intros u v <-. now rewrite N.lxor_assoc, N.lxor_nilpotent, N.lxor_0_r. }
  destruct (N.eqb_spec (N.lxor x 65535) 65535) as [E|E], (N.eqb_spec (N.lxor y 65535) 65535) as [E'|E']; intros H.
  - left. apply I in E, E'. now rewrite E, E'.
  - right. symmetry in H. apply I in E, H. now rewrite E, H.
  - right. apply I in E', H. now rewrite E', H.
  - left. apply I in H. rewrite (N.lxor_assoc y), N.lxor_nilpotent, N.lxor_0_r in H. rewrite H. apply N.lxor_nilpotent.
Qed.

Lemma forall_byte (f : N -> bool) : forallb (fun i => f (N.of_nat i)) (seq 0 256) = true -> forall b, b < 256 -> f b = true.
Proof.
  intros H b Hb. rewrite forallb_forall in H. specialize (H (N.to_nat b)). rewrite N2Nat.id in H. apply H.
  apply in_seq. lia.
Qed.

Lemma t16_table : forallb (fun i => let p := N.of_nat i in (p =? 0) ||
   (negb (T16 8 p <=? 1) && negb (T16 16 p <=? 1))) (seq 0 256) = true.
Proof. vm_compute. reflexivity. Qed.

Lemma crc16_byte_change a b a' b' : is_byte a -> is_byte b -> is_byte a' -> is_byte b' ->
  (a = a' /\ b <> b') \/ (a <> a' /\ b = b') -> crc16 [a; b] <> crc16 [a'; b'].
Proof.
  intros Ha Hb Ha' Hb' H E. apply crc16_eq in E. cbn zeta in E.
  change crc16_byte with (bytestep 0x1a2e) in E.
  rewrite !fold_bytes_steps in E by auto. cbn [length] in E.
  rewrite <- steps_lxor in E.
  assert (X : forall A B c, N.lxor (N.lxor c A) (N.lxor c B) = N.lxor A B).
  { intros. apply N.bits_inj; intros i; rewrite !N.lxor_spec.
    destruct (N.testbit A i), (N.testbit B i), (N.testbit c i); reflexivity. }
  rewrite X in E. cbn [le_val] in E. rewrite !N.mul_0_r, !N.add_0_r in E.
  rewrite <- !lxor_disjoint_add in E by auto.
  assert (T : forall p, p < 256 -> p <> 0 -> ~ (T16 8 p = 0 \/ T16 8 p = 1) /\ ~ (T16 16 p = 0 \/ T16 16 p = 1)).
  { intros p Hp Np. pose proof (forall_byte (fun p => (p =? 0) || (negb (T16 8 p <=? 1) && negb (T16 16 p <=? 1))) t16_table p Hp) as Q. cbn beta zeta in Q.
    destruct (N.eqb_spec p 0); [contradiction|]. cbn [orb] in Q. apply andb_true_iff in Q. destruct Q as [Q1 Q2].
    apply negb_true_iff in Q1, Q2. apply N.leb_gt in Q1, Q2. lia. }
  assert (BL : forall u v, is_byte u -> is_byte v -> N.lxor u v < 256) by (intros; change 256 with (2 ^ 8); now apply lxor_lt).
  destruct H as [[-> H]|[H ->]].
  - rewrite X in E. rewrite <- (N.shiftl_mul_pow2 b 8), <- (N.shiftl_mul_pow2 b' 8), <- N.shiftl_lxor in E || idtac.
    replace (N.lxor (256 * b) (256 * b')) with (2 ^ N.of_nat 8 * N.lxor b b') in E.
    + replace (8 * 2)%nat with (8 + 8)%nat in E by lia. rewrite steps_add, steps_shift in E.
      destruct (T (N.lxor b b')) as [T1 _]; auto.
      intros Z. apply N.lxor_eq in Z. auto.
    + change (2 ^ N.of_nat 8) with (2 ^ 8). change 256 with (2 ^ 8).
      rewrite !(N.mul_comm (2 ^ 8)), <- !N.shiftl_mul_pow2. apply N.shiftl_lxor.
  - rewrite (N.lxor_comm a), (N.lxor_comm a'), X in E.
    destruct (T (N.lxor a a')) as [_ T2]; auto.
    intros Z. apply N.lxor_eq in Z. auto.
Qed.
