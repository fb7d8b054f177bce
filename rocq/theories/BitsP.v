(** One or two wrong bits in the data or the checksum of an item always show. *)
From Coq Require Import List NArith ZArith Arith Bool Lia ZifyBool ZifyNat ZifyN FinFun.
From Verif Require Import Base BaseP Crc CrcP NoiseSpec.
Import ListNotations.
Local Open Scope N_scope.
Local Opaque crc16 acrc crc32.

Notation P32 := 0x82f63b78.
(** The exclusive or of powers of two. *)
Definition xsum (ps : list nat) : N := fold_right (fun i a => N.lxor (2 ^ N.of_nat i) a) 0 ps.
Lemma xsum_app a b : xsum (a ++ b) = N.lxor (xsum a) (xsum b).
Proof. induction a as [|i a IH]; cbn [app xsum fold_right]; [now rewrite N.lxor_0_l|]. fold (xsum (a ++ b)) (xsum a). now rewrite IH, N.lxor_assoc. Qed.
Lemma lxor_mul256 a b : N.lxor (256 * a) (256 * b) = 256 * N.lxor a b.
Proof. rewrite !(N.mul_comm 256). change 256 with (2 ^ 8). rewrite <- !N.shiftl_mul_pow2. symmetry. apply N.shiftl_lxor. Qed.
Lemma xsum_shift ps : xsum (map (fun i => 8 + i)%nat ps) = 256 * xsum ps.
Proof.
  induction ps as [|i ps IH]; [reflexivity|]. cbn [map xsum fold_right]. fold (xsum (map (fun i => 8 + i)%nat ps)) (xsum ps). rewrite IH, <- lxor_mul256. f_equal. rewrite Nat2N.inj_add, N.pow_add_r. reflexivity.
Qed.
Definition places_of (e : N) : list nat := filter (fun i => N.testbit e (N.of_nat i)) (seq 0 8).
Lemma xsum_byte e : e < 256 -> e = xsum (places_of e).
Proof. intros H. apply N.eqb_eq. revert e H. apply forall_byte. vm_compute. reflexivity. Qed.
Lemma bit_diff_places x y : bit_diff x y = length (places_of (N.lxor x y)).
Proof. unfold bit_diff, places_of. f_equal. apply filter_ext. intros i. now rewrite N.lxor_spec. Qed.
Definition diffs (d e : list N) : nat := list_sum (map (fun p => bit_diff (fst p) (snd p)) (combine d e)).
(** The positions of the wrong bits. *)
Lemma diff_bits : forall d e, Forall is_byte d -> Forall is_byte e -> length d = length e ->
  exists ps, length ps = diffs d e /\ NoDup ps /\ Forall (fun i => (i < 8 * length d)%nat) ps /\ N.lxor (le_val d) (le_val e) = xsum ps.
Proof.
  induction d as [|x d IH]; intros [|y e] D E L; try discriminate; [exists []; repeat split; constructor|]. apply Forall_cons_iff in D, E. destruct D as (X & D), E as (Y & E). injection L as L.
  destruct (IH e D E L) as (ps & L1 & ND & F & V). exists (places_of (N.lxor x y) ++ map (fun i => 8 + i)%nat ps). cbn [length]. split; [|split; [|split]].
  - rewrite app_length, map_length, L1. unfold diffs. cbn [combine map fst snd list_sum fold_right]. now rewrite bit_diff_places.
  - assert (PL : forall i, In i (places_of (N.lxor x y)) -> (i < 8)%nat) by (intros i I; apply filter_In in I; destruct I as (I & _); apply in_seq in I; lia).
    assert (N1 : NoDup (places_of (N.lxor x y))) by (apply NoDup_filter, seq_NoDup). revert N1 PL. generalize (places_of (N.lxor x y)). intros q. induction q as [|i q IQ]; intros N1 PL; cbn [app].
    + apply Injective_map_NoDup; auto. intros a b Q. lia.
    + inversion N1 as [|? ? NI N2]; subst. constructor; [|apply IQ; auto; intros; apply PL; now right]. intros I. apply in_app_or in I. destruct I as [I|I]; auto. apply in_map_iff in I. destruct I as (z & Q & _).
      specialize (PL i (or_introl eq_refl)). lia.
  - apply Forall_app. split.
    + apply Forall_forall. intros i I. apply filter_In in I. destruct I as (I & _). apply in_seq in I. lia.
    + apply Forall_map. eapply Forall_impl; [|exact F]. cbn beta. intros. lia.
  - rewrite xsum_app, xsum_shift, <- V. rewrite <- xsum_byte by (change 256 with (2 ^ 8); apply lxor_lt; [exact X|exact Y]). cbn [le_val].
    rewrite <- !(lxor_disjoint_add x), <- !(lxor_disjoint_add y) by assumption. rewrite <- lxor_mul256. rewrite !N.lxor_assoc. f_equal. rewrite <- !N.lxor_assoc. f_equal. apply N.lxor_comm.
Qed.

(** The parity of a number of at most 32 bits does not change in a step. *)
Definition par (n : nat) (c : N) : bool := fold_right xorb false (map (fun i => N.testbit c (N.of_nat i)) (seq 0 n)).
Lemma par_lxor n a b : par n (N.lxor a b) = xorb (par n a) (par n b).
Proof.
  unfold par. generalize (seq 0 n). intros l. induction l as [|i l IH]; cbn [map fold_right]; auto. rewrite IH, N.lxor_spec.
  destruct (N.testbit a _), (N.testbit b _), (fold_right xorb false (map (fun i => N.testbit a (N.of_nat i)) l)), (fold_right xorb false (map (fun i => N.testbit b (N.of_nat i)) l)); reflexivity.
Qed.
Lemma par_seq c n : forall b, fold_right xorb false (map (fun i => N.testbit (N.shiftr c 1) (N.of_nat i)) (seq b n)) = fold_right xorb false (map (fun i => N.testbit c (N.of_nat i)) (seq (S b) n)).
Proof.
  induction n as [|n IH]; intros b; cbn [seq map fold_right]; auto. rewrite IH, N.shiftr_spec'. f_equal. f_equal. lia.
Qed.
Lemma par_shift c : c < 2 ^ 32 -> par 32 c = xorb (N.testbit c 0) (par 32 (N.shiftr c 1)).
Proof.
  intros H. unfold par at 2. rewrite par_seq. change (seq 1 32) with (seq 1 31 ++ [32%nat]). rewrite map_app. cbn [map]. replace (N.testbit c (N.of_nat 32)) with false by (symmetry; apply testbit_lt_pow2 with 32; [exact H|reflexivity]).
  unfold par. change (seq 0 32) with (0%nat :: seq 1 31). cbn [map fold_right]. f_equal.
Qed.
Lemma par_step c : c < 2 ^ 32 -> par 32 (bitstep P32 c) = par 32 c.
Proof.
  intros H. rewrite (par_shift c H). unfold bitstep. destruct (N.testbit c 0); [|now destruct (par 32 (N.shiftr c 1))]. rewrite par_lxor. replace (par 32 P32) with true by (vm_compute; reflexivity). now destruct (par 32 (N.shiftr c 1)).
Qed.
Lemma par_steps k c : c < 2 ^ 32 -> par 32 (steps P32 k c) = par 32 c.
Proof. intros H. induction k as [|k IH]; [reflexivity|]. rewrite steps_S, par_step, IH; auto. apply steps_lt; auto; reflexivity || lia. Qed.
Lemma bit_lt i : (i < 32)%nat -> 2 ^ N.of_nat i < 2 ^ 32. Proof. intros. apply N.pow_lt_mono_r; lia. Qed.
Lemma par_bit i : (i < 32)%nat -> par 32 (2 ^ N.of_nat i) = true.
Proof.
  intros H. assert (X : forallb (fun i => par 32 (2 ^ N.of_nat i)) (seq 0 32) = true) by (vm_compute; reflexivity). rewrite forallb_forall in X. apply X, in_seq. lia.
Qed.
(** Steps from one do not come back to one before step 524312. *)
Fixpoint order_ok (k : nat) (x : N) : bool := match k with O => true | S k' => let x' := bitstep P32 x in negb (x' =? 1) && order_ok k' x' end.
Lemma order_all : order_ok (N.to_nat 524312) 1 = true. Proof. vm_compute. reflexivity. Qed.
Lemma order_spec k : forall x j, order_ok k x = true -> (0 < j <= k)%nat -> steps P32 j x <> 1.
Proof.
  induction k as [|k IH]; intros x j H J; [lia|]. cbn [order_ok] in H. apply andb_true_iff in H. destruct H as (H1 & H2). destruct j as [|j]; [lia|]. rewrite steps_S'. destruct j as [|j].
  - apply negb_true_iff in H1. apply N.eqb_neq in H1. exact H1.
  - apply IH; auto. lia.
Qed.
Lemma order j : (0 < j)%nat -> N.of_nat j <= 524312 -> steps P32 j 1 <> 1.
Proof. intros H1 H2. apply (order_spec (N.to_nat 524312)); [exact order_all|lia]. Qed.
Lemma step_bit n i : (i <= n)%nat -> steps P32 n (2 ^ N.of_nat i) = steps P32 (n - i) 1.
Proof. intros H. replace n with (n - i + i)%nat at 1 by lia. rewrite steps_add. f_equal. replace (2 ^ N.of_nat i) with (2 ^ N.of_nat i * 1) by lia. apply steps_shift. Qed.

Lemma acrc_or d : acrc d = crc32 d \/ acrc d = N.lxor (crc32 d) 1.
Proof. Local Transparent acrc. unfold acrc. Local Opaque acrc. destruct (N.eqb_spec (crc32 d) 0) as [->|]; auto. destruct (_ || _); auto. Qed.
Lemma acrc_diff d e : N.lxor (acrc d) (acrc e) = N.lxor (crc32 d) (crc32 e) \/ N.lxor (acrc d) (acrc e) = N.lxor (N.lxor (crc32 d) (crc32 e)) 1.
Proof.
  assert (B : forall a b c, N.lxor (N.lxor a c) b = N.lxor (N.lxor a b) c) by (intros; now rewrite !N.lxor_assoc, (N.lxor_comm c)).
  destruct (acrc_or d) as [->| ->], (acrc_or e) as [->| ->]; auto.
  - right. now rewrite <- N.lxor_assoc.
  - left. rewrite B, <- N.lxor_assoc. rewrite (N.lxor_assoc _ 1 1). now rewrite N.lxor_nilpotent, N.lxor_0_r.
Qed.
(** One or two bits of the data and of the checksum [c] are wrong: the wrong checksum does not match the wrong data. *)
Lemma two_bits d e c c2 : Forall is_byte d -> Forall is_byte e -> Forall is_byte c -> Forall is_byte c2 -> length d = length e -> length c = 4%nat -> length c2 = 4%nat -> N.of_nat (length d) <= 65535 ->
  le_val c = acrc d -> (diffs d e + diffs c c2 <= 2)%nat -> le_val c2 = acrc e -> diffs d e = 0%nat /\ diffs c c2 = 0%nat.
Proof.
  intros D E C C2 L LC LC2 LE M B M2. destruct (diff_bits d e D E L) as (ps & P1 & P2 & P3 & P4). destruct (diff_bits c c2 C C2 ltac:(congruence)) as (qs & Q1 & Q2 & Q3 & Q4). rewrite LC in Q3. rewrite M, M2 in Q4.
  rewrite <- P1, <- Q1 in *. pose proof (crc32_diff [] d e [] ltac:(cbn [app]; rewrite app_nil_r; exact D) E L) as X. cbn [app length] in X. rewrite !app_nil_r, Nat.add_0_r, P4 in X. unfold T32 in X.
  set (n := (8 * length d)%nat) in *.
  assert (ONE : forall i, (i < n)%nat -> (0 < n - i)%nat /\ N.of_nat (n - i) <= 524312) by (unfold n; lia).
  assert (LT : forall k, steps P32 k 1 < 2 ^ 32) by (intros; apply steps_lt; reflexivity || lia).
  assert (PS : forall k, par 32 (steps P32 k 1) = true) by (intros; rewrite par_steps by reflexivity; vm_compute; reflexivity).
  assert (NB : forall i j, (i < n)%nat -> (j < 32)%nat -> steps P32 (n - i) 1 <> 2 ^ N.of_nat j).
  { intros i j I J Q. apply (order (j + (n - i))); [lia|unfold n in *; lia|]. rewrite steps_add, Q, step_bit by lia. now rewrite Nat.sub_diag. }
  assert (NE : forall i j, (i < j)%nat -> (j < n)%nat -> steps P32 (n - i) 1 <> steps P32 (n - j) 1).
  { intros i j I J Q. apply (order (j - i)); [lia|unfold n in *; lia|]. replace (n - i)%nat with ((n - j) + (j - i))%nat in Q by lia. rewrite steps_add in Q. apply (steps_inj P32 32) in Q; auto; reflexivity || lia. }
  destruct ps as [|i ps].
  - assert (DE : d = e). { cbn in P4. apply N.lxor_eq in P4. rewrite <- (le_bytes_le_val d), <- (le_bytes_le_val e), P4, L; auto. }
    subst e. rewrite N.lxor_nilpotent in Q4. destruct qs as [|u [|v [|? ?]]]; cbn [length] in B; try lia; auto; exfalso; cbn [xsum fold_right] in Q4; rewrite ?N.lxor_0_r in Q4.
    + symmetry in Q4. apply N.pow_nonzero in Q4; [auto|lia].
    + symmetry in Q4. apply N.lxor_eq in Q4. apply N.pow_inj_r in Q4; [|lia]. inversion Q2 as [|? ? NI _]; subst. apply NI. left. lia.
  - exfalso. pose proof (acrc_diff d e) as A. rewrite Q4, X in A. clear X Q4 P4 M M2 P1 Q1. apply Forall_cons_iff in P3. destruct P3 as (PI & P3). inversion P2 as [|? ? NI P2']; subst.
    destruct ps as [|j [|? ?]], qs as [|u [|? ?]]; cbn [length] in B; try lia; cbn [xsum fold_right] in A; rewrite ?N.lxor_0_r, ?steps_lxor in A; rewrite ?step_bit in A by lia.
    + destruct A as [A|A].
      * assert (Z : 1 = 0); [|discriminate]. apply (steps_inj P32 32) with (k := (n - i)%nat); try reflexivity || lia. rewrite steps_0. auto.
      * symmetry in A. apply N.lxor_eq in A. apply (NB i 0%nat); auto. lia.
    + apply Forall_cons_iff in Q3. destruct Q3 as (U & _). destruct A as [A|A]; [apply (NB i u); auto; lia|]. apply (f_equal (par 32)) in A. rewrite par_lxor, PS, par_bit in A by lia. discriminate A.
    + apply Forall_cons_iff in P3. destruct P3 as (PJ & _). rewrite (step_bit n j) in A by lia. destruct A as [A|A].
      * symmetry in A. apply N.lxor_eq in A. destruct (Nat.lt_trichotomy i j) as [T|[->|T]]; [now apply (NE i j)|apply NI; now left|symmetry in A; now apply (NE j i)].
      * apply (f_equal (par 32)) in A. rewrite !par_lxor, !PS in A. discriminate A.
Qed.
