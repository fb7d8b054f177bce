(** A large family of harmless garblings, and single wrong reads that are not harmless, for the examples in PropsReads.v. *)
From Coq Require Import List NArith Arith Bool Lia ZArith ZifyBool ZifyNat ZifyN.
From Verif Require Import Base CrcP Flash Cache State Client FormatSpec Reads.
Import ListNotations.

Definition noticedb (g : geom) (m : nat -> N) (a n : nat) (x : list N) : bool :=
  (length x =? n) && forallb (fun b => (b <? 256)%N) x &&
  implb (n =? RS g) (eqb (4 <=? length (filter negb (flat_map bits_of x))) (mark g m a)) &&
  implb (n =? words g 8) (negb (forallb (N.eqb 255) x) && negb (num (fun i => nth i x 0%N) 6 2 =? check16 (firstn 2 (skipn 4 x)))%N) &&
  ((a <? words g 8) ||
   let h := a - words g 8 in let len := N.to_nat (num m (h + 4) 2) in
   if (words g len =? n) && negb (num m h 4 =? 0)%N && (num m (h + 6) 2 =? check16 (bytes m (h + 4) 2))%N
   then (num m h 4 =? check32 (bytes m a len))%N && negb (num m h 4 =? check32 (firstn len x))%N else true).
(** Every other access may be wrong in any way [f] that is noticed. *)
Definition tame (g : geom) (f : garbling) : garbling := fun t m a n => if Nat.even t && noticedb g m a n (f t m a n) then f t m a n else bytes m a n.
Lemma tame_ok g f : harmless g (tame g f).
Proof.
  intros t m a n. unfold tame at 1. destruct (Nat.even t && noticedb g m a n (f t m a n)) eqn:E; [right|now left].
  assert (ET : tame g f t m a n = f t m a n) by (unfold tame; now rewrite E). rewrite ET. apply andb_true_iff in E. destruct E as (EV & E). set (x := f t m a n) in *. unfold noticedb in E. rewrite !andb_true_iff in E. destruct E as ((((L & B) & AM) & AH) & AD).
  apply Nat.eqb_eq in L. rewrite forallb_forall in B. split; [exact L|]. split; [apply Forall_forall; intros y I; apply N.ltb_lt, B, I|].
  split; [|split; [|split]].
  - intros R. rewrite <- L, R, Nat.eqb_refl in AM. cbn [implb] in AM. now apply eqb_prop in AM.
  - intros R. rewrite <- L, R, Nat.eqb_refl in AH. cbn [implb] in AH. apply andb_true_iff in AH. destruct AH as (A1 & A2). apply negb_true_iff in A1, A2. apply N.eqb_neq in A2. auto.
  - intros h len -> WL NZ HL HC. apply orb_true_iff in AD. destruct AD as [AD|AD]; [apply Nat.ltb_lt in AD; lia|]. cbv zeta in AD. replace (h + words g 8 - words g 8) with h in AD by lia.
    rewrite HL, Nat2N.id, WL, L, Nat.eqb_refl in AD. apply N.eqb_neq in NZ. rewrite NZ in AD. apply N.eqb_eq in HC. rewrite HC in AD. cbn [andb negb] in AD. apply andb_true_iff in AD. destruct AD as (D1 & D2).
    apply N.eqb_eq in D1. apply negb_true_iff, N.eqb_neq in D2. auto.
  - intros m' a' n'. unfold tame. replace (Nat.even (S t)) with false; [reflexivity|]. rewrite Nat.even_succ, <- Nat.negb_even, EV. reflexivity.
Qed.
(** One bit of every other access is wrong. *)
Definition flicker : garbling := fun t m a n => map (fun i => if i =? t mod n then N.lxor (m (a + i)) (N.shiftl 1 (N.of_nat (t mod 8))) else m (a + i)) (seq 0 n).
(** All reads are right, but for one, the [t]-th, that delivers its bytes with [y] in place of the [i]-th. *)
Definition one_byte (t0 i : nat) (y : N -> N) : garbling := fun t m a n => if t =? t0 then map (fun j => if j =? i then y (m (a + j)) else m (a + j)) (seq 0 n) else bytes m a n.
(** All reads are right, but for the [t]-th, that delivers only ones. *)
Definition all_ones (t0 : nat) : garbling := fun t m a n => if t =? t0 then repeat 255%N n else bytes m a n.
