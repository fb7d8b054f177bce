(** The check of quiet items is right. *)
From Coq Require Import List NArith Arith Bool Lia.
From Verif Require Import Base BaseP Crc Flash TornSpec.
Import ListNotations.
Local Opaque crc16 acrc crc32.

Lemma leqb_ok a b : leqb a b = true -> a = b.
Proof.
  unfold leqb. rewrite andb_true_iff, Nat.eqb_eq. intros [L H]. revert b L H. induction a as [|x a IH]; intros [|y b]; cbn; intros; try discriminate; auto.
  apply andb_true_iff in H. destruct H as [H1 H2]. apply N.eqb_eq in H1. f_equal; auto.
Qed.
Lemma wiped_ext j t j' t' l : (forall i, i < length l -> ((j <=? i) && (i <? t) = (j' <=? i) && (i <? t'))) -> wiped j t l = wiped j' t' l.
Proof. intros H. apply map_ext_in. intros i I. apply in_seq in I. rewrite H by lia. reflexivity. Qed.
Lemma wiped_j j t l : wiped j t l = wiped (Nat.min j (length l)) t l.
Proof. apply wiped_ext. intros i L. f_equal. apply eq_true_iff_eq. rewrite !Nat.leb_le. lia. Qed.
Lemma wiped_t j t n l : length l <= n -> wiped j t l = wiped j (Nat.min t n) l.
Proof. intros LN. apply wiped_ext. intros i L. f_equal. apply eq_true_iff_eq. rewrite !Nat.ltb_lt. lia. Qed.
Lemma head_len d : length (head d) = 8.
Proof. unfold head. rewrite !app_length, !le_bytes_length. reflexivity. Qed.
Lemma quietb_ok g d : 1 <= W g -> quietb g d = true -> quiet g d.
Proof.
  intros W1. unfold quietb. rewrite andb_true_iff, !forallb_forall. intros [H1 H2]. split.
  - intros j t J. cbv zeta. rewrite (wiped_j j), (wiped_t _ t 8), (wiped_t 0 t 8), head_len by (rewrite head_len; lia). intros LK.
    specialize (H1 (Nat.min j 8) ltac:(apply in_seq; lia)). rewrite forallb_forall in H1. specialize (H1 (Nat.min t 8) ltac:(apply in_seq; lia)).
    cbv zeta in H1. rewrite LK in H1. cbn [negb orb] in H1. rewrite !andb_true_iff, orb_true_iff in H1. destruct H1 as [[A B] C].
    split; [now apply leqb_ok|]. split; [now apply leqb_ok|]. destruct C as [C|C]; [left; now apply leqb_ok|right]. intros t'.
    rewrite forallb_forall in C. rewrite (wiped_t 0 t' (length d)) by lia. specialize (C (Nat.min t' (length d)) ltac:(apply in_seq; lia)). apply negb_true_iff, N.eqb_neq in C. exact C.
  - intros i t I. specialize (H2 i ltac:(apply in_seq; nia)). rewrite forallb_forall in H2. rewrite (wiped_t 0 t 8) by (rewrite firstn_length; lia).
    specialize (H2 (Nat.min t 8) ltac:(apply in_seq; lia)). apply orb_true_iff in H2. destruct H2 as [H2|H2]; [apply Nat.leb_le in H2; lia|]. now apply negb_true_iff in H2.
Qed.
