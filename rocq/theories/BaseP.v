(** Lemmas about bytes and lists. *)
From Coq Require Import List NArith ZArith Arith Bool Lia ZifyBool ZifyNat ZifyN.
From Verif Require Import Base.
Import ListNotations.

Ltac Zify.zify_post_hook ::= Z.div_mod_to_equations.

Lemma le_bytes_length n x : length (le_bytes n x) = n.
Proof. revert x; induction n; simpl; auto. Qed.

Lemma le_bytes_is_byte n x : Forall is_byte (le_bytes n x).
Proof.
  revert x; induction n; simpl; intros; constructor; auto.
  unfold is_byte. lia.
Qed.

Lemma le_val_le_bytes n x : (x < 256 ^ N.of_nat n)%N -> le_val (le_bytes n x) = x.
Proof.
  revert x; induction n; intros x H.
  - cbn in *. lia.
  - cbn [le_bytes le_val]. rewrite IHn.
    + pose proof (N.div_mod x 256). lia.
    + rewrite Nat2N.inj_succ, N.pow_succ_r' in H.
      apply N.div_lt_upper_bound; lia.
Qed.

Lemma le_val_bound l : Forall is_byte l -> (le_val l < 256 ^ N.of_nat (length l))%N.
Proof.
  induction 1.
  - cbn. lia.
  - cbn [length le_val]. rewrite Nat2N.inj_succ, N.pow_succ_r'. unfold is_byte in *. lia.
Qed.

Lemma le_bytes_le_val l : Forall is_byte l -> le_bytes (length l) (le_val l) = l.
Proof.
  induction 1; cbn [length le_bytes le_val]; auto. unfold is_byte in *.
  rewrite (N.mul_comm 256), N.mod_add, N.div_add, N.mod_small, N.div_small, N.add_0_l by (assumption || lia).
  now rewrite IHForall.
Qed.

Lemma le_bytes_inj n x y :
  (x < 256 ^ N.of_nat n)%N -> (y < 256 ^ N.of_nat n)%N -> le_bytes n x = le_bytes n y -> x = y.
Proof. intros Hx Hy E. rewrite <- (le_val_le_bytes n x), <- (le_val_le_bytes n y), E; auto. Qed.

Lemma list_set_length {A} (l : list A) i x : length (list_set l i x) = length l.
Proof. revert i; induction l; destruct i; simpl; auto. Qed.

Lemma nth_list_set {A} (l : list A) i j x d :
  nth j (list_set l i x) d = if (j =? i) && (i <? length l) then x else nth j l d.
Proof.
  revert i j; induction l; intros i j.
  - cbn [list_set length]. replace (i <? 0) with false by (symmetry; apply Nat.ltb_ge; lia). rewrite andb_false_r. reflexivity.
  - destruct i, j; cbn [list_set nth length]; try reflexivity.
    rewrite IHl. reflexivity.
Qed.

Lemma nth_error_list_set {A} (l : list A) i j x :
  nth_error (list_set l i x) j = if (j =? i) && (i <? length l) then Some x else nth_error l j.
Proof.
  revert i j; induction l; intros i j.
  - cbn [list_set length]. replace (i <? 0) with false by (symmetry; apply Nat.ltb_ge; lia). rewrite andb_false_r. reflexivity.
  - destruct i, j; cbn [list_set nth_error length]; try reflexivity.
    rewrite IHl. reflexivity.
Qed.

Lemma Forall_list_set {A} (P : A -> Prop) l i x : Forall P l -> P x -> Forall P (list_set l i x).
Proof. intros H; revert i; induction H; destruct i; simpl; auto. Qed.

Lemma firstn_app_exact {A} n (l1 l2 : list A) : length l1 = n -> firstn n (l1 ++ l2) = l1.
Proof. intros <-. rewrite firstn_app, firstn_all, Nat.sub_diag. cbn. apply app_nil_r. Qed.

Lemma skipn_app_exact {A} n (l1 l2 : list A) : length l1 = n -> skipn n (l1 ++ l2) = l2.
Proof. intros <-. rewrite skipn_app, skipn_all, Nat.sub_diag. reflexivity. Qed.

Lemma all_ff_true l : all_ff l = true <-> l = repeat 255%N (length l).
Proof.
  unfold all_ff. induction l as [|a l IH]; cbn [forallb length repeat]; [tauto|].
  rewrite andb_true_iff, IH, N.eqb_eq. split.
  - intros [<- H]. congruence.
  - intros [= -> H]. rewrite <- H. auto.
Qed.

Lemma all_ff_repeat n : all_ff (repeat 255%N n) = true.
Proof. induction n; cbn; auto. Qed.

Lemma put_front_length bs buf : length bs <= length buf -> length (put_front bs buf) = length buf.
Proof. intros. unfold put_front. rewrite app_length, skipn_length. lia. Qed.

Lemma put_front_firstn bs buf n : length bs = n -> firstn n (put_front bs buf) = bs.
Proof. intros. now apply firstn_app_exact. Qed.

Lemma nth_firstn_lt {A} n (l : list A) i d : i < n -> nth i (firstn n l) d = nth i l d.
Proof. revert l i; induction n; intros [|x l] [|i] H; cbn; auto; try lia. apply IHn. lia. Qed.

Lemma nth_skipn_add {A} n (l : list A) i d : nth i (skipn n l) d = nth (n + i) l d.
Proof. revert l; induction n; intros [|x l]; cbn; auto. destruct i; auto. Qed.
