(** Arithmetic of page addresses, alignment and rounding. *)
From Coq Require Import List NArith ZArith Arith Bool Lia ZifyBool ZifyNat ZifyN.
From Verif Require Import Base BaseP Flash Cache State Item Generic.
Import ListNotations.

Section Geom.
Context (g : geom) (gok : geom_ok g).

(** Word alignment. *)
Definition al (x : nat) : Prop := x mod W g = 0.

Lemma RS_pos : 0 < RS g. Proof. apply gok. Qed.
Lemma WS_pos : 0 < WS g. Proof. apply gok. Qed.
Lemma RS_le_W : RS g <= W g. Proof. unfold W. destruct (Nat.ltb_spec (RS g) (WS g)); lia. Qed.
Lemma WS_le_W : WS g <= W g. Proof. unfold W. destruct (Nat.ltb_spec (RS g) (WS g)); lia. Qed.
Lemma W_pos : 0 < W g. Proof. pose proof RS_pos. pose proof RS_le_W. lia. Qed.
Lemma W_le_32 : W g <= 32. Proof. apply gok. Qed.
Lemma NP_pos : 0 < NP g. Proof. destruct gok as (_&_&_&_&_&_&_&H). lia. Qed.
Lemma ES_big : 3 * W g + HL g <= ES g. Proof. apply gok. Qed.
Lemma ES_pos : 0 < ES g. Proof. pose proof ES_big. pose proof W_pos. lia. Qed.

Lemma W_mod_RS : W g mod RS g = 0.
Proof.
  destruct gok as (H1 & H2 & H3 & _). unfold W. destruct (Nat.ltb_spec (RS g) (WS g)).
  - destruct H3 as [H3|H3]; auto. rewrite Nat.mod_small in H3 by auto. lia.
  - apply Nat.mod_same. lia.
Qed.

Lemma W_mod_WS : W g mod WS g = 0.
Proof.
  destruct gok as (H1 & H2 & H3 & _). unfold W. destruct (Nat.ltb_spec (RS g) (WS g)).
  - apply Nat.mod_same. lia.
  - destruct H3 as [H3|H3]; auto.
    destruct (Nat.eq_dec (RS g) (WS g)) as [->|]; [apply Nat.mod_same; lia|].
    rewrite Nat.mod_small in H3 by lia. lia.
Qed.

Lemma al_iff x : al x <-> exists k, x = k * W g.
Proof.
  pose proof W_pos. unfold al. split.
  - intros H'. exists (x / W g). pose proof (Nat.div_mod x (W g)). lia.
  - intros [k ->]. apply Nat.mod_mul. lia.
Qed.

Lemma al_0 : al 0. Proof. apply al_iff. now exists 0. Qed.
Lemma al_W : al (W g). Proof. apply al_iff. exists 1. lia. Qed.
Lemma al_add a b : al a -> al b -> al (a + b).
Proof. rewrite !al_iff. intros [k ->] [l ->]. exists (k + l). lia. Qed.
Lemma al_sub a b : al a -> al b -> al (a - b).
Proof. rewrite !al_iff. intros [k ->] [l ->]. exists (k - l). rewrite Nat.mul_sub_distr_r. reflexivity. Qed.
Lemma al_mul a b : al a -> al (a * b).
Proof. rewrite !al_iff. intros [k ->]. exists (k * b). lia. Qed.
Lemma al_ES : al (ES g). Proof. apply gok. Qed.
Lemma al_START : al (START g).
Proof.
  pose proof ES_pos. assert (H' : START g mod ES g = 0) by apply gok.
  rewrite (Nat.div_mod (START g) (ES g)) by lia. rewrite H', Nat.add_0_r. apply al_mul, al_ES.
Qed.
Lemma al_rup n : al (rup g n). Proof. apply al_iff. eexists. reflexivity. Qed.
Lemma al_rdown n : al (rdown g n). Proof. apply al_iff. eexists. reflexivity. Qed.
Lemma al_HL : al (HL g). Proof. apply al_rup. Qed.
Lemma al_FEND : al (FEND g). Proof. apply al_add; [apply al_START|apply al_mul, al_ES]. Qed.
Lemma al_paddr p : al (paddr g p). Proof. apply al_add; [apply al_START|apply al_mul, al_ES]. Qed.
Lemma al_pend p : al (pend g p). Proof. apply al_add; [apply al_START|apply al_mul, al_ES]. Qed.
Lemma al_dstart p : al (dstart g p). Proof. apply al_add; [apply al_paddr|apply al_W]. Qed.
Lemma al_dend p : al (dend g p). Proof. apply al_sub; [apply al_pend|apply al_W]. Qed.

(** Two aligned numbers that differ by less than a word are equal. *)
Lemma al_lt_le a b : al a -> al b -> a < b -> a + W g <= b.
Proof. rewrite !al_iff. pose proof W_pos. intros [k ->] [l ->] H'. assert (k < l) by nia. nia. Qed.

Lemma rup_ge n : n <= rup g n.
Proof.
  pose proof W_pos. unfold rup. pose proof (Nat.div_mod (n + W g - 1) (W g)).
  pose proof (Nat.mod_upper_bound (n + W g - 1) (W g)). lia.
Qed.
Lemma rup_lt n : rup g n < n + W g.
Proof. pose proof W_pos. unfold rup. pose proof (Nat.div_mod (n + W g - 1) (W g)). lia. Qed.
Lemma rup_al n : al n -> rup g n = n.
Proof.
  intros H. pose proof (rup_ge n). pose proof (rup_lt n).
  destruct (Nat.eq_dec (rup g n) n); auto. pose proof (al_lt_le n (rup g n) H (al_rup n)). lia.
Qed.
Lemma rup_min n m : al m -> n <= m -> rup g n <= m.
Proof.
  intros H H'. pose proof (rup_lt n). destruct (le_lt_dec (rup g n) m); auto.
  pose proof (al_lt_le m (rup g n) H (al_rup n) l). lia.
Qed.
Lemma rup_mono n m : n <= m -> rup g n <= rup g m.
Proof. intros. apply rup_min; [apply al_rup|]. pose proof (rup_ge m). lia. Qed.
Lemma rup_0 : rup g 0 = 0. Proof. apply rup_al, al_0. Qed.
Lemma rdown_le n : rdown g n <= n.
Proof. pose proof W_pos. unfold rdown. pose proof (Nat.div_mod n (W g)). lia. Qed.
Lemma rdown_gt n : n < rdown g n + W g.
Proof.
  pose proof W_pos. unfold rdown. pose proof (Nat.div_mod n (W g)).
  pose proof (Nat.mod_upper_bound n (W g)). lia.
Qed.
Lemma rdown_al n : al n -> rdown g n = n.
Proof.
  intros H. pose proof (rdown_le n). pose proof (rdown_gt n).
  destruct (Nat.eq_dec (rdown g n) n); auto. pose proof (al_lt_le (rdown g n) n (al_rdown n) H). lia.
Qed.
Lemma HL_ge : 8 <= HL g. Proof. apply rup_ge. Qed.
Lemma HL_W : W g <= HL g.
Proof. pose proof HL_ge. pose proof (al_lt_le 0 (HL g) al_0 al_HL). lia. Qed.
Lemma HL_eq_W : 8 <= W g -> HL g = W g.
Proof. intros. pose proof HL_W. pose proof (rup_min 8 (W g) al_W). unfold HL in *. lia. Qed.
(** The rounding of a length splits into whole words and the rest. *)
Lemma rup_split n : rup g n = rdown g n + rup g (n - rdown g n).
Proof.
  pose proof (rdown_le n). pose proof (rdown_gt n). apply Nat.le_antisymm.
  - apply rup_min; [apply al_add; [apply al_rdown|apply al_rup]|].
    pose proof (rup_ge (n - rdown g n)). lia.
  - assert (rup g (n - rdown g n) <= rup g n - rdown g n); [|pose proof (rup_ge n); lia].
    apply rup_min; [apply al_sub; [apply al_rup|apply al_rdown]|]. pose proof (rup_ge n). lia.
Qed.

(** Pages. *)
Lemma pend_eq p : pend g p = paddr g p + ES g.
Proof. unfold pend, paddr. lia. Qed.
Lemma paddr_S p : paddr g (S p) = pend g p.
Proof. unfold pend, paddr. lia. Qed.
Lemma START_paddr p : START g <= paddr g p. Proof. unfold paddr. lia. Qed.
Lemma pend_FEND p : p < NP g -> pend g p <= FEND g.
Proof. unfold pend, FEND. intros. apply Nat.add_le_mono_l, Nat.mul_le_mono_l. lia. Qed.
Lemma page_lt p q : p < q -> pend g p <= paddr g q.
Proof. unfold pend, paddr. intros. apply Nat.add_le_mono_l, Nat.mul_le_mono_l. lia. Qed.
Lemma page_disj p q x : paddr g p <= x < pend g p -> paddr g q <= x < pend g q -> p = q.
Proof.
  intros H1 H2. destruct (Nat.lt_trichotomy p q) as [H|[H|H]]; auto; apply page_lt in H; lia.
Qed.
Lemma pindex_in p a : paddr g p <= a < pend g p -> pindex g a = p.
Proof.
  intros [H1 H2]. pose proof ES_pos. unfold pindex, paddr, pend in *. symmetry.
  apply (Nat.div_unique _ _ _ (a - START g - ES g * p)); lia.
Qed.
Lemma dstart_lt p : dstart g p + W g + HL g <= dend g p.
Proof. unfold dstart, dend. rewrite pend_eq. pose proof ES_big. lia. Qed.
Lemma dend_lt p : dend g p + W g = pend g p.
Proof. unfold dend. rewrite pend_eq. pose proof ES_big. lia. Qed.
Lemma pindex_dstart p : pindex g (dstart g p) = p.
Proof. apply pindex_in. pose proof (dstart_lt p). pose proof (dend_lt p). pose proof W_pos. unfold dstart in *. lia. Qed.
Lemma pindex_data p a : dstart g p <= a < dend g p -> pindex g a = p.
Proof. intros. apply pindex_in. pose proof (dend_lt p). unfold dstart in *. lia. Qed.

(** Device checks. *)
Lemma mod_W_RS x : al x -> x mod RS g = 0.
Proof.
  rewrite al_iff. intros [k ->]. pose proof RS_pos. pose proof W_mod_RS.
  rewrite (Nat.div_mod (W g) (RS g)) by lia. rewrite H0, Nat.add_0_r.
  replace (k * (RS g * (W g / RS g))) with (k * (W g / RS g) * RS g) by lia. apply Nat.mod_mul. lia.
Qed.
Lemma mod_W_WS x : al x -> x mod WS g = 0.
Proof.
  rewrite al_iff. intros [k ->]. pose proof WS_pos. pose proof W_mod_WS.
  rewrite (Nat.div_mod (W g) (WS g)) by lia. rewrite H0, Nat.add_0_r.
  replace (k * (WS g * (W g / WS g))) with (k * (W g / WS g) * WS g) by lia. apply Nat.mod_mul. lia.
Qed.
Lemma chk_none al' a n : a mod al' = 0 -> n mod al' = 0 -> 0 < n -> START g <= a -> a + n <= FEND g ->
  chk g al' a n = None.
Proof.
  intros A B C D E. unfold chk. rewrite A, B. destruct (Nat.eqb_spec n 0); [lia|]. cbn [Nat.eqb negb orb].
  destruct (Nat.ltb_spec a (START g)); [lia|]. destruct (Nat.ltb_spec (FEND g) (a + n)); [lia|]. reflexivity.
Qed.
Lemma chk_RS a n : al a -> al n -> 0 < n -> START g <= a -> a + n <= FEND g -> chk g (RS g) a n = None.
Proof. intros. apply chk_none; auto using mod_W_RS. Qed.
Lemma chk_WS a n : al a -> al n -> 0 < n -> START g <= a -> a + n <= FEND g -> chk g (WS g) a n = None.
Proof. intros. apply chk_none; auto using mod_W_WS. Qed.
Lemma chk_ES p : p < NP g -> chk g (ES g) (paddr g p) (pend g p - paddr g p) = None.
Proof.
  intros. pose proof ES_pos. pose proof (pend_FEND p H). pose proof (pend_eq p).
  replace (pend g p - paddr g p) with (ES g) by lia. apply chk_none; auto.
  - unfold paddr. rewrite Nat.add_mod, (Nat.mul_comm (ES g)), Nat.mod_mul, Nat.add_0_r, Nat.mod_mod by lia. apply gok.
  - apply Nat.mod_same. lia.
  - apply START_paddr.
  - lia.
Qed.
Lemma chk_marker_lo p : p < NP g -> chk g (RS g) (paddr g p) (RS g) = None.
Proof.
  intros. pose proof (pend_FEND p H). pose proof (pend_eq p). pose proof ES_big. pose proof RS_le_W. pose proof RS_pos.
  apply chk_none; auto using mod_W_RS, al_paddr, START_paddr; try lia. apply Nat.mod_same. lia.
Qed.
Lemma chk_marker_hi p : p < NP g -> chk g (RS g) (paddr g p + (ES g - RS g)) (RS g) = None.
Proof.
  intros. pose proof (pend_FEND p H). pose proof (pend_eq p). pose proof ES_big. pose proof RS_le_W. pose proof RS_pos.
  apply chk_none; auto using START_paddr; try lia.
  - pose proof (mod_W_RS _ al_ES) as M. pose proof (mod_W_RS _ (al_paddr p)) as M'.
    apply Nat.mod_divides in M; [|lia]. apply Nat.mod_divides in M'; [|lia]. destruct M as [k M], M' as [l M'].
    apply Nat.mod_divides; [lia|]. exists (l + (k - 1)). rewrite M, M'. rewrite Nat.mul_add_distr_l, Nat.mul_sub_distr_l. lia.
  - apply Nat.mod_same. lia.
  - pose proof (START_paddr p). lia.
Qed.

Lemma next_page_lt p : next_page g p < NP g.
Proof. pose proof NP_pos. apply Nat.mod_upper_bound. lia. Qed.
Lemma prev_page_lt p : p < NP g -> prev_page g p < NP g.
Proof. unfold prev_page. destruct p; lia. Qed.

End Geom.
#[export] Hint Resolve al_0 al_W al_add al_sub al_mul al_ES al_START al_rup al_rdown al_HL al_FEND al_paddr al_pend al_dstart al_dend : al.
