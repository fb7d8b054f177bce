(** Which configurations are accepted. *)
From Coq Require Import List NArith ZArith Arith Bool Lia ZifyBool ZifyNat ZifyN.
From Verif Require Import Base BaseP Config Flash.
Import ListNotations.
Local Open Scope N_scope.

Lemma try_new_true pages z a b : a < 2 ^ 32 -> b < 2 ^ 32 ->
  (try_new true pages z a b = None <->
   a mod z_es z = 0 /\ b mod z_es z = 0 /\ a <= b /\ z_es z * pages <= b - a /\ z_word z * 3 + z_hl z <= z_es z /\ z_word z <= 32).
Proof.
  intros A B. unfold try_new. cbn [andb]. destruct (N.eqb_spec (a mod z_es z) 0); cbn [negb]; [|intuition discriminate].
  destruct (N.eqb_spec (b mod z_es z) 0); cbn [negb]; [|intuition discriminate]. destruct (N.ltb_spec b a); [split; [discriminate|lia]|].
  cbv zeta. replace ((b + 2 ^ 32 - a) mod 2 ^ 32) with (b - a).
  - destruct (N.ltb_spec (b - a) (z_es z * pages)); [split; [discriminate|lia]|].
    destruct (N.ltb_spec (z_es z) (z_word z * 3 + z_hl z)); [split; [discriminate|lia]|]. destruct (N.ltb_spec 32 (z_word z)); [split; [discriminate|lia]|]. intuition lia.
  - replace (b + 2 ^ 32 - a) with ((b - a) + 1 * 2 ^ 32) by lia. rewrite N.mod_add by lia. symmetry. apply N.mod_small. lia.
Qed.

(** The geometry of an accepted configuration. *)
Definition geom_of (z : fsizes) (a b : N) : geom :=
  mkgeom (N.to_nat (z_rs z)) (N.to_nat (z_ws z)) (N.to_nat (z_es z)) (N.to_nat a) (N.to_nat ((b - a) / z_es z)).

Lemma word_of z a b : W (geom_of z a b) = N.to_nat (z_word z).
Proof. unfold W, z_word, geom_of. cbn [RS WS]. destruct (Nat.ltb_spec (N.to_nat (z_rs z)) (N.to_nat (z_ws z))), (N.ltb_spec (z_rs z) (z_ws z)); lia. Qed.
Lemma hl_of z a b : HL (geom_of z a b) = N.to_nat (z_hl z).
Proof.
  unfold HL, rup, z_hl. rewrite word_of. rewrite N2Nat.inj_mul. f_equal. rewrite N2Nat.inj_div. f_equal. lia.
Qed.
Lemma mod_of x y : N.to_nat (x mod y) = (N.to_nat x mod N.to_nat y)%nat.
Proof. apply N2Nat.inj_mod. Qed.

Lemma accepted_geom pages z a b : a < 2 ^ 32 -> b < 2 ^ 32 -> 1 <= pages -> 0 < z_rs z -> 0 < z_ws z ->
  (z_ws z mod z_rs z = 0 \/ z_rs z mod z_ws z = 0) -> z_es z mod z_word z = 0 -> try_new true pages z a b = None ->
  geom_ok (geom_of z a b) /\ (N.to_nat pages <= NP (geom_of z a b))%nat /\ FEND (geom_of z a b) = N.to_nat b.
Proof.
  intros A B P R Wp M E H. apply try_new_true in H; auto. destruct H as (Ha & Hb & L & Len & Pg & W32).
  assert (ES0 : z_es z <> 0). { intros Z. unfold z_word in Pg. destruct (N.ltb_spec (z_rs z) (z_ws z)); lia. }
  assert (D : z_es z * ((b - a) / z_es z) = b - a).
  { symmetry. apply N.div_exact; auto. apply N.mod_divide in Ha; auto. apply N.mod_divide in Hb; auto. apply N.mod_divide; auto. now apply N.divide_sub_r. }
  assert (PG : pages <= (b - a) / z_es z).
  { apply N.div_le_lower_bound; auto. }
  split; [|split].
  - unfold geom_ok. rewrite word_of, hl_of. unfold geom_of. cbn [RS WS ES START NP]. rewrite <- !mod_of. repeat split; try lia.
  - unfold geom_of. cbn [NP]. lia.
  - unfold FEND, geom_of. cbn [START ES NP]. rewrite <- N2Nat.inj_mul, D. lia.
Qed.

(** The same without the sizes computed by the code: [w] is the larger of the two sizes, [h] the smallest multiple of [w] that holds eight bytes. *)
Lemma accepted_iff pages z a b w h : a < 2 ^ 32 -> b < 2 ^ 32 -> 0 < z_rs z -> w = N.max (z_rs z) (z_ws z) -> h mod w = 0 -> 8 <= h < 8 + w ->
  (try_new true pages z a b = None <->
   a mod z_es z = 0 /\ b mod z_es z = 0 /\ a <= b /\ pages * z_es z <= b - a /\ 3 * w + h <= z_es z /\ w <= 32).
Proof.
  intros A B R Ew M H. assert (W : z_word z = w) by (unfold z_word; destruct (N.ltb_spec (z_rs z) (z_ws z)); lia).
  assert (HH : z_hl z = h).
  { unfold z_hl. rewrite W. assert (w <> 0) by lia. pose proof (N.div_mod h w ltac:(auto)) as D. rewrite M in D. set (q := h / w) in *. clearbody q. subst h.
    replace ((8 + w - 1) / w) with q; [lia|]. apply (N.div_unique _ _ _ (8 + w - 1 - w * q)); lia. }
  rewrite (try_new_true pages z a b A B), W, HH. rewrite (N.mul_comm pages), (N.mul_comm 3). reflexivity.
Qed.

Lemma try_new_checks checks pages z a b : checks = true \/ a <= b -> try_new checks pages z a b = try_new true pages z a b.
Proof. intros [->|H]; auto. unfold try_new. destruct (N.ltb_spec b a); [lia|]. now rewrite !andb_false_r. Qed.
Lemma accepted_iff' checks pages z a b w h : a < 2 ^ 32 -> b < 2 ^ 32 -> 0 < z_rs z -> w = N.max (z_rs z) (z_ws z) -> h mod w = 0 -> 8 <= h < 8 + w ->
  checks = true \/ a <= b ->
  (try_new checks pages z a b = None <->
   a mod z_es z = 0 /\ b mod z_es z = 0 /\ a <= b /\ pages * z_es z <= b - a /\ 3 * w + h <= z_es z /\ w <= 32).
Proof. intros A B R Ew M H C. rewrite (try_new_checks _ _ _ _ _ C). now apply accepted_iff. Qed.
