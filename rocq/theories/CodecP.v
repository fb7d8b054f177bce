(** The codecs are lossless and prefix-decodable. *)
From Coq Require Import List NArith ZArith Arith Bool Lia ZifyBool ZifyNat ZifyN.
From Verif Require Import Base BaseP State Map Codec.
Import ListNotations.

(** What the map needs from a key codec: [k] is a legal key; whenever it serializes, decoding the
    serialized bytes followed by anything gives the key and its length, equality is decided, and an error does
    not depend on more than the buffer size. *)
Record key_codec {K} (KO : keyops K) (legal : K -> Prop) : Prop := {
  kc_eqb : forall a b, legal a -> legal b -> (k_eqb KO a b = true <-> a = b);
  kc_fit : forall k n bs, legal k -> k_ser KO k n = inl bs -> length bs <= n;
  kc_bytes : forall k n bs, legal k -> k_ser KO k n = inl bs -> Forall is_byte bs;
  kc_mono : forall k n bs n', legal k -> k_ser KO k n = inl bs -> length bs <= n' -> k_ser KO k n' = inl bs;
  kc_de : forall k n bs rest, legal k -> k_ser KO k n = inl bs -> k_de KO (bs ++ rest) = inl (k, length bs);
  kc_len : forall k n bs rest, legal k -> k_ser KO k n = inl bs -> k_len KO (bs ++ rest) = inl (length bs) }.

Lemma ser_fixed_inv bs n r : ser_fixed bs n = inl r -> r = bs /\ length bs <= n.
Proof. unfold ser_fixed. destruct (Nat.ltb_spec n (length bs)); intros [=]; subst; auto. Qed.

Lemma ser_fixed_ok bs n : length bs <= n -> ser_fixed bs n = inl bs.
Proof. unfold ser_fixed. intros. destruct (Nat.ltb_spec n (length bs)); auto; lia. Qed.

Ltac unf := unfold val_bool in *; unfold key_num, key_int, key_array, key_unit, key_vec, key_string, val_num, val_int, val_slice,
    val_vec, val_string, val_array in *; cbn [k_eqb k_ser k_de k_len v_ser v_de] in *.

Ltac sf := repeat match goal with
  | H : ser_fixed _ _ = inl _ |- _ => apply ser_fixed_inv in H; destruct H; subst
  end.

Lemma key_num_ok w : key_codec (key_num w) (fun k => (k < 256 ^ N.of_nat w)%N).
Proof.
  constructor; unf; intros; sf; auto.
  - apply N.eqb_eq.
  - apply le_bytes_is_byte.
  - now apply ser_fixed_ok.
  - rewrite app_length, le_bytes_length. destruct (Nat.ltb_spec (w + length rest) w); [lia|].
    rewrite firstn_app_exact by apply le_bytes_length. rewrite le_val_le_bytes; auto.
  - now rewrite le_bytes_length.
Qed.

Lemma pow_N2Z (w : nat) : Z.of_N (256 ^ N.of_nat w) = (256 ^ Z.of_nat w)%Z.
Proof. rewrite N2Z.inj_pow. f_equal. lia. Qed.

Lemma twos_bound w z : (twos w z < 256 ^ N.of_nat w)%N.
Proof.
  unfold twos. pose proof (pow_N2Z w). pose proof (Z.pow_pos_nonneg 256 (Z.of_nat w)).
  pose proof (Z.mod_pos_bound z (256 ^ Z.of_nat w)). lia.
Qed.

Lemma untwos_twos w z : 0 < w ->
  (- (128 * 256 ^ (Z.of_nat w - 1)) <= z < 128 * 256 ^ (Z.of_nat w - 1))%Z -> untwos w (twos w z) = z.
Proof.
  intros Hw Hz.
  assert (E : (256 ^ Z.of_nat w = 256 * 256 ^ (Z.of_nat w - 1))%Z).
  { rewrite <- Z.pow_succ_r by lia. f_equal. lia. }
  assert (P : (0 < 256 ^ (Z.of_nat w - 1))%Z) by (apply Z.pow_pos_nonneg; lia).
  unfold untwos. pose proof (twos_bound w z) as B.
  assert (EN : Z.of_N (256 ^ (N.of_nat w - 1)) = (256 ^ (Z.of_nat w - 1))%Z).
  { rewrite N2Z.inj_pow. f_equal. lia. }
  assert (T : Z.of_N (twos w z) = (z mod 256 ^ Z.of_nat w)%Z).
  { unfold twos. rewrite Z2N.id; auto. apply Z.mod_pos_bound. lia. }
  destruct (Z_lt_le_dec z 0).
  - assert (M : (z mod 256 ^ Z.of_nat w = z + 256 ^ Z.of_nat w)%Z).
    { rewrite <- (Z.mod_small (z + 256 ^ Z.of_nat w) (256 ^ Z.of_nat w)) by lia.
      rewrite <- (Z.mul_1_l (256 ^ Z.of_nat w)) at 2. now rewrite Z.mod_add by lia. }
    destruct (N.ltb_spec (twos w z) (128 * 256 ^ (N.of_nat w - 1))); lia.
  - assert (M : (z mod 256 ^ Z.of_nat w = z)%Z) by (apply Z.mod_small; lia).
    destruct (N.ltb_spec (twos w z) (128 * 256 ^ (N.of_nat w - 1))); lia.
Qed.

Lemma key_int_ok w : 0 < w ->
  key_codec (key_int w) (fun z => (- (128 * 256 ^ (Z.of_nat w - 1)) <= z < 128 * 256 ^ (Z.of_nat w - 1))%Z).
Proof.
  intros Hw. constructor; unf; intros; sf; auto.
  - apply Z.eqb_eq.
  - apply le_bytes_is_byte.
  - now apply ser_fixed_ok.
  - rewrite app_length, le_bytes_length. destruct (Nat.ltb_spec (w + length rest) w); [lia|].
    rewrite firstn_app_exact by apply le_bytes_length.
    rewrite le_val_le_bytes by apply twos_bound. rewrite untwos_twos; auto.
  - now rewrite le_bytes_length.
Qed.

Lemma bytes_eqb_eq a b : bytes_eqb a b = true <-> a = b.
Proof.
  revert b; induction a as [|x a IH]; destruct b as [|y b]; cbn; try (split; congruence).
  rewrite andb_true_iff, N.eqb_eq, IH. split; [intros [-> ->]|intros [=]]; auto.
Qed.

Lemma key_array_ok w : key_codec (key_array w) (fun k => length k = w /\ Forall is_byte k).
Proof.
  constructor; unf; intros; sf; auto.
  - apply bytes_eqb_eq.
  - tauto.
  - now apply ser_fixed_ok.
  - destruct H as [H _]. rewrite app_length, H. destruct (Nat.ltb_spec (w + length rest) w); [lia|].
    now rewrite firstn_app_exact.
  - destruct H as [H _]. now rewrite H.
Qed.

Lemma key_unit_ok : key_codec key_unit (fun _ => True).
Proof.
  constructor; unf; intros;
    repeat match goal with
    | H : inl [] = inl _ |- _ => injection H as <-
    | x : unit |- _ => destruct x
    end; cbn; auto; try lia; try tauto.
Qed.

Lemma prefix_ser_inv e k n bs : prefix_ser e k n = inl bs ->
  bs = le_bytes 2 (N.of_nat (length k)) ++ k /\ length k + 2 <= n /\ (N.of_nat (length k) < 256 ^ N.of_nat 2)%N.
Proof.
  unfold prefix_ser. destruct (N.ltb_spec 65535 (N.of_nat (length k))); [discriminate|].
  destruct (Nat.ltb_spec n (length k + 2)); [discriminate|]. intros [= <-]. repeat split; auto; try lia.
Qed.

Lemma prefix_de_ok e cap ok k n bs rest :
  ok k = true -> fits cap (length k) = true -> prefix_ser e k n = inl bs ->
  prefix_de cap ok (bs ++ rest) = inl (k, length bs) /\ prefix_len (bs ++ rest) = inl (length bs).
Proof.
  intros Hok Hfit H. apply prefix_ser_inv in H. destruct H as (-> & Hn & Hb).
  assert (PL : prefix_len ((le_bytes 2 (N.of_nat (length k)) ++ k) ++ rest) =
               inl (length (le_bytes 2 (N.of_nat (length k)) ++ k))).
  { unfold prefix_len. rewrite !app_length, le_bytes_length.
    destruct (Nat.ltb_spec (2 + length k + length rest) 2); [lia|].
    rewrite <- app_assoc, firstn_app_exact by apply le_bytes_length.
    rewrite le_val_le_bytes by assumption. rewrite Nat2N.id. f_equal. lia. }
  split; auto. unfold prefix_de. rewrite PL.
  rewrite (app_length _ rest). destruct (Nat.ltb_spec (length (le_bytes 2 (N.of_nat (length k)) ++ k) + length rest)
     (length (le_bytes 2 (N.of_nat (length k)) ++ k))); [lia|].
  rewrite <- app_assoc, skipn_app_exact by apply le_bytes_length.
  rewrite app_length, le_bytes_length. replace (2 + length k - 2) with (length k) by lia.
  rewrite firstn_app_exact by reflexivity. rewrite Hok, Hfit. reflexivity.
Qed.

Lemma prefix_codec e cap ok :
  key_codec (mkkeyops bytes_eqb (prefix_ser e) (prefix_de cap ok) prefix_len)
    (fun k => Forall is_byte k /\ ok k = true /\ fits cap (length k) = true).
Proof.
  constructor; unf; intros.
  - apply bytes_eqb_eq.
  - apply prefix_ser_inv in H0. destruct H0 as (-> & ? & ?). rewrite app_length, le_bytes_length. lia.
  - apply prefix_ser_inv in H0. destruct H0 as (-> & ? & ?). apply Forall_app. split; [apply le_bytes_is_byte|tauto].
  - apply prefix_ser_inv in H0. destruct H0 as (-> & ? & ?). unfold prefix_ser.
    rewrite app_length, le_bytes_length in H1.
    destruct (N.ltb_spec 65535 (N.of_nat (length k))).
    { change (256 ^ N.of_nat 2)%N with 65536%N in H2. lia. }
    destruct (Nat.ltb_spec n' (length k + 2)); [lia|]. reflexivity.
  - eapply prefix_de_ok; eauto; tauto.
  - eapply (prefix_de_ok e cap ok); eauto; tauto.
Qed.

Lemma key_vec_ok cap : key_codec (key_vec cap) (fun k => Forall is_byte k /\ fits cap (length k) = true).
Proof.
  pose proof (prefix_codec SEBufferTooSmall cap (fun _ => true)) as P.
  destruct P as [P1 P2 P3 P4 P5 P6]. unf; constructor; unf; intros.
  - now apply P1.
  - eapply P2; eauto. tauto.
  - eapply P3; eauto. tauto.
  - eapply P4; eauto. tauto.
  - eapply P5; eauto. tauto.
  - eapply P6 with (k := k); eauto. tauto.
Qed.

Lemma key_string_ok e cap :
  key_codec (key_string e cap) (fun k => Forall is_byte k /\ utf8 k = true /\ fits cap (length k) = true).
Proof. exact (prefix_codec e cap utf8). Qed.

(** Values: a legal value that serializes into a buffer decodes from exactly the bytes written. *)
Record val_codec {T} (V : valops T) (legal : T -> Prop) : Prop := {
  vc_fit : forall v n bs, legal v -> v_ser V v n = inl bs -> length bs <= n;
  vc_bytes : forall v n bs, legal v -> v_ser V v n = inl bs -> Forall is_byte bs;
  vc_de : forall v n bs, legal v -> v_ser V v n = inl bs -> v_de V bs = inl (v, length bs) }.

(** Values that do not depend on the end of the buffer. *)
Definition self_delimiting {T} (V : valops T) (legal : T -> Prop) : Prop :=
  forall v n bs rest, legal v -> v_ser V v n = inl bs -> v_de V (bs ++ rest) = inl (v, length bs).

Lemma val_num_sd w : self_delimiting (val_num w) (fun v => (v < 256 ^ N.of_nat w)%N).
Proof.
  intros v n bs rest H H0. unf; sf.
  rewrite app_length, le_bytes_length. destruct (Nat.ltb_spec (w + length rest) w); [lia|].
  rewrite firstn_app_exact by apply le_bytes_length. rewrite le_val_le_bytes; auto.
Qed.

Lemma sd_codec {T} (V : valops T) legal :
  self_delimiting V legal ->
  (forall v n bs, legal v -> v_ser V v n = inl bs -> length bs <= n /\ Forall is_byte bs) ->
  val_codec V legal.
Proof.
  intros S F. constructor; intros.
  - eapply F; eauto.
  - eapply F; eauto.
  - rewrite <- (app_nil_r bs) at 1. eauto.
Qed.

Lemma val_num_ok w : val_codec (val_num w) (fun v => (v < 256 ^ N.of_nat w)%N).
Proof.
  apply sd_codec; [apply val_num_sd|]. unf; intros; sf. rewrite le_bytes_length in *. split; auto.
  apply le_bytes_is_byte.
Qed.

Lemma val_int_ok w : 0 < w ->
  val_codec (val_int w) (fun z => (- (128 * 256 ^ (Z.of_nat w - 1)) <= z < 128 * 256 ^ (Z.of_nat w - 1))%Z).
Proof.
  intros Hw. apply sd_codec.
  - intros v n bs rest H H0. unf; sf.
    rewrite app_length, le_bytes_length. destruct (Nat.ltb_spec (w + length rest) w); [lia|].
    rewrite firstn_app_exact by apply le_bytes_length.
    rewrite le_val_le_bytes by apply twos_bound. rewrite untwos_twos; auto.
  - unf; intros; sf. rewrite le_bytes_length in *. split; auto. apply le_bytes_is_byte.
Qed.

Lemma val_bool_sd : self_delimiting val_bool (fun _ => True).
Proof.
  intros v n bs rest _ H. unf; sf. destruct v; reflexivity.
Qed.

Lemma val_bool_ok : val_codec val_bool (fun _ => True).
Proof.
  apply sd_codec; [apply val_bool_sd|]. unf; intros; sf. split; [assumption|].
  constructor; auto. unfold is_byte. destruct v; cbv; auto.
Qed.

Lemma val_option_ok {T} (V : valops T) legal : val_codec V legal ->
  val_codec (val_option V) (fun o => match o with Some v => legal v | None => True end).
Proof.
  intros [F B D].
  assert (A : forall v n bs, match v with Some v => legal v | None => True end -> v_ser (val_option V) v n = inl bs ->
     length bs <= n /\ Forall is_byte bs /\ v_de (val_option V) bs = inl (v, length bs)).
  { intros [v|] n bs L.
    - unfold val_option; cbn [v_ser v_de].
      destruct (v_ser val_bool true n) as [tag|] eqn:ET; [|discriminate].
      pose proof (vc_fit _ _ val_bool_ok _ _ _ I ET). pose proof (vc_bytes _ _ val_bool_ok _ _ _ I ET).
      destruct (Nat.ltb_spec n (length tag)); [lia|].
      destruct (v_ser V v (n - length tag)) as [b|] eqn:EV; [|discriminate]. intros [= <-].
      pose proof (F _ _ _ L EV). pose proof (B _ _ _ L EV). rewrite app_length.
      split; [lia|]. split; [now apply Forall_app|].
      rewrite (val_bool_sd _ _ _ b I ET).
      destruct (Nat.ltb_spec (length tag + length b) (length tag)); [lia|].
      rewrite skipn_app_exact by reflexivity. rewrite (D _ _ _ L EV). reflexivity.
    - unfold val_option; cbn [v_ser v_de]. intros ET.
      pose proof (vc_fit _ _ val_bool_ok _ _ _ I ET). pose proof (vc_bytes _ _ val_bool_ok _ _ _ I ET).
      rewrite (vc_de _ _ val_bool_ok _ _ _ I ET). auto. }
  constructor; intros; edestruct A as (?&?&?); eauto.
Qed.

Lemma val_slice_ok : val_codec val_slice (Forall is_byte).
Proof. constructor; unf; intros; sf; auto. Qed.

Lemma val_vec_ok cap : val_codec (val_vec cap) (fun v => Forall is_byte v /\ fits cap (length v) = true).
Proof. constructor; unf; intros; sf; try tauto. destruct H as [_ ->]. auto. Qed.

Lemma val_string_ok cap :
  val_codec (val_string cap) (fun v => Forall is_byte v /\ utf8 v = true /\ fits cap (length v) = true).
Proof. constructor; unf; intros; sf; try tauto. destruct H as (_ & -> & ->). auto. Qed.

Lemma flat_length w l : length (flat_map (le_bytes w) l) = w * length l.
Proof. induction l; cbn; [lia|]. rewrite app_length, le_bytes_length, IHl. lia. Qed.

Lemma chunks_flat w l rest :
  Forall (fun v => (v < 256 ^ N.of_nat w)%N) l ->
  chunks w (length l) (flat_map (le_bytes w) l ++ rest) = l.
Proof.
  induction 1; cbn; auto. rewrite <- app_assoc.
  rewrite firstn_app_exact, skipn_app_exact by apply le_bytes_length.
  rewrite le_val_le_bytes, IHForall; auto.
Qed.

Lemma val_array_ok w n :
  val_codec (val_array w n) (fun v => length v = n /\ Forall (fun x => (x < 256 ^ N.of_nat w)%N) v).
Proof.
  apply sd_codec.
  - intros v m bs rest [L F] H. unf. destruct (Nat.ltb_spec m (w * n)); [discriminate|].
    injection H as <-. rewrite app_length, flat_length, L.
    destruct (Nat.ltb_spec (w * n + length rest) (w * n)); [lia|].
    subst n. now rewrite chunks_flat.
  - intros v m bs [L F] H. unf. destruct (Nat.ltb_spec m (w * n)); [discriminate|].
    injection H as <-. rewrite flat_length, L. split; auto.
    clear. induction v; cbn; auto. apply Forall_app. split; auto. apply le_bytes_is_byte.
Qed.

(** Serialization succeeds exactly when the buffer holds [size v] bytes, and otherwise returns [e]. *)
Definition ser_exact {T} (ser : T -> nat -> list N + sererr) (e : sererr) (legal : T -> Prop) (size : T -> nat) : Prop :=
  forall v n, legal v ->
    (size v <= n -> exists bs, ser v n = inl bs /\ length bs = size v) /\
    (n < size v -> ser v n = inr e).

Lemma ser_fixed_exact {T} (enc : T -> list N) (legal : T -> Prop) size : (forall v, legal v -> length (enc v) = size v) ->
  ser_exact (fun v n => ser_fixed (enc v) n) SEBufferTooSmall legal size.
Proof.
  intros H v n L. unfold ser_fixed. rewrite (H v L). destruct (Nat.ltb_spec n (size v)); split; intros; try lia; auto.
  exists (enc v). auto.
Qed.

Lemma key_num_ser w legal : ser_exact (k_ser (key_num w)) SEBufferTooSmall legal (fun _ => w).
Proof. apply (ser_fixed_exact (le_bytes w)). intros. apply le_bytes_length. Qed.
Lemma key_int_ser w legal : ser_exact (k_ser (key_int w)) SEBufferTooSmall legal (fun _ => w).
Proof. apply (ser_fixed_exact (fun k => le_bytes w (twos w k))). intros. apply le_bytes_length. Qed.
Lemma key_array_ser w : ser_exact (k_ser (key_array w)) SEBufferTooSmall (fun k => length k = w /\ Forall is_byte k) (fun _ => w).
Proof. apply (ser_fixed_exact (fun k => k)). tauto. Qed.
Lemma key_unit_ser : ser_exact (k_ser key_unit) SEBufferTooSmall (fun _ => True) (fun _ => 0).
Proof. intros v n _. split; [|lia]. exists []. auto. Qed.
Lemma prefix_ser_exact e (legal : list N -> Prop) : (forall k, legal k -> (N.of_nat (length k) <= 65535)%N) ->
  ser_exact (prefix_ser e) e legal (fun k => 2 + length k).
Proof.
  intros H v n L. apply H in L. unfold prefix_ser.
  destruct (N.ltb_spec 65535 (N.of_nat (length v))); [lia|].
  destruct (Nat.ltb_spec n (length v + 2)); split; intros; try lia; auto.
  eexists. split; [reflexivity|]. rewrite app_length, le_bytes_length. lia.
Qed.
(** A key of more than 65535 bytes is refused. *)
Lemma prefix_ser_long e k n : (65535 < N.of_nat (length k))%N -> prefix_ser e k n = inr SEInvalidData.
Proof. intros. unfold prefix_ser. destruct (N.ltb_spec 65535 (N.of_nat (length k))); auto. lia. Qed.

Lemma val_num_ser w legal : ser_exact (v_ser (val_num w)) SEBufferTooSmall legal (fun _ => w).
Proof. apply (ser_fixed_exact (le_bytes w)). intros. apply le_bytes_length. Qed.
Lemma val_int_ser w legal : ser_exact (v_ser (val_int w)) SEBufferTooSmall legal (fun _ => w).
Proof. apply (ser_fixed_exact (fun k => le_bytes w (twos w k))). intros. apply le_bytes_length. Qed.
Lemma val_bool_ser : ser_exact (v_ser val_bool) SEBufferTooSmall (fun _ => True) (fun _ => 1).
Proof. intros v n _. exact (val_num_ser 1 (fun _ => True) (if v then 1%N else 0%N) n I). Qed.
Lemma val_option_ser {T} (V : valops T) legal size :
  ser_exact (v_ser V) SEBufferTooSmall legal size ->
  ser_exact (v_ser (val_option V)) SEBufferTooSmall (fun o => match o with Some v => legal v | None => True end)
    (fun o => match o with Some v => 1 + size v | None => 1 end).
Proof.
  intros H [v|] n L; unfold val_option; cbn [v_ser].
  - destruct (val_bool_ser true n I) as [A B]. split; intros X.
    + destruct (A ltac:(lia)) as (tag & -> & E). destruct (Nat.ltb_spec n (length tag)); [lia|].
      destruct (proj1 (H v (n - length tag) L) ltac:(lia)) as (bs & -> & E').
      eexists. split; [reflexivity|]. rewrite app_length. lia.
    + destruct (le_lt_dec 1 n) as [Y|Y].
      * destruct (A Y) as (tag & -> & E). destruct (Nat.ltb_spec n (length tag)); [lia|].
        rewrite (proj2 (H v (n - length tag) L)); auto. lia.
      * rewrite (B Y). reflexivity.
  - exact (val_bool_ser false n I).
Qed.
Lemma val_slice_ser legal : ser_exact (v_ser val_slice) SEBufferTooSmall legal (@length N).
Proof. apply (ser_fixed_exact (fun k => k)). auto. Qed.
Lemma val_array_ser w n :
  ser_exact (v_ser (val_array w n)) SEBufferTooSmall (fun v => length v = n /\ Forall (fun x => (x < 256 ^ N.of_nat w)%N) v)
    (fun _ => w * n).
Proof.
  intros v m [L _]. unf. destruct (Nat.ltb_spec m (w * n)); split; intros; try lia; auto.
  eexists. split; [reflexivity|]. rewrite flat_length. congruence.
Qed.
