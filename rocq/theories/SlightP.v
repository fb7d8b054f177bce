(** Slight damage always shows. *)
From Coq Require Import List NArith ZArith Arith Bool Lia ZifyBool ZifyNat ZifyN.
From Verif Require Import Base BaseP Crc CrcP Flash Cache State Item Generic Queue Map Codec CodecP GeomP ScanP PageP FormatSpec FormatP NoiseSpec NoiseRunP HurtSpec HurtP BitsP.
Import ListNotations.
Local Opaque crc16 acrc crc32.

Section Slight.
Context (g : geom) (gok : geom_ok g).
Lemma places_in m i : is_mem m -> forall fuel a e, In i (places g m fuel a e) ->
  num m (fst i) 4 = check32 (snd i) /\ snd i = bytes m (fst i + words g 8) (length (snd i)) /\ (N.of_nat (length (snd i)) <= 65535)%N.
Proof.
  intros M. induction fuel as [|k IH]; intros a e I; cbn [places] in I; [destruct I|]. destruct (_ <? _); [destruct I|]. destruct (forallb _ _); [destruct I|]. destruct (_ && _); [|eapply IH; eauto].
  destruct (N.eqb_spec (num m a 4) (check32 (bytes m (a + words g 8) (N.to_nat (num m (a + 4) 2))))) as [E|E]; [|eapply IH; eauto]. destruct I as [<-|I]; [|eapply IH; eauto]. cbn [fst snd].
  split; [exact E|]. rewrite !bytes_eq, rd_length. split; [reflexivity|]. rewrite num_eq. pose proof (le_val_bound (rd m (a + 4) 2)) as B. rewrite rd_length in B. change (256 ^ N.of_nat 2)%N with 65536%N in B.
  assert (X : Forall is_byte (rd m (a + 4) 2)) by (apply rd_bytes; auto). specialize (B X). lia.
Qed.
Lemma wrong_diffs m m2 a n : wrong_bits m m2 a n = diffs (rd m a n) (rd m2 a n).
Proof. unfold wrong_bits, diffs, rd. rewrite <- (map_id (seq a n)) at 1. f_equal. rewrite map_id. generalize (seq a n). intros l. induction l as [|x l IH]; cbn [map combine fst snd]; auto. now rewrite IH. Qed.
Lemma nth_rd m a n i : i < n -> nth i (rd m a n) 0%N = m (a + i).
Proof. intros H. unfold rd. rewrite (nth_indep _ 0%N (m 0)) by (rewrite map_length, seq_length; auto). rewrite map_nth. now rewrite seq_nth. Qed.
Lemma rd_split m a n j : j < n -> rd m a n = rd m a j ++ m (a + j) :: rd m (S (a + j)) (n - S j).
Proof. intros J. unfold rd. replace n with (j + S (n - S j)) at 1 by lia. rewrite seq_app, map_app. cbn [seq map]. reflexivity. Qed.
Lemma slight_ok m m2 : is_mem m -> slightly_hurt g m m2 -> hurt g m m2.
Proof.
  intros M (M2 & SAME & SL). split; [exact M2|]. split; [exact SAME|]. intros a d I E. specialize (SL _ I). apply placed_in in I; auto. destruct I as (p & _ & I). unfold page_places in I. destruct (begun g m p); [|destruct I].
  apply (places_in m _ M) in I. cbn [fst snd] in I. destruct I as (C & D & LN). rewrite bytes_eq in *. rewrite num_eq in *. rewrite check32_eq in C by (rewrite D; apply rd_bytes; auto). rewrite check32_eq in E by (apply rd_bytes; auto).
  assert (W8 : words g 8 = HL g) by (rewrite words_eq by auto; reflexivity). unfold slight in SL. rewrite W8 in *.
  assert (ONLY : (forall x, a + HL g <= x < a + HL g + length d -> m2 x = m x) -> intact g m m2 (a, d) = true).
  { intros U. apply (intact_iff g gok). assert (X : rd m2 (a + HL g) (length d) = d) by (symmetry; etransitivity; [exact D|]; symmetry; apply rd_ext; intros z Hz; apply U; lia). rewrite X, <- C in E.
    assert (Y : rd m2 a 4 = rd m a 4) by (rewrite <- (le_bytes_le_val (rd m2 a 4)), <- (le_bytes_le_val (rd m a 4)), E by (apply rd_bytes; auto); now rewrite !rd_length).
    intros x [Hx|Hx]; auto. replace x with (a + (x - a)) by lia. rewrite <- !(nth_rd _ a 4 (x - a)) by lia. now rewrite Y. }
  destruct SL as [SL|[(y & SL)|SL]]; [| |now apply ONLY].
  - rewrite !wrong_diffs in SL. rewrite <- D in SL.
    destruct (two_bits d (rd m2 (a + HL g) (length d)) (rd m a 4) (rd m2 a 4)) as (Z1 & Z2); try (apply rd_bytes; auto); try (rewrite ?rd_length; auto; fail); try lia.
    + rewrite D. apply rd_bytes; auto.
    + apply ONLY. intros x Hx. assert (Z : forall l l', length l = length l' -> Forall is_byte l -> Forall is_byte l' -> diffs l l' = 0 -> l = l').
      { clear. induction l as [|x l IH]; intros [|y l'] L F F' Z; try discriminate; auto. unfold diffs in Z. cbn [combine map fst snd list_sum fold_right] in Z. apply Forall_cons_iff in F, F'. f_equal; [|apply IH; try tauto; [now injection L|unfold diffs; change (list_sum (map (fun p => bit_diff (fst p) (snd p)) (combine l l'))) with (fold_right Nat.add 0 (map (fun p => bit_diff (fst p) (snd p)) (combine l l'))); lia]].
        assert (Q : bit_diff x y = 0) by lia. rewrite bit_diff_places in Q. assert (B : (N.lxor x y < 256)%N) by (change 256%N with (2 ^ 8)%N; apply lxor_lt; apply F || apply F'). apply N.lxor_eq. rewrite (xsum_byte _ B). destruct (places_of (N.lxor x y)); [reflexivity|discriminate]. }
      apply Z in Z1; [|now rewrite rd_length|rewrite D; apply rd_bytes; auto|apply rd_bytes; auto]. replace x with (a + HL g + (x - (a + HL g))) by lia. rewrite <- !(nth_rd _ (a + HL g) (length d) (x - (a + HL g))) by lia. now rewrite <- D, <- Z1.
  - destruct (Nat.lt_ge_cases y (a + HL g)) as [Y|Y]; [apply ONLY; intros; apply SL; lia|]. destruct (Nat.lt_ge_cases y (a + HL g + length d)) as [Y'|Y']; [|apply ONLY; intros; apply SL; lia].
    destruct (N.eq_dec (m2 y) (m y)) as [Q|Q]; [apply ONLY; intros x Hx; destruct (Nat.eq_dec x y) as [->|]; auto; apply SL; lia|]. exfalso.
    assert (C4 : rd m2 a 4 = rd m a 4) by (pose proof (HL_8 g gok); apply rd_ext; intros z Hz; apply SL; lia). rewrite C4, C in E. set (j := y - (a + HL g)). assert (J : j < length d) by (unfold j; lia). assert (YJ : y = a + HL g + j) by (unfold j; lia).
    rewrite (rd_split m _ _ j J) in D. rewrite (rd_split m2 _ _ j J) in E.
    assert (F1 : rd m2 (a + HL g) j = rd m (a + HL g) j) by (apply rd_ext; intros z Hz; apply SL; lia).
    assert (F2 : rd m2 (S (a + HL g + j)) (length d - S j) = rd m (S (a + HL g + j)) (length d - S j)) by (apply rd_ext; intros z Hz; apply SL; lia).
    rewrite F1, F2, <- YJ in E. rewrite <- YJ in D. revert E. rewrite D at 1. apply acrc_byte; auto.
    + rewrite <- D. rewrite D. apply Forall_app. split; [apply rd_bytes; auto|]. constructor; [apply M|apply rd_bytes; auto].
    + rewrite <- D. exact LN.
Qed.
End Slight.
