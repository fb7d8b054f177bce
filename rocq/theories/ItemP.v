(** Writing, tearing and erasing one item. *)
From Coq Require Import List NArith ZArith Arith Bool Lia ZifyBool ZifyNat ZifyN.
From Verif Require Import Base BaseP Crc CrcP Flash Cache State Item Generic GeomP ScanP WpP.
Import ListNotations.

Local Opaque crc16 acrc crc32.

(** The eight significant header bytes. *)
Definition crcv (h : hdr) : N := match h_crc h with Some c => c | None => 0%N end.
Definition hb8 (h : hdr) : list N :=
  le_bytes 4 (crcv h) ++ le_bytes 2 (N.of_nat (h_len h)) ++ le_bytes 2 (crc16 (le_bytes 2 (N.of_nat (h_len h)))).
Definition hdr_ok (h : hdr) : Prop :=
  (N.of_nat (h_len h) < 65536)%N /\ match h_crc h with Some c => (0 < c < 2 ^ 32)%N | None => True end.

Lemma hb8_length h : length (hb8 h) = 8.
Proof. reflexivity. Qed.
Lemma hb8_bytes h : Forall is_byte (hb8 h).
Proof. unfold hb8. repeat (apply Forall_app; split); apply le_bytes_is_byte. Qed.

Lemma crc16_le2 n : (crc16 (le_bytes 2 n) < 65536)%N.
Proof. change 65536%N with (2 ^ 16)%N. apply crc16_lt. apply le_bytes_is_byte. Qed.

Lemma hdr_of_app h rest : hdr_ok h -> hdr_of (hb8 h ++ rest) = h /\ lcrc_ok (hb8 h ++ rest) = true /\
  all_ff (hb8 h ++ rest) = false.
Proof.
  intros [L C]. unfold hdr_of, lcrc_ok, len_field, lcrc_field, hb8. rewrite <- !app_assoc.
  set (A := le_bytes 4 (crcv h)). set (B := le_bytes 2 (N.of_nat (h_len h))). set (D := le_bytes 2 (crc16 B)).
  assert (LA : length A = 4) by apply le_bytes_length. assert (LB : length B = 2) by apply le_bytes_length.
  assert (LD : length D = 2) by apply le_bytes_length.
  rewrite (firstn_app_exact 4) by auto. rewrite (skipn_app_exact 4) by auto. rewrite (firstn_app_exact 2) by auto.
  assert (E6 : skipn 6 (A ++ B ++ D ++ rest) = D ++ rest).
  { rewrite app_assoc. apply skipn_app_exact. rewrite app_length. lia. }
  rewrite E6, firstn_app_exact by auto.
  assert (VA : le_val A = crcv h).
  { apply le_val_le_bytes. unfold crcv. destruct (h_crc h); cbn; lia. }
  assert (VB : le_val B = N.of_nat (h_len h)) by (apply le_val_le_bytes; cbn; lia).
  assert (VD : le_val D = crc16 B) by (apply le_val_le_bytes; pose proof (crc16_le2 (N.of_nat (h_len h))); cbn; auto).
  rewrite VA, VB, VD, N.eqb_refl, Nat2N.id. split; [|split; auto].
  - destruct h as [n [c|]]; unfold crcv; cbn [h_len h_crc] in *; [|reflexivity].
    destruct (N.eqb_spec c 0); [lia|reflexivity].
  - destruct (all_ff (A ++ B ++ D ++ rest)) eqn:F; auto. exfalso.
    assert (FD : all_ff D = true).
    { unfold all_ff in *. rewrite !forallb_app in F. rewrite !andb_true_iff in F. tauto. }
    apply all_ff_true in FD. rewrite LD in FD. rewrite FD in VD. cbn in VD. symmetry in VD. revert VD. apply crc16_not_erased.
Qed.

Section Item.
Context (g : geom) (gok : geom_ok g).
Notation W := (W g).
Notation HL := (HL g).
Notation rup := (rup g).

Lemma hdr_bytes_eq h : hdr_bytes g h = hb8 h ++ repeat 255%N (HL - 8).
Proof. reflexivity. Qed.
Lemma hdr_bytes_length h : length (hdr_bytes g h) = HL.
Proof. pose proof (HL_ge g gok). rewrite hdr_bytes_eq, app_length, repeat_length, hb8_length. lia. Qed.
Lemma hdr_bytes_bytes h : Forall is_byte (hdr_bytes g h).
Proof.
  rewrite hdr_bytes_eq. apply Forall_app. split; [apply hb8_bytes|]. apply Forall_forall. intros x Hx.
  apply repeat_spec in Hx. subst. reflexivity.
Qed.

Lemma rd8_split m a : rd m a HL = rd m a 8 ++ rd m (a + 8) (HL - 8).
Proof. pose proof (HL_ge g gok). rewrite <- rd_app. f_equal. lia. Qed.

Lemma hdr_at_hb8 m e a h : rd m a 8 = hb8 h -> hdr_ok h -> next_addr g a h <= e -> hdr_at g m e a = HOk h.
Proof.
  intros R O L. unfold hdr_at. rewrite rd8_split, R.
  destruct (hdr_of_app h (rd m (a + 8) (HL - 8)) O) as (E1 & E2 & E3). rewrite E1, E2, E3. cbn [negb].
  unfold next_addr in *. destruct (Nat.ltb_spec e (a + HL)); [lia|].
  destruct (Nat.ltb_spec e (a + HL + rup (h_len h))); [lia|reflexivity].
Qed.

Lemma hb8_hdr_at m e a h : is_mem m -> hdr_at g m e a = HOk h -> rd m a 8 = hb8 h /\ hdr_ok h.
Proof.
  intros IM H. apply hdr_at_ok in H. destruct H as (_ & -> & LC). rewrite rd8_split in *.
  pose proof (rd_bytes m a 8 IM) as B. pose proof (rd_length m a 8) as L.
  set (x := rd m a 8) in *. clearbody x.
  destruct x as [|x0 [|x1 [|x2 [|x3 [|x4 [|x5 [|x6 [|x7 [|]]]]]]]]]; try discriminate. clear L.
  assert (B03 : Forall is_byte [x0;x1;x2;x3]).
  { inversion B as [|? ? ? B1]; inversion B1 as [|? ? ? B2]; inversion B2 as [|? ? ? B3]; inversion B3; auto. }
  assert (B45 : Forall is_byte [x4;x5]).
  { do 4 (inversion B as [|? ? ? B']; clear B; rename B' into B; subst). inversion B as [|? ? ? B1]; inversion B1; auto. }
  assert (B67 : Forall is_byte [x6;x7]).
  { do 6 (inversion B as [|? ? ? B']; clear B; rename B' into B; subst). auto. }
  unfold lcrc_ok in LC. apply N.eqb_eq in LC.
  assert (LF : forall r, len_field ([x0;x1;x2;x3;x4;x5;x6;x7] ++ r) = [x4;x5]) by reflexivity.
  assert (CF : forall r, lcrc_field ([x0;x1;x2;x3;x4;x5;x6;x7] ++ r) = [x6;x7]) by reflexivity.
  assert (FF : forall r, firstn 4 ([x0;x1;x2;x3;x4;x5;x6;x7] ++ r) = [x0;x1;x2;x3]) by reflexivity.
  rewrite LF, CF in LC.
  assert (V45 : (le_val [x4;x5] < 65536)%N) by (apply (le_val_bound [x4;x5]); auto).
  assert (V03 : (le_val [x0;x1;x2;x3] < 2 ^ 32)%N) by (apply (le_val_bound [x0;x1;x2;x3]); auto).
  unfold hdr_of. rewrite LF, FF.
  assert (CV : crcv (mkhdr (N.to_nat (le_val [x4;x5])) (if (le_val [x0;x1;x2;x3] =? 0)%N then None else Some (le_val [x0;x1;x2;x3]))) = le_val [x0;x1;x2;x3]).
  { unfold crcv. cbn [h_crc]. destruct (N.eqb_spec (le_val [x0;x1;x2;x3]) 0); auto. }
  split.
  - unfold hb8. cbn zeta. rewrite CV. cbn [h_len]. rewrite N2Nat.id.
    pose proof (le_bytes_le_val [x4;x5] B45) as Q1. pose proof (le_bytes_le_val [x0;x1;x2;x3] B03) as Q2.
    pose proof (le_bytes_le_val [x6;x7] B67) as Q3. cbn [length] in Q1, Q2, Q3.
    rewrite Q1, Q2, LC, Q3. reflexivity.
  - split; cbn [h_len h_crc].
    + now rewrite N2Nat.id.
    + destruct (N.eqb_spec (le_val [x0;x1;x2;x3]) 0); auto. lia.
Qed.

(** * The bytes of a new item *)
Definition ihdr (d : list N) : hdr := mkhdr (length d) (Some (acrc d)).
Definition item_bytes (d : list N) : list N :=
  hdr_bytes g (ihdr d) ++ d ++ repeat 0%N (rup (length d) - length d).

Definition data_ok (d : list N) : Prop := Forall is_byte d /\ (N.of_nat (length d) <= 65535)%N.

Lemma ihdr_ok d : data_ok d -> hdr_ok (ihdr d).
Proof.
  intros [B L]. split; cbn [ihdr h_len h_crc]; [lia|]. pose proof (acrc_nonzero d). pose proof (acrc_lt d B).
  change (2 ^ 32)%N with 4294967296%N in *. lia.
Qed.
Lemma item_bytes_length d : length (item_bytes d) = ssize g (SLive d).
Proof.
  unfold item_bytes, ssize. cbn [shdr h_len]. rewrite !app_length, hdr_bytes_length, repeat_length.
  pose proof (rup_ge g gok (length d)). lia.
Qed.
Lemma item_bytes_bytes d : data_ok d -> Forall is_byte (item_bytes d).
Proof.
  intros [B _]. unfold item_bytes. apply Forall_app. split; [apply hdr_bytes_bytes|]. apply Forall_app. split; auto.
  apply Forall_forall. intros x Hx. apply repeat_spec in Hx. subst. reflexivity.
Qed.

Lemma as_u16_small n : (N.of_nat n <= 65535)%N -> as_u16 n = n.
Proof. intros. unfold as_u16. rewrite N.mod_small by lia. apply Nat2N.id. Qed.

Lemma firstn_app_le {A} j (x y : list A) : j <= length x -> firstn j (x ++ y) = firstn j x.
Proof. intros. rewrite firstn_app. replace (j - length x) with 0 by lia. cbn. apply app_nil_r. Qed.
Lemma firstn_app_ge {A} j (x y : list A) : firstn (length x + j) (x ++ y) = x ++ firstn j y.
Proof. apply firstn_app_2. Qed.

Context {K : Type}.
Implicit Types s : st K.

(** The cache after noticing a written item. *)
Definition cache_wr (c : cache K) (a nx : nat) : cache K := mkcache true (c_ps c) (pp_item_written g (c_pp c) a nx) (c_kp c).

(** Writing an item programs a prefix of [item_bytes]: all of it, or less when power fails. *)
Lemma wp_write_raw d a (Q : unit -> st K -> Prop) (E : err -> st K -> Prop) s :
  data_ok d -> al g a -> START g <= a -> a + ssize g (SLive d) <= FEND g ->
  let s1 := set_ca s (cache_wr (s_ca s) a (a + ssize g (SLive d))) in
  (forall f', prog (s_fl s) f' a (item_bytes d) -> Q tt (set_fl s1 f')) ->
  (forall f' j, f_fuel (s_fl s) <> None -> j < length (item_bytes d) -> (HL <= f_aw (s_fl s) -> j = 0 \/ HL <= j) ->
     prog (s_fl s) f' a (firstn j (item_bytes d)) -> E (EStorage SShutoff) (set_fl s1 f')) ->
  wp (write_raw g (ihdr d) d a) Q E s.
Proof.
  intros DO A B C s1 HQ HE. pose proof (HL_ge g gok) as HG. pose proof (W_pos g gok) as WP.
  pose proof (hdr_bytes_length (ihdr d)) as LH.
  assert (SZ : ssize g (SLive d) = HL + rup (length d)) by reflexivity. rewrite SZ in *.
  unfold write_raw. apply wp_bind. unfold wp, c_item_written at 1. cbv zeta. unfold next_addr. cbn [ihdr h_len].
  replace (a + HL + rup (length d)) with (a + ssize g (SLive d)) by (rewrite SZ; lia).
  match goal with |- context[set_ca s ?c] => change (set_ca s c) with s1 end.
  apply wp_bind. unfold hdr_write.
  pose proof (rdown_le g gok (length d)) as RD. pose proof (rdown_gt g gok (length d)) as RG.
  pose proof (rup_split g gok (length d)) as RSp. pose proof (rup_ge g gok (length d)) as RU.
  set (nb := rdown g (length d)) in *.
  assert (F1 : s_fl s1 = s_fl s) by reflexivity.
  apply (wp_write g gok); rewrite ?LH; auto with al; try lia.
  2:{ intros f' j Hfu Hj Haw P. change (s_fl s1) with (s_fl s) in Hfu, Haw, P. apply (HE f' j); [exact Hfu| | |].
      - unfold item_bytes. rewrite app_length, LH. lia.
      - intros X. left. auto.
      - unfold item_bytes. rewrite firstn_app_le by (rewrite LH; lia). exact P. }
  intros f1 P1. change (s_fl s1) with (s_fl s) in P1.
  destruct (Nat.ltb_spec (length d) nb); [lia|].
  set (block := firstn nb d). set (left := skipn nb d).
  assert (BL : length block = nb) by (unfold block; rewrite firstn_length; lia).
  assert (LL : length left = length d - nb) by (unfold left; rewrite skipn_length; lia).
  set (pad := repeat 0%N (rup (length d) - length d)).
  assert (IB : item_bytes d = hdr_bytes g (ihdr d) ++ block ++ left ++ pad).
  { unfold item_bytes. rewrite app_assoc, <- app_assoc. f_equal. rewrite app_assoc. unfold block, left.
    now rewrite firstn_skipn. }
  assert (LIB : length (item_bytes d) = HL + rup (length d)).
  { unfold item_bytes. rewrite !app_length, LH, repeat_length. lia. }
  assert (PE : forall f2, prog f1 f2 (a + HL) block -> prog (s_fl s) f2 a (hdr_bytes g (ihdr d) ++ block)).
  { intros f2 P2. eapply prog_app; [exact P1|]. rewrite LH. exact P2. }
  assert (LAST : forall f2, prog (s_fl s) f2 a (hdr_bytes g (ihdr d) ++ block) ->
     wp (if length left =? 0 then ret tt
         else if 32 <? rup (length left) then fail ELogicBug
         else fl_write g (a + HL + length block) (left ++ repeat 0%N (rup (length left) - length left))) Q E (set_fl s1 f2)).
  { intros f2 P2. destruct (Nat.eqb_spec (length left) 0) as [Z|Z].
    - apply wp_ret. apply HQ. rewrite IB.
      assert (pad = []). { unfold pad. replace (rup (length d) - length d) with 0; auto. rewrite RSp. replace (length d - nb) with 0 by lia. rewrite (rup_0 g gok). lia. }
      destruct left; [|discriminate]. rewrite H0. cbn [app]. rewrite app_nil_r. exact P2.
    - assert (RL : rup (length left) = W).
      { pose proof (rup_ge g gok (length left)). pose proof (al_lt_le g gok 0 (rup (length left)) (al_0 g gok) (al_rup g gok _)).
        pose proof (rup_min g gok (length left) W (al_W g gok)). lia. }
      rewrite RL. pose proof (W_le_32 g gok). destruct (Nat.ltb_spec 32 W); [lia|].
      assert (PAD : pad = repeat 0%N (W - length left)).
      { unfold pad. f_equal. rewrite RSp. rewrite <- LL, RL. lia. }
      assert (LLP : length (left ++ repeat 0%N (W - length left)) = W).
      { rewrite app_length, repeat_length. lia. }
      assert (SP : rup (length d) = nb + W) by (rewrite RSp, <- LL, RL; reflexivity).
      apply (wp_write g gok); rewrite ?LLP; auto with al; try lia.
      + rewrite BL. apply (al_add g gok); auto with al. apply al_rdown; auto.
      + intros f3 P3. cbn [s_fl set_fl] in P3. change (set_fl (set_fl s1 f2) f3) with (set_fl s1 f3). apply HQ.
        rewrite IB, PAD, app_assoc. eapply prog_app; [exact P2|].
        rewrite app_length, LH. rewrite Nat.add_assoc. exact P3.
      + intros f3 j Hfu Hj Haw P3. cbn [s_fl set_fl] in P3, Haw, Hfu. change (set_fl (set_fl s1 f2) f3) with (set_fl s1 f3).
        apply (HE f3 (HL + nb + j)).
        * intros X. apply Hfu. apply (pg_fuel _ _ _ _ P2 X).
        * rewrite LIB, SP. lia.
        * intros. right. lia.
        * rewrite IB, PAD, app_assoc. replace (HL + nb + j) with (length (hdr_bytes g (ihdr d) ++ block) + j)
            by (rewrite app_length, LH; lia).
          rewrite firstn_app_ge. eapply prog_app; [exact P2|].
          rewrite app_length, LH. rewrite Nat.add_assoc. exact P3. }
  apply wp_bind. destruct (Nat.eqb_spec (length block) 0) as [Z|Z].
  - apply wp_ret. apply LAST. destruct block; [|discriminate]. apply PE. apply prog_nil.
  - apply (wp_write g gok); rewrite ?BL; auto with al; try lia.
    + apply al_rdown; auto.
    + intros f2 P2. cbn [s_fl set_fl] in P2. change (set_fl (set_fl s1 f1) f2) with (set_fl s1 f2). rewrite <- BL. apply LAST, PE. exact P2.
    + intros f2 j Hfu Hj Haw P2. cbn [s_fl set_fl] in P2, Haw, Hfu. change (set_fl (set_fl s1 f1) f2) with (set_fl s1 f2).
      apply (HE f2 (HL + j)).
      * intros X. apply Hfu. apply (pg_fuel _ _ _ _ P1 X).
      * rewrite LIB. lia.
      * intros. right. lia.
      * rewrite IB. replace (HL + j) with (length (hdr_bytes g (ihdr d)) + j) by lia. rewrite firstn_app_ge.
        rewrite firstn_app_le by (rewrite BL; lia). eapply prog_app; [exact P1|]. rewrite LH. exact P2.
Qed.

Lemma write_new_raw d a s : (N.of_nat (length d) <= 65535)%N -> write_new g a d s = write_raw g (ihdr d) d a s.
Proof. intros. unfold write_new. rewrite as_u16_small by auto. reflexivity. Qed.

(** * Memory after a complete or torn write *)
Lemma slot_written m m' e a d : data_ok d -> ff_on m a (a + ssize g (SLive d)) ->
  (forall x, m' x = mem_and m a (item_bytes d) x) -> a + ssize g (SLive d) <= e ->
  slot_at g m' e a (SLive d).
Proof.
  intros DO F P L. pose proof (HL_ge g gok). pose proof (rup_ge g gok (length d)).
  assert (R : rd m' a (length (item_bytes d)) = item_bytes d).
  { rewrite (rd_ext (mem_and m a (item_bytes d)) m') by (intros x _; apply P).
    apply rd_mem_and; [now rewrite item_bytes_length|now apply item_bytes_bytes]. }
  rewrite item_bytes_length in R. unfold ssize in *. cbn [shdr h_len] in *.
  split.
  - cbn [shdr]. apply hdr_at_hb8.
    + rewrite <- (rd_firstn m' a (HL + rup (length d)) 8) by lia. rewrite R. reflexivity.
    + apply (ihdr_ok d DO).
    + unfold next_addr. cbn [h_len]. lia.
  - assert (X : skipn HL (item_bytes d) = rd m' (a + HL) (rup (length d))).
    { rewrite <- R, rd_skipn by lia. f_equal. lia. }
    unfold item_bytes in X. rewrite skipn_app_exact in X by apply hdr_bytes_length.
    rewrite <- (rd_firstn m' (a + HL) (rup (length d))) by auto. rewrite <- X. now apply firstn_app_exact.
Qed.

(** Data of which only a prefix was programmed. *)
Definition torn (j : nat) (d : list N) : list N := firstn j d ++ repeat 255%N (length d - j).

(** The checksum tells torn data from complete data. *)
Definition torn_safe (d : list N) : Prop := forall j, acrc (torn j d) = acrc d -> torn j d = d.

Lemma nth_firstn_ff (bs : list N) j i : nth i (firstn j bs) 255%N = if i <? j then nth i bs 255%N else 255%N.
Proof.
  destruct (Nat.ltb_spec i j).
  - apply nth_firstn_lt. auto.
  - apply nth_overflow. rewrite firstn_length. lia.
Qed.
Lemma mem_torn m a bs j x : ff_on m a (a + length bs) -> Forall is_byte bs ->
  mem_and m a (firstn j bs) x = if (a <=? x) && (x <? a + length bs) then (if x - a <? j then nth (x - a) bs 255%N else 255%N) else m x.
Proof.
  intros F B. unfold mem_and. rewrite firstn_length.
  destruct (Nat.leb_spec a x); cbn [andb]; auto.
  destruct (Nat.ltb_spec x (a + length bs)).
  - rewrite F by lia. destruct (Nat.ltb_spec x (a + Nat.min j (length bs))).
    + rewrite nth_firstn_ff. destruct (Nat.ltb_spec (x - a) j); [|lia]. apply land_255.
      rewrite Forall_forall in B. apply B. apply nth_In. lia.
    + destruct (Nat.ltb_spec (x - a) j); auto. lia.
  - destruct (Nat.ltb_spec x (a + Nat.min j (length bs))); auto. lia.
Qed.
Lemma rd_torn m m' a bs j o n : ff_on m a (a + length bs) -> Forall is_byte bs ->
  (forall x, m' x = mem_and m a (firstn j bs) x) -> o + n <= length bs ->
  rd m' (a + o) n = torn (j - o) (firstn n (skipn o bs)).
Proof.
  intros F B P L. unfold torn.
  assert (LB : length (firstn n (skipn o bs)) = n) by (rewrite firstn_length, skipn_length; lia).
  apply nth_ext with (d := 255%N) (d' := 255%N).
  - rewrite rd_length, app_length, firstn_length, repeat_length, LB. lia.
  - intros i Hi. rewrite rd_length in Hi. rewrite rd_nth by auto. rewrite P, mem_torn by auto.
    destruct (Nat.leb_spec a (a + o + i)); [|lia]. destruct (Nat.ltb_spec (a + o + i) (a + length bs)); [|lia]. cbn [andb].
    replace (a + o + i - a) with (o + i) by lia.
    destruct (Nat.ltb_spec (o + i) j).
    + rewrite app_nth1 by (rewrite firstn_length, LB; lia). rewrite !nth_firstn_lt by lia.
      now rewrite nth_skipn_add.
    + rewrite app_nth2 by (rewrite firstn_length, LB; lia). symmetry. apply nth_repeat.
Qed.

Lemma torn_all j d : length d <= j -> torn j d = d.
Proof. intros. unfold torn. rewrite firstn_all2 by auto. replace (length d - j) with 0 by lia. apply app_nil_r. Qed.
Lemma torn_0 d : torn 0 d = repeat 255%N (length d).
Proof. unfold torn. cbn. f_equal. lia. Qed.
Lemma torn_length j d : length (torn j d) = length d.
Proof. unfold torn. rewrite app_length, firstn_length, repeat_length. lia. Qed.

(** A torn header has a wrong length checksum, or is complete. *)
Lemma torn_hb8 h j : hdr_ok h -> j <= 6 \/ lcrc_ok (torn j (hb8 h)) = false \/ torn j (hb8 h) = hb8 h.
Proof.
  intros O. destruct (le_lt_dec j 6) as [?|H6]; auto. right.
  destruct (le_lt_dec 8 j) as [H8|H8]; [right; apply torn_all; now rewrite hb8_length|].
  assert (j = 7) by lia. subst j.
  set (v := crc16 (le_bytes 2 (N.of_nat (h_len h)))).
  destruct (N.eq_dec (v / 256) 255) as [E|E].
  - right. unfold torn, hb8. fold v. cbn [le_bytes app firstn length repeat Nat.sub].
    pose proof (crc16_le2 (N.of_nat (h_len h))) as B. fold v in B. do 7 f_equal. rewrite E. reflexivity.
  - left. unfold lcrc_ok. apply N.eqb_neq. intros X.
    assert (L1 : len_field (torn 7 (hb8 h)) = le_bytes 2 (N.of_nat (h_len h))) by reflexivity.
    assert (L2 : lcrc_field (torn 7 (hb8 h)) = [(v mod 256)%N; 255%N]) by reflexivity.
    rewrite L1, L2 in X. fold v in X. cbn [le_val] in X. apply E.
    pose proof (N.div_mod v 256). pose proof (N.mod_upper_bound v 256). lia.
Qed.
Lemma torn_hb8_6 h j : j <= 6 -> lcrc_ok (torn j (hb8 h)) = false.
Proof.
  intros H. unfold lcrc_ok. apply N.eqb_neq. intros X.
  assert (LF : lcrc_field (torn j (hb8 h)) = [255;255]%N).
  { unfold lcrc_field, torn. rewrite hb8_length. rewrite skipn_app, firstn_length, hb8_length, Nat.min_l by lia.
    rewrite skipn_all2 by (rewrite firstn_length; lia). cbn [app].
    replace (8 - j) with ((6 - j) + 2) by lia. rewrite repeat_app. rewrite skipn_app_exact by apply repeat_length. reflexivity. }
  rewrite LF in X. cbn in X. revert X. apply crc16_not_erased.
Qed.

Lemma lcrc_ok_app x r : length x = 8 -> lcrc_ok (x ++ r) = lcrc_ok x.
Proof.
  intros. destruct x as [|x0 [|x1 [|x2 [|x3 [|x4 [|x5 [|x6 [|x7 [|]]]]]]]]]; try discriminate. reflexivity.
Qed.

(** * The page after a torn item write *)
Lemma slot_torn m m' e a d j : data_ok d -> torn_safe d -> (8 <= W \/ j = 0 \/ HL <= j) ->
  ff_on m a e -> a + ssize g (SLive d) <= e -> j < length (item_bytes d) ->
  (forall x, m' x = mem_and m a (firstn j (item_bytes d)) x) ->
  exists tl, seg g m' e a tl (a + sizes g tl) /\ ff_on m' (a + sizes g tl) e /\ a + sizes g tl <= e /\
    (tl = [] \/ (tl = [SBad] /\ 8 <= W) \/ tl = [SCorr (length d) (acrc d)] \/ tl = [SLive d]).
Proof.
  intros DO TS WJ F L Hj P. pose proof (HL_ge g gok) as HG. pose proof (HL_W g gok) as HW.
  pose proof (rup_ge g gok (length d)) as RU.
  rewrite item_bytes_length in Hj. assert (SZ : ssize g (SLive d) = HL + rup (length d)) by reflexivity.
  rewrite SZ in *.
  assert (F' : ff_on m a (a + length (item_bytes d))) by (rewrite item_bytes_length, SZ; intros x Hx; apply F; lia).
  assert (RT : forall o n, o + n <= HL + rup (length d) -> rd m' (a + o) n = torn (j - o) (firstn n (skipn o (item_bytes d)))).
  { intros. apply (rd_torn m); auto using item_bytes_bytes. rewrite item_bytes_length, SZ. lia. }
  assert (R8 : rd m' a 8 = torn j (hb8 (ihdr d))).
  { replace a with (a + 0) by lia. rewrite RT by lia. cbn [skipn]. rewrite Nat.sub_0_r. reflexivity. }
  assert (RH : rd m' a HL = torn j (hdr_bytes g (ihdr d))).
  { replace a with (a + 0) by lia. rewrite RT by lia. cbn [skipn]. rewrite Nat.sub_0_r. f_equal.
    unfold item_bytes. apply firstn_app_exact, hdr_bytes_length. }
  assert (RDt : rd m' (a + HL) (length d) = torn (j - HL) d).
  { rewrite RT by lia. f_equal. unfold item_bytes. rewrite skipn_app_exact by apply hdr_bytes_length. now apply firstn_app_exact. }
  assert (TAIL : forall b, a + j <= b -> ff_on m' b e).
  { intros b Hb x Hx. rewrite P, mem_and_out; [apply F; lia|]. rewrite firstn_length, item_bytes_length, SZ. lia. }
  (* complete header *)
  assert (COMPLETE : rd m' a 8 = hb8 (ihdr d) ->
     exists tl, seg g m' e a tl (a + sizes g tl) /\ ff_on m' (a + sizes g tl) e /\ a + sizes g tl <= e /\
    (tl = [] \/ (tl = [SBad] /\ 8 <= W) \/ tl = [SCorr (length d) (acrc d)] \/ tl = [SLive d])).
  { intros H8. assert (HA : hdr_at g m' e a = HOk (ihdr d)).
    { apply hdr_at_hb8; auto using ihdr_ok. unfold next_addr. cbn [ihdr h_len]. lia. }
    destruct (N.eq_dec (acrc (torn (j - HL) d)) (acrc d)) as [E|E].
    - apply TS in E. exists [SLive d]. assert (SE : sizes g [SLive d] = HL + rup (length d)) by (unfold sizes; cbn; unfold ssize; cbn; lia).
      rewrite SE. split.
      + cbn [seg]. split; [|unfold ssize; cbn; lia]. split; auto. congruence.
      + split; [|split; auto]. apply TAIL. lia.
    - exists [SCorr (length d) (acrc d)]. assert (SE : sizes g [SCorr (length d) (acrc d)] = HL + rup (length d)) by (unfold sizes; cbn; unfold ssize; cbn; lia).
      rewrite SE. split.
      + cbn [seg]. split; [|unfold ssize; cbn; lia]. split; auto. congruence.
      + split; [|split; auto]. apply TAIL. lia. }
  destruct (all_ff (rd m' a HL)) eqn:AF.
  { (* nothing visible *)
    apply all_ff_true in AF. rewrite rd_length in AF. apply rd_ff_inv in AF.
    exists []. unfold sizes. cbn [map list_sum fold_right seg]. rewrite Nat.add_0_r. split; auto. split; [|split; [lia|auto]].
    destruct (le_lt_dec j HL) as [X|X].
    - intros x Hx. destruct (le_lt_dec (a + HL) x); [apply (TAIL (a + HL)); lia|apply AF; lia].
    - exfalso. assert (X8 : rd m' a 8 = hb8 (ihdr d)) by (rewrite R8; apply torn_all; rewrite hb8_length; lia).
      assert (Y : rd m' a 8 = repeat 255%N 8) by (apply rd_ff; intros x Hx; apply AF; lia).
      rewrite X8 in Y. pose proof (hdr_of_app (ihdr d) [] (ihdr_ok d DO)) as (_ & _ & Z). rewrite app_nil_r, Y in Z. discriminate. }
  destruct (lcrc_ok (rd m' a HL)) eqn:LC.
  { (* complete *)
    apply COMPLETE. rewrite rd8_split, lcrc_ok_app in LC by apply rd_length. rewrite R8 in *.
    destruct (torn_hb8 (ihdr d) j (ihdr_ok d DO)) as [X|[X|X]]; auto.
    - rewrite torn_hb8_6 in LC by auto. discriminate.
    - congruence. }
  (* damaged header *)
  assert (J7 : j < 8).
  { destruct (le_lt_dec 8 j); auto. exfalso.
    rewrite rd8_split, lcrc_ok_app in LC by apply rd_length. rewrite R8, torn_all in LC by (rewrite hb8_length; lia).
    pose proof (hdr_of_app (ihdr d) [] (ihdr_ok d DO)) as (_ & Z & _). rewrite app_nil_r in Z. congruence. }
  assert (J0 : j <> 0).
  { intros ->. rewrite RH, torn_0, hdr_bytes_length, all_ff_repeat in AF. discriminate. }
  assert (W8 : 8 <= W) by (destruct WJ as [?|[?|?]]; lia).
  exists [SBad]. assert (SE : sizes g [SBad] = W) by (unfold sizes; cbn; unfold ssize; cbn; lia). rewrite SE.
  split.
  - cbn [seg]. split; [|unfold ssize; cbn; lia]. split; auto. cbn [shdr]. unfold hdr_at.
    destruct (Nat.ltb_spec e (a + HL)); [lia|]. cbn zeta. rewrite AF, LC. reflexivity.
  - split; [|split; auto; lia]. apply TAIL. lia.
Qed.

(** * Erasing an item *)
Lemma low_byte_zero l : (le_val (0%N :: l) mod 256 = 0)%N.
Proof. cbn [le_val]. rewrite N.add_0_l, N.mul_comm. apply N.mod_mul. lia. Qed.

Lemma slot_erased m m' e a d j : is_mem m -> slot_at g m e a (SLive d) ->
  (forall x, m' x = mem_and m a (firstn j (hdr_bytes g (mkhdr (length d) None))) x) ->
  exists y, slot_at g m' e a y /\ ssize g y = ssize g (SLive d) /\
    ((y = SLive d /\ j = 0) \/ y = SDead (length d) \/ exists c, y = SCorr (length d) c) /\
    (4 <= j -> y = SDead (length d)).
Proof.
  intros IM S P. pose proof (HL_ge g gok) as HG. destruct S as [SH SD]. cbn [shdr] in SH.
  destruct (hb8_hdr_at m e a _ IM SH) as [H8 HO].
  pose proof (hdr_at_ok g _ _ _ _ SH) as (NX & _ & _). unfold next_addr in NX. cbn [h_len] in NX.
  set (h0 := mkhdr (length d) None) in P. set (LB := le_bytes 2 (N.of_nat (length d))). set (CB := le_bytes 2 (crc16 LB)).
  assert (E8 : rd m a 8 = le_bytes 4 (acrc d) ++ LB ++ CB) by exact H8.
  assert (E0 : firstn 8 (hdr_bytes g h0) = [0;0;0;0]%N ++ LB ++ CB) by reflexivity.
  assert (MX : forall i, i < 8 -> m (a + i) = nth i (le_bytes 4 (acrc d) ++ LB ++ CB) 0%N).
  { intros i Hi. apply rd_inv; auto. }
  (* byte by byte *)
  assert (M8 : forall i, i < 8 -> m' (a + i) = if (i <? j) && (i <? 4) then 0%N else m (a + i)).
  { intros i Hi. rewrite P. destruct (Nat.ltb_spec i j); cbn [andb].
    - rewrite mem_and_in by (rewrite firstn_length, hdr_bytes_length; lia).
      replace (a + i - a) with i by lia. rewrite nth_firstn_lt by auto.
      assert (N1 : nth i (hdr_bytes g h0) 255%N = nth i ([0;0;0;0]%N ++ LB ++ CB) 255%N).
      { rewrite <- E0. symmetry. now apply nth_firstn_lt. }
      rewrite N1. destruct (Nat.ltb_spec i 4).
      + destruct i as [|[|[|[|]]]]; try lia; apply N.land_0_r.
      + rewrite MX by auto.
        destruct i as [|[|[|[|[|[|[|[|]]]]]]]]; try lia; cbn [nth app le_bytes]; apply N.land_diag.
    - apply mem_and_out. rewrite firstn_length. lia. }
  assert (OUT : forall x, a + HL <= x -> m' x = m x).
  { intros x Hx. rewrite P. apply mem_and_out. rewrite firstn_length, hdr_bytes_length. lia. }
  assert (RDd : rd m' (a + HL) (length d) = d).
  { rewrite (rd_ext m m'); auto. intros x Hx. apply OUT. lia. }
  destruct (Nat.eq_dec j 0) as [->|J0].
  { exists (SLive d). repeat split; auto; [|lia]. cbn [shdr].
    rewrite <- SH. apply hdr_at_ext. intros x Hx. rewrite P. apply mem_and_out. cbn. lia. }
  set (cb := [m' a; m' (a + 1); m' (a + 2); m' (a + 3)]).
  assert (A0 : m' a = 0%N).
  { specialize (M8 0 ltac:(lia)). rewrite Nat.add_0_r in M8. rewrite M8. destruct (Nat.ltb_spec 0 j); [reflexivity|lia]. }
  assert (IM' : is_mem m').
  { intros x. rewrite P. now apply mem_and_mem. }
  assert (CB4 : Forall is_byte cb) by (unfold cb; repeat constructor; apply IM').
  assert (R8 : rd m' a 8 = cb ++ LB ++ CB).
  { unfold rd, cb. cbn [seq map]. replace (S a) with (a + 1) by lia.
    replace (S (a + 1)) with (a + 2) by lia. replace (S (a + 2)) with (a + 3) by lia.
    replace (S (a + 3)) with (a + 4) by lia. replace (S (a + 4)) with (a + 5) by lia.
    replace (S (a + 5)) with (a + 6) by lia. replace (S (a + 6)) with (a + 7) by lia.
    cbn [app]. do 4 f_equal.
    assert (Q : forall i, 4 <= i < 8 -> m' (a + i) = nth i (le_bytes 4 (acrc d) ++ LB ++ CB) 0%N).
    { intros i Hi. rewrite M8, MX by lia. destruct (Nat.ltb_spec i 4); [lia|]. now rewrite andb_false_r. }
    rewrite !Q by lia. reflexivity. }
  set (cv := le_val cb).
  assert (CVL : (cv < 2 ^ 32)%N) by (apply (le_val_bound cb); auto).
  assert (CVM : (cv mod 256 = 0)%N) by (unfold cv, cb; rewrite A0; apply low_byte_zero).
  assert (R8' : rd m' a 8 = hb8 (mkhdr (length d) (if (cv =? 0)%N then None else Some cv))).
  { rewrite R8. unfold hb8. cbn [h_len]. fold LB. fold CB. f_equal. unfold crcv. cbn [h_crc].
    replace (match (if (cv =? 0)%N then None else Some cv) with Some c => c | None => 0%N end) with cv
      by (destruct (N.eqb_spec cv 0); auto).
    unfold cv. change 4 with (length cb). symmetry. now apply le_bytes_le_val. }
  assert (HA : hdr_at g m' e a = HOk (mkhdr (length d) (if (cv =? 0)%N then None else Some cv))).
  { apply hdr_at_hb8; auto.
    destruct HO as [HO1 HO2]. split; auto. cbn [h_crc]. destruct (N.eqb_spec cv 0); auto. lia. }
  destruct (N.eqb_spec cv 0) as [Z|Z].
  - exists (SDead (length d)). split; [split; auto|]. split; [reflexivity|]. split; auto.
  - exists (SCorr (length d) cv). split; [split; auto|].
    + rewrite RDd. intros X. pose proof (acrc_low d) as [X1 _]. congruence.
    + split; [reflexivity|]. split; [eauto|]. intros J4. exfalso. apply Z. unfold cv, cb.
      assert (Q : forall i, i < 4 -> m' (a + i) = 0%N).
      { intros i Hi. rewrite M8 by lia. destruct (Nat.ltb_spec i j); [|lia]. destruct (Nat.ltb_spec i 4); [reflexivity|lia]. }
      rewrite A0, !Q by lia. reflexivity.
Qed.

End Item.
