(** What is read on a page of which the front was erased. *)
From Coq Require Import List NArith ZArith Arith Bool Lia ZifyBool ZifyNat ZifyN.
From Verif Require Import Base BaseP Crc CrcP Flash Cache State Item Generic GeomP ScanP WpP ItemP PageP TornSpec.
Import ListNotations.
Local Opaque crc16 acrc crc32.

Lemma wiped_length j t l : length (wiped j t l) = length l.
Proof. unfold wiped. now rewrite map_length, seq_length. Qed.
Lemma wiped_nth j t l i : nth i (wiped j t l) 255%N = if (j <=? i) && (i <? t) then nth i l 255%N else 255%N.
Proof.
  destruct (Nat.lt_ge_cases i (length l)) as [H|H].
  - unfold wiped. rewrite (nth_indep _ 255%N ((fun i => if (j <=? i) && (i <? t) then nth i l 255%N else 255%N) 0)) by (rewrite map_length, seq_length; auto).
    rewrite (map_nth (fun i => if (j <=? i) && (i <? t) then nth i l 255%N else 255%N)), seq_nth by auto. reflexivity.
  - rewrite nth_overflow by now rewrite wiped_length. rewrite nth_overflow by auto. destruct (_ && _); auto.
Qed.
Lemma wiped_torn t l : wiped 0 t l = torn t l.
Proof.
  apply nth_ext with (d := 255%N) (d' := 255%N); [now rewrite wiped_length, torn_length|]. intros i Hi. rewrite wiped_nth. cbn [Nat.leb andb].
  unfold torn. rewrite wiped_length in Hi. destruct (Nat.ltb_spec i t).
  - rewrite app_nth1 by (rewrite firstn_length; lia). now rewrite nth_firstn_lt.
  - rewrite app_nth2 by (rewrite firstn_length; lia). symmetry. apply nth_repeat.
Qed.
Lemma head_hb8 d : head d = hb8 (ihdr d).
Proof. reflexivity. Qed.
Lemma head_length d : length (head d) = 8.
Proof. rewrite head_hb8. apply hb8_length. Qed.
Lemma looks_lcrc w : looks w = lcrc_ok w. Proof. reflexivity. Qed.
Lemma looks_ff w : length w = 8 -> all_ff w = true -> looks w = false.
Proof.
  intros L H. assert (w = repeat 255%N 8) as ->.
  { apply nth_ext with (d := 255%N) (d' := 255%N); [now rewrite repeat_length|]. intros i Hi. rewrite nth_repeat.
    unfold all_ff in H. rewrite forallb_forall in H. specialize (H (nth i w 255%N) ltac:(apply nth_In; auto)). apply N.eqb_eq in H. auto. }
  unfold looks. apply N.eqb_neq. apply crc16_not_erased.
Qed.

Lemma pages_apart g (gok : geom_ok g) q p y : q <> p -> dstart g q <= y < dend g q -> y < paddr g p \/ pend g p <= y.
Proof.
  intros N H. pose proof (dend_lt g gok q). unfold dstart in H.
  destruct (le_lt_dec (paddr g p) y); [|lia]. destruct (le_lt_dec (pend g p) y); [lia|]. exfalso. apply N. apply (page_disj g q p y); lia.
Qed.

Section First.
Context (g : geom) (gok : geom_ok g) (ws : bool).
(** The first item of the page, perhaps incomplete. *)
Definition hq (m : nat -> N) (p : nat) (X : list slot) : Prop :=
  X = [] \/ exists d t, data_ok d /\ quiet g d /\ dstart g p + ssize g (SLive d) <= dend g p /\
    (forall i, i < ssize g (SLive d) -> m (dstart g p + i) = if i <? t then nth i (item_bytes g d) 255%N else 255%N) /\
    ((ssize g (SLive d) <= t /\ exists rest, X = SLive d :: rest) \/ ff_on m (dstart g p + ssize g (SLive d)) (dend g p)).

Lemma hq_ext m m' p X : same_on m m' (dstart g p) (dend g p) -> hq m p X -> hq m' p X.
Proof.
  intros H [->|(d & t & A & B & C & D & E)]; [now left|right]. exists d, t. split; auto. split; auto. split; auto. split.
  - intros i Hi. rewrite H by lia. auto.
  - destruct E as [E|E]; [left; auto|right]. intros y Hy. rewrite H by lia. apply E. lia.
Qed.

(** The first item is complete. *)
Definition hqc (m : nat -> N) (p : nat) (ds : list (list N)) : Prop :=
  ds = [] \/ exists d t, ds = d :: t /\ data_ok d /\ quiet g d /\ dstart g p + ssize g (SLive d) <= dend g p /\
    forall i, i < ssize g (SLive d) -> m (dstart g p + i) = nth i (item_bytes g d) 255%N.
Lemma hqc_ext m m' p ds : same_on m m' (dstart g p) (dend g p) -> hqc m p ds -> hqc m' p ds.
Proof. intros H [->|(d & t & A & B & C & D & E)]; [now left|right]. exists d, t. repeat (split; auto). intros i Hi. rewrite H by lia. auto. Qed.
Lemma hqc_hq m p ds tl : hqc m p ds -> (ds = [] -> tl = []) -> hq m p (map SLive ds ++ tl).
Proof.
  intros [->|(d & t & -> & B & C & D & E)] H; [left; now rewrite H|right]. exists d, (ssize g (SLive d)). repeat (split; auto).
  - intros i Hi. destruct (Nat.ltb_spec i (ssize g (SLive d))); [auto|lia].
  - left. split; auto. exists (map SLive t ++ tl). reflexivity.
Qed.
Lemma hq_write fl fl' p d j X : body g ws fl p [] -> data_ok d -> quiet g d -> dstart g p + ssize g (SLive d) <= dend g p ->
  prog fl fl' (dstart g p) (firstn j (item_bytes g d)) -> hq (f_mem fl') p X /\ (length (item_bytes g d) <= j -> hqc (f_mem fl') p [d]).
Proof.
  intros (b & SG & _ & BL & _) DO QD FIT P. cbn [seg] in SG. subst b.
  pose proof (item_bytes_length g gok d) as IL. assert (SZ : ssize g (SLive d) = length (item_bytes g d)) by now rewrite IL.
  assert (FF : ff_on (f_mem fl) (dstart g p) (dstart g p + length (item_bytes g d))) by (intros y Hy; apply BL; lia).
  assert (BY : Forall is_byte (item_bytes g d)) by now apply item_bytes_bytes.
  assert (MM : forall i, i < ssize g (SLive d) -> f_mem fl' (dstart g p + i) = if i <? j then nth i (item_bytes g d) 255%N else 255%N).
  { intros i Hi. rewrite (pg_mem _ _ _ _ P), mem_torn by auto. destruct (Nat.leb_spec (dstart g p) (dstart g p + i)); [|lia].
    destruct (Nat.ltb_spec (dstart g p + i) (dstart g p + length (item_bytes g d))); [|lia]. cbn [andb]. replace (dstart g p + i - dstart g p) with i by lia. reflexivity. }
  split.
  - right. exists d, j. repeat (split; auto). right. intros y Hy. destruct (prog_out _ _ _ _ y P) as [-> _]; [rewrite firstn_length; lia|]. apply BL. lia.
  - intros J. right. exists d, []. repeat (split; auto). intros i Hi. rewrite MM by auto. destruct (Nat.ltb_spec i j); [auto|lia].
Qed.
Lemma hqc_write fl fl' p d ds e bs : hqc (f_mem fl) p (d :: ds) -> prog fl fl' (dstart g p + sizes g (map SLive (d :: ds))) bs -> hqc (f_mem fl') p (d :: ds ++ e).
Proof.
  intros [H|(d0 & t & [= <- <-] & B & C & D & E)] P; [discriminate|right]. exists d, (ds ++ e). repeat (split; auto). intros i Hi.
  destruct (prog_out _ _ _ _ (dstart g p + i) P) as [-> _]; [|auto]. left. cbn [map]. unfold sizes. cbn [map list_sum fold_right]. lia.
Qed.
End First.

Section Torn.
Context (g : geom) (gok : geom_ok g) (ws : bool) (W8 : 8 <= W g).
Notation hq := (hq g).
Notation W := (W g).
Notation HL := (HL g).
Notation rup := (rup g).

(** A run of words that do not pass for headers. *)
Lemma words_bad m e k : forall a sl b, a + k * W <= e -> (forall i, i < k -> looks (rd m (a + i * W) 8) = false) ->
  seg g m e (a + k * W) sl b -> hdr_at g m e b = HEnd ->
  exists sl' b', seg g m e a sl' b' /\ hdr_at g m e b' = HEnd /\ exists i, sl' = repeat SBad i \/ sl' = repeat SBad i ++ sl.
Proof.
  pose proof (HL_eq_W g gok W8) as HW. induction k as [|k IH]; intros a sl b L H SG E.
  - rewrite Nat.add_0_r in SG. exists sl, b. split; auto. split; auto. exists 0. right. reflexivity.
  - pose proof (H 0 ltac:(lia)) as H0. rewrite Nat.add_0_r in H0. rewrite looks_lcrc in H0.
    assert (HB : hdr_at g m e a = HEnd \/ hdr_at g m e a = HBad).
    { unfold hdr_at. destruct (e <? a + HL); auto. destruct (all_ff _); auto. right.
      rewrite (rd8_split g gok), lcrc_ok_app by apply rd_length. rewrite H0. reflexivity. }
    destruct HB as [HB|HB].
    { exists [], a. cbn [seg]. split; auto. split; auto. exists 0. now left. }
    destruct (IH (a + W) sl b) as (sl' & b' & S' & E' & i & Hi).
    + lia.
    + intros i Hi. specialize (H (S i) ltac:(lia)). replace (a + W + i * W) with (a + S i * W) by lia. auto.
    + replace (a + W + k * W) with (a + S k * W) by lia. auto.
    + auto.
    + exists (SBad :: sl'), b'. split; [|split; auto].
      * cbn [seg]. split; [split; [exact HB|exact I]|]. exact S'.
      * exists (S i). cbn [repeat app]. destruct Hi as [->| ->]; auto.
Qed.

Lemma nth_item_head d i : i < 8 -> nth i (item_bytes g d) 255%N = nth i (head d) 255%N.
Proof.
  intros H. unfold item_bytes. rewrite hdr_bytes_eq, <- app_assoc. rewrite app_nth1 by (rewrite hb8_length; lia). now rewrite head_hb8.
Qed.
Lemma nth_item_pad d i : 8 <= i < HL -> nth i (item_bytes g d) 255%N = 255%N.
Proof.
  intros H. unfold item_bytes. rewrite hdr_bytes_eq, <- app_assoc. rewrite app_nth2 by (rewrite hb8_length; lia). rewrite hb8_length.
  rewrite app_nth1 by (rewrite repeat_length; lia). apply nth_repeat.
Qed.
Lemma nth_item_data d i : nth (HL + i) (item_bytes g d) 255%N = nth i (d ++ repeat 0%N (rup (length d) - length d)) 255%N.
Proof. unfold item_bytes. rewrite app_nth2; rewrite (hdr_bytes_length g gok); [|lia]. f_equal. lia. Qed.

Lemma jslots_nil X : jslots g X [].
Proof. split; [constructor|]. split; [intros d []|constructor]. Qed.
Lemma solid_bads i : Forall (solid g) (repeat SBad i).
Proof. apply Forall_forall. intros x Hx. apply repeat_spec in Hx. subst x. exact W8. Qed.
Lemma fits_bads n i : Forall (fits_buf g n) (repeat SBad i).
Proof. apply Forall_forall. intros x Hx. apply repeat_spec in Hx. subst x. exact I. Qed.
Lemma jslots_bads X rest i : Forall (solid g) rest -> (forall d, In (SLive d) rest -> In (SLive d) X) -> (forall n, Forall (fits_buf g n) X -> Forall (fits_buf g n) rest) ->
  jslots g X (repeat SBad i ++ rest).
Proof.
  intros A B C. split; [|split].
  - apply Forall_app. split; auto using solid_bads.
  - intros d Hd. apply in_app_or in Hd. destruct Hd as [Hd|Hd]; auto. apply repeat_spec in Hd. discriminate.
  - intros n F. apply Forall_app. split; auto using fits_bads.
Qed.

(** However much of the front is erased, the live items are among those that were there. *)
Lemma hq_jmem fl p X : body g ws fl p X -> hq (f_mem fl) p X -> jmem g (f_mem fl) p X.
Proof.
  intros BD HQ j. pose proof (HL_eq_W g gok W8) as HW. pose proof (dstart_lt g gok p) as DS. set (m := f_mem fl) in *. set (a := dstart g p) in *. set (e := dend g p) in *.
  set (m' := mem_ff m a j).
  pose proof (body_jbody g ws _ _ _ BD) as (b & SX & EX). fold m a e in SX, EX.
  assert (SO : Forall (solid g) X). { destruct BD as (b' & _ & F & _). exact F. }
  assert (END : hdr_at g m' e a = HEnd -> exists sl, jbody g m' p sl /\ jslots g X sl).
  { intros H. exists []. split; [|apply jslots_nil]. exists a. cbn [seg]. auto. }
  destruct HQ as [->|(d & t & DO & (Q1 & Q2) & FIT & IT & RE)].
  { (* nothing there *) apply END. apply (ff_end g). cbn [seg] in SX. destruct BD as (b' & S' & _ & BL & _). cbn [seg] in S'. subst b'.
    intros y Hy. unfold m', mem_ff. destruct (_ && _); auto. apply BL. exact Hy. }
  fold m a e in IT, FIT, RE. change (ssize g (SLive d)) with (HL + rup (length d)) in *.
  assert (M8 : rd m' a 8 = wiped j t (head d)).
  { apply nth_ext with (d := 255%N) (d' := 255%N); [now rewrite rd_length, wiped_length, head_length|]. intros i Hi. rewrite rd_length in Hi.
    rewrite rd_nth, wiped_nth by auto. unfold m', mem_ff. destruct (Nat.leb_spec a (a + i)); [|lia]. cbn [andb].
    destruct (Nat.ltb_spec (a + i) (a + j)), (Nat.leb_spec j i); try lia; cbn [andb]; auto. rewrite IT by lia. destruct (i <? t); auto. now apply nth_item_head. }
  destruct (Nat.eq_dec j 0) as [J0|J0].
  { exists X. split; [|now apply jslots_refl]. exists b. assert (SM : same_on m m' a e). { intros y Hy. unfold m'. rewrite mem_ff_out by lia. reflexivity. }
    split; [eapply seg_ext; eauto|]. pose proof (seg_le g _ _ _ _ _ SX). eapply hdr_end_ext; [|exact EX]. intros y Hy. apply SM. lia. }
  assert (PADF : forall i, 8 <= i < HL -> m' (a + i) = 255%N).
  { intros i Hi. unfold m', mem_ff. destruct (_ && _); auto. rewrite IT by lia. destruct (i <? t); auto. now apply nth_item_pad. }
  destruct (le_lt_dec 8 j) as [J8|J8].
  { (* the header is gone *) apply END. unfold hdr_at. destruct (e <? a + HL); auto.
    assert (all_ff (rd m' a HL) = true) as ->; auto. unfold all_ff. apply forallb_forall. intros x Hx. apply (In_nth _ _ 255%N) in Hx. destruct Hx as (i & Hi & <-).
    rewrite rd_length in Hi. rewrite rd_nth by auto. apply N.eqb_eq. symmetry. destruct (le_lt_dec 8 i); [apply PADF; lia|]. unfold m'. apply mem_ff_in. lia. }
  (* the data is untouched *)
  assert (SD : same_on m m' (a + HL) e). { intros y Hy. unfold m'. rewrite mem_ff_out by lia. reflexivity. }
  (* what follows the item *)
  assert (REST : exists rest b2, seg g m' e (a + (HL + rup (length d))) rest b2 /\ hdr_at g m' e b2 = HEnd /\ Forall (solid g) rest /\
     (forall d', In (SLive d') rest -> In (SLive d') X) /\ (forall n, Forall (fits_buf g n) X -> Forall (fits_buf g n) rest)).
  { destruct RE as [(LT & rest & ->)|RE].
    - cbn [seg] in SX. destruct SX as [_ SX]. exists rest, b. change (ssize g (SLive d)) with (HL + rup (length d)) in SX.
      split; [refine (seg_ext g gok _ _ _ _ _ _ _ SX); intros y Hy; apply SD; lia|]. split.
      + pose proof (seg_le g _ _ _ _ _ SX). eapply hdr_end_ext; [|exact EX]. intros y Hy. apply SD. lia.
      + inversion SO; subst. split; auto. split; [intros d' Hd; now right|]. intros n F. inversion F; auto.
    - exists [], (a + (HL + rup (length d))). split; [reflexivity|]. split; [|split; [constructor|split; [intros d' []|constructor]]].
      apply (ff_end g). intros y Hy. rewrite SD by lia. apply RE. lia. }
  destruct REST as (rest & b2 & SR & ER & SOR & LR & FR).
  destruct (looks (wiped j t (head d))) eqn:LK.
  - destruct (Q1 j t ltac:(lia) LK) as (CO & LEN & CR).
    assert (HX : rd m a 8 = head d).
    { apply nth_ext with (d := 255%N) (d' := 255%N); [now rewrite rd_length, head_length|]. intros i Hi. rewrite rd_length in Hi.
      rewrite rd_nth by auto. rewrite <- CO, wiped_nth. cbn [Nat.leb andb]. rewrite IT by lia. destruct (i <? t); auto. now apply nth_item_head. }
    destruct CR as [CR|CR].
    + (* not a byte was changed *)
      assert (SM : same_on m m' a e).
      { intros y Hy. destruct (le_lt_dec (a + HL) y); [apply SD; lia|]. destruct (le_lt_dec (a + 8) y); [unfold m'; rewrite mem_ff_out by lia; reflexivity|].
        replace y with (a + (y - a)) by lia. rewrite <- (rd_nth m' a 8 (y - a) 255%N), <- (rd_nth m a 8 (y - a) 255%N) by lia. rewrite M8, CR, HX. reflexivity. }
      exists X. split; [|now apply jslots_refl]. exists b. split; [eapply seg_ext; eauto|]. pose proof (seg_le g _ _ _ _ _ SX). eapply hdr_end_ext; [|exact EX]. intros y Hy. apply SM. lia.
    + (* only the checksum of the data was hit *)
      set (c := le_val (firstn 4 (wiped j t (head d)))) in *.
      assert (HO : hdr_at g m' e a = HOk (mkhdr (length d) (Some c))).
      { unfold hdr_at. rewrite (rd8_split g gok). rewrite M8.
        assert (L8 : length (wiped j t (head d)) = 8) by now rewrite wiped_length, head_length.
        destruct (Nat.ltb_spec e (a + HL)); [lia|].
        destruct (all_ff (wiped j t (head d) ++ rd m' (a + 8) (HL - 8))) eqn:AF.
        { exfalso. unfold all_ff in AF. rewrite forallb_app in AF. apply andb_true_iff in AF. destruct AF as [AF _]. rewrite looks_ff in LK; auto; discriminate. }
        rewrite lcrc_ok_app by auto. rewrite <- looks_lcrc, LK. cbn [negb].
        assert (HE : hdr_of (wiped j t (head d) ++ rd m' (a + 8) (HL - 8)) = mkhdr (length d) (Some c)).
        { unfold hdr_of, len_field. rewrite (firstn_app_le 4) by lia. rewrite skipn_app. rewrite (firstn_app_le 2) by (rewrite skipn_length; lia). rewrite LEN.
          destruct DO as [_ DL]. rewrite le_val_le_bytes by (change (256 ^ N.of_nat 2)%N with 65536%N; lia). rewrite Nat2N.id. fold c.
          destruct (N.eqb_spec c 0) as [Z|]; auto. exfalso.
          assert (F0 : nth 0 (wiped j t (head d)) 255%N = 255%N) by (rewrite wiped_nth; destruct (Nat.leb_spec j 0); [lia|reflexivity]).
          unfold c in Z. destruct (wiped j t (head d)) as [|x0 w0]; [discriminate L8|]. cbn [nth] in F0. cbn [firstn le_val] in Z. lia. }
        rewrite HE. unfold next_addr. cbn [h_len]. destruct (Nat.ltb_spec e (a + HL + rup (length d))); [lia|reflexivity]. }
      assert (DT : rd m' (a + HL) (length d) = wiped 0 (t - HL) d).
      { apply nth_ext with (d := 255%N) (d' := 255%N); [now rewrite rd_length, wiped_length|]. intros i Hi. rewrite rd_length in Hi.
        pose proof (rup_ge g gok (length d)). rewrite rd_nth, wiped_nth by auto. cbn [Nat.leb andb]. rewrite SD by lia. replace (a + HL + i) with (a + (HL + i)) by lia. rewrite IT by lia.
        rewrite nth_item_data. rewrite app_nth1 by auto. destruct (Nat.ltb_spec (HL + i) t), (Nat.ltb_spec i (t - HL)); auto; lia. }
      exists (SCorr (length d) c :: rest). split.
      * exists b2. split; auto. cbn [seg]. split; [split; [exact HO|]|].
        -- fold a. rewrite DT. apply CR.
        -- change (ssize g (SCorr (length d) c)) with (HL + rup (length d)). exact SR.
      * split; [constructor; [exact I|auto]|]. split; [intros d' [Hd|Hd]; [discriminate|auto]|]. intros n F. constructor; auto.
        cbn [fits_buf].
        (* the length was there before *)
        assert (HX2 : hdr_at g m e a = HOk (ihdr d)).
        { apply (hdr_at_hb8 g gok); [now rewrite HX, head_hb8|now apply ihdr_ok|]. unfold next_addr. cbn [ihdr h_len]. lia. }
        destruct X as [|x X]; cbn [seg] in SX.
        { subst b. rewrite EX in HX2. discriminate. }
        destruct SX as [[SX _] _]. inversion F as [|? ? F1 _]; subst. fold a e in SX. rewrite HX2 in SX. unfold ihdr in SX.
        destruct x; cbn [shdr] in SX; try discriminate; injection SX; intros; cbn [fits_buf] in F1; congruence || (rewrite ?H in *; subst; auto).
  - (* damaged header *)
    assert (HB : hdr_at g m' e a = HEnd \/ hdr_at g m' e a = HBad).
    { unfold hdr_at. destruct (e <? a + HL); auto. destruct (all_ff _); auto. right.
      rewrite (rd8_split g gok), lcrc_ok_app by apply rd_length. rewrite M8, <- looks_lcrc, LK. reflexivity. }
    destruct HB as [HB|HB]; [now apply END|].
    assert (exists k, rup (length d) = k * W) as (k & Hk) by (eexists; unfold Flash.rup; reflexivity).
    destruct (words_bad m' e k (a + HL) rest b2) as (sl' & b' & S' & E' & i & Hi); auto.
    + lia.
    + intros i Hi. assert (Li : i * W < rup (length d)) by (rewrite Hk; apply Nat.mul_lt_mono_pos_r; lia).
      assert (Li2 : i * W + W <= rup (length d)) by (rewrite Hk; replace (i * W + W) with (S i * W) by lia; apply Nat.mul_le_mono_r; lia).
      rewrite <- (Q2 i (t - (HL + i * W)) Li). f_equal.
      pose proof (rup_ge g gok (length d)) as RG.
      assert (LP : length (d ++ repeat 0%N (rup (length d) - length d)) = rup (length d)) by (rewrite app_length, repeat_length; lia).
      apply nth_ext with (d := 255%N) (d' := 255%N); [rewrite rd_length, wiped_length, firstn_length, skipn_length; lia|]. intros i2 Hi2. rewrite rd_length in Hi2.
      rewrite rd_nth, wiped_nth by auto. cbn [Nat.leb andb]. rewrite SD by lia. replace (a + HL + i * W + i2) with (a + (HL + (i * W + i2))) by lia. rewrite IT by lia.
      rewrite nth_item_data. rewrite nth_firstn_lt by auto. rewrite nth_skipn_add.
      destruct (Nat.ltb_spec (HL + (i * W + i2)) t), (Nat.ltb_spec i2 (t - (HL + i * W))); auto; lia.
    + rewrite <- Hk. replace (a + HL + rup (length d)) with (a + (HL + rup (length d))) by lia. exact SR.
    + exists (SBad :: sl'). split.
      * exists b'. split; auto. cbn [seg]. split; [split; [exact HB|exact I]|]. change (ssize g SBad) with W. rewrite <- HW. exact S'.
      * destruct Hi as [->| ->].
        -- change (SBad :: repeat SBad i) with (repeat SBad (S i)). rewrite <- (app_nil_r (repeat SBad (S i))). apply jslots_bads; [constructor|intros d' []|constructor].
        -- change (SBad :: repeat SBad i ++ rest) with (repeat SBad (S i) ++ rest). now apply jslots_bads.
Qed.

End Torn.
