(** The reader of [FormatSpec] finds the contents of every reachable state. *)
From Coq Require Import List NArith ZArith Arith Bool Lia ZifyBool ZifyNat ZifyN.
From Verif Require Import Base BaseP Crc CrcP Flash Cache State Item Generic Queue Map Codec CodecP GeomP ScanP WpP ItemP CalcP PageP WorldP LayP
  QPushP QRepP QIterP QNextP QStepP QMiscP QCallP QHistP Client QSpec QObs QPropsP MLogP MClient MSpec MObs MExecP MHistP MPropsP FormatSpec.
Import ListNotations.

(** * Checksums *)
Section Crc.
Variable poly : N.
Definition cbit (c : N) : N := if N.testbit c 0 then N.lxor (N.shiftr c 1) poly else N.shiftr c 1.
Lemma cbit_lxor r b : cbit (N.lxor r b) = N.lxor (feed poly r (N.testbit b 0)) (N.shiftr b 1).
Proof.
  unfold cbit, feed. rewrite N.lxor_spec, N.bit0_odd, N.shiftr_lxor, N.div2_spec.
  destruct (xorb (N.odd r) (N.testbit b 0)).
  - rewrite !N.lxor_assoc. f_equal. apply N.lxor_comm.
  - now rewrite N.lxor_0_r.
Qed.
Lemma cbit_shift r b i : cbit (N.lxor r (N.shiftr b i)) = N.lxor (feed poly r (N.testbit b i)) (N.shiftr b (N.succ i)).
Proof.
  rewrite cbit_lxor, N.shiftr_shiftr, N.shiftr_spec by apply N.le_0_l. rewrite N.add_0_l, N.add_1_r. reflexivity.
Qed.
Lemma cbyte r b : is_byte b ->
  cbit (cbit (cbit (cbit (cbit (cbit (cbit (cbit (N.lxor r b)))))))) = fold_left (feed poly) (bits_of b) r.
Proof.
  intros B. unfold bits_of. cbn [seq map fold_left].
  replace b with (N.shiftr b 0) at 1 by apply N.shiftr_0_r.
  do 8 (rewrite cbit_shift; cbn [N.succ Pos.succ]).
  assert (N.shiftr b 8 = 0)%N as ->.
  { rewrite N.shiftr_div_pow2. apply N.div_small. exact B. }
  rewrite N.lxor_0_r. reflexivity.
Qed.
Lemma cbytes l : Forall is_byte l -> forall r,
  fold_left (fun c b => let c := N.lxor c b in cbit (cbit (cbit (cbit (cbit (cbit (cbit (cbit c)))))))) l r = fold_left (feed poly) (flat_map bits_of l) r.
Proof.
  induction 1 as [|b l B _ IH]; intros r; cbn [fold_left flat_map]; auto. rewrite fold_left_app, <- cbyte by auto. apply IH.
Qed.
End Crc.
Lemma check16_eq l : Forall is_byte l -> check16 l = crc16 l.
Proof. intros B. unfold check16, crc16, crc_of. rewrite <- cbytes by auto. reflexivity. Qed.
Lemma check32_eq l : Forall is_byte l -> check32 l = acrc l.
Proof.
  intros B. unfold check32, acrc, crc32, crc32_with_initial, crc_of. rewrite <- cbytes by auto.
  change 255%N with (N.ones 8). rewrite N.land_ones. reflexivity.
Qed.
Local Opaque crc16 acrc crc32.

(** * Fields *)
Section Fields.
Context (g : geom) (gok : geom_ok g).
Notation W := (W g).
Notation HL := (HL g).
Notation rup := (rup g).
Lemma word_eq : word g = W.
Proof. unfold word, Flash.W. destruct (Nat.ltb_spec (RS g) (WS g)); lia. Qed.
Lemma W_pos' : 0 < W.
Proof. rewrite <- word_eq. unfold word. destruct gok. lia. Qed.
Lemma words_eq n : words g n = rup n.
Proof.
  unfold words, Flash.rup. rewrite word_eq. f_equal. pose proof W_pos'. pose proof (Nat.div_mod n W ltac:(lia)) as D.
  pose proof (Nat.mod_upper_bound n W ltac:(lia)). destruct (Nat.eqb_spec (n mod W) 0).
  - apply Nat.div_unique with (W - 1); lia.
  - apply Nat.div_unique with (n mod W - 1); lia.
Qed.
Lemma bytes_eq m n : forall a, bytes m a n = rd m a n.
Proof. induction n; intros a; cbn [bytes]; auto. rewrite IHn. reflexivity. Qed.
Lemma num_eq m n : forall a, num m a n = le_val (rd m a n).
Proof. induction n; intros a; cbn [num]; auto. rewrite IHn. reflexivity. Qed.
Lemma rd_bytes m a n : is_mem m -> Forall is_byte (rd m a n).
Proof. intros M. unfold rd. apply Forall_forall. intros x Hx. apply in_map_iff in Hx. destruct Hx as (y & <- & _). apply M. Qed.
Lemma HL_8 : 8 <= HL.
Proof. unfold Flash.HL, Flash.rup. pose proof W_pos'. pose proof (Nat.div_mod (8 + W - 1) W ltac:(lia)). pose proof (Nat.mod_upper_bound (8 + W - 1) W ltac:(lia)). lia. Qed.
Lemma f_crc m a : rd m a 4 = firstn 4 (rd m a HL). Proof. rewrite rd_firstn; auto. pose proof HL_8. lia. Qed.
Lemma f_len m a : rd m (a + 4) 2 = len_field (rd m a HL).
Proof. unfold len_field. pose proof HL_8. rewrite rd_skipn by lia. rewrite rd_firstn by lia. reflexivity. Qed.
Lemma f_lcrc m a : rd m (a + 6) 2 = lcrc_field (rd m a HL).
Proof. unfold lcrc_field. pose proof HL_8. rewrite rd_skipn by lia. rewrite rd_firstn by lia. reflexivity. Qed.

Lemma zeros_eq l : list_sum (map count_zeros l) = length (filter negb (flat_map bits_of l)).
Proof.
  induction l as [|x l IH]; auto. cbn [flat_map map]. rewrite filter_app, app_length, <- IH.
  change (list_sum (count_zeros x :: map count_zeros l)) with (count_zeros x + list_sum (map count_zeros l)). f_equal.
  unfold count_zeros, bits_of. induction (seq 0 8) as [|i t IHt]; auto. cbn [filter map]. destruct (N.testbit x (N.of_nat i)); cbn [negb length]; auto.
Qed.
Lemma mark_eq m a : mark g m a = marked (rd m a (RS g)).
Proof. unfold mark, marked. now rewrite bytes_eq, zeros_eq. Qed.

(** * Items *)
Lemma items_S m k a e : is_mem m -> items g m (S k) a e =
  if e <? a + HL then [] else if all_ff (rd m a HL) then []
  else if lcrc_ok (rd m a HL) && (next_addr g a (hdr_of (rd m a HL)) <=? e) then
    let d := rd m (a + HL) (h_len (hdr_of (rd m a HL))) in
    if (le_val (rd m a 4) =? check32 d)%N then d :: items g m k (next_addr g a (hdr_of (rd m a HL))) e
    else items g m k (next_addr g a (hdr_of (rd m a HL))) e
  else items g m k (a + W) e.
Proof.
  intros M. cbn [items]. rewrite words_eq, word_eq. change (rup 8) with HL. rewrite !bytes_eq, !num_eq. change (forallb (N.eqb 255) (rd m a HL)) with (all_ff (rd m a HL)).
  destruct (e <? a + HL); auto. destruct (all_ff (rd m a HL)); auto. rewrite f_len, f_lcrc.
  change (N.to_nat (le_val (len_field (rd m a HL)))) with (h_len (hdr_of (rd m a HL))). rewrite words_eq.
  change (a + HL + rup (h_len (hdr_of (rd m a HL)))) with (next_addr g a (hdr_of (rd m a HL))).
  unfold lcrc_ok. rewrite (N.eqb_sym (crc16 _)).
  rewrite check16_eq by (rewrite <- f_len; apply rd_bytes; auto). reflexivity.
Qed.
Lemma items_seg m e sl : is_mem m -> forall a b fuel, seg g m e a sl b -> ff_on m b e -> length sl <= fuel -> items g m fuel a e = live_of sl.
Proof.
  intros M. induction sl as [|x sl IH]; intros a b fuel SG FF F; cbn [seg] in SG.
  - subst b. destruct fuel; auto. rewrite items_S by auto. destruct (Nat.ltb_spec e (a + HL)); auto.
    rewrite rd_ff; [|intros y Hy; apply FF; lia].
    replace (all_ff (repeat 255%N HL)) with true; auto. symmetry. unfold all_ff. apply forallb_forall. intros y Hy. apply repeat_spec in Hy. now subst.
  - cbn [length] in F. destruct fuel as [|fuel]; [lia|]. destruct SG as ((H & D) & SG). rewrite items_S by auto. unfold hdr_at in H.
    destruct (e <? a + HL); [destruct (shdr x); discriminate|]. destruct (all_ff (rd m a HL)); [destruct (shdr x); discriminate|].
    unfold next_addr in *.
    destruct (lcrc_ok (rd m a HL)) eqn:LC; cbn [negb andb] in *.
    2:{ destruct x; cbn [shdr] in H; try discriminate. rewrite (IH (a + W) b fuel SG FF) by lia. reflexivity. }
    destruct (Nat.leb_spec (a + HL + rup (h_len (hdr_of (rd m a HL)))) e) as [LE|LT].
    2:{ rewrite (proj2 (Nat.ltb_lt _ _) LT) in H. destruct x; cbn [shdr] in H; try discriminate. rewrite (IH (a + W) b fuel SG FF) by lia. reflexivity. }
    rewrite (proj2 (Nat.ltb_ge _ _) LE) in H. destruct (shdr x) as [h|] eqn:X; [|destruct x; discriminate]. injection H as H.
    assert (NX : a + HL + rup (h_len h) = a + ssize g x) by (unfold ssize; rewrite X; lia).
    rewrite H. rewrite NX.
    rewrite (IH _ b fuel SG FF) by lia. rewrite check32_eq by (apply rd_bytes; auto). cbn [Nat.add]. cbv zeta.
    assert (C : h_crc (hdr_of (rd m a HL)) = h_crc h) by now rewrite H. unfold hdr_of in C. cbn [h_crc] in C. rewrite <- f_crc in C. remember (le_val (rd m a 4)) as v eqn:EV. clear EV. cbv zeta in C.
    destruct x as [d|n|n c|]; cbn [shdr] in X; try discriminate; injection X as <-; cbn [h_len h_crc] in *.
    + rewrite D. destruct (N.eqb_spec v 0); [discriminate|]. injection C as ->. rewrite N.eqb_refl. reflexivity.
    + destruct (N.eqb_spec v 0) as [Z|]; [rewrite Z|discriminate]. destruct (N.eqb_spec 0 (acrc (rd m (a + HL) n))) as [E|]; auto.
      exfalso. symmetry in E. now apply acrc_nonzero in E.
    + destruct (N.eqb_spec v 0); [discriminate|]. injection C as ->. destruct (N.eqb_spec c (acrc (rd m (a + HL) n))) as [E|]; auto. now elim D.
Qed.
End Fields.

(** * Pages and rings *)
Section Ring.
Context (g : geom) (gok : geom_ok g) (ws ae : bool) (aw : nat).
Notation NP := (NP g).
Lemma first_eq p : first_byte g p = paddr g p.
Proof. unfold first_byte, paddr. lia. Qed.
Lemma last_eq p : first_byte g p + ES g = pend g p.
Proof. unfold first_byte, pend. lia. Qed.
Lemma page_read f p x : is_mem (f_mem f) -> nojunk x -> page_is g ws f p x ->
  begun g (f_mem f) p = (match x with PClosed _ | PPart _ => true | _ => false end) /\
  ended g (f_mem f) p = (match x with PClosed _ | PBad => true | _ => false end) /\
  page_items g (f_mem f) p = live_of (slots_of x) /\
  (x = POpen -> forall y, first_byte g p <= y < first_byte g p + ES g -> f_mem f y = 255%N).
Proof.
  intros M NJ H. unfold begun, ended, page_items, begun. rewrite !last_eq, first_eq, !mark_eq, word_eq.
  assert (RB : 0 < RS g /\ RS g <= W g /\ paddr g p + 2 * W g <= pend g p).
  { pose proof gok as (R & _). unfold paddr, pend. pose proof (word_eq g). unfold word in *.
    destruct gok as (_ & _ & _ & _ & _ & Z & _). lia. }
  assert (BD : forall sl, body g ws f p sl -> items g (f_mem f) (ES g) (paddr g p + W g) (pend g p - W g) = live_of sl).
  { intros sl (b & SG & _ & BL & _). eapply items_seg; eauto. eapply blank_ff; eauto.
    pose proof (seg_len g gok _ _ _ _ _ SG). pose proof (seg_le_end g gok _ _ _ _ _ SG). unfold dstart, dend in *. unfold paddr, pend in *. lia. }
  assert (E1 : forall lo hi, endz g (f_mem f) p lo hi -> lo < hi -> pend g p - RS g < hi -> marked (rd (f_mem f) (pend g p - RS g) (RS g)) = true).
  { intros lo hi (A & B & C & D & E) L1 L2. apply marked_rd_zero with (hi - 1); [lia|]. apply D. lia. }
  assert (E0 : forall lo hi, endz g (f_mem f) p lo hi -> hi <= pend g p - RS g -> marked (rd (f_mem f) (pend g p - RS g) (RS g)) = false).
  { intros lo hi (A & B & C & D & E) L. apply marked_rd_ff. unfold dend in *. intros y Hy. apply E; lia. }
  destruct x as [sl|sl| | |X|X sl]; try contradiction; cbn [page_is slots_of live_of] in *.
  - destruct H as (A & (hi & Z & ZL) & B & _). rewrite A. repeat split; try discriminate; auto. eapply E1; eauto. unfold dend in *. lia.
  - destruct H as (A & (hi & Z & ZL) & B & _). rewrite A. repeat split; try discriminate; auto. eapply E0; eauto.
  - rewrite !marked_rd_ff by (intros y Hy; apply H; lia). repeat split; auto. intros _ y Hy. apply H. lia.
  - destruct H as (_ & A & lo & hi & Z & L1 & L2). rewrite A. repeat split; try discriminate; auto. eapply E1; eauto.
Qed.

Lemma map_repeat' {A B} (h : A -> B) x n : map h (repeat x n) = repeat (h x) n.
Proof. induction n; cbn; congruence. Qed.
Lemma ring_map {B} (h : nat -> B) k (pg : nat -> page) Y : layok NP Y pg -> (forall p, p < NP -> h p = k (pg p)) -> map h (ring g (y_f Y)) = map k (pages Y).
Proof.
  intros ((F & L & N) & _) H. unfold ring. rewrite map_map. apply nth_ext with (k POpen) (k POpen); rewrite !map_length, seq_length; auto.
  intros i Hi. rewrite map_nth. erewrite nth_indep by (rewrite map_length, seq_length; auto).
  rewrite (map_nth (fun x => h ((y_f Y + x) mod NP))) with (d := 0). rewrite seq_nth by auto. cbn [Nat.add].
  rewrite H by (apply Nat.mod_upper_bound; lia). now rewrite N.
Qed.
Lemma read_all Y pg f : layok NP Y pg -> fworld g ws ae aw pg f -> oldest g (f_mem f) (y_f Y) /\ stored g (f_mem f) (y_f Y) = content Y.
Proof.
  intros LY (M & PG & _). pose proof LY as ((F & L & N) & BD). assert (NJ : forall p, p < NP -> nojunk (pg p)) by (intros p Hp; exact (lay_nojunk NP Y pg p (npos g gok) LY Hp)). split.
  - split; auto. exists (y_c Y), (y_b Y), (y_k Y), (y_bad Y). split; [apply y_b_le|]. split; auto. split.
    + rewrite (ring_map _ (fun x => match x with PClosed _ => (true, true) | PPart _ => (true, false) | PBad => (false, true) | _ => (false, false) end) pg Y LY).
      * unfold pages. rewrite !map_app, !map_map. unfold y_c, y_b.
        assert (R : forall A B (x : B) (l : list A), map (fun _ => x) l = repeat x (length l)) by (intros A B x l; induction l; cbn; congruence).
        rewrite !R, !map_repeat'. reflexivity.
      * intros p Hp. destruct (page_read f p _ M (NJ p Hp) (PG p Hp)) as (-> & -> & _). specialize (NJ p Hp). destruct (pg p); auto; contradiction.
    + intros i Hi B E y Hy. destruct (page_read f i _ M (NJ i Hi) (PG i Hi)) as (B' & E' & _ & O). apply O; auto. rewrite B in B'. rewrite E in E'. specialize (NJ i Hi). destruct (pg i); try contradiction; congruence.
  - unfold stored. rewrite flat_map_concat_map. rewrite (ring_map _ (fun x => live_of (slots_of x)) pg Y LY).
    + unfold pages, content, uslots. rewrite <- flat_map_concat_map, !flat_map_app. rewrite !flat_map_concat_map, !map_map. cbn [slots_of].
      assert (Z : forall x n, live_of (slots_of x) = [] -> concat (map (fun x => live_of (slots_of x)) (repeat x n)) = []).
      { intros x n Hx. induction n; cbn [repeat map concat]; auto. rewrite Hx. auto. }
      rewrite !Z by reflexivity. now rewrite !app_nil_r.
    + intros p Hp. destruct (page_read f p _ M (NJ p Hp) (PG p Hp)) as (_ & _ & X & _). exact X.
Qed.
End Ring.

Lemma q_image pf g evs l s q : q_reached pf g evs l s -> q_holds g s q ->
  exists p, oldest g (f_mem (s_fl s)) p /\ stored g (f_mem (s_fl s)) p = q.
Proof.
  intros R H. destruct (reached_qst _ _ _ _ _ R) as (ae & aw & Y & ST & Q & _). pose proof ST as (gok & _).
  rewrite (holds_eq g gok (negb pf) ae aw (setting_single _ _ _ _ ST) Y s q Q H). destruct Q as (pg & LY & _ & (FW & _)). exists (y_f Y). eapply read_all; eauto.
Qed.

Section Map.
Context {K : Type} (KO : keyops K) (legal : K -> Prop).
(** The pairs of a list of items: a key, then the value. *)
Lemma value_pairs k ds : value KO k ds = lastv (k_eqb KO) k (unpack KO ds).
Proof.
  unfold value. induction ds as [|d ds IH]; auto. cbn [lastd]. unfold unpack in *. cbn [flat_map].
  unfold hask, dval, dklen, dkey in *.
  destruct (k_de KO d) as [[k' n]|] eqn:E; cbn [app lastv]; rewrite <- IH; destruct (lastd KO k ds) as [x|]; cbn [option_map]; auto.
  destruct (k_eqb KO k' k); auto. cbn [option_map]. now rewrite E.
Qed.
Lemma m_image pf g n evs l s m : m_reached KO legal pf g n evs l s -> m_holds KO legal g n s m ->
  exists p, oldest g (f_mem (s_fl s)) p /\ forall k, legal k -> m k = lastv (k_eqb KO) k (unpack KO (stored g (f_mem (s_fl s)) p)).
Proof.
  intros R H. destruct (reached_reach KO legal _ _ _ _ _ _ R) as (m0 & log & ae & aw & RC). destruct RC as [KC ST AE MS TR _]. pose proof ST as (gok & np2 & _).
  pose proof (holds_unique KO legal g n s m m0 H (mst_holds KO legal KC g gok _ _ _ np2 _ _ _ _ _ MS)) as EM.
  destruct MS as (Y & (pg & LY & (FW & _) & _) & _ & _ & _ & V). exists (y_f Y). destruct (read_all g gok _ _ _ Y pg _ LY FW) as (O & S1). split; auto.
  intros k L. rewrite S1, <- value_pairs, <- V by auto. apply EM. auto.
Qed.
End Map.
