(** Damaged items: the layout of the damaged flash, and histories with damage. *)
From Coq Require Import List NArith ZArith Arith Bool Lia ZifyBool ZifyNat ZifyN.
From Verif Require Import Base BaseP Crc CrcP Flash Cache State Item Generic Queue Map Codec CodecP GeomP ScanP WpP ItemP CalcP PageP WorldP LayP
  QPushP QRepP QIterP QNextP QStepP QMiscP QCallP QHistP Client QSpec QObs QPropsP FormatSpec FormatP NoiseSpec HurtSpec.
Import ListNotations.
Local Opaque crc16 acrc crc32.

Section Seg.
Context (g : geom) (gok : geom_ok g).
Notation W := (W g).
Notation HL := (HL g).
Notation rup := (rup g).
(** The live slots and where they are. *)
Fixpoint lplaces (a : nat) (sl : list slot) : list (nat * list N) :=
  match sl with
  | [] => []
  | x :: t => (match x with SLive d => [(a, d)] | _ => [] end) ++ lplaces (a + ssize g x) t
  end.
Lemma places_snd m fuel : forall a e, map snd (places g m fuel a e) = items g m fuel a e.
Proof.
  induction fuel as [|k IH]; intros a e; auto. cbn [places items]. destruct (_ <? _); auto. destruct (forallb _ _); auto. destruct (_ && _); auto.
  destruct (_ =? _)%N; auto. cbn [map snd]. now rewrite IH.
Qed.
Lemma places_S m k a e : is_mem m -> places g m (S k) a e =
  if e <? a + HL then [] else if all_ff (rd m a HL) then []
  else if lcrc_ok (rd m a HL) && (next_addr g a (hdr_of (rd m a HL)) <=? e) then
    let d := rd m (a + HL) (h_len (hdr_of (rd m a HL))) in
    if (le_val (rd m a 4) =? check32 d)%N then (a, d) :: places g m k (next_addr g a (hdr_of (rd m a HL))) e
    else places g m k (next_addr g a (hdr_of (rd m a HL))) e
  else places g m k (a + W) e.
Proof.
  intros M. cbn [places]. rewrite words_eq, word_eq by auto. change (rup 8) with HL. rewrite !bytes_eq, !num_eq. change (forallb (N.eqb 255) (rd m a HL)) with (all_ff (rd m a HL)).
  destruct (e <? a + HL); auto. destruct (all_ff (rd m a HL)); auto. rewrite (f_len g gok), (f_lcrc g gok).
  change (N.to_nat (le_val (len_field (rd m a HL)))) with (h_len (hdr_of (rd m a HL))). rewrite words_eq by auto.
  change (a + HL + rup (h_len (hdr_of (rd m a HL)))) with (next_addr g a (hdr_of (rd m a HL))).
  unfold lcrc_ok. rewrite (N.eqb_sym (crc16 _)).
  rewrite check16_eq by (rewrite <- f_len by auto; apply rd_bytes; auto). reflexivity.
Qed.
Lemma places_seg m e sl : is_mem m -> forall a b fuel, seg g m e a sl b -> ff_on m b e -> length sl <= fuel -> places g m fuel a e = lplaces a sl.
Proof.
  intros M. induction sl as [|x sl IH]; intros a b fuel SG FF F; cbn [seg lplaces] in *.
  - subst b. destruct fuel; auto. rewrite places_S by auto. destruct (Nat.ltb_spec e (a + HL)); auto.
    rewrite rd_ff; [|intros y Hy; apply FF; lia].
    replace (all_ff (repeat 255%N HL)) with true; auto. symmetry. unfold all_ff. apply forallb_forall. intros y Hy. apply repeat_spec in Hy. now subst.
  - cbn [length] in F. destruct fuel as [|fuel]; [lia|]. destruct SG as ((H & D) & SG). rewrite places_S by auto. unfold hdr_at in H.
    destruct (e <? a + HL); [destruct (shdr x); discriminate|]. destruct (all_ff (rd m a HL)); [destruct (shdr x); discriminate|].
    unfold next_addr in *.
    destruct (lcrc_ok (rd m a HL)) eqn:LC; cbn [negb andb] in *.
    2:{ destruct x; cbn [shdr] in H; try discriminate. rewrite (IH (a + W) b fuel SG FF) by lia. reflexivity. }
    destruct (Nat.leb_spec (a + HL + rup (h_len (hdr_of (rd m a HL)))) e) as [LE|LT].
    2:{ rewrite (proj2 (Nat.ltb_lt _ _) LT) in H. destruct x; cbn [shdr] in H; try discriminate. rewrite (IH (a + W) b fuel SG FF) by lia. reflexivity. }
    rewrite (proj2 (Nat.ltb_ge _ _) LE) in H. destruct (shdr x) as [h|] eqn:X; [|destruct x; discriminate]. injection H as H.
    assert (NX : a + HL + rup (h_len h) = a + ssize g x) by (unfold ssize; rewrite X; lia).
    rewrite H. rewrite NX.
    rewrite (IH _ b fuel SG FF) by lia. rewrite check32_eq by (apply rd_bytes; auto). cbv zeta.
    assert (C : h_crc (hdr_of (rd m a HL)) = h_crc h) by now rewrite H. unfold hdr_of in C. cbn [h_crc] in C. rewrite <- (f_crc g gok) in C. remember (le_val (rd m a 4)) as v eqn:EV. clear EV. cbv zeta in C.
    destruct x as [d|n|n c|]; cbn [shdr] in X; try discriminate; injection X as <-; cbn [h_len h_crc] in *.
    + rewrite D. destruct (N.eqb_spec v 0); [discriminate|]. injection C as ->. rewrite N.eqb_refl. reflexivity.
    + destruct (N.eqb_spec v 0) as [Z|]; [rewrite Z|discriminate]. destruct (N.eqb_spec 0 (acrc (rd m (a + HL) n))) as [E|]; auto.
      exfalso. symmetry in E. now apply acrc_nonzero in E.
    + destruct (N.eqb_spec v 0); [discriminate|]. injection C as ->. destruct (N.eqb_spec c (acrc (rd m (a + HL) n))) as [E|]; auto. now elim D.
Qed.

(** What damage makes of a slot. *)
Definition hslot (x y : slot) : Prop := y = x \/ exists d, x = SLive d /\ (y = SDead (length d) \/ exists c, y = SCorr (length d) c).
Lemma hslot_size x y : hslot x y -> ssize g y = ssize g x.
Proof. intros [->|(d & -> & [->|(c & ->)])]; reflexivity. Qed.
Lemma hslot_sizes sl sl' : Forall2 hslot sl sl' -> sizes g sl' = sizes g sl.
Proof. induction 1 as [|x y l l' H _ IH]; auto. rewrite !sizes_cons, IH. now rewrite (hslot_size x y). Qed.
Lemma lplaces_in sl : forall a i, In i (lplaces a sl) -> a <= fst i /\ fst i + HL + rup (length (snd i)) <= a + sizes g sl.
Proof.
  induction sl as [|x sl IH]; intros a i I; [easy|]. cbn [lplaces] in I. rewrite sizes_cons. apply in_app_or in I. destruct I as [I|I].
  - destruct x as [d| | |]; try easy. destruct I as [<-|[]]. cbn [fst snd]. unfold ssize. cbn [shdr h_len]. lia.
  - apply IH in I. lia.
Qed.
Lemma intact_iff m m2 a d : intact g m m2 (a, d) = true <-> (forall x, a <= x < a + 4 \/ a + HL <= x < a + HL + length d -> m2 x = m x).
Proof.
  unfold intact. rewrite words_eq by auto. change (rup 8) with HL. rewrite forallb_forall. split; intros H x Hx.
  - apply N.eqb_eq, H. rewrite in_app_iff, !in_seq. lia.
  - apply N.eqb_eq, H. rewrite in_app_iff, !in_seq in Hx. lia.
Qed.
Lemma seg_hurt m m2 e sl : is_mem m2 -> forall a b, seg g m e a sl b -> Forall (solid g) sl ->
  (forall x, a <= x < b -> (forall i, In i (lplaces a sl) -> ~ part_of g i x) -> m2 x = m x) ->
  (forall i d, In (i, d) (lplaces a sl) -> num m2 i 4 = check32 (bytes m2 (i + words g 8) (length d)) -> intact g m m2 (i, d) = true) ->
  exists sl', seg g m2 e a sl' b /\ Forall (solid g) sl' /\ Forall2 hslot sl sl' /\ live_of sl' = map snd (filter (intact g m m2) (lplaces a sl)).
Proof.
  intros M2. induction sl as [|x sl IH]; intros a b SG SO SAME NOT.
  - exists []. cbn in *. repeat split; auto.
  - cbn [seg] in SG. destruct SG as (SX & SG). apply Forall_cons_iff in SO. destruct SO as (S1 & SO). pose proof (solid_HL g gok x S1) as HX.
    pose proof (seg_le g _ _ _ _ _ SG) as LB. pose proof (seg_end g _ _ _ _ _ SG) as EB. pose proof (HL_8 g gok) as H8.
    assert (PART : forall i y, part_of g i y <-> fst i <= y < fst i + 4 \/ fst i + HL <= y < fst i + HL + rup (length (snd i))).
    { intros [i d] y. unfold part_of. rewrite !words_eq by auto. change (rup 8) with HL. reflexivity. }
    destruct (IH (a + ssize g x) b SG SO) as (sl' & G1 & G2 & G3 & G4).
    { intros y Hy NI. apply SAME; [lia|]. intros i I P. cbn [lplaces] in I. apply in_app_or in I. destruct I as [I|I]; [|now apply (NI i)].
      destruct x as [d| | |]; try easy. destruct I as [<-|[]]. apply PART in P. cbn [fst snd] in P. unfold ssize in Hy. cbn [shdr h_len] in Hy. lia. }
    { intros i d I. apply NOT. cbn [lplaces]. apply in_or_app. now right. }
    assert (OWN : forall y, a <= y < a + ssize g x -> (match x with SLive d => ~ part_of g (a, d) y | _ => True end) -> m2 y = m y).
    { intros y Hy NI. apply SAME; [lia|]. intros i I P. cbn [lplaces] in I. apply in_app_or in I. destruct I as [I|I].
      - destruct x as [d| | |]; try easy. destruct I as [<-|[]]. now apply NI.
      - apply lplaces_in in I. apply PART in P. lia. }
    assert (KEEP : (match x with SLive _ => False | _ => True end) -> exists sl', seg g m2 e a sl' b /\ Forall (solid g) sl' /\ Forall2 hslot (x :: sl) sl' /\ live_of sl' = map snd (filter (intact g m m2) (lplaces a (x :: sl)))).
    { intros NL. exists (x :: sl'). assert (SX2 : slot_at g m2 e a x). { apply (slot_at_ext g gok m); auto. intros y Hy. apply OWN; [lia|]. destruct x; easy. }
      cbn [seg]. split; [split; auto|]. split; [constructor; auto|]. split; [constructor; auto; now left|]. destruct x; try easy; cbn [lplaces app]; exact G4. }
    destruct x as [d|n|n c|]; [|apply KEEP; exact I..]. clear KEEP.
    assert (SZ : ssize g (SLive d) = HL + rup (length d)) by reflexivity. pose proof (rup_ge g gok (length d)) as RG.
    assert (HB : forall y, a + 4 <= y < a + HL -> m2 y = m y). { intros y Hy. apply OWN; [lia|]. intros P. apply PART in P. cbn [fst snd] in P. lia. }
    destruct SX as (HA & DA). pose proof (hdr_at_ok g _ _ _ _ HA) as (N1 & N2 & N3). cbn [shdr] in *.
    assert (T1 : len_field (rd m2 a HL) = len_field (rd m a HL)). { rewrite <- !(f_len g gok). apply rd_ext. intros y Hy. apply HB. lia. }
    assert (T2 : lcrc_field (rd m2 a HL) = lcrc_field (rd m a HL)). { rewrite <- !(f_lcrc g gok). apply rd_ext. intros y Hy. apply HB. lia. }
    assert (LC : lcrc_ok (rd m2 a HL) = true) by (unfold lcrc_ok in *; now rewrite T1, T2).
    set (v := le_val (rd m2 a 4)).
    assert (HD : hdr_of (rd m2 a HL) = mkhdr (length d) (if (v =? 0)%N then None else Some v)).
    { unfold hdr_of in *. rewrite <- (f_crc g gok), T1. fold v. injection N2 as E1 E2. rewrite <- E1. reflexivity. }
    assert (H2 : hdr_at g m2 e a = HOk (mkhdr (length d) (if (v =? 0)%N then None else Some v))).
    { unfold hdr_at in *. destruct (e <? a + HL); [discriminate|]. cbv zeta in *. destruct (all_ff (rd m2 a HL)) eqn:AF.
      - exfalso. assert (G : forall y, a <= y < a + HL -> m2 y = 255%N).
        { intros y Hy. unfold all_ff in AF. rewrite forallb_forall in AF. symmetry. apply N.eqb_eq, AF. unfold rd. apply in_map, in_seq. lia. }
        unfold lcrc_ok in LC. apply N.eqb_eq in LC. rewrite <- (f_lcrc g gok) in LC. rewrite (rd_ff m2 (a + 6) 2) in LC by (intros y Hy; apply G; lia). now apply crc16_not_erased in LC.
      - rewrite LC. cbn [negb]. rewrite HD. unfold next_addr in *. cbn [h_len] in *. destruct (Nat.ltb_spec e (a + HL + rup (length d))); [lia|reflexivity]. }
    cbn [lplaces app filter]. destruct (intact g m m2 (a, d)) eqn:IT.
    + exists (SLive d :: sl'). assert (SX2 : slot_at g m2 e a (SLive d)).
      { pose proof (proj1 (intact_iff m m2 a d) IT) as SM. split.
        - cbn [shdr]. rewrite <- HA. apply hdr_at_ext. intros y Hy. destruct (Nat.lt_ge_cases y (a + 4)); [apply SM|apply HB]; lia.
        - rewrite <- DA at 2. apply rd_ext. intros y Hy. apply SM. lia. }
      cbn [seg map snd]. split; [split; auto|]. split; [constructor; auto|]. split; [constructor; auto; now left|]. cbn [live_of flat_map app]. now f_equal.
    + exists ((if (v =? 0)%N then SDead (length d) else SCorr (length d) v) :: sl').
      assert (Z : ssize g (if (v =? 0)%N then SDead (length d) else SCorr (length d) v) = ssize g (SLive d)) by (destruct (v =? 0)%N; reflexivity).
      cbn [seg]. rewrite Z. split; [split; auto|split; [constructor; auto; destruct (v =? 0)%N; exact I|split]].
      * destruct (N.eqb_spec v 0) as [V|V]; (split; [exact H2|]); auto. intros X. assert (intact g m m2 (a, d) = true); [|congruence]. apply NOT; [now left|]. rewrite words_eq by auto. change (rup 8) with HL.
        rewrite num_eq, bytes_eq, check32_eq by (apply rd_bytes; auto). auto.
      * constructor; auto. right. exists d. split; auto. destruct (v =? 0)%N; eauto.
      * destruct (v =? 0)%N; exact G4.
Qed.
End Seg.

Section Pages.
Context (g : geom) (gok : geom_ok g).
Notation W := (W g).
Notation HL := (HL g).
Notation rup := (rup g).
Notation NP := (NP g).
Definition wmem (f : flash) (m2 : nat -> N) : flash := mkflash m2 (f_wc f) (f_er f) (f_fuel f) (f_ae f) (f_aw f) (f_bad f).
Lemma page_places_eq f p x : is_mem (f_mem f) -> nojunk x -> page_is g false f p x -> page_places g (f_mem f) p = lplaces g (dstart g p) (slots_of x).
Proof.
  intros M NJ H. unfold page_places. destruct (page_read g gok false f p x M NJ H) as (B & _). rewrite B. rewrite last_eq, first_eq, word_eq.
  assert (BD : forall sl, body g false f p sl -> places g (f_mem f) (ES g) (paddr g p + W) (pend g p - W) = lplaces g (dstart g p) sl).
  { intros sl (b & SG & _ & BL & _). eapply places_seg; eauto. eapply blank_ff; eauto.
    pose proof (seg_len g gok _ _ _ _ _ SG). pose proof (seg_le_end g gok _ _ _ _ _ SG). destruct gok as (R & _ & _ & _ & _ & Z & _). pose proof (word_eq g). unfold word in *. unfold dstart, dend in *. unfold paddr, pend in *. lia. }
  destruct x as [sl|sl| | |X|X sl]; try contradiction; cbn [page_is slots_of lplaces] in *; auto; apply BD; apply H.
Qed.
(** What damage makes of a page. *)
Definition hpage (x x' : page) : Prop :=
  match x with
  | PClosed sl => exists sl', x' = PClosed sl' /\ Forall2 hslot sl sl'
  | PPart sl => exists sl', x' = PPart sl' /\ Forall2 hslot sl sl'
  | _ => x' = x
  end.
Lemma hpage_st x x' : hpage x x' -> st_of x' = st_of x.
Proof. destruct x; cbn; try (intros ->; reflexivity); intros (sl' & -> & _); reflexivity. Qed.
Lemma page_hurt f m2 p x : is_mem (f_mem f) -> is_mem m2 -> nojunk x -> page_is g false f p x ->
  (forall y, paddr g p <= y < pend g p -> (forall i, In i (page_places g (f_mem f) p) -> ~ part_of g i y) -> m2 y = f_mem f y) ->
  (forall a d, In (a, d) (page_places g (f_mem f) p) -> num m2 a 4 = check32 (bytes m2 (a + words g 8) (length d)) -> intact g (f_mem f) m2 (a, d) = true) ->
  exists x', page_is g false (wmem f m2) p x' /\ hpage x x' /\ live_of (slots_of x') = map snd (filter (intact g (f_mem f) m2) (page_places g (f_mem f) p)).
Proof.
  intros M M2 NJ H SAME NOT. rewrite (page_places_eq f p x M NJ H) in *. pose proof (dend_lt g gok p) as DL. pose proof (HL_8 g gok) as H8.
  assert (RB : 0 < RS g /\ RS g <= W /\ paddr g p + W = dstart g p /\ dend g p + W = pend g p /\ dstart g p <= dend g p).
  { pose proof gok as (R & _). pose proof (word_eq g). unfold word, dstart, dend, paddr, pend in *. destruct gok as (_ & _ & _ & _ & _ & Z & _). lia. }
  assert (IN : forall sl b i y, seg g (f_mem f) (dend g p) (dstart g p) sl b -> In i (lplaces g (dstart g p) sl) -> part_of g i y -> dstart g p <= y < b).
  { intros sl b [a d] y SG I P. apply lplaces_in in I; auto. pose proof (seg_end g _ _ _ _ _ SG). unfold part_of in P. rewrite !words_eq in P by auto. change (rup 8) with HL in P. cbn [fst snd] in I. lia. }
  assert (NONE : slots_of x = [] -> forall y, paddr g p <= y < pend g p -> m2 y = f_mem f y).
  { intros E y Hy. apply SAME; auto. intros i I. rewrite E in I. destruct I. }
  assert (KEEP : slots_of x = [] -> page_is g false (wmem f m2) p x /\ live_of (slots_of x) = map snd (filter (intact g (f_mem f) m2) (lplaces g (dstart g p) (slots_of x)))).
  { intros E. split; [|rewrite E; reflexivity]. eapply page_is_ext; eauto. intros y Hy. cbn. split; auto. }
  assert (BD : forall sl, slots_of x = sl -> body g false f p sl -> (forall y, paddr g p <= y < dstart g p \/ dend g p <= y < pend g p -> m2 y = f_mem f y) /\
     exists sl', body g false (wmem f m2) p sl' /\ Forall2 hslot sl sl' /\ live_of sl' = map snd (filter (intact g (f_mem f) m2) (lplaces g (dstart g p) sl))).
  { intros sl E (b & SG & SO & BL & _). rewrite E in *. pose proof (seg_le_end g gok _ _ _ _ _ SG ltac:(lia)) as LE. pose proof (seg_le g _ _ _ _ _ SG) as LB. split.
    - intros y Hy. apply SAME; [lia|]. intros i I P. pose proof (IN sl b i y SG I P). lia.
    - destruct (seg_hurt g gok (f_mem f) m2 (dend g p) sl M2 _ _ SG SO) as (sl' & G1 & G2 & G3 & G4).
      + intros y Hy NI. apply SAME; [lia|auto].
      + exact NOT.
      + exists sl'. split; [|split; auto]. exists b. split; [exact G1|]. split; [exact G2|]. split; [|discriminate]. intros y Hy. split; [|discriminate]. cbn [wmem f_mem]. rewrite SAME; [apply BL; auto|lia|].
        intros i I P. pose proof (IN sl b i y SG I P). lia. }
  destruct x as [sl|sl| | |X|X sl]; try contradiction.
  - cbn [page_is] in H. destruct H as (A & (hi & Z & ZL) & B & _). destruct (BD sl eq_refl B) as (MK & sl' & B' & F & L). exists (PClosed sl'). split; [|split; [exists sl'; auto|exact L]].
    cbn [page_is]. split; [|split; [|split; [exact B'|discriminate]]].
    + cbn [wmem f_mem]. rewrite (rd_ext (f_mem f)); auto. intros y Hy. apply MK. lia.
    + exists hi. split; auto. destruct Z as (Z1 & Z2 & Z3 & Z4 & Z5). repeat split; auto; intros y Hy; cbn [wmem f_mem]; intros; rewrite MK by lia; auto.
  - cbn [page_is] in H. destruct H as (A & (hi & Z & ZL) & B & _). destruct (BD sl eq_refl B) as (MK & sl' & B' & F & L). exists (PPart sl'). split; [|split; [exists sl'; auto|exact L]].
    cbn [page_is]. split; [|split; [|split; [exact B'|discriminate]]].
    + cbn [wmem f_mem]. rewrite (rd_ext (f_mem f)); auto. intros y Hy. apply MK. lia.
    + exists hi. split; auto. destruct Z as (Z1 & Z2 & Z3 & Z4 & Z5). repeat split; auto; intros y Hy; cbn [wmem f_mem]; intros; rewrite MK by lia; auto.
  - exists POpen. destruct (KEEP eq_refl) as (K1 & K2). split; [exact K1|split; [reflexivity|exact K2]].
  - exists PBad. destruct (KEEP eq_refl) as (K1 & K2). split; [exact K1|split; [reflexivity|exact K2]].
Qed.

(** Finite choice. *)
Lemma choose {A} (P : nat -> A -> Prop) (d : A) n : (forall p, p < n -> exists x, P p x) -> exists h, forall p, p < n -> P p (h p).
Proof.
  induction n as [|n IH]; intros H; [exists (fun _ => d); lia|]. destruct IH as (h & Hh); [intros; apply H; lia|]. destruct (H n ltac:(lia)) as (x & Hx). exists (fun p => if p =? n then x else h p).
  intros p Hp. destruct (Nat.eqb_spec p n) as [->|]; auto. apply Hh. lia.
Qed.
Lemma lay_hurt Y pg pg' : layok NP Y pg -> (forall p, p < NP -> hpage (pg p) (pg' p)) ->
  exists Y', layok NP Y' pg' /\ y_f Y' = y_f Y /\ y_c Y' = y_c Y /\ y_b Y' = y_b Y /\ y_k Y' = y_k Y /\ y_bad Y' = y_bad Y.
Proof.
  intros ((F & L & NT) & BD) H. pose proof (npos g gok) as NPP. set (at_ i := (y_f Y + i) mod NP).
  assert (AT : forall i, at_ i < NP) by (intros; apply Nat.mod_upper_bound; lia).
  exists (mklay (y_f Y) (map (fun i => slots_of (pg' (at_ i))) (seq 0 (y_c Y))) (match y_pt Y with Some _ => Some (slots_of (pg' (at_ (y_c Y)))) | None => None end) (y_k Y) (y_bad Y)).
  set (Y' := mklay _ _ _ _ _). assert (C : y_c Y' = y_c Y) by (unfold y_c at 1, Y'; cbn [y_cl]; now rewrite map_length, seq_length).
  assert (B : y_b Y' = y_b Y) by (unfold y_b, Y'; cbn [y_pt]; destruct (y_pt Y); reflexivity).
  split; [|repeat split; auto]. split; [|exact BD]. split; [exact F|]. rewrite pages_len. rewrite C, B. change (y_k Y') with (y_k Y). change (y_bad Y') with (y_bad Y). rewrite <- pages_len. split; [exact L|].
  intros i Hi. specialize (H (at_ i) (AT i)). change (y_f Y') with (y_f Y). fold (at_ i). unfold at_ in H at 1. rewrite NT in H by auto. rewrite pages_len in L.
  destruct (Nat.lt_ge_cases i (y_c Y + y_b Y)) as [U|U].
  - destruct (nth_uslots Y i U) as (_ & _ & E). destruct (nth_uslots Y' i ltac:(lia)) as (_ & _ & E'). rewrite E', C. rewrite E in H.
    assert (SL : nth i (uslots Y') [] = slots_of (pg' (at_ i))).
    { unfold uslots, Y'. cbn [y_cl y_pt]. destruct (Nat.lt_ge_cases i (y_c Y)) as [V|V].
      - rewrite app_nth1 by (rewrite map_length, seq_length; auto). rewrite (nth_indep _ [] (slots_of (pg' (at_ 0)))) by (rewrite map_length, seq_length; auto).
        rewrite (map_nth (fun i => slots_of (pg' (at_ i)))). now rewrite seq_nth.
      - rewrite app_nth2 by (rewrite map_length, seq_length; auto). rewrite map_length, seq_length. unfold y_b in U. destruct (y_pt Y); cbn [ptl length nth] in *; [|lia]. replace i with (y_c Y) by lia. now rewrite Nat.sub_diag. }
    rewrite SL. destruct (i <? y_c Y); destruct H as (sl' & -> & _); reflexivity.
  - assert (TL : forall Z, y_c Z = y_c Y -> y_b Z = y_b Y -> y_k Z = y_k Y -> y_bad Z = y_bad Y -> nth i (pages Z) POpen = nth (i - (y_c Y + y_b Y)) (repeat POpen (y_k Y) ++ repeat PBad (y_bad Y)) POpen).
    { intros Z E1 E2 E3 E4. unfold pages. change (length (y_cl Z) = y_c Y) in E1. assert (E2' : length (ptl (y_pt Z)) = y_b Y) by (rewrite <- E2; unfold y_b; destruct (y_pt Z); reflexivity). rewrite app_assoc, app_nth2; rewrite app_length, !map_length, E1, E2'; [|lia]. now rewrite E3, E4. }
    rewrite (TL Y') by auto. rewrite (TL Y) in H by auto. unfold at_ in *. rewrite <- (TL Y) in * by auto. assert (X : hpage (nth i (pages Y) POpen) (nth i (pages Y) POpen) /\ (nth i (pages Y) POpen = POpen \/ nth i (pages Y) POpen = PBad)).
    { rewrite (TL Y) by auto. set (j := i - _). destruct (Nat.lt_ge_cases j (y_k Y)).
      - rewrite app_nth1 by (rewrite repeat_length; auto). rewrite nth_repeat'. destruct (_ <? _); cbn; auto.
      - rewrite app_nth2 by (rewrite repeat_length; auto). rewrite nth_repeat'. destruct (_ <? _); cbn; auto. }
    destruct X as (_ & [X|X]); rewrite X in *; exact H.
Qed.
Lemma hslot_dead pre rest sl' : Forall2 hslot (pre ++ rest) sl' -> Forall dead pre -> exists rest', sl' = pre ++ rest'.
Proof.
  revert sl'. induction pre as [|x pre IH]; intros sl' F D; [exists sl'; reflexivity|]. cbn [app] in F. inversion F as [|? y ? l' H F']; subst. apply Forall_cons_iff in D. destruct D as (Dx & D).
  destruct (IH l' F' D) as (r & ->). exists r. destruct H as [->|(d & -> & _)]; [reflexivity|easy].
Qed.
Lemma coh_hurt {K} pg pg' (c : cache K) : (forall p, p < NP -> hpage (pg p) (pg' p)) -> coh g pg c -> coh g pg' c.
Proof.
  intros H (A & B). assert (ST : forall p, p < NP -> st_of (pg' p) = st_of (pg p)) by (intros; apply hpage_st; auto). split.
  - destruct (c_ps c) as [|l|k]; cbn [coh_ps] in *; auto.
    + destruct A as (A1 & A2). split; auto. intros p x Hp E. rewrite ST by auto. auto.
    + destruct A as (A1 & A2). split; auto. destruct (k_anchor k) as [a|]; auto. destruct A2 as (B1 & B2 & B3 & B4 & B5 & B6 & B7). pose proof (npos g gok) as NPP.
      assert (PR : prv NP a < NP) by (unfold prv; destruct a; lia).
      repeat (split; [first [exact B1|exact B2|rewrite ST; auto|intros; rewrite ST; auto|exact B6]|]). intros G. destruct (B7 G) as [X|[X|X]]; auto; [rewrite ST by auto; auto|]. right. right. intros p Hp. rewrite ST; auto.
  - destruct (c_pp c) as [|er wr]; cbn [coh_pp] in *; auto. intros p Hp. destruct (B p Hp) as (B1 & B2). specialize (H p Hp). split; intros a E.
    + destruct (B1 a E) as (U & pre & rest & SL & D & ->). unfold ptr_er. destruct (pg p) as [sl|sl| | |X|X sl]; try contradiction; destruct H as (sl' & -> & F); cbn [slots_of used] in *; rewrite SL in F;
        destruct (hslot_dead _ _ _ F D) as (r & ->); (split; [exact I|]); exists pre, r; auto.
    + destruct (B2 a E) as (U & ->). unfold ptr_wr. destruct (pg p) as [sl|sl| | |X|X sl]; try contradiction; destruct H as (sl' & -> & F); cbn [slots_of used] in *; (split; [exact I|]); now rewrite (hslot_sizes g _ _ F).
Qed.
End Pages.

Section Hist.
Context (g : geom) (gok : geom_ok g) (ae : bool) (aw : nat).
Notation NP := (NP g).
Lemma ring_in f p : p < NP -> In p (ring g f).
Proof.
  intros P. unfold ring. apply in_map_iff. exists ((p + NP - f mod NP) mod NP). pose proof (Nat.mod_upper_bound f NP ltac:(lia)) as U. split.
  - rewrite Nat.add_mod_idemp_r by lia. rewrite <- Nat.add_mod_idemp_l by lia. replace (f mod NP + (p + NP - f mod NP)) with (p + 1 * NP) by lia. rewrite Nat.mod_add by lia. now apply Nat.mod_small.
  - apply in_seq. pose proof (Nat.mod_upper_bound (p + NP - f mod NP) NP ltac:(lia)). lia.
Qed.
Lemma ring_lt f p : In p (ring g f) -> p < NP.
Proof. unfold ring. intros H. apply in_map_iff in H. destruct H as (i & <- & _). apply Nat.mod_upper_bound. pose proof (npos g gok). lia. Qed.
Lemma placed_in m f i : In i (placed g m f) <-> exists p, p < NP /\ In i (page_places g m p).
Proof. unfold placed. rewrite in_flat_map. split; intros (p & A & B); exists p; split; auto; [eapply ring_lt; eauto|apply ring_in; auto]. Qed.
Lemma filter_flat {A B} (t : B -> bool) (h : A -> list B) l : filter t (flat_map h l) = flat_map (fun x => filter t (h x)) l.
Proof. induction l as [|x l IH]; cbn [flat_map]; auto. now rewrite filter_app, IH. Qed.
Lemma map_flat {A B C} (t : B -> C) (h : A -> list B) l : map t (flat_map h l) = flat_map (fun x => map t (h x)) l.
Proof. induction l as [|x l IH]; cbn [flat_map]; auto. now rewrite map_app, IH. Qed.
Lemma stored_placed m f : map snd (placed g m f) = stored g m f.
Proof.
  unfold placed, stored. rewrite map_flat. apply flat_map_ext. intros p. unfold page_places, page_items. destruct (begun g m p); auto. apply places_snd.
Qed.
Lemma fworld_hurt Y pg f m2 : layok NP Y pg -> fworld g false ae aw pg f -> hurt g (f_mem f) m2 ->
  exists pg' Y', layok NP Y' pg' /\ fworld g false ae aw pg' (wmem f m2) /\ (forall p, p < NP -> hpage (pg p) (pg' p)) /\
    y_f Y' = y_f Y /\ y_c Y' = y_c Y /\ y_b Y' = y_b Y /\ y_k Y' = y_k Y /\ y_bad Y' = y_bad Y /\ content Y' = survivors g (f_mem f) m2 (y_f Y).
Proof.
  intros LY (M & PG & (AE & NB) & AW & FU) (M2 & SAME & NOT).
  assert (NJ : forall p, p < NP -> nojunk (pg p)) by (intros p Hp; exact (lay_nojunk NP Y pg p (npos g gok) LY Hp)).
  assert (PL : forall p i y, p < NP -> In i (page_places g (f_mem f) p) -> part_of g i y -> paddr g p <= y < pend g p).
  { intros p [a d] y Hp I P. rewrite (page_places_eq g gok f p (pg p) M (NJ p Hp) (PG p Hp)) in I. pose proof (lplaces_in g _ _ _ I) as B. cbn [fst snd] in B.
    unfold part_of in P. rewrite !words_eq in P by auto. change (rup g 8) with (HL g) in P. pose proof (dend_lt g gok p). pose proof (HL_8 g gok).
    assert (E : dstart g p + sizes g (slots_of (pg p)) <= dend g p).
    { specialize (PG p Hp). assert (BB : forall sl, body g false f p sl -> dstart g p + sizes g sl <= dend g p).
      { intros sl (b & SG & _). pose proof (seg_end g _ _ _ _ _ SG). pose proof (seg_le_end g gok _ _ _ _ _ SG). pose proof (dstart_lt g gok p). lia. }
      pose proof (dstart_lt g gok p). pose proof (NJ p Hp) as J. destruct (pg p) as [sl|sl| | |X|X sl]; try contradiction; cbn [slots_of page_is] in *; try (apply BB; apply PG); cbn; lia. }
    assert (paddr g p <= dstart g p) by (unfold dstart; lia). lia. }
  destruct (choose (fun p x' => page_is g false (wmem f m2) p x' /\ hpage (pg p) x' /\ live_of (slots_of x') = map snd (filter (intact g (f_mem f) m2) (page_places g (f_mem f) p))) POpen NP) as (pg' & H').
  { intros p Hp. apply page_hurt; auto.
    - intros y Hy NI. apply SAME. intros i I P. apply placed_in in I. destruct I as (p' & Hp' & I). pose proof (PL p' i y Hp' I P) as B.
      assert (p' = p) by (rewrite <- (pindex_in g gok p y Hy), <- (pindex_in g gok p' y B); reflexivity). subst. apply (NI i); auto.
    - intros a d I E. apply NOT; auto. apply placed_in. eauto. }
  assert (HP : forall p, p < NP -> hpage (pg p) (pg' p)) by (intros; now apply H').
  destruct (lay_hurt g gok Y pg pg' LY HP) as (Y' & LY' & E1 & E2 & E3 & E4 & E5).
  assert (FW : fworld g false ae aw pg' (wmem f m2)) by (split; [exact M2|]; split; [intros; now apply H'|]; split; [split; [exact AE|]|auto]; intros AT p Hp X; pose proof (HP p Hp) as HX; specialize (NB AT p Hp); destruct (pg p); cbn in HX; try (destruct HX as (? & HX & _)); congruence).
  exists pg', Y'. repeat (split; [assumption|]). 
  destruct (read_all g gok false ae aw Y' pg' _ LY' FW) as (_ & <-). rewrite E1. unfold survivors, stored, placed. rewrite filter_flat, map_flat. rewrite !flat_map_concat_map. f_equal. apply map_ext_in.
  intros p Hp. apply ring_lt in Hp. destruct (H' p Hp) as (H1 & _ & <-).
  assert (NJ' : nojunk (pg' p)) by (exact (lay_nojunk NP Y' pg' p (npos g gok) LY' Hp)). now destruct (page_read g gok false (wmem f m2) p _ M2 NJ' H1) as (_ & _ & X & _).
Qed.
Lemma qst_hurt Y s m2 : qst g false ae aw Y s -> hurt g (f_mem (s_fl s)) m2 ->
  oldest g (f_mem (s_fl s)) (y_f Y) /\ map snd (placed g (f_mem (s_fl s)) (y_f Y)) = content Y /\
  exists Y', qst g false ae aw Y' (with_mem s m2) /\ content Y' = survivors g (f_mem (s_fl s)) m2 (y_f Y).
Proof.
  intros (pg & LY & (Q1 & Q2 & Q3) & (FW & WC & CO)) H. destruct (read_all g gok false ae aw Y pg _ LY FW) as (O & C). rewrite stored_placed. split; [exact O|]. split; [exact C|].
  destruct (fworld_hurt Y pg _ m2 LY FW H) as (pg' & Y' & LY' & FW' & HP & E1 & E2 & E3 & E4 & E5 & E6). exists Y'. split; auto. exists pg'. split; [exact LY'|]. split.
  - split; [|split].
    + intros N. rewrite E4. apply Q1. unfold y_b in E3. rewrite N in E3. destruct (y_pt Y); [discriminate|reflexivity].
    + rewrite E5, E2, E3. exact Q2.
    + rewrite E2, E3, E1. exact Q3.
  - split; [exact FW'|]. split; [exact WC|]. destruct CO as [CO|CO]; [left; exact CO|right]. exact (coh_hurt g gok pg pg' _ HP CO).
Qed.
Context (SG : single_ok g false ae).
Lemma hist_hurt l : forall Y s, qst g false ae aw Y s -> Forall (ev_ok g false aw) (ideal l) -> only_hurt (q_run g) g s l ->
  exists Y', qst g false ae aw Y' (snd (real_run (q_run g) s l)) /\ htrace g s (content Y) l (fst (real_run (q_run g) s l)) (content Y').
Proof.
  induction l as [|[e|m] l IH]; intros Y s Q EV OH; cbn [ideal real_run only_hurt] in *.
  - exists Y. split; auto. constructor.
  - unfold ideal in EV. cbn [flat_map app] in EV. apply Forall_cons_iff in EV. destruct EV as (E1 & EV). destruct (q_run g s [e]) as [a s1] eqn:E. cbn [fst snd] in *.
    destruct (hist_ok g gok false ae aw SG [e] _ _ _ _ Q ltac:(auto) E) as (Y1 & Q1 & T1). destruct (IH Y1 s1 Q1 EV OH) as (Y2 & Q2 & T2).
    exists Y2. destruct (real_run (q_run g) s1 l) as [r s2]. cbn [fst snd] in *. split; auto. econstructor; eauto.
  - destruct OH as (H & OH). destruct (qst_hurt Y s m Q H) as (O & C & Y1 & Q1 & C1). destruct (IH Y1 _ Q1 EV OH) as (Y2 & Q2 & T2). exists Y2. split; auto. rewrite C1 in T2. eapply HMem; eauto.
Qed.
End Hist.

Lemma q_hurt g f c l : erased g f -> fresh_cache (NP g) c -> setting true g (f_ae f) (f_aw f) -> Forall (qev_ok true g) (ideal l) -> only_hurt (q_run g) g (st_new f c) l ->
  exists q, htrace g (st_new f c) [] l (fst (real_run (q_run g) (st_new f c) l)) q /\ q_holds g (snd (real_run (q_run g) (st_new f c) l)) q.
Proof.
  intros ER FC ST EV OH. pose proof (setting_single _ _ _ _ ST) as SG. pose proof ST as [gok _].
  pose proof (qst_new g gok false (f_ae f) (f_aw f) f c ER eq_refl eq_refl ltac:(discriminate) FC) as Q0.
  assert (EV' : Forall (ev_ok g false (f_aw f)) (ideal l)) by (eapply Forall_impl; [|exact EV]; intros; eapply (setting_ev true); eauto).
  destruct (hist_hurt g gok (f_ae f) (f_aw f) SG l _ _ Q0 EV' OH) as (Y & Q & T). exists (content Y). split; [exact T|]. eapply holds_of; eauto.
Qed.
