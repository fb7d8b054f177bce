(** Flash in the documented representation is understood, whoever wrote it. *)
From Coq Require Import List NArith ZArith Arith Bool Lia ZifyBool ZifyNat ZifyN.
From Verif Require Import Base BaseP Crc CrcP Flash Cache State Item Generic Queue Map Codec CodecP GeomP ScanP WpP ItemP CalcP PageP WorldP LayP
  QPushP QRepP QIterP QNextP QStepP QMiscP QCallP QHistP Client QSpec QObs QPropsP MLogP MFetchP MStoreP MMigP MCallP MIterP MClient MSpec MObs MExecP MHistP MPropsP FormatSpec FormatP.
Import ListNotations.
Local Opaque crc16 acrc crc32.

Definition slot_for (x : list N * bool) : slot := if snd x then SLive (fst x) else SDead (length (fst x)).
Lemma live_for l : live_of (map slot_for l) = map fst (filter snd l).
Proof. induction l as [|[d [|]] l IH]; auto; cbn [map filter fst snd]; rewrite <- IH; reflexivity. Qed.

Lemma F2_len {A B} (P : A -> B -> Prop) a b : Forall2 P a b -> length a = length b.
Proof. induction 1; cbn; auto. Qed.

Lemma F2_nth {A B} (P : A -> B -> Prop) a b x y : Forall2 P a b -> forall i, i < length a -> P (nth i a x) (nth i b y).
Proof. induction 1; intros [|i] L; cbn [length nth] in *; auto; try lia. apply IHForall2. lia. Qed.

Section Image.
Context (g : geom) (gok : geom_ok g) (ws ae : bool) (aw : nat).
Notation W := (W g).
Notation HL := (HL g).
Notation rup := (rup g).
Notation NP := (NP g).
Lemma item_slot m e a d kept : is_mem m -> item_at g m a d kept -> a + words g 8 + words g (length d) <= e -> slot_at g m e a (slot_for (d, kept)).
Proof.
  intros M (A & B & C & D) E. rewrite !words_eq in * by auto. rewrite !bytes_eq, !num_eq in *. change (rup 8) with HL in *.
  assert (H : hdr_at g m e a = HOk (mkhdr (length d) (if kept then Some (acrc d) else None))).
  { assert (DB : Forall is_byte d) by (rewrite <- D; apply rd_bytes; auto).
    unfold hdr_at. destruct (Nat.ltb_spec e (a + HL)); [lia|].
    assert (HD : hdr_of (rd m a HL) = mkhdr (length d) (if kept then Some (acrc d) else None)).
    { unfold hdr_of. rewrite <- f_crc, <- f_len by auto. rewrite B, Nat2N.id. rewrite A. destruct kept; auto. rewrite check32_eq by auto.
      cbv zeta. destruct (N.eqb_spec (acrc d) 0) as [Z|]; auto. now apply acrc_nonzero in Z. }
    replace (all_ff (rd m a HL)) with false.
    - unfold lcrc_ok. rewrite <- f_len, <- f_lcrc by auto. rewrite C, check16_eq by (apply rd_bytes; auto). rewrite N.eqb_refl. cbn [negb].
      rewrite HD. unfold next_addr. cbn [h_len]. destruct (Nat.ltb_spec e (a + HL + rup (length d))); [lia|]. reflexivity.
    - symmetry. apply not_true_is_false. intros F. 
      assert (G : forall x, In x (rd m a 4) -> x = 255%N).
      { intros x Hx. unfold all_ff in F. rewrite forallb_forall in F. symmetry. apply N.eqb_eq. apply F. unfold rd in *. apply in_map_iff in Hx. destruct Hx as (y & <- & Y).
        apply in_map. apply in_seq in Y. apply in_seq. pose proof (HL_8 g gok). lia. }
      unfold rd in A, G. cbn [seq map le_val] in A, G.
      rewrite (G (m a)), (G (m (S a))), (G (m (S (S a)))), (G (m (S (S (S a))))) in A by (cbn; auto).
      destruct kept; [|discriminate]. rewrite check32_eq in A by auto. symmetry in A. now apply acrc_not_erased in A. }
  split; [destruct kept; exact H|]. destruct kept; cbn [slot_for fst snd]; auto.
Qed.
Lemma items_slots m e l : is_mem m -> forall a, items_at g m a e l -> a <= e ->
  exists b, seg g m e a (map slot_for l) b /\ ff_on m b e /\ b <= e.
Proof.
  intros M. induction l as [|[d kept] l IH]; intros a H L; cbn [items_at map seg] in *.
  - exists a. auto.
  - destruct H as (I & E & H). destruct (IH _ H E) as (b & S1 & S2 & S3). exists b. split; [split|auto].
    + apply item_slot; auto.
    + rewrite !words_eq in S1 by auto. assert (ssize g (slot_for (d, kept)) = HL + rup (length d)) as -> by (destruct kept; reflexivity).
      change (rup 8) with HL in S1. rewrite Nat.add_assoc. exact S1.
Qed.
Definition page_for (c : content_of) : page :=
  match c with Full l => PClosed (map slot_for l) | Current l => PPart (map slot_for l) | Erased => POpen end.
Lemma for_clean l : Forall clean (map slot_for l).
Proof. apply Forall_forall. intros x H. apply in_map_iff in H. destruct H as ([d [|]] & <- & _); exact I. Qed.
Lemma for_solid l : Forall (solid g) (map slot_for l).
Proof. apply Forall_forall. intros x H. apply in_map_iff in H. destruct H as ([d [|]] & <- & _); exact I. Qed.
Lemma wc0_slots wc sl : (forall x, wc x = 0) -> forall a, wc_slots g wc a sl.
Proof. intros H. induction sl as [|s sl IH]; intros a; cbn [wc_slots]; auto. repeat split; auto; intros; rewrite H; destruct (is_live s); lia. Qed.
Lemma page_ok f p c : is_mem (f_mem f) -> (forall x, f_wc f x = 0) -> page_at g (f_mem f) p c -> page_is g ws f p (page_for c).
Proof.
  intros M WC H. unfold page_at, begun in H. rewrite !last_eq, first_eq, mark_eq, word_eq in H.
  assert (RB : 0 < RS g /\ RS g <= W /\ paddr g p + 2 * W <= pend g p).
  { pose proof gok as (R & _). unfold paddr, pend. pose proof (word_eq g). unfold word in *.
    destruct gok as (_ & _ & _ & _ & _ & Z & _). lia. }
  assert (BD : forall l, items_at g (f_mem f) (paddr g p + W) (pend g p - W) l -> body g ws f p (map slot_for l)).
  { intros l I. destruct (items_slots _ _ _ M _ I ltac:(lia)) as (b & S1 & S2 & S3). exists b. split; [exact S1|]. split; [apply for_solid|].
    split; [intros x Hx; split; auto|]. intros _. split; [apply for_clean|]. now apply wc0_slots. }
  destruct c as [l|l|]; cbn [page_for page_is].
  - destruct H as (A & B & C). split; [exact A|]. split; [|split; [auto|intros; rewrite WC; lia]].
    exists (pend g p). unfold endz, dend. repeat split; try lia; auto.
  - destruct H as (A & B & C). split; [exact A|]. split; [|split; [auto|intros]].
    + exists (dend g p). unfold endz, dend. repeat split; try lia; auto.
    + split; [intros; rewrite WC; lia|]. intros x Hx. split; auto.
  - intros x Hx. split; auto.
Qed.

(** The layout of an image. *)
Definition lay_for (p : nat) (full : list (list (list N * bool))) (cur : option (list (list N * bool))) (k : nat) : lay :=
  mklay p (map (map slot_for) full) (option_map (map slot_for) cur) k 0.
Lemma content_for p full cur k : content (lay_for p full cur k) = kept_in full cur.
Proof.
  unfold content, lay_for, uslots, kept_in. cbn [y_cl y_pt]. rewrite flat_map_app.
  assert (forall l, flat_map live_of (map (map slot_for) l) = map fst (filter snd (concat l))) as ->.
  { induction l as [|x l IH]; auto. cbn [map flat_map concat]. rewrite IH, filter_app, map_app, live_for. reflexivity. }
  rewrite filter_app, map_app. f_equal. destruct cur; cbn [option_map ptl flat_map]; auto. rewrite live_for. apply app_nil_r.
Qed.
Lemma image_lay f p full cur k : is_mem (f_mem f) -> (forall x, f_wc f x = 0) -> image g (f_mem f) p full cur k ->
  exists pg, layok NP (lay_for p full cur k) pg /\ forall q, q < NP -> page_is g ws f q (pg q).
Proof.
  intros M WC (P & F). set (l := map Full full ++ _) in F.
  assert (LN : length l = NP). { pose proof (F2_len _ _ _ F) as L. unfold ring in L. rewrite map_length, seq_length in L. auto. }
  assert (EP : pages (lay_for p full cur k) = map page_for l).
  { unfold pages, lay_for, l. cbn [y_cl y_pt y_k y_bad repeat]. rewrite app_nil_r, !map_app, !map_map. f_equal. f_equal.
    - destruct cur; reflexivity.
    - clear. induction k; cbn; congruence. }
  pose (pg q := nth (pos NP p q) (map page_for l) POpen). exists pg.
  assert (PG : forall i, i < NP -> pg ((p + i) mod NP) = nth i (map page_for l) POpen) by (intros i Hi; unfold pg; rewrite pos_mod; auto; lia).
  split.
  - split; [|cbn; lia]. split; auto. rewrite EP, map_length. split; auto.
  - intros q Q. rewrite <- (mod_pos NP ltac:(lia) p q P Q). rewrite PG by (apply pos_lt; lia).
    set (i := pos NP p q). assert (I : i < NP) by (apply pos_lt; lia). change POpen with (page_for Erased). rewrite (map_nth page_for l Erased i). apply page_ok; auto.
    pose proof (F2_nth _ _ _ 0 Erased F i) as N. unfold ring in N at 1 2. rewrite map_length, seq_length in N. specialize (N I).
    erewrite nth_indep in N by (unfold ring; rewrite map_length, seq_length; auto).
    unfold ring in N. rewrite (map_nth (fun i => (p + i) mod NP)) with (d := 0) in N. rewrite seq_nth in N by auto. exact N.
Qed.
End Image.

Lemma image_zero g m p k : image g m p [] None k -> image g m 0 [] None k.
Proof.
  intros (P & F). split; [lia|]. cbn [map app] in *. assert (L : k = NP g).
  { pose proof (F2_len _ _ _ F) as L. unfold ring in L. now rewrite map_length, seq_length, repeat_length in L. }
  assert (A : forall q, q < NP g -> page_at g m q Erased).
  { intros q Q. rewrite <- (mod_pos (NP g) ltac:(lia) p q P Q). set (i := pos (NP g) p q). assert (I : i < NP g) by (apply pos_lt; lia).
    assert (X : In ((p + i) mod NP g) (ring g p)) by (unfold ring; apply (in_map (fun i => (p + i) mod NP g)); apply in_seq; lia).
    clear - F X. remember (repeat Erased k) as e. assert (E : forall x, In x e -> x = Erased) by (subst; intros x; apply repeat_spec). clear Heqe.
    induction F; cbn in X; [contradiction|]. destruct X as [<-|X]; [now rewrite <- (E y) by (cbn; auto)|]. apply IHF; auto. intros. apply E. cbn. auto. }
  subst k. unfold ring. assert (B : forall x, In x (seq 0 (NP g)) -> x < NP g) by (intros x Hx; apply in_seq in Hx; lia). cbn [Nat.add].
  replace (NP g) with (length (seq 0 (NP g))) at 2 by apply seq_length. induction (seq 0 (NP g)) as [|x t IH]; cbn [map repeat length]; constructor.
  - apply A. apply Nat.mod_upper_bound. lia.
  - apply IH. intros. apply B. cbn. auto.
Qed.
Lemma items_len g m l : is_mem m -> forall a e, items_at g m a e l -> Forall (fun x => (N.of_nat (length (fst x)) <= 65535)%N) l.
Proof.
  intros M. induction l as [|[d kept] l IH]; intros a e H; constructor; cbn [items_at] in H; destruct H as ((_ & B & _) & _ & H).
  - cbn [fst]. rewrite <- B. cbn [num]. pose proof (M (a + 4)) as X1. pose proof (M (S (a + 4))) as X2. unfold is_byte in *. lia.
  - eapply IH; eauto.
Qed.
Lemma image_len g m p full cur k : is_mem m -> image g m p full cur k -> Forall (fun d => (N.of_nat (length d) <= 65535)%N) (kept_in full cur).
Proof.
  intros M (_ & F). unfold kept_in.
  assert (A : forall l, (In (Full l) (map Full full ++ (match cur with Some l => [Current l] | None => [] end) ++ repeat Erased k) \/
     In (Current l) (map Full full ++ (match cur with Some l => [Current l] | None => [] end) ++ repeat Erased k)) -> Forall (fun x => (N.of_nat (length (fst x)) <= 65535)%N) l).
  { intros l. generalize dependent (map Full full ++ (match cur with Some l => [Current l] | None => [] end) ++ repeat Erased k). intros z F.
    induction F as [|q c ? ? H F IH]; [intros [[]|[]]|]. intros [[ -> |I]|[ -> |I]]; auto; destruct H as (_ & H & _); eapply items_len; eauto. }
  apply Forall_forall. intros d I. apply in_map_iff in I. destruct I as (x & <- & I). apply filter_In in I. destruct I as [I _]. apply in_app_or in I. destruct I as [I|I].
  - apply in_concat in I. destruct I as (l & L1 & L2). specialize (A l ltac:(left; apply in_or_app; left; now apply in_map)). rewrite Forall_forall in A. auto.
  - destruct cur as [l|]; [|contradiction]. specialize (A l ltac:(right; apply in_or_app; right; left; auto)). rewrite Forall_forall in A. auto.
Qed.

(** The queue *)
Lemma q_from_image pf g f c p full cur k : setting pf g (f_ae f) (f_aw f) -> is_mem (f_mem f) -> (forall x, f_wc f x = 0) -> f_fuel f = None ->
  image g (f_mem f) p full cur k -> (cur = None -> 1 <= k) -> fresh_cache (NP g) c ->
  exists Y, qst g (negb pf) (f_ae f) (f_aw f) Y (st_new f c) /\ content Y = kept_in full cur.
Proof.
  intros ST M WC FU IM CU FC. pose proof ST as (gok & _).
  assert (exists p', image g (f_mem f) p' full cur k /\ (full = [] -> cur = None -> p' = 0)) as (p' & IM' & P0).
  { destruct full; [destruct cur|]; try (exists p; split; [exact IM|discriminate]). exists 0. split; auto. eapply image_zero; eauto. }
  clear p IM. rename p' into p, IM' into IM. destruct (image_lay g gok (negb pf) f p full cur k M WC IM) as (pg & LY & PI).
  exists (lay_for p full cur k). split; [|apply content_for]. exists pg. split; [exact LY|]. split.
  - split; [cbn; destruct cur; [discriminate|auto]|]. split; [cbn; discriminate|]. unfold y_c, y_b, lay_for. cbn [y_cl y_pt y_f]. rewrite map_length.
    destruct full, cur; cbn; intros; try lia; auto.
  - destruct (coh_fresh g pg c FC) as [C1 C2]. split; [|split; auto]. split; [exact M|]. split; [exact PI|]. split; [|auto]. split; [reflexivity|].
    intros _ q Hq B. destruct (bad_only g gok _ _ q LY Hq B). cbn in *. lia.
Qed.
Lemma q_image_history pf g f c p full cur k evs l s : setting pf g (f_ae f) (f_aw f) -> is_mem (f_mem f) -> (forall x, f_wc f x = 0) -> f_fuel f = None ->
  image g (f_mem f) p full cur k -> (cur = None -> 1 <= k) -> fresh_cache (NP g) c ->
  Forall (qev_ok pf g) evs -> q_run g (st_new f c) evs = (l, s) ->
  exists q, qtrace (rup g) (HL g) (page_cap g) (2 <=? NP g) pf (kept_in full cur) evs l q /\ q_holds g s q.
Proof.
  intros ST M WC FU IM CU FC EV E. pose proof (setting_single _ _ _ _ ST) as SG. pose proof ST as [gok _].
  destruct (q_from_image pf g f c p full cur k ST M WC FU IM CU FC) as (Y0 & Q0 & C0).
  assert (EV' : Forall (ev_ok g (negb pf) (f_aw f)) evs) by (eapply Forall_impl; [|exact EV]; intros; eapply setting_ev; eauto).
  destruct (hist_ok g gok (negb pf) (f_ae f) (f_aw f) SG evs _ _ _ _ Q0 EV' E) as (Y & QS & T). exists (content Y). rewrite negb_involutive, C0 in T. split; [exact T|].
  eapply holds_of; eauto.
Qed.

(** The map *)
Section Map.
Context {K : Type} (KO : keyops K) (legal : K -> Prop).
Lemma good_item b k v d : legal k -> item_bytes KO b k v = inl d -> good KO legal d.
Proof.
  intros L E. unfold item_bytes in E. destruct (k_ser KO k b) as [kb|] eqn:S1; [|discriminate]. destruct (_ <? _); [discriminate|]. injection E as <-. exists k, b, kb, v. auto.
Qed.
Lemma pair_unpack ds x : In x (unpack KO ds) <-> exists d, In d ds /\ pair_of KO d = Some x.
Proof.
  unfold unpack. rewrite in_flat_map. split; intros (d & I & H); exists d; split; auto; unfold pair_of, dkey, dval, dklen in *; destruct (k_de KO d) as [[k n]|]; cbn [option_map] in *; try contradiction; try discriminate.
  - destruct H as [<-|[]]. auto.
  - injection H as <-. cbn. auto.
Qed.
Lemma m_from_image pf g n f c p full cur k : key_codec KO legal -> msetting pf g (f_aw f) -> is_mem (f_mem f) -> (forall x, f_wc f x = 0) -> f_fuel f = None ->
  image g (f_mem f) p full cur k -> 1 <= k -> (cur = None -> 2 <= k) -> (p = 0 \/ k = 1) -> Forall (map_item KO legal pf g n) (kept_in full cur) -> fresh_cache (NP g) c ->
  mst g (negb pf) (f_ae f) (f_aw f) KO legal n calm0 (unpack KO (kept_in full cur)) (fun x => lastv (k_eqb KO) x (unpack KO (kept_in full cur))) (st_new f c).
Proof.
  intros KC ST M WC FU IM K1 K2 K3 IT FC. pose proof ST as (gok & np2 & HW). destruct (image_lay g gok (negb pf) f p full cur k M WC IM) as (pg & LY & PI).
  pose proof (image_len _ _ _ _ _ _ M IM) as LN. destruct (cohK_fresh g pg c FC) as [C1 C2].
  destruct (kp_fresh g np2 KO legal (ents g (lay_for p full cur k)) (c_kp c) ltac:(apply FC)) as [D1 D2].
  exists (lay_for p full cur k). split; [|split; [|split; [|split]]].
  - exists pg. split; [exact LY|]. split; [|split; [exact D1|split; [right; exact D2|auto]]]. split; [|split; auto]. split; [exact M|]. split; [exact PI|]. split; [|auto]. split; [reflexivity|].
    intros _ q Hq B. destruct (bad_only g gok _ _ q LY Hq B). cbn in *. lia.
  - split; [|split].
    + split; [cbn; lia|]. split; [|cbn; discriminate]. cbn. destruct cur; [discriminate|]. intros _. specialize (K2 eq_refl). lia.
    + assert (GI : Forall (good KO legal) (content (lay_for p full cur k))).
      { rewrite content_for. eapply Forall_impl; [|exact IT]. intros d ((x & v & b & L & E) & _). eapply good_item; eauto. }
      split; [|split; [exact GI|]].
      * apply Forall_forall. intros sl I. apply Forall_forall. intros y J. unfold uslots, lay_for in I. cbn [y_cl y_pt] in I.
        assert (X : exists l, sl = map slot_for l /\ incl l (concat full ++ match cur with Some l => l | None => [] end)).
        { apply in_app_or in I. destruct I as [I|I].
          - apply in_map_iff in I. destruct I as (l & <- & I). exists l. split; auto. intros z Z. apply in_or_app. left. apply in_concat. eauto.
          - destruct cur as [l|]; cbn in I; [|contradiction]. destruct I as [<-|[]]. exists l. split; auto. intros z Z. apply in_or_app. now right. }
        destruct X as (l & -> & X). apply in_map_iff in J. destruct J as ((d & kept) & <- & J). destruct kept; cbn [slot_for snd fst fits_buf]; auto.
        rewrite Forall_forall in IT. destruct (IT d) as (_ & _ & Z); [|now rewrite words_eq in Z].
        unfold kept_in. apply in_map_iff. exists (d, true). split; auto. apply filter_In. split; auto.
      * rewrite content_for in *. rewrite Forall_forall in *. intros d I. destruct (IT d I) as (_ & (BY & NC) & _). split; [|split].
        -- destruct (good_de KO legal KC d (GI d I)) as (x & _ & DK & _). exists (x, dval KO d). split; [unfold pair_of; rewrite DK; reflexivity|].
           apply pair_unpack. exists d. split; auto. unfold pair_of. rewrite DK. reflexivity.
        -- split; auto.
        -- destruct pf; [right; split; [apply NC|apply HW]; auto|now left].
    + intros X. cbn in X. lia.
  - intros _. split; [unfold nomig; cbn; lia|]. cbn. destruct cur; [discriminate|auto].
  - intros _. reflexivity.
  - intros x L. rewrite content_for. symmetry. apply value_pairs.
Qed.
Lemma m_image_history pf g n f c p full cur k evs l s : key_codec KO legal -> msetting pf g (f_aw f) -> is_mem (f_mem f) -> (forall x, f_wc f x = 0) -> f_fuel f = None ->
  image g (f_mem f) p full cur k -> 1 <= k -> (cur = None -> 2 <= k) -> (p = 0 \/ k = 1) -> Forall (map_item KO legal pf g n) (kept_in full cur) -> fresh_cache (NP g) c ->
  Forall (mev_ok KO legal pf g n) evs -> (pf = true -> calm (f_ae f) calm0 evs l) -> m_run KO g (st_new f c) evs = (l, s) ->
  exists m log, mtrace (k_eqb KO) legal (item_bytes KO) (mbig g) pf (fun x => lastv (k_eqb KO) x (unpack KO (kept_in full cur))) (unpack KO (kept_in full cur)) evs l m log /\
    m_holds KO legal g n s m.
Proof.
  intros KC ST M WC FU IM K1 K2 K3 IT FC EV CA E. pose proof ST as (gok & np2 & _).
  pose proof (m_from_image pf g n f c p full cur k KC ST M WC FU IM K1 K2 K3 IT FC) as M0.
  assert (EV' : Forall (mevok g (negb pf) (f_aw f) KO legal n) evs) by (eapply Forall_impl; [|exact EV]; intros; eapply mev_mevok; eauto).
  assert (CA' : calm (f_ae f) calm0 evs l). { destruct pf; auto. eapply (calm_free KO legal KC g gok (f_ae f) (f_aw f) np2 n evs); eauto. }
  destruct (mhist_ok g gok (negb pf) (f_ae f) (f_aw f) np2 KO legal KC n evs _ _ _ _ _ _ M0 EV' CA' E) as (m & log & T & MS).
  exists m, log. rewrite negb_involutive in T. split; [exact T|]. eapply mst_holds; eauto.
Qed.
End Map.
