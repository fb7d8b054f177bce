(** Memory updates, slots on a page, and what the scanners of src/item.rs find. *)
From Coq Require Import List NArith ZArith Arith Bool Lia ZifyBool ZifyNat ZifyN.
From Verif Require Import Base BaseP Crc CrcP Flash Cache State Item Generic GeomP.
Import ListNotations.

(** * Memory *)
Definition same_on (m m' : nat -> N) (lo hi : nat) : Prop := forall x, lo <= x < hi -> m' x = m x.
Definition ff_on (m : nat -> N) (lo hi : nat) : Prop := forall x, lo <= x < hi -> m x = 255%N.
Definition is_mem (m : nat -> N) : Prop := forall x, is_byte (m x).

Lemma rd_length m a n : length (rd m a n) = n.
Proof. unfold rd. now rewrite map_length, seq_length. Qed.
Lemma rd_nth m a n i d : i < n -> nth i (rd m a n) d = m (a + i).
Proof.
  intros. unfold rd. rewrite (nth_indep _ d (m 0)) by (rewrite map_length, seq_length; lia).
  rewrite map_nth, seq_nth by lia. reflexivity.
Qed.
Lemma rd_ext m m' a n : same_on m m' a (a + n) -> rd m' a n = rd m a n.
Proof. intros H. unfold rd. apply map_ext_in. intros x Hx. apply in_seq in Hx. apply H. lia. Qed.
Lemma rd_app m a n k : rd m a (n + k) = rd m a n ++ rd m (a + n) k.
Proof. unfold rd. rewrite seq_app, map_app. reflexivity. Qed.
Lemma rd_firstn m a n k : k <= n -> firstn k (rd m a n) = rd m a k.
Proof.
  intros. replace n with (k + (n - k)) by lia. rewrite rd_app. apply firstn_app_exact, rd_length.
Qed.
Lemma rd_skipn m a n k : k <= n -> skipn k (rd m a n) = rd m (a + k) (n - k).
Proof.
  intros. replace n with (k + (n - k)) at 1 by lia. rewrite rd_app. apply skipn_app_exact, rd_length.
Qed.
Lemma rd_bytes m a n : is_mem m -> Forall is_byte (rd m a n).
Proof. intros H. unfold rd. apply Forall_map, Forall_forall. intros. apply H. Qed.
Lemma rd_eq_list m a (l : list N) : (forall i, i < length l -> m (a + i) = nth i l 0%N) -> rd m a (length l) = l.
Proof.
  intros H. apply nth_ext with (d := 0%N) (d' := 0%N); [apply rd_length|].
  intros i Hi. rewrite rd_length in Hi. rewrite rd_nth by auto. auto.
Qed.
Lemma rd_inv m a (l : list N) i : rd m a (length l) = l -> i < length l -> m (a + i) = nth i l 0%N.
Proof. intros H Hi. rewrite <- H, rd_nth; auto. Qed.
Lemma rd_ff m a n : ff_on m a (a + n) -> rd m a n = repeat 255%N n.
Proof.
  intros H. apply nth_ext with (d := 255%N) (d' := 255%N); [now rewrite rd_length, repeat_length|].
  intros i Hi. rewrite rd_length in Hi. rewrite rd_nth, nth_repeat by auto. apply H. lia.
Qed.
Lemma rd_ff_inv m a n : rd m a n = repeat 255%N n -> ff_on m a (a + n).
Proof.
  intros H x Hx. replace x with (a + (x - a)) by lia. rewrite <- (rd_nth m a n (x - a) 255%N) by lia.
  rewrite H. apply nth_repeat.
Qed.

Lemma mem_and_out m a bs x : x < a \/ a + length bs <= x -> mem_and m a bs x = m x.
Proof. intros. unfold mem_and. destruct (Nat.leb_spec a x), (Nat.ltb_spec x (a + length bs)); cbn [andb]; auto; lia. Qed.
Lemma mem_and_in m a bs x : a <= x < a + length bs -> mem_and m a bs x = N.land (m x) (nth (x - a) bs 255%N).
Proof. intros. unfold mem_and. destruct (Nat.leb_spec a x), (Nat.ltb_spec x (a + length bs)); cbn [andb]; auto; lia. Qed.
Lemma mem_ff_out m a n x : x < a \/ a + n <= x -> mem_ff m a n x = m x.
Proof. intros. unfold mem_ff. destruct (Nat.leb_spec a x), (Nat.ltb_spec x (a + n)); cbn [andb]; auto; lia. Qed.
Lemma mem_ff_in m a n x : a <= x < a + n -> mem_ff m a n x = 255%N.
Proof. intros. unfold mem_ff. destruct (Nat.leb_spec a x), (Nat.ltb_spec x (a + n)); cbn [andb]; auto; lia. Qed.

Lemma land_le a b : (N.land a b <= a)%N.
Proof.
  replace a with (N.lor (N.land a b) (N.ldiff a b)) at 2.
  - apply N.ldiff_le. apply N.bits_inj. intros i. rewrite N.ldiff_spec, N.lor_spec, N.bits_0.
    rewrite N.land_spec. now destruct (N.testbit a i), (N.testbit b i), (N.testbit (N.ldiff a b) i).
  - apply N.bits_inj. intros i. rewrite N.lor_spec, N.ldiff_spec, N.land_spec.
    now destruct (N.testbit a i), (N.testbit b i).
Qed.
Lemma land_255 b : is_byte b -> N.land 255 b = b.
Proof. intros H. rewrite N.land_comm. change 255%N with (N.ones 8). rewrite N.land_ones. apply N.mod_small. exact H. Qed.
Lemma mem_and_mem m a bs : is_mem m -> is_mem (mem_and m a bs).
Proof.
  intros H x. unfold mem_and. destruct ((a <=? x) && (x <? a + length bs)); [|apply H].
  unfold is_byte. eapply N.le_lt_trans; [apply land_le|apply H].
Qed.
Lemma mem_ff_mem m a n : is_mem m -> is_mem (mem_ff m a n).
Proof. intros H x. unfold mem_ff. destruct ((a <=? x) && (x <? a + n)); [reflexivity|apply H]. Qed.

(** Programming erased bytes stores them. *)
Lemma mem_and_blank m a bs i : ff_on m a (a + length bs) -> Forall is_byte bs -> i < length bs ->
  mem_and m a bs (a + i) = nth i bs 0%N.
Proof.
  intros F B Hi. rewrite mem_and_in by lia. rewrite F by lia.
  replace (a + i - a) with i by lia. rewrite (nth_indep bs 255%N 0%N) by auto.
  apply land_255. rewrite Forall_forall in B. apply B. now apply nth_In.
Qed.
Lemma rd_mem_and m a bs : ff_on m a (a + length bs) -> Forall is_byte bs -> rd (mem_and m a bs) a (length bs) = bs.
Proof. intros F B. apply rd_eq_list. intros. now apply mem_and_blank. Qed.

(** * Headers and slots *)
Inductive hres := HEnd | HBad | HOk (h : hdr).

Inductive slot := SLive (d : list N) | SDead (n : nat) | SCorr (n : nat) (c : N) | SBad.

Section Scan.
Context (g : geom) (gok : geom_ok g).
Notation W := (W g).
Notation HL := (HL g).
Notation rup := (rup g).

(** What a header read at [a] in an area ending at [e] says: no item, a damaged header, or a header. *)
Definition hdr_at (m : nat -> N) (e a : nat) : hres :=
  if e <? a + HL then HEnd
  else
    let b := rd m a HL in
    if all_ff b then HEnd
    else if negb (lcrc_ok b) then HBad
    else if e <? next_addr g a (hdr_of b) then HBad
    else HOk (hdr_of b).

(** The header of a slot. *)
Definition shdr (s : slot) : option hdr :=
  match s with
  | SLive d => Some (mkhdr (length d) (Some (acrc d)))
  | SDead n => Some (mkhdr n None)
  | SCorr n c => Some (mkhdr n (Some c))
  | SBad => None
  end.

Definition ssize (s : slot) : nat := match shdr s with Some h => HL + rup (h_len h) | None => W end.

Definition slot_at (m : nat -> N) (e a : nat) (s : slot) : Prop :=
  hdr_at m e a = match shdr s with Some h => HOk h | None => HBad end /\
  match s with
  | SLive d => rd m (a + HL) (length d) = d
  | SCorr n c => acrc (rd m (a + HL) n) <> c
  | _ => True
  end.

(** Slots [sl] tile the area from [a] to [b]. *)
Fixpoint seg (m : nat -> N) (e a : nat) (sl : list slot) (b : nat) : Prop :=
  match sl with
  | [] => a = b
  | s :: t => slot_at m e a s /\ seg m e (a + ssize s) t b
  end.

Definition sizes (sl : list slot) : nat := list_sum (map ssize sl).

Lemma ssize_pos s : 0 < ssize s.
Proof. unfold ssize. pose proof (HL_W g gok). pose proof (W_pos g gok). destruct (shdr s); lia. Qed.
Lemma ssize_al s : al g (ssize s).
Proof. unfold ssize. destruct (shdr s); auto with al. Qed.

Lemma seg_end m e a sl b : seg m e a sl b -> b = a + sizes sl.
Proof.
  revert a; induction sl as [|s sl IH]; cbn [seg]; intros a H.
  - unfold sizes. cbn. lia.
  - destruct H as [_ H]. apply IH in H. unfold sizes in *. cbn [map list_sum fold_right] in *. unfold list_sum in *. lia.
Qed.
Lemma seg_le m e a sl b : seg m e a sl b -> a <= b.
Proof. intros H. apply seg_end in H. lia. Qed.
Lemma seg_al m e a sl b : seg m e a sl b -> al g a -> al g b.
Proof.
  revert a; induction sl as [|s sl IH]; cbn [seg]; intros a H A.
  - now subst.
  - destruct H as [_ H]. apply IH in H; auto using ssize_al with al.
Qed.
Lemma seg_app m e a sl1 sl2 b : seg m e a (sl1 ++ sl2) b <-> exists c, seg m e a sl1 c /\ seg m e c sl2 b.
Proof.
  revert a; induction sl1 as [|s sl IH]; cbn [app seg]; intros a.
  - split; [intros H; exists a; auto|intros (c & -> & H); auto].
  - rewrite IH. split.
    + intros (H & c & H1 & H2). exists c. auto.
    + intros (c & (H & H1) & H2). eauto.
Qed.
Lemma seg_len m e a sl b : seg m e a sl b -> length sl <= b - a.
Proof.
  revert a; induction sl as [|s sl IH]; cbn [seg length]; intros a H; [lia|].
  destruct H as [_ H]. pose proof (seg_le _ _ _ _ _ H). apply IH in H. pose proof (ssize_pos s). lia.
Qed.
Lemma sizes_app a b : sizes (a ++ b) = sizes a + sizes b.
Proof. unfold sizes. rewrite map_app. apply list_sum_app. Qed.

Lemma hdr_at_ok m e a h : hdr_at m e a = HOk h ->
  next_addr g a h <= e /\ h = hdr_of (rd m a HL) /\ lcrc_ok (rd m a HL) = true.
Proof.
  unfold hdr_at. destruct (e <? a + HL); [discriminate|]. cbn zeta.
  destruct (all_ff _); [discriminate|]. destruct (lcrc_ok _); [|discriminate]. cbn [negb].
  destruct (Nat.ltb_spec e (next_addr g a (hdr_of (rd m a HL)))); [discriminate|].
  intros [= <-]. auto.
Qed.
Lemma hdr_at_bad m e a : hdr_at m e a = HBad -> a + HL <= e.
Proof. unfold hdr_at. destruct (Nat.ltb_spec e (a + HL)); [discriminate|auto]. Qed.

(** Slots lie in their area. *)
Lemma slot_at_le m e a s : slot_at m e a s -> a + ssize s <= e.
Proof.
  intros [H _]. unfold ssize. destruct (shdr s) as [h|].
  - apply hdr_at_ok in H. unfold next_addr in H. lia.
  - apply hdr_at_bad in H. pose proof (HL_W g gok). lia.
Qed.
Lemma seg_le_end m e a sl b : seg m e a sl b -> a <= e -> b <= e.
Proof.
  revert a; induction sl as [|s sl IH]; cbn [seg]; intros a H A; [lia|].
  destruct H as [H1 H]. apply slot_at_le in H1. apply IH in H; auto.
Qed.

(** Every area scans: it is a sequence of slots followed by a free address (arbitrary contents). *)
Lemma slot_or_end m e a : hdr_at m e a = HEnd \/ exists s, slot_at m e a s.
Proof.
  destruct (hdr_at m e a) as [| |h] eqn:E; auto; right.
  - exists SBad. split; auto.
  - destruct h as [n [c|]].
    + destruct (N.eq_dec (acrc (rd m (a + HL) n)) c) as [<-|X].
      * exists (SLive (rd m (a + HL) n)). split.
        -- cbn [shdr]. rewrite rd_length. exact E.
        -- now rewrite rd_length.
      * exists (SCorr n c). split; auto.
    + exists (SDead n). split; auto.
Qed.
Lemma seg_total m e a : exists sl b, seg m e a sl b /\ hdr_at m e b = HEnd.
Proof.
  remember (e - a) as k eqn:Ek. revert a Ek. induction k as [k IH] using lt_wf_ind. intros a Ek.
  destruct (slot_or_end m e a) as [H|[s H]].
  - exists [], a. cbn [seg]. auto.
  - pose proof (slot_at_le _ _ _ _ H). pose proof (ssize_pos s).
    destruct (IH (e - (a + ssize s))) with (a := a + ssize s) as (sl & b & S1 & S2); try lia.
    exists (s :: sl), b. cbn [seg]. auto.
Qed.
Lemma slot_at_inj m e a s s' : slot_at m e a s -> slot_at m e a s' -> s = s'.
Proof.
  intros [H1 D1] [H2 D2]. rewrite H1 in H2.
  destruct s, s'; cbn [shdr] in H2; try discriminate; auto; injection H2; intros; subst; auto; try congruence.
Qed.
Lemma seg_det m e a sl b sl' b' : seg m e a sl b -> hdr_at m e b = HEnd -> seg m e a sl' b' -> hdr_at m e b' = HEnd ->
  sl = sl' /\ b = b'.
Proof.
  revert a sl'. induction sl as [|s sl IH]; intros a [|s' sl'] H E H' E'; cbn [seg] in *.
  - subst; auto.
  - subst. destruct H' as [[X _] _]. rewrite E in X. destruct (shdr s'); discriminate.
  - subst. destruct H as [[X _] _]. rewrite E' in X. destruct (shdr s); discriminate.
  - destruct H as [S1 H], H' as [S1' H']. pose proof (slot_at_inj _ _ _ _ _ S1 S1'). subst s'.
    destruct (IH _ _ H E H' E') as [-> ->]. auto.
Qed.
(** A tiling that stops early is a prefix of the complete one. *)
Lemma seg_prefix m e a sl1 c sl b : seg m e a sl1 c -> seg m e a sl b -> hdr_at m e b = HEnd ->
  exists sl2, sl = sl1 ++ sl2 /\ seg m e c sl2 b.
Proof.
  intros H1 H E. destruct (seg_total m e c) as (sl2 & b' & H2 & E').
  assert (H3 : seg m e a (sl1 ++ sl2) b') by (apply seg_app; eauto).
  destruct (seg_det _ _ _ _ _ _ _ H E H3 E') as [-> ->]. eauto.
Qed.

(** * Frame *)
Lemma hdr_at_ext m m' e a : same_on m m' a (a + HL) -> hdr_at m' e a = hdr_at m e a.
Proof. intros H. unfold hdr_at. now rewrite (rd_ext m m') by auto. Qed.
Lemma slot_at_ext m m' e a s : same_on m m' a (a + Nat.max HL (ssize s)) -> slot_at m e a s -> slot_at m' e a s.
Proof.
  intros H [H1 H2]. split.
  - rewrite <- H1. apply hdr_at_ext. intros x Hx. apply H. lia.
  - destruct s; auto.
    + rewrite (rd_ext m m'); auto. intros x Hx. apply H. unfold ssize. cbn [shdr h_len].
      pose proof (rup_ge g gok (length d)). lia.
    + rewrite (rd_ext m m'); auto. intros x Hx. apply H. unfold ssize. cbn [shdr h_len].
      pose proof (rup_ge g gok n). lia.
Qed.
(** Contents of the whole area unchanged. *)
Lemma seg_ext m m' e a sl b : same_on m m' a e -> seg m e a sl b -> seg m' e a sl b.
Proof.
  revert a; induction sl as [|s sl IH]; cbn [seg]; intros a H S; auto.
  destruct S as [S1 S]. pose proof (slot_at_le _ _ _ _ S1) as L. split.
  - apply (slot_at_ext m); auto. intros x Hx. apply H.
    destruct (Nat.max_spec HL (ssize s)) as [[_ X]|[_ X]]; rewrite X in Hx; [lia|].
    destruct S1 as [S1 _]. destruct (shdr s) eqn:Es.
    + unfold ssize in X, Hx, L. rewrite Es in *. lia.
    + apply hdr_at_bad in S1. lia.
  - apply IH; auto. intros x Hx. apply H. lia.
Qed.
Lemma hdr_end_ext m m' e b : same_on m m' b e -> hdr_at m e b = HEnd -> hdr_at m' e b = HEnd.
Proof.
  intros H E. destruct (Nat.ltb_spec e (b + HL)) as [L|L].
  - unfold hdr_at. apply Nat.ltb_lt in L. now rewrite L.
  - rewrite <- E. apply hdr_at_ext. intros x Hx. apply H. lia.
Qed.

(** Slots whose reading does not depend on the bytes that follow them: a damaged header counts only when words are
    as large as headers. *)
Definition solid (s : slot) : Prop := match s with SBad => 8 <= W | _ => True end.

Lemma solid_HL s : solid s -> HL <= ssize s.
Proof. unfold ssize. destruct s; cbn [shdr solid h_len]; intros; try lia. rewrite (HL_eq_W g gok); auto. Qed.
(** Contents of the tiled part unchanged. *)
Lemma seg_ext_solid m m' e a sl b : Forall solid sl -> same_on m m' a b -> seg m e a sl b -> seg m' e a sl b.
Proof.
  revert a; induction sl as [|s sl IH]; cbn [seg]; intros a F H S; auto.
  inversion F; subst. destruct S as [S1 S]. pose proof (seg_le _ _ _ _ _ S). split.
  - apply (slot_at_ext m); auto. intros x Hx. apply H. pose proof (solid_HL s). lia.
  - apply IH; auto. intros x Hx. apply H. lia.
Qed.

(** An erased tail is a free address. *)
Lemma ff_end m e b : ff_on m b e -> hdr_at m e b = HEnd.
Proof.
  intros H. unfold hdr_at. destruct (Nat.ltb_spec e (b + HL)); auto. cbn zeta.
  rewrite rd_ff by (intros x Hx; apply H; lia). now rewrite all_ff_repeat.
Qed.

(** * The scanners *)
Context {K : Type}.
Implicit Types s : st K.

Lemma fl_read_ok a n s : al g a -> al g n -> 0 < n -> START g <= a -> a + n <= FEND g ->
  fl_read g a n s = (Ok (rd (f_mem (s_fl s)) a n), s).
Proof. intros. unfold fl_read, on_read, steady, dev_read. rewrite (chk_RS g gok) by auto. reflexivity. Qed.

Lemma read_hdr_eq r a s : al g a -> START g <= a -> a + HL <= FEND g ->
  read_hdr g r a s = let b := rd (f_mem (s_fl s)) a HL in
                     (if all_ff b then Ok None else if lcrc_ok b then Ok (Some b) else Err ECorrupted, s).
Proof.
  intros A B C. pose proof (HL_ge g gok). induction r as [|r IH]; cbn [read_hdr]; unfold bind.
  - rewrite fl_read_ok by (auto with al; lia). cbn zeta.
    destruct (all_ff _); [reflexivity|]. destruct (lcrc_ok _); reflexivity.
  - rewrite fl_read_ok by (auto with al; lia). cbn zeta in *.
    destruct (all_ff _); [reflexivity|]. destruct (lcrc_ok _); [reflexivity|]. exact IH.
Qed.

Lemma read_new_eq e a s : al g a -> START g <= a -> e <= FEND g ->
  read_new g a (Some e) s =
  (match hdr_at (f_mem (s_fl s)) e a with HEnd => Ok None | HBad => Err ECorrupted | HOk h => Ok (Some h) end, s).
Proof.
  intros A B C. unfold read_new, hdr_at. cbn [beyond]. destruct (Nat.ltb_spec e (a + HL)); [reflexivity|].
  unfold bind. rewrite read_hdr_eq by (auto; lia). cbn zeta.
  destruct (all_ff _); [reflexivity|]. destruct (lcrc_ok _); cbn [negb]; [|reflexivity].
  destruct (e <? next_addr g a (hdr_of (rd (f_mem (s_fl s)) a HL))); reflexivity.
Qed.

Lemma attempt_eq {A} (c : M K A) s r s' : c s = (r, s') -> attempt c s = (Ok r, s').
Proof. unfold attempt, on_result, steady, hand_on. now intros ->. Qed.

Definition skipped (skip : hdr -> bool) (s : slot) : bool := match shdr s with Some h => skip h | None => true end.

Definition stop_at m e b (skip : hdr -> bool) : option (option hdr * nat * nat) :=
  match hdr_at m e b with
  | HEnd => Some (None, b, b)
  | HOk h => if skip h then None else Some (Some h, b, next_addr g b h)
  | HBad => None
  end.

Lemma traverse_eq e skip s sl : forall fuel a b r,
  e <= FEND g -> al g a -> START g <= a ->
  seg (f_mem (s_fl s)) e a sl b -> forallb (skipped skip) sl = true ->
  stop_at (f_mem (s_fl s)) e b skip = Some r -> length sl < fuel ->
  traverse g fuel skip a e s = (Ok r, s).
Proof.
  induction sl as [|x sl IH]; intros fuel a b r He A B H F R L; (destruct fuel as [|fuel]; [cbn in L; lia|]);
    cbn [seg forallb length] in *; cbn [traverse]; unfold bind.
  - subst b. erewrite attempt_eq by (apply read_new_eq; auto). unfold stop_at in R.
    destruct (hdr_at _ _ _); try discriminate; [injection R as <-; reflexivity|].
    destruct (skip h); [discriminate|]. injection R as <-. reflexivity.
  - destruct H as [S1 S]. apply andb_true_iff in F. destruct F as [F1 F].
    erewrite attempt_eq by (apply read_new_eq; auto). destruct S1 as [S1 _]. rewrite S1. unfold skipped in F1.
    pose proof (ssize_pos x). pose proof (ssize_al x).
    specialize (IH fuel (a + ssize x) b r He (al_add g gok _ _ A H0) ltac:(lia) S F R ltac:(lia)).
    unfold ssize in IH. destruct (shdr x) as [h|].
    + rewrite F1. unfold next_addr. rewrite Nat.add_assoc in IH. exact IH.
    + exact IH.
Qed.

Lemma tfuel_len m e a sl b : seg m e a sl b -> a <= e -> length sl < tfuel a e.
Proof. intros S A. pose proof (seg_len _ _ _ _ _ S). pose proof (seg_le_end _ _ _ _ _ S A). unfold tfuel. lia. Qed.
(** Also when the scan starts past the end. *)
Lemma tfuel_len' m e a sl b : seg m e a sl b -> length sl < tfuel a e.
Proof.
  intros S. destruct (le_lt_dec a e); [eapply tfuel_len; eauto|]. unfold tfuel.
  destruct sl as [|x sl]; cbn; [lia|]. cbn [seg] in S. destruct S as [S _]. apply slot_at_le in S. lia.
Qed.

(** [read_item] on a slot. *)
Definition fits_buf (n : nat) (x : slot) : Prop :=
  match x with SLive d => rup (length d) <= n | SCorr k _ => rup k <= n | _ => True end.

Lemma put_front_put_front (d b : list N) : length d <= length b -> put_front d (put_front d b) = put_front d b.
Proof.
  intros H. unfold put_front. f_equal. rewrite skipn_app, skipn_all, Nat.sub_diag. reflexivity.
Qed.
Lemma put_front_nil (b : list N) : put_front [] b = b.
Proof. reflexivity. Qed.

Definition item_of (x : slot) (h : hdr) : maybe_item :=
  match x with SLive _ => MPresent h | SDead _ => MErased h | _ => MCorrupted h end.

Lemma read_data_eq r h c da s :
  let m := f_mem (s_fl s) in
  let rl := rup (h_len h) in
  al g da -> START g <= da -> da + rl <= FEND g -> rl <= length (s_buf s) ->
  read_data g r h c da rl s =
  (Ok (if (acrc (rd m da (h_len h)) =? c)%N then MPresent h else MCorrupted h),
   set_buf s (put_front (rd m da rl) (s_buf s))).
Proof.
  intros m rl A B C D.
  assert (E : forall s1, s_fl s1 = s_fl s -> rl <= length (s_buf s1) ->
    (if rl =? 0 then ret tt else d <- fl_read g da rl ;; b <- get_buf ;; put_buf (put_front d b)) s1
    = (Ok tt, set_buf s1 (put_front (rd m da rl) (s_buf s1)))).
  { intros s1 E1 E2. destruct (Nat.eqb_spec rl 0) as [Z|Z].
    - rewrite Z. cbn. unfold put_front, set_buf, ret. cbn. destruct s1; reflexivity.
    - unfold bind. rewrite fl_read_ok by (subst rl; auto with al; lia). rewrite E1. reflexivity. }
  assert (PL : firstn (h_len h) (put_front (rd m da rl) (s_buf s)) = rd m da (h_len h)).
  { pose proof (rup_ge g gok (h_len h)). unfold put_front. rewrite firstn_app, rd_length.
    replace (h_len h - rl) with 0 by lia. cbn [firstn]. rewrite app_nil_r. apply rd_firstn. auto. }
  assert (IDEM : put_front (rd m da rl) (put_front (rd m da rl) (s_buf s)) = put_front (rd m da rl) (s_buf s)).
  { apply put_front_put_front. now rewrite rd_length. }
  assert (PLn : rl <= length (put_front (rd m da rl) (s_buf s))).
  { rewrite put_front_length by (rewrite rd_length; lia); lia. }
  assert (G : forall r s1, s_fl s1 = s_fl s -> s1 = set_buf s (s_buf s1) ->
     rl <= length (s_buf s1) -> put_front (rd m da rl) (s_buf s1) = put_front (rd m da rl) (s_buf s) ->
     read_data g r h c da rl s1 = (Ok (if (acrc (rd m da (h_len h)) =? c)%N then MPresent h else MCorrupted h),
       set_buf s (put_front (rd m da rl) (s_buf s)))).
  { clear r. induction r as [|r IH]; intros s1 E1 E2 E3 E4; cbn [read_data]; unfold bind at 1; rewrite E by auto;
      rewrite E4; unfold bind, get_buf; cbn [s_buf set_buf]; rewrite PL;
      destruct (acrc (rd m da (h_len h)) =? c)%N; try (rewrite E2; reflexivity).
    apply IH; cbn [s_fl s_buf set_buf]; auto.
    - rewrite E2. reflexivity. }
  apply G; auto. destruct s; reflexivity.
Qed.

Lemma read_item_slot e a s x h :
  e <= FEND g -> al g a -> START g <= a ->
  slot_at (f_mem (s_fl s)) e a x -> shdr x = Some h -> fits_buf (length (s_buf s)) x ->
  read_item g h a (Some e) s =
  (Ok (item_of x h),
   match x with
   | SDead _ => s
   | _ => set_buf s (put_front (rd (f_mem (s_fl s)) (a + HL) (rup (h_len h))) (s_buf s))
   end).
Proof.
  intros He A B S Eh F. pose proof (slot_at_le _ _ _ _ S) as L. destruct S as [S D]. unfold ssize in L. rewrite Eh in *.
  unfold read_item. destruct x; cbn [shdr] in Eh; try discriminate; injection Eh as <-; cbn [h_crc h_len] in *;
    [|reflexivity|]; cbn [beyond];
    (match goal with |- context [e <? ?y] => destruct (Nat.ltb_spec e y); [lia|] end);
    unfold bind at 1, get_buf; cbn [fits_buf] in F;
    (match goal with |- context [length ?y <? ?z] => destruct (Nat.ltb_spec (length y) z); [lia|] end).
  - rewrite (read_data_eq 1 (mkhdr (length d) (Some (acrc d)))); cbn [h_len]; auto; try lia; auto with al.
    rewrite D, N.eqb_refl. reflexivity.
  - rewrite (read_data_eq 1 (mkhdr n (Some c))); cbn [h_len]; auto; try lia; auto with al.
    apply N.eqb_neq in D. rewrite D. reflexivity.
Qed.

(** The buffer after reading a live slot starts with its data. *)
Lemma buf_live m a d b : rd m (a + HL) (length d) = d -> rup (length d) <= length b ->
  firstn (length d) (put_front (rd m (a + HL) (rup (length d))) b) = d /\
  length (put_front (rd m (a + HL) (rup (length d))) b) = length b.
Proof.
  intros H L. pose proof (rup_ge g gok (length d)). split.
  - unfold put_front. rewrite firstn_app, rd_length. replace (length d - rup (length d)) with 0 by lia.
    cbn [firstn]. rewrite app_nil_r, rd_firstn by auto. exact H.
  - rewrite put_front_length by (rewrite rd_length; lia); lia.
Qed.

Definition is_live (x : slot) : bool := match x with SLive _ => true | _ => false end.

Lemma set_buf_eq s b : set_buf (set_buf s b) = set_buf s. Proof. reflexivity. Qed.
Lemma set_buf_self s : set_buf s (s_buf s) = s. Proof. destruct s; reflexivity. Qed.

(** [item_next] finds the first live slot. *)
Lemma item_next_eq e : forall pre fuel a b s,
  e <= FEND g -> al g a -> START g <= a ->
  seg (f_mem (s_fl s)) e a pre b -> forallb (fun x => negb (is_live x)) pre = true ->
  Forall (fits_buf (length (s_buf s))) pre -> length pre < fuel ->
  (hdr_at (f_mem (s_fl s)) e b = HEnd ->
     exists buf, length buf = length (s_buf s) /\
       item_next g fuel a e s = (Ok (None, b), set_buf s buf)) /\
  (forall d, slot_at (f_mem (s_fl s)) e b (SLive d) -> rup (length d) <= length (s_buf s) ->
     exists buf, length buf = length (s_buf s) /\ firstn (length d) buf = d /\
       item_next g fuel a e s =
         (Ok (Some (mkhdr (length d) (Some (acrc d)), b), b + ssize (SLive d)), set_buf s buf)).
Proof.
  intros pre. remember (length pre) as k eqn:Ek. revert pre Ek.
  induction k as [k IH] using lt_wf_ind. intros pre Ek fuel a b s He A B S F Fb L.
  destruct fuel as [|fuel]; [lia|].
  (* the damaged headers at the front *)
  destruct (forallb (fun x => match x with SBad => true | _ => false end) pre) eqn:AllBad.
  - assert (SK : forallb (skipped (fun _ => false)) pre = true).
    { rewrite forallb_forall in AllBad |- *. intros x Hx. specialize (AllBad x Hx). destruct x; try discriminate. reflexivity. }
    split.
    + intros HE. exists (s_buf s). split; auto. rewrite set_buf_self. cbn [item_next]. unfold bind.
      rewrite (traverse_eq e (fun _ => false) s pre _ a b (None, b, b)); auto.
      * unfold stop_at. now rewrite HE.
      * eapply tfuel_len'; eauto.
    + intros d Sd Fd. exists (put_front (rd (f_mem (s_fl s)) (b + HL) (rup (length d))) (s_buf s)).
      destruct (buf_live (f_mem (s_fl s)) b d (s_buf s)) as [B1 B2]; auto. { apply Sd. }
      split; auto. split; auto. cbn [item_next]. unfold bind.
      pose proof (seg_al _ _ _ _ _ S A). pose proof (seg_le _ _ _ _ _ S).
      rewrite (traverse_eq e (fun _ => false) s pre _ a b (Some (mkhdr (length d) (Some (acrc d))), b, b + ssize (SLive d))); auto.
      * rewrite (read_item_slot e b s (SLive d)); auto; try lia.
      * unfold stop_at. destruct Sd as [Sd _]. cbn [shdr] in Sd. rewrite Sd. unfold next_addr, ssize. cbn [shdr h_len].
        now rewrite Nat.add_assoc.
      * eapply tfuel_len'; eauto.
  - (* first slot with a header *)
    assert (X : exists p1 x p2, pre = p1 ++ x :: p2 /\
        forallb (fun x => match x with SBad => true | _ => false end) p1 = true /\ x <> SBad).
    { clear -AllBad. induction pre as [|x pre IHp]; cbn [forallb] in AllBad; [discriminate|].
      destruct x.
      - exists [], (SLive d), pre. repeat split; auto. discriminate.
      - exists [], (SDead n), pre. repeat split; auto. discriminate.
      - exists [], (SCorr n c), pre. repeat split; auto. discriminate.
      - cbn [andb] in AllBad. destruct (IHp AllBad) as (p1 & x & p2 & -> & H1 & H2).
        exists (SBad :: p1), x, p2. repeat split; auto. }
    destruct X as (p1 & x & p2 & -> & P1 & Px).
    rewrite app_length in Ek. cbn [length] in Ek.
    apply seg_app in S. destruct S as (c & S1 & S2). cbn [seg] in S2. destruct S2 as [Sx S2].
    rewrite forallb_app in F. cbn [forallb] in F. apply andb_true_iff in F. destruct F as [F1 F].
    apply andb_true_iff in F. destruct F as [Fx F2].
    apply Forall_app in Fb. destruct Fb as [Fb1 Fb]. inversion Fb as [|? ? Fbx Fb2]; subst.
    assert (SK : forallb (skipped (fun _ => false)) p1 = true).
    { rewrite forallb_forall in P1 |- *. intros y Hy. specialize (P1 y Hy). destruct y; try discriminate. reflexivity. }
    destruct (shdr x) as [h|] eqn:Eh; [|destruct x; try discriminate; contradiction].
    pose proof (seg_al _ _ _ _ _ S1 A) as Ac. pose proof (seg_le _ _ _ _ _ S1) as Lc.
    set (s1 := match x with SDead _ => s | _ => set_buf s (put_front (rd (f_mem (s_fl s)) (c + HL) (rup (h_len h))) (s_buf s)) end).
    assert (F1' : s_fl s1 = s_fl s) by (unfold s1; destruct x; reflexivity).
    assert (L1 : length (s_buf s1) = length (s_buf s)).
    { unfold s1. destruct x; cbn [shdr] in Eh; try discriminate; injection Eh as <-; auto; cbn [s_buf set_buf h_len fits_buf] in *;
        apply put_front_length; rewrite rd_length; auto. }
    assert (ST : item_next g (S fuel) a e s = item_next g fuel (c + ssize x) e s1).
    { cbn [item_next]. unfold bind.
      rewrite (traverse_eq e (fun _ => false) s p1 _ a c (Some h, c, c + ssize x)); auto.
      - rewrite (read_item_slot e c s x h); auto; try lia. fold s1. destruct x; cbn [item_of]; try reflexivity. discriminate.
      - unfold stop_at. destruct Sx as [Sx _]. rewrite Eh in Sx. rewrite Sx. unfold next_addr, ssize. rewrite Eh.
        now rewrite Nat.add_assoc.
      - eapply tfuel_len'; eauto. }
    rewrite ST. rewrite <- L1. pose proof (ssize_al x) as Ax.
    destruct (IH (length p2) ltac:(lia) p2 eq_refl fuel (c + ssize x) b s1) as [G1 G2]; auto with al; try lia.
    + rewrite F1'. auto.
    + rewrite L1. auto.
    + rewrite F1' in *. assert (E1 : forall bb, set_buf s1 bb = set_buf s bb) by (intros; unfold s1; destruct x; reflexivity).
      split.
      * intros HE. destruct (G1 HE) as (buf & Lb & G). exists buf. rewrite G, E1. auto.
      * intros d Sd Fd. destruct (G2 d Sd) as (buf & Lb & Fd' & G); auto. exists buf. rewrite G, E1. auto.
Qed.

End Scan.
