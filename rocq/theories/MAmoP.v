(** How many erases a map needs. *)
From Coq Require Import List NArith ZArith Arith Bool Lia ZifyBool ZifyNat ZifyN.
From Verif Require Import Base BaseP Crc CrcP Flash Cache State Item Generic Map Codec CodecP GeomP ScanP WpP ItemP CalcP PageP WorldP LayP QPushP QRepP QStepP QCallP KeyP MLogP MFetchP MMigP MStoreP MCallP MRemP MRmvP MIterP Client QSpec QObs MClient MSpec MExecP MHistP MObs QHistP QPropsP MWearP MPropsP CapSpec MCapP WearSpec QWearP.
Import ListNotations.
Local Opaque crc16 acrc crc32.

Section Amo.
Context (g : geom) (gok : geom_ok g) (np2 : 2 <= NP g).
Context {K : Type} (KO : keyops K) (legal : K -> Prop) (KC : key_codec KO legal).
Notation NP := (NP g).
Implicit Types (Y : lay) (a b later : list (list N)) (ls : list (list (list N))).
Notation good := (good KO legal).
Notation keep := (keep KO).
Notation samek := (samek KO).
Notation dkey := (dkey KO).
Notation rooms := (rooms g).
Notation room1 := (item_room g).
Notation yst := (yst g KO).
Notation yadv := (yadv g KO).
Notation ymig := (ymig g KO).

(** * The current items, weighted by the age of their page *)
Definition cur_room ls : nat := rooms (keep (concat ls) []).
Fixpoint psi ls : nat := match ls with [] => 0 | a :: t => length t * rooms (keep a (concat t)) + psi t end.

Lemma keep_more a later x : rooms (keep a (later ++ x)) <= rooms (keep a later).
Proof.
  induction a as [|d a IH]; cbn [MLogP.keep]; auto. rewrite app_assoc, existsb_app. destruct (existsb (samek d) (a ++ later)); cbn [orb]; auto.
  change (rooms (d :: keep a later)) with (room1 d + rooms (keep a later)). destruct (existsb (samek d) x); [lia|].
  change (rooms (d :: keep a (later ++ x))) with (room1 d + rooms (keep a (later ++ x))). lia.
Qed.
Lemma keep_other a later x : (forall d, In d a -> existsb (samek d) x = false) -> keep a (later ++ x) = keep a later.
Proof.
  induction a as [|d a IH]; intros H; cbn [MLogP.keep]; auto. rewrite app_assoc, existsb_app, (H d (or_introl eq_refl)), orb_false_r. rewrite IH by (intros; apply H; now right). reflexivity.
Qed.
Lemma cur_cons a ls : Forall good (concat (a :: ls)) -> cur_room (a :: ls) = rooms (keep a (concat ls)) + cur_room ls.
Proof. intros G. unfold cur_room. cbn [concat] in *. apply Forall_app in G. rewrite (keep_app KO legal) by tauto. now rewrite rooms_app, app_nil_r. Qed.
Lemma good_tl a ls : Forall good (concat (a :: ls)) -> Forall good (concat ls).
Proof. cbn. intros G. apply Forall_app in G. tauto. Qed.
Lemma psi_snoc x : forall ls, Forall good (concat ls) -> (forall d, In d (concat ls) -> existsb (samek d) x = false) -> psi (ls ++ [x]) = psi ls + cur_room ls.
Proof.
  induction ls as [|a ls IH]; intros G H; [reflexivity|]. rewrite cur_cons by auto. cbn [app psi]. rewrite IH by (try (eapply good_tl; eauto); intros; apply H; cbn; apply in_or_app; auto).
  rewrite concat_app. cbn [concat]. rewrite app_nil_r, keep_other by (intros; apply H; cbn; apply in_or_app; auto). rewrite app_length. cbn [length]. lia.
Qed.
Lemma psi_put a d : forall ls, psi (ls ++ [a ++ [d]]) <= psi (ls ++ [a]).
Proof.
  induction ls as [|x ls IH]; [cbn; lia|]. cbn [app psi]. rewrite !concat_app. cbn [concat]. rewrite !app_nil_r, !app_length. cbn [length]. rewrite app_assoc.
  pose proof (keep_more x (concat ls ++ a) [d]). nia.
Qed.
Lemma samek_sym d x : good d -> good x -> samek d x = samek x d.
Proof.
  intros Gd Gx. destruct (good_de KO legal KC _ Gd) as (k & LK & DK & _). destruct (good_de KO legal KC _ Gx) as (k' & LK' & DK' & _).
  unfold MLogP.samek. rewrite DK, DK'. unfold hask. rewrite DK, DK'. apply eq_true_iff_eq. rewrite !(kc_eqb KO legal KC) by auto. split; congruence.
Qed.
Lemma kept_new src ls : Forall good (concat (src :: ls)) -> forall d, In d (concat ls) -> existsb (samek d) (keep src (concat ls)) = false.
Proof.
  intros G d I. destruct (existsb (samek d) (keep src (concat ls))) eqn:E; auto. exfalso. apply existsb_exists in E. destruct E as (x & IX & S).
  cbn [concat] in G. pose proof (keep_fresh KO legal src (concat ls) [] x) as F. rewrite app_nil_r in F. specialize (F G IX).
  rewrite Forall_forall in G. assert (GD : good d) by (apply G, in_or_app; auto). assert (GX : good x) by (apply keep_in in IX; apply G, in_or_app; auto).
  rewrite samek_sym in S by auto. assert (existsb (samek x) (concat ls) = true) by (apply existsb_exists; eauto). congruence.
Qed.
Lemma keep_twice a later : keep (keep a later) [] = keep a later.
Proof.
  induction a as [|d a IH]; cbn [MLogP.keep]; auto. destruct (existsb (samek d) (a ++ later)) eqn:E; auto. cbn [MLogP.keep]. rewrite app_nil_r, IH.
  destruct (existsb (samek d) (keep a later)) eqn:E2; auto. exfalso. apply existsb_exists in E2. destruct E2 as (x & I & S). apply keep_in in I.
  assert (existsb (samek d) (a ++ later) = true); [|congruence]. apply existsb_exists. exists x. split; auto. apply in_or_app. auto.
Qed.
Lemma psi_mig src ls : Forall good (concat (src :: ls)) ->
  psi (ls ++ [keep src (concat ls)]) + S (length ls) * rooms (keep src (concat ls)) = psi (src :: ls) + cur_room (src :: ls).
Proof. intros G. rewrite psi_snoc by (try (eapply good_tl; eauto); now apply kept_new). rewrite cur_cons by auto. cbn [psi]. lia. Qed.
Lemma cur_mig src ls : Forall good (concat (src :: ls)) -> cur_room (ls ++ [keep src (concat ls)]) = cur_room (src :: ls).
Proof.
  intros G. rewrite cur_cons by auto. unfold cur_room. rewrite concat_app. cbn [concat]. rewrite app_nil_r, (keep_app KO legal) by (eapply good_tl; eauto). rewrite app_nil_r, keep_twice.
  change (keep src (concat ls)) with ([] ++ keep src (concat ls)) at 1. rewrite keep_other by now apply kept_new. rewrite rooms_app. lia.
Qed.

(** Removing keys. *)
Section Rm.
Context (sk : option K).
Notation F := (filter (fun d => negb (mt KO sk d))).
Lemma rm_samek d a : good d -> Forall good a -> mt KO sk d = false -> (match sk with Some k => legal k | None => True end) -> existsb (samek d) (F a) = existsb (samek d) a.
Proof.
  intros Gd Ga M LS. induction Ga as [|x a Gx _ IH]; auto. cbn [filter existsb]. destruct (mt KO sk x) eqn:E; cbn [negb existsb]; [|now rewrite IH]. rewrite IH.
  destruct (samek d x) eqn:S; auto. exfalso. unfold mt in *. destruct sk as [k|]; [|discriminate]. destruct (good_de KO legal KC _ Gd) as (k1 & LK1 & DK1 & _).
  unfold MLogP.samek in S. rewrite DK1 in S. apply (good_hask KO legal KC) in S; auto. apply (good_hask KO legal KC) in E; auto. rewrite S in E. injection E as ->.
  assert (hask KO k d = true) by (now apply (good_hask KO legal KC)). congruence.
Qed.
Lemma rm_keep a later : Forall good (a ++ later) -> (match sk with Some k => legal k | None => True end) -> rooms (keep (F a) (F later)) <= rooms (keep a later).
Proof.
  intros G LS. induction a as [|d a IH]; [cbn; lia|]. cbn [app] in G. inversion G as [|? ? Gd G']; subst. specialize (IH G'). cbn [filter MLogP.keep].
  assert (LE : rooms (keep a later) <= rooms (if existsb (samek d) (a ++ later) then keep a later else d :: keep a later)).
  { destruct (existsb _ _); auto. change (rooms (d :: keep a later)) with (room1 d + rooms (keep a later)). lia. }
  destruct (mt KO sk d) eqn:M; cbn [negb]; [lia|]. cbn [MLogP.keep]. rewrite <- filter_app, rm_samek by auto. destruct (existsb _ _); auto.
  change (rooms (d :: ?x)) with (room1 d + rooms x). lia.
Qed.
Lemma concat_filter ls : concat (map F ls) = F (concat ls).
Proof. induction ls as [|a ls IH]; auto. cbn. now rewrite IH, filter_app. Qed.
Lemma rm_psi ls : Forall good (concat ls) -> (match sk with Some k => legal k | None => True end) -> psi (map F ls) <= psi ls.
Proof.
  intros G LS. induction ls as [|a ls IH]; [cbn; lia|]. specialize (IH (good_tl _ _ G)). cbn [map psi]. rewrite map_length, concat_filter. pose proof (rm_keep a (concat ls) G LS). nia.
Qed.
Lemma live_rmsl sl : live_of (rmsl KO sk sl) = F (live_of sl).
Proof.
  induction sl as [|x sl IH]; auto. unfold live_of, rmsl in *. cbn [map flat_map]. rewrite filter_app, IH. f_equal. destruct x as [d| | |]; cbn; auto. destruct (mt KO sk d); reflexivity.
Qed.
Lemma sizes_rmsl sl : sizes g (rmsl KO sk sl) = sizes g sl.
Proof.
  induction sl as [|x sl IH]; auto. unfold rmsl in *. cbn [map]. rewrite !(WorldP.sizes_cons g), IH. f_equal. destruct x as [d| | |]; cbn; auto. destruct (mt KO sk d); reflexivity.
Qed.
End Rm.

(** * Layouts *)
Definition lsof Y := map live_of (uslots Y).
Lemma content_ls Y : content Y = concat (lsof Y).
Proof. unfold content, lsof. apply flat_map_concat_map. Qed.
Definition pot (R : nat) Y : nat := psi (lsof Y) + (NP - 1 - (y_c Y + y_b Y)) * R.
Definition fill (M : nat) : nat := cap g + W g - M.
Lemma live_map ds : live_of (map SLive ds) = ds.
Proof. unfold live_of. induction ds as [|d ds IH]; auto. cbn. now rewrite IH. Qed.
Lemma des_mops ds : forall (x : nat), des (mops g x ds) = [].
Proof. induction ds as [|d ds IH]; intros x; cbn [mops]; auto. rewrite des_app, des_item. apply IH. Qed.

Notation dens := (dens g).
Notation wgt := (wgt g).
Definition amo (R M : nat) Y (gain : nat) (L : list dop) Y' : Prop :=
  dens M Y' /\ (NP - 1) * (length (des L) * fill M + wgt Y') + pot R Y' <= (NP - 1) * (wgt Y + gain) + pot R Y + length (des L) * R.
Lemma amo_trans R M Y g1 L1 Y1 g2 L2 Y2 : amo R M Y g1 L1 Y1 -> amo R M Y1 g2 L2 Y2 -> amo R M Y (g1 + g2) (L1 ++ L2) Y2.
Proof. intros [_ A] [D B]. split; auto. rewrite des_app, app_length. nia. Qed.
Lemma amo_refl R M Y L : dens M Y -> des L = [] -> amo R M Y 0 L Y.
Proof. intros D E. split; auto. rewrite E. cbn [length]. lia. Qed.

Definition ystok Y : Prop := y_bad Y = 0 /\ y_c Y + y_b Y + y_k Y = NP /\ Forall good (content Y).
(** A page is opened. *)
Lemma amo_start R M Y L : ystok Y -> y_pt Y = None -> 2 <= y_k Y -> cur_room (lsof Y) <= R -> dens M Y -> des L = [] ->
  let Y1 := mklay (y_f Y) (y_cl Y) (Some []) (y_k Y - 1) 0 in amo R M Y 0 L Y1 /\ ystok Y1 /\ cur_room (lsof Y1) <= R.
Proof.
  intros (BZ & TT & G) PT K2 CR D E Y1. rewrite content_ls in G. assert (LS : lsof Y1 = lsof Y ++ [[]]) by (unfold lsof, uslots; cbn [y_cl y_pt Y1]; rewrite PT; cbn [ptl]; now rewrite app_nil_r, map_app).
  split; [|split; [split; [reflexivity|split]|]].
  - split; [exact D|]. rewrite E. cbn [length]. unfold pot. rewrite LS, psi_snoc by auto.
    assert (WE : wgt Y1 = wgt Y) by (rewrite !wgt_eq; unfold y_sl; cbn [y_cl y_pt Y1]; rewrite PT; reflexivity). rewrite WE.
    unfold y_c, y_b in *. cbn [y_cl y_pt ptl length Y1]. rewrite PT in *. cbn [ptl length] in *. nia.
  - unfold y_c, y_b in *. cbn [y_cl y_pt ptl length y_k Y1]. rewrite PT in *. cbn [ptl length] in *. lia.
  - rewrite content_ls, LS, concat_app. cbn [concat]. now rewrite !app_nil_r.
  - rewrite LS. unfold cur_room in *. rewrite concat_app. cbn [concat]. now rewrite !app_nil_r.
Qed.
(** An item is appended. *)
Lemma amo_put R M Y sl d L : y_pt Y = Some sl -> dens M Y -> des L = [] -> amo R M Y (room1 d) L (y_put Y d).
Proof.
  intros PT D E. split; [exact D|]. rewrite E. cbn [length]. rewrite !wgt_eq. unfold y_put, y_sl, pot, y_c, y_b. rewrite PT. cbn [y_cl y_pt ptl length].
  rewrite sizes_app. assert (sizes g [SLive d] = room1 d) as -> by (unfold sizes, item_room; cbn; lia).
  assert (P : psi (lsof (mklay (y_f Y) (y_cl Y) (Some (sl ++ [SLive d])) (y_k Y) (y_bad Y))) <= psi (lsof Y)).
  { unfold lsof, uslots. cbn [y_cl y_pt ptl]. rewrite PT. cbn [ptl]. rewrite !map_app. cbn [map]. unfold live_of at 2. rewrite flat_map_app. cbn [flat_map app]. fold (live_of sl). apply psi_put. }
  nia.
Qed.
(** A page is closed, perhaps with a migration. *)
Lemma amo_adv R M Y sl L1 Y1 pre : ystok Y -> y_pt Y = Some sl -> 1 <= y_k Y -> cap g + W g <= sizes g sl + M -> cur_room (lsof Y) <= R -> dens M Y -> des pre = [] ->
  yadv (y_f Y) (y_cl Y ++ [sl]) (y_k Y - 1) = (L1, Y1) -> amo R M Y 0 (pre ++ L1) Y1 /\ ystok Y1 /\ cur_room (lsof Y1) <= R /\ 1 <= y_k Y1.
Proof.
  intros (BZ & TT & G) PT K1 SZ CR D PE E. rewrite content_ls in G. assert (LS : lsof Y = map live_of (y_cl Y ++ [sl])) by (unfold lsof, uslots; rewrite PT; reflexivity).
  assert (D2 : Forall (fun sl => cap g + W g <= sizes g sl + M) (y_cl Y ++ [sl])) by (apply Forall_app; split; auto).
  assert (WE : wgt Y = sizes g (concat (y_cl Y ++ [sl]))) by (unfold QWearP.wgt, uslots; rewrite PT; reflexivity).
  assert (TC : length (y_cl Y ++ [sl]) + y_k Y = NP). { unfold y_c, y_b in TT. rewrite PT in TT. rewrite app_length. cbn [ptl length] in *. lia. }
  unfold pot in *. unfold y_c at 1, y_b at 1 in TT. clear TT. assert (CB : y_c Y + y_b Y = length (y_cl Y ++ [sl])) by (unfold y_c, y_b; rewrite PT, app_length; reflexivity).
  unfold amo, pot. rewrite WE, CB, LS in *. clear WE LS CB D PT. revert E D2 G CR TC. generalize (y_cl Y ++ [sl]). intros us E D2 G CR TC.
  unfold MStoreP.yadv in E. destruct (y_k Y - 1) as [|k] eqn:EK; [destruct us as [|src cl]; [cbn in TC; lia|]|]; injection E as <- <-.
  - set (kp := keep (live_of src) (flat_map live_of cl)). cbn [map] in *. assert (KP : kp = keep (live_of src) (concat (map live_of cl))) by (unfold kp; now rewrite flat_map_concat_map).
    inversion D2 as [|? ? DS DC]; subst.
    assert (LS1 : lsof (ymig (y_f Y) src cl) = map live_of cl ++ [kp]).
    { unfold lsof, uslots, MMigP.ymig. cbn [y_cl y_pt ptl]. fold kp. rewrite map_app. cbn [map]. now rewrite live_map. }
    pose proof (psi_mig (live_of src) (map live_of cl) G) as PM. pose proof (cur_mig (live_of src) (map live_of cl) G) as CM. rewrite <- KP in PM, CM. rewrite map_length in PM.
    unfold ystok. rewrite content_ls, LS1, CM. cbn [length] in TC.
    assert (DL : forall x, length (des (pre ++ DW x (zeros g) :: migops g KO (y_f Y) src cl)) = 1).
    { intros x. unfold MMigP.migops. rewrite !des_app, PE. cbn [des flat_map app]. rewrite flat_map_app. pose proof des_mops as DM. unfold des in DM. rewrite DM. reflexivity. }
    split; [|split; [split; [reflexivity|split]|split]]; auto.
    + split; [exact DC|]. rewrite DL. unfold MMigP.ymig. fold kp. unfold y_c, y_b. cbn [y_cl y_pt ptl length].
      rewrite wgt_eq. unfold y_sl. cbn [y_cl y_pt concat]. rewrite sizes_app, rooms_live. replace (NP - 1 - (length cl + 1)) with 0 by lia. replace (S (length cl)) with (NP - 1) in PM by lia.
      assert (FM : fill M <= sizes g src) by (unfold fill; lia). nia.
    + unfold MMigP.ymig, y_c, y_b. cbn [y_cl y_pt ptl length y_k]. lia.
    + rewrite concat_app. cbn [concat] in *. rewrite app_nil_r. apply Forall_app in G. apply Forall_app. split; [tauto|]. rewrite KP. apply Forall_forall. intros x I. apply keep_in in I. destruct G as [G _]. rewrite Forall_forall in G. auto.
  - assert (LS1 : lsof (mklay (y_f Y) us (Some []) (S k) 0) = map live_of us ++ [[]]) by (unfold lsof, uslots; cbn [y_cl y_pt ptl]; now rewrite map_app).
    unfold ystok. rewrite content_ls, LS1. assert (CE : concat (map live_of us ++ [[]]) = concat (map live_of us)) by (rewrite concat_app; cbn; now rewrite app_nil_r).
    split; [|split; [split; [reflexivity|split]|split]].
    + split; [exact D2|]. rewrite des_app, PE. cbn [des flat_map app length]. rewrite psi_snoc by auto. unfold y_c, y_b. cbn [y_cl y_pt ptl length]. rewrite wgt_eq. unfold y_sl. cbn [y_cl y_pt]. change (sizes g []) with 0. nia.
    + unfold y_c, y_b. cbn [y_cl y_pt ptl length y_k]. lia.
    + now rewrite CE.
    + unfold cur_room. now rewrite CE.
    + cbn. lia.
Qed.
Definition dgain (x : res unit) (D : list N + err) : nat := match x, D with Ok _, inl d => room1 d | _, _ => 0 end.
Lemma yst_amo R M D : (forall d, D = inl d -> too_big g (length d) = false -> room1 d <= M) -> forall r Y x L Y', ystok Y -> (y_pt Y = None -> 2 <= y_k Y) -> 1 <= y_k Y ->
  cur_room (lsof Y) <= R -> dens M Y -> yst r Y D = (x, L, Y') -> amo R M Y (dgain x D) L Y'.
Proof.
  intros HD. induction r as [|r IH]; intros Y x L Y' OK PK K1 CR DN E; cbn [MStoreP.yst] in E.
  { injection E as <- <- <-. destruct D; now apply amo_refl. }
  destruct (y_pt Y) as [sl|] eqn:PT.
  - destruct (Nat.eqb_spec (y_k Y) 0) as [|_]; [lia|]. destruct D as [d|e]; [|injection E as <- <- <-; now apply amo_refl].
    destruct (too_big g (length d)) eqn:TB; [injection E as <- <- <-; now apply amo_refl|]. specialize (HD d eq_refl TB). destruct (fitsb g sl (length d)) eqn:FT.
    { injection E as <- <- <-. eapply amo_put; eauto. apply des_item. }
    apply QCapP.nofit in FT; auto. destruct (yadv (y_f Y) (y_cl Y ++ [sl]) (y_k Y - 1)) as [L1 Y1] eqn:EA. destruct (yst r Y1 (inl d)) as [[x1 L2] Y2] eqn:E2. injection E as <- <- <-.
    destruct (amo_adv R M Y sl L1 Y1 [DW (dend g (y_cur g Y)) (zeros g)] OK PT K1 ltac:(lia) CR DN eq_refl EA) as (A1 & OK1 & CR1 & K2).
    change (dgain x1 (inl d)) with (0 + dgain x1 (inl d)). eapply amo_trans; [exact A1|]. eapply IH; eauto; [|apply A1].
    unfold MStoreP.yadv in EA. destruct (y_k Y - 1); [destruct (y_cl Y ++ [sl])|]; injection EA as _ <-; discriminate.
  - destruct (yst r _ D) as [[x1 L2] Y2] eqn:E2. injection E as <- <- <-. specialize (PK eq_refl).
    destruct (amo_start R M Y [DW (paddr g (y_cur g Y)) (zeros g)] OK PT PK CR DN eq_refl) as (A1 & OK1 & CR1).
    change (dgain x1 D) with (0 + dgain x1 D). change (DW (paddr g (y_cur g Y)) (zeros g) :: L2) with ([DW (paddr g (y_cur g Y)) (zeros g)] ++ L2); eapply amo_trans; [exact A1|]. eapply IH; [exact OK1|discriminate|cbn; lia|exact CR1|apply A1|exact E2].
Qed.
Lemma amo_rm R M sk Y L : ystok Y -> (match sk with Some k => legal k | None => True end) -> dens M Y -> des L = [] -> amo R M Y 0 L (yrm KO sk Y).
Proof.
  intros (BZ & TT & G) LS D E. rewrite content_ls in G.
  assert (US : uslots (yrm KO sk Y) = map (rmsl KO sk) (uslots Y)) by (unfold uslots, yrm; cbn [y_cl y_pt]; rewrite map_app; destruct (y_pt Y); reflexivity).
  split.
  - unfold QWearP.dens, yrm in *. cbn [y_cl]. apply Forall_forall. intros x I. apply in_map_iff in I. destruct I as (y & <- & I). rewrite sizes_rmsl. rewrite Forall_forall in D. auto.
  - rewrite E. cbn [length].
    assert (WE : wgt (yrm KO sk Y) = wgt Y). { unfold QWearP.wgt. rewrite US. generalize (uslots Y). induction l as [|x l IH]; auto. cbn [map concat]. now rewrite !sizes_app, sizes_rmsl, IH. }
    assert (PE : psi (lsof (yrm KO sk Y)) <= psi (lsof Y)).
    { unfold lsof. rewrite US, map_map. replace (map (fun x => live_of (rmsl KO sk x)) (uslots Y)) with (map (filter (fun d => negb (mt KO sk d))) (map live_of (uslots Y))).
      - apply rm_psi; auto.
      - rewrite map_map. apply map_ext. intros x. symmetry. apply live_rmsl. }
    unfold pot. rewrite WE. assert (CB : y_c (yrm KO sk Y) + y_b (yrm KO sk Y) = y_c Y + y_b Y) by (rewrite <- !uslots_len, US; apply map_length). rewrite CB. lia.
Qed.
End Amo.

(** * Histories *)
Section Hist.
Context {K : Type} (KO : keyops K) (legal : K -> Prop).
Notation m_reached := (m_reached KO legal).
Notation m_holds := (m_holds KO legal).

Lemma m_run_snoc g e : forall evs (s : st K), m_run KO g s (evs ++ [e]) =
  let '(l1, s1) := m_run KO g s evs in match e with MCall c p => let '(a, s2) := m_exec KO g c (power s1 p) in (l1 ++ [a], s2) | MBoot c => (l1, set_ca s1 c) end.
Proof.
  induction evs as [|[c p|c] evs IH]; intros s; cbn [m_run app].
  - destruct e as [c p|c]; cbn [m_run]; auto.
  - destruct (m_exec KO g c (power s p)) as [a s1]. rewrite IH. destruct (m_run KO g s1 evs) as [l1 s2]. destruct e as [c' p'|c']; auto. destruct (m_exec KO g c' (power s2 p')); reflexivity.
  - apply IH.
Qed.
Lemma m_run_len g : forall evs (s : st K), length (fst (m_run KO g s evs)) = length (m_calls evs).
Proof.
  induction evs as [|[c p|c] evs IH]; intros s; cbn [m_run]; auto.
  - destruct (m_exec KO g c (power s p)) as [a s1]. specialize (IH s1). destruct (m_run KO g s1 evs). cbn in *. unfold m_calls in *. cbn. now rewrite IH.
Qed.
Lemma replay_extra x : forall (evs : list (mev K)) l m, length (m_calls evs) <= length l -> replay (k_eqb KO) m evs (l ++ x) = replay (k_eqb KO) m evs l.
Proof.
  induction evs as [|[c p|c] evs IH]; intros l m H; cbn [replay]; auto. unfold m_calls in *. cbn in H. destruct l as [|a l]; cbn [length] in H; [lia|]. cbn [app]. apply IH. lia.
Qed.
Lemma calls_app (a b : list (mev K)) : m_calls (a ++ b) = m_calls a ++ m_calls b. Proof. unfold m_calls. now rewrite flat_map_app. Qed.
Lemma combine_snoc {A B} (a : list A) (b : list B) x y : length a = length b -> combine (a ++ [x]) (b ++ [y]) = combine a b ++ [(x, y)].
Proof. revert b. induction a as [|z a IH]; intros [|w b] H; try discriminate; auto. cbn in *. now rewrite IH by lia. Qed.

Lemma live_room g (gok : geom_ok g) (KC : key_codec KO legal) n aw ks m Y : mgood g true aw KO legal (B0 n) Y -> (forall k, legal k -> m k = value KO k (content Y)) ->
  (forall k, legal k -> m k <> None -> In k ks) -> cur_room g KO (lsof Y) <= room KO g n m ks.
Proof.
  intros MG MV KS. unfold cur_room. rewrite <- content_ls. pose proof MG as (_ & (FB & GG & _) & _). set (D := keep KO (content Y) []).
  assert (CD : copies KO (content Y) D). { pose proof (keep_copies KO legal KC (content Y) [] GG []) as X. cbn [app] in X. now rewrite app_nil_r in X. }
  assert (ND : NoDup (map (dkey KO) D)) by (apply (keep_nodup KO legal KC); auto).
  assert (ID : incl D (content Y)) by (intros x I; eapply keep_in; eauto).
  destruct (list_eq_dec (list_eq_dec N.eq_dec) D []) as [->|NE]; [cbn; lia|]. assert (exists k0, legal k0) as (k0 & _).
  { destruct D as [|x D]; [congruence|]. rewrite Forall_forall in GG. destruct (GG x (ID x (or_introl eq_refl))) as (k2 & _ & _ & _ & LK & _). eauto. } clear NE.
  set (key := fun x => match dkey KO x with Some k => k | None => k0 end).
  assert (PR : forall x, In x D -> exists k', legal k' /\ dkey KO x = Some k' /\ key x = k' /\ m k' = Some (dval KO x) /\ item_bytes KO n k' (dval KO x) = inl x).
  { intros x I. unfold copies in CD. rewrite Forall_forall in CD. destruct (CD x I) as (k' & DK & LS).
    rewrite Forall_forall in GG. pose proof (GG x (ID x I)) as (k2 & n2 & kb & v2 & LK & SE & XE).
    pose proof (good_ser KO legal KC k2 n2 kb v2 LK SE) as (_ & D2 & V2 & L2). rewrite <- XE in D2, V2, L2. assert (k2 = k') by congruence. subst k2.
    exists k'. split; auto. split; auto. split; [unfold key; now rewrite DK|]. split; [rewrite (MV k' LK); unfold value; now rewrite LS|]. rewrite V2.
    assert (LX : length x <= n).
    { specialize (ID x I). unfold content in ID. apply in_flat_map in ID. destruct ID as (sl & I1 & I2). rewrite Forall_forall in FB. specialize (FB sl I1).
      unfold live_of in I2. apply in_flat_map in I2. destruct I2 as (sx & I2 & I3). rewrite Forall_forall in FB. specialize (FB sx I2).
      destruct sx as [y| | |]; cbn in I3; try contradiction. destruct I3 as [->|[]]. cbn in FB. pose proof (rup_ge g gok (length x)). lia. }
    unfold item_bytes. rewrite XE, app_length in LX. rewrite (kc_mono _ _ KC k' n2 kb n LK SE) by lia. destruct (Nat.ltb_spec (n - length kb) (length v2)); [lia|]. now rewrite XE. }
  assert (NK : NoDup (map key D)).
  { clear -ND PR. induction D as [|x D IH]; cbn in *; constructor; inversion ND; subst; [|apply IH; auto]. intros I. apply in_map_iff in I. destruct I as (y & E & I).
    destruct (PR x (or_introl eq_refl)) as (k1 & _ & D1 & E1 & _). destruct (PR y (or_intror I)) as (k2 & _ & D2 & E2 & _). apply H1. rewrite D1. apply in_map_iff. exists y. split; auto. congruence. }
  assert (IK : incl (map key D) ks).
  { intros k' I. apply in_map_iff in I. destruct I as (x & <- & I). destruct (PR x I) as (k1 & LK & _ & -> & MK & _). apply KS; auto. rewrite MK. discriminate. }
  unfold room. set (f := fun k => match m k with Some v => match item_bytes KO n k v with inl d => item_room g d | inr _ => 0 end | None => 0 end) in *.
  pose proof (sum_incl f _ _ NK IK) as SI.
  assert (ER : list_sum (map f (map key D)) = rooms g D).
  { unfold rooms. f_equal. rewrite map_map. apply map_ext_in. intros x I. destruct (PR x I) as (k1 & _ & _ & -> & MK & IB). unfold f. now rewrite MK, IB. }
  now rewrite ER in SI.
Qed.

Lemma amo_hist g n M R ks : forall evs l s, m_reached false g n evs l s -> Forall (msized KO g M) evs -> within KO legal g n ks R evs l ->
  exists Y ae aw, side g true ae aw KO legal n calm0 Y s /\ settled Y /\ dens g M Y /\ (NP g - 1) * (length (f_er (s_fl s)) * fill g M + wgt g Y) + pot g KO R Y <= (NP g - 1) * (list_sum (map (item_room g) (accepted KO evs l)) + R) + length (f_er (s_fl s)) * R.
Proof.
  induction evs as [|e evs IH] using rev_ind; intros l s RE SZ WI.
  - destruct RE as (KC & f & c & ER & FU & FE & FC & ST & EV & _ & E). pose proof ST as (gok & np2 & _). injection E as <- <-.
    destruct (mst_new0 g gok true (f_ae f) (f_aw f) np2 KO legal n f c ER eq_refl eq_refl (fun _ => FU) FC) as (A & B & C). exists (mklay 0 [] None (NP g) 0), (f_ae f), (f_aw f).
    split; [split; [exact A|split; [eapply mgood_B0; exact B|reflexivity]]|]. split; [exact C|]. split; [constructor|]. cbn. rewrite FE. unfold wgt, pot, lsof, uslots, y_c, y_b. cbn. lia.
  - pose proof RE as (KC & f & c & ER & FU & FE & FC & ST & EV & CA & E). pose proof ST as (gok & np2 & _). rewrite m_run_snoc in E. destruct (m_run KO g (st_new f c) evs) as [l1 s1] eqn:E1.
    apply Forall_app in EV. destruct EV as [EV EV2]. apply Forall_app in SZ. destruct SZ as [SZ SZ2].
    assert (R1 : m_reached false g n evs l1 s1) by (split; auto; exists f, c; repeat (split; auto); discriminate).
    pose proof (m_run_len g evs (st_new f c)) as LN. rewrite E1 in LN. cbn [fst] in LN.
    assert (HX : exists x, l = l1 ++ x) by (destruct e as [c' p'|c']; [destruct (m_exec KO g c' (power s1 p')); injection E as <- <-; eauto|injection E as <- <-; exists []; now rewrite app_nil_r]). destruct HX as (x & EL).
    assert (W1 : within KO legal g n ks R evs l1).
    { intros i. specialize (WI (Nat.min i (length evs))). rewrite firstn_app in WI. replace (Nat.min i (length evs) - length evs) with 0 in WI by lia. cbn [firstn] in WI. rewrite app_nil_r, EL in WI.
      replace (firstn (Nat.min i (length evs)) evs) with (firstn i evs) in WI.
      2:{ destruct (Nat.leb_spec i (length evs)); [now rewrite Nat.min_l by lia|]. rewrite Nat.min_r by lia. now rewrite !firstn_all2 by lia. }
      rewrite replay_extra in WI; auto. rewrite LN. rewrite <- (firstn_skipn i evs) at 2. rewrite calls_app, app_length. lia. }
    destruct (IH l1 s1 R1 SZ W1) as (Y & ae & aw & SD & SE & DN & IN). clear IH.
    destruct e as [c' p'|c'].
    2:{ injection E as <- <-. exists Y, ae, aw. destruct SD as (A & B & C). inversion EV2 as [|? ? CF _]; subst. split; [split; [exact (mlay_boot g true ae aw np2 KO legal _ _ _ _ CF A)|split; auto]|].
      split; auto. split; auto. unfold accepted. rewrite calls_app. change (m_calls [MBoot c']) with (@nil (mcall K * option nat)). rewrite app_nil_r. exact IN. }
    apply Forall_inv in EV2. destruct EV2 as (PN & CO). specialize (PN eq_refl). subst p'. destruct (m_exec KO g c' (power s1 None)) as [a s2] eqn:E2. injection E as E3 <-.
    assert (CR : cur_room g KO (lsof Y) <= R).
    { pose proof (m_last KO legal g n evs l1 s1 R1) as HL. destruct (W1 (length evs)) as [KS RM]. rewrite firstn_all in KS, RM. etransitivity; [|exact RM]. eapply live_room; eauto; [apply SD|].
      intros k LK. destruct (HL k (repeat 0%N n) LK ltac:(now rewrite repeat_length)) as (s3 & H3).
      assert (CK : mcall_ok KO legal false g n (MFetch (repeat 0%N n) k)) by (split; auto; rewrite repeat_length; auto).
      destruct (side_step g gok true ae aw np2 KO legal KC n calm0 Y s1 _ _ _ SD (mcall_mcok KO legal false g aw n _ ltac:(split; [exact gok|split; [exact np2|discriminate]]) CK) I H3) as (L & Y' & (AC & _) & _). congruence. }
    assert (CV : covered ae calm0 c' None) by (destruct c'; cbn; auto).
    destruct (side_step g gok true ae aw np2 KO legal KC n calm0 Y s1 c' a s2 SD (mcall_mcok KO legal false g aw n c' ltac:(split; [exact gok|split; [exact np2|discriminate]]) CO) CV E2) as (L & Y1 & AC & RN & SD1 & _).
    assert (OM : okmode calm0 c' = calm0) by (destruct c'; reflexivity). rewrite OM in SD1. assert (BZ : y_bad Y = 0) by (now apply SD).
    assert (SE1 : settled Y1).
    { pose proof SD as ((pg & LY & _) & MG & _). destruct (rops_0 g Y BZ) as [_ RY]. destruct c' as [b k v|b k|b k|b|b bs]; cbn [MExecP.acts] in AC.
      - destruct AC as (x' & -> & YS). destruct (ysto_ok g gok true aw np2 KO legal KC (B0 n) Y pg _ x' L Y1 LY MG (dser_nocorr KO (length b) k v) YS) as (RD & _). now apply (ready_settled g np2).
      - destruct AC as (_ & [[-> _]|(X & _)]); auto. lia.
      - destruct AC as (_ & -> & _). rewrite RY. now apply rm_settled.
      - destruct AC as (_ & -> & _). rewrite RY. now apply rm_settled.
      - destruct AC as (_ & -> & _). auto. }
    set (gain := list_sum (map (item_room g) (accepted KO [MCall c' None] [a]))).
    assert (AM : amo g KO R M Y gain L Y1).
    { assert (OK : ystok g KO legal Y). { pose proof SD as ((pg & LY & _) & MG & _). split; auto. split; [pose proof (lay_total g gok _ _ LY); lia|apply MG]. }
      destruct (rops_0 g Y BZ) as [R0 RY]. destruct c' as [b k v|b k|b k|b|b bs]; cbn [MExecP.acts] in AC.
      - destruct AC as (x' & -> & YS). rewrite (ysto_settled g np2 KO) in YS by auto using dser_nocorr.
        assert (GE : gain = dgain g x' (dser KO (length b) k v)).
        { unfold gain, accepted, dgain. cbn [m_calls flat_map app combine]. change (item_bytes KO (length b) k v) with (dser KO (length b) k v). destruct x' as [[]|]; [|destruct (dser KO (length b) k v); reflexivity]. destruct (dser KO (length b) k v); cbn [app map]; [|reflexivity]. cbn. lia. }
        rewrite GE. destruct SE as [NM S2]. apply (yst_amo g gok np2 KO legal KC R M (dser KO (length b) k v)) with (r := NP g); auto.
        + intros d ED TB. apply Forall_inv in SZ2. cbn [msized] in SZ2. destruct (SZ2 d ED) as [X|X]; auto. apply mbig_is in X. congruence.
        + destruct (y_pt Y) as [sl|] eqn:PT; [unfold nomig in NM; lia|]. specialize (S2 eq_refl). lia.
      - destruct AC as (_ & [[-> ->]|(X & _)]); [|lia]. eapply amo_refl; eauto.
      - destruct AC as (_ & -> & ->). rewrite R0, RY. eapply amo_rm; eauto; [apply CO|apply des_rm].
      - destruct AC as (_ & -> & ->). rewrite R0, RY. eapply amo_rm; eauto; apply des_rm.
      - destruct AC as (_ & -> & ->). eapply amo_refl; eauto. }
    exists Y1, ae, aw. split; auto. split; auto. destruct AM as [DN1 AM]. split; auto.
    rewrite (run_er _ _ _ _ RN). change (f_er (s_fl (power s1 None))) with (f_er (s_fl s1)). rewrite app_length, rev_length, map_length.
    assert (AE : list_sum (map (item_room g) (accepted KO (evs ++ [MCall c' None]) (l1 ++ [a]))) = list_sum (map (item_room g) (accepted KO evs l1)) + gain).
    { unfold accepted at 1. rewrite calls_app. change (m_calls [MCall c' None]) with [(c', @None nat)]. rewrite combine_snoc by lia. rewrite flat_map_app, map_app, list_sum_app. reflexivity. }
    rewrite <- E3, AE. nia.
Qed.

Lemma m_amortised g n M R ks evs l s : m_reached false g n evs l s -> Forall (msized KO g M) evs -> within KO legal g n ks R evs l ->
  (NP g - 1) * (length (f_er (s_fl s)) * (page_cap g + W g - M)) <= (NP g - 1) * (list_sum (map (item_room g) (accepted KO evs l)) + R) + length (f_er (s_fl s)) * R.
Proof. intros RE SZ WI. destruct (amo_hist g n M R ks evs l s RE SZ WI) as (Y & _ & _ & _ & _ & _ & IN). unfold fill in IN. change (page_cap g) with (cap g). nia. Qed.
End Hist.
