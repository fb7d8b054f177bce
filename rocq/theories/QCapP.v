(** A queue from which items leave in order never answers that it is full while there is room. *)
From Coq Require Import List NArith ZArith Arith Bool Lia ZifyBool ZifyNat ZifyN.
From Verif Require Import Base BaseP Crc CrcP Flash Cache State Item Generic Queue GeomP ScanP WpP ItemP CalcP PageP WorldP LayP QPushP QRepP QIterP QNextP QStepP QMiscP QCallP Client QSpec QObs QHistP QPropsP CapSpec.
Import ListNotations.
Local Opaque crc16 acrc crc32.

(** Removed items first, then items. *)
Definition form (l : list slot) : Prop := exists D L, l = D ++ map SLive L /\ emptyish D = true.
Lemma emptyish_app a b : emptyish (a ++ b) = emptyish a && emptyish b.
Proof. apply forallb_app. Qed.
Lemma form_live L : form (map SLive L). Proof. exists [], L. auto. Qed.
Lemma form_tl x l : form (x :: l) -> form l.
Proof.
  intros (D & L & E & ED). destruct D as [|y D]; cbn in E.
  - destruct L as [|d L]; [discriminate|]. injection E as _ ->. apply form_live.
  - injection E as <- ->. exists D, L. split; auto. cbn in ED. now apply andb_true_iff in ED.
Qed.
Lemma form_suffix a b : form (a ++ b) -> form b.
Proof. induction a as [|x a IH]; auto. cbn. intros H. apply form_tl in H. auto. Qed.
Lemma form_snoc l d : form l -> form (l ++ [SLive d]).
Proof. intros (D & L & -> & ED). exists D, (L ++ [d]). split; auto. now rewrite map_app, app_assoc. Qed.
Lemma form_hd_live d l : form (SLive d :: l) -> exists L, l = map SLive L.
Proof.
  intros (D & L & E & ED). destruct D as [|y D]; cbn in E.
  - destruct L as [|x L]; [discriminate|]. injection E as _ ->. eauto.
  - injection E as <- _. discriminate.
Qed.
Lemma form_kill X d Z n : emptyish X = true -> form (X ++ SLive d :: Z) -> form (X ++ SDead n :: Z).
Proof.
  intros EX F. apply form_suffix in F. apply form_hd_live in F. destruct F as (L & ->). exists (X ++ [SDead n]), L. rewrite <- app_assoc. split; auto.
  rewrite emptyish_app, EX. reflexivity.
Qed.
(** After a live slot everything is live. *)
Lemma form_after o r : form (o ++ r) -> emptyish o = false -> exists L, r = map SLive L.
Proof.
  revert r. induction o as [|x o IH]; intros r F E; [discriminate|]. cbn [app] in F. cbn in E. destruct (skipped is_erased_hdr x) eqn:SX.
  - apply form_tl in F. apply IH; auto.
  - destruct F as (D & L & E2 & ED). destruct D as [|y D]; cbn in E2.
    + destruct L as [|d L]; [discriminate|]. injection E2 as -> E2. symmetry in E2. apply map_eq_app in E2. destruct E2 as (l1 & l2 & -> & _ & <-). eauto.
    + injection E2 as <- _. cbn in ED. rewrite SX in ED. discriminate.
Qed.
Lemma form_some o r : form (o ++ r) -> emptyish o = false -> live_of o <> [].
Proof.
  induction o as [|x o IH]; intros F E; [discriminate|]. cbn [app] in F. cbn in E. destruct (skipped is_erased_hdr x) eqn:SX.
  - apply form_tl in F. specialize (IH F E). unfold live_of in *. cbn [flat_map]. intros X. apply app_eq_nil in X. tauto.
  - destruct F as (D & L & E2 & ED). destruct D as [|y D]; cbn in E2.
    + destruct L as [|d L]; [discriminate|]. injection E2 as -> _. cbn. discriminate.
    + injection E2 as <- _. cbn in ED. rewrite SX in ED. discriminate.
Qed.

Section QCap.
Context (g : geom) (gok : geom_ok g).
Notation HL := (HL g).
Notation rup := (rup g).
Notation NP := (NP g).
Implicit Types (Y : lay).
Notation room1 := (item_room g).

Lemma search_form B l : form l ->
  match search g B l with
  | NFound d post => exists pre, l = pre ++ SLive d :: post /\ emptyish pre = true
  | NNone => emptyish l = true
  | NSmall _ _ => True
  end.
Proof.
  induction l as [|x l IH]; intros F; cbn [search]; auto. pose proof (IH (form_tl _ _ F)) as I. destruct x as [d|n|n c|].
  - destruct (rup (length d) <=? B); auto. now exists [].
  - destruct (search g B l); auto. destruct I as (pre & -> & E). exists (SDead n :: pre). auto.
  - exfalso. destruct F as (D & L & E & ED). destruct D as [|y D]; cbn in E; [destruct L; discriminate|]. injection E as <- _. discriminate.
  - destruct (search g B l); auto. destruct I as (pre & -> & E). eexists (_ :: pre). split; [reflexivity|]. exact E.
Qed.
Lemma nspec_form B : forall later rest p d post ops i, form (rest ++ concat later) -> nspec g B true p rest later = (NFound d post, ops, i) ->
  i <= length later /\ exists pre, emptyish pre = true /\ nth i (rest :: later) [] = pre ++ SLive d :: post.
Proof.
  induction later as [|sl t IH]; intros rest p d post ops i F E; cbn [nspec] in E; pose proof (search_form B rest) as SF.
  - cbn [concat] in F. rewrite app_nil_r in F. specialize (SF F). destruct (search g B rest) eqn:ES; try discriminate. injection E as -> -> <- <-.
    split; auto. destruct SF as (pre & -> & EP). exists pre. auto.
  - cbn [concat] in F. destruct (search g B rest) as [d0 post0| |] eqn:ES; try discriminate.
    + injection E as -> -> <- <-. split; [lia|]. cbn [nth].
      (* the page itself has the form *)
      clear -F ES. revert F ES. induction rest as [|x l IH]; intros F ES; cbn [search] in ES; [discriminate|]. cbn [app] in F.
      pose proof (form_tl _ _ F) as F'. destruct x as [d1|n|n c|].
      * destruct (rup (length d1) <=? B); [|discriminate]. injection ES as -> ->. now exists [].
      * destruct (IH F' ES) as (pre & E1 & ->). exists (SDead n :: pre). auto.
      * exfalso. destruct F as (D & L & E & ED). destruct D as [|y D]; cbn in E; [destruct L; discriminate|]. injection E as <- _. discriminate.
      * destruct (IH F' ES) as (pre & E1 & ->). eexists (_ :: pre). split; [|reflexivity]. exact E1.
    + destruct (nspec g B true (next_page g p) sl t) as [[r L] i0] eqn:E2. injection E as -> _ <-. apply form_suffix in F.
      destruct (IH sl _ _ _ _ _ F E2) as (I1 & pre & I2 & I3). split; [cbn; lia|]. exists pre. split; auto.
Qed.

Definition fifo (M : nat) Y : Prop := Forall (fun sl => cap g + W g <= sizes g sl + M) (y_cl Y) /\ form (concat (uslots Y)).

Lemma fifo_drops M i Y : fifo M Y -> fifo M (ydrops g i Y).
Proof.
  intros [A F]. destruct Y as [f cl pt k bad]. unfold fifo, ydrops, uslots in *. cbn [y_cl y_pt] in *. split.
  - rewrite Forall_forall in *. intros x I. apply A. rewrite <- (firstn_skipn i cl). apply in_or_app. auto.
  - rewrite <- (firstn_skipn i cl), <- app_assoc, concat_app in F. eapply form_suffix; eauto.
Qed.
Lemma fifo_step M B pop Y : fifo M Y -> fifo M (fst (fst (fst (snd (ystep g B pop Y 0 true (ycur Y)))))).
Proof.
  intros FI. unfold ystep. destruct (nspec g B true ((y_f Y + 0) mod NP) (ycur Y) (later Y 0)) as [[nr ops] i] eqn:E.
  pose proof (fifo_drops M i Y FI) as FD. destruct nr as [d post| |n rs]; cbn [fst snd]; auto. destruct pop; cbn [fst snd]; auto.
  assert (NE : exists u us, uslots Y = u :: us).
  { destruct (uslots Y) as [|u us] eqn:U; eauto. exfalso. unfold ycur, later in E. rewrite U in E. cbn in E. discriminate. }
  destruct NE as (u & us & U). unfold ycur, later in E. rewrite U in E. cbn [nth skipn] in E.
  destruct (strip_split u) as (a & EU & EA). pose proof FI as [A F]. rewrite U in F. cbn [concat] in F. rewrite EU, <- app_assoc in F. apply form_suffix in F.
  destruct (nspec_form B us (strip u) _ d post ops i F E) as (LI & pre & EP & EN).
  assert (LU : length (uslots Y) = S (length us)) by (rewrite U; reflexivity). assert (IC : i <= length (y_cl Y)).
  { unfold uslots in LU. rewrite app_length in LU. destruct (y_pt Y); cbn in LU; lia. }
  assert (UD : uslots (ydrops g i Y) = skipn i (uslots Y)).
  { unfold uslots, ydrops. cbn [y_cl y_pt]. rewrite skipn_app. replace (i - length (y_cl Y)) with 0 by lia. reflexivity. }
  assert (SL : exists pre0, nth 0 (uslots (ydrops g i Y)) [] = pre0 ++ SLive d :: post /\ emptyish pre0 = true).
  { rewrite UD, U. destruct i as [|i]; cbn [skipn nth] in *.
    - exists (a ++ pre). rewrite EU, EN, app_assoc. split; auto. now rewrite emptyish_app, EA, EP.
    - exists pre. rewrite <- EN. split; auto. clear. revert i. induction us as [|x us IH]; intros [|i]; cbn; auto. }
  destruct SL as (pre0 & SL & EP0). rewrite SL. replace (length (pre0 ++ SLive d :: post) - S (length post)) with (length pre0) by (rewrite app_length; cbn; lia).
  rewrite firstn_app, Nat.sub_diag, firstn_all. cbn [firstn]. rewrite app_nil_r.
  set (Y' := ydrops g i Y) in *. assert (LY : 1 <= length (uslots Y')) by (rewrite UD, skipn_length; lia).
  clearbody Y'. destruct Y' as [f' cl' pt' k' bad']. unfold fifo, yset, uslots in *. cbn [y_f y_cl y_pt y_k y_bad y_c] in *. destruct FD as [A' F'].
  unfold y_c. cbn [y_cl]. destruct cl' as [|o cl']; cbn [length Nat.ltb Nat.leb y_cl y_pt] in *.
  - split; [constructor|]. cbn [ptl app concat]. rewrite app_nil_r. destruct pt' as [sl|]; cbn [ptl app concat nth] in *; [|cbn in LY; lia].
    subst sl. rewrite app_nil_r in F'. eapply form_kill; eauto.
  - cbn [list_set app concat nth] in *. subst o. inversion A'; subst. split.
    + constructor; auto. now rewrite sizes_live_dead.
    + rewrite <- app_assoc in *. cbn [app] in *. eapply form_kill; eauto.
Qed.
Lemma fifo_walk M sc : Forall (fun x => snd x = false) sc -> forall Y j ap c, fifo M Y -> fifo M (snd (yscript g sc Y j ap c)).
Proof.
  induction 1 as [|[b pop] sc H _ IH]; intros Y j ap c A; cbn [yscript]; auto. cbn in H. subst pop.
  assert (R : fifo M (fst (fst (fst (snd (ystep g (length b) false Y j ap c)))))).
  { unfold ystep. destruct (nspec g (length b) ap ((y_f Y + j) mod NP) c (later Y j)) as [[nr ops] i].
    assert (fifo M (if ap then ydrops g i Y else Y)) by (destruct ap; auto using fifo_drops). destruct nr; auto. }
  destruct (ystep g (length b) false Y j ap c) as [[r ops] [[[Y' j'] ap'] c']]. cbn [fst snd] in R.
  specialize (IH Y' j' ap' c' R). destruct (yscript g sc Y' j' ap' c') as [[rs ops'] Y2]. exact IH.
Qed.

Lemma nofit d sl : fitsb g sl (length d) = false -> cap g + W g <= sizes g sl + room1 d.
Proof.
  unfold fitsb, item_room. intros X. apply Nat.leb_gt in X.
  apply (al_lt_le g gok); auto; [apply (al_sub g gok); [apply (al_ES g gok)|rewrite Nat.mul_comm; apply (al_mul g gok), (al_W g gok)]|].
  apply (al_add g gok); [apply sizes_al; exact gok|]. apply (al_add g gok); [apply (al_HL g gok)|apply (al_rup g gok)].
Qed.
Lemma start_eq Y : y_sl (y_start Y) = y_sl Y /\ y_cl (y_start Y) = y_cl Y /\ concat (uslots (y_start Y)) = concat (uslots Y) /\ y_pt (y_start Y) = Some (y_sl Y).
Proof. destruct Y as [f cl [sl|] k bad]; unfold y_start, y_sl, uslots; cbn; auto. rewrite !concat_app. cbn. auto. Qed.
Lemma fifo_push M yg Y d ow : (too_big g (length d) = false -> room1 d <= M) -> fifo M Y -> fifo M (snd (ypush g yg Y d ow)).
Proof.
  intros RM FI. unfold ypush. destruct (too_big g (length d)); auto. specialize (RM eq_refl). destruct (negb yg); auto.
  destruct (start_eq Y) as (S1 & S2 & S3 & S4). assert (F1 : fifo M (y_start Y)) by (unfold fifo in *; rewrite S2, S3; exact FI).
  set (Y1 := y_start Y) in *. clearbody Y1. destruct Y1 as [f cl pt k bad]. cbn [y_pt] in S4. subst pt. cbn in S1, S2. set (sl := y_sl Y) in *. clearbody sl. clear S1 S2 S3 FI.
  destruct F1 as [A F]. unfold uslots in F. cbn [y_cl y_pt ptl] in A, F. rewrite concat_app in F. cbn [concat] in F. rewrite app_nil_r in F. cbn [y_sl y_pt].
  destruct (fitsb g sl (length d)) eqn:FT.
  { cbn [snd]. unfold fifo, y_put, uslots. cbn [y_cl y_pt y_sl ptl]. split; auto. rewrite concat_app. cbn [concat]. rewrite app_nil_r, app_assoc. now apply form_snoc. }
  apply nofit in FT.
  assert (RL : forall f k b cl', (exists a, cl = a ++ cl') -> fifo M (y_roll (mklay f cl' (Some sl) k b) d)).
  { intros f0 k0 b0 cl' (a & ->). unfold fifo, y_roll, uslots. cbn [y_cl y_pt y_sl ptl]. split.
    - apply Forall_app in A. destruct A as [_ A]. apply Forall_app. split; auto. constructor; auto. lia.
    - rewrite !concat_app. cbn [concat]. rewrite !app_nil_r. apply form_snoc. rewrite concat_app, <- app_assoc in F. eapply form_suffix; eauto. }
  destruct (1 <=? _). { apply RL. now exists []. }
  destruct (_ =? 1). { unfold fifo, uslots. cbn. split; auto. rewrite concat_app. cbn. now rewrite app_nil_r. }
  cbn [y_cl]. destruct cl as [|o cl].
  - destruct ow; cbn [snd]. { split; [constructor|]. cbn. apply (form_live [d]). } unfold fifo, uslots. cbn in *. split; auto. now rewrite app_nil_r.
  - destruct (ow || emptyish o); cbn [snd]. { apply RL. now exists [o]. }
    unfold fifo, uslots. cbn. split; auto. rewrite concat_app. cbn in *. now rewrite app_nil_r, app_assoc.
Qed.
(** Calls by which items leave in order. *)
Definition fcall (M : nat) (c : qcall) : Prop :=
  match c with
  | QPush d _ => too_big g (length d) = false -> room1 d <= M
  | QIter sc => Forall (fun x => snd x = false) sc
  | _ => True
  end.
Lemma fifo_act M c Y : y_bad Y = 0 -> fcall M c -> fifo M Y -> fifo M (snd (yact g c Y)).
Proof.
  intros BZ FC FI. assert (FR : fifo M (yrep Y)) by exact FI. destruct c as [d ow|b|b|sc| |]; cbn [yact].
  - pose proof (fifo_push M (isyoung g (pgof g Y)) Y d ow FC FI) as P. unfold qpush. destruct (ypush g _ Y d ow) as [[r L] Y1]. cbn [snd] in P.
    assert (P2 : fifo M (snd (ypush g true (yrep Y1) d ow))) by (apply fifo_push; auto).
    destruct r as [u|e]; [exact P|]. destruct e; try exact P. destruct (ypush g true (yrep Y1) d ow) as [[r2 L2] Y2]. exact P2.
  - unfold yone. pose proof (fifo_step M (length b) true (yrep Y) FR) as P. change (ycur (yrep Y)) with (ycur Y) in P.
    destruct (ystep g (length b) true (yrep Y) 0 true (ycur Y)) as [[r ops] [[[Y' j'] ap'] c']]. exact P.
  - unfold yone. pose proof (fifo_step M (length b) false (yrep Y) FR) as P. change (ycur (yrep Y)) with (ycur Y) in P.
    destruct (ystep g (length b) false (yrep Y) 0 true (ycur Y)) as [[r ops] [[[Y' j'] ap'] c']]. exact P.
  - pose proof (fifo_walk M sc FC (yrep Y) 0 true (ycur Y) FR) as P. destruct (yscript g sc (yrep Y) 0 true (ycur Y)) as [[rs ops] Y2]. exact P.
  - unfold yq. destruct (mfit g (pgof g Y)) as [|e]; auto. destruct e; auto.
  - unfold yq. destruct (yspc g (pgof g Y)) as [|e]; auto. destruct e; auto.
Qed.
Lemma fifo_run M ae aw evs : forall Y s l s', qst g true ae aw Y s -> y_bad Y = 0 -> fifo M Y -> Forall (ev_ok g true aw) evs ->
  Forall (fun e => match e with ECall c _ => fcall M c | EBoot _ => True end) evs -> q_run g s evs = (l, s') ->
  exists Y', qst g true ae aw Y' s' /\ y_bad Y' = 0 /\ fifo M Y'.
Proof.
  induction evs as [|[c p|c] evs IH]; intros Y s l s' QS BZ FI EV FE E; cbn [q_run] in E.
  - injection E as <- <-. eauto.
  - inversion EV as [|? ? CP EV']; subst. inversion FE as [|? ? FC FE']; subst. destruct CP as [CO PO]. destruct (q_exec g c (power s p)) as [a s1] eqn:E1. destruct (q_run g s1 evs) as [l2 s2] eqn:E2. injection E as <- <-.
    destruct QS as (pg & LY & QI & SW). pose proof (call_spec g gok true ae aw c Y pg _ a s1 LY QI (sworld_power g true ae aw pg s p PO SW) (or_introl eq_refl) CO E1) as C.
    pose proof (yact_rot g gok c Y pg LY QI BZ) as RT. pose proof (fifo_act M c Y BZ FC FI) as F1. destruct (yact g c Y) as [[a0 ops] Y1]. cbn [snd fst] in F1.
    destruct C as [(_ & pg' & L1 & Q1 & W1 & D)|(_ & Yc & pg' & L1 & Q1 & C1 & D)]; [|destruct C1 as (_ & _ & _ & _ & X); discriminate]. cbn [fst snd] in *.
    destruct RT as [RT BZ1]. apply (IH Y1 s1 l2 s2); auto. exists pg'. split; auto. split; auto. eapply world_sworld; eauto.
  - inversion EV as [|? ? CF EV']; subst. inversion FE; subst. destruct QS as (pg & LY & QI & SW). apply (IH Y (set_ca s c) l s'); auto.
    exists pg. split; auto. split; auto. apply sworld_boot; auto.
Qed.

(** A full queue. *)
Lemma live_sizes L : sizes g (map SLive L) = list_sum (map room1 L).
Proof. unfold sizes. rewrite map_map. reflexivity. Qed.
Lemma live_map L : live_of (map SLive L) = L.
Proof. induction L as [|d L IH]; auto. cbn. unfold live_of in IH. now rewrite IH. Qed.
Lemma full_fifo M yg Y d L Y' : 2 <= NP -> y_c Y + y_b Y + y_k Y + y_bad Y = NP -> y_bad Y = 0 -> qinv Y -> fifo M Y -> ypush g yg Y d false = (Err EFull, L, Y') ->
  (NP - 2) * (cap g + W g - M) + (cap g + W g - room1 d) + HL <= list_sum (map room1 (content Y)).
Proof.
  intros N2 TT BZ QI FI E. unfold ypush in E. destruct (too_big g (length d)); [discriminate|]. destruct (negb yg); [discriminate|].
  destruct (start_eq Y) as (S1 & S2 & S3 & S4). assert (F1 : fifo M (y_start Y)) by (unfold fifo in *; rewrite S2, S3; exact FI).
  assert (CE : content (y_start Y) = content Y). { unfold content. rewrite !flat_map_concat_map. destruct Y as [f cl [sl|] k bad]; auto. unfold uslots. cbn. now rewrite !map_app, !concat_app. }
  assert (T1 : y_c (y_start Y) + 1 + y_k (y_start Y) + y_bad (y_start Y) = NP).
  { destruct QI as (Q1 & _). destruct Y as [f cl [sl|] k bad]; unfold y_c, y_b, y_start in *; cbn in *; [lia|]. specialize (Q1 eq_refl). lia. }
  assert (B1 : y_bad (y_start Y) = 0) by (destruct Y as [f cl [sl|] k bad]; exact BZ). rewrite <- CE. set (Y1 := y_start Y) in *. clearbody Y1. destruct Y1 as [f cl pt k bad]. cbn [y_pt] in S4. subst pt. unfold y_c in T1. cbn [y_cl y_k y_bad y_sl y_pt] in *.
  set (sl := y_sl Y) in *. clearbody sl. clear S1 S2 S3 FI CE TT QI BZ. subst bad.
  destruct (fitsb g sl (length d)) eqn:FT; [discriminate|]. apply nofit in FT. destruct (Nat.leb_spec 1 k) as [|K0]; [discriminate|]. cbn [Nat.eqb] in E.
  destruct F1 as [A F]. unfold uslots in F. cbn [y_cl y_pt ptl] in A, F. destruct cl as [|o cl]. { exfalso. cbn in T1. lia. }
  cbn [orb] in E. destruct (emptyish o) eqn:EO; [discriminate|]. clear E. cbn [app concat] in F.
  destruct (form_after _ _ F EO) as (L0 & EL). pose proof (form_some _ _ F EO) as LO. rewrite concat_app in EL. cbn [concat] in EL. rewrite app_nil_r in EL.
  inversion A as [|? ? _ A']; subst. unfold content, uslots. cbn [y_cl y_pt ptl app flat_map]. rewrite flat_map_app. cbn [flat_map]. rewrite app_nil_r.
  assert (LV : flat_map live_of cl ++ live_of sl = L0).
  { rewrite <- (live_map L0), <- EL. unfold live_of. rewrite flat_map_app. f_equal. clear. induction cl as [|x l IH]; auto. cbn. now rewrite flat_map_app, IH. }
  rewrite LV, map_app, list_sum_app. rewrite <- (live_sizes L0), <- EL, sizes_app.
  assert (SC : (NP - 2) * (cap g + W g - M) <= sizes g (concat cl)).
  { cbn in T1. replace (NP - 2) with (length cl) by lia. clear -A'. induction A' as [|x l H _ IH]; cbn [length concat]; [cbn; lia|]. rewrite sizes_app. lia. }
  assert (RO : HL <= list_sum (map room1 (live_of o))).
  { destruct (live_of o) as [|x t]; [congruence|]. cbn [map]. change (HL <= room1 x + list_sum (map room1 t)). unfold item_room. lia. }
  lia.
Qed.
Lemma full_q M yg Y d L Y' : 2 <= NP -> y_c Y + y_b Y + y_k Y + y_bad Y = NP -> y_bad Y = 0 -> qinv Y -> fifo M Y -> qpush g yg Y d false = (Err EFull, L, Y') ->
  (NP - 2) * (cap g + W g - M) + (cap g + W g - room1 d) + HL <= list_sum (map room1 (content Y)).
Proof.
  intros N2 TT BZ QI FI E. unfold qpush in E. destruct (ypush g yg Y d false) as [[r L1] Y1] eqn:E1.
  destruct r as [u|e]; [discriminate|]. destruct e; try discriminate.
  - injection E as _ <-. eapply full_fifo; eauto.
  - destruct (ypush g true (yrep Y1) d false) as [[r2 L2] Y2] eqn:E2. injection E as -> _ _.
    assert (Y1 = Y).
    { unfold ypush in E1. destruct (too_big g (length d)); [discriminate|]. destruct (negb yg); [congruence|]. exfalso.
      assert (B1 : y_bad (y_start Y) = 0) by (destruct Y as [f cl [sl|] k bad]; exact BZ). rewrite B1 in E1. cbn [Nat.eqb] in E1.
      destruct (fitsb g _ _); [discriminate|]. destruct (1 <=? _); [discriminate|]. destruct (y_cl _) as [|o ?]; cbn [orb] in E1; [discriminate|]. destruct (emptyish o); discriminate. }
    subst Y1. assert (ER : yrep Y = Y) by (destruct Y as [f cl pt k bad]; cbn in BZ; subst bad; unfold yrep; cbn; f_equal; lia). rewrite ER in E2. eapply full_fifo; eauto.
Qed.
End QCap.

Lemma in_order_fcall g M evs : geom_ok g -> Forall (in_order g M) evs -> Forall (fun e => match e with ECall c _ => fcall g M c | EBoot _ => True end) evs.
Proof.
  intros gok. apply Forall_impl. intros [[d ow|b|b|sc| |] p|c]; cbn; auto. intros [H|[H|H]] X; auto; exfalso; apply (too_big_fits g gok) in X; destruct X as [X1 X2].
  - unfold fitsb in X1. apply Nat.leb_le in X1. change (sizes g []) with 0 in X1. rewrite cap_is in H. unfold item_room in H. cbn in X1. lia.
  - lia.
Qed.

Lemma q_room g M evs l s q d r s' : 2 <= NP g -> q_reached false g evs l s -> Forall (in_order g M) evs -> q_holds g s q -> item_ok false d -> ~ too_long g d ->
  q_does g s (QPush d false) (AUnit r) s' ->
  list_sum (map (item_room g) q) < (NP g - 2) * (page_cap g + W g - M) + (page_cap g + W g - item_room g d) + HL g -> r = Ok tt.
Proof.
  intros N2 R IO H I NT E LT. pose proof R as (f & c & ER & FU & _ & FC & ST & EV & RE). pose proof (setting_single _ _ _ _ ST) as SG. pose proof ST as [gok _]. cbn [negb] in *.
  pose proof (qst_new g gok true (f_ae f) (f_aw f) f c ER eq_refl eq_refl (fun _ => FU) FC) as Q0.
  assert (EV' : Forall (ev_ok g true (f_aw f)) evs) by (eapply Forall_impl; [|exact EV]; intros; eapply (setting_ev false); eauto).
  destruct (fifo_run g gok M (f_ae f) (f_aw f) evs _ _ l s Q0 eq_refl) as (Y & QS & BZ & FI); auto.
  { split; [constructor|]. apply (form_live []). }
  { now apply in_order_fcall. }
  rewrite (holds_eq g gok true _ _ SG Y s q QS H) in LT.
  destruct (does_ok g gok true _ _ SG Y s _ _ _ QS (setting_call false _ _ _ (QPush d false) ST I) E) as (A1 & _ & D & _).
  inversion D; subst; auto; try (exfalso; apply NT; assumption); try discriminate.
  exfalso. cbn [yact] in A1. pose proof QS as (pg & LY & QI & _). pose proof (full_q g gok M (isyoung g (pgof g Y)) Y d) as FQ.
  destruct (qpush g _ Y d false) as [[r1 o1] Y1]. cbn [fst snd] in A1. injection A1 as <-.
  destruct (lay_ring (NP g) Y pg (npos g gok) LY) as (T1 & T2 & T3 & T4 & _). specialize (FQ o1 Y1 N2 T2 BZ QI FI eq_refl). rewrite cap_is in LT. lia.
Qed.
