(** Erases and writes of queue calls. *)
From Coq Require Import List NArith ZArith Arith Bool Lia ZifyBool ZifyNat ZifyN.
From Verif Require Import Base BaseP Crc CrcP Flash Cache State Item Generic Queue GeomP ScanP WpP ItemP CalcP PageP WorldP LayP QPushP QRepP QIterP QNextP QStepP QMiscP QCallP Client QSpec QObs QHistP QPropsP CapSpec QCapP QSpaceP WearSpec.
Import ListNotations.
Local Opaque crc16 acrc crc32.

Section QWear.
Context (g : geom) (gok : geom_ok g).
Notation HL := (HL g).
Notation rup := (rup g).
Notation NP := (NP g).
Notation W := (W g).
Implicit Types (Y : lay).
Notation room1 := (item_room g).

(** Closed pages are well filled. *)
Definition dens M Y : Prop := Forall (fun sl => cap g + W <= sizes g sl + M) (y_cl Y).
Definition wgt Y : nat := sizes g (concat (uslots Y)).
Lemma wgt_eq Y : wgt Y = sizes g (concat (y_cl Y)) + sizes g (y_sl Y).
Proof. unfold wgt, uslots, y_sl. rewrite concat_app, sizes_app. f_equal. destruct (y_pt Y); cbn [ptl concat]; [now rewrite app_nil_r|reflexivity]. Qed.
Lemma dens_sizes M l : Forall (fun sl => cap g + W <= sizes g sl + M) l -> length l * (cap g + W - M) <= sizes g (concat l).
Proof. induction 1 as [|x l H _ IH]; cbn [length concat]; [cbn; lia|]. rewrite sizes_app. lia. Qed.
Lemma drops_wear M i Y : i <= y_c Y -> dens M Y -> dens M (ydrops g i Y) /\ i * (cap g + W - M) + wgt (ydrops g i Y) <= wgt Y.
Proof.
  intros Hi D. rewrite !wgt_eq. unfold dens, ydrops, y_c in *. cbn [y_cl y_pt y_sl]. rewrite <- (firstn_skipn i (y_cl Y)) in D. apply Forall_app in D. destruct D as [D1 D2]. split; auto.
  apply dens_sizes in D1. rewrite firstn_length, Nat.min_l in D1 by auto. assert (X : sizes g (concat (y_cl Y)) = sizes g (concat (firstn i (y_cl Y))) + sizes g (concat (skipn i (y_cl Y)))) by now rewrite <- sizes_app, <- concat_app, firstn_skipn.
  change (y_sl (mklay ((y_f Y + i) mod NP) (skipn i (y_cl Y)) (y_pt Y) (y_k Y + i) (y_bad Y))) with (y_sl Y). lia.
Qed.
Lemma sizes_set l j a d b : nth j l [] = a ++ SLive d :: b -> sizes g (concat (list_set l j (a ++ SDead (length d) :: b))) = sizes g (concat l).
Proof.
  revert j. induction l as [|x l IH]; intros [|j] N; cbn [list_set nth concat] in *; auto.
  - subst x. now rewrite !(sizes_app g _ (concat l)), sizes_live_dead.
  - now rewrite !sizes_app, IH.
Qed.
Lemma dens_set M l : forall j a d b, nth j l [] = a ++ SLive d :: b -> Forall (fun sl => cap g + W <= sizes g sl + M) l ->
  Forall (fun sl => cap g + W <= sizes g sl + M) (list_set l j (a ++ SDead (length d) :: b)).
Proof.
  induction l as [|x l IH]; intros [|j] a d b N F; cbn [list_set nth] in *; auto; inversion F; subst; constructor; auto. now rewrite sizes_live_dead.
Qed.
Lemma kill_wear M Y Y' : kill Y Y' -> dens M Y -> dens M Y' /\ wgt Y' = wgt Y.
Proof.
  intros (j & a & d & b & Hj & N & ->) D. rewrite !wgt_eq. unfold yset, dens, y_c in *. rewrite uslots_len in Hj. pose proof (y_b_le Y). unfold uslots, y_c, y_b in *.
  destruct (Nat.ltb_spec j (length (y_cl Y))); cbn [y_cl y_pt].
  - rewrite app_nth1 in N by auto. split; [now apply dens_set|]. rewrite sizes_set by auto. reflexivity.
  - rewrite app_nth2 in N by auto. split; auto. f_equal. unfold y_sl. destruct (y_pt Y) as [sl|]; cbn [ptl length y_pt] in *; [|lia].
    replace (j - length (y_cl Y)) with 0 in N by lia. cbn in N. subst sl. apply sizes_live_dead.
Qed.
Lemma step_wear M B pop Y j ap c : (ap = true -> j = 0) -> at_ Y j c -> dens M Y ->
  let '(_, ops, (Y', j', ap', c')) := ystep g B pop Y j ap c in
  dens M Y' /\ length (des ops) * (cap g + W - M) + wgt Y' <= wgt Y /\ (ap' = true -> j' = 0) /\ at_ Y' j' c'.
Proof.
  intros J A D. pose proof (step_shape g B pop Y j ap c J A) as P. destruct (ystep g B pop Y j ap c) as [[r ops] [[[Y' j'] ap'] c']].
  destruct P as (i & I1 & I2 & I3 & _ & I4 & I5). cbv zeta in I2. rewrite I3.
  assert (S1 : dens M (if ap then ydrops g i Y else Y) /\ (if ap then i else 0) * (cap g + W - M) + wgt (if ap then ydrops g i Y else Y) <= wgt Y).
  { destruct ap; [apply drops_wear; auto|]. split; auto. }
  destruct S1 as [S1 S2]. destruct I2 as [->|(_ & K)]; auto. destruct (kill_wear M _ _ K S1) as [K1 K2]. rewrite K2. auto.
Qed.
Lemma script_wear M sc : forall Y j ap c, (ap = true -> j = 0) -> at_ Y j c -> dens M Y ->
  let '(_, ops, Y') := yscript g sc Y j ap c in dens M Y' /\ length (des ops) * (cap g + W - M) + wgt Y' <= wgt Y.
Proof.
  induction sc as [|[b pop] sc IH]; intros Y j ap c J A D; cbn [yscript]; [cbn; split; auto; lia|]. pose proof (step_wear M (length b) pop Y j ap c J A D) as P.
  destruct (ystep g (length b) pop Y j ap c) as [[r ops] [[[Y' j'] ap'] c']]. destruct P as (P0 & P1 & P2 & P3). specialize (IH Y' j' ap' c' P2 P3 P0).
  destruct (yscript g sc Y' j' ap' c') as [[rs ops'] Y2]. destruct IH as [I1 I2]. split; auto. rewrite des_app, app_length. lia.
Qed.
Definition gain (r : res unit) (d : list N) : nat := match r with Ok _ => room1 d | Err _ => 0 end.
Lemma push_wear M yg Y d ow : (too_big g (length d) = false -> room1 d <= M) -> dens M Y ->
  let '(r, L, Y') := ypush g yg Y d ow in dens M Y' /\ length (des L) * (cap g + W - M) + wgt Y' <= wgt Y + gain r d.
Proof.
  intros RM FI. unfold ypush. destruct (too_big g (length d)); [cbn; split; auto; lia|]. specialize (RM eq_refl). destruct (negb yg); [cbn; split; auto; lia|].
  destruct (start_eq Y) as (S1 & S2 & _ & S4). rewrite (wgt_eq Y), <- S1. rewrite <- S2. unfold dens in FI. rewrite <- S2 in FI.
  set (Y1 := y_start Y) in *. clearbody Y1. destruct Y1 as [f cl pt k bad]. cbn [y_pt] in S4. subst pt. cbn [y_cl y_sl y_pt] in *. set (sl := y_sl Y) in *. clearbody sl. clear S1 S2.
  assert (RL : sizes g [SLive d] = room1 d) by (unfold sizes, item_room; cbn; lia).
  destruct (fitsb g sl (length d)) eqn:FT.
  { split; [exact FI|]. rewrite des_app, app_length, des_item. replace (length (des _)) with 0 by (destruct (y_pt Y); reflexivity). cbn [length gain].
    rewrite wgt_eq. cbn [y_cl y_sl y_pt y_put]. rewrite sizes_app, RL. lia. }
  apply nofit in FT; auto.
  destruct (1 <=? _).
  { split; [unfold dens, y_roll; cbn [y_cl y_sl y_pt]; apply Forall_app; split; [exact FI|constructor; [lia|constructor]]|]. rewrite des_app, app_length, des_item. cbn [des flat_map app length gain].
    rewrite wgt_eq. unfold y_roll. cbn [y_cl y_sl y_pt]. rewrite concat_app, sizes_app, RL. cbn [concat]. rewrite app_nil_r. lia. }
  destruct (_ =? 1). { split; [exact FI|]. cbn [des flat_map length gain]. rewrite wgt_eq. cbn [y_cl y_sl y_pt]. lia. }
  destruct cl as [|o cl].
  - destruct ow.
    + split; [constructor|]. rewrite des_app, app_length, des_item. cbn [des flat_map app length gain]. rewrite wgt_eq. cbn [y_cl y_sl y_pt concat]. rewrite RL. lia.
    + split; [exact FI|]. cbn [des flat_map length gain]. rewrite wgt_eq. cbn [y_cl y_sl y_pt]. lia.
  - inversion FI as [|? ? F1 F2]; subst. destruct (ow || emptyish o).
    + split. { unfold dens, y_roll, y_drop. cbn [y_cl y_sl y_pt tl]. apply Forall_app. split; auto. constructor; auto. lia. }
      rewrite des_app, app_length, des_item. cbn [des flat_map app length gain]. rewrite wgt_eq. unfold y_roll, y_drop. cbn [y_cl y_sl y_pt tl concat]. rewrite concat_app, !sizes_app, RL. cbn [concat]. rewrite app_nil_r. lia.
    + split; [exact FI|]. cbn [des flat_map length gain]. rewrite wgt_eq. cbn [y_cl y_sl y_pt]. lia.
Qed.
Definition scall (M : nat) (c : qcall) : Prop := match c with QPush d _ => too_big g (length d) = false -> room1 d <= M | _ => True end.
Definition again (c : qcall) (a : qans) : nat := match c, a with QPush d _, AUnit r => gain r d | _, _ => 0 end.
Lemma act_wear M c Y : y_bad Y = 0 -> scall M c -> dens M Y ->
  let '(a, L, Y') := yact g c Y in dens M Y' /\ length (des L) * (cap g + W - M) + wgt Y' <= wgt Y + again c a.
Proof.
  intros BZ SC D. assert (R0 : rops g Y = []) by (unfold rops; now rewrite BZ). assert (R1 : yrep Y = Y) by now apply yrep_id.
  destruct c as [d ow|b|b|sc| |]; cbn [yact].
  - pose proof (push_wear M (isyoung g (pgof g Y)) Y d ow SC D) as P. unfold qpush. destruct (ypush g _ Y d ow) as [[r L] Y1] eqn:E1. destruct P as [P1 P2].
    destruct r as [u|e]; [split; auto|]. destruct e; try (split; auto). 
    pose proof (push_wear M true (yrep Y1) d ow SC P1) as Q. destruct (ypush g true (yrep Y1) d ow) as [[r2 L2] Y2]. destruct Q as [Q1 Q2]. change (wgt (yrep Y1)) with (wgt Y1) in Q2.
    split; auto. cbn [again gain] in *. assert (RB : rops g Y1 = []).
    { unfold ypush in E1. destruct (too_big g (length d)); [discriminate|]. destruct (negb (isyoung g (pgof g Y))); [congruence|]. exfalso.
      assert (B1 : y_bad (y_start Y) = 0) by (destruct Y as [f cl [sl|] k bad]; exact BZ). rewrite B1 in E1. cbn [Nat.eqb] in E1.
      destruct (fitsb g _ _); [discriminate|]. destruct (1 <=? _); [discriminate|]. destruct (y_cl _) as [|o ?]; [destruct ow; discriminate|]. destruct (ow || emptyish o); discriminate. }
    rewrite RB. rewrite !des_app, !app_length. cbn [des flat_map length]. lia.
  - unfold yone. rewrite R0, R1. pose proof (step_wear M (length b) true Y 0 true (ycur Y) (fun _ => eq_refl) (at_cur Y) D) as P.
    destruct (ystep g (length b) true Y 0 true (ycur Y)) as [[r ops] [[[Y' j'] ap'] c']]. destruct P as (P1 & P2 & _). split; auto. cbn [app again]. lia.
  - unfold yone. rewrite R0, R1. pose proof (step_wear M (length b) false Y 0 true (ycur Y) (fun _ => eq_refl) (at_cur Y) D) as P.
    destruct (ystep g (length b) false Y 0 true (ycur Y)) as [[r ops] [[[Y' j'] ap'] c']]. destruct P as (P1 & P2 & _). split; auto. cbn [app again]. lia.
  - rewrite R0, R1. pose proof (script_wear M sc Y 0 true (ycur Y) (fun _ => eq_refl) (at_cur Y) D) as P.
    destruct (yscript g sc Y 0 true (ycur Y)) as [[r ops] Y']. destruct P as (P1 & P2). split; auto. cbn [app again]. lia.
  - unfold yq. rewrite R0, R1. destruct (mfit g (pgof g Y)) as [|e]; [split; auto; cbn; lia|]. destruct e; split; auto; cbn; lia.
  - unfold yq. rewrite R0, R1. destruct (yspc g (pgof g Y)) as [|e]; [split; auto; cbn; lia|]. destruct e; split; auto; cbn; lia.
Qed.
Lemma wear_run M ae aw evs : forall Y s l s', qst g true ae aw Y s -> y_bad Y = 0 -> dens M Y -> Forall (ev_ok g true aw) evs ->
  Forall (fun e => match e with ECall c _ => scall M c | EBoot _ => True end) evs -> q_run g s evs = (l, s') ->
  exists Y', qst g true ae aw Y' s' /\
    length (f_er (s_fl s')) * (cap g + W - M) + wgt Y' <= length (f_er (s_fl s)) * (cap g + W - M) + wgt Y + list_sum (map room1 (pushed evs l)).
Proof.
  induction evs as [|[c p|c] evs IH]; intros Y s l s' QS BZ FI EV FE E; cbn [q_run] in E.
  - injection E as <- <-. exists Y. split; auto. lia.
  - inversion EV as [|? ? CP EV']; subst. inversion FE as [|? ? FC FE']; subst. destruct CP as [CO PO]. destruct (q_exec g c (power s p)) as [a s1] eqn:E1. destruct (q_run g s1 evs) as [l2 s2] eqn:E2. injection E as <- <-.
    destruct QS as (pg & LY & QI & SW). pose proof (call_spec g gok true ae aw c Y pg _ a s1 LY QI (sworld_power g true ae aw pg s p PO SW) (or_introl eq_refl) CO E1) as C.
    pose proof (yact_rot g gok c Y pg LY QI BZ) as RT. pose proof (act_wear M c Y BZ FC FI) as F1. destruct (yact g c Y) as [[a0 ops] Y1].
    destruct C as [(EA & pg' & L1 & Q1 & W1 & D)|(_ & Yc & pg' & L1 & Q1 & C1 & D)]; [|destruct C1 as (_ & _ & _ & _ & X); discriminate]. cbn [fst snd] in *.
    destruct RT as [RT BZ1]. destruct F1 as [F1 F2]. subst a0. destruct (IH Y1 s1 l2 s2) as (Y' & QS' & LE); auto.
    { exists pg'. split; auto. split; auto. eapply world_sworld; eauto. }
    exists Y'. split; auto. destruct W1 as (R1 & _). apply run_er in R1. rewrite R1, app_length, rev_length, map_length in LE. change (f_er (s_fl (power s p))) with (f_er (s_fl s)) in LE.
    unfold pushed in *. cbn [q_calls flat_map app combine]. fold (q_calls evs). rewrite map_app, list_sum_app.
    assert (G : list_sum (map room1 match c with QPush d _ => match a with AUnit (Ok _) => [d] | _ => [] end | _ => [] end) = again c a).
    { destruct c as [d ow| | | | |]; auto. destruct a as [[|]| | | |]; auto. cbn. lia. }
    rewrite G. lia.
  - inversion EV as [|? ? CF EV']; subst. inversion FE; subst. destruct QS as (pg & LY & QI & SW). apply (IH Y (set_ca s c) l s'); auto.
    exists pg. split; auto. split; auto. apply sworld_boot; auto.
Qed.
End QWear.

Lemma q_amortised g M evs l s : q_reached false g evs l s -> Forall (sized g M) evs ->
  length (f_er (s_fl s)) * (page_cap g + W g - M) <= list_sum (map (item_room g) (pushed evs l)).
Proof.
  intros (f & c & ER & FU & FE & FC & ST & EV & RE) IO. pose proof ST as [gok _]. cbn [negb] in *.
  pose proof (qst_new g gok true (f_ae f) (f_aw f) f c ER eq_refl eq_refl (fun _ => FU) FC) as Q0.
  assert (EV' : Forall (ev_ok g true (f_aw f)) evs) by (eapply Forall_impl; [|exact EV]; intros; eapply (setting_ev false); eauto).
  destruct (wear_run g gok M (f_ae f) (f_aw f) evs _ _ l s Q0 eq_refl) as (Y & QS & LE); auto.
  { constructor. }
  { eapply Forall_impl; [|exact IO]. intros [[d ow|b|b|sc| |] p|c0]; cbn; auto. intros [H|[H|H]] X; auto; exfalso; apply (too_big_fits g gok) in X; destruct X as [X1 X2].
    - unfold fitsb in X1. apply Nat.leb_le in X1. change (sizes g []) with 0 in X1. rewrite cap_is in H. unfold item_room in H. cbn in X1. lia.
    - lia. }
  change (f_er (s_fl (st_new f c))) with (f_er f) in LE. rewrite FE in LE. rewrite cap_is. change (wgt g (mklay 0 [] None (NP g) 0)) with 0 in LE. cbn [length] in LE. lia.
Qed.

(** * Reads *)
Lemma page_in g p x : geom_ok g -> (paddr g p <=? x) && (x <? paddr g p + (pend g p - paddr g p)) = (paddr g p <=? x) && (x <? pend g p).
Proof. intros gok. f_equal. f_equal. unfold paddr, pend. lia. Qed.
Lemma run_erases g ops : geom_ok g -> Forall (fun o => match o with DE _ => True | _ => False end) ops -> forall f f', f_fuel f = None -> run g f ops = (None, f') -> only_erased g (des ops) f f'.
Proof.
  intros gok. pose proof (ES_pos g gok) as EP. induction 1 as [|o ops HO _ IH]; intros f f' FU E; cbn [run] in E.
  - injection E as <-. split; [constructor|]. split; auto.
  - destruct o as [|p]; [contradiction|]. destruct (run1 g f (DE p)) as [[e|] f1] eqn:E1; [discriminate|]. cbn [run1] in E1. unfold dev_erase in E1.
    destruct (chk g (ES g) (paddr g p) (pend g p - paddr g p)) eqn:CK; [discriminate|]. rewrite FU in E1. cbn [spend andb] in E1. injection E1 as <-.
    apply IH in E; [|reflexivity]. destruct E as (A & B & C). cbn [f_er f_mem f_wc] in *.
    assert (HP : p < NP g). { unfold chk in CK. destruct (_ || _ || _); [discriminate|]. destruct ((_ <? _) || (FEND g <? _)) eqn:X; [discriminate|]. apply orb_false_iff in X. destruct X as [_ X].
      apply Nat.ltb_ge in X. unfold FEND, paddr, pend in X. nia. }
    change (des (DE p :: ops)) with (p :: des ops). split; [constructor; auto|]. split.
    + rewrite B. cbn [map rev]. now rewrite <- app_assoc.
    + intros x. rewrite C. cbn [existsb]. unfold mem_ff, wc_zero. rewrite page_in by auto. destruct (existsb _ _), ((paddr g p <=? x) && (x <? pend g p)); reflexivity.
Qed.
Definition looks (c : qcall) : Prop :=
  match c with QPeek _ | QSpace | QMaxFit => True | QIter sc => Forall (fun x => snd x = false) sc | _ => False end.
Section Reads.
Context (g : geom) (gok : geom_ok g).
Notation isDE := (Forall (fun o => match o with DE _ => True | _ => False end)).
Lemma rops_de Y : isDE (rops g Y). Proof. unfold rops. destruct (_ =? 1); repeat constructor. Qed.
Lemma script_de sc : Forall (fun x => snd x = false) sc -> forall Y j ap c, (ap = true -> j = 0) -> at_ Y j c -> isDE (snd (fst (yscript g sc Y j ap c))).
Proof.
  induction 1 as [|[b pop] sc HP _ IH]; intros Y j ap c J A; cbn [yscript]; [constructor|]. cbn in HP. subst pop. pose proof (step_shape g (length b) false Y j ap c J A) as P.
  destruct (ystep g (length b) false Y j ap c) as [[r ops] [[[Y' j'] ap'] c']]. destruct P as (_ & _ & _ & _ & P1 & P2 & P3). specialize (IH Y' j' ap' c' P2 P3).
  destruct (yscript g sc Y' j' ap' c') as [[rs ops'] Y2]. cbn [fst snd] in *. apply Forall_app. auto.
Qed.
Lemma looks_de c Y : looks c -> isDE (snd (fst (yact g c Y))).
Proof.
  intros L. destruct c as [d ow|b|b|sc| |]; try contradiction; cbn [yact].
  - unfold yone. pose proof (step_shape g (length b) false (yrep Y) 0 true (ycur Y) (fun _ => eq_refl) (at_cur (yrep Y))) as P.
    destruct (ystep g (length b) false (yrep Y) 0 true (ycur Y)) as [[r ops] [[[Y' j'] ap'] c']]. destruct P as (_ & _ & _ & _ & P1 & _). cbn [fst snd]. apply Forall_app. auto using rops_de.
  - pose proof (script_de sc L (yrep Y) 0 true (ycur Y) (fun _ => eq_refl) (at_cur (yrep Y))) as P. destruct (yscript g sc (yrep Y) 0 true (ycur Y)) as [[r ops] Y']. cbn [fst snd] in *. apply Forall_app. auto using rops_de.
  - unfold yq. destruct (mfit g (pgof g Y)) as [|e]; [constructor|]. destruct e; try constructor. apply rops_de.
  - unfold yq. destruct (yspc g (pgof g Y)) as [|e]; [constructor|]. destruct e; try constructor. apply rops_de.
Qed.
End Reads.
Lemma q_looks pf g evs l s c a s' : q_reached pf g evs l s -> looks c -> q_does g s c a s' -> exists ps, only_erased g ps (s_fl s) (s_fl s').
Proof.
  intros R LC E. destruct (reached_qst _ _ _ _ _ R) as (ae & aw & Y & ST & QS & _). pose proof (setting_single _ _ _ _ ST) as SG. pose proof ST as [gok _].
  assert (CA : callable pf c) by (destruct c; try contradiction; exact I).
  destruct (does_ok g gok _ ae aw SG Y s c _ _ QS (setting_call _ _ _ _ c ST CA) E) as (_ & _ & _ & RN).
  exists (des (snd (fst (yact g c Y)))). apply (run_erases g _ gok (looks_de g c Y LC) (s_fl (power s None))); auto.
Qed.
Lemma q_queries g evs l s c a s' : q_reached false g evs l s -> c = QSpace \/ c = QMaxFit -> q_does g s c a s' -> untouched (s_fl s) (s_fl s').
Proof.
  intros (f & c0 & ER & FU & FE & FC & ST & EV & RE) HC E. pose proof ST as [gok _].
  pose proof (qst_new g gok true (f_ae f) (f_aw f) f c0 ER eq_refl eq_refl (fun _ => FU) FC) as Q0.
  assert (EV' : Forall (ev_ok g true (f_aw f)) evs) by (eapply Forall_impl; [|exact EV]; intros; eapply (setting_ev false); eauto).
  destruct (hist_ws g gok (f_ae f) (f_aw f) evs _ _ _ _ Q0 eq_refl EV' RE) as (Y & QS & BZ & _).
  assert (CA : callable false c) by (destruct HC; subst c; exact I).
  destruct (does_ok g gok _ _ _ (setting_single false _ _ _ ST) Y s c _ _ QS (setting_call false _ _ _ c ST CA) E) as (_ & _ & _ & RN).
  assert (X : snd (fst (yact g c Y)) = []).
  { assert (R0 : rops g Y = []) by (unfold rops; now rewrite BZ). destruct HC; subst c; cbn [yact]; unfold yq; rewrite R0.
    - destruct (yspc g (pgof g Y)) as [|e]; auto. destruct e; auto.
    - destruct (mfit g (pgof g Y)) as [|e]; auto. destruct e; auto. }
  rewrite X in RN. cbn [run] in RN. injection RN as RN. rewrite <- RN. repeat split; reflexivity.
Qed.
