(** Histories of queue calls with power failures and restarts. *)
From Coq Require Import List NArith ZArith Arith Bool Lia ZifyBool ZifyNat ZifyN.
From Verif Require Import Base BaseP Crc CrcP Flash Cache State Item Generic Queue GeomP ScanP WpP ItemP CalcP PageP WorldP LayP QPushP QRepP QIterP QNextP QStepP QMiscP QCallP Client QSpec.
Import ListNotations.
Local Opaque crc16 acrc crc32.

Section Hist.
Context (g : geom) (gok : geom_ok g) (ws ae : bool) (aw : nat) (SG : single_ok g ws ae).
Notation W := (W g).
Notation HL := (HL g).
Notation rup := (rup g).
Notation NP := (NP g).
Notation st := (st unit).
Implicit Types (s : st) (pg : nat -> page) (Y : lay).
Notation world := (world g ws ae aw).
Notation crashed := (crashed g ws ae aw).
Notation sworld := (sworld g ws ae aw).

Definition qst Y s : Prop := exists pg, layok NP Y pg /\ qinv Y /\ sworld pg s.
Definition ev_ok (e : qev) : Prop :=
  match e with
  | ECall c p => call_ok g ws aw c /\ (ws = true -> p = None)
  | EBoot c => fresh_cache NP c
  end.

Lemma sworld_power pg s p : (ws = true -> p = None) -> sworld pg s -> sworld pg (power s p).
Proof. intros H ((A & B & C & D & E) & F). split; [|exact F]. split; [exact A|]. split; [exact B|]. split; [exact C|]. split; [exact D|exact H]. Qed.

Lemma coh_fresh pg (c : cache unit) : fresh_cache NP c -> wfc g c /\ coh g pg c.
Proof.
  intros (_ & PS & PP & _). split; [|split].
  - unfold wfc. destruct PS as [|n H|]; unfold wfps; auto. now rewrite repeat_length.
  - destruct PS as [|n H|]; unfold coh_ps; auto.
    + rewrite repeat_length. split; auto. intros p x Hp E. apply nth_error_In, repeat_spec in E. discriminate.
    + apply calc_new_coh.
  - destruct PP as [|n m H1 H2]; unfold coh_pp; auto. intros p Hp. unfold lookup.
    split; intros a E; exfalso.
    + destruct (nth_error (repeat None n) p) as [o|] eqn:E2; [|discriminate]. apply nth_error_In, repeat_spec in E2. subst o. discriminate.
    + destruct (nth_error (repeat None m) p) as [o|] eqn:E2; [|discriminate]. apply nth_error_In, repeat_spec in E2. subst o. discriminate.
Qed.

Lemma sworld_boot pg s c : fresh_cache NP c -> sworld pg s -> sworld pg (set_ca s c).
Proof. intros F (A & _). destruct (coh_fresh pg c F). split; [exact A|]. split; auto. Qed.

Lemma qst_new f c : erased g f -> f_ae f = ae -> f_aw f = aw -> (ws = true -> f_fuel f = None) -> fresh_cache NP c ->
  qst (mklay 0 [] None NP 0) (st_new f c).
Proof.
  intros [E1 E2] A1 A2 A3 F. exists (fun _ => POpen). split; [|split].
  - split; [|cbn; lia]. split; [apply (npos g gok)|]. split; [rewrite pages_len; unfold y_c, y_b; cbn; lia|]. intros i Hi. unfold pages. cbn.
    rewrite app_nil_r. rewrite nth_repeat'. destruct (i <? NP); auto.
  - repeat split; cbn; auto. intros _. apply (npos g gok). discriminate.
  - destruct (coh_fresh (fun _ => POpen) c F) as [C1 C2]. split; [|split; auto]. split; [exact E1|]. split.
    + intros p Hp x Hx. pose proof (pend_FEND g p Hp). pose proof (START_paddr g p). destruct (E2 x) as [X1 X2]; [lia|]. split; auto.
    + split; [split; [exact A1|intros _ p _; discriminate]|split; auto].
Qed.

Notation qdo := (qdo rup HL (cap g) (2 <=? NP) (negb ws)).
Notation qtrace := (qtrace rup HL (cap g) (2 <=? NP) (negb ws)).

Theorem hist_ok evs : forall Y s l s', qst Y s -> Forall ev_ok evs -> q_run g s evs = (l, s') ->
  exists Y', qst Y' s' /\ qtrace (content Y) evs l (content Y').
Proof.
  induction evs as [|[c p|c] evs IH]; intros Y s l s' QS EV E; cbn [q_run] in E.
  - injection E as <- <-. exists Y. split; [exact QS|constructor].
  - inversion EV as [|? ? CP EV']; subst. destruct CP as [CO PO]. destruct (q_exec g c (power s p)) as [a s1] eqn:E1. destruct (q_run g s1 evs) as [l2 s2] eqn:E2. injection E as <- <-.
    destruct QS as (pg & LY & QI & SW). pose proof (call_spec g gok ws ae aw c Y pg _ a s1 LY QI (sworld_power pg s p PO SW) SG CO E1) as C.
    destruct C as [(_ & pg' & L1 & Q1 & W1 & D)|(_ & Yc & pg' & L1 & Q1 & C1 & D)].
    + destruct (IH _ _ _ _ (ex_intro _ pg' (conj L1 (conj Q1 (world_sworld _ _ _ _ _ _ _ _ W1)))) EV' E2) as (Y' & QS' & T). exists Y'. split; auto. econstructor; eauto.
    + destruct (IH _ _ _ _ (ex_intro _ pg' (conj L1 (conj Q1 (crashed_sworld _ _ _ _ _ _ _ _ C1)))) EV' E2) as (Y' & QS' & T). exists Y'. split; auto. econstructor; eauto.
  - inversion EV as [|? ? CF EV']; subst. destruct QS as (pg & LY & QI & SW).
    destruct (IH Y (set_ca s c) _ _ (ex_intro _ pg (conj LY (conj QI (sworld_boot _ _ _ CF SW)))) EV' E) as (Y' & QS' & T). exists Y'. split; auto. now constructor.
Qed.

(** Two runs that differ only in their caches and restarts. *)
Definition calls (evs : list qev) : list (qcall * option nat) :=
  flat_map (fun e => match e with ECall c p => [(c, p)] | EBoot _ => [] end) evs.
Definition twin s1 s2 : Prop := s_fl s1 = s_fl s2 /\ exists Y, qst Y s1 /\ qst Y s2.

Lemma twin_call c p s1 s2 a1 a2 s1' s2' : twin s1 s2 -> call_ok g ws aw c -> (ws = true -> p = None) ->
  q_exec g c (power s1 p) = (a1, s1') -> q_exec g c (power s2 p) = (a2, s2') -> a1 = a2 /\ twin s1' s2'.
Proof.
  intros (EF & Y & (pg1 & L1 & Q & S1) & (pg2 & L2 & _ & S2)) CO PO E1 E2.
  pose proof (call_spec g gok ws ae aw c Y pg1 _ _ _ L1 Q (sworld_power pg1 s1 p PO S1) SG CO E1) as C1.
  pose proof (call_spec g gok ws ae aw c Y pg2 _ _ _ L2 Q (sworld_power pg2 s2 p PO S2) SG CO E2) as C2.
  assert (EP : s_fl (power s1 p) = s_fl (power s2 p)) by (unfold power; cbn; now rewrite EF). rewrite <- EP in C2.
  destruct C1 as [(A1 & pg1' & L1' & Q1' & W1 & _)|(A1 & Yc & pg1' & L1' & Q1' & W1 & _)];
  destruct C2 as [(A2 & pg2' & L2' & Q2' & W2 & _)|(A2 & Yc2 & pg2' & L2' & Q2' & W2 & _)].
  - split; [congruence|]. destruct W1 as (R1 & W1'), W2 as (R2 & W2'). split; [rewrite R1 in R2; congruence|].
    exists (snd (yact g c Y)). split; [exists pg1'|exists pg2']; (split; [auto|split; [auto|]]); eapply world_sworld; split; eauto.
  - destruct W1 as (R1 & _), W2 as (R2 & _). rewrite R1 in R2. discriminate.
  - destruct W1 as (R1 & _), W2 as (R2 & _). rewrite R1 in R2. discriminate.
  - split; [congruence|]. pose proof (crashed_sworld _ _ _ _ _ _ _ _ W1) as S1'. pose proof (crashed_sworld _ _ _ _ _ _ _ _ W2) as S2'. destruct W1 as (R1 & F1 & W1'), W2 as (R2 & F2 & WF2 & DI2 & _).
    assert (EF' : s_fl s1' = s_fl s2') by (rewrite R1 in R2; congruence). split; auto.
    exists Yc. split; exists pg1'; (split; [auto|split; [auto|]]); auto. split; [now rewrite <- EF'|]. auto.
Qed.

Theorem twin_hist n : forall evs1 evs2 s1 s2 l1 l2 s1' s2', length evs1 + length evs2 <= n -> calls evs1 = calls evs2 ->
  Forall ev_ok evs1 -> Forall ev_ok evs2 -> twin s1 s2 -> q_run g s1 evs1 = (l1, s1') -> q_run g s2 evs2 = (l2, s2') ->
  l1 = l2 /\ twin s1' s2'.
Proof.
  induction n as [|n IH]; intros evs1 evs2 s1 s2 l1 l2 s1' s2' LN EC V1 V2 TW E1 E2.
  { destruct evs1, evs2; cbn in LN; try lia. cbn in E1, E2. injection E1 as <- <-. injection E2 as <- <-. auto. }
  assert (BOOT : forall s1 s2 c, fresh_cache NP c -> twin s1 s2 -> twin (set_ca s1 c) s2).
  { intros u1 u2 c F (A & Y & (pg1 & L1 & Q1 & S1) & B). split; auto. exists Y. split; auto. exists pg1. split; auto. split; auto. now apply sworld_boot. }
  assert (SYM : forall s1 s2, twin s1 s2 -> twin s2 s1) by (intros u1 u2 (A & Y & B & C); split; auto; exists Y; auto).
  destruct evs1 as [|[c1 p1|c1] evs1].
  - destruct evs2 as [|[c2 p2|c2] evs2]; [|discriminate|].
    + cbn in E1, E2. injection E1 as <- <-. injection E2 as <- <-. auto.
    + inversion V2; subst. cbn [q_run] in E2. eapply (IH [] evs2 s1 (set_ca s2 c2)); eauto; cbn in LN |- *; lia.
  - destruct evs2 as [|[c2 p2|c2] evs2]; [discriminate| |].
    + cbn [calls flat_map app] in EC. injection EC as <- <- EC. inversion V1 as [|? ? CP V1']; subst. destruct CP as [CO PO]. inversion V2 as [|? ? _ V2']; subst.
      cbn [q_run] in E1, E2. destruct (q_exec g c1 (power s1 p1)) as [a1 t1] eqn:X1. destruct (q_exec g c1 (power s2 p1)) as [a2 t2] eqn:X2.
      destruct (q_run g t1 evs1) as [k1 u1] eqn:R1. destruct (q_run g t2 evs2) as [k2 u2] eqn:R2. injection E1 as <- <-. injection E2 as <- <-.
      destruct (twin_call _ _ _ _ _ _ _ _ TW CO PO X1 X2) as [-> TW']. destruct (IH evs1 evs2 t1 t2 k1 k2 u1 u2) as [-> TW2]; auto; cbn in LN; lia.
    + inversion V2; subst. cbn [q_run] in E2. eapply (IH (ECall c1 p1 :: evs1) evs2 s1 (set_ca s2 c2)); eauto; cbn in LN |- *; lia.
  - inversion V1; subst. cbn [q_run] in E1. eapply (IH evs1 evs2 (set_ca s1 c1) s2); eauto; cbn in LN |- *; lia.
Qed.

End Hist.

(** Without power failures: erase order and write counters. *)
Section Wear.
Context (g : geom) (gok : geom_ok g) (ae : bool) (aw : nat).
Notation W := (W g).
Notation HL := (HL g).
Notation rup := (rup g).
Notation NP := (NP g).
Notation st := (st unit).
Implicit Types (s : st) (pg : nat -> page) (Y : lay).
Notation qst := (qst g true ae aw).

Definition rng (p : nat) : nat * nat := (paddr g p, pend g p).
Definition des (ops : list dop) : list nat := flat_map (fun o => match o with DE p => [p] | _ => [] end) ops.
Lemma des_app a b : des (a ++ b) = des a ++ des b. Proof. apply flat_map_app. Qed.
Lemma run_er ops : forall f f', run g f ops = (None, f') -> f_er f' = rev (map rng (des ops)) ++ f_er f.
Proof.
  induction ops as [|o ops IH]; intros f f' H; cbn [run] in H; [now injection H as <-|].
  destruct (run1 g f o) as [[e|] f1] eqn:R; [discriminate|]. rewrite (IH _ _ H). destruct o as [a bs|p]; cbn [run1] in R; cbn [des flat_map app].
  - unfold dev_write in R. destruct (chk _ _ _ _); [discriminate|]. destruct (spend _ _) as [[k fu] cr]. injection R as _ <-. reflexivity.
  - unfold dev_erase in R. destruct (chk _ _ _ _); [discriminate|]. destruct (spend _ _) as [[k fu] cr]. injection R as _ <-. cbn [f_er map rev]. rewrite <- app_assoc. reflexivity.
Qed.

(** The erases of [ops] go round the ring from page [f] and end before page [f']. *)
Definition rot (f : nat) (ops : list dop) (f' : nat) : Prop :=
  exists k, des ops = map (fun i => (f + i) mod NP) (seq 0 k) /\ f' = (f + k) mod NP.
Lemma rot_0 f ops : f < NP -> des ops = [] -> rot f ops f.
Proof. intros H E. exists 0. rewrite E. split; auto. rewrite Nat.add_0_r. symmetry. now apply Nat.mod_small. Qed.
Lemma rot_app f a f1 b f2 : rot f a f1 -> rot f1 b f2 -> rot f (a ++ b) f2.
Proof.
  pose proof (npos g gok) as N. intros (k & E & ->) (k2 & E2 & ->). exists (k + k2). rewrite des_app, E, E2, seq_app, map_app. split.
  - f_equal. rewrite Nat.add_0_l.
    replace (seq k k2) with (map (fun i => k + i) (seq 0 k2)).
    + rewrite map_map. apply map_ext. intros i. rewrite Nat.add_mod_idemp_l by lia. f_equal. lia.
    + clear. revert k. induction k2 as [|n IH]; intros k; auto. cbn [seq map]. rewrite Nat.add_0_r. f_equal. rewrite <- (IH (S k)). rewrite <- seq_shift, map_map. apply map_ext. intros. lia.
  - rewrite Nat.add_mod_idemp_l by lia. f_equal. lia.
Qed.
Lemma rot_w f ops ops' f' : des ops = des ops' -> rot f ops f' -> rot f ops' f'.
Proof. intros E (k & A & B). exists k. split; congruence. Qed.
Lemma rot_1 f ops : f < NP -> des ops = [f] -> rot f ops ((f + 1) mod NP).
Proof. intros H E. exists 1. rewrite E. cbn. rewrite Nat.add_0_r, Nat.mod_small by auto. auto. Qed.

Lemma des_item a d : des (item_ops g a d) = [].
Proof. unfold item_ops. cbv zeta. rewrite !des_app. destruct (_ =? 0); destruct (_ =? 0); reflexivity. Qed.

Lemma ypush_rot yg Y d ow pg : layok NP Y pg -> qinv Y -> y_bad Y = 0 ->
  let '(r, ops, Y') := ypush g yg Y d ow in rot (y_f Y) ops (y_f Y') /\ y_bad Y' = 0.
Proof.
  intros LY QI BZ. destruct Y as [f cl pt k bad]. pose proof (npos g gok) as N. cbn [y_bad] in BZ. subst bad.
  pose proof (lay_len _ _ _ _ _ _ _ LY) as (Hf & TOT & _). pose proof QI as (Q1 & _ & Q3). unfold y_c, y_b in Q3. cbn [y_f y_cl y_pt y_k y_bad] in *.
  unfold ypush. destruct (too_big g (length d)) eqn:TB; [split; auto; now apply rot_0|]. destruct yg; cbn [negb]; [|split; auto; now apply rot_0].
  destruct (fitsb g _ _) eqn:FI.
  { destruct pt; (split; auto; apply rot_0; auto; rewrite des_app, des_item; reflexivity). }
  destruct (1 <=? _) eqn:EK.
  { destruct pt; (split; auto; apply rot_0; auto; rewrite des_app, des_item; reflexivity). }
  destruct (_ =? 1) eqn:EB. { destruct pt; discriminate. }
  destruct pt as [sl|]; cbn [y_start y_f y_cl y_pt y_k y_bad ptl length] in *.
  2:{ cbn [y_sl y_pt] in FI. rewrite (proj1 (too_big_fits g gok d TB)) in FI. discriminate. }
  apply Nat.leb_gt in EK. assert (k = 0) by lia. subst k. destruct cl as [|o cl]; cbn [length] in *.
  - assert (NP = 1) as N1 by lia. destruct ow; [|split; auto; apply rot_0; auto]. split; auto. unfold y_cur, y_c. cbn [y_f y_cl length].
    exists 1. rewrite !des_app, des_item. cbn [des flat_map app seq map]. rewrite N1, !Nat.mod_1_r. auto.
  - destruct (ow || emptyish o); [|split; auto; apply rot_0; auto]. split; auto. cbn [y_roll y_drop y_f].
    apply rot_1; auto. rewrite !des_app, des_item. cbn [des flat_map app]. f_equal. unfold y_cur, y_c. cbn [y_f y_cl length]. rewrite (nxt_mod g gok).
    replace (f + S (length cl) + 1) with (f + 1 * NP) by lia. rewrite Nat.mod_add, Nat.mod_small by lia. reflexivity.
Qed.
Lemma rops_0 Y : y_bad Y = 0 -> rops g Y = [] /\ yrep Y = Y.
Proof. intros H. unfold rops. rewrite H. split; auto. now apply yrep_id. Qed.

Lemma nspec_rot B p : forall later rest nr ops i, nspec g B true (p mod NP) rest later = (nr, ops, i) ->
  des ops = map (fun i => (p + i) mod NP) (seq 0 i).
Proof.
  pose proof (npos g gok) as N. revert p. intros p later. revert p. induction later as [|sl t IH]; intros p rest nr ops i; cbn [QIterP.nspec].
  - destruct (search g B rest); injection 1 as <- <- <-; reflexivity.
  - destruct (search g B rest); [injection 1 as <- <- <-; reflexivity| |injection 1 as <- <- <-; reflexivity].
    destruct (nspec g B true (next_page g (p mod NP)) sl t) as [[r L] i0] eqn:E. injection 1 as <- <- <-. rewrite (nxt_mod g gok) in E. apply IH in E.
    change (des (DE (p mod NP) :: L)) with (p mod NP :: des L). rewrite E. cbn [seq map]. rewrite Nat.add_0_r. f_equal. rewrite <- seq_shift, map_map. apply map_ext. intros. f_equal. lia.
Qed.
Lemma nspec_noap B p : forall later rest nr ops i, nspec g B false p rest later = (nr, ops, i) -> ops = [].
Proof.
  intros later. revert p. induction later as [|sl t IH]; intros p rest nr ops i; cbn [QIterP.nspec].
  - destruct (search g B rest); now injection 1 as <- <- <-.
  - destruct (search g B rest); [now injection 1 as <- <- <-| |now injection 1 as <- <- <-].
    destruct (nspec g B false (next_page g p) sl t) as [[r L] i0] eqn:E. injection 1 as <- <- <-. apply IH in E. now subst L.
Qed.

Lemma ystep_rot B pop Y j ap c : y_f Y < NP -> y_bad Y = 0 -> (ap = true -> j = 0) ->
  let '(_, ops, (Y', j', ap', _)) := ystep g B pop Y j ap c in rot (y_f Y) ops (y_f Y') /\ y_bad Y' = 0 /\ (ap' = true -> j' = 0) /\ y_f Y' < NP.
Proof.
  intros Hf BZ J. pose proof (npos g gok) as N. unfold ystep. destruct (nspec g B ap ((y_f Y + j) mod NP) c (later Y j)) as [[nr ops] i] eqn:E.
  assert (R : rot (y_f Y) ops (y_f (if ap then ydrops g i Y else Y)) /\ y_bad (if ap then ydrops g i Y else Y) = 0 /\ y_f (if ap then ydrops g i Y else Y) < NP).
  { destruct ap.
    - rewrite J, Nat.add_0_r in E by auto. apply nspec_rot in E. split; [exists i; auto|]. split; auto. cbn. apply mod_lt; auto.
    - apply nspec_noap in E. subst ops. split; [now apply rot_0|]. auto. }
  set (Y' := if ap then ydrops g i Y else Y) in *. set (j' := if ap then 0 else j + i). assert (J' : ap = true -> j' = 0) by (intros ->; reflexivity).
  destruct R as (R1 & R2 & R3). destruct nr; auto. destruct pop.
  - rewrite yset_f, yset_bad. repeat split; auto. eapply rot_w; [|exact R1]. rewrite des_app. cbn. now rewrite app_nil_r.
  - repeat split; auto. discriminate.
Qed.
Lemma yscript_rot sc : forall Y j ap c, y_f Y < NP -> y_bad Y = 0 -> (ap = true -> j = 0) ->
  let '(_, ops, Y') := yscript g sc Y j ap c in rot (y_f Y) ops (y_f Y') /\ y_bad Y' = 0.
Proof.
  induction sc as [|[b pop] sc IH]; intros Y j ap c Hf BZ J; cbn [yscript]; [split; auto; now apply rot_0|].
  pose proof (ystep_rot (length b) pop Y j ap c Hf BZ J) as R. destruct (ystep g (length b) pop Y j ap c) as [[r ops] [[[Y' j'] ap'] c']].
  destruct R as (R1 & R2 & R3 & R4). specialize (IH Y' j' ap' c' R4 R2 R3). destruct (yscript g sc Y' j' ap' c') as [[rs ops'] Y2]. destruct IH. split; auto.
  eapply rot_app; eauto.
Qed.
Lemma yact_rot c Y pg : layok NP Y pg -> qinv Y -> y_bad Y = 0 ->
  let '(_, ops, Y') := yact g c Y in rot (y_f Y) ops (y_f Y') /\ y_bad Y' = 0.
Proof.
  intros LY QI BZ. destruct (rops_0 Y BZ) as [R0 R1]. assert (Hf : y_f Y < NP) by apply LY. destruct c as [d ow|b|b|sc| |]; cbn [yact].
  - unfold qpush. pose proof (ypush_rot (isyoung g (pgof g Y)) Y d ow pg LY QI BZ) as P.
    destruct (ypush g (isyoung g (pgof g Y)) Y d ow) as [[r ops] Y1] eqn:E. destruct r as [u|e]; auto. destruct e; auto.
    assert (IY : isyoung g (pgof g Y) = true). { rewrite <- (isyoung_ext g gok pg); [|now apply pgof_ok]. eapply isyoung_rep; eauto. }
    rewrite IY in E. exfalso. revert E. unfold ypush. destruct (too_big _ _); [discriminate|]. cbn [negb]. destruct (fitsb _ _ _); [discriminate|]. destruct (1 <=? _); [discriminate|].
    destruct (_ =? 1) eqn:EB. { destruct Y as [f cl pt k bad]. cbn in BZ. subst bad. destruct pt; discriminate. }
    destruct (y_cl _); destruct ow; cbn [orb]; try discriminate. destruct (emptyish _); discriminate.
  - unfold yone. rewrite R0, R1. pose proof (ystep_rot (length b) true Y 0 true (ycur Y) Hf BZ (fun _ => eq_refl)) as R.
    destruct (ystep g (length b) true Y 0 true (ycur Y)) as [[r ops] [[[Y' j'] ap'] c']]. tauto.
  - unfold yone. rewrite R0, R1. pose proof (ystep_rot (length b) false Y 0 true (ycur Y) Hf BZ (fun _ => eq_refl)) as R.
    destruct (ystep g (length b) false Y 0 true (ycur Y)) as [[r ops] [[[Y' j'] ap'] c']]. tauto.
  - rewrite R0, R1. pose proof (yscript_rot sc Y 0 true (ycur Y) Hf BZ (fun _ => eq_refl)) as R. destruct (yscript g sc Y 0 true (ycur Y)) as [[rs ops] Y']. exact R.
  - unfold yq. rewrite R0, R1. destruct (mfit g _) as [x|[]]; (split; auto; now apply rot_0).
  - unfold yq. rewrite R0, R1. destruct (yspc g _) as [x|[]]; (split; auto; now apply rot_0).
Qed.

(** Calls that remove nothing add only new items. *)
Definition nopop (c : qcall) : Prop := match c with QPop _ => False | QIter sc => Forall (fun x => snd x = false) sc | _ => True end.
Definition alive (x : slot) : Prop := is_live x = true.
Lemma ystep_alive B Y j ap c : yall alive Y -> yall alive (fst (fst (fst (snd (ystep g B false Y j ap c))))).
Proof.
  intros A. unfold ystep. destruct (nspec g B ap ((y_f Y + j) mod NP) c (later Y j)) as [[nr ops] i].
  assert (R : yall alive (if ap then ydrops g i Y else Y)) by (destruct ap; auto using ydrops_all). destruct nr; exact R.
Qed.
Lemma yscript_alive sc : Forall (fun x => snd x = false) sc -> forall Y j ap c, yall alive Y -> yall alive (snd (yscript g sc Y j ap c)).
Proof.
  induction 1 as [|[b pop] sc H _ IH]; intros Y j ap c A; cbn [yscript]; auto. cbn in H. subst pop.
  pose proof (ystep_alive (length b) Y j ap c A) as R. destruct (ystep g (length b) false Y j ap c) as [[r ops] [[[Y' j'] ap'] c']]. cbn [fst snd] in R.
  specialize (IH Y' j' ap' c' R). destruct (yscript g sc Y' j' ap' c') as [[rs ops'] Y2]. exact IH.
Qed.
Lemma ypush_alive yg Y d ow : yall alive Y -> yall alive (snd (ypush g yg Y d ow)).
Proof.
  intros A. unfold ypush. destruct (too_big _ _); auto. destruct (negb yg); auto. destruct Y as [f cl pt k bad].
  assert (A1 : yall alive (y_start (mklay f cl pt k bad))).
  { cbn [y_start y_pt]. destruct pt; auto. unfold yall, uslots in *. cbn in *. rewrite app_nil_r in A. apply Forall_app. split; auto. }
  set (Y1 := y_start (mklay f cl pt k bad)) in *. clearbody Y1. clear A. destruct Y1 as [f1 cl1 pt1 k1 bad1].
  assert (A2 : Forall alive (match pt1 with Some sl => sl | None => [] end) /\ Forall (Forall alive) cl1).
  { unfold yall, uslots in A1. cbn in A1. apply Forall_app in A1. destruct A1 as [X1 X2]. split; auto. destruct pt1; auto. now inversion X2. }
  destruct A2 as [A2 A3].
  destruct (fitsb _ _ _).
  { cbn [snd]. unfold yall, uslots, y_put. cbn [y_sl y_pt y_cl ptl]. apply Forall_app. split; auto. constructor; auto. apply Forall_app. split; auto. constructor; auto. reflexivity. }
  assert (RL : forall cl', Forall (Forall alive) cl' -> forall f k b, yall alive (y_roll (mklay f cl' pt1 k b) d)).
  { intros cl' C f0 k0 b0. unfold yall, uslots, y_roll. cbn [y_sl y_pt y_cl ptl]. rewrite <- app_assoc. apply Forall_app. split; auto. constructor; auto. constructor; auto. constructor; auto. reflexivity. }
  destruct (1 <=? _); [apply RL; auto|]. destruct (_ =? 1); auto. cbn [y_cl]. destruct cl1 as [|o cl1].
  - destruct ow; auto. cbn. repeat constructor.
  - destruct (ow || emptyish o); auto. apply RL. now inversion A3.
Qed.
Lemma yact_alive c Y : nopop c -> yall alive Y -> yall alive (snd (yact g c Y)).
Proof.
  intros NPp A. assert (AR : yall alive (yrep Y)) by exact A. destruct c as [d ow|b|b|sc| |]; cbn [yact].
  - unfold qpush. pose proof (ypush_alive (isyoung g (pgof g Y)) Y d ow A) as P. destruct (ypush g (isyoung g (pgof g Y)) Y d ow) as [[r ops] Y1]. cbn [snd] in P.
    destruct r as [u|e]; auto. destruct e; auto. assert (AR1 : yall alive (yrep Y1)) by exact P. pose proof (ypush_alive true (yrep Y1) d ow AR1) as P2. destruct (ypush g true (yrep Y1) d ow) as [[r2 ops2] Y2]. exact P2.
  - destruct NPp.
  - unfold yone. pose proof (ystep_alive (length b) (yrep Y) 0 true (ycur Y) AR) as R. destruct (ystep g (length b) false (yrep Y) 0 true (ycur Y)) as [[r ops] [[[Y' j'] ap'] c']]. exact R.
  - pose proof (yscript_alive sc NPp (yrep Y) 0 true (ycur Y) AR) as R. destruct (yscript g sc (yrep Y) 0 true (ycur Y)) as [[rs ops] Y']. exact R.
  - unfold yq. destruct (mfit g _) as [x|[]]; auto.
  - unfold yq. destruct (yspc g _) as [x|[]]; auto.
Qed.

(** Histories without power failures. *)
Lemma hist_ws evs : forall Y s l s', qst Y s -> y_bad Y = 0 -> Forall (ev_ok g true aw) evs -> q_run g s evs = (l, s') ->
  exists Y', qst Y' s' /\ y_bad Y' = 0 /\ (exists ops, f_er (s_fl s') = rev (map rng (des ops)) ++ f_er (s_fl s) /\ rot (y_f Y) ops (y_f Y')) /\
    (Forall (fun e => match e with ECall c _ => nopop c | _ => True end) evs -> yall alive Y -> yall alive Y').
Proof.
  induction evs as [|[c p|c] evs IH]; intros Y s l s' QS BZ EV E; cbn [q_run] in E.
  - injection E as <- <-. exists Y. split; auto. split; auto. split; auto. exists []. split; auto. apply rot_0; auto. destruct QS as (pg & LY & _). apply LY.
  - inversion EV as [|? ? CP EV']; subst. destruct CP as [CO PO]. destruct (q_exec g c (power s p)) as [a s1] eqn:E1. destruct (q_run g s1 evs) as [l2 s2] eqn:E2. injection E as <- <-.
    destruct QS as (pg & LY & QI & SW). pose proof (call_spec g gok true ae aw c Y pg _ a s1 LY QI (sworld_power g true ae aw pg s p PO SW) (or_introl eq_refl) CO E1) as C.
    pose proof (yact_rot c Y pg LY QI BZ) as RT. pose proof (yact_alive c Y) as AL. destruct (yact g c Y) as [[a0 ops] Y1]. cbn [snd fst] in AL.
    destruct C as [(_ & pg' & L1 & Q1 & W1 & D)|(_ & Yc & pg' & L1 & Q1 & C1 & D)]; [|destruct C1 as (_ & _ & _ & _ & X); discriminate]. cbn [fst snd] in *.
    destruct RT as [RT BZ1].
    destruct (IH Y1 s1 _ _ (ex_intro _ pg' (conj L1 (conj Q1 (world_sworld _ _ _ _ _ _ _ _ W1)))) BZ1 EV' E2) as (Y' & QS' & BZ' & (ops2 & EO & RO) & AL').
    exists Y'. split; auto. split; auto. split.
    + exists (ops ++ ops2). split; [|eapply rot_app; eauto]. rewrite EO. destruct W1 as (R1 & _). rewrite (run_er _ _ _ R1). rewrite des_app, map_app, rev_app_distr, <- app_assoc. reflexivity.
    + intros F A. inversion F; subst. auto.
  - inversion EV as [|? ? CF EV']; subst. destruct QS as (pg & LY & QI & SW).
    destruct (IH Y (set_ca s c) _ _ (ex_intro _ pg (conj LY (conj QI (sworld_boot g true ae aw _ _ _ CF SW)))) BZ EV' E) as (Y' & QS' & BZ' & RT & AL). exists Y'. split; auto. split; auto. split; auto.
    intros F. inversion F; subst. auto.
Qed.

(** Write counters. *)
Lemma wc_slots_le wc : forall sl a, Forall clean sl -> wc_slots g wc a sl -> forall x, a <= x < a + sizes g sl -> wc x <= 2 /\ (Forall alive sl -> wc x <= 1).
Proof.
  induction sl as [|y sl IH]; intros a CL C x Hx. { change (sizes g []) with 0 in Hx. lia. }
  rewrite sizes_cons in Hx. inversion CL as [|? ? CY CL']; subst. cbn [wc_slots] in C. destruct C as (C1 & C2 & C3).
  destruct (Nat.lt_ge_cases x (a + ssize g y)) as [L|L].
  - destruct (Nat.lt_ge_cases x (a + HL)) as [L2|L2].
    + specialize (C1 x ltac:(lia)). split; [destruct (is_live y); lia|]. intros A. inversion A as [|? ? AY _]; subst. rewrite AY in C1. exact C1.
    + specialize (C2 x ltac:(lia)). split; [|intros _]; lia.
  - destruct (IH (a + ssize g y) CL' C3 x ltac:(lia)) as [I1 I2]. split; auto. intros A. inversion A; subst; auto.
Qed.
Lemma page_wc fl p x : page_is g true fl p x -> forall y, paddr g p <= y < pend g p -> f_wc fl y <= 2 /\ (Forall alive (slots_of x) -> f_wc fl y <= 1).
Proof.
  intros PI y Hy. pose proof (dstart_lt g gok p). pose proof (dend_lt g gok p).
  assert (BODY : forall sl, body g true fl p sl -> dstart g p <= y < dend g p -> f_wc fl y <= 2 /\ (Forall alive sl -> f_wc fl y <= 1)).
  { intros sl (b & SE & _ & BL & C) Hb. destruct (C eq_refl) as [C1 C2]. apply (seg_end g) in SE. destruct (Nat.lt_ge_cases y b) as [L|L].
    - eapply wc_slots_le; eauto. lia.
    - destruct (BL y ltac:(lia)) as [_ Z]. rewrite (Z eq_refl). split; [|intros _]; lia. }
  destruct x as [sl|sl| | |X|X sl]; cbn [page_is slots_of] in *; try (destruct PI; discriminate).
  - destruct PI as (_ & _ & B & C). destruct (Nat.lt_ge_cases y (dstart g p)) as [L|L]; [specialize (C eq_refl y ltac:(lia)); lia|].
    destruct (Nat.lt_ge_cases y (dend g p)) as [L2|L2]; [|specialize (C eq_refl y ltac:(lia)); split; [|intros _]; lia]. now apply BODY.
  - destruct PI as (_ & _ & B & C). destruct (C eq_refl) as [C1 C2]. destruct (Nat.lt_ge_cases y (dstart g p)) as [L|L]; [specialize (C1 y ltac:(lia)); lia|].
    destruct (Nat.lt_ge_cases y (dend g p)) as [L2|L2]; [now apply BODY|]. destruct (C2 y ltac:(lia)) as [_ Z]. rewrite (Z eq_refl). split; [|intros _]; lia.
  - destruct (PI y Hy) as [_ Z]. rewrite (Z eq_refl). split; [|intros _]; lia.
Qed.
Lemma qst_wc Y s : qst Y s -> forall x, START g <= x < FEND g -> f_wc (s_fl s) x <= 2 /\ (yall alive Y -> f_wc (s_fl s) x <= 1).
Proof.
  intros (pg & LY & QI & FW & _) x Hx. pose proof (npos g gok) as N. pose proof (ES_pos g gok) as E0.
  remember (pindex g x) as p eqn:Ep. assert (Hp : p < NP). { rewrite Ep. unfold pindex. apply Nat.div_lt_upper_bound; [lia|]. unfold FEND in Hx. lia. }
  assert (Hb : paddr g p <= x < pend g p).
  { rewrite Ep. unfold paddr, pend, pindex. pose proof (Nat.div_mod (x - START g) (ES g) ltac:(lia)). pose proof (Nat.mod_upper_bound (x - START g) (ES g) ltac:(lia)). lia. }
  destruct (page_wc (s_fl s) p (pg p) ltac:(apply FW; auto) x Hb) as [A B]. split; auto. intros AL. apply B.
  rewrite (pgof_ok g gok Y pg LY p Hp). unfold pgof. destruct (nth_in_or_default (pos NP (y_f Y) p) (pages Y) POpen) as [I|I]; [|rewrite I; constructor].
  remember (nth (pos NP (y_f Y) p) (pages Y) POpen) as v eqn:Ev. clear Ev.
  unfold pages in I. rewrite !in_app_iff in I. unfold yall, uslots in AL. apply Forall_app in AL. destruct AL as [A1 A2].
  destruct I as [I|[I|[I|I]]].
  - apply in_map_iff in I. destruct I as (sl & <- & I). rewrite Forall_forall in A1. apply A1; auto.
  - apply in_map_iff in I. destruct I as (sl & <- & I). rewrite Forall_forall in A2. apply A2; auto.
  - apply repeat_spec in I. rewrite I. constructor.
  - apply repeat_spec in I. rewrite I. constructor.
Qed.

(** How often each page occurs in a rotation. *)
Lemma count_mod n : 0 < n -> forall k p, p < n -> count_occ Nat.eq_dec (map (fun i => i mod n) (seq 0 k)) p = k / n + (if p <? k mod n then 1 else 0).
Proof.
  intros N. induction k as [|k IH]; intros p Hp. { rewrite Nat.div_small, Nat.mod_small by auto. reflexivity. }
  rewrite seq_S, map_app, count_occ_app, IH by auto. cbn [map count_occ plus]. pose proof (Nat.div_mod k n ltac:(lia)) as D. pose proof (Nat.mod_upper_bound k n ltac:(lia)) as M.
  destruct (Nat.eq_dec (k mod n) (n - 1)) as [E|E].
  - assert (D1 : S k / n = k / n + 1) by (symmetry; apply Nat.div_unique with 0; nia). assert (M1 : S k mod n = 0) by (symmetry; apply Nat.mod_unique with (k / n + 1); nia).
    rewrite D1, M1, E. destruct (Nat.eq_dec (n - 1) p), (Nat.ltb_spec p (n - 1)), (Nat.ltb_spec p 0); lia.
  - assert (D1 : S k / n = k / n) by (symmetry; apply Nat.div_unique with (S (k mod n)); nia). assert (M1 : S k mod n = S (k mod n)) by (symmetry; apply Nat.mod_unique with (k / n); nia).
    rewrite D1, M1. destruct (Nat.eq_dec (k mod n) p), (Nat.ltb_spec p (k mod n)), (Nat.ltb_spec p (S (k mod n))); lia.
Qed.
End Wear.
