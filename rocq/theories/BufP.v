(** The buffered queue follows its specification. *)
From Coq Require Import List NArith ZArith Arith Bool Lia ZifyBool ZifyNat ZifyN.
From Verif Require Import Base BaseP Flash Cache State Item Generic Queue GeomP WpP WorldP LayP QCallP QHistP Buffered RingP Client QSpec QObs QPropsP BSpec.
Import ListNotations.

(** * Facts about the specification *)
Lemma part_refl {A} (l : list A) : part_of l l.
Proof. induction l; constructor; auto. Qed.
Lemma part_nil {A} (l : list A) : part_of [] l.
Proof. induction l; constructor; auto. Qed.
Lemma part_app {A} (a b c d : list A) : part_of a b -> part_of c d -> part_of (a ++ c) (b ++ d).
Proof. induction 1; cbn; intros; try constructor; auto. Qed.
Lemma part_drop {A} (a b : list A) : part_of b (a ++ b).
Proof. induction a; cbn; [apply part_refl|constructor; auto]. Qed.
Lemma part_trans {A} (a b : list A) : part_of a b -> forall c, part_of b c -> part_of a c.
Proof.
  intros H c H2. revert a H. induction H2 as [|x b c H2 IH|x b c H2 IH]; intros a H; auto.
  - inversion H; subst; constructor; auto.
  - constructor; auto.
Qed.
Lemma ram_app a b : ram (a ++ b) = ram a + ram b.
Proof. unfold ram. now rewrite map_app, list_sum_app. Qed.
Lemma ram_cost a : ram a = cost a. Proof. reflexivity. Qed.
Lemma ram_one d : ram [d] = 2 + length d. Proof. unfold ram. cbn. lia. Qed.

Section Spec.
Context (rw : nat -> nat) (hl pc : nat) (many : bool) (cap : nat).
Notation qdo := (qdo rw hl pc many false).
Notation bdo := (bdo rw hl pc many false cap).
Notation btrace := (btrace rw hl pc many false cap).

(** Without power failures: what is pending after a call is what was pending plus what went in minus what came out, minus what was given up. *)
Lemma push_flow F d ow r F' : qdo F (QPush d ow) (AUnit r) F' ->
  match r with Ok _ => exists dr q, F = dr ++ q /\ F' = q ++ [d] /\ (ow = false -> dr = []) | Err _ => F' = F end.
Proof. intros H. inversion H; subst; auto; try discriminate; [exists [], F; auto|eexists _, _; split; [reflexivity|]; split; [reflexivity|discriminate]]. Qed.
Lemma drain_flow sl ow F R r F' R' : drain1 rw hl pc many false sl ow F R r F' R' -> part_of (F' ++ R') (F ++ R) /\ (ow = false -> F' ++ R' = F ++ R).
Proof.
  intros [ |d R1 F1 -> L H|d R1 e F1 -> L H]; [auto using part_refl| |]; apply push_flow in H.
  - destruct H as (dr & q & -> & -> & O). rewrite <- app_assoc. cbn. rewrite <- app_assoc. split; [apply part_drop|]. intros E. now rewrite (O E).
  - subst. auto using part_refl.
Qed.
Lemma drains_flow sl ow F R r F' R' : drains rw hl pc many false sl ow F R r F' R' -> part_of (F' ++ R') (F ++ R) /\ (ow = false -> F' ++ R' = F ++ R).
Proof.
  induction 1 as [F R F' R' D|F R e F' R' D|F R F1 R1 r F' R' D H [IH1 IH2]]; try (now apply drain_flow in D). apply drain_flow in D. destruct D as [D1 D2]. split; [eapply part_trans; eauto|].
  intros E. rewrite IH2, D2; auto.
Qed.
Lemma pop_flow F b r F' : qdo F (QPop b) (AItem r) F' -> match r with Ok (Some d) => F = d :: F' | _ => F' = F end /\ (r = Ok None -> F = []).
Proof.
  intros H. inversion H as [| | | |? ? ? ? S| | | | | | | | | | |]; subst; try discriminate. inversion S; subst; try discriminate; cbn [app]; auto; split; auto; discriminate.
Qed.
Lemma peek_flow F b r F' : qdo F (QPeek b) (AItem r) F' -> F' = F /\ (r = Ok None -> F = []) /\ (forall d, r = Ok (Some d) -> hd_error F = Some d).
Proof.
  intros H. inversion H as [| | | | |? ? ? ? S| | | | | | | | | |]; subst; try discriminate. inversion S; subst; try discriminate; cbn [app]; auto; repeat split; auto; try discriminate.
  intros ? E. injection E as ->. auto.
Qed.
Lemma bdo_flow F R c p a F' R' : bdo F R c a F' R' -> exists i o, (forall t l, bin (VCall c p :: t) (a :: l) = i ++ bin t l) /\ (forall t l, bout (VCall c p :: t) (a :: l) = o ++ bout t l) /\
  part_of (o ++ F' ++ R') (F ++ R ++ i) /\ (careful (VCall c p) -> o ++ F' ++ R' = F ++ R ++ i).
Proof.
  intros H.
  assert (NO : part_of (F' ++ R') (F ++ R) /\ (careful (VCall c p) -> F' ++ R' = F ++ R) -> part_of ([] ++ F' ++ R') (F ++ R ++ []) /\ (careful (VCall c p) -> [] ++ F' ++ R' = F ++ R ++ [])).
  { intros X. rewrite app_nil_r. exact X. }
  inversion H; subst.
  - exists [d], []. repeat split; auto using part_refl.
  - exists [], []. split; [reflexivity|]. split; [reflexivity|]. apply NO. auto using part_refl.
  - exists [d], []. repeat split; auto; [|intros []]. cbn [app]. apply part_app; [apply part_refl|]. rewrite <- app_assoc. apply part_drop.
  - exists [], []. split; [reflexivity|]. split; [reflexivity|]. apply NO. auto using part_refl.
  - exists [], []. split; [reflexivity|]. split; [reflexivity|]. apply NO. eapply drain_flow; eauto.
  - exists [], []. split; [reflexivity|]. split; [reflexivity|]. apply NO. eapply drains_flow; eauto.
  - match goal with X : qdo _ _ _ _ |- _ => apply pop_flow in X; destruct X as [X _] end. destruct r as [[d|]|e]; [|congruence|]; subst.
    + exists [], [d]. split; [reflexivity|]. split; [reflexivity|]. rewrite app_nil_r. auto using part_refl.
    + exists [], []. split; [reflexivity|]. split; [reflexivity|]. apply NO. auto using part_refl.
  - match goal with X : qdo _ _ _ _ |- _ => apply pop_flow in X; destruct X as [X Y] end. subst. rewrite (Y eq_refl). exists [], [d]. split; [reflexivity|]. split; [reflexivity|]. cbn. rewrite app_nil_r. auto using part_refl.
  - match goal with X : qdo _ _ _ _ |- _ => apply pop_flow in X; destruct X as [X Y] end. subst. exists [], []. split; [reflexivity|]. split; [reflexivity|]. apply NO. auto using part_refl.
  - match goal with X : qdo _ _ _ _ |- _ => apply peek_flow in X; destruct X as [X _] end. subst. exists [], []. split; [reflexivity|]. split; [reflexivity|]. apply NO. auto using part_refl.
  - match goal with X : qdo _ _ _ _ |- _ => apply peek_flow in X; destruct X as [X _] end. subst. exists [], []. split; [reflexivity|]. split; [reflexivity|]. apply NO. auto using part_refl.
  - match goal with X : qdo _ _ _ _ |- _ => apply peek_flow in X; destruct X as [X _] end. subst. exists [], []. split; [reflexivity|]. split; [reflexivity|]. apply NO. auto using part_refl.
Qed.
Lemma trace_flow F R evs l F' R' : btrace F R evs l F' R' -> part_of (bout evs l ++ F' ++ R') (F ++ R ++ bin evs l) /\
  (Forall careful evs -> bout evs l ++ F' ++ R' = F ++ R ++ bin evs l).
Proof.
  induction 1 as [F R|F R c p a F1 R1 evs l F2 R2 D T [IH1 IH2]|F R c evs l F2 R2 T [IH1 IH2]].
  - cbn. rewrite app_nil_r. auto using part_refl.
  - destruct (bdo_flow _ _ _ p _ _ _ D) as (i & o & EI & EO & P & C). rewrite EI, EO. split.
    + rewrite <- app_assoc. eapply part_trans; [apply part_app; [apply part_refl|exact IH1]|].
      replace (F ++ R ++ i ++ bin evs l) with ((F ++ R ++ i) ++ bin evs l) by (now rewrite <- !app_assoc).
      replace (o ++ F1 ++ R1 ++ bin evs l) with ((o ++ F1 ++ R1) ++ bin evs l) by (now rewrite <- !app_assoc). apply part_app; auto. apply part_refl.
    + intros CA. inversion CA as [|? ? C1 C2]; subst. rewrite <- app_assoc, (IH2 C2). replace (F ++ R ++ i ++ bin evs l) with ((F ++ R ++ i) ++ bin evs l) by (now rewrite <- !app_assoc).
      rewrite <- (C C1). now rewrite <- !app_assoc.
  - cbn [bin bout]. split; [|intros CA; exfalso; inversion CA as [|? ? X _]; exact X]. eapply part_trans; [exact IH1|]. apply part_app; [apply part_refl|]. cbn. apply part_drop.
Qed.
End Spec.

(** With power failures that the RAM contents survive: nothing is lost, items may be repeated. *)
Lemma repeats_refl {A} (l : list A) : repeats l l.
Proof. induction l; constructor; auto. Qed.
Lemma repeats_app {A} (a b i : list A) : repeats a b -> repeats (a ++ i) (b ++ i).
Proof. induction 1; cbn; try constructor; auto. apply repeats_refl. Qed.
Lemma repeats_dup {A} (a b : list A) : repeats a b -> forall P d t, a = P ++ d :: t -> repeats (P ++ d :: d :: t) b.
Proof.
  induction 1 as [|x a b H IH|x a b H IH]; intros P d t E.
  - destruct P; discriminate.
  - destruct P as [|y P]; cbn in *; injection E as -> ->; [apply RpAgain; now apply RpKeep|]. apply RpKeep. now apply IH.
  - destruct P as [|y P]; cbn in *; [injection E as <- <-; apply RpAgain; now apply RpAgain|]. injection E as <- E. destruct P as [|z P]; cbn in *; injection E as <- E.
    + subst t. apply RpAgain. now apply RpAgain.
    + subst a. apply RpAgain. apply (IH (x :: P)). reflexivity.
Qed.
Section Failures.
Context (rw : nat -> nat) (hl pc : nat) (many : bool) (cap : nat).
Notation qdo := (qdo rw hl pc many true).
Notation bdo := (bdo rw hl pc many true cap).
Notation btrace := (btrace rw hl pc many true cap).
(** No more is lost of [F] and [R] than nothing, and [i] comes in, [o] goes out. *)
Definition keeps (F R i o F' R' : list item) : Prop := forall P X, repeats (P ++ F ++ R) X -> repeats (P ++ o ++ F' ++ R') (X ++ i).
Lemma keeps_same F R : keeps F R [] [] F R.
Proof. intros P X H. now rewrite app_nil_r. Qed.
Lemma push_keeps F d a F' : qdo F (QPush d false) a F' -> F' = F ++ [d] /\ (a = AUnit (Ok tt) \/ exists e, a = AUnit (Err e)) \/ F' = F /\ exists e, a = AUnit (Err e).
Proof.
  intros H. inversion H; subst; auto; try (right; split; eauto; fail).
  match goal with X : _ = false -> _ = [] |- _ => rewrite (X eq_refl) in * end. cbn [app] in *.
  match goal with X : In F' _ |- _ => destruct X as [<-|[<-|[<-|[]]]] end; eauto 6.
Qed.
Lemma dup_keeps F d R : keeps F (d :: R) [] [] (F ++ [d]) (d :: R).
Proof. intros P X H. rewrite app_nil_r. cbn [app]. rewrite <- app_assoc. cbn [app]. rewrite app_assoc. eapply repeats_dup; [exact H|]. now rewrite <- app_assoc. Qed.
Lemma drain1_keeps sl F R r F' R' : drain1 rw hl pc many true sl false F R r F' R' -> keeps F R [] [] F' R'.
Proof.
  intros [ |d R1 F1 -> L H|d R1 e F1 -> L H]; [apply keeps_same| |]; apply push_keeps in H; destruct H as [[-> _]|[-> (e0 & E)]]; try discriminate; try apply keeps_same.
  - intros P X H. cbn [app]. rewrite app_nil_r. rewrite <- app_assoc. exact H.
  - apply dup_keeps.
Qed.
Lemma keeps_trans F R F1 R1 F' R' : keeps F R [] [] F1 R1 -> keeps F1 R1 [] [] F' R' -> keeps F R [] [] F' R'.
Proof. intros H1 H2 P X H. specialize (H1 P X H). cbn [app] in H1. rewrite app_nil_r in H1. apply H2. exact H1. Qed.
Lemma drains_keeps sl F R r F' R' : drains rw hl pc many true sl false F R r F' R' -> keeps F R [] [] F' R'.
Proof.
  remember false as ow eqn:OW. induction 1 as [F R F' R' D|F R e F' R' D|F R F1 R1 r F' R' D H IH]; subst; try (now apply drain1_keeps in D). eapply keeps_trans; [eapply drain1_keeps; exact D|]. auto.
Qed.
Lemma pop_keeps F b r F' R : qdo F (QPop b) (AItem r) F' -> r <> Err cut -> keeps F R [] (match r with Ok (Some d) => [d] | _ => [] end) F' R /\ (r = Ok None -> F = [] /\ F' = []).
Proof.
  intros H NE. inversion H as [| | | |? ? ? ? S| | | | | | | | | | |]; subst; [|congruence]. inversion S; subst; try discriminate; cbn [app]; split; try discriminate; try apply keeps_same; auto.
Qed.
Lemma peek_keeps F b a F' : qdo F (QPeek b) a F' -> F' = F.
Proof. intros H. inversion H as [| | | | |? ? ? ? S| | | | | | | | | |]; subst; auto. inversion S; subst; reflexivity. Qed.
Lemma bdo_keeps F R c p a F' R' : bdo F R c a F' R' -> careful (VCall c p) -> match c with BPop _ => a <> BItem (Err cut) | _ => True end ->
  exists i o, (forall t l, bin (VCall c p :: t) (a :: l) = i ++ bin t l) /\ (forall t l, bout (VCall c p :: t) (a :: l) = o ++ bout t l) /\ keeps F R i o F' R'.
Proof.
  intros H CA NE.
  assert (NO : keeps F R [] [] F' R' -> (forall t l, bin (VCall c p :: t) (a :: l) = bin t l) -> (forall t l, bout (VCall c p :: t) (a :: l) = bout t l) ->
    exists i o, (forall t l, bin (VCall c p :: t) (a :: l) = i ++ bin t l) /\ (forall t l, bout (VCall c p :: t) (a :: l) = o ++ bout t l) /\ keeps F R i o F' R').
  { intros X Y Z. exists [], []. auto. }
  inversion H; subst; cbn [careful] in CA; try contradiction; subst.
  - exists [d], []. split; [reflexivity|]. split; [reflexivity|]. intros P X HH. cbn [app]. replace (P ++ F' ++ R ++ [d]) with ((P ++ F' ++ R) ++ [d]) by (now rewrite <- !app_assoc). now apply repeats_app.
  - apply NO; try reflexivity. apply keeps_same.
  - apply NO; try reflexivity. eapply drain1_keeps; eauto.
  - apply NO; try reflexivity. eapply drains_keeps; eauto.
  - assert (NR : r <> Err cut) by (intros ->; now apply NE). match goal with X : qdo _ _ _ _ |- _ => destruct (pop_keeps _ _ _ _ R' X NR) as [K _] end. destruct r as [[d|]|e]; [|congruence|].
    + exists [], [d]. auto.
    + apply NO; auto.
  - match goal with X : qdo _ _ _ _ |- _ => destruct (pop_keeps _ _ _ _ R' X) as [K Y]; [discriminate|] end. destruct (Y eq_refl) as [-> ->]. exists [], [d]. split; [reflexivity|]. split; [reflexivity|].
    intros P X2 HH. rewrite app_nil_r. exact HH.
  - match goal with X : qdo _ _ _ _ |- _ => destruct (pop_keeps _ _ _ _ R' X) as [K Y]; [discriminate|] end. apply NO; auto.
  - match goal with X : qdo _ _ _ _ |- _ => apply peek_keeps in X; subst end. apply NO; try reflexivity. apply keeps_same.
  - match goal with X : qdo _ _ _ _ |- _ => apply peek_keeps in X; subst end. apply NO; try reflexivity. apply keeps_same.
  - match goal with X : qdo _ _ _ _ |- _ => apply peek_keeps in X; subst end. apply NO; try reflexivity. apply keeps_same.
Qed.
Lemma trace_keeps F R evs l F' R' : btrace F R evs l F' R' -> Forall careful evs -> pops_end evs l -> forall P X, repeats (P ++ F ++ R) X -> repeats (P ++ bout evs l ++ F' ++ R') (X ++ bin evs l).
Proof.
  induction 1 as [F R|F R c p a F1 R1 evs l F2 R2 D T IH|F R c evs l F2 R2 T IH]; intros CA PE P X H.
  - cbn. now rewrite app_nil_r.
  - inversion CA as [|? ? C1 C2]; subst. cbn [pops_end] in PE. destruct PE as [PE1 PE2]. destruct (bdo_keeps _ _ _ p _ _ _ D C1 PE1) as (i & o & EI & EO & K). rewrite EI, EO.
    specialize (IH C2 PE2 (P ++ o) (X ++ i)). rewrite <- !app_assoc in IH. rewrite <- !app_assoc. apply IH. apply K. exact H.
  - exfalso. inversion CA as [|? ? Y _]; exact Y.
Qed.
End Failures.

(** * The model follows the specification *)
Lemma power_same {K} (s : st K) : power s (f_fuel (s_fl s)) = s.
Proof. destruct s as [f b c it]. destruct f. reflexivity. Qed.

Section Model.
Context (pf : bool) (g : geom) (cap : nat).
Notation qdo := (qdo (rup g) (HL g) (page_cap g) (2 <=? NP g) pf).
Notation bdo := (bdo (rup g) (HL g) (page_cap g) (2 <=? NP g) pf cap).
Notation btrace := (btrace (rup g) (HL g) (page_cap g) (2 <=? NP g) pf cap).

(** The flash part, whatever power there is for what comes next. *)
Definition qinv (s : st unit) (F : list item) : Prop := exists evs l s0 p, q_reached pf g evs l s0 /\ q_holds g s0 F /\ (pf = false -> p = None) /\ s = power s0 p.
Lemma reached_fuel evs l s : q_reached pf g evs l s -> pf = false -> f_fuel (s_fl s) = None.
Proof.
  intros R PF. destruct (reached_qst _ _ _ _ _ R) as (ae & aw & Y & _ & (pg & _ & _ & SW) & _). rewrite PF in SW. apply SW. reflexivity.
Qed.
Lemma qinv_of evs l s F : q_reached pf g evs l s -> q_holds g s F -> qinv s F.
Proof. intros R H. exists evs, l, s, (f_fuel (s_fl s)). repeat split; auto; [now apply (reached_fuel evs l)|]. now rewrite power_same. Qed.
Lemma qinv_power s F p : qinv s F -> (pf = false -> p = None) -> qinv (power s p) F.
Proof. intros (evs & l & s0 & p0 & R & H & P & ->) PP. exists evs, l, s0, p. repeat split; auto. Qed.
Lemma qinv_holds s F : qinv s F -> q_holds g s F.
Proof. intros (evs & l & s0 & p & R & H & P & ->). exact H. Qed.
Lemma qinv_step s F c a s' : qinv s F -> callable pf c -> q_exec g c s = (a, s') -> exists F', qdo F c a F' /\ qinv s' F'.
Proof.
  intros (evs & l & s0 & p & R & H & P & ->) C E. set (ca := @mkcache unit false PSNone PPNone KPNone). assert (FC : fresh_cache (NP g) ca) by (repeat split; constructor).
  destruct (q_cut pf g evs l s0 F c p a s' ca R H C P FC E) as (F' & D & H1 & _). destruct (reached_snoc pf g evs l s0 c p a s' ca R C P FC E) as [_ R']. exists F'. split; auto. eapply qinv_of; eauto.
Qed.
Lemma q_run_app evs evs2 : forall s0 l s l2 s2, q_run g s0 evs = (l, s) -> q_run g s evs2 = (l2, s2) -> q_run g s0 (evs ++ evs2) = (l ++ l2, s2).
Proof.
  induction evs as [|e evs IH]; intros s0 l s l2 s2 E E2; cbn [q_run app] in *.
  - injection E as <- <-. exact E2.
  - destruct e as [c p|c].
    + destruct (q_exec g c (power s0 p)) as [a1 t1]. destruct (q_run g t1 evs) as [k1 u1] eqn:R1. injection E as <- <-. now rewrite (IH _ _ _ _ _ R1 E2).
    + eapply IH; eauto.
Qed.
Lemma qinv_boot s F ca : qinv s F -> fresh_cache (NP g) ca -> qinv (set_ca s ca) F.
Proof.
  intros (evs & l & s0 & p & R & H & P & ->) FC. change (set_ca (power s0 p) ca) with (power (set_ca s0 ca) p). apply qinv_power; auto. apply (qinv_of (evs ++ [EBoot ca]) (l ++ [])).
  - destruct R as (f & c0 & ER & FU & FE & FN & ST & EV & E). exists f, c0. repeat (split; [assumption|]). split; [apply Forall_app; split; auto; constructor; auto|].
    eapply q_run_app; eauto.
  - destruct (reached_qst _ _ _ _ _ R) as (ae & aw & Y & ST & QS & _). pose proof (setting_single _ _ _ _ ST) as SG. pose proof ST as [gok _].
    rewrite (holds_eq g gok (negb pf) ae aw SG Y s0 F QS H). destruct QS as (pg & LY & QI & SW). eapply (holds_of g gok (negb pf) ae aw SG). exists pg. split; auto. split; auto. now apply sworld_boot.
Qed.

Lemma peek_none r R n : ring_rep r R -> ring_peek r n = None -> nothing_for n R.
Proof. intros RR H. rewrite (rep_peek _ _ _ RR) in H. destruct R as [|d t]; cbn; auto. destruct (Nat.leb_spec (length d) n); [discriminate|lia]. Qed.
Lemma peek_some r R n d : ring_rep r R -> ring_peek r n = Some d -> exists t, R = d :: t /\ length d <= n.
Proof. intros RR H. rewrite (rep_peek _ _ _ RR) in H. destruct R as [|x t]; [discriminate|]. destruct (Nat.leb_spec (length x) n); [|discriminate]. injection H as ->. eauto. Qed.

(** The buffered queue over any flash state described by an invariant of single queue calls. *)
Section Gen.
Context (inv : st unit -> list item -> Prop).
Context (step : forall s F c a s', inv s F -> callable pf c -> q_exec g c s = (a, s') -> exists F', qdo F c a F' /\ inv s' F').
Context (repower : forall s F p, inv s F -> (pf = false -> p = None) -> inv (power s p) F).
Context (reboot : forall s F ca, inv s F -> fresh_cache (NP g) ca -> inv (set_ca s ca) F).
Definition binv (q : bq) (F R : list item) : Prop := inv (snd q) F /\ ring_rep (fst q) R /\ r_cap (fst q) = cap /\ Forall (item_ok pf) R.
Definition bcall_ok (c : bcall) : Prop := match c with BEnq d _ => item_ok pf d | _ => True end.

Lemma drain_one_ok sl ow q F R r q' : binv q F R -> bq_drain_one g sl ow q = (r, q') ->
  exists F' R', drain1 (rup g) (HL g) (page_cap g) (2 <=? NP g) pf sl ow F R r F' R' /\ binv q' F' R'.
Proof.
  destruct q as [rg s]. intros (I & RR & CP & OK) E. cbn [fst snd bq_drain_one] in *. destruct (ring_peek rg sl) as [d|] eqn:PK.
  - destruct (peek_some _ _ _ _ RR PK) as (t & -> & L). inversion OK as [|? ? O1 O2]; subst. destruct (q_push g d ow s) as [x s'] eqn:PU.
    destruct (step s F (QPush d ow) (AUnit x) s' I O1) as (F' & D & I'); [cbn; rewrite PU; reflexivity|]. destruct x as [[]|e]; injection E as <- <-.
    + exists F', t. split; [eapply D1Item; eauto|]. split; [exact I'|]. split; [apply (rep_discard _ _ RR)|]. split; [cbn [fst]; rewrite cap_discard; exact CP|exact O2].
    + exists F', (d :: t). split; [eapply D1Err; eauto|]. split; [exact I'|]. split; auto.
  - injection E as <- <-. exists F, R. split; [constructor; eapply peek_none; eauto|]. split; auto.
Qed.
Lemma drain_loop_ok sl ow : forall fuel q F R r q', length R < fuel -> binv q F R -> bq_drain_loop g fuel sl ow q = (r, q') ->
  exists F' R', drains (rup g) (HL g) (page_cap g) (2 <=? NP g) pf sl ow F R r F' R' /\ binv q' F' R'.
Proof.
  induction fuel as [|fuel IH]; intros q F R r q' L I E; [lia|]. cbn [bq_drain_loop] in E. destruct (bq_drain_one g sl ow q) as [x q1] eqn:D1.
  destruct (drain_one_ok _ _ _ _ _ _ _ I D1) as (F1 & R1 & D & I1). destruct x as [[|]|e].
  - assert (length R1 < fuel) by (inversion D; subst; cbn in *; lia). destruct (IH _ _ _ _ _ H I1 E) as (F' & R' & D' & I'). exists F', R'. split; auto. eapply DAItem; eauto.
  - injection E as <- <-. exists F1, R1. split; auto. now constructor.
  - injection E as <- <-. exists F1, R1. split; auto. now constructor.
Qed.
Lemma bexec_ok c p q F R a q' : binv q F R -> bcall_ok c -> (pf = false -> p = None) -> bexec g c (fst q, power (snd q) p) = (a, q') -> exists F' R', bdo F R c a F' R' /\ binv q' F' R'.
Proof.
  destruct q as [rg s0]. intros (I0 & RR & CP & OK) C P E. cbn [fst snd] in *. pose proof (repower _ _ p I0 P) as I. set (s := power s0 p) in *. clearbody s. clear I0 s0 P.
  assert (B : binv (rg, s) F R) by (split; auto). destruct c as [d po|sl ow|sl ow|b|b]; cbn [bexec] in E.
  - unfold bq_enqueue, ring_enqueue in E. cbn [fst snd] in E. pose proof (rep_step rg R (match po with PErr => RPush d | PDiscardOldest => RPushOw d end) RR) as X.
    destruct po; cbn [ring_step fifo_step] in X.
    + destruct (ring_push rg d) as [rg'|]; injection E as <- <-; destruct ((N.of_nat (length d) <=? 65535)%N && (cost R + (2 + length d) <=? r_cap rg)) eqn:Z; destruct X as (X1 & X2 & X3); try discriminate.
      * apply andb_true_iff in Z. destruct Z as [Z1 Z2]. exists F, (R ++ [d]). split.
        -- apply BDEnq; [lia|]. rewrite ram_app, ram_cost. apply Nat.leb_le in Z2. unfold ram. cbn. lia.
        -- split; auto. split; auto. cbn [fst]. split; [congruence|]. apply Forall_app. split; auto.
      * apply andb_false_iff in Z. exists F, R. split; [|split; auto]. apply BDFull. rewrite ram_app, ram_cost. unfold ram. cbn. destruct Z as [Z|Z]; [left; lia|right; apply Nat.leb_gt in Z; lia].
    + destruct (ring_push_ow rg d) as [rg'|]; injection E as <- <-; destruct ((N.of_nat (length d) <=? 65535)%N && (2 + length d <=? r_cap rg)) eqn:Z; destruct X as (X1 & X2 & X3); try discriminate.
      * apply andb_true_iff in Z. destruct Z as [Z1 Z2]. apply Nat.leb_le in Z2. destruct (drop_until_spec (r_cap rg) (2 + length d) R Z2) as (gone & EG & FT & MN).
        rewrite CP in *. set (R' := drop_until cap (2 + length d) R) in *. exists F, (R' ++ [d]). split.
        -- apply (BDEvict _ _ _ _ _ _ _ _ d gone R'); auto; [lia|rewrite ram_app, ram_cost; unfold ram; cbn; lia|].
           intros g1 x EX. specialize (MN g1 x EX). change (x :: R' ++ [d]) with ((x :: R') ++ [d]). rewrite ram_app, ram_one, ram_cost. exact MN.
        -- split; auto. split; auto. cbn [fst]. split; [congruence|]. rewrite EG in OK. apply Forall_app in OK. destruct OK as [_ OK]. apply Forall_app. split; auto.
      * apply andb_false_iff in Z. exists F, R. split; [|split; auto]. apply BDTooBig. rewrite CP in Z. unfold ram. cbn. destruct Z as [Z|Z]; [left; lia|right; apply Nat.leb_gt in Z; lia].
  - destruct (bq_drain_one g sl ow (rg, s)) as [r q1] eqn:D. injection E as <- <-. destruct (drain_one_ok _ _ _ _ _ _ _ B D) as (F' & R' & DD & BB). exists F', R'. split; auto. now constructor.
  - destruct (bq_drain_all g sl ow (rg, s)) as [r q1] eqn:D. injection E as <- <-. unfold bq_drain_all in D. assert (LL : length R < S (r_cnt (fst (rg, s)))) by (cbn [fst]; rewrite (rr_cnt _ _ RR); apply Nat.lt_succ_diag_r).
    destruct (drain_loop_ok sl ow _ (rg, s) F R r q1 LL B D) as (F' & R' & DD & BB). exists F', R'. split; auto. now constructor.
  - unfold bq_pop in E. destruct (q_pop g b s) as [x s'] eqn:PO. destruct (step s F (QPop b) (AItem x) s' I Logic.I) as (F' & D & I'); [unfold q_exec, ans1; rewrite PO; reflexivity|].
    destruct x as [[d|]|e].
    + injection E as <- <-. exists F', R. split; [apply BDPopF; auto; discriminate|split; auto].
    + destruct (ring_peek rg (length b)) as [d|] eqn:PK; injection E as <- <-.
      * destruct (peek_some _ _ _ _ RR PK) as (t & -> & L). inversion OK as [|? ? O1 O2]; subst. exists F', t. split; [eapply BDPopR; eauto|]. split; [exact I'|]. split; [apply (rep_discard _ _ RR)|]. split; [cbn [fst]; rewrite cap_discard; exact CP|exact O2].
      * exists F', R. split; [apply BDPopNone; auto; eapply peek_none; eauto|split; auto].
    + injection E as <- <-. exists F', R. split; [apply BDPopF; auto; discriminate|split; auto].
  - unfold bq_peek in E. destruct (q_peek g b s) as [x s'] eqn:PO. destruct (step s F (QPeek b) (AItem x) s' I Logic.I) as (F' & D & I'); [unfold q_exec, ans1; rewrite PO; reflexivity|].
    destruct x as [[d|]|e].
    + injection E as <- <-. exists F', R. split; [apply BDPeekF; auto; discriminate|split; auto].
    + injection E as <- <-. exists F', R. split; [|split; auto]. destruct (ring_peek rg (length b)) as [d|] eqn:PK.
      * destruct (peek_some _ _ _ _ RR PK) as (t & -> & L). eapply BDPeekR; eauto.
      * apply BDPeekNone; auto. eapply peek_none; eauto.
    + injection E as <- <-. exists F', R. split; [apply BDPeekF; auto; discriminate|split; auto].
Qed.
Definition bev_ok (e : bev) : Prop := match e with VCall c p => bcall_ok c /\ (pf = false -> p = None) | VBoot c => fresh_cache (NP g) c end.
Lemma brun_ok evs : forall q F R l q', binv q F R -> Forall bev_ok evs -> brun g cap q evs = (l, q') -> exists F' R', btrace F R evs l F' R' /\ binv q' F' R'.
Proof.
  induction evs as [|e evs IH]; intros q F R l q' B V E.
  - injection E as <- <-. exists F, R. split; auto. constructor.
  - inversion V as [|? ? V1 V2]; subst. cbn [brun] in E. destruct e as [c p|c].
    + destruct V1 as [V1 V3]. destruct (bexec g c (fst q, power (snd q) p)) as [a q1] eqn:X. destruct (brun g cap q1 evs) as [l1 q2] eqn:Y. injection E as <- <-.
      destruct (bexec_ok _ _ _ _ _ _ _ B V1 V3 X) as (F1 & R1 & D & B1). destruct (IH _ _ _ _ _ B1 V2 Y) as (F' & R' & T & B'). exists F', R'. split; auto. econstructor; eauto.
    + destruct B as (I & RR & CP & OK). destruct (IH (ring_new cap, set_ca (snd q) c) F [] l q') with (2 := V2) (3 := E) as (F' & R' & T & B').
      { split; [apply reboot; auto|]. split; [apply rep_new|]. split; [unfold r_cap; cbn; apply repeat_length|constructor]. }
      exists F', R'. split; auto. now constructor.
Qed.
End Gen.
End Model.

Lemma ram_rep R : forall r, ring_rep r R -> ram_holds r R.
Proof.
  induction R as [|d t IH]; intros r RR; cbn [ram_holds].
  - apply (rr_cnt _ _ RR).
  - split; [rewrite (rep_peek _ _ _ RR); now rewrite Nat.leb_refl|]. apply IH. exact (rep_discard _ _ RR).
Qed.
(** [q] is reached by the history [evs] from erased flash and empty RAM, with answers [l]. *)
Definition b_reached (pf : bool) (g : geom) (cap : nat) (evs : list bev) (l : list bans) (q : bq) : Prop :=
  exists f c, erased g f /\ f_fuel f = None /\ f_er f = [] /\ fresh_cache (NP g) c /\ setting pf g (f_ae f) (f_aw f) /\
    Forall (bev_ok pf g) evs /\ brun g cap (ring_new cap, st_new f c) evs = (l, q).
Lemma b_start pf g cap f c : erased g f -> f_fuel f = None -> f_er f = [] -> fresh_cache (NP g) c -> setting pf g (f_ae f) (f_aw f) -> binv pf cap (qinv pf g) (ring_new cap, st_new f c) [] [].
Proof.
  intros ER FU FE FC ST. assert (R : q_reached pf g [] [] (st_new f c)) by (exists f, c; repeat (split; [assumption|]); split; [constructor|reflexivity]).
  split; [|split; [apply rep_new|split; [unfold r_cap; cbn; apply repeat_length|constructor]]]. cbn [snd]. destruct (q_history _ _ _ _ _ R) as (q & T & H). inversion T; subst. eapply qinv_of; eauto.
Qed.
Lemma b_history pf g cap evs l q : b_reached pf g cap evs l q ->
  exists F R, btrace (rup g) (HL g) (page_cap g) (2 <=? NP g) pf cap [] [] evs l F R /\ q_holds g (snd q) F /\ ram_holds (fst q) R.
Proof.
  intros (f & c & ER & FU & FE & FC & ST & EV & E). destruct (brun_ok pf g cap (qinv pf g) (qinv_step pf g) (qinv_power pf g) (qinv_boot pf g) evs _ [] [] l q (b_start pf g cap f c ER FU FE FC ST) EV E) as (F & R & T & I & RR & _).
  exists F, R. split; auto. split; [eapply qinv_holds; eauto|now apply ram_rep].
Qed.
Lemma b_fifo g cap evs l q : b_reached false g cap evs l q ->
  exists F R, q_holds g (snd q) F /\ ram_holds (fst q) R /\ part_of (bout evs l ++ F ++ R) (bin evs l) /\ (Forall careful evs -> bout evs l ++ F ++ R = bin evs l).
Proof. intros H. destruct (b_history _ _ _ _ _ _ H) as (F & R & T & I & RR). exists F, R. split; auto. split; auto. apply (trace_flow _ _ _ _ _ [] [] evs l F R T). Qed.
Lemma b_at_least_once g cap evs l q : b_reached true g cap evs l q -> Forall careful evs -> pops_end evs l ->
  exists F R, q_holds g (snd q) F /\ ram_holds (fst q) R /\ repeats (bout evs l ++ F ++ R) (bin evs l).
Proof.
  intros H CA PE. destruct (b_history _ _ _ _ _ _ H) as (F & R & T & I & RR). exists F, R. split; auto. split; auto.
  apply (trace_keeps _ _ _ _ _ [] [] evs l F R T CA PE [] []). constructor.
Qed.
