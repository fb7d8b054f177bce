(** The shared ring when its drains and pops are given up while they wait. *)
From Coq Require Import List NArith ZArith Arith Bool Lia ZifyBool ZifyNat ZifyN.
From Verif Require Import Base BaseP Flash Cache State Item Generic Queue GeomP Buffered RingP Client QSpec QObs QPropsP QHistP BSpec BufP Drops DropBP SharedP SDrops.
Import ListNotations.

Section S.
Context (g : geom) (ae : bool) (aw : nat) (ST : setting true g ae aw).
Notation qdo := (qdo (rup g) (HL g) (page_cap g) (2 <=? NP g) true).
Notation dinv := (dinv g ae aw).
Notation stp := (dinv_step g ae aw ST).

Definition hand (c : pc) (R : list item) : Prop := match c with CIdle => True | CPeeked d => exists t, R = d :: t | CPushed => R <> [] end.
Definition xinv (x : shared) (F R : list item) : Prop := dinv (sh_st x) F /\ ring_rep (sh_ring x) R /\ Forall (item_ok true) R /\ hand (sh_pc x) R.
Definition xact_ok (a : act) : Prop := match a with AEnq d _ => item_ok true d | _ => True end.
Definition kept (C i o C' : list item) : Prop := forall P X, repeats (P ++ C) X -> repeats (P ++ o ++ C') (X ++ i).
Lemma kept_same C : kept C [] [] C. Proof. intros P X H. rewrite app_nil_r. exact H. Qed.


Lemma xstep (R0 : reader) x a F R x' o : xinv x F R -> xact_ok a -> act_careful a -> pop_ended (a, o) ->
  (forall d s', callable true (QPush d false) -> q_push (R := R0) g d false (sh_st x) = (Ok tt, s') -> exists F', qdo F (QPush d false) (AUnit (Ok tt)) F' /\ dinv s' F') ->
  (forall d e s', callable true (QPush d false) -> q_push (R := R0) g d false (sh_st x) = (Err e, s') -> exists a' F', qdo F (QPush d false) a' F' /\ dinv s' F') ->
  (forall b r s', is_gone r = false -> q_pop (R := R0) g b (sh_st x) = (r, s') -> exists F', qdo F (QPop b) (AItem r) F' /\ dinv s' F') ->
  sh_step g (R := R0) x a = Some (x', o) ->
  exists F' R' i ou, xinv x' F' R' /\ (forall t l, sh_in (a :: t) (o :: l) = i ++ sh_in t l) /\ (forall t l, sh_out (a :: t) (o :: l) = ou ++ sh_out t l) /\
    kept (F ++ unsaved (sh_pc x) R) i ou (F' ++ unsaved (sh_pc x') R').
Proof.
  destruct x as [rg sg c s du]. intros (I & RR & OK & HA) AO CA PE HP HE HO E. cbn [sh_ring sh_sig sh_pc sh_st sh_due] in *.
  assert (NO : forall x2, xinv x2 F R -> sh_pc x2 = c -> (forall t l, sh_in (a :: t) (o :: l) = sh_in t l) -> (forall t l, sh_out (a :: t) (o :: l) = sh_out t l) ->
    exists F' R' i ou, xinv x2 F' R' /\ (forall t l, sh_in (a :: t) (o :: l) = i ++ sh_in t l) /\ (forall t l, sh_out (a :: t) (o :: l) = ou ++ sh_out t l) /\
    kept (F ++ unsaved c R) i ou (F' ++ unsaved (sh_pc x2) R')).
  { intros x2 X2 PC E1 E2. exists F, R, [], []. rewrite PC. split; auto. split; auto. split; auto. apply kept_same. }
  destruct a as [d po| |sl|ow| | |b]; cbn [sh_step sh_ring sh_sig sh_pc sh_st sh_due] in E.
  - destruct po; [|destruct CA]. unfold ring_enqueue in E. pose proof (rep_step rg R (RPush d) RR) as X. cbn [ring_step fifo_step] in X.
    destruct (ring_push rg d) as [rg'|]; injection E as <- <-; [|apply NO; try reflexivity; split; auto].
    destruct ((N.of_nat (length d) <=? 65535)%N && (cost R + (2 + length d) <=? r_cap rg)); destruct X as (X1 & X2 & X3); try discriminate.
    exists F, (R ++ [d]), [d], []. split; [|split; [reflexivity|split; [reflexivity|]]].
    + split; [exact I|]. split; [exact X2|]. split; [apply Forall_app; auto|]. cbn [sh_pc]. destruct c as [|y|]; cbn [hand] in *; auto; [destruct HA as (t & ->); now exists (t ++ [d])|]. destruct R; [contradiction|discriminate].
    + intros P X H. cbn [app sh_pc]. assert (U : unsaved c (R ++ [d]) = unsaved c R ++ [d]) by (destruct c as [|y|]; auto; cbn; destruct R; [contradiction|reflexivity]).
      rewrite U. replace (P ++ F ++ unsaved c R ++ [d]) with ((P ++ F ++ unsaved c R) ++ [d]) by (now rewrite <- !app_assoc). now apply repeats_app.
  - destruct du as [|n]; [discriminate|]. injection E as <- <-. apply NO; try reflexivity. split; auto.
  - destruct c; try discriminate. destruct (ring_peek rg sl) as [d|] eqn:PK; injection E as <- <-; [|apply NO; try reflexivity; split; auto].
    destruct (peek_some _ _ _ _ RR PK) as (t & -> & L). exists F, (d :: t), [], []. split; [|split; [reflexivity|split; [reflexivity|apply kept_same]]].
    split; [exact I|]. split; [exact RR|]. split; auto. now exists t.
  - destruct c as [|d|]; try discriminate. cbn [act_careful] in CA. subst ow. cbn [hand] in HA. destruct HA as (t & ->). inversion OK as [|? ? O1 O2]; subst.
    destruct (q_push (R := R0) g d false s) as [r s'] eqn:PU. destruct r as [[]|e]; injection E as <- <-.
    + destruct (HP d s' O1 PU) as (F' & Q & I'). apply push_keeps in Q. destruct Q as [[-> _]|[-> (e & Q)]]; [|discriminate].
      exists (F ++ [d]), (d :: t), [], []. split; [|split; [reflexivity|split; [reflexivity|]]]; [split; [exact I'|split; [exact RR|split; [exact OK|discriminate]]]|].
      intros P X H. cbn [sh_pc unsaved tl app] in *. rewrite app_nil_r, <- app_assoc. exact H.
    + destruct (HE d e s' O1 PU) as (a' & F' & Q & I'). apply push_keeps in Q. exists F', (d :: t), [], []. split; [split; [exact I'|split; [exact RR|split; [exact OK|exact Logic.I]]]|]. split; [reflexivity|split; [reflexivity|]].
      cbn [sh_pc unsaved]. destruct Q as [[-> _]|[-> _]]; [apply dup_keeps|apply kept_same].
  - destruct c; try discriminate. injection E as <- <-. exists F, (tl R), [], []. split; [|split; [reflexivity|split; [reflexivity|apply kept_same]]].
    split; [exact I|]. split; [apply (rep_discard _ _ RR)|]. split; [destruct R; cbn; inversion OK; auto|exact Logic.I].
  - destruct c; try discriminate. destruct sg; try discriminate. injection E as <- <-. apply NO; try reflexivity. split; auto.
  - destruct c; try discriminate. destruct (q_pop (R := R0) g b s) as [r s'] eqn:PO. injection E as <- <-. cbn [pop_ended] in PE. destruct PE as [PE1 PE2].
    destruct (HO b r s' PE2 PO) as (F' & Q & I'). destruct (pop_keeps _ _ _ _ _ _ _ _ R Q PE1) as [K _]. exists F', R, [], (match r with Ok (Some d) => [d] | _ => [] end).
    split; [split; [exact I'|auto]|]. split; [reflexivity|]. split; [destruct r as [[d|]|e]; reflexivity|]. exact K.
Qed.

Lemma xinv_power x F R p : xinv x F R -> xinv (with_st x (power (sh_st x) p)) F R.
Proof. intros (I & H). split; [apply (dinv_power g ae aw); exact I|exact H]. Qed.
Lemma sd_step_ok x e F R x' o : xinv x F R -> xact_ok (act_of e) -> act_careful (act_of e) -> pop_ended (act_of e, o) -> sd_step g x e = Some (x', o) ->
  exists F' R' i ou, xinv x' F' R' /\ (forall t l, sh_in (act_of e :: t) (o :: l) = i ++ sh_in t l) /\ (forall t l, sh_out (act_of e :: t) (o :: l) = ou ++ sh_out t l) /\
    kept (F ++ unsaved (sh_pc x) R) i ou (F' ++ unsaved (sh_pc x') R').
Proof.
  intros IN AO CA PE E.
  assert (ORD : forall p a x1 o1, xact_ok a -> act_careful a -> pop_ended (a, o1) -> sh_step g (with_st x (power (sh_st x) p)) a = Some (x1, o1) ->
    exists F' R' i ou, xinv x1 F' R' /\ (forall t l, sh_in (a :: t) (o1 :: l) = i ++ sh_in t l) /\ (forall t l, sh_out (a :: t) (o1 :: l) = ou ++ sh_out t l) /\
    kept (F ++ unsaved (sh_pc x) R) i ou (F' ++ unsaved (sh_pc x1) R')).
  { clear E AO CA PE. intros p a x1 o1 AO CA PE E. pose proof (xinv_power x F R p IN) as IN'. pose proof (proj1 IN') as D. destruct (xstep steady _ a F R x1 o1 IN' AO CA PE) with (4 := E) as (F' & R' & i & ou & H); eauto.
    - intros d s' C PU. apply (stp _ F (QPush d false) _ s' D C). cbn [q_exec]. now rewrite PU.
    - intros d er s' C PU. exists (AUnit (Err er)). apply (stp _ F (QPush d false) _ s' D C). cbn [q_exec]. now rewrite PU.
    - intros b r s' _ PO. apply (stp _ F (QPop b) _ s' D Logic.I). unfold q_exec, ans1. now rewrite PO. }
  destruct e as [a p|a t|a]; cbn [act_of sd_step] in *.
  - eapply ORD; eauto.
  - pose proof (xinv_power x F R None IN) as IN'. pose proof (proj1 IN') as D. destruct (xstep (drop_at (sh_st x) t) _ a F R x' o IN' AO CA PE) with (4 := E) as (F' & R' & i & ou & H); eauto; cbn [with_st sh_st].
    + intros d s' C PU. pose proof (dinv_drop g ae aw ST (length (f_bad (s_fl (sh_st x))) + t) _ F (QPush d false) (AUnit (Ok tt)) s' D eq_refl C) as X. unfold q_exec in X. cbn [with_st sh_st] in X. unfold drop_at in PU. rewrite PU in X. exact (X eq_refl).
    + intros d er s' C PU. pose proof (dinv_drop g ae aw ST (length (f_bad (s_fl (sh_st x))) + t) _ F (QPush d false) (AUnit (Err er)) s' D eq_refl C) as X. unfold q_exec in X. cbn [with_st sh_st] in X. unfold drop_at in PU. rewrite PU in X. specialize (X eq_refl).
      destruct (q_gone (AUnit (Err er))); [exact X|]. eauto.
    + intros b r s' G PO. pose proof (dinv_drop g ae aw ST (length (f_bad (s_fl (sh_st x))) + t) _ F (QPop b) (AItem r) s' D eq_refl Logic.I) as X. unfold q_exec, ans1 in X. cbn [with_st sh_st] in X. unfold drop_at in PO. rewrite PO in X. specialize (X eq_refl).
      cbn [q_gone] in X. rewrite G in X. exact X.
  - destruct a as [d po| |sl|ow| | |b]; try discriminate.
    + cbn [act_careful] in CA. subst ow. destruct x as [rg sg c s du]. pose proof IN as (I & RR & OK & HA). cbn [sh_step with_st sh_ring sh_sig sh_pc sh_st sh_due] in *. destruct c as [|d|]; try discriminate. cbn [hand] in HA. destruct HA as (t & ->).
      inversion OK as [|? ? O1 O2]; subst. apply (dinv_power g ae aw _ _ None) in I. destruct (q_push g d false (power s None)) as [r s'] eqn:PU.
      destruct (stp _ F (QPush d false) (AUnit r) s' I O1) as (F' & Q & I'); [cbn [q_exec]; now rewrite PU|]. apply push_keeps in Q.
      assert (X : kept (F ++ d :: t) [] [] (F' ++ d :: t)) by (destruct Q as [[-> _]|[-> _]]; [apply dup_keeps|apply kept_same]).
      exists F', (d :: t), [], []. destruct r as [[]|er]; injection E as <- <-; cbn [sh_pc sh_st sh_ring sh_sig sh_due unsaved]; (split; [split; [apply dinv_mark; exact I'|split; [exact RR|split; [exact OK|exact Logic.I]]]|split; [reflexivity|split; [reflexivity|exact X]]]).
    + destruct (sh_step g (with_st x (power (sh_st x) None)) (APopF b)) as [[]|]; [injection E as <- <-; contradiction|discriminate].
Qed.
Lemma sd_run_ok evs : forall x F R x' os, xinv x F R -> Forall (fun e => xact_ok (act_of e) /\ act_careful (act_of e)) evs -> sd_run g x evs = Some (x', os) ->
  Forall pop_ended (combine (map act_of evs) os) ->
  exists F' R', xinv x' F' R' /\ kept (F ++ unsaved (sh_pc x) R) (sh_in (map act_of evs) os) (sh_out (map act_of evs) os) (F' ++ unsaved (sh_pc x') R').
Proof.
  induction evs as [|e t IH]; intros x F R x' os I A E PE; cbn [sd_run] in E.
  - injection E as <- <-. exists F, R. split; auto. apply kept_same.
  - inversion A as [|? ? A1 A2]; subst. destruct (sd_step g x e) as [[x1 o]|] eqn:SP; [|discriminate]. destruct (sd_run g x1 t) as [[x2 os1]|] eqn:RU; [|discriminate]. injection E as <- <-. cbn [map combine] in *.
    inversion PE as [|? ? P1 P2]; subst. destruct A1 as [A1 A3]. destruct (sd_step_ok _ _ _ _ _ _ I A1 A3 P1 SP) as (F1 & R1 & i & ou & I1 & EI & EO & K). destruct (IH _ _ _ _ _ I1 A2 RU P2) as (F' & R' & I' & K').
    exists F', R'. split; auto. intros P X H. rewrite EI, EO. specialize (K' (P ++ ou) (X ++ i)). rewrite <- !app_assoc in K'. rewrite <- !app_assoc. apply K', K, H.
Qed.
End S.

Lemma drop_shared g cap f c evs os x : erased g f -> f_fuel f = None -> fresh_cache (NP g) c -> setting true g (f_ae f) (f_aw f) ->
  Forall (fun e => match act_of e with AEnq d _ => item_ok true d | _ => True end /\ act_careful (act_of e)) evs -> sd_run g (sh_new cap f c) evs = Some (x, os) ->
  Forall pop_ended (combine (map act_of evs) os) ->
  exists F R, q_holds g (sh_st x) F /\ ram_holds (sh_ring x) R /\ repeats (sh_out (map act_of evs) os ++ F ++ unsaved (sh_pc x) R) (sh_in (map act_of evs) os).
Proof.
  intros ER FU FC ST EV E PE. pose proof ST as [gok _].
  pose proof (qst_new g gok false (f_ae f) (f_aw f) f c ER eq_refl eq_refl (fun _ => FU) FC) as Q0.
  destruct (sd_run_ok g _ _ ST evs (sh_new cap f c) [] [] x os) with (3 := E) (4 := PE) as (F & R & (I & RR & _) & K); auto.
  { split; [eexists; split; [exact Q0|reflexivity]|]. split; [apply rep_new|]. split; [constructor|exact Logic.I]. }
  exists F, R. split; [eapply dinv_holds; eauto|]. split; [now apply ram_rep|]. exact (K [] [] RpNil).
Qed.
