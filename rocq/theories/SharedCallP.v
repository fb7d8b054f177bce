(** The calls of the shared ring's drain task, with interrupts in between. *)
From Coq Require Import List NArith ZArith Arith Bool Lia ZifyBool ZifyNat ZifyN.
From Verif Require Import Base BaseP Flash Cache State Item Generic Queue GeomP Buffered RingP Shared Client QSpec QObs QPropsP BSpec BufP SharedP.
Import ListNotations.

(** * Specification *)
Inductive scall :=
| SDrain (sl : nat) (ow : bool)
| SDrainAll (sl : nat) (ow : bool)
| SWaitDrain (sl : nat) (ow : bool)
| SPop (b : list N) (ow : bool)
| SPeek (b : list N) (ow : bool).
Inductive sans := SOne (r : res bool) | SAll (r : res unit) | SWaits | SItem (r : res (option item)).
Definition sexec (g : geom) (c : scall) (x : shx) : sans * shx :=
  match c with
  | SDrain sl ow => let '(r, y) := sx_drain_one g sl ow x in (SOne r, y)
  | SDrainAll sl ow => let '(r, y) := sx_drain_all g sl ow x in (SAll r, y)
  | SWaitDrain sl ow => match sx_wait_drain g sl ow x with (Some r, y) => (SAll r, y) | (None, y) => (SWaits, y) end
  | SPop b ow => let '(r, y) := sx_pop g b ow x in (SItem r, y)
  | SPeek b ow => let '(r, y) := sx_peek g b ow x in (SItem r, y)
  end.
Fixpoint srun (g : geom) (x : shx) (cs : list scall) : list sans * shx :=
  match cs with
  | [] => ([], x)
  | c :: t => let '(a, y) := sexec g c x in let '(l, z) := srun g y t in (a :: l, z)
  end.
(** What came out of [pop]. *)
Definition sout1 (c : scall) (a : sans) : list item := match c, a with SPop _ _, SItem (Ok (Some d)) => [d] | _, _ => [] end.
Fixpoint sout (cs : list scall) (l : list sans) : list item := match cs, l with c :: t, a :: l => sout1 c a ++ sout t l | _, _ => [] end.
(** No overwriting drains; no interrupt evicts. *)
Definition sow (c : scall) : bool := match c with SDrain _ ow | SDrainAll _ ow | SWaitDrain _ ow | SPop _ ow | SPeek _ ow => ow end.
Definition rejecting (irq : list (list (list N * policy))) : Prop := Forall (fun e => snd e = PErr) (concat irq).
(** What an answer says whatever the policies are.  [i]: accepted during the call; [F'], [R']: on flash and in RAM after it. *)
Definition says (i F' R' : list item) (c : scall) (a : sans) : Prop :=
  match c, a with
  | SDrain sl _, SOne (Ok false) => nothing_for sl R'
  | SDrain _ _, SOne (Ok true) => F' <> []
  | SDrainAll sl _, SAll (Ok _) | SWaitDrain sl _, SAll (Ok _) => nothing_for sl R'
  | SWaitDrain _ _, SWaits => i = []
  | SPop _ _, SItem (Ok (Some _)) => True
  | SPeek _ _, SItem (Ok (Some d)) => hd_error F' = Some d
  | SPop _ _, SItem (Ok None) | SPeek _ _, SItem (Ok None) => F' = []
  | SDrain _ _, SOne (Err e) | SDrainAll _ _, SAll (Err e) | SWaitDrain _ _, SAll (Err e) => e = EFull \/ e = EItemTooBig
  | SPop _ _, SItem (Err e) | SPeek _ _, SItem (Err e) => e = EFull \/ e = EItemTooBig \/ exists n, e = EBufTooSmall n
  | _, _ => False
  end.
(** What [pop] and [peek] say when nothing is given up.  [F], [R]: on flash and in RAM before the call. *)
Definition says_exactly (F R i : list item) (c : scall) (a : sans) : Prop :=
  match c, a with
  | SPop _ _, SItem (Ok (Some d)) | SPeek _ _, SItem (Ok (Some d)) => hd_error (F ++ R ++ i) = Some d
  | SPop b _, SItem (Ok None) | SPeek b _, SItem (Ok None) => nothing_for (length b) (F ++ R)
  | _, _ => True
  end.

Section Calls.
Context (g : geom) (cap : nat).
Notation qinv := (qinv false g).
Notation sinv := (sinv g cap).

Definition core (c : pc) (x : shx) : shared := mkshared (x_ring x) (x_sig x) c (x_st x) 0.
Definition irq_ok (x : shx) : Prop := Forall (fun e => item_ok false (fst e)) (concat (x_irq x)).
Definition left (x : shx) (R : list item) : nat := length R + length (concat (x_irq x)).
Definition with_st (x : shx) (s : st unit) : shx := mkshx (x_ring x) (x_sig x) s (x_irq x) (x_acc x).

(** [x'] is [x] after interrupts. *)
Record after (c : pc) (ev : bool) (x : shx) (F R P : list item) (x' : shx) (ev' : bool) (R' P' i : list item) : Prop := {
  af_inv : sinv ev' (core c x') F R' P';
  af_st : x_st x' = x_st x;
  af_acc : x_acc x' = x_acc x ++ i;
  af_part : part_of P' (P ++ i);
  af_exact : rejecting (x_irq x) -> ev = false -> ev' = false /\ P' = P ++ i;
  af_rej : rejecting (x_irq x) -> rejecting (x_irq x');
  af_ok : irq_ok x';
  af_left : left x' R' <= left x R;
  af_ne : R <> [] -> R' <> [];
  af_i : i = [] -> R' = R }.

Lemma enq_ok c ev d p x F R P : sinv ev (core c x) F R P -> item_ok false d ->
  exists ev' R' P' i, let x' := snd (sx_enqueue d p x) in
    sinv ev' (core c x') F R' P' /\ x_st x' = x_st x /\ x_irq x' = x_irq x /\ x_acc x' = x_acc x ++ i /\ part_of P' (P ++ i) /\
    (p = PErr -> ev = false -> ev' = false /\ P' = P ++ i) /\ length R' <= S (length R) /\ (R <> [] -> R' <> []) /\
    (i = [] -> R' = R /\ x_sig x' = x_sig x) /\ (i <> [] -> x_sig x' = true).
Proof.
  intros (I & RR & CP & OK & HO & PC) OD. cbn [sh_ring sh_sig sh_pc sh_st core] in *. unfold sx_enqueue, ring_enqueue.
  assert (SAME : forall b : bool, exists ev' R' P' i, let x' := snd (b, mkshx (x_ring x) (x_sig x) (x_st x) (x_irq x) (x_acc x)) in
    sinv ev' (core c x') F R' P' /\ x_st x' = x_st x /\ x_irq x' = x_irq x /\ x_acc x' = x_acc x ++ i /\ part_of P' (P ++ i) /\
    (p = PErr -> ev = false -> ev' = false /\ P' = P ++ i) /\ length R' <= S (length R) /\ (R <> [] -> R' <> []) /\
    (i = [] -> R' = R /\ x_sig x' = x_sig x) /\ (i <> [] -> x_sig x' = true)).
  { intros b. exists ev, R, P, []. cbn. rewrite !app_nil_r. split; [unfold SharedP.sinv; cbn; auto 10|]. do 3 (split; [reflexivity|]). split; [apply part_refl|]. split; [auto|]. split; [lia|]. split; [auto|].
    split; [auto|]. intros X. now destruct X. }
  assert (GO : forall r' gone R', R = gone ++ R' -> (p = PErr -> gone = []) -> ring_rep r' (R' ++ [d]) -> r_cap r' = r_cap (x_ring x) ->
    exists ev' R' P' i, let x' := snd (true, mkshx r' true (x_st x) (x_irq x) (x_acc x ++ [d])) in
    sinv ev' (core c x') F R' P' /\ x_st x' = x_st x /\ x_irq x' = x_irq x /\ x_acc x' = x_acc x ++ i /\ part_of P' (P ++ i) /\
    (p = PErr -> ev = false -> ev' = false /\ P' = P ++ i) /\ length R' <= S (length R) /\ (R <> [] -> R' <> []) /\
    (i = [] -> R' = R /\ x_sig x' = x_sig x) /\ (i <> [] -> x_sig x' = true)).
  { intros r' gone R' EG PE RR' CC. destruct (pends_enq ev c R P gone R' d PC EG) as (ev' & P' & PC' & PT & EX). exists ev', (R' ++ [d]), P', [d]. cbn.
    split. { unfold SharedP.sinv; cbn. split; [exact I|]. split; [exact RR'|]. split; [congruence|]. split; [|auto]. rewrite EG in OK. apply Forall_app in OK. apply Forall_app. split; auto. apply OK. }
    do 3 (split; [reflexivity|]). split; [exact PT|]. split; [intros E; apply EX; auto|]. split; [rewrite EG, !app_length; cbn; lia|].
    split; [intros _ X; now apply app_eq_nil in X|]. split; [discriminate|reflexivity]. }
  pose proof (rep_step (x_ring x) R (match p with PErr => RPush d | PDiscardOldest => RPushOw d end) RR) as X. destruct p; cbn [ring_step fifo_step] in X.
  - destruct (ring_push (x_ring x) d) as [r'|]; [|exact (SAME false)]. destruct ((N.of_nat (length d) <=? 65535)%N && (cost R + (2 + length d) <=? r_cap (x_ring x))); destruct X as (X1 & X2 & X3); try discriminate.
    apply (GO r' [] R); auto.
  - destruct (ring_push_ow (x_ring x) d) as [r'|]; [|exact (SAME false)]. destruct ((N.of_nat (length d) <=? 65535)%N && (2 + length d <=? r_cap (x_ring x))) eqn:Z; destruct X as (X1 & X2 & X3); try discriminate.
    apply andb_true_iff in Z. destruct Z as [Z1 Z2]. apply Nat.leb_le in Z2. destruct (drop_until_spec (r_cap (x_ring x)) (2 + length d) R Z2) as (gone & EG & FT & MN).
    apply (GO r' gone (drop_until (r_cap (x_ring x)) (2 + length d) R)); auto. discriminate.
Qed.

Lemma batch_ok c F b : forall ev x R P, sinv ev (core c x) F R P -> Forall (fun e => item_ok false (fst e)) b ->
  let x' := fold_left (fun y e => snd (sx_enqueue (fst e) (snd e) y)) b x in
  exists ev' R' P' i, sinv ev' (core c x') F R' P' /\ x_st x' = x_st x /\ x_irq x' = x_irq x /\ x_acc x' = x_acc x ++ i /\ part_of P' (P ++ i) /\
    (Forall (fun e => snd e = PErr) b -> ev = false -> ev' = false /\ P' = P ++ i) /\ length R' <= length b + length R /\ (R <> [] -> R' <> []) /\
    (i = [] -> R' = R /\ x_sig x' = x_sig x) /\ (i <> [] -> x_sig x' = true).
Proof.
  induction b as [|[d p] b IH]; intros ev x R P I O; cbn [fold_left fst snd]; cbv zeta.
  - exists ev, R, P, []. rewrite !app_nil_r. do 4 (split; [auto; fail|]). split; [apply part_refl|]. split; [auto|]. split; [cbn; lia|]. split; [auto|]. split; [auto|]. intros X. now destruct X.
  - inversion O as [|? ? O1 O2]; subst. destruct (enq_ok c ev d p x F R P I O1) as (ev1 & R1 & P1 & i1 & A1 & A2 & A3 & A4 & A5 & A6 & A7 & A8 & A9 & A10).
    destruct (IH ev1 _ R1 P1 A1 O2) as (ev2 & R2 & P2 & i2 & B1 & B2 & B3 & B4 & B5 & B6 & B7 & B8 & B9 & B10). exists ev2, R2, P2, (i1 ++ i2).
    split; [exact B1|]. split; [congruence|]. split; [congruence|]. split; [rewrite B4, A4; now rewrite app_assoc|].
    split. { eapply part_trans; [exact B5|]. rewrite app_assoc. apply part_app; [exact A5|apply part_refl]. }
    split. { intros FO EV. inversion FO as [|? ? E1 E2]; subst. destruct (A6 E1 eq_refl) as [EV1 EP1]. destruct (B6 E2 EV1) as [EV2 EP2]. split; auto. rewrite EP2, EP1. now rewrite app_assoc. }
    split; [cbn; lia|]. split; [auto|]. split.
    + intros E. apply app_eq_nil in E. destruct E as [E1 E2]. destruct (A9 E1), (B9 E2). split; congruence.
    + intros NE. destruct i2; [|apply B10; discriminate]. destruct (B9 eq_refl) as [_ ->]. apply A10. rewrite app_nil_r in NE. exact NE.
Qed.

Lemma irq_after c ev x F R P : sinv ev (core c x) F R P -> irq_ok x -> exists ev' R' P' i, after c ev x F R P (sx_irq x) ev' R' P' i /\ (i = [] -> x_sig (sx_irq x) = x_sig x) /\ (i <> [] -> x_sig (sx_irq x) = true).
Proof.
  intros I O. unfold sx_irq. destruct (x_irq x) as [|b t] eqn:EI.
  - exists ev, R, P, []. split; [|split; [auto|intros X; now destruct X]]. split; auto; rewrite ?app_nil_r; auto using part_refl.
  - unfold irq_ok in O. rewrite EI in O. cbn [concat] in O. apply Forall_app in O. destruct O as [O1 O2].
    destruct (batch_ok c F b ev (mkshx (x_ring x) (x_sig x) (x_st x) t (x_acc x)) R P I O1) as (ev2 & R2 & P2 & i2 & B1 & B2 & B3 & B4 & B5 & B6 & B7 & B8 & B9 & B10).
    exists ev2, R2, P2, i2. set (y := fold_left _ b _) in *. cbn [x_st x_irq x_acc x_sig] in *. split; [|split; [apply B9|exact B10]].
    split; auto; try (apply B9; assumption).
    + unfold rejecting. rewrite EI. cbn [concat]. intros RJ EV. apply Forall_app in RJ. apply B6; tauto.
    + unfold rejecting. rewrite EI, B3. cbn [concat]. intros RJ. apply Forall_app in RJ. tauto.
    + unfold irq_ok. now rewrite B3.
    + unfold left. rewrite B3, EI. cbn [concat]. rewrite app_length. lia.
Qed.

(** Between calls. *)
Definition idle (x : shx) (F R : list item) : Prop := sinv false (core CIdle x) F R R /\ irq_ok x.
Lemma idle_of ev x F R P : sinv ev (core CIdle x) F R P -> irq_ok x -> idle x F R.
Proof. intros (I & RR & CP & OK & HO & PC) O. split; auto. unfold SharedP.sinv; cbn in *; auto 10. Qed.
Lemma irq_idle x F R : idle x F R -> exists R' i, idle (sx_irq x) F R' /\ x_st (sx_irq x) = x_st x /\ x_acc (sx_irq x) = x_acc x ++ i /\ part_of R' (R ++ i) /\ (rejecting (x_irq x) -> R' = R ++ i /\ rejecting (x_irq (sx_irq x))) /\
  left (sx_irq x) R' <= left x R /\ (i = [] -> R' = R /\ x_sig (sx_irq x) = x_sig x) /\ (i <> [] -> x_sig (sx_irq x) = true).
Proof.
  intros [I O]. destruct (irq_after CIdle false x F R R I O) as (ev' & R' & P' & i & [A1 A2 A3 A4 A5 A6 A7 A8 A9 A10] & S1 & S2). exists R', i.
  pose proof A1 as (_ & _ & _ & _ & _ & PC). cbn in PC. subst P'. split; [eapply idle_of; eauto|]. split; auto. split; auto. split; auto. split; [intros RJ; split; auto; apply A5; auto|]. split; auto.
Qed.

(** What a call does. *)
Definition flows (x : shx) (F R : list item) (ow : bool) (x' : shx) (ou F' R' : list item) : Prop :=
  exists i, idle x' F' R' /\ x_acc x' = x_acc x ++ i /\ part_of (ou ++ F' ++ R') (F ++ R ++ i) /\
    (rejecting (x_irq x) -> rejecting (x_irq x') /\ (ow = false -> ou ++ F' ++ R' = F ++ R ++ i)) /\ left x' R' <= left x R.
Lemma flows_trans x F R ow x1 o1 F1 R1 x2 o2 F2 R2 : flows x F R ow x1 o1 F1 R1 -> flows x1 F1 R1 ow x2 o2 F2 R2 -> flows x F R ow x2 (o1 ++ o2) F2 R2.
Proof.
  intros (i1 & A1 & A2 & A3 & A4 & A5) (i2 & B1 & B2 & B3 & B4 & B5). exists (i1 ++ i2). split; auto. split; [rewrite B2, A2; now rewrite app_assoc|]. split; [|split; [|lia]].
  - rewrite <- app_assoc. eapply part_trans; [apply part_app; [apply part_refl|exact B3]|].
    replace (o1 ++ F1 ++ R1 ++ i2) with ((o1 ++ F1 ++ R1) ++ i2) by (now rewrite <- !app_assoc). replace (F ++ R ++ i1 ++ i2) with ((F ++ R ++ i1) ++ i2) by (now rewrite <- !app_assoc).
    apply part_app; [exact A3|apply part_refl].
  - intros RJ. destruct (A4 RJ) as [RJ1 E1]. destruct (B4 RJ1) as [RJ2 E2]. split; auto. intros OW. specialize (E1 OW). specialize (E2 OW). rewrite <- app_assoc, E2.
    replace (o1 ++ F1 ++ R1 ++ i2) with ((o1 ++ F1 ++ R1) ++ i2) by (now rewrite <- !app_assoc). rewrite E1. now rewrite <- !app_assoc.
Qed.
Lemma flows_irq x F R ow : idle x F R -> exists R', flows x F R ow (sx_irq x) [] F R' /\ x_st (sx_irq x) = x_st x.
Proof.
  intros I. destruct (irq_idle x F R I) as (R' & i & A1 & A2 & A3 & A4 & A5 & A6 & _). exists R'. split; auto. exists i. split; auto. split; auto. split; [cbn; apply part_app; auto using part_refl|]. split; [|exact A6].
  intros RJ. destruct (A5 RJ) as [-> RJ']. split; auto.
Qed.

Lemma push_err F d ow e F' : qdo (rup g) (HL g) (page_cap g) (2 <=? NP g) false F (QPush d ow) (AUnit (Err e)) F' -> e = EFull \/ e = EItemTooBig.
Proof. intros H. inversion H; subst; auto. discriminate. Qed.

Lemma drain_one_flows sl ow x F R r x' : idle x F R -> sx_drain_one g sl ow x = (r, x') ->
  exists F' R', flows x F R ow x' [] F' R' /\
    match r with Ok true => F' <> [] /\ left x' R' < left x R | Ok false => F' = F /\ nothing_for sl R' | Err e => e = EFull \/ e = EItemTooBig end.
Proof.
  intros I E. unfold sx_drain_one in E. destruct (flows_irq x F R ow I) as (R1 & FL1 & ST1). set (x1 := sx_irq x) in *. pose proof FL1 as (i1 & [I1 O1] & _ & _ & _ & LE1).
  pose proof I1 as (Q1 & RR1 & CP1 & OK1 & _ & _). cbn [core sh_st sh_ring] in Q1, RR1, CP1.
  destruct (ring_peek (x_ring x1) sl) as [d|] eqn:PK.
  2:{ injection E as <- <-. exists F, R1. split; auto. split; auto. eapply peek_none; eauto. }
  destruct (peek_some _ _ _ _ RR1 PK) as (t & ER1 & LD). assert (OD : item_ok false d) by (rewrite ER1 in OK1; now inversion OK1).
  assert (I1' : sinv false (core (CPeeked d) x1) F R1 R1). { unfold SharedP.sinv; cbn. do 5 (split; [auto; fail|]). split; eauto. }
  destruct (irq_after (CPeeked d) false x1 F R1 R1 I1' O1) as (ev2 & R2 & P2 & i2 & [A1 A2 A3 A4 A5 A6 A7 A8 A9 A10] & _). set (x2 := sx_irq x1) in *.
  pose proof A1 as (Q2 & RR2 & CP2 & OK2 & _ & PC2). cbn [core sh_st sh_ring sh_pc] in Q2, RR2, CP2, PC2.
  destruct (q_push g d ow (x_st x2)) as [r1 s] eqn:PU.
  destruct (qinv_step false g (x_st x2) F (QPush d ow) (AUnit r1) s Q2 OD) as (F' & D & Q'); [unfold q_exec, ans1; rewrite PU; reflexivity|].
  destruct r1 as [[]|e].
  - destruct (push_flow _ _ _ _ _ _ _ _ _ D) as (dr & q & EF & EF' & OV). subst F F'.
    set (x2s := with_st x2 s) in *. change (mkshx (x_ring x2) (x_sig x2) s (x_irq x2) (x_acc x2)) with x2s in E.
    assert (PE : P2 = d :: tl P2) by (cbn [pends] in PC2; destruct ev2; [now subst P2|destruct PC2 as [-> [t' ->]]; reflexivity]).
    assert (I2 : sinv ev2 (core CPushed x2s) (q ++ [d]) R2 (tl P2)).
    { unfold SharedP.sinv; cbn. do 5 (split; [auto; fail|]). cbn [pends] in *. destruct ev2; [now subst P2|]. destruct PC2 as [-> [t' ->]]. split; [reflexivity|discriminate]. }
    destruct (irq_after CPushed ev2 x2s (q ++ [d]) R2 (tl P2) I2 A7) as (ev3 & R3 & P3 & i3 & [B1 B2 B3 B4 B5 B6 B7 B8 B9 B10] & _). set (x3 := sx_irq x2s) in *.
    injection E as <- <-. pose proof B1 as (Q3 & RR3 & CP3 & OK3 & _ & PC3). cbn [core sh_st sh_ring sh_pc] in Q3, RR3, CP3, PC3. set (x4 := mkshx (ring_discard (x_ring x3)) (x_sig x3) (x_st x3) (x_irq x3) (x_acc x3)).
    assert (I4 : idle x4 (q ++ [d]) (tl R3)).
    { split; [|exact B7]. unfold SharedP.sinv; cbn. split; [exact Q3|]. split; [apply (rep_discard _ _ RR3)|]. split; [rewrite cap_discard; auto|]. split; [destruct R3; cbn; inversion OK3; auto|]. auto. }
    assert (NE3 : R3 <> []) by (apply B9, A9; rewrite ER1; discriminate).
    assert (LE4 : left x4 (tl R3) < left x R). { unfold left in *. cbn [x_irq x4 x2s with_st] in *. destruct R3; [contradiction|]. cbn [tl length] in *. lia. }
    assert (P34 : part_of (tl R3) P3). { cbn [pends] in PC3. destruct ev3; [subst P3; destruct R3; [apply part_refl|apply PLose, part_refl]|destruct PC3 as [-> _]; apply part_refl]. }
    exists (q ++ [d]), (tl R3). split; [|split; [intros X; now apply app_eq_nil in X|exact LE4]].
    assert (FL2 : flows x1 (dr ++ q) R1 ow x4 [] (q ++ [d]) (tl R3)).
    { exists (i2 ++ i3). split; [exact I4|]. split; [cbn; rewrite B3; cbn; rewrite A3; now rewrite app_assoc|]. split; [|split].
      - cbn [app]. eapply part_trans; [apply part_app; [apply part_refl|exact P34]|]. eapply part_trans; [apply part_app; [apply part_refl|exact B4]|].
        replace ((q ++ [d]) ++ tl P2 ++ i3) with (q ++ P2 ++ i3) by (rewrite PE at 1; now rewrite <- !app_assoc). rewrite <- app_assoc. eapply part_trans; [|apply part_drop].
        apply part_app; [apply part_refl|]. rewrite app_assoc. apply part_app; [exact A4|apply part_refl].
      - intros RJ. destruct (A5 RJ eq_refl) as [E1 E2]. specialize (A6 RJ). destruct (B5 A6 E1) as [E3 E4]. split; [apply (B6 A6)|]. intros OW. rewrite (OV OW). subst ev3. cbn [pends] in PC3. destruct PC3 as [EP3 _]. rewrite <- EP3, E4.
        cbn [app]. replace ((q ++ [d]) ++ tl P2 ++ i3) with (q ++ P2 ++ i3) by (rewrite PE at 1; now rewrite <- !app_assoc). rewrite E2. now rewrite <- !app_assoc.
      - unfold left in *. cbn [x_irq x4 x2s with_st] in *. destruct R3; cbn [tl length] in *; lia. }
    change (flows x (dr ++ q) R ow x4 ([] ++ []) (q ++ [d]) (tl R3)). eapply flows_trans; eauto.
  - injection E as <- <-. pose proof (push_err _ _ _ _ _ D) as PEr. pose proof (push_flow _ _ _ _ _ _ _ _ _ D) as EF. cbn iota beta in EF. subst F'. change (mkshx (x_ring x2) (x_sig x2) s (x_irq x2) (x_acc x2)) with (with_st x2 s). exists F, R2. split; [|exact PEr].
    assert (FL2 : flows x1 F R1 ow (with_st x2 s) [] F R2).
    { exists i2. split; [split; [unfold SharedP.sinv; cbn; auto 10|exact A7]|]. split; [exact A3|]. assert (PP : part_of R2 P2) by (cbn [pends] in PC2; destruct ev2; [subst P2; apply PLose, part_refl|destruct PC2 as [-> _]; apply part_refl]).
      split; [cbn [app]; apply part_app; [apply part_refl|eapply part_trans; eauto]|]. split; [|exact A8]. intros RJ. destruct (A5 RJ eq_refl) as [-> E2]. split; [apply (A6 RJ)|]. intros _. cbn [pends] in PC2. destruct PC2 as [<- _]. cbn. now rewrite E2. }
    change (flows x F R ow (with_st x2 s) ([] ++ []) F R2). eapply flows_trans; eauto.
Qed.
Lemma flows_refl x F R ow : idle x F R -> flows x F R ow x [] F R.
Proof. intros I. exists []. rewrite !app_nil_r. split; auto. split; auto. split; [apply part_refl|]. split; auto. Qed.
Lemma drain_loop_flows sl ow : forall fuel x F R r x', idle x F R -> left x R < fuel -> sx_drain_loop g fuel sl ow x = (r, x') ->
  exists F' R', flows x F R ow x' [] F' R' /\ match r with Ok _ => nothing_for sl R' | Err e => e = EFull \/ e = EItemTooBig end.
Proof.
  induction fuel as [|fuel IH]; intros x F R r x' I L E; [lia|]. cbn [sx_drain_loop] in E. destruct (sx_drain_one g sl ow x) as [r1 x1] eqn:DO.
  destruct (drain_one_flows _ _ _ _ _ _ _ I DO) as (F1 & R1 & FL & M). destruct r1 as [[|]|e].
  - destruct M as [_ LT]. pose proof FL as (i & I1 & _). destruct (IH x1 F1 R1 r x' I1 ltac:(lia) E) as (F2 & R2 & FL2 & M2). exists F2, R2. split; auto. change (flows x F R ow x' ([] ++ []) F2 R2). eapply flows_trans; eauto.
  - injection E as <- <-. exists F1, R1. destruct M as [_ M]. auto.
  - injection E as <- <-. exists F1, R1. auto.
Qed.
Lemma drain_all_flows sl ow x F R r x' : idle x F R -> sx_drain_all g sl ow x = (r, x') ->
  exists F' R', flows x F R ow x' [] F' R' /\ match r with Ok _ => nothing_for sl R' | Err e => e = EFull \/ e = EItemTooBig end.
Proof. intros I. apply drain_loop_flows; auto. destruct I as [(_ & RR & _) _]. unfold left, sx_fuel, ring_len. cbn in RR. rewrite (rr_cnt _ _ RR). apply Nat.lt_succ_diag_r. Qed.
Lemma irq_tl x : x_irq (sx_irq x) = tl (x_irq x).
Proof.
  unfold sx_irq. destruct (x_irq x) as [|b t] eqn:E; [exact E|]. cbn [tl].
  assert (G : forall b y, x_irq (fold_left (fun y e => snd (sx_enqueue (fst e) (snd e) y)) b y) = x_irq y).
  { clear. induction b as [|e b IH]; intros y; cbn [fold_left]; [reflexivity|]. rewrite IH. unfold sx_enqueue. destruct (ring_enqueue _ _ _). reflexivity. }
  rewrite G. reflexivity.
Qed.
Definition unsig (x : shx) : shx := mkshx (x_ring x) false (x_st x) (x_irq x) (x_acc x).
Lemma wait_some ow F : forall fuel x R y, idle x F R -> sx_wait fuel x = Some y -> exists R', flows x F R ow y [] F R'.
Proof.
  induction fuel as [|fuel IH]; intros x R y I E; cbn [sx_wait] in E; destruct (x_sig x); try discriminate.
  1,2: injection E as <-; exists R; exact (flows_refl x F R ow I).
  destruct (flows_irq x F R ow I) as (R1 & FL & _). pose proof FL as (i & I1 & _). destruct (IH _ _ _ I1 E) as (R2 & FL2). exists R2.
  change (flows x F R ow y ([] ++ []) F R2). eapply flows_trans; eauto.
Qed.
Lemma wait_none F R l : forall fuel x, x_irq x = l -> length l < fuel -> idle x F R -> sx_wait fuel x = None ->
  let x' := fold_left (fun y _ => sx_irq y) l x in idle x' F R /\ x_acc x' = x_acc x /\ x_irq x' = [].
Proof.
  induction l as [|b t IH]; intros [|fuel] x EI L I E; cbn [length] in L; try lia; cbn [fold_left]; cbv zeta; [auto|].
  cbn [sx_wait] in E. destruct (x_sig x) eqn:SG; [discriminate|]. destruct (irq_idle x F R I) as (R' & i & A1 & A2 & A3 & A4 & A5 & A6 & A7 & A8).
  assert (i = []) as ->.
  { destruct i as [|d i]; [reflexivity|]. assert (X : x_sig (sx_irq x) = true) by (apply A8; discriminate). destruct fuel; cbn [sx_wait] in E; rewrite X in E; discriminate. }
  destruct (A7 eq_refl) as [-> _]. rewrite app_nil_r in A3. destruct (IH fuel (sx_irq x)) as (B1 & B2 & B3); auto; [rewrite irq_tl, EI; reflexivity|lia|]. split; auto. split; auto. congruence.
Qed.
Lemma flush_flows b ow x F R r x' : idle x F R -> sx_flush g b ow x = (r, x') ->
  exists F' R', flows x F R ow x' [] F' R' /\ match r with Ok _ => nothing_for (length b) R' | Err e => e = EFull \/ e = EItemTooBig end.
Proof.
  intros I E. unfold sx_flush in E. destruct (flows_irq x F R ow I) as (R1 & FL & _). pose proof FL as (i & I1 & _). destruct (0 <? ring_len (x_ring (sx_irq x))) eqn:Z.
  - destruct (drain_all_flows _ _ _ _ _ _ _ I1 E) as (F' & R' & FL2 & M). exists F', R'. split; auto. change (flows x F R ow x' ([] ++ []) F' R'). eapply flows_trans; eauto.
  - injection E as <- <-. exists F, R1. split; auto. destruct I1 as [(_ & RR & _) _]. cbn in RR. unfold ring_len in Z. rewrite (rr_cnt _ _ RR) in Z. destruct R1; [exact Logic.I|]. cbn in Z. discriminate.
Qed.
Lemma nothing_prefix n (a b : list item) : nothing_for n (a ++ b) -> nothing_for n a.
Proof. destruct a; cbn; auto. Qed.
Lemma istep_err rw hl pc pf F b r bf rm w : istep rw hl pc pf [] F (b, w) r bf rm -> match r with Err e => exists n, e = EBufTooSmall n | _ => True end.
Proof. intros H. inversion H; subst; eauto. Qed.

Lemma step_ok c x F R a x' : idle x F R -> sexec g c x = (a, x') ->
  exists i F' R', idle x' F' R' /\ x_acc x' = x_acc x ++ i /\ part_of (sout1 c a ++ F' ++ R') (F ++ R ++ i) /\ says i F' R' c a /\
    (rejecting (x_irq x) -> rejecting (x_irq x') /\ (sow c = false -> sout1 c a ++ F' ++ R' = F ++ R ++ i /\ says_exactly F R i c a)).
Proof.
  assert (DR : forall c ow x F R a x' F' R', sow c = ow -> flows x F R ow x' [] F' R' -> sout1 c a = [] -> (forall i, says i F' R' c a) -> (forall i, says_exactly F R i c a) ->
    exists i F' R', idle x' F' R' /\ x_acc x' = x_acc x ++ i /\ part_of (sout1 c a ++ F' ++ R') (F ++ R ++ i) /\ says i F' R' c a /\
    (rejecting (x_irq x) -> rejecting (x_irq x') /\ (sow c = false -> sout1 c a ++ F' ++ R' = F ++ R ++ i /\ says_exactly F R i c a))).
  { clear. intros c ow x F R a x' F' R' EO (i & A1 & A2 & A3 & A4 & A5) SO SA SE. exists i, F', R'. rewrite SO. split; auto. split; auto. split; auto. split; auto.
    intros RJ. destruct (A4 RJ) as [B1 B2]. split; auto. intros E. split; auto. apply B2. congruence. }
  assert (FLU : forall b ow x F R r y, idle x F R -> sx_flush g b ow x = (r, y) -> match r with Err e => (exists F' R', flows x F R ow y [] F' R') /\ (e = EFull \/ e = EItemTooBig)
    | Ok _ => exists i F1 R2, idle (sx_irq y) F1 R2 /\ x_acc (sx_irq y) = x_acc x ++ i /\ part_of (F1 ++ R2) (F ++ R ++ i) /\
      (rejecting (x_irq x) -> rejecting (x_irq (sx_irq y)) /\ (ow = false -> F1 ++ R2 = F ++ R ++ i /\ (F1 = [] -> nothing_for (length b) (F ++ R)))) end).
  { clear. intros b ow x F R r y I E. destruct (flush_flows _ _ _ _ _ _ _ I E) as (F1 & R1 & FL & M). destruct r as [u|e]; [|eauto].
    destruct FL as (i1 & A1 & A2 & A3 & A4 & A5). destruct (irq_idle y F1 R1 A1) as (R2 & i2 & B1 & B2 & B3 & B4 & B5 & _). exists (i1 ++ i2), F1, R2.
    split; auto. split; [rewrite B3, A2; now rewrite app_assoc|]. cbn [app] in A3, A4. replace (F ++ R ++ i1 ++ i2) with ((F ++ R ++ i1) ++ i2) by (now rewrite <- !app_assoc). split.
    - eapply part_trans; [apply part_app; [apply part_refl|exact B4]|]. rewrite app_assoc. apply part_app; [exact A3|apply part_refl].
    - intros RJ. destruct (A4 RJ) as [RJ1 EX]. destruct (B5 RJ1) as [-> RJ2]. split; auto. intros OW. specialize (EX OW). split; [rewrite app_assoc; now rewrite EX|].
      intros ->. cbn in EX. subst R1. rewrite app_assoc in M. eapply nothing_prefix; eauto. }
  intros I E. destruct c as [sl ow|sl ow|sl ow|b ow|b ow]; cbn [sexec] in E.
  - destruct (sx_drain_one g sl ow x) as [r y] eqn:DO. injection E as <- <-. destruct (drain_one_flows _ _ _ _ _ _ _ I DO) as (F' & R' & FL & M).
    eapply DR; [reflexivity|exact FL|destruct r; reflexivity|intros i; cbn; destruct r as [[|]|]; tauto|intros i; exact Logic.I].
  - destruct (sx_drain_all g sl ow x) as [r y] eqn:DO. injection E as <- <-. destruct (drain_all_flows _ _ _ _ _ _ _ I DO) as (F' & R' & FL & M).
    eapply DR; [reflexivity|exact FL|destruct r; reflexivity|intros i; cbn; destruct r as [[]|]; tauto|intros i; exact Logic.I].
  - unfold sx_wait_drain in E. destruct (sx_wait (S (length (x_irq x))) x) as [y|] eqn:W.
    + destruct (sx_drain_all g sl ow y) as [r z] eqn:DO. injection E as <- <-. destruct (wait_some ow F _ _ _ _ I W) as (R1 & FL1). pose proof FL1 as (i1 & I1 & _).
      destruct (drain_all_flows _ _ _ _ _ _ _ I1 DO) as (F' & R' & FL & M). pose proof (flows_trans _ _ _ _ _ _ _ _ _ _ _ _ FL1 FL) as FF.
      eapply DR; [reflexivity|exact FF|destruct r; reflexivity|intros i; cbn; destruct r as [[]|]; tauto|intros i; exact Logic.I].
    + injection E as <- <-. destruct (wait_none F R (x_irq x) _ x eq_refl (Nat.lt_succ_diag_r _) I W) as (A1 & A2 & A3). exists [], F, R. cbn [sout1 app]. rewrite !app_nil_r.
      split; auto. split; auto. split; [apply part_refl|]. split; [reflexivity|]. intros _. rewrite A3. split; [constructor|]. intros _. split; [reflexivity|exact Logic.I].
  - unfold sx_pop in E. destruct (sx_flush g b ow x) as [r y] eqn:FS. pose proof (FLU _ _ _ _ _ _ _ I FS) as X. destruct r as [u|e].
    2:{ injection E as <- <-. destruct X as ((F' & R' & FL) & M). eapply DR; [reflexivity|exact FL|reflexivity|intros i; cbn; tauto|intros i; exact Logic.I]. }
    destruct X as (i & F1 & R2 & A1 & A2 & A3 & A4). set (z := sx_irq y) in *. destruct (q_pop g b (x_st z)) as [r s] eqn:PO. injection E as <- <-. destruct A1 as [(Q & RR & CP & OK & HO & PC) O].
    destruct (qinv_step false g (x_st z) F1 (QPop b) (AItem r) s Q Logic.I) as (F' & D & Q'); [unfold q_exec, ans1; cbn [core sh_st]; rewrite PO; reflexivity|].
    assert (ER : match r with Err e => exists n, e = EBufTooSmall n | _ => True end). { inversion D as [| | | |? ? ? ? S| | | | | | | | | | |]; subst; try discriminate. eapply istep_err; eauto. }
    apply pop_flow in D. destruct D as [D1 D2].
    assert (EQ : sout1 (SPop b ow) (SItem r) ++ F' ++ R2 = F1 ++ R2) by (destruct r as [[d|]|e]; cbn [sout1 app]; rewrite D1; reflexivity).
    exists i, F', R2. rewrite EQ. split; [split; [unfold SharedP.sinv; cbn in *; auto 10|exact O]|]. split; auto. split; auto. split.
    + cbn [says]. destruct r as [[d|]|e]; auto. rewrite D1. auto.
    + intros RJ. destruct (A4 RJ) as [B1 B2]. split; [exact B1|]. cbn [sow]. intros OW. destruct (B2 OW) as [B3 B4]. split; auto. cbn [says_exactly]. destruct r as [[d|]|e]; auto. rewrite <- B3, D1. reflexivity.
  - unfold sx_peek in E. destruct (sx_flush g b ow x) as [r y] eqn:FS. pose proof (FLU _ _ _ _ _ _ _ I FS) as X. destruct r as [u|e].
    2:{ injection E as <- <-. destruct X as ((F' & R' & FL) & M). eapply DR; [reflexivity|exact FL|reflexivity|intros i; cbn; tauto|intros i; exact Logic.I]. }
    destruct X as (i & F1 & R2 & A1 & A2 & A3 & A4). set (z := sx_irq y) in *. destruct (q_peek g b (x_st z)) as [r s] eqn:PO. injection E as <- <-. destruct A1 as [(Q & RR & CP & OK & HO & PC) O].
    destruct (qinv_step false g (x_st z) F1 (QPeek b) (AItem r) s Q Logic.I) as (F' & D & Q'); [unfold q_exec, ans1; cbn [core sh_st]; rewrite PO; reflexivity|].
    assert (ER : match r with Err e => exists n, e = EBufTooSmall n | _ => True end). { inversion D as [| | | | |? ? ? ? S| | | | | | | | | |]; subst; try discriminate. eapply istep_err; eauto. }
    apply peek_flow in D. destruct D as (-> & D1 & D2).
    exists i, F1, R2. cbn [sout1 app]. split; [split; [unfold SharedP.sinv; cbn in *; auto 10|exact O]|]. split; auto. split; auto. split.
    + cbn [says]. destruct r as [[d|]|e]; auto.
    + intros RJ. destruct (A4 RJ) as [B1 B2]. split; [exact B1|]. cbn [sow]. intros OW. destruct (B2 OW) as [B3 B4]. split; auto. cbn [says_exactly]. destruct r as [[d|]|e]; auto. rewrite <- B3. specialize (D2 d eq_refl).
      destruct F1; [discriminate|exact D2].
Qed.

Lemma run_ok cs : forall x F R l x', idle x F R -> srun g x cs = (l, x') ->
  exists i F' R', idle x' F' R' /\ x_acc x' = x_acc x ++ i /\ part_of (sout cs l ++ F' ++ R') (F ++ R ++ i) /\
    (rejecting (x_irq x) -> rejecting (x_irq x') /\ (Forall (fun c => sow c = false) cs -> sout cs l ++ F' ++ R' = F ++ R ++ i)).
Proof.
  induction cs as [|c t IH]; intros x F R l x' I E; cbn [srun] in E.
  - injection E as <- <-. exists [], F, R. cbn. rewrite !app_nil_r. auto using part_refl.
  - destruct (sexec g c x) as [a y] eqn:SE. destruct (srun g y t) as [l1 z] eqn:RU. injection E as <- <-.
    destruct (step_ok c x F R a y I SE) as (i1 & F1 & R1 & A1 & A2 & A3 & _ & A4). destruct (IH _ _ _ _ _ A1 RU) as (i2 & F2 & R2 & B1 & B2 & B3 & B4).
    exists (i1 ++ i2), F2, R2. split; auto. split; [rewrite B2, A2; now rewrite app_assoc|]. cbn [sout]. rewrite <- app_assoc.
    replace (F ++ R ++ i1 ++ i2) with ((F ++ R ++ i1) ++ i2) by (now rewrite <- !app_assoc).
    assert (Q2 : sout1 c a ++ F1 ++ R1 ++ i2 = (sout1 c a ++ F1 ++ R1) ++ i2) by (now rewrite <- !app_assoc). split.
    + eapply part_trans; [apply part_app; [apply part_refl|exact B3]|]. rewrite Q2. apply part_app; auto using part_refl.
    + intros RJ. destruct (A4 RJ) as [RJ1 X1]. destruct (B4 RJ1) as [RJ2 X2]. split; auto. intros CA. inversion CA as [|? ? C1 C2]; subst. destruct (X1 C1) as [X3 _]. rewrite (X2 C2), Q2. now rewrite X3.
Qed.
End Calls.

(** The start: empty ring, erased flash; [irq]: what interrupts will enqueue, in groups that come in one after the other. *)
Definition sx_new (cap : nat) (f : flash) (c : cache unit) (irq : list (list (list N * policy))) : shx := mkshx (ring_new cap) false (st_new f c) irq [].
Definition sx_reached (g : geom) (cap : nat) (irq : list (list (list N * policy))) (cs : list scall) (l : list sans) (x : shx) : Prop :=
  exists f c, erased g f /\ f_fuel f = None /\ f_er f = [] /\ fresh_cache (NP g) c /\ geom_ok g /\ Forall (fun e => item_ok false (fst e)) (concat irq) /\
    srun g (sx_new cap f c irq) cs = (l, x).
Lemma sx_start g cap f c irq : erased g f -> f_fuel f = None -> f_er f = [] -> fresh_cache (NP g) c -> geom_ok g -> Forall (fun e => item_ok false (fst e)) (concat irq) ->
  idle g cap (sx_new cap f c irq) [] [].
Proof.
  intros ER FU FE FC GO IO. destruct (b_start false g cap f c ER FU FE FC) as (I & RR & CP & OK); [split; auto; discriminate|]. split; [|exact IO]. unfold sinv; cbn; auto 10.
Qed.
Lemma idle_holds g cap x F R : idle g cap x F R -> q_holds g (x_st x) F /\ ram_holds (x_ring x) R.
Proof. intros [(I & RR & _) _]. split; [eapply qinv_holds; exact I|now apply ram_rep]. Qed.
Lemma sx_flow g cap irq cs l x : sx_reached g cap irq cs l x -> exists F R, q_holds g (x_st x) F /\ ram_holds (x_ring x) R /\
  part_of (sout cs l ++ F ++ R) (x_acc x) /\ (rejecting irq -> Forall (fun c => sow c = false) cs -> sout cs l ++ F ++ R = x_acc x).
Proof.
  intros (f & c & ER & FU & FE & FC & GO & IO & E). destruct (run_ok g cap cs _ _ _ _ _ (sx_start g cap f c irq ER FU FE FC GO IO) E) as (i & F & R & A1 & A2 & A3 & A4).
  destruct (idle_holds _ _ _ _ _ A1). exists F, R. cbn in A2, A3, A4. rewrite A2. split; auto. split; auto. split; auto. intros RJ. apply (A4 RJ).
Qed.
Lemma sx_answer g cap irq cs l x c a x' : sx_reached g cap irq cs l x -> sexec g c x = (a, x') -> exists F R i F' R', q_holds g (x_st x) F /\ ram_holds (x_ring x) R /\
  x_acc x' = x_acc x ++ i /\ q_holds g (x_st x') F' /\ ram_holds (x_ring x') R' /\ part_of (sout1 c a ++ F' ++ R') (F ++ R ++ i) /\ says i F' R' c a /\
  (rejecting irq -> sow c = false -> sout1 c a ++ F' ++ R' = F ++ R ++ i /\ says_exactly F R i c a).
Proof.
  intros (f & ca & ER & FU & FE & FC & GO & IO & E) SE. destruct (run_ok g cap cs _ _ _ _ _ (sx_start g cap f ca irq ER FU FE FC GO IO) E) as (i & F & R & A1 & A2 & A3 & A4).
  destruct (idle_holds _ _ _ _ _ A1). destruct (step_ok g cap c x F R a x' A1 SE) as (i' & F' & R' & B1 & B2 & B3 & B4 & B5). destruct (idle_holds _ _ _ _ _ B1).
  exists F, R, i', F', R'. do 7 (split; [auto; fail|]). intros RJ. destruct (A4 RJ) as [RJ1 _]. apply (B5 RJ1).
Qed.

(** * Every completed wait is paid for by an accepted enqueue *)
Definition pays (x y : shx) (n : nat) : Prop := n + length (x_acc x) + Nat.b2n (x_sig y) <= length (x_acc y) + Nat.b2n (x_sig x).
Lemma pays_trans x y z m n : pays x y m -> pays y z n -> pays x z (m + n).
Proof. unfold pays. lia. Qed.
Lemma pays_same x y : x_acc y = x_acc x -> x_sig y = x_sig x -> pays x y 0.
Proof. unfold pays. intros -> ->. lia. Qed.
Lemma pays_enqueue d p x : pays x (snd (sx_enqueue d p x)) 0.
Proof. unfold sx_enqueue, pays. destruct (ring_enqueue (x_ring x) d p) as [[] r]; cbn [snd x_acc x_sig]; [rewrite app_length; cbn; lia|lia]. Qed.
Lemma pays_fold b : forall x, pays x (fold_left (fun y e => snd (sx_enqueue (fst e) (snd e) y)) b x) 0.
Proof. induction b as [|e b IH]; intros x; cbn [fold_left]; [now apply pays_same|]. exact (pays_trans _ _ _ _ _ (pays_enqueue _ _ x) (IH _)). Qed.
Lemma pays_irq x : pays x (sx_irq x) 0.
Proof. unfold sx_irq. destruct (x_irq x) as [|b t]; [now apply pays_same|]. exact (pays_trans _ (mkshx (x_ring x) (x_sig x) (x_st x) t (x_acc x)) _ 0 0 (pays_same _ _ eq_refl eq_refl) (pays_fold b _)). Qed.
Lemma pays_irqs (l : list (list (list N * policy))) : forall x, pays x (fold_left (fun y _ => sx_irq y) l x) 0.
Proof. induction l as [|b l IH]; intros x; cbn [fold_left]; [now apply pays_same|]. exact (pays_trans _ _ _ _ _ (pays_irq x) (IH _)). Qed.
Section Waits.
Context (g : geom).
Lemma pays_one sl ow x r y : sx_drain_one g sl ow x = (r, y) -> pays x y 0.
Proof.
  unfold sx_drain_one. destruct (ring_peek (x_ring (sx_irq x)) sl) as [d|]; [|intros [= <- <-]; apply pays_irq].
  pose proof (pays_trans _ _ _ _ _ (pays_irq x) (pays_irq (sx_irq x))) as P. destruct (q_push g d ow (x_st (sx_irq (sx_irq x)))) as [[u|e] s]; intros [= <- <-].
  - apply (pays_trans _ _ _ _ 0 P). set (y := sx_irq (sx_irq x)) in *.
    apply (pays_trans _ (mkshx (x_ring y) (x_sig y) s (x_irq y) (x_acc y)) _ 0 0); [now apply pays_same|]. apply (pays_trans _ _ _ 0 0 (pays_irq _)). now apply pays_same.
  - apply (pays_trans _ _ _ _ 0 P). now apply pays_same.
Qed.
Lemma pays_loop sl ow : forall fuel x r y, sx_drain_loop g fuel sl ow x = (r, y) -> pays x y 0.
Proof.
  induction fuel as [|fuel IH]; intros x r y E; cbn [sx_drain_loop] in E; [injection E as <- <-; now apply pays_same|].
  destruct (sx_drain_one g sl ow x) as [[[]|e] x1] eqn:E1; pose proof (pays_one _ _ _ _ _ E1) as P.
  - exact (pays_trans _ _ _ _ _ P (IH _ _ _ E)).
  - injection E as <- <-. exact P.
  - injection E as <- <-. exact P.
Qed.
Lemma pays_wait : forall fuel x y, sx_wait fuel x = Some y -> pays x y 1.
Proof.
  induction fuel as [|fuel IH]; intros x y E; cbn [sx_wait] in E; destruct (x_sig x) eqn:SG; try discriminate.
  - injection E as <-. unfold pays. cbn [x_acc x_sig]. rewrite SG. cbn. lia.
  - injection E as <-. unfold pays. cbn [x_acc x_sig]. rewrite SG. cbn. lia.
  - exact (pays_trans _ _ _ _ _ (pays_irq x) (IH _ _ E)).
Qed.
Lemma pays_flush b ow x r y : sx_flush g b ow x = (r, y) -> pays x y 0.
Proof.
  unfold sx_flush. cbv zeta. destruct (0 <? ring_len (x_ring (sx_irq x))); [|intros [= <- <-]; apply pays_irq]. intros E. exact (pays_trans _ _ _ _ _ (pays_irq x) (pays_loop _ _ _ _ _ _ E)).
Qed.
(** Waits that were completed. *)
Definition woken1 (c : scall) (a : sans) : nat := match c, a with SWaitDrain _ _, SAll _ => 1 | _, _ => 0 end.
Fixpoint woken (cs : list scall) (l : list sans) : nat := match cs, l with c :: t, a :: l => woken1 c a + woken t l | _, _ => 0 end.
Lemma pays_exec c x a y : sexec g c x = (a, y) -> pays x y (woken1 c a).
Proof.
  destruct c; cbn [sexec].
  - destruct (sx_drain_one g sl ow x) as [r z] eqn:E. intros [= <- <-]. exact (pays_one _ _ _ _ _ E).
  - destruct (sx_drain_all g sl ow x) as [r z] eqn:E. intros [= <- <-]. exact (pays_loop _ _ _ _ _ _ E).
  - unfold sx_wait_drain. destruct (sx_wait (S (length (x_irq x))) x) as [z|] eqn:E.
    + destruct (sx_drain_all g sl ow z) as [r w] eqn:E2. intros [= <- <-]. exact (pays_trans _ _ _ _ _ (pays_wait _ _ _ E) (pays_loop _ _ _ _ _ _ E2)).
    + intros [= <- <-]. apply pays_irqs.
  - unfold sx_pop. destruct (sx_flush g b ow x) as [[u|e] z] eqn:E; pose proof (pays_flush _ _ _ _ _ E) as P.
    + cbv zeta. destruct (q_pop g b (x_st (sx_irq z))) as [r s]. intros [= <- <-]. apply (pays_trans _ _ _ 0 0 P). apply (pays_trans _ _ _ 0 0 (pays_irq z)). now apply pays_same.
    + intros [= <- <-]. exact P.
  - unfold sx_peek. destruct (sx_flush g b ow x) as [[u|e] z] eqn:E; pose proof (pays_flush _ _ _ _ _ E) as P.
    + cbv zeta. destruct (q_peek g b (x_st (sx_irq z))) as [r s]. intros [= <- <-]. apply (pays_trans _ _ _ 0 0 P). apply (pays_trans _ _ _ 0 0 (pays_irq z)). now apply pays_same.
    + intros [= <- <-]. exact P.
Qed.
Lemma shared_woken : forall cs x l y, srun g x cs = (l, y) -> woken cs l + length (x_acc x) <= length (x_acc y) + Nat.b2n (x_sig x).
Proof.
  intros cs x l y E. enough (P : pays x y (woken cs l)) by (unfold pays in P; lia). revert x l y E.
  induction cs as [|c t IH]; intros x l y E; cbn [srun] in E; [injection E as <- <-; now apply pays_same|].
  destruct (sexec g c x) as [a z] eqn:E1. destruct (srun g z t) as [l1 w] eqn:E2. injection E as <- <-. cbn [woken]. exact (pays_trans _ _ _ _ _ (pays_exec _ _ _ _ E1) (IH _ _ _ E2)).
Qed.
End Waits.
