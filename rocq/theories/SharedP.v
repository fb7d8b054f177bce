(** The shared ring: interrupts may enqueue between any two steps of a drain. *)
From Coq Require Import List NArith ZArith Arith Bool Lia ZifyBool ZifyNat ZifyN.
From Verif Require Import Base BaseP Flash Cache State Item Generic Queue GeomP Buffered RingP Client QSpec QObs QPropsP BSpec BufP.
Import ListNotations.

Section Shared.
Context (g : geom) (cap : nat).
Notation qdo := (qdo (rup g) (HL g) (page_cap g) (2 <=? NP g) false).
Notation qinv := (qinv false g).

(** What is still to come: [P].  [ev]: the item in hand has been evicted from the ring. *)
Definition pends (ev : bool) (c : pc) (R P : list item) : Prop :=
  match c with
  | CIdle => P = R
  | CPeeked d => if ev then P = d :: R else P = R /\ exists t, R = d :: t
  | CPushed => if ev then P = R else P = tl R /\ R <> []
  end.
Definition sinv (ev : bool) (x : shared) (F R P : list item) : Prop :=
  qinv (sh_st x) F /\ ring_rep (sh_ring x) R /\ r_cap (sh_ring x) = cap /\ Forall (item_ok false) R /\
  match sh_pc x with CPeeked d => item_ok false d | _ => True end /\ pends ev (sh_pc x) R P.
Definition act_ok (a : act) : Prop := match a with AEnq d _ => item_ok false d | _ => True end.

Lemma pends_unsaved ev c R P : pends ev c R P -> part_of (unsaved c R) P.
Proof.
  destruct c as [|d|]; cbn [pends unsaved].
  - intros ->. apply part_refl.
  - destruct ev; [intros ->; apply PLose, part_refl|intros [-> _]; apply part_refl].
  - destruct ev; [intros ->; destruct R; [apply part_refl|apply PLose, part_refl]|intros [-> _]; apply part_refl].
Qed.
Lemma pends_exact c R P : pends false c R P -> unsaved c R = P.
Proof. destruct c as [|d|]; cbn [pends unsaved]; [auto|intros [-> _]; auto|intros [-> _]; auto]. Qed.
(** While the item in hand is not in the ring any more, there is one item more to come than the accepted ones without the evicted ones. *)
Definition slack (ev : bool) (c : pc) : nat := if ev then match c with CIdle => 0 | _ => 1 end else 0.
(** An accepted enqueue. *)
Lemma pends_enq ev c R P gone R' d : pends ev c R P -> R = gone ++ R' -> exists ev' P', pends ev' c (R' ++ [d]) P' /\ part_of P' (P ++ [d]) /\ (gone = [] -> ev = false -> ev' = false /\ P' = P ++ [d]) /\
    length P + 1 + slack ev' c <= length P' + length gone + slack ev c.
Proof.
  intros H E.
  assert (PT : forall t, part_of (R' ++ [d]) ((t ++ R') ++ [d])) by (intros t; apply part_app; [apply part_drop|apply part_refl]).
  assert (LE : length R = length gone + length R') by (rewrite E, app_length; reflexivity).
  destruct c as [|y|]; cbn [pends] in *.
  - subst P. exists ev, (R' ++ [d]). split; auto. split; [rewrite E; apply PT|]. split; [intros -> ->; now subst R|]. rewrite app_length. cbn. unfold slack. destruct ev; lia.
  - destruct ev.
    + subst P. exists true, (y :: R' ++ [d]). split; auto. split; [|split; [discriminate|cbn; rewrite app_length; cbn; lia]]. rewrite E. apply PKeep, PT.
    + destruct H as [-> [t ET]]. destruct gone as [|z gone].
      * cbn in E. subst R'. exists false, (R ++ [d]). split; [split; auto; rewrite ET; now exists (t ++ [d])|]. split; [apply part_refl|]. split; [auto|rewrite app_length; cbn; lia].
      * exists true, (y :: R' ++ [d]). split; auto. split; [|split; [discriminate|cbn in *; rewrite app_length; cbn; lia]]. rewrite E. rewrite ET in E. cbn in E. injection E as <- E. cbn. apply PKeep. apply PT.
  - destruct ev.
    + subst P. exists true, (R' ++ [d]). split; auto. split; [rewrite E; apply PT|split; [discriminate|rewrite app_length; cbn; lia]].
    + destruct H as [-> NE]. destruct gone as [|z gone].
      * cbn in E. subst R'. exists false, (tl R ++ [d]). destruct R as [|z R]; [contradiction|]. cbn. split; [split; auto; discriminate|]. split; [apply part_refl|]. split; [auto|rewrite app_length; cbn; lia].
      * exists true, (R' ++ [d]). split; auto. split; [|split; [discriminate|destruct R; cbn in *; [lia|rewrite app_length; cbn; lia]]]. rewrite E. cbn. apply PT.
Qed.

(** How many items an enqueue evicted. *)
Definition evicts (x x' : shared) (o : obs) : nat := match o with OEnq true => r_cnt (sh_ring x) + 1 - r_cnt (sh_ring x') | _ => 0 end.
Definition drain_keeps (a : act) : Prop := match a with APush ow => ow = false | _ => True end.
Lemma sh_step_ok ev x a F R P x' o : sinv ev x F R P -> act_ok a -> sh_step g x a = Some (x', o) ->
  exists ev' F' R' P' i ou, sinv ev' x' F' R' P' /\ (forall t l, sh_in (a :: t) (o :: l) = i ++ sh_in t l) /\ (forall t l, sh_out (a :: t) (o :: l) = ou ++ sh_out t l) /\
    part_of (ou ++ F' ++ P') (F ++ P ++ i) /\
    (act_careful a -> ev = false -> ev' = false /\ ou ++ F' ++ P' = F ++ P ++ i) /\
    (drain_keeps a -> length F + length P + length i + slack ev' (sh_pc x') <= length ou + length F' + length P' + evicts x x' o + slack ev (sh_pc x)).
Proof.
  destruct x as [rg sg c s du]. intros (I & RR & CP & OK & HO & PC) AO E. cbn [sh_ring sh_sig sh_pc sh_st sh_due] in *.
  assert (SAME : forall (X Y : list item) e n m, X = Y -> n <= m -> part_of X Y /\ (act_careful a -> e = false -> e = false /\ X = Y) /\ (drain_keeps a -> n <= m)) by (intros X Y e n m -> L; split; [apply part_refl|auto]).
  pose proof (rr_cnt _ _ RR) as CN.
  destruct a as [d po| |sl|ow| | |b]; cbn [sh_step sh_ring sh_sig sh_pc sh_st sh_due] in E.
  - unfold ring_enqueue in E. pose proof (rep_step rg R (match po with PErr => RPush d | PDiscardOldest => RPushOw d end) RR) as X.
    destruct po; cbn [ring_step fifo_step] in X.
    + destruct (ring_push rg d) as [rg'|]; injection E as <- <-; cbn [sh_pc].
      * destruct ((N.of_nat (length d) <=? 65535)%N && (cost R + (2 + length d) <=? r_cap rg)); destruct X as (X1 & X2 & X3); try discriminate.
        destruct (pends_enq ev c R P [] R d PC eq_refl) as (ev' & P' & PC' & PP & EX & LL). pose proof (rr_cnt _ _ X2) as CN'. rewrite app_length in CN'. cbn [length] in *.
        exists ev', F, (R ++ [d]), P', [d], []. split; [|split; [reflexivity|split; [reflexivity|]]].
        -- split; [exact I|]. split; [exact X2|]. split; [cbn; congruence|]. split; [apply Forall_app; auto|]. auto.
        -- cbn [app]. split; [apply part_app; auto using part_refl|]. split; [intros _ EV; destruct (EX eq_refl EV) as [-> ->]; auto|]. intros _. cbn [length evicts sh_ring sh_pc]. lia.
      * exists ev, F, R, P, [], []. split; [unfold sinv; cbn [sh_ring sh_sig sh_pc sh_st sh_due pends]; auto 10|split; [reflexivity|split; [reflexivity|]]]. apply SAME; [rewrite app_nil_r; reflexivity|cbn [length evicts sh_pc]; lia].
    + destruct (ring_push_ow rg d) as [rg'|]; injection E as <- <-; cbn [sh_pc].
      * destruct ((N.of_nat (length d) <=? 65535)%N && (2 + length d <=? r_cap rg)) eqn:Z; destruct X as (X1 & X2 & X3); try discriminate.
        apply andb_true_iff in Z. destruct Z as [Z1 Z2]. apply Nat.leb_le in Z2. destruct (drop_until_spec (r_cap rg) (2 + length d) R Z2) as (gone & EG & FT & MN).
        set (R' := drop_until (r_cap rg) (2 + length d) R) in *. destruct (pends_enq ev c R P gone R' d PC EG) as (ev' & P' & PC' & PP & EX & LL). pose proof (rr_cnt _ _ X2) as CN'. rewrite app_length in CN'. assert (LE : length R = length gone + length R') by (rewrite EG at 1; now rewrite app_length). cbn [length] in *.
        exists ev', F, (R' ++ [d]), P', [d], []. split; [|split; [reflexivity|split; [reflexivity|]]].
        -- split; [exact I|]. split; [exact X2|]. split; [cbn; congruence|]. split; [|auto].
           rewrite EG in OK. apply Forall_app in OK. apply Forall_app. split; auto. apply OK.
        -- cbn [app]. split; [apply part_app; auto using part_refl|split; [intros []|]]. intros _. cbn [length evicts sh_ring sh_pc]. unfold item in *. lia.
      * exists ev, F, R, P, [], []. split; [unfold sinv; cbn [sh_ring sh_sig sh_pc sh_st sh_due pends]; auto 10|split; [reflexivity|split; [reflexivity|]]]. apply SAME; [rewrite app_nil_r; reflexivity|cbn [length evicts sh_pc]; lia].
  - destruct du as [|n]; [discriminate|]. injection E as <- <-. exists ev, F, R, P, [], []. split; [unfold sinv; cbn [sh_ring sh_sig sh_pc sh_st sh_due pends]; auto 10|split; [reflexivity|split; [reflexivity|]]]. apply SAME; [rewrite app_nil_r; reflexivity|cbn [length evicts sh_pc]; lia].
  - destruct c; try discriminate. cbn [pends] in PC. subst P. destruct (ring_peek rg sl) as [d|] eqn:PK; injection E as <- <-.
    + destruct (peek_some _ _ _ _ RR PK) as (t & -> & L). exists false, F, (d :: t), (d :: t), [], []. inversion OK; subst.
      split; [unfold sinv; cbn [sh_ring sh_sig sh_pc sh_st sh_due pends]; eauto 10|split; [reflexivity|split; [reflexivity|]]]. rewrite app_nil_r. split; [apply part_refl|split; [auto|intros _; cbn; lia]].
    + exists ev, F, R, R, [], []. split; [unfold sinv; cbn [sh_ring sh_sig sh_pc sh_st sh_due pends]; auto 10|split; [reflexivity|split; [reflexivity|]]]. apply SAME; [rewrite app_nil_r; reflexivity|cbn [length evicts sh_pc]; lia].
  - destruct c as [|d|]; try discriminate. destruct (q_push g d ow s) as [r s'] eqn:PU.
    destruct (qinv_step false g s F (QPush d ow) (AUnit r) s' I HO) as (F' & D & I'); [unfold q_exec, ans1; rewrite PU; reflexivity|].
    apply push_flow in D. destruct r as [[]|e]; injection E as <- <-.
    + destruct D as (dr & q & -> & -> & O). exists ev, (q ++ [d]), R, (tl P), [], []. split; [|split; [reflexivity|split; [reflexivity|]]].
      { unfold sinv; cbn [sh_ring sh_sig sh_pc sh_st sh_due]. do 5 (split; [auto; fail|]). cbn [pends] in *. destruct ev; [now subst P|]. destruct PC as [-> [t ->]]. split; [reflexivity|discriminate]. }
      assert (PE : P = d :: tl P) by (cbn [pends] in PC; destruct ev; [now subst P|destruct PC as [-> [t ->]]; reflexivity]). cbn [app]. rewrite app_nil_r.
      assert (PQ : (q ++ [d]) ++ tl P = q ++ P) by (rewrite PE at 2; rewrite <- app_assoc; reflexivity). rewrite PQ. rewrite <- app_assoc. split; [apply part_drop|].
      split; [intros E EV; cbn in E; split; auto; now rewrite (O E)|]. intros E. cbn in E. rewrite (O E). rewrite PE at 1. rewrite !app_length. cbn [length app evicts sh_pc slack]. destruct ev; cbn [slack]; lia.
    + subst F'. exists false, F, R, R, [], []. split; [unfold sinv; cbn [sh_ring sh_sig sh_pc sh_st sh_due pends]; auto 10|split; [reflexivity|split; [reflexivity|]]]. cbn [app]. rewrite app_nil_r. cbn [pends] in PC.
      destruct ev; [|destruct PC as [-> _]; split; [apply part_refl|split; [auto|intros _; cbn; lia]]]. subst P. split; [|split; [discriminate|intros _; cbn; lia]]. apply part_app; [apply part_refl|]. apply PLose, part_refl.
  - destruct c; try discriminate. injection E as <- <-. exists ev, F, (tl R), (tl R), [], []. split; [|split; [reflexivity|split; [reflexivity|]]].
    + split; [exact I|]. split; [apply (rep_discard _ _ RR)|]. split; [cbn; rewrite cap_discard; auto|]. split; [destruct R; cbn; inversion OK; auto|split; reflexivity || exact Logic.I].
    + cbn [app]. rewrite app_nil_r. cbn [pends] in PC. destruct ev; [|destruct PC as [-> _]; split; [apply part_refl|split; [auto|intros _; cbn; lia]]]. subst P. split; [|split; [discriminate|intros _; destruct R; cbn; lia]]. apply part_app; [apply part_refl|].
      destruct R; [apply part_refl|apply PLose, part_refl].
  - destruct c; try discriminate. destruct sg; try discriminate. injection E as <- <-. exists ev, F, R, P, [], []. split; [unfold sinv; cbn [sh_ring sh_sig sh_pc sh_st sh_due pends]; auto 10|split; [reflexivity|split; [reflexivity|]]]. apply SAME; [rewrite app_nil_r; reflexivity|cbn [length evicts sh_pc]; lia].
  - destruct c; try discriminate. destruct (q_pop g b s) as [r s'] eqn:PO. injection E as <- <-.
    destruct (qinv_step false g s F (QPop b) (AItem r) s' I Logic.I) as (F' & D & I'); [unfold q_exec, ans1; rewrite PO; reflexivity|]. apply pop_flow in D. destruct D as [D _].
    destruct r as [[d|]|e]; subst.
    + exists ev, F', R, P, [], [d]. split; [unfold sinv; cbn [sh_ring sh_sig sh_pc sh_st sh_due pends]; auto 10|split; [reflexivity|split; [reflexivity|]]]. apply SAME; [rewrite app_nil_r; reflexivity|cbn [length evicts sh_pc]; lia].
    + exists ev, F, R, P, [], []. split; [unfold sinv; cbn [sh_ring sh_sig sh_pc sh_st sh_due pends]; auto 10|split; [reflexivity|split; [reflexivity|]]]. apply SAME; [rewrite app_nil_r; reflexivity|cbn [length evicts sh_pc]; lia].
    + exists ev, F, R, P, [], []. split; [unfold sinv; cbn [sh_ring sh_sig sh_pc sh_st sh_due pends]; auto 10|split; [reflexivity|split; [reflexivity|]]]. apply SAME; [rewrite app_nil_r; reflexivity|cbn [length evicts sh_pc]; lia].
Qed.
Fixpoint evicted (x : shared) (acts : list act) : nat :=
  match acts with
  | [] => 0
  | a :: t => match sh_step g x a with Some (x', o) => evicts x x' o + evicted x' t | None => 0 end
  end.
Lemma sh_run_ok acts : forall ev x F R P x' os, sinv ev x F R P -> Forall act_ok acts -> sh_run g x acts = Some (x', os) ->
  exists ev' F' R' P', sinv ev' x' F' R' P' /\ part_of (sh_out acts os ++ F' ++ P') (F ++ P ++ sh_in acts os) /\
    (Forall act_careful acts -> ev = false -> ev' = false /\ sh_out acts os ++ F' ++ P' = F ++ P ++ sh_in acts os) /\
    (Forall drain_keeps acts -> length F + length P + length (sh_in acts os) + slack ev' (sh_pc x') <= length (sh_out acts os) + length F' + length P' + evicted x acts + slack ev (sh_pc x)).
Proof.
  induction acts as [|a t IH]; intros ev x F R P x' os I A E; cbn [sh_run] in E.
  - injection E as <- <-. exists ev, F, R, P. cbn [sh_out sh_in app]. rewrite app_nil_r. split; auto. split; [apply part_refl|]. split; [auto|]. intros _. cbn. lia.
  - inversion A as [|? ? A1 A2]; subst. destruct (sh_step g x a) as [[x1 o]|] eqn:ST; [|discriminate]. destruct (sh_run g x1 t) as [[x2 os1]|] eqn:RU; [|discriminate]. injection E as <- <-.
    destruct (sh_step_ok _ _ _ _ _ _ _ _ I A1 ST) as (ev1 & F1 & R1 & P1 & i & ou & I1 & EI & EO & PT & C & N1). destruct (IH _ _ _ _ _ _ _ I1 A2 RU) as (ev' & F' & R' & P' & I' & PT' & C' & N2).
    exists ev', F', R', P'. split; auto. rewrite EI, EO. rewrite <- app_assoc.
    assert (Q : F ++ P ++ i ++ sh_in t os1 = (F ++ P ++ i) ++ sh_in t os1) by (now rewrite <- !app_assoc).
    assert (Q2 : ou ++ F1 ++ P1 ++ sh_in t os1 = (ou ++ F1 ++ P1) ++ sh_in t os1) by (now rewrite <- !app_assoc). split; [|split].
    + eapply part_trans; [apply part_app; [apply part_refl|exact PT']|]. rewrite Q, Q2. apply part_app; auto. apply part_refl.
    + intros CA EV. inversion CA as [|? ? C1 C2]; subst. destruct (C C1 eq_refl) as [E1 E2]. destruct (C' C2 E1) as [E3 E4]. split; auto. rewrite E4, Q, Q2. now rewrite E2.
    + intros CA. inversion CA as [|? ? C1 C2]; subst. specialize (N1 C1). specialize (N2 C2). cbn [evicted]. rewrite ST, !app_length. lia.
Qed.

(** The drain task never sleeps on items. *)
Definition tinv (sl : nat) (w : bool) (x : shared) (R : list item) : Prop :=
  ring_rep (sh_ring x) R /\ Forall (fun d => length d <= sl) R /\ (w = true -> sh_sig x = false -> sh_due x = 0 -> R = []).
Lemma task_step_ok sl w x R a x' o w' : tinv sl w x R -> sh_step g x a = Some (x', o) -> task_step sl w a o = Some w' -> exists R', tinv sl w' x' R'.
Proof.
  destruct x as [rg sg c s du]. intros (RR & LE & SI) E T. cbn [sh_ring sh_sig] in *.
  destruct a as [d po| |n|ow| | |b]; cbn [sh_step sh_ring sh_sig sh_pc sh_st sh_due] in E; cbn [task_step] in T; try discriminate.
  - destruct (Nat.leb_spec (length d) sl) as [L|]; [|discriminate]. injection T as <-. unfold ring_enqueue in E.
    pose proof (rep_step rg R (match po with PErr => RPush d | PDiscardOldest => RPushOw d end) RR) as X. destruct po; cbn [ring_step fifo_step] in X.
    + destruct (ring_push rg d) as [rg'|]; injection E as <- <-.
      * destruct ((N.of_nat (length d) <=? 65535)%N && (cost R + (2 + length d) <=? r_cap rg)); destruct X as (X1 & X2 & X3); try discriminate.
        exists (R ++ [d]). split; [exact X2|]. split; [apply Forall_app; auto|]. discriminate.
      * exists R. split; auto.
    + destruct (ring_push_ow rg d) as [rg'|]; injection E as <- <-.
      * destruct ((N.of_nat (length d) <=? 65535)%N && (2 + length d <=? r_cap rg)) eqn:Z; destruct X as (X1 & X2 & X3); try discriminate.
        apply andb_true_iff in Z. destruct Z as [Z1 Z2]. apply Nat.leb_le in Z2. destruct (drop_until_spec (r_cap rg) (2 + length d) R Z2) as (gone & EG & FT & MN).
        eexists. split; [exact X2|]. split; [|discriminate]. rewrite EG in LE. apply Forall_app in LE. apply Forall_app. split; auto. apply LE.
      * exists R. split; auto.
  - destruct du as [|n]; [discriminate|]. injection E as <- <-. injection T as <-. exists R. split; [exact RR|]. split; [exact LE|discriminate].
  - destruct c; try discriminate. destruct (ring_peek rg n) as [d|] eqn:PK; injection E as <- <-; destruct w; try discriminate; destruct (Nat.eqb_spec n sl) as [->|]; try discriminate; injection T as <-.
    + exists R. split; [exact RR|]. split; [exact LE|discriminate].
    + exists R. split; [exact RR|]. split; [exact LE|]. intros _ _ _. apply (peek_none _ _ _ RR) in PK. destruct R as [|y t]; auto. cbn in PK. inversion LE; subst. lia.
  - destruct c; try discriminate. destruct (q_push g d ow s) as [[[]|e] s']; injection E as <- <-; try discriminate. destruct w; try discriminate. injection T as <-. exists R. split; [exact RR|]. split; [exact LE|discriminate].
  - destruct c; try discriminate. injection E as <- <-. destruct w; try discriminate. injection T as <-. exists (tl R). split; [apply (rep_discard _ _ RR)|]. split; [destruct R; cbn; inversion LE; auto|discriminate].
  - destruct c; try discriminate. destruct sg; try discriminate. injection E as <- <-. destruct w; try discriminate. injection T as <-. exists R. split; [exact RR|]. split; [exact LE|discriminate].
Qed.
Lemma task_run_ok sl acts : forall w x R x' os w', tinv sl w x R -> sh_run g x acts = Some (x', os) -> task_run sl w acts os = Some w' -> exists R', tinv sl w' x' R'.
Proof.
  induction acts as [|a t IH]; intros w x R x' os w' I E T; cbn [sh_run] in E.
  - injection E as <- <-. injection T as <-. eauto.
  - destruct (sh_step g x a) as [[x1 o]|] eqn:ST; [|discriminate]. destruct (sh_run g x1 t) as [[x2 os1]|] eqn:RU; [|discriminate]. injection E as <- <-. cbn [task_run] in T.
    destruct (task_step sl w a o) as [w1|] eqn:TS; [|discriminate]. destruct (task_step_ok _ _ _ _ _ _ _ _ I ST TS) as [R1 I1]. eapply IH; eauto.
Qed.
End Shared.

(** The start: empty ring, erased flash, the drain task idle. *)
Definition sh_new (cap : nat) (f : flash) (c : cache unit) : shared := mkshared (ring_new cap) false CIdle (st_new f c) 0.
Definition sh_reached (g : geom) (cap : nat) (acts : list act) (os : list obs) (x : shared) : Prop :=
  exists f c, erased g f /\ f_fuel f = None /\ f_er f = [] /\ fresh_cache (NP g) c /\ geom_ok g /\ Forall act_ok acts /\
    sh_run g (sh_new cap f c) acts = Some (x, os).
Lemma shared_flow g cap acts os x : sh_reached g cap acts os x -> exists F R, q_holds g (sh_st x) F /\ ram_holds (sh_ring x) R /\
  part_of (sh_out acts os ++ F ++ unsaved (sh_pc x) R) (sh_in acts os) /\ (Forall act_careful acts -> sh_out acts os ++ F ++ unsaved (sh_pc x) R = sh_in acts os).
Proof.
  intros (f & c & ER & FU & FE & FC & GO & A & E). destruct (b_start false g cap f c ER FU FE FC) as (I & RR & CP & OK); [split; auto; discriminate|].
  destruct (sh_run_ok g cap acts false (sh_new cap f c) [] [] [] x os) with (2 := A) (3 := E) as (ev & F & R & P & (I' & RR' & _ & _ & _ & PC) & PT & C & _); [unfold sinv; cbn; auto 10|].
  exists F, R. split; [eapply qinv_holds; eauto|]. split; [now apply ram_rep|]. split.
  - eapply part_trans; [|exact PT]. apply part_app; [apply part_refl|]. apply part_app; [apply part_refl|]. eapply pends_unsaved; eauto.
  - intros CA. destruct (C CA eq_refl) as [-> EQ]. cbn [app] in EQ. now rewrite (pends_exact _ _ _ PC).
Qed.
(** Not more items are missing than were evicted. *)
Lemma pends_slack ev c R P : pends ev c R P -> length P <= length (unsaved c R) + slack ev c.
Proof. destruct c as [|d|], ev; cbn; intros H; subst; cbn; try lia; try (destruct H as [-> _]; lia). destruct R; cbn; lia. Qed.
Lemma shared_losses g cap acts os f c x : erased g f -> f_fuel f = None -> f_er f = [] -> fresh_cache (NP g) c -> geom_ok g -> Forall act_ok acts ->
  Forall drain_keeps acts -> sh_run g (sh_new cap f c) acts = Some (x, os) ->
  exists F R, q_holds g (sh_st x) F /\ ram_holds (sh_ring x) R /\ length (sh_in acts os) <= length (sh_out acts os ++ F ++ unsaved (sh_pc x) R) + evicted g (sh_new cap f c) acts.
Proof.
  intros ER FU FE FC GO A DK E. destruct (b_start false g cap f c ER FU FE FC) as (I & RR & CP & OK); [split; auto; discriminate|].
  destruct (sh_run_ok g cap acts false (sh_new cap f c) [] [] [] x os) with (2 := A) (3 := E) as (ev & F & R & P & (I' & RR' & _ & _ & _ & PC) & _ & _ & L); [unfold sinv; cbn; auto 10|].
  exists F, R. split; [eapply qinv_holds; eauto|]. split; [now apply ram_rep|]. specialize (L DK). apply pends_slack in PC. rewrite !app_length. cbn [length slack] in L. lia.
Qed.
Lemma shared_wakes g cap sl acts os f c x : sh_run g (sh_new cap f c) acts = Some (x, os) -> task_run sl true acts os = Some true -> sh_sig x = false -> sh_due x = 0 -> r_cnt (sh_ring x) = 0.
Proof.
  intros E T SG DU. destruct (task_run_ok g sl acts true (sh_new cap f c) [] x os true) with (2 := E) (3 := T) as (R & RR & _ & H).
  { split; [apply rep_new|]. split; auto. }
  rewrite (rr_cnt _ _ RR), H; auto.
Qed.
(** Every completed wait is paid for by an accepted enqueue. *)
Definition waited (acts : list act) : nat := length (filter (fun a => match a with AWait => true | _ => false end) acts).
Definition taken (os : list obs) : nat := length (filter (fun o => match o with OEnq true => true | _ => false end) os).
Lemma shared_waits g : forall acts x x' os, sh_run g x acts = Some (x', os) -> waited acts + Nat.b2n (sh_sig x') + sh_due x' <= taken os + Nat.b2n (sh_sig x) + sh_due x.
Proof.
  induction acts as [|a t IH]; intros x x' os E; cbn [sh_run] in E; [injection E as <- <-; cbn; lia|].
  destruct (sh_step g x a) as [[x1 o]|] eqn:ST; [|discriminate]. destruct (sh_run g x1 t) as [[x2 os1]|] eqn:RU; [|discriminate]. injection E as <- <-. specialize (IH _ _ _ RU).
  assert (H : waited [a] + Nat.b2n (sh_sig x1) + sh_due x1 <= taken [o] + Nat.b2n (sh_sig x) + sh_due x).
  { unfold waited, taken. destruct a as [d po| |n|ow| | |b]; cbn [sh_step] in ST.
    - destruct (ring_enqueue (sh_ring x) d po) as [[] r]; injection ST as <- <-; cbn; lia.
    - destruct (sh_due x); [discriminate|]. injection ST as <- <-. destruct (sh_sig x); cbn; lia.
    - destruct (sh_pc x); try discriminate. destruct (ring_peek (sh_ring x) n); injection ST as <- <-; cbn; lia.
    - destruct (sh_pc x); try discriminate. destruct (q_push g d ow (sh_st x)) as [[]]; injection ST as <- <-; cbn; lia.
    - destruct (sh_pc x); try discriminate. injection ST as <- <-; cbn; lia.
    - destruct (sh_pc x), (sh_sig x); try discriminate. injection ST as <- <-; cbn; lia.
    - destruct (sh_pc x); try discriminate. destruct (q_pop g b (sh_st x)). injection ST as <- <-; cbn; lia. }
  change (waited (a :: t)) with (length (filter (fun a => match a with AWait => true | _ => false end) ([a] ++ t))). change (taken (o :: os1)) with (length (filter (fun o => match o with OEnq true => true | _ => false end) ([o] ++ os1))).
  rewrite !filter_app, !app_length. unfold waited, taken in *. lia.
Qed.
