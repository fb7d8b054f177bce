(** The buffered queue when calls are given up while they wait. *)
From Coq Require Import List NArith ZArith Arith Bool Lia ZifyBool ZifyNat ZifyN.
From Verif Require Import Base BaseP Flash Cache State Item Generic Queue GeomP WpP WorldP LayP QPushP QMiscP QCallP QHistP Buffered RingP Client QSpec QObs QPropsP BSpec BufP Drops ProgP DropP DropQP BDrops.
Import ListNotations.

Section B.
Context (g : geom) (ae : bool) (aw : nat) (ST : setting true g ae aw) (cap : nat).
Notation qst := (qst g false ae aw).
Notation qdo := (qdo (rup g) (HL g) (page_cap g) (2 <=? NP g) true).
Notation bdo := (bdo (rup g) (HL g) (page_cap g) (2 <=? NP g) true cap).
Notation bstop := (bstop (rup g) (HL g) (page_cap g) (2 <=? NP g)).
Notation bdtrace := (bdtrace (rup g) (HL g) (page_cap g) (2 <=? NP g) cap).

Definition dinv (s : st unit) (F : list item) : Prop := exists Y, qst Y s /\ content Y = F.
Lemma dinv_step s F c a s' : dinv s F -> callable true c -> q_exec g c s = (a, s') -> exists F', qdo F c a F' /\ dinv s' F'.
Proof.
  intros (Y & QS & <-) C E. pose proof (setting_single _ _ _ _ ST) as SG. pose proof ST as [gok _]. cbn [negb] in SG.
  destruct (hist_ok g gok false ae aw SG [ECall c (f_fuel (s_fl s))] Y s [a] s' QS) as (Y1 & Q1 & T1).
  { constructor; [|constructor]. apply (setting_ev true g ae aw _ ST). split; auto. discriminate. }
  { cbn [q_run]. rewrite power_same, E. reflexivity. }
  inversion T1 as [|? ? ? ? ? ? ? ? Z ZZ|]; subst. inversion ZZ; subst. exists (content Y1). split; auto. exists Y1. auto.
Qed.
Lemma dinv_power s F p : dinv s F -> dinv (power s p) F.
Proof. intros (Y & (pg & LY & QI & SW) & <-). exists Y. split; auto. exists pg. split; auto. split; auto. apply sworld_power; auto. discriminate. Qed.
Lemma dinv_boot s F ca : dinv s F -> fresh_cache (NP g) ca -> dinv (set_ca s ca) F.
Proof. intros (Y & (pg & LY & QI & SW) & <-) FC. exists Y. split; auto. exists pg. split; auto. split; auto. now apply sworld_boot. Qed.
Lemma dinv_mark s F : dinv s F -> dinv (mark s) F.
Proof. intros (Y & (pg & LY & QI & (F1 & W1 & _)) & <-). exists Y. split; auto. exists pg. split; auto. split; auto. split; auto. Qed.
Lemma dinv_holds s F : dinv s F -> q_holds g s F.
Proof. intros (Y & QS & <-). pose proof (setting_single _ _ _ _ ST) as SG. pose proof ST as [gok _]. cbn [negb] in SG. eapply holds_of; eauto. Qed.

Notation binv := (binv true cap dinv).
Notation one_ok := (drain_one_ok true g cap dinv dinv_step).

(** Dropped at a read. *)
Section At.
Context (T : nat).
Notation D := (dropping T).
Lemma dinv_drop s F c a s' : dinv s F -> f_fuel (s_fl s) = None -> callable true c -> q_exec (R := D) g c s = (a, s') ->
  if q_gone a then exists a' F', qdo F c a' F' /\ dinv s' F' else exists F', qdo F c a F' /\ dinv s' F'.
Proof.
  intros (Y & QS & <-) FU C E. pose proof (setting_single _ _ _ _ ST) as SG. pose proof ST as [gok _]. cbn [negb] in SG.
  assert (E0 : q_exec (R := D) g c (power s None) = (a, s')) by (rewrite <- FU, power_same; exact E).
  destruct (call_drop g gok ae aw T SG c Y s a s' QS (setting_call true g ae aw c ST C) E0) as [(G & a' & Y1 & Z & Q1)|(G & Y1 & Z & Q1)]; rewrite G.
  - exists a', (content Y1). split; auto. exists Y1. auto.
  - exists (content Y1). split; auto. exists Y1. auto.
Qed.
Lemma push_fuel d ow s r s' : q_push (R := D) g d ow s = (r, s') -> f_fuel (s_fl s) = None -> is_gone r = false -> f_fuel (s_fl s') = None.
Proof.
  intros E FU G. destruct (prog_drops g T _ _ _ (p_push g d ow) s (f_bad (s_fl s)) FU) as [(l' & H)|(H & _)]; rewrite logged_id, E in H.
  - injection H as _ ->. destruct (prog_needs g T _ _ _ (p_push g d ow) s FU) as (Z & _). exact Z.
  - cbn [fst] in H. subst r. discriminate.
Qed.
Definition fuelled (q : bq) : Prop := f_fuel (s_fl (snd q)) = None.
Lemma drain_one_drop sl ow q F R r q' : binv q F R -> fuelled q -> bq_drain_one g (R := D) sl ow q = (r, q') ->
  if is_gone r then exists F', bstop F R (BDrain sl ow) F' R /\ binv q' F' R
  else exists F' R', drain1 (rup g) (HL g) (page_cap g) (2 <=? NP g) true sl ow F R r F' R' /\ binv q' F' R' /\ fuelled q'.
Proof.
  destruct q as [rg s]. intros (I & RR & CP & OK) FU E. unfold fuelled in *. cbn [fst snd bq_drain_one] in *. destruct (ring_peek rg sl) as [d|] eqn:PK.
  - destruct (peek_some _ _ _ _ RR PK) as (t & -> & L). inversion OK as [|? ? O1 O2]; subst. destruct (q_push (R := D) g d ow s) as [x s'] eqn:PU.
    pose proof (dinv_drop s F (QPush d ow) (AUnit x) s' I FU O1) as X. cbn [q_exec] in X. rewrite PU in X. specialize (X eq_refl). cbn [q_gone] in X.
    pose proof (push_fuel d ow s x s' PU FU) as FU'. destruct x as [[]|e].
    + injection E as <- <-. cbn [is_gone] in *. destruct X as (F' & Z & I'). exists F', t. split; [eapply D1Item; eauto|]. split; [|now apply FU']. split; [exact I'|]. split; [apply (rep_discard _ _ RR)|]. split; [cbn [fst]; rewrite cap_discard; auto|exact O2].
    + injection E as <- <-. destruct (is_gone (Err (A := bool) e)) eqn:G.
      * assert (G2 : is_gone (Err (A := unit) e) = true) by exact G. rewrite G2 in X. destruct X as (a' & F' & Z & I'). exists F'. split; [eapply GDrain; eauto|]. split; [exact I'|]. auto.
      * assert (G2 : is_gone (Err (A := unit) e) = false) by exact G. rewrite G2 in X. destruct X as (F' & Z & I'). exists F', (d :: t). split; [eapply D1Err; eauto|]. split; [split; auto|now apply FU'].
  - injection E as <- <-. cbn [is_gone]. exists F, R. split; [constructor; eapply peek_none; eauto|]. split; auto. split; auto.
Qed.
Lemma drain_loop_drop sl ow : forall fuel q F R r q', length R < fuel -> binv q F R -> fuelled q -> bq_drain_loop g (R := D) fuel sl ow q = (r, q') ->
  if is_gone r then exists F' R', bstop F R (BDrainAll sl ow) F' R' /\ binv q' F' R'
  else exists F' R', drains (rup g) (HL g) (page_cap g) (2 <=? NP g) true sl ow F R r F' R' /\ binv q' F' R'.
Proof.
  induction fuel as [|fuel IH]; intros q F R r q' L I FU E; [lia|]. cbn [bq_drain_loop] in E. destruct (bq_drain_one g (R := D) sl ow q) as [x q1] eqn:D1.
  pose proof (drain_one_drop _ _ _ _ _ _ _ I FU D1) as X. destruct x as [[|]|e].
  - cbn [is_gone] in X. destruct X as (F1 & R1 & Z & I1 & FU1). assert (length R1 < fuel) by (inversion Z; subst; cbn in *; lia). specialize (IH _ _ _ _ _ H I1 FU1 E). destruct (is_gone r).
    + destruct IH as (F' & R' & B & I'). exists F', R'. split; auto. inversion B; subst.
      * eapply GDrainAll; [eapply DrOne; [exact Z|apply DrNo]|apply GNothing].
      * eapply GDrainAll; [eapply DrOne; [exact Z|eassumption]|eassumption].
    + destruct IH as (F' & R' & B & I'). exists F', R'. split; auto. eapply DAItem; eauto.
  - injection E as <- <-. cbn [is_gone] in *. destruct X as (F1 & R1 & Z & I1 & _). exists F1, R1. split; auto. now constructor.
  - injection E as <- <-. destruct (is_gone (Err (A := unit) e)) eqn:G.
    + assert (G2 : is_gone (Err (A := bool) e) = true) by exact G. rewrite G2 in X. destruct X as (F' & Z & I'). exists F', R. split; auto. eapply GDrainAll; [apply DrNo|exact Z].
    + assert (G2 : is_gone (Err (A := bool) e) = false) by exact G. rewrite G2 in X. destruct X as (F1 & R1 & Z & I1 & _). exists F1, R1. split; auto. now constructor.
Qed.
Lemma bexec_drop c q F R a q' : binv q F R -> bcall_ok true c -> bexec g (R := D) c (fst q, power (snd q) None) = (a, q') ->
  if b_gone a then exists F' R', bstop F R c F' R' /\ binv q' F' R' else exists F' R', bdo F R c a F' R' /\ binv q' F' R'.
Proof.
  intros B C E. pose proof B as (I0 & RR & CP & OK). pose proof (dinv_power _ _ None I0) as I. set (q0 := (fst q, power (snd q) None)) in *.
  assert (B0 : binv q0 F R) by (split; auto). assert (FU : fuelled q0) by reflexivity. destruct c as [d po|sl ow|sl ow|b|b]; cbn [bexec] in E.
  - assert (E2 : bexec g (BEnq d po) q0 = (a, q')) by exact E. assert (G : b_gone a = false) by (destruct (bq_enqueue d po q0); injection E as <- _; reflexivity). rewrite G.
    apply (bexec_ok true g cap dinv dinv_step (fun s F p H _ => dinv_power s F p H) dinv_boot (BEnq d po) None q F R a q' B C); [discriminate|exact E2].
  - destruct (bq_drain_one g (R := D) sl ow q0) as [r q1] eqn:Z. injection E as <- <-. pose proof (drain_one_drop _ _ _ _ _ _ _ B0 FU Z) as X. cbn [b_gone]. destruct (is_gone r).
    + destruct X as (F' & X1 & X2). eauto.
    + destruct X as (F' & R' & X1 & X2 & _). exists F', R'. split; auto. now constructor.
  - destruct (bq_drain_all g (R := D) sl ow q0) as [r q1] eqn:Z. injection E as <- <-. unfold bq_drain_all in Z. assert (LL : length R < S (r_cnt (fst q0))) by (cbn [q0 fst]; rewrite (rr_cnt _ _ RR); apply Nat.lt_succ_diag_r).
    pose proof (drain_loop_drop sl ow _ q0 F R r q1 LL B0 FU Z) as X. cbn [b_gone]. destruct (is_gone r); destruct X as (F' & R' & X1 & X2); exists F', R'; split; auto. now constructor.
  - unfold bq_pop in E. destruct q0 as [rg s] eqn:Q0. cbn [fst snd] in *. destruct (q_pop (R := D) g b s) as [x s'] eqn:PO.
    assert (RG : fst q = rg) by (unfold q0 in Q0; congruence). assert (IS : dinv s F) by (unfold q0 in Q0; injection Q0 as _ <-; exact I).
    pose proof (dinv_drop s F (QPop b) (AItem x) s' IS FU Logic.I) as X. unfold q_exec, ans1 in X. rewrite PO in X. specialize (X eq_refl). cbn [q_gone] in X. rewrite RG in *.
    destruct x as [[d|]|e].
    + injection E as <- <-. cbn [is_gone b_gone] in *. destruct X as (F' & Z & I'). exists F', R. split; [apply BDPopF; auto; discriminate|split; auto].
    + cbn [is_gone] in X. destruct X as (F' & Z & I'). destruct (ring_peek rg (length b)) as [d|] eqn:PK; injection E as <- <-; cbn [b_gone is_gone].
      * destruct (peek_some _ _ _ _ RR PK) as (t & -> & L). inversion OK as [|? ? O1 O2]; subst. exists F', t. split; [eapply BDPopR; eauto|]. split; [exact I'|]. split; [apply (rep_discard _ _ RR)|]. split; [cbn [fst]; rewrite cap_discard; auto|exact O2].
      * exists F', R. split; [apply BDPopNone; auto; eapply peek_none; eauto|split; auto].
    + injection E as <- <-. cbn [b_gone]. change (is_gone (Err (A := option item) e)) with (is_gone (Err (A := unit) e)) in *. change (is_gone (Err (A := option (list N)) e)) with (is_gone (Err (A := unit) e)) in *. destruct (is_gone (Err (A := unit) e)).
      * destruct X as (a' & F' & Z & I'). exists F', R. split; [eapply GPop; eauto|split; auto].
      * destruct X as (F' & Z & I'). exists F', R. split; [apply BDPopF; auto; discriminate|split; auto].
  - unfold bq_peek in E. destruct q0 as [rg s] eqn:Q0. cbn [fst snd] in *. destruct (q_peek (R := D) g b s) as [x s'] eqn:PO.
    assert (RG : fst q = rg) by (unfold q0 in Q0; congruence). assert (IS : dinv s F) by (unfold q0 in Q0; injection Q0 as _ <-; exact I).
    pose proof (dinv_drop s F (QPeek b) (AItem x) s' IS FU Logic.I) as X. unfold q_exec, ans1 in X. rewrite PO in X. specialize (X eq_refl). cbn [q_gone] in X. rewrite RG in *.
    destruct x as [[d|]|e].
    + injection E as <- <-. cbn [is_gone b_gone] in *. destruct X as (F' & Z & I'). exists F', R. split; [apply BDPeekF; auto; discriminate|split; auto].
    + cbn [is_gone] in X. destruct X as (F' & Z & I'). injection E as <- <-. cbn [b_gone is_gone]. exists F', R. split; [|split; auto]. destruct (ring_peek rg (length b)) as [d|] eqn:PK.
      * destruct (peek_some _ _ _ _ RR PK) as (t & -> & L). eapply BDPeekR; eauto.
      * apply BDPeekNone; auto. eapply peek_none; eauto.
    + injection E as <- <-. cbn [b_gone]. change (is_gone (Err (A := option item) e)) with (is_gone (Err (A := unit) e)) in *. change (is_gone (Err (A := option (list N)) e)) with (is_gone (Err (A := unit) e)) in *. destruct (is_gone (Err (A := unit) e)).
      * destruct X as (a' & F' & Z & I'). apply peek_keeps in Z. subst F'. exists F, R. split; [apply GNothing|split; auto].
      * destruct X as (F' & Z & I'). exists F', R. split; [apply BDPeekF; auto; discriminate|split; auto].
Qed.
End At.

(** Dropped when the flash part was done. *)
Lemma drain_late_ok sl ow : forall n q F R, binv q F R -> exists F' R', bstop F R (BDrainAll sl ow) F' R' /\ binv (drain_late g n sl ow q) F' R' /\ (n = 0 -> bstop F R (BDrain sl ow) F' R').
Proof.
  induction n as [|n IH]; intros q F R B; cbn [drain_late].
  - destruct q as [rg s]. pose proof B as (I & RR & CP & OK). cbn [fst snd] in *. destruct (ring_peek rg sl) as [d|] eqn:PK.
    + destruct (peek_some _ _ _ _ RR PK) as (t & -> & L). inversion OK as [|? ? O1 O2]; subst. destruct (q_push g d ow s) as [x s'] eqn:PU. cbn [snd].
      destruct (dinv_step s F (QPush d ow) (AUnit x) s' I O1) as (F' & Z & I'); [cbn; rewrite PU; reflexivity|]. exists F', (d :: t).
      assert (Z2 : bstop F (d :: t) (BDrain sl ow) F' (d :: t)) by (eapply GDrain; eauto). split; [eapply GDrainAll; [apply DrNo|exact Z2]|]. split; [|auto]. split; [now apply dinv_mark|]. auto.
    + exists F, R. split; [apply GNothing|]. split; auto. intros _. apply GNothing.
  - destruct (bq_drain_one g sl ow q) as [x q1] eqn:D1. destruct (one_ok _ _ _ _ _ _ _ B D1) as (F1 & R1 & Z & I1). destruct x as [[|]|e].
    + destruct (IH q1 F1 R1 I1) as (F' & R' & X & I' & _). exists F', R'. split; [|split; [auto|discriminate]]. inversion X; subst.
      * eapply GDrainAll; [eapply DrOne; [exact Z|apply DrNo]|apply GNothing].
      * eapply GDrainAll; [eapply DrOne; [exact Z|eassumption]|eassumption].
    + exists F1, R1. split; [|split; [auto|discriminate]]. inversion Z; subst. apply GNothing.
    + exists F1, R1. split; [|split; [auto|discriminate]]. inversion Z as [|?|d R' ? F' ? L H]; subst. eapply GDrainAll; [apply DrNo|]. eapply GDrain; eauto.
Qed.
Lemma b_late_ok c n q F R : binv q F R -> exists F' R', bstop F R c F' R' /\ binv (b_late g c n q) F' R'.
Proof.
  intros B. destruct c as [d po|sl ow|sl ow|b|b]; cbn [b_late].
  - exists F, R. split; auto. apply GNothing.
  - destruct (drain_late_ok sl ow 0 q F R B) as (F' & R' & _ & I & X). exists F', R'. auto.
  - destruct (drain_late_ok sl ow n q F R B) as (F' & R' & X & I & _). exists F', R'. auto.
  - destruct B as (I & RR & CP & OK). destruct (q_pop g b (snd q)) as [x s'] eqn:PO. destruct (dinv_step (snd q) F (QPop b) (AItem x) s' I Logic.I) as (F' & Z & I'); [unfold q_exec, ans1; rewrite PO; reflexivity|].
    exists F', R. split; [eapply GPop; eauto|]. split; [now apply dinv_mark|auto].
  - destruct B as (I & RR & CP & OK). destruct (q_peek g b (snd q)) as [x s'] eqn:PO. destruct (dinv_step (snd q) F (QPeek b) (AItem x) s' I Logic.I) as (F' & Z & I'); [unfold q_exec, ans1; rewrite PO; reflexivity|].
    apply peek_keeps in Z. subst F'. exists F, R. split; [apply GNothing|]. split; [now apply dinv_mark|auto].
Qed.
Lemma b_drun_ok evs : forall q F R l q', binv q F R -> Forall (bdev_ok g) evs -> b_drun g cap q evs = (l, q') -> exists F' R', bdtrace F R evs l F' R' /\ binv q' F' R'.
Proof.
  induction evs as [|e evs IH]; intros q F R l q' B V E.
  - injection E as <- <-. exists F, R. split; auto. constructor.
  - inversion V as [|? ? V1 V2]; subst. destruct e as [[c p|c]|c t|c n]; cbn [b_drun bdev_ok] in *.
    + destruct (bexec g c (fst q, power (snd q) p)) as [a q1] eqn:X. destruct (b_drun g cap q1 evs) as [l1 q2] eqn:Y. injection E as <- <-.
      destruct (bexec_ok true g cap dinv dinv_step (fun s F p H _ => dinv_power s F p H) dinv_boot _ _ _ _ _ _ _ B V1 (fun H => match Bool.diff_true_false H with end) X) as (F1 & R1 & D & B1).
      destruct (IH _ _ _ _ _ B1 V2 Y) as (F' & R' & T & B'). exists F', R'. split; auto. econstructor; eauto.
    + destruct B as (I & RR & CP & OK). destruct (IH (ring_new cap, set_ca (snd q) c) F [] l q') with (2 := V2) (3 := E) as (F' & R' & T & B').
      { split; [apply dinv_boot; auto|]. split; [apply rep_new|]. split; [unfold r_cap; cbn; apply repeat_length|constructor]. }
      exists F', R'. split; auto. now constructor.
    + destruct (bexec g (R := drop_at (snd q) t) c (fst q, power (snd q) None)) as [a q1] eqn:X. destruct (b_drun g cap q1 evs) as [l1 q2] eqn:Y. injection E as <- <-.
      pose proof (bexec_drop _ _ _ _ _ _ _ B V1 X) as Z. destruct (b_gone a); destruct Z as (F1 & R1 & D & B1); destruct (IH _ _ _ _ _ B1 V2 Y) as (F' & R' & TT & B'); exists F', R'; (split; [|exact B']).
      * eapply WTDrop; eauto.
      * eapply WTDone; eauto.
    + destruct (b_drun g cap (b_late g c n (fst q, power (snd q) None)) evs) as [l1 q2] eqn:Y. injection E as <- <-.
      assert (B0 : binv (fst q, power (snd q) None) F R) by (destruct B as (I & RR & CP & OK); split; [now apply dinv_power|auto]).
      destruct (b_late_ok c n _ F R B0) as (F1 & R1 & D & B1). destruct (IH _ _ _ _ _ B1 V2 Y) as (F' & R' & TT & B'). exists F', R'. split; auto. eapply WTLate; eauto.
Qed.
End B.

(** Nothing is lost. *)
Section Flow.
Context (rw : nat -> nat) (hl pc : nat) (many : bool) (cap : nat).
Lemma bstop_keeps F R c F' R' : bstop rw hl pc many F R c F' R' -> match c with BDrain _ ow | BDrainAll _ ow => ow = false | BPop _ => False | _ => True end -> keeps F R [] [] F' R'.
Proof.
  assert (DR : forall sl F R F' R', drained rw hl pc many sl false F R F' R' -> keeps F R [] [] F' R').
  { clear. intros sl F R F' R' H. remember false as ow eqn:OW. induction H; subst; [apply keeps_same|]. eapply keeps_trans; [eapply drain1_keeps; eassumption|]. auto. }
  assert (ONE : forall sl F R F', bstop rw hl pc many F R (BDrain sl false) F' R -> keeps F R [] [] F' R).
  { clear DR. intros sl F0 R0 F1 H. inversion H as [|? ? d R1 a ? E L Q| |]; subst; [apply keeps_same|]. apply push_keeps in Q. destruct Q as [[-> _]|[-> _]]; [apply dup_keeps|apply keeps_same]. }
  intros [c0|sl ow d R1 a F1 E L H|sl ow F1 R1 F2 H1 H2|b a F1 H] C; try contradiction; try apply keeps_same; subst.
  - apply push_keeps in H. destruct H as [[-> _]|[-> _]]; [apply dup_keeps|apply keeps_same].
  - eapply keeps_trans; [eapply DR; eassumption|]. eapply ONE; eauto.
Qed.
Lemma dtrace_keeps F R evs l F' R' : bdtrace rw hl pc many cap F R evs l F' R' -> Forall wcareful evs -> Forall wends (wcalls evs l) ->
  forall P X, repeats (P ++ F ++ R) X -> repeats (P ++ flat_map wout (wcalls evs l) ++ F' ++ R') (X ++ flat_map win (wcalls evs l)).
Proof.
  assert (ST : forall c F R F1 R1 evs l F2 R2, keeps F R [] [] F1 R1 -> 
    (forall P X, repeats (P ++ F1 ++ R1) X -> repeats (P ++ flat_map wout (wcalls evs l) ++ F2 ++ R2) (X ++ flat_map win (wcalls evs l))) ->
    forall P X, repeats (P ++ F ++ R) X -> repeats (P ++ flat_map wout ((c, None) :: wcalls evs l) ++ F2 ++ R2) (X ++ flat_map win ((c, None) :: wcalls evs l))).
  { clear. intros c F R F1 R1 evs l F2 R2 K IH P X H. cbn [flat_map]. replace (win (c, None)) with (@nil item) by (now destruct c). replace (wout (c, None)) with (@nil item) by (now destruct c).
    cbn [app]. apply IH. specialize (K P X H). cbn [app] in K. now rewrite app_nil_r in K. }
  assert (CL : forall c p a F R F1 R1 evs l F2 R2, bdo rw hl pc many true cap F R c a F1 R1 -> wcareful (WCall (VCall c p)) -> wends (c, Some a) ->
    (forall P X, repeats (P ++ F1 ++ R1) X -> repeats (P ++ flat_map wout (wcalls evs l) ++ F2 ++ R2) (X ++ flat_map win (wcalls evs l))) ->
    forall P X, repeats (P ++ F ++ R) X -> repeats (P ++ flat_map wout ((c, Some a) :: wcalls evs l) ++ F2 ++ R2) (X ++ flat_map win ((c, Some a) :: wcalls evs l))).
  { clear. intros c p a F R F1 R1 evs l F2 R2 D W1 W2 IH P X H. destruct (bdo_keeps rw hl pc many cap F R c p a F1 R1 D) as (i & o & EI & EO & K).
    - destruct c as [d []| | | |]; cbn in *; auto.
    - destruct c; auto. destruct W2 as [_ W2]. congruence.
    - specialize (EI [] []). specialize (EO [] []). cbn [flat_map]. replace (win (c, Some a)) with i. 2:{ rewrite app_nil_r in EI. rewrite <- EI. destruct c; cbn; auto; destruct a as [[]| | |]; auto. }
      replace (wout (c, Some a)) with o. 2:{ rewrite app_nil_r in EO. rewrite <- EO. destruct c; cbn; auto; destruct a as [| | |[[]|]]; auto. }
      specialize (IH (P ++ o) (X ++ i)). rewrite <- !app_assoc in IH. rewrite <- !app_assoc. apply IH. apply K. exact H. }
  induction 1 as [F R|F R c p a F1 R1 evs l F2 R2 D T IH|F R c evs l F2 R2 T IH|F R c t a F1 R1 evs l F2 R2 D T IH|F R c t F1 R1 evs l F2 R2 D T IH|F R c n F1 R1 evs l F2 R2 D T IH]; intros W E.
  - intros P X H. cbn. now rewrite app_nil_r.
  - inversion W; subst. cbn [wcalls wcall] in *. inversion E; subst. eapply CL; eauto.
  - inversion W; subst. contradiction.
  - inversion W; subst. cbn [wcalls wcall] in *. inversion E; subst. eapply (CL c None); eauto.
  - inversion W as [|? ? W1 W2]; subst. cbn [wcalls wcall] in *. inversion E as [|? ? E1 E2]; subst. eapply ST; eauto. eapply bstop_keeps; eauto. destruct c; cbn in *; auto. now apply E1.
  - inversion W as [|? ? W1 W2]; subst. cbn [wcalls wcall] in *. inversion E as [|? ? E1 E2]; subst. eapply ST; eauto. eapply bstop_keeps; eauto. destruct c; cbn in *; auto. now apply E1.
Qed.
End Flow.

Theorem drop_buffered g cap f c evs l q : erased g f -> f_fuel f = None -> fresh_cache (NP g) c -> setting true g (f_ae f) (f_aw f) -> Forall (bdev_ok g) evs ->
  b_drun g cap (ring_new cap, st_new f c) evs = (l, q) ->
  exists F R, bdtrace (rup g) (HL g) (page_cap g) (2 <=? NP g) cap [] [] evs l F R /\ q_holds g (snd q) F /\ ram_holds (fst q) R /\
    (Forall wcareful evs -> Forall wends (wcalls evs l) -> repeats (flat_map wout (wcalls evs l) ++ F ++ R) (flat_map win (wcalls evs l))).
Proof.
  intros ER FU FC ST EV E. pose proof (setting_single _ _ _ _ ST) as SG. pose proof ST as [gok _]. cbn [negb] in SG.
  pose proof (qst_new g gok false (f_ae f) (f_aw f) f c ER eq_refl eq_refl (fun _ => FU) FC) as Q0.
  destruct (b_drun_ok g _ _ ST cap evs (ring_new cap, st_new f c) [] [] l q) as (F & R & T & B); auto.
  { split; [eexists; split; [exact Q0|reflexivity]|]. split; [apply rep_new|]. split; [unfold r_cap; cbn; apply repeat_length|constructor]. }
  destruct B as (I & RR & _). exists F, R. split; [exact T|]. split; [eapply dinv_holds; eauto|]. split; [now apply ram_rep|]. intros W N.
  exact (dtrace_keeps _ _ _ _ _ [] [] evs l F R T W N [] [] (RpNil)).
Qed.
