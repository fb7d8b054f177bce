(** The claims about the queue, in terms of calls and answers. *)
From Coq Require Import List NArith ZArith Arith Bool Lia ZifyBool ZifyNat ZifyN.
From Verif Require Import Base BaseP Crc CrcP Flash Cache State Item Generic Queue GeomP ScanP WpP ItemP CalcP PageP WorldP LayP QPushP QRepP QIterP QNextP QStepP QMiscP QCallP QHistP Client QSpec QObs.
Import ListNotations.
Local Opaque crc16 acrc crc32.

(** With power, no call is cut. *)
Lemma run_none g ops : forall f f', f_fuel f = None -> run g f ops = (Some SShutoff, f') -> False.
Proof.
  induction ops as [|o ops IH]; intros f f' F H; cbn [run] in H; [discriminate|].
  destruct (run1 g f o) as [[e|] f1] eqn:R.
  - injection H as -> ->. destruct o; cbn [run1] in R.
    + unfold dev_write, spend in R. rewrite F in R. unfold chk in R. repeat (destruct (_ : bool) in R; try discriminate).
    + unfold dev_erase, spend in R. rewrite F in R. unfold chk in R. repeat (destruct (_ : bool) in R; try discriminate).
  - eapply IH; [|exact H]. destruct o; cbn [run1] in R.
    + unfold dev_write, spend in R. rewrite F in R. destruct (chk _ _ _ _); [discriminate|]. now injection R as <-.
    + unfold dev_erase, spend in R. rewrite F in R. destruct (chk _ _ _ _); [discriminate|]. now injection R as <-.
Qed.

(** Complete iterations. *)
Lemma isteps_all rw hl pc pf b : pc <= length b + hl -> forall rm bf rs q, isteps rw hl pc pf bf rm (repeat (b, false) (length rs)) rs q ->
  q = bf ++ rm /\ rs = map (fun d => Ok (Some d)) (firstn (length rs) rm) ++ repeat (Ok None) (length rs - length rm).
Proof.
  intros LB rm bf rs. revert rm bf. induction rs as [|r rs IH]; intros rm bf q H; cbn [length repeat] in H.
  - inversion H; subst. cbn. auto.
  - inversion H as [|? ? ? ? ? ? bf' rm' ? IS H']; subst. apply IH in H'. destruct H' as [-> E]. inversion IS; subst; cbn [length firstn map app].
    + split; [now rewrite <- app_assoc|]. cbn [Nat.sub]. now rewrite E at 1.
    + split; auto. cbn [Nat.sub repeat]. f_equal. rewrite E at 1. rewrite firstn_nil. cbn. now rewrite Nat.sub_0_r.
    + match goal with X : short _ _ _ _ _ _ _ |- _ => destruct X as (X1 & X2 & _) end. lia.
Qed.
Lemma isteps_len rw hl pc pf sc : forall bf rm rs q, isteps rw hl pc pf bf rm sc rs q -> length rs = length sc.
Proof. induction sc as [|x sc IH]; intros bf rm rs q H; inversion H; subst; cbn; auto. f_equal. eauto. Qed.

Lemma qdo_iter rw hl pc many pf q sc rs q' : qdo rw hl pc many pf q (QIter sc) (AIter (Ok rs)) q' -> isteps rw hl pc pf [] q sc rs q'.
Proof. intros D. now inversion D. Qed.

Section Props.
Context (g : geom) (gok : geom_ok g) (ws ae : bool) (aw : nat) (SG : single_ok g ws ae).
Notation W := (W g).
Notation HL := (HL g).
Notation rup := (rup g).
Notation NP := (NP g).
Notation st := (st unit).
Implicit Types (s : st) (pg : nat -> page) (Y : lay).
Notation qst := (qst g ws ae aw).
Notation qdo := (qdo rup HL (cap g) (2 <=? NP) (negb ws)).

Lemma does_ok Y s c a s' : qst Y s -> call_ok g ws aw c -> q_does g s c a s' ->
  a = fst (fst (yact g c Y)) /\ qst (snd (yact g c Y)) s' /\ qdo (content Y) c a (content (snd (yact g c Y))) /\
  run g (s_fl (power s None)) (snd (fst (yact g c Y))) = (None, s_fl s').
Proof.
  intros (pg & LY & QI & SW) CO E.
  pose proof (call_spec g gok ws ae aw c Y pg _ a s' LY QI (sworld_power g ws ae aw pg s None (fun _ => eq_refl) SW) SG CO E) as C.
  destruct C as [(A & pg' & L1 & Q1 & W1 & D)|(_ & Yc & pg' & _ & _ & C1 & _)].
  - split; auto. split; [|split; auto]. { exists pg'. split; auto. split; auto. eapply world_sworld; eauto. } apply W1.
  - exfalso. destruct C1 as (R & _). eapply run_none; [|exact R]. reflexivity.
Qed.

Lemma yact_iter sc Y : exists rs, fst (fst (yact g (QIter sc) Y)) = AIter (Ok rs).
Proof. cbn [yact]. destruct (yscript _ _ _ _ _ _) as [[rs o] Y']. now exists rs. Qed.
Lemma holds_of Y s : qst Y s -> q_holds g s (content Y).
Proof.
  intros QS b LB. unfold q_does. remember (repeat (b, false) (S (length (content Y)))) as sc eqn:ESC. destruct (q_exec g (QIter sc) (power s None)) as [a s'] eqn:E. exists s'.
  pose proof (does_ok Y s (QIter sc) a s' QS I E) as (A & _ & D & R). destruct (yact_iter sc Y) as (rs & A2). rewrite A2 in A. subst a.
  apply qdo_iter in D. pose proof (isteps_len _ _ _ _ _ _ _ _ _ D) as LR. rewrite ESC, repeat_length in LR. rewrite ESC, <- LR in D.
  apply isteps_all in D; [|rewrite LB; unfold cap; lia]. destruct D as [_ D]. match goal with |- ?x = _ => change x with (q_exec g (QIter (repeat (b, false) (S (length (content Y))))) (power s None)) end. rewrite <- ESC, E, D, LR. f_equal. f_equal. f_equal. f_equal.
  - rewrite firstn_all2 by (unfold item in *; lia). reflexivity.
  - match goal with |- repeat _ ?n = _ => replace n with 1 by (unfold item in *; lia) end. reflexivity.
Qed.
Lemma shows_eq Y s b q s' : qst Y s -> length b = ES g ->
  q_does g s (QIter (repeat (b, false) (S (length q)))) (AIter (Ok (map (fun d => Ok (Some d)) q ++ [Ok None]))) s' -> q = content Y.
Proof.
  intros QS LB E. remember (repeat (b, false) (S (length q))) as sc eqn:ESC.
  pose proof (does_ok Y s (QIter sc) _ s' QS I E) as (_ & _ & D & _).
  apply qdo_iter in D. pose proof (isteps_len _ _ _ _ _ _ _ _ _ D) as LR. rewrite ESC, repeat_length in LR. rewrite ESC, <- LR in D.
  apply isteps_all in D; [|rewrite LB; unfold cap; lia]. destruct D as [_ E2]. rewrite LR in E2. unfold item in *.
  assert (INJ : forall a b : list (list N), map (fun d => @Ok (option (list N)) (Some d)) a = map (fun d => Ok (Some d)) b -> a = b).
  { induction a as [|x a IH]; intros [|y b0]; try discriminate; auto. cbn. intros [= -> X]. f_equal. auto. }
  destruct (Nat.le_gt_cases (length (content Y)) (length q)) as [C|C].
  - rewrite firstn_all2 in E2 by lia. replace (S (length q) - length (content Y)) with (S (length q - length (content Y))) in E2 by lia.
    assert (E3 : S (length q - length (content Y)) = (length q - length (content Y)) + 1) by lia. rewrite E3, repeat_app, app_assoc in E2. cbn [repeat] in E2.
    apply app_inj_tail in E2. destruct E2 as [E2 _]. destruct (length q - length (content Y)) as [|k] eqn:K.
    + cbn in E2. rewrite app_nil_r in E2. now apply INJ.
    + exfalso. assert (X : In (@Ok (option (list N)) None) (map (fun d => Ok (Some d)) q)) by (rewrite E2; apply in_app_iff; right; now left).
      apply in_map_iff in X. destruct X as (x & X & _). discriminate.
  - exfalso. replace (S (length q) - length (content Y)) with 0 in E2 by lia. cbn [repeat] in E2. rewrite app_nil_r in E2.
    assert (X : In (@Ok (option (list N)) None) (map (fun d => Ok (Some d)) (firstn (S (length q)) (content Y)))) by (rewrite <- E2; apply in_app_iff; right; now left).
    apply in_map_iff in X. destruct X as (x & X & _). discriminate.
Qed.
Lemma holds_eq Y s q : qst Y s -> q_holds g s q -> q = content Y.
Proof. intros QS H. destruct (H (repeat 0%N (ES g)) (repeat_length _ _)) as (s' & E). eapply shows_eq; eauto. apply repeat_length. Qed.
End Props.

(** From the definitions of QObs to those of the proofs. *)
Lemma cap_is g : page_cap g = cap g. Proof. reflexivity. Qed.
Lemma collision_is d : no_collision d -> torn_safe d. Proof. auto. Qed.
Lemma setting_single pf g ae aw : setting pf g ae aw -> single_ok g (negb pf) ae.
Proof. intros [_ H]. unfold single_ok. destruct pf; [right; apply H; auto|now left]. Qed.
Lemma setting_call pf g ae aw c : setting pf g ae aw -> match c with QPush d _ => item_ok pf d | _ => True end -> call_ok g (negb pf) aw c.
Proof.
  intros [_ H]. destruct c as [d ow| | | | |]; cbn [call_ok]; auto. intros [B N]. split; [exact B|]. unfold tear_ok. destruct pf; [right|now left]. split; [now apply N|]. now apply H.
Qed.
Lemma setting_ev pf g ae aw e : setting pf g ae aw -> qev_ok pf g e -> ev_ok g (negb pf) aw e.
Proof.
  intros S. destruct e as [c p|c]; cbn [ev_ok qev_ok]; auto. intros [P C]. split; [eapply setting_call; eauto|]. intros X. apply P. now destruct pf.
Qed.

Definition callable (pf : bool) (c : qcall) : Prop := match c with QPush d _ => item_ok pf d | _ => True end.

Lemma reached_qst pf g evs l s : q_reached pf g evs l s -> exists ae aw Y, setting pf g ae aw /\ qst g (negb pf) ae aw Y s /\
  qtrace (rup g) (HL g) (page_cap g) (2 <=? NP g) pf [] evs l (content Y).
Proof.
  intros (f & c & ER & FU & _ & FC & ST & EV & E). exists (f_ae f), (f_aw f).
  pose proof (setting_single _ _ _ _ ST) as SG. pose proof ST as [gok _].
  pose proof (qst_new g gok (negb pf) (f_ae f) (f_aw f) f c ER eq_refl eq_refl (fun _ => FU) FC) as Q0.
  assert (EV' : Forall (ev_ok g (negb pf) (f_aw f)) evs) by (eapply Forall_impl; [|exact EV]; intros; eapply setting_ev; eauto).
  destruct (hist_ok g gok (negb pf) (f_ae f) (f_aw f) SG evs _ _ _ _ Q0 EV' E) as (Y & QS & T). exists Y. rewrite negb_involutive in T. auto.
Qed.

Lemma reached_does pf g evs l s q c a s' : q_reached pf g evs l s -> q_holds g s q -> callable pf c -> q_does g s c a s' ->
  exists q', qdo (rup g) (HL g) (page_cap g) (2 <=? NP g) pf q c a q' /\ q_holds g s' q'.
Proof.
  intros R H C E. destruct (reached_qst _ _ _ _ _ R) as (ae & aw & Y & ST & QS & _). pose proof (setting_single _ _ _ _ ST) as SG. pose proof ST as [gok _].
  rewrite (holds_eq g gok (negb pf) ae aw SG Y s q QS H).
  destruct (does_ok g gok (negb pf) ae aw SG Y s c a s' QS (setting_call _ _ _ _ _ ST C) E) as (_ & QS' & D & _).
  rewrite negb_involutive in D. exists (content (snd (yact g c Y))). split; auto. eapply holds_of; eauto.
Qed.

Lemma q_shows pf g evs l s b q : q_reached pf g evs l s -> length b = ES g ->
  fst (q_exec g (QIter (repeat (b, false) (S (length q)))) (power s None)) = AIter (Ok (map (fun d => Ok (Some d)) q ++ [Ok None])) -> q_holds g s q.
Proof.
  intros R LB E. destruct (reached_qst _ _ _ _ _ R) as (ae & aw & Y & ST & QS & _). pose proof (setting_single _ _ _ _ ST) as SG. pose proof ST as [gok _].
  destruct (q_exec g _ (power s None)) as [a s'] eqn:X in E. cbn [fst] in E. subst a. rewrite (shows_eq g gok _ ae aw SG Y s b q s' QS LB X). eapply holds_of; eauto.
Qed.

(** C01, C05: every history. *)
Lemma q_history pf g evs l s : q_reached pf g evs l s -> exists q, qtrace (rup g) (HL g) (page_cap g) (2 <=? NP g) pf [] evs l q /\ q_holds g s q.
Proof.
  intros R. destruct (reached_qst _ _ _ _ _ R) as (ae & aw & Y & ST & QS & T). pose proof (setting_single _ _ _ _ ST) as SG. pose proof ST as [gok _].
  exists (content Y). split; auto. eapply holds_of; eauto.
Qed.
Lemma q_holds_unique pf g evs l s q q' : q_reached pf g evs l s -> q_holds g s q -> q_holds g s q' -> q = q'.
Proof.
  intros R H1 H2. destruct (reached_qst _ _ _ _ _ R) as (ae & aw & Y & ST & QS & _). pose proof (setting_single _ _ _ _ ST) as SG. pose proof ST as [gok _].
  rewrite (holds_eq g gok _ _ _ SG Y s q QS H1), (holds_eq g gok _ _ _ SG Y s q' QS H2). auto.
Qed.

Lemma push_uncut pf g evs l s d ow s' : q_reached pf g evs l s -> item_ok pf d -> ~ q_does g s (QPush d ow) (AUnit (Err cut)) s'.
Proof.
  intros R I E. destruct (reached_qst _ _ _ _ _ R) as (ae & aw & Y & ST & QS & _). pose proof (setting_single _ _ _ _ ST) as SG. pose proof ST as [gok _].
  destruct (does_ok g gok _ ae aw SG Y s _ _ s' QS (setting_call _ _ _ _ (QPush d ow) ST I) E) as (A & QS' & _).
  cbn [yact] in A. destruct QS as (pg & LY & QI & SW). pose proof (qpush_spec g gok aw Y d ow pg LY QI (ycap_sw g gok (negb pf) ae aw _ _ _ LY SW)) as SP.
  rewrite (isyoung_ext g gok _ _ (pgof_ok g gok Y pg LY)) in SP. destruct (qpush _ _ _ _ _) as [[r o] Y']. cbn [fst] in A. injection A as <-. exact SP.
Qed.

(** C02 *)
Definition too_long (g : geom) (d : list N) : Prop := page_cap g - HL g < length d \/ (65535 < N.of_nat (length d))%N.
Lemma q_refused pf g evs l s q d ow e s' : q_reached pf g evs l s -> q_holds g s q -> item_ok pf d ->
  q_does g s (QPush d ow) (AUnit (Err e)) s' -> q_holds g s' q /\ (e = EItemTooBig \/ e = EFull /\ ow = false).
Proof.
  intros R H I E. destruct (reached_does _ _ _ _ _ _ (QPush d ow) _ _ R H I E) as (q' & D & H'). inversion D; subst; auto.
  exfalso. eapply push_uncut; eauto.
Qed.
Lemma q_too_big pf g evs l s d ow r s' : q_reached pf g evs l s -> item_ok pf d ->
  q_does g s (QPush d ow) (AUnit r) s' -> (r = Err EItemTooBig <-> too_long g d).
Proof.
  intros R I E. destruct (q_history _ _ _ _ _ R) as (q & _ & H). destruct (reached_does _ _ _ _ _ _ (QPush d ow) _ _ R H I E) as (q' & D & H').
  assert (X : forall d, big (HL g) (page_cap g) d <-> too_long g d) by (intros; unfold big, mx, too_long; tauto).
  inversion D as [? B|? ? ? B| ? B|? ? B| | | | | | |? ? ? ? ? PF ? ? ? ?| | | | |]; subst; rewrite <- X; try (split; [discriminate|intros; contradiction]); [split; auto|].
  exfalso. eapply push_uncut; eauto.
Qed.

(** C03 *)
Section Push.
Context (g : geom) (gok : geom_ok g) (ws ae : bool) (aw : nat).
Notation HL := (HL g).
Notation rup := (rup g).
Notation NP := (NP g).
Implicit Types (pg : nat -> page) (Y : lay).

Lemma ypush_ow yg Y d o Y' : ypush g yg Y d false = (Ok tt, o, Y') -> ypush g yg Y d true = (Ok tt, o, Y').
Proof.
  unfold ypush. destruct (too_big _ _); [auto|]. destruct (negb yg); [auto|]. destruct (fitsb _ _ _); auto. destruct (1 <=? _); auto.
  destruct (_ =? 1); auto. destruct (y_cl _); [discriminate|]. cbn [orb]. destruct (emptyish _); auto. discriminate.
Qed.
Lemma ypush_corr yg Y d o Y' : ypush g yg Y d false = (Err ECorrupted, o, Y') -> ypush g yg Y d true = (Err ECorrupted, o, Y').
Proof.
  unfold ypush. destruct (too_big _ _); [auto|]. destruct (negb yg); [auto|]. destruct (fitsb _ _ _); auto. destruct (1 <=? _); auto.
  destruct (_ =? 1); auto. destruct (y_cl _); [discriminate|]. cbn [orb]. destruct (emptyish _); auto; discriminate.
Qed.
Lemma qpush_ow yg Y d o Y' : qpush g yg Y d false = (Ok tt, o, Y') -> qpush g yg Y d true = (Ok tt, o, Y').
Proof.
  unfold qpush. destruct (ypush g yg Y d false) as [[[[]|e] o1] Y1] eqn:E.
  - intros [= -> ->]. now rewrite (ypush_ow _ _ _ _ _ E).
  - destruct e; try discriminate. rewrite (ypush_corr _ _ _ _ _ E). destruct (ypush g true (yrep Y1) d false) as [[r o2] Y2] eqn:E2. intros [= -> <- <-].
    now rewrite (ypush_ow _ _ _ _ _ E2).
Qed.

(** The page after the youngest one. *)
Lemma lay_next Y pg : layok NP Y pg -> qinv Y -> pg (next_page g (y_cur g Y)) =
  if 1 <=? y_k (y_start Y) then POpen else if y_bad Y =? 1 then PBad else match y_cl Y with o :: _ => PClosed o | [] => pg (y_cur g Y) end.
Proof.
  intros LY (QI & _). destruct Y as [f cl pt k bad]. unfold y_cur, y_c. cbn [y_f y_cl y_bad y_pt] in *. destruct (lay_len NP _ _ _ _ _ _ LY) as (Hf & LN & HB).
  pose proof (npos g gok). rewrite (nxt_mod g gok). rewrite <- Nat.add_assoc.
  assert (PK : length cl + length (ptl pt) + k = length cl + 1 + y_k (y_start (mklay f cl pt k bad))).
  { unfold y_start. destruct pt; cbn [y_pt y_k ptl length]; [lia|]. specialize (QI eq_refl). cbn [y_k] in QI. lia. }
  remember (y_k (y_start (mklay f cl pt k bad))) as k1. destruct (Nat.leb_spec 1 k1) as [K|K].
  - pose proof (lay_at_open NP (npos g gok) f cl pt k bad pg) as A. specialize (A (length cl + 1 - (length cl + length (ptl pt))) LY). rewrite <- A at 1 by (destruct pt; cbn [ptl length] in *; lia). f_equal. f_equal. f_equal.
    destruct pt; cbn [ptl length] in *; lia.
  - destruct (Nat.eqb_spec bad 1) as [->|B].
    + rewrite <- (lay_at_bad NP (npos g gok) f cl pt k pg LY). f_equal. f_equal. lia.
    + destruct cl as [|o cl].
      * cbn [length] in *. f_equal. rewrite Nat.add_0_r. cbn [Nat.add] in *. assert (NP = 1) as -> by lia. now rewrite !Nat.mod_1_r.
      * rewrite <- (lay_at_cl NP f [] o cl pt k bad pg LY). f_equal. cbn [length] in *. replace (f + (S (length cl) + 1)) with (f + 0 + 1 * NP) by lia. now rewrite Nat.mod_add by lia.
Qed.

Lemma fit_iff sl n : fitsb g sl n = true <-> HL <= cap g - sizes g sl /\ n <= cap g - sizes g sl - HL.
Proof.
  unfold fitsb. rewrite Nat.leb_le. pose proof (rup_ge g gok n). pose proof (ES_big g gok). pose proof (HL_ge g gok). split; [lia|]. intros [A B].
  assert (rup n <= cap g - sizes g sl - HL); [|lia]. apply (rup_min g gok); auto. apply al_sub; auto; [|now apply al_HL].
  apply al_sub; auto; [|now apply sizes_al]. unfold cap. apply al_sub; auto with al. replace (2 * W g) with (W g + W g) by lia. auto with al.
Qed.

Lemma push_fit Y pg m d r o Y' : layok NP Y pg -> qinv Y -> mfit g pg = Ok m -> qpush g (isyoung g pg) Y d false = (r, o, Y') ->
  (r = Ok tt <-> (exists n, m = Some n /\ length d <= n) /\ ~ big HL (cap g) d).
Proof.
  intros LY QI M P. pose proof (lay_next _ _ LY QI) as LX. pose proof (lay_cur g gok _ _ LY QI) as LC. change ((y_f Y + y_c Y) mod NP) with (y_cur g Y) in LC.
  unfold mfit in M. unfold isyoung in P. destruct (young g pg) as [cur|] eqn:YG; [|discriminate].
  assert (cur = y_cur g Y) as ->.
  { destruct (young_ok g gok Y pg LY QI) as [X|[X _]]; rewrite X in YG; [now injection YG|discriminate]. }
  rewrite LX in M. unfold qpush in P. unfold ypush at 1 in P. cbn [negb] in P.
  pose proof (big_ok g d) as BO. destruct (too_big g (length d)) eqn:TB.
  { injection P as <- <- <-. split; [discriminate|]. intros [_ B]. exfalso. apply B. now apply BO. }
  assert (NB : ~ big HL (cap g) d) by (rewrite <- BO; discriminate).
  destruct (too_big_fits g gok d TB) as [FE _]. apply fit_iff in FE. change (sizes g []) with 0 in FE.
  assert (SL : y_sl (y_start Y) = slots_of (pg (y_cur g Y))) by (rewrite LC; unfold y_sl, y_start; destruct (y_pt Y) eqn:EP; rewrite ?EP; reflexivity).
  assert (CL : y_cl (y_start Y) = y_cl Y /\ y_bad (y_start Y) = y_bad Y) by (unfold y_start; destruct (y_pt Y); auto). destruct CL as [CL BD].
  rewrite SL, CL, BD in P. destruct (1 <=? y_k (y_start Y)) eqn:K.
  - cbn [st_of] in M. injection M as <-. destruct (fitsb _ _ _); injection P as <- <- <-; (split; auto; intros _; split; auto; exists (cap g); split; auto; lia).
  - destruct (y_bad Y =? 1) eqn:B1; [cbn [st_of] in M; discriminate|]. destruct (y_cl Y) as [|oo cl'].
    + (* the only page *) rewrite LC in M, P. destruct (y_pt Y) as [sl|]; cbn [st_of] in M; [discriminate|]. injection M as <-.
      cbn [slots_of] in P. assert (F : fitsb g [] (length d) = true) by (apply fit_iff; exact FE). rewrite F in P. injection P as <- <- <-.
      split; auto. intros _. split; auto. exists (cap g). split; auto; lia.
    + cbn [st_of slots_of] in M. cbn [orb] in P. destruct (emptyish oo) eqn:EO.
      * injection M as <-. destruct (fitsb _ _ _); injection P as <- <- <-; (split; auto; intros _; split; auto; exists (cap g); split; auto; lia).
      * injection M as <-. unfold availb. pose proof (fit_iff (slots_of (pg (y_cur g Y))) (length d)) as FI.
        destruct (fitsb _ _ _); injection P as <- <- <-.
        -- destruct (proj1 FI eq_refl) as [F1 F2]. apply Nat.leb_le in F1. rewrite F1. split; auto. intros _. split; auto. eauto.
        -- split; [discriminate|]. intros [(n & E & LE) _]. exfalso. destruct (Nat.leb_spec HL (cap g - sizes g (slots_of (pg (y_cur g Y))))); [|discriminate].
           injection E as <-. assert (false = true); [|discriminate]. now apply FI.
Qed.
End Push.

Section Space.
Context (g : geom) (gok : geom_ok g).
Notation HL := (HL g).
Notation rup := (rup g).
Notation NP := (NP g).
Implicit Types (pg : nat -> page) (Y : lay).

Lemma get_pages_len a : length (get_pages g a) = NP.
Proof. unfold get_pages. now rewrite map_length, seq_length. Qed.
Lemma sum_in l x : In x l -> x <= list_sum l.
Proof. induction l as [|y l IH]; intros H; [destruct H|]. change (list_sum (y :: l)) with (y + list_sum l). destruct H as [->|H]; [lia|]. apply IH in H. lia. Qed.
Lemma spaces_ge pg p n : p < NP -> yspc g pg = Ok n -> spc g (pg p) <= n /\ pg p <> PBad.
Proof.
  intros Hp. pose proof (in_get_pages g 0 p (npos g gok) Hp) as I. unfold yspc. destruct (nobad g pg) eqn:NB; [|discriminate]. intros [= <-]. split.
  - apply sum_in. apply in_map_iff. eauto.
  - intros E. unfold nobad in NB. rewrite forallb_forall in NB. specialize (NB p I). rewrite E in NB. discriminate.
Qed.
Lemma push_space Y pg n d o Y' : layok NP Y pg -> qinv Y -> yspc g pg = Ok n -> qpush g (isyoung g pg) Y d false = (Ok tt, o, Y') ->
  HL + rup (length d) <= n.
Proof.
  intros LY QI S P. pose proof (lay_next g gok _ _ LY QI) as LX. pose proof (lay_cur g gok _ _ LY QI) as LC. change ((y_f Y + y_c Y) mod NP) with (y_cur g Y) in LC.
  assert (IY : isyoung g pg = true).
  { unfold isyoung. destruct (young_ok g gok Y pg LY QI) as [X|[X B]]; rewrite X; auto. exfalso.
    destruct Y as [f cl pt k bad]. cbn [y_bad] in B. subst bad. apply (proj2 (spaces_ge pg ((f + (NP - 1)) mod NP) n (mod_lt g gok _) S)).
    apply (lay_at_bad NP (npos g gok) f cl pt k pg LY). }
  rewrite IY in P. unfold qpush in P. unfold ypush at 1 in P. cbn [negb] in P.
  destruct (too_big g (length d)) eqn:TB; [discriminate|]. destruct (too_big_fits g gok d TB) as [FE _].
  assert (CE : HL + rup (length d) <= cap g) by (unfold fitsb in FE; change (sizes g []) with 0 in FE; lia).
  assert (SL : y_sl (y_start Y) = slots_of (pg (y_cur g Y))) by (rewrite LC; unfold y_sl, y_start; destruct (y_pt Y) eqn:EP; rewrite ?EP; reflexivity).
  assert (CL : y_cl (y_start Y) = y_cl Y /\ y_bad (y_start Y) = y_bad Y) by (unfold y_start; destruct (y_pt Y); auto). destruct CL as [CL BD].
  rewrite SL, CL, BD in P. destruct (spaces_ge pg (y_cur g Y) n (mod_lt g gok _) S) as [S1 _].
  destruct (spaces_ge pg (next_page g (y_cur g Y)) n) as [S2 N2]; auto. { unfold y_cur. rewrite (nxt_mod g gok). apply mod_lt; auto. }
  destruct (fitsb g _ _) eqn:FI.
  - unfold fitsb in FI. rewrite LC in S1, FI. destruct (y_pt Y) as [sl|]; cbn [spc slots_of] in *; [|lia]. apply Nat.leb_le in FI.
    destruct (Nat.leb_spec HL (cap g - sizes g sl)); lia.
  - rewrite LX in S2, N2. destruct (1 <=? y_k (y_start Y)); [cbn [spc] in S2; lia|]. destruct (y_bad Y =? 1); [congruence|].
    destruct (y_cl Y) as [|oo cl']; [discriminate|]. cbn [spc orb] in *. destruct (emptyish oo); [lia|discriminate].
Qed.
Lemma sum_le c l : Forall (fun x => x <= c) l -> list_sum l <= length l * c.
Proof. induction 1; cbn [length]; [cbn; lia|]. change (list_sum (x :: l)) with (x + list_sum l). lia. Qed.
Lemma spc_le x : spc g x <= cap g.
Proof. destruct x; cbn [spc]; try lia; repeat destruct (emptyish _); repeat destruct (_ <=? _); lia. Qed.
Lemma space_le pg n : yspc g pg = Ok n -> n <= NP * cap g.
Proof.
  unfold yspc. destruct (nobad g pg); [|discriminate]. intros [= <-]. unfold spaces. rewrite <- (get_pages_len 0) at 1. rewrite <- (map_length (fun p => spc g (pg p)) (get_pages g 0)).
  apply sum_le. apply Forall_forall. intros x X. apply in_map_iff in X. destruct X as (p & <- & _). apply spc_le.
Qed.
Lemma space_all pg : (forall p, p < NP -> pg p = POpen) -> yspc g pg = Ok (NP * cap g).
Proof.
  intros A. assert (B : forall p, In p (get_pages g 0) -> pg p = POpen) by (intros p I; apply A; eapply gp_lt; eauto).
  unfold yspc. assert (nobad g pg = true) as ->. { apply forallb_forall. intros p I. now rewrite B. }
  f_equal. unfold spaces. rewrite <- (get_pages_len 0) at 1. revert B. generalize (get_pages g 0). induction l as [|p l IH]; intros B; [reflexivity|]. cbn [map length].
  change (list_sum ?x) with (list_sum x). unfold list_sum in *. cbn [fold_right]. rewrite IH by (intros; apply B; now right). rewrite B by now left. cbn [spc]. lia.
Qed.
End Space.

(** C03 *)
Lemma q_over pf g evs l s q d r s' : q_reached pf g evs l s -> q_holds g s q -> item_ok pf d -> q_does g s (QPush d true) (AUnit r) s' ->
  (r = Err EItemTooBig /\ too_long g d /\ q_holds g s' q) \/
  (r = Ok tt /\ exists dr q1, q = dr ++ q1 /\ wt (rup g) (HL g) dr <= page_cap g /\ q_holds g s' (q1 ++ [d])).
Proof.
  intros R H I E. destruct (reached_does _ _ _ _ _ _ (QPush d true) _ _ R H I E) as (q' & D & H').
  inversion D as [|? dr q1 NB EQ LW| |? ? B| | | | | | |? ? ? ? ? PF ? ? ? ?| | | | |]; subst.
  - right. split; auto. eauto.
  - left. split; auto.
  - exfalso. eapply push_uncut; eauto.
Qed.
Lemma q_append pf g evs l s q d s' : q_reached pf g evs l s -> q_holds g s q -> item_ok pf d -> q_does g s (QPush d false) (AUnit (Ok tt)) s' -> q_holds g s' (q ++ [d]).
Proof.
  intros R H I E. destruct (reached_does _ _ _ _ _ _ (QPush d false) _ _ R H I E) as (q' & D & H'). now inversion D; subst.
Qed.
Lemma q_over_same pf g evs l s d s1 a s2 : q_reached pf g evs l s -> item_ok pf d ->
  q_does g s (QPush d false) (AUnit (Ok tt)) s1 -> q_does g s (QPush d true) a s2 -> a = AUnit (Ok tt) /\ s_fl s2 = s_fl s1.
Proof.
  intros R I E1 E2. destruct (reached_qst _ _ _ _ _ R) as (ae & aw & Y & ST & QS & _). pose proof (setting_single _ _ _ _ ST) as SG. pose proof ST as [gok _].
  destruct (does_ok g gok _ ae aw SG Y s _ _ _ QS (setting_call _ _ _ _ (QPush d false) ST I) E1) as (A1 & _ & _ & R1).
  destruct (does_ok g gok _ ae aw SG Y s _ _ _ QS (setting_call _ _ _ _ (QPush d true) ST I) E2) as (A2 & _ & _ & R2).
  cbn [yact] in *. pose proof (qpush_ow g (isyoung g (pgof g Y)) Y d) as OW. destruct (qpush g _ Y d false) as [[r1 o1] Y1]. cbn [fst snd] in A1, R1. injection A1 as <-.
  rewrite (OW _ _ eq_refl) in A2, R2. cbn [fst snd] in A2, R2. split; auto. rewrite R1 in R2. now injection R2.
Qed.

(** C04 *)
Lemma isteps_sel rw hl pc pf b : pc <= length b + hl -> forall sel rm bf rs q, length sel = length rm -> isteps rw hl pc pf bf rm (map (fun x => (b, x)) sel) rs q ->
  rs = map (fun d => Ok (Some d)) rm /\ q = bf ++ map fst (filter (fun x => negb (snd x)) (combine rm sel)).
Proof.
  intros LB. induction sel as [|x sel IH]; intros rm bf rs q L H; destruct rm as [|d rm]; try discriminate; cbn [map] in H.
  - inversion H; subst. cbn. auto.
  - inversion H as [|? ? ? ? ? rs' bf' rm' ? IS H']; subst. inversion IS as [? d' t ED ?|? d' t ED ?|? ED|? ? n SH]; subst.
    + injection ED as <- <-. apply IH in H'; [|now injection L]. destruct H' as [-> ->]. cbn [combine filter negb snd map fst]. rewrite <- app_assoc. auto.
    + injection ED as <- <-. apply IH in H'; [|now injection L]. destruct H' as [-> ->]. cbn [combine filter negb snd map fst]. auto.
    + discriminate.
    + destruct SH as (X1 & X2 & _). lia.
Qed.
Lemma q_select pf g evs l s q b sel a s' : q_reached pf g evs l s -> q_holds g s q -> length b = ES g -> length sel = length q ->
  q_does g s (QIter (map (fun x => (b, x)) sel)) a s' ->
  a = AIter (Ok (map (fun d => Ok (Some d)) q)) /\ q_holds g s' (map fst (filter (fun x => negb (snd x)) (combine q sel))).
Proof.
  intros R H LB LS E. destruct (reached_does _ _ _ _ _ _ (QIter (map (fun x => (b, x)) sel)) _ _ R H I E) as (q' & D & H').
  destruct (reached_qst _ _ _ _ _ R) as (ae & aw & Y & ST & QS & _). pose proof (setting_single _ _ _ _ ST) as SG. pose proof ST as [gok _].
  destruct (does_ok g gok _ ae aw SG Y s (QIter _) _ _ QS I E) as (A & _). destruct (yact_iter g (map (fun x => (b, x)) sel) Y) as (rs & A2). rewrite A2 in A. subst a.
  apply qdo_iter in D. apply isteps_sel in D; auto; [|rewrite LB; unfold page_cap; lia]. destruct D as [-> ->]. auto.
Qed.

(** C05 *)
Lemma reached_snoc pf g evs l s c p a s' ca : q_reached pf g evs l s -> callable pf c -> (pf = false -> p = None) -> fresh_cache (NP g) ca ->
  q_exec g c (power s p) = (a, s') -> q_reached pf g (evs ++ [ECall c p; EBoot ca]) (l ++ [a]) (set_ca s' ca) /\ q_reached pf g (evs ++ [ECall c p]) (l ++ [a]) s'.
Proof.
  intros (f & c0 & ER & FU & FE & FC & ST & EV & E) CO PO FA X.
  assert (G : forall evs2 l2 s2, Forall (qev_ok pf g) evs2 -> q_run g s evs2 = (l2, s2) -> q_reached pf g (evs ++ evs2) (l ++ l2) s2).
  { intros evs2 l2 s2 V2 E2. exists f, c0. repeat (split; [assumption|]). split; [apply Forall_app; auto|]. clear - E E2. revert E. generalize (st_new f c0) as s0. revert l.
    induction evs as [|e evs IH]; intros l s0 E; cbn [q_run app] in *.
    - injection E as <- <-. exact E2.
    - destruct e as [c p|c].
      + destruct (q_exec g c (power s0 p)) as [a1 t1]. destruct (q_run g t1 evs) as [k1 u1] eqn:R1. injection E as <- <-. now rewrite (IH _ _ R1).
      + now apply IH. }
  split; apply G.
  - constructor; [split; auto|]. constructor; auto.
  - cbn [q_run]. now rewrite X.
  - constructor; [split; auto|]. constructor.
  - cbn [q_run]. now rewrite X.
Qed.
Lemma q_cut pf g evs l s q c p a s' ca : q_reached pf g evs l s -> q_holds g s q -> callable pf c -> (pf = false -> p = None) -> fresh_cache (NP g) ca ->
  q_exec g c (power s p) = (a, s') -> exists q', qdo (rup g) (HL g) (page_cap g) (2 <=? NP g) pf q c a q' /\ q_holds g s' q' /\ q_holds g (set_ca s' ca) q'.
Proof.
  intros R H CO PO FA E. destruct (reached_qst _ _ _ _ _ R) as (ae & aw & Y & ST & QS & _). pose proof (setting_single _ _ _ _ ST) as SG. pose proof ST as [gok _].
  rewrite (holds_eq g gok (negb pf) ae aw SG Y s q QS H). destruct QS as (pg & LY & QI & SW).
  assert (PO' : negb pf = true -> p = None) by (destruct pf; [discriminate|auto]).
  pose proof (call_spec g gok (negb pf) ae aw c Y pg _ a s' LY QI (sworld_power g _ ae aw pg s p PO' SW) SG (setting_call _ _ _ _ _ ST CO) E) as C.
  rewrite negb_involutive in C || idtac.
  assert (X : forall Y' pg', layok (NP g) Y' pg' -> qinv Y' -> sworld g (negb pf) ae aw pg' s' -> q_holds g s' (content Y') /\ q_holds g (set_ca s' ca) (content Y')).
  { intros Y' pg' L1 Q1 S1. split; (eapply (holds_of g gok (negb pf) ae aw SG); exists pg'; split; auto; split; auto). now apply sworld_boot. }
  destruct C as [(_ & pg' & L1 & Q1 & W1 & D)|(_ & Yc & pg' & L1 & Q1 & C1 & D)]; rewrite negb_involutive in D.
  - eexists. split; [exact D|]. eapply X; eauto. eapply world_sworld; eauto.
  - eexists. split; [exact D|]. eapply X; eauto. eapply crashed_sworld; eauto.
Qed.
Lemma q_cut_push pf g evs l s q d p a s' ca : q_reached pf g evs l s -> q_holds g s q -> item_ok pf d -> (pf = false -> p = None) -> fresh_cache (NP g) ca ->
  q_exec g (QPush d false) (power s p) = (a, s') ->
  (a = AUnit (Ok tt) /\ q_holds g (set_ca s' ca) (q ++ [d])) \/
  ((a = AUnit (Err EFull) \/ a = AUnit (Err EItemTooBig)) /\ q_holds g (set_ca s' ca) q) \/
  (a = AUnit (Err cut) /\ (q_holds g (set_ca s' ca) q \/ q_holds g (set_ca s' ca) (q ++ [d]))).
Proof.
  intros R H I P F E. destruct (q_cut _ _ _ _ _ _ (QPush d false) _ _ _ _ R H I P F E) as (q' & D & _ & H'). inversion D as [ | | | | | | | | | |? ? dr q1 ? PF EQ ? DR IN| | | | |]; subst; auto.
  right. right. split; auto. rewrite DR in * by auto. cbn [app] in *. destruct IN as [<-|[<-|[<-|[]]]]; auto.
Qed.
Lemma q_cut_pop pf g evs l s q b p a s' ca : q_reached pf g evs l s -> q_holds g s q -> (pf = false -> p = None) -> fresh_cache (NP g) ca -> length b = ES g ->
  q_exec g (QPop b) (power s p) = (a, s') ->
  (a = AItem (Ok (hd_error q)) /\ q_holds g (set_ca s' ca) (tl q)) \/ (a = AItem (Err cut) /\ (q_holds g (set_ca s' ca) q \/ q_holds g (set_ca s' ca) (tl q))).
Proof.
  intros R H P F LB E. destruct (q_cut _ _ _ _ _ _ (QPop b) _ _ _ _ R H I P F E) as (q' & D & _ & H'). inversion D as [ | | | |? r bf rm IS| | | | | | |? ? PF IN| | | |]; subst.
  - left. inversion IS as [? d t EQ ?|? d t EQ ?|? EQ|? ? n SH]; subst; cbn [hd_error tl app] in *; auto. destruct SH as (X1 & X2 & _). unfold page_cap in X2. lia.
  - right. split; auto. destruct IN as [<-|[<-|[]]]; auto.
Qed.

(** C17, C18 *)
Lemma q_caches pf g f c1 c2 evs1 evs2 l1 l2 s1 s2 : erased g f -> f_fuel f = None -> setting pf g (f_ae f) (f_aw f) -> fresh_cache (NP g) c1 -> fresh_cache (NP g) c2 ->
  Forall (qev_ok pf g) evs1 -> Forall (qev_ok pf g) evs2 -> q_calls evs1 = q_calls evs2 ->
  q_run g (st_new f c1) evs1 = (l1, s1) -> q_run g (st_new f c2) evs2 = (l2, s2) -> l1 = l2 /\ s_fl s1 = s_fl s2.
Proof.
  intros ER FU ST F1 F2 V1 V2 EC E1 E2. pose proof (setting_single _ _ _ _ ST) as SG. pose proof ST as [gok _].
  pose proof (qst_new g gok (negb pf) (f_ae f) (f_aw f) f c1 ER eq_refl eq_refl (fun _ => FU) F1) as Q1.
  pose proof (qst_new g gok (negb pf) (f_ae f) (f_aw f) f c2 ER eq_refl eq_refl (fun _ => FU) F2) as Q2.
  assert (EV : forall evs, Forall (qev_ok pf g) evs -> Forall (ev_ok g (negb pf) (f_aw f)) evs) by (intros; eapply Forall_impl; [|eassumption]; intros; eapply setting_ev; eauto).
  destruct (twin_hist g gok (negb pf) (f_ae f) (f_aw f) SG (length evs1 + length evs2) evs1 evs2 (st_new f c1) (st_new f c2) l1 l2 s1 s2) as [-> TW]; auto.
  - split; auto. eauto.
  - split; auto. apply TW.
Qed.

(** C14 *)
Lemma q_wear g evs l s : q_reached false g evs l s ->
  (exists k, f_er (s_fl s) = rev (map (fun i => (paddr g (i mod NP g), pend g (i mod NP g))) (seq 0 k))) /\
  forall p p', p < NP g -> p' < NP g -> erase_count g (s_fl s) p <= erase_count g (s_fl s) p' + 1.
Proof.
  intros (f & c & ER & FU & FE & FC & ST & EV & E). pose proof ST as [gok _]. pose proof (npos g gok) as N.
  pose proof (qst_new g gok true (f_ae f) (f_aw f) f c ER eq_refl eq_refl (fun _ => FU) FC) as Q0.
  assert (EV' : Forall (ev_ok g true (f_aw f)) evs) by (eapply Forall_impl; [|exact EV]; intros; eapply (setting_ev false); eauto).
  destruct (hist_ws g gok (f_ae f) (f_aw f) evs _ _ _ _ Q0 eq_refl EV' E) as (Y & QS & _ & (ops & EO & k & DO & _) & _).
  change (f_er (s_fl (st_new f c))) with (f_er f) in EO. rewrite FE, app_nil_r in EO. cbn [y_f] in DO.
  assert (EK : f_er (s_fl s) = rev (map (rng g) (map (fun i => i mod NP g) (seq 0 k)))) by (rewrite EO, DO; reflexivity).
  split. { exists k. rewrite EK, map_map. reflexivity. }
  assert (CE : forall p, p < NP g -> erase_count g (s_fl s) p = count_occ Nat.eq_dec (map (fun i => i mod NP g) (seq 0 k)) p).
  { intros p Hp. unfold erase_count. rewrite EK. generalize (map (fun i => i mod NP g) (seq 0 k)). intros L. rewrite <- map_rev.
    rewrite <- (rev_involutive L) at 2. generalize (rev L). clear - gok Hp. intros L. 
    assert (XX : forall L, count_occ Nat.eq_dec (rev L) p = count_occ Nat.eq_dec L p).
    { induction L0 as [|x L0 IH]; auto. cbn [rev]. rewrite count_occ_app, IH. cbn [count_occ]. destruct (Nat.eq_dec x p); lia. }
    rewrite XX. induction L as [|x L IH]; auto. cbn [map filter count_occ rng fst snd]. pose proof (ES_pos g gok).
    destruct (Nat.eq_dec x p) as [->|NE].
    - rewrite !Nat.eqb_refl. cbn [andb length]. now rewrite IH.
    - assert (paddr g x =? paddr g p = false) as ->; [|cbn [andb]; exact IH]. apply Nat.eqb_neq. unfold paddr. intros X. apply NE. nia. }
  intros p p' Hp Hp'. rewrite !CE by auto. rewrite !(count_mod (NP g)) by auto. destruct (p <? _), (p' <? _); lia.
Qed.

(** C16 *)
Section Wc.
Context (g : geom) (gok : geom_ok g).
Notation HL := (HL g).
Lemma le_val_0 l : le_val l = 0%N -> Forall (fun b => b = 0%N) l.
Proof. induction l as [|b l IH]; cbn [le_val]; intros H; constructor; [lia|]. apply IH. lia. Qed.
Lemma dead_hdr f e a n : slot_at g (f_mem f) e a (SDead n) -> removed_header f a.
Proof.
  intros [H _]. cbn [shdr] in H. apply (hdr_at_ok g) in H. destruct H as (_ & H & _). unfold hdr_of in H.
  destruct (N.eqb_spec (le_val (firstn 4 (rd (f_mem f) a HL))) 0) as [Z|Z]; [|discriminate]. apply le_val_0 in Z. intros i Hi.
  pose proof (HL_ge g gok). rewrite Forall_forall in Z. apply Z. rewrite rd_firstn by lia. unfold rd. apply in_map_iff. exists (a + i). split; auto. apply in_seq. lia.
Qed.
Lemma wc_two f e : forall sl a b, seg g (f_mem f) e a sl b -> Forall clean sl -> wc_slots g (f_wc f) a sl -> forall x, a <= x < a + sizes g sl -> 1 < f_wc f x ->
  exists h, h <= x < h + HL /\ removed_header f h.
Proof.
  induction sl as [|y sl IH]; intros a b SE CL C x Hx G. { change (sizes g []) with 0 in Hx. lia. }
  rewrite sizes_cons in Hx. inversion CL as [|? ? CY CL']; subst. cbn [wc_slots] in C. destruct C as (C1 & C2 & C3). cbn [seg] in SE. destruct SE as [S1 S2].
  destruct (Nat.lt_ge_cases x (a + ssize g y)) as [L|L].
  - destruct (Nat.lt_ge_cases x (a + HL)) as [L2|L2]; [|specialize (C2 x ltac:(lia)); lia].
    specialize (C1 x ltac:(lia)). exists a. split; [lia|]. destruct y; try contradiction; cbn [is_live] in C1; [lia|]. eapply dead_hdr; eauto.
  - eapply IH; eauto. lia.
Qed.
End Wc.
Lemma q_writes g evs l s : q_reached false g evs l s -> forall x, START g <= x < FEND g ->
  f_wc (s_fl s) x <= 2 /\ (1 < f_wc (s_fl s) x -> exists h, h <= x < h + HL g /\ removed_header (s_fl s) h) /\ (Forall keeps evs -> f_wc (s_fl s) x <= 1).
Proof.
  intros (f & c & ER & FU & FE & FC & ST & EV & E) x Hx. pose proof ST as [gok _]. pose proof (npos g gok) as N.
  pose proof (qst_new g gok true (f_ae f) (f_aw f) f c ER eq_refl eq_refl (fun _ => FU) FC) as Q0.
  assert (EV' : Forall (ev_ok g true (f_aw f)) evs) by (eapply Forall_impl; [|exact EV]; intros; eapply (setting_ev false); eauto).
  destruct (hist_ws g gok (f_ae f) (f_aw f) evs _ _ _ _ Q0 eq_refl EV' E) as (Y & QS & _ & _ & AL).
  destruct (qst_wc g gok (f_ae f) (f_aw f) Y s QS x Hx) as [A B]. split; auto. split.
  - intros G. destruct QS as (pg & LY & QI & FW & _). pose proof (ES_pos g gok) as E0.
    remember (pindex g x) as p eqn:Ep. assert (Hp : p < NP g). { rewrite Ep. unfold pindex. apply Nat.div_lt_upper_bound; [lia|]. unfold FEND in Hx. lia. }
    assert (Hb : paddr g p <= x < pend g p).
    { rewrite Ep. unfold paddr, pend, pindex. pose proof (Nat.div_mod (x - START g) (ES g) ltac:(lia)). pose proof (Nat.mod_upper_bound (x - START g) (ES g) ltac:(lia)). lia. }
    assert (PI : page_is g true (s_fl s) p (pg p)) by (apply FW; auto). pose proof (dstart_lt g gok p). pose proof (dend_lt g gok p).
    assert (BODY : forall sl, body g true (s_fl s) p sl -> dstart g p <= x < dend g p -> exists h, h <= x < h + HL g /\ removed_header (s_fl s) h).
    { intros sl (b & SE & _ & BL & C) Hb2. destruct (C eq_refl) as [C1 C2]. pose proof (seg_end g _ _ _ _ _ SE). destruct (Nat.lt_ge_cases x b) as [L|L].
      - eapply wc_two; eauto. lia.
      - destruct (BL x ltac:(lia)) as [_ Z]. rewrite (Z eq_refl) in G. lia. }
    destruct (pg p) as [sl|sl| | |X|X sl]; cbn [page_is] in PI; try (destruct PI; discriminate).
    + destruct PI as (_ & _ & B1 & C). destruct (Nat.lt_ge_cases x (dstart g p)) as [L|L]; [specialize (C eq_refl x ltac:(lia)); lia|].
      destruct (Nat.lt_ge_cases x (dend g p)) as [L2|L2]; [|specialize (C eq_refl x ltac:(lia)); lia]. eapply BODY; eauto.
    + destruct PI as (_ & _ & B1 & C). destruct (C eq_refl) as [C1 C2]. destruct (Nat.lt_ge_cases x (dstart g p)) as [L|L]; [specialize (C1 x ltac:(lia)); lia|].
      destruct (Nat.lt_ge_cases x (dend g p)) as [L2|L2]; [eapply BODY; eauto|]. destruct (C2 x ltac:(lia)) as [_ Z]. rewrite (Z eq_refl) in G. lia.
    + destruct (PI x Hb) as [_ Z]. rewrite (Z eq_refl) in G. lia.
  - intros K. apply B. apply AL; [|constructor]. eapply Forall_impl; [|exact K]. intros [[]|]; cbn; auto.
Qed.

(** C26, C27 *)
Lemma yq_same {A} g (qf : (nat -> page) -> res A) Y pg : layok (NP g) Y pg -> forall r, fst (fst (yq g qf Y)) = Ok r ->
  qf (pgof g (snd (yq g qf Y))) = Ok r.
Proof.
  intros _ r. unfold yq. destruct (qf (pgof g Y)) as [x|e] eqn:E; cbn [fst snd].
  - intros [= ->]. exact E.
  - destruct e; cbn [fst snd]; try discriminate. auto.
Qed.
Lemma q_fit pf g evs l s m s1 d r s2 : q_reached pf g evs l s -> item_ok pf d ->
  q_does g s QMaxFit (AMax (Ok m)) s1 -> q_does g s1 (QPush d false) (AUnit r) s2 ->
  (r = Ok tt <-> (exists n, m = Some n /\ length d <= n) /\ ~ too_long g d).
Proof.
  intros R I E1 E2. destruct (reached_qst _ _ _ _ _ R) as (ae & aw & Y & ST & QS & _). pose proof (setting_single _ _ _ _ ST) as SG. pose proof ST as [gok _].
  destruct (does_ok g gok _ ae aw SG Y s QMaxFit _ _ QS Logic.I E1) as (A1 & QS1 & _).
  destruct (does_ok g gok _ ae aw SG _ s1 _ _ _ QS1 (setting_call _ _ _ _ (QPush d false) ST I) E2) as (A2 & _).
  destruct QS as (pg & LY & QI & SW). cbn [yact] in *.
  pose proof (yq_same g (mfit g) Y pg LY m) as M. destruct (yq g (mfit g) Y) as [[r1 o1] Y1]. cbn [fst snd] in *. injection A1 as <-. specialize (M eq_refl).
  destruct QS1 as (pg1 & LY1 & QI1 & _). rewrite <- (mfit_ext g gok _ _ (pgof_ok g gok Y1 pg1 LY1)) in M.
  rewrite <- (isyoung_ext g gok _ _ (pgof_ok g gok Y1 pg1 LY1)) in A2.
  destruct (qpush g (isyoung g pg1) Y1 d false) as [[r2 o2] Y2] eqn:P. cbn [fst] in A2. injection A2 as ->.
  rewrite (push_fit g gok Y1 pg1 m d _ _ _ LY1 QI1 M P). reflexivity.
Qed.
Lemma q_space pf g evs l s n s1 : q_reached pf g evs l s -> q_does g s QSpace (ANum (Ok n)) s1 ->
  n <= NP g * page_cap g /\
  forall d s2, item_ok pf d -> q_does g s1 (QPush d false) (AUnit (Ok tt)) s2 -> HL g + rup g (length d) <= n.
Proof.
  intros R E1. destruct (reached_qst _ _ _ _ _ R) as (ae & aw & Y & ST & QS & _). pose proof (setting_single _ _ _ _ ST) as SG. pose proof ST as [gok _].
  destruct (does_ok g gok _ ae aw SG Y s QSpace _ _ QS Logic.I E1) as (A1 & QS1 & _).
  destruct QS as (pg & LY & QI & SW). cbn [yact] in *.
  pose proof (yq_same g (yspc g) Y pg LY n) as M. destruct (yq g (yspc g) Y) as [[r1 o1] Y1]. cbn [fst snd] in *. injection A1 as <-. specialize (M eq_refl).
  pose proof QS1 as (pg1 & LY1 & QI1 & _). rewrite <- (yspc_ext g gok _ _ (pgof_ok g gok Y1 pg1 LY1)) in M. split; [eapply space_le; eauto|].
  intros d s2 I E2. destruct (does_ok g gok _ ae aw SG _ s1 _ _ _ QS1 (setting_call _ _ _ _ (QPush d false) ST I) E2) as (A2 & _). cbn [yact] in A2.
  rewrite <- (isyoung_ext g gok _ _ (pgof_ok g gok Y1 pg1 LY1)) in A2.
  destruct (qpush g (isyoung g pg1) Y1 d false) as [[r2 o2] Y2] eqn:P. cbn [fst] in A2. injection A2 as <-. eapply push_space; eauto.
Qed.
Lemma q_space_new g f c a s1 : erased g f -> f_fuel f = None -> fresh_cache (NP g) c -> geom_ok g -> q_does g (st_new f c) QSpace a s1 -> a = ANum (Ok (NP g * page_cap g)).
Proof.
  intros ER FU FC gok E. pose proof (qst_new g gok true (f_ae f) (f_aw f) f c ER eq_refl eq_refl (fun _ => FU) FC) as QS.
  destruct (does_ok g gok true (f_ae f) (f_aw f) (or_introl eq_refl) _ _ QSpace _ _ QS I E) as (-> & _). cbn [yact]. unfold yq. rewrite (space_all g gok); auto.
  intros p Hp. unfold pgof, pages. cbn [y_cl y_pt ptl map app y_k y_bad y_f]. rewrite app_nil_r. apply nth_repeat.
Qed.

Lemma one_uncut pf g evs l s c s' : q_reached pf g evs l s -> match c with QPop _ | QPeek _ => True | _ => False end -> ~ q_does g s c (AItem (Err cut)) s'.
Proof.
  intros R CC E. destruct (reached_qst _ _ _ _ _ R) as (ae & aw & Y & ST & QS & _). pose proof (setting_single _ _ _ _ ST) as SG. pose proof ST as [gok _].
  assert (CA : callable pf c) by (destruct c; try contradiction; exact I).
  destruct (does_ok g gok _ ae aw SG Y s _ _ s' QS (setting_call _ _ _ _ c ST CA) E) as (A & _).
  assert (X : forall b pop, fst (fst (yone g b pop Y)) <> Err cut).
  { intros b pop. unfold yone, ystep. destruct (nspec _ _ _ _ _ _) as [[nr ops] i]. destruct nr; destruct pop; cbn; discriminate. }
  destruct c as [|b|b| | |]; try contradiction; cbn [yact] in A.
  - specialize (X b true). destruct (yone g b true Y) as [[r o] Y']. cbn [fst] in *. injection A as A. auto.
  - specialize (X b false). destruct (yone g b false Y) as [[r o] Y']. cbn [fst] in *. injection A as A. auto.
Qed.
Lemma q_pop_ok pf g evs l s q b a s' : q_reached pf g evs l s -> q_holds g s q -> length b = ES g -> q_does g s (QPop b) a s' ->
  a = AItem (Ok (hd_error q)) /\ q_holds g s' (tl q).
Proof.
  intros R H LB E. destruct (reached_does _ _ _ _ _ _ (QPop b) _ _ R H I E) as (q' & D & H').
  inversion D as [ | | | |? r bf rm IS| | | | | | |? ? PF IN| | | |]; subst.
  - inversion IS as [? d t EQ ?|? d t EQ ?|? EQ|? ? n SH]; subst; cbn [hd_error tl app] in *; auto. destruct SH as (X1 & X2 & _). unfold page_cap in X2. lia.
  - exfalso. eapply (one_uncut _ _ _ _ _ _ _ R); [|exact E]. exact I.
Qed.
Lemma q_peek_ok pf g evs l s q b a s' : q_reached pf g evs l s -> q_holds g s q -> length b = ES g -> q_does g s (QPeek b) a s' ->
  a = AItem (Ok (hd_error q)) /\ q_holds g s' q.
Proof.
  intros R H LB E. destruct (reached_does _ _ _ _ _ _ (QPeek b) _ _ R H I E) as (q' & D & H').
  inversion D as [ | | | | |? r bf rm IS| | | | | | |? PF| | |]; subst.
  - inversion IS as [? d t EQ ?|? d t EQ ?|? EQ|? ? n SH]; subst; cbn [hd_error tl app] in *; auto. destruct SH as (X1 & X2 & _). unfold page_cap in X2. lia.
  - exfalso. eapply (one_uncut _ _ _ _ _ _ _ R); [|exact E]. exact I.
Qed.

Lemma q_recache pf g evs l s ca evs2 l1 l2 s1 s2 : q_reached pf g evs l s -> fresh_cache (NP g) ca -> Forall (qev_ok pf g) evs2 ->
  q_run g s evs2 = (l1, s1) -> q_run g (set_ca s ca) evs2 = (l2, s2) -> l1 = l2 /\ s_fl s1 = s_fl s2.
Proof.
  intros R F V E1 E2. destruct (reached_qst _ _ _ _ _ R) as (ae & aw & Y & ST & QS & _). pose proof (setting_single _ _ _ _ ST) as SG. pose proof ST as [gok _].
  assert (EV : Forall (ev_ok g (negb pf) aw) evs2) by (eapply Forall_impl; [|exact V]; intros; eapply setting_ev; eauto).
  destruct (twin_hist g gok (negb pf) ae aw SG (length evs2 + length evs2) evs2 evs2 s (set_ca s ca) l1 l2 s1 s2) as [-> TW]; auto.
  - split; auto. exists Y. split; auto. destruct QS as (pg & LY & QI & SW). exists pg. split; auto. split; auto. now apply sworld_boot.
  - split; auto. apply TW.
Qed.
Lemma q_space_total pf g evs l s a s1 : q_reached pf g evs l s -> q_does g s QSpace a s1 -> exists n, a = ANum (Ok n).
Proof.
  intros R E. destruct (reached_qst _ _ _ _ _ R) as (ae & aw & Y & ST & QS & _). pose proof (setting_single _ _ _ _ ST) as SG. pose proof ST as [gok _].
  destruct (does_ok g gok _ ae aw SG Y s QSpace _ _ QS Logic.I E) as (-> & (pg1 & LY1 & QI1 & _) & _). cbn [yact] in *. unfold yq in *.
  destruct (yspc g (pgof g Y)) as [n|e] eqn:S; [cbn; eauto|].
  assert (e = ECorrupted) as -> by (unfold yspc in S; destruct (nobad g _); [discriminate S|injection S as <-; reflexivity]).
  cbn [snd fst] in *. pose proof (yspc_bad g gok _ pg1 LY1 QI1 eq_refl) as X. rewrite <- (yspc_ext g gok _ _ (pgof_ok g gok _ pg1 LY1)).
  destruct (yspc g pg1) as [n|e]; [eauto|]. now specialize (X e).
Qed.
