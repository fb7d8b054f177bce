(** Repair of the queue and the complete push call. *)
From Coq Require Import List NArith ZArith Arith Bool Lia ZifyBool ZifyNat ZifyN.
From Verif Require Import Base BaseP Crc CrcP Flash Cache State Item Generic Queue GeomP ScanP WpP ItemP CalcP PageP WorldP LayP QPushP.
Import ListNotations.
Local Opaque crc16 acrc crc32.

Section Rep.
Context (g : geom) (gok : geom_ok g) (ws ae : bool) (aw : nat).
Notation W := (W g).
Notation HL := (HL g).
Notation rup := (rup g).
Notation NP := (NP g).
Notation st := (st unit).
Implicit Types (s : st) (pg : nat -> page) (Y : lay).
Notation world := (world g ws ae aw).
Notation crashed := (crashed g ws ae aw).
Notation sworld := (sworld g ws ae aw).
Notation okout := (okout g ws ae aw).
Notation erout := (erout g ws ae aw).
Notation crout := (crout g ws ae aw).

Definition yrep Y : lay := mklay (y_f Y) (y_cl Y) (y_pt Y) (y_k Y + y_bad Y) 0.
Definition rops Y : list dop := if y_bad Y =? 1 then [DE ((y_f Y + (NP - 1)) mod NP)] else [].

Lemma yrep_content Y : content (yrep Y) = content Y. Proof. reflexivity. Qed.
Lemma yrep_small B Y : ysmall g B (yrep Y) <-> ysmall g B Y. Proof. reflexivity. Qed.
Lemma yrep_qinv Y : qinv Y -> qinv (yrep Y).
Proof. intros (A & B & C). unfold qinv, yrep, y_c, y_b in *. cbn. split; [|split; [discriminate|auto]]. intros H. specialize (A H). lia. Qed.
Lemma yrep_id Y : y_bad Y = 0 -> yrep Y = Y.
Proof. destruct Y; cbn. intros ->. unfold yrep. cbn. f_equal. lia. Qed.

Lemma bad_only Y pg p : layok NP Y pg -> p < NP -> pg p = PBad -> y_bad Y = 1 /\ p = (y_f Y + (NP - 1)) mod NP.
Proof.
  intros L Hp B. pose proof (npos g gok) as N. pose proof (lay_ring NP Y pg N L) as R.
  assert (S : st_of (pg p) = None) by now rewrite B. apply (ring_bad NP N _ _ _ _ _ _ R p Hp) in S.
  destruct R as (Hf & T & _ & BB & _). pose proof (pos_lt NP N (y_f Y) p Hf Hp). split; [lia|].
  rewrite <- (mod_pos NP N (y_f Y) p Hf Hp) at 1. f_equal. lia.
Qed.
Lemma bad_at Y pg : layok NP Y pg -> y_bad Y = 1 -> pg ((y_f Y + (NP - 1)) mod NP) = PBad.
Proof. intros L B. destruct Y as [f cl pt k bad]. cbn in *. subst bad. eapply lay_at_bad; eauto. apply npos; auto. Qed.

Lemma rep_ops_none pg l : (forall q, In q l -> isbad (pg q) = false) -> rep_ops pg l = [].
Proof.
  revert pg. induction l as [|p l IH]; intros pg H; cbn [rep_ops]; auto. rewrite H by now left. cbn. apply IH.
  intros q Hq. unfold upd. destruct (Nat.eqb_spec q p) as [->|]; [|apply H; now right].
  specialize (H p (or_introl eq_refl)). destruct (pg p); auto.
Qed.
Lemma rep_ops_one pg l1 q l2 : (forall x, In x l1 -> isbad (pg x) = false) -> isbad (pg q) = true ->
  (forall x, In x l2 -> x <> q -> isbad (pg x) = false) -> rep_ops pg (l1 ++ q :: l2) = [DE q].
Proof.
  revert pg. induction l1 as [|p l1 IH]; intros pg H1 H2 H3; cbn [rep_ops app].
  - rewrite H2. cbn. f_equal. apply rep_ops_none. intros x Hx. unfold upd. destruct (Nat.eqb_spec x q) as [->|N]; auto; destruct (pg q); auto.
  - rewrite H1 by now left. cbn. assert (NQ : q <> p). { intros ->. rewrite H1 in H2 by now left. discriminate. }
    apply IH.
    + intros x Hx. unfold upd. destruct (Nat.eqb_spec x p) as [->|]; [|apply H1; now right]. specialize (H1 p (or_introl eq_refl)). destruct (pg p); auto.
    + now rewrite upd_other.
    + intros x Hx Nx. unfold upd. destruct (Nat.eqb_spec x p) as [->|]; auto. specialize (H1 p (or_introl eq_refl)). destruct (pg p); auto.
Qed.

Lemma rep_ops_lay Y pg : layok NP Y pg -> rep_ops pg (get_pages g 0) = rops Y.
Proof.
  intros L. unfold rops. pose proof (npos g gok) as N. pose proof (get_pages_lt g gok 0) as G. rewrite Forall_forall in G.
  destruct (Nat.eqb_spec (y_bad Y) 1) as [B|B].
  - pose proof (bad_at Y pg L B) as BA. set (q := (_ + _) mod _) in *. assert (Hq : q < NP) by apply (mod_lt g gok).
    destruct (in_split _ _ (in_get_pages g 0 q ltac:(lia) Hq)) as (l1 & l2 & E).
    rewrite E. apply rep_ops_one.
    + intros x Hx. destruct (isbad (pg x)) eqn:IB; auto. exfalso. assert (X : pg x = PBad) by (destruct (pg x); auto; discriminate).
      destruct (bad_only Y pg x L (G x ltac:(rewrite E; apply in_or_app; now left)) X) as [_ EX]. fold q in EX. subst x.
      assert (ND : NoDup (get_pages g 0)).
      { unfold get_pages. assert (M : map (fun i => (i + 0) mod NP) (seq 0 NP) = seq 0 NP).
        { rewrite <- (map_id (seq 0 NP)) at 2. apply map_ext_in. intros a Ha. apply in_seq in Ha. rewrite Nat.add_0_r. apply Nat.mod_small. lia. }
        rewrite M. apply seq_NoDup. }
      rewrite E in ND. apply NoDup_remove_2 in ND. apply ND. apply in_or_app. now left.
    + rewrite BA. reflexivity.
    + intros x Hx NX. destruct (isbad (pg x)) eqn:IB; auto. exfalso. assert (X : pg x = PBad) by (destruct (pg x); auto; discriminate).
      destruct (bad_only Y pg x L (G x ltac:(rewrite E; apply in_or_app; right; now right)) X) as [_ EX]. auto.
  - apply rep_ops_none. intros q Hq. destruct (isbad (pg q)) eqn:IB; auto. exfalso. apply B.
    apply (bad_only Y pg q L (G q Hq)). destruct (pg q); auto; discriminate.
Qed.

Lemma lay_rep_part Y pg pg' : layok NP Y pg -> rep_part pg pg' -> layok NP Y pg' \/ layok NP (yrep Y) pg'.
Proof.
  intros L RP. pose proof (npos g gok) as N.
  destruct (Nat.eq_dec (y_bad Y) 1) as [B|B].
  - pose proof (bad_at Y pg L B) as BA. set (q := (_ + _) mod _) in *.
    destruct (RP q) as [E|[_ E]].
    + left. destruct L as [L LB]. split; auto. eapply lay0_ext; [|exact L]. intros p Hp.
      destruct (RP p) as [->|[X _]]; auto. destruct (bad_only Y pg p (conj L LB) Hp X) as [_ EX]. fold q in EX. subst p. auto.
    + right. destruct Y as [f cl pt k bad]. apply (lay_repair NP N f cl pt k bad pg pg' L). intros p Hp.
      destruct (RP p) as [E2|[X1 X2]]; [|rewrite X1, X2; reflexivity]. rewrite E2. destruct (pg p) eqn:X; auto.
      destruct (bad_only _ pg p L Hp X) as [_ EX]. fold q in EX. subst p. exfalso. congruence.
  - left. destruct L as [L LB]. split; auto. eapply lay0_ext; [|exact L]. intros p Hp.
    destruct (RP p) as [->|[X _]]; auto. exfalso. apply B. apply (bad_only Y pg p (conj L LB) Hp X).
Qed.

Lemma wp_q_repair Y pg f0 L (Q : unit -> st -> Prop) (E : err -> st -> Prop) s :
  layok NP Y pg -> world pg f0 L s ->
  (forall s' pg', layok NP (yrep Y) pg' -> world pg' f0 (L ++ rops Y) s' ->
     s_buf s' = s_buf s -> s_qi s' = s_qi s -> s_mi s' = s_mi s -> Q tt s') ->
  (forall s' pg' Yc, Yc = Y \/ Yc = yrep Y -> layok NP Yc pg' -> crashed pg' f0 (L ++ rops Y) s' -> E (EStorage SShutoff) s') ->
  wp (q_repair g) Q E s.
Proof.
  intros LY (R & FW & CO) HQ HE. unfold q_repair. apply wp_bind. unfold wp at 1, c_inval.
  set (s1 := set_ca s _).
  assert (W1 : world pg f0 L s1). { split; [exact R|]. split; [exact FW|]. apply coh_inval. eapply coh_wf; eauto. }
  unfold general_repair. apply (wp_general_repair_in g gok ws ae aw (get_pages g 0) pg f0 L); auto.
  - apply get_pages_lt; auto.
  - cbn. destruct (c_ps (s_ca s)); cbn; auto. reflexivity.
  - rewrite (rep_ops_lay Y pg LY). intros s' W' _ (F1 & F2 & F3 & _). apply (HQ s' (rep_in pg (get_pages g 0))); auto.
    destruct Y as [f cl pt k bad]. eapply lay_repair; [apply npos; auto|exact LY|]. intros p Hp. rewrite rep_in_eq.
    assert (existsb (Nat.eqb p) (get_pages g 0) = true) as ->; auto. apply existsb_exists. exists p. split; [|apply Nat.eqb_refl].
    apply in_get_pages; auto. lia.
  - rewrite (rep_ops_lay Y pg LY). intros s' pg' RP _ CR. destruct (lay_rep_part Y pg pg' LY RP) as [X|X]; [apply (HE s' pg' Y)|apply (HE s' pg' (yrep Y))]; auto.
Qed.

(** The whole push. *)
Definition qpush (yg : bool) Y (d : list N) (ow : bool) : res unit * list dop * lay :=
  match ypush g yg Y d ow with
  | (Err ECorrupted, L1, Y1) => let '(r, L2, Y2) := ypush g true (yrep Y1) d ow in (r, L1 ++ rops Y1 ++ L2, Y2)
  | o => o
  end.

Lemma run_world f0 L s : forall pg, world pg f0 L s -> run g f0 L = (None, s_fl s).
Proof. intros pg H. apply H. Qed.

Lemma world_cons pg f0 L1 L2 f1 s : run g f0 L1 = (None, f1) -> world pg f1 L2 s -> world pg f0 (L1 ++ L2) s.
Proof. intros R (A & B & C). split; [|split; auto]. now rewrite (run_snoc _ _ _ _ _ R). Qed.
Lemma crashed_cons pg f0 L1 L2 f1 s : run g f0 L1 = (None, f1) -> crashed pg f1 L2 s -> crashed pg f0 (L1 ++ L2) s.
Proof. intros R (A & B). split; auto. now rewrite (run_snoc _ _ _ _ _ R). Qed.
Lemma okout_cons {A} r L1 L2 Y f0 f1 (a : A) s : run g f0 L1 = (None, f1) -> okout (r, L2, Y) f1 a s -> okout (r, L1 ++ L2, Y) f0 a s.
Proof. intros R (E & pg & A1 & A2 & A3). split; auto. exists pg. split; auto. split; auto. eapply world_cons; eauto. Qed.
Lemma erout_cons {A} (r : res A) L1 L2 Y f0 f1 e s : run g f0 L1 = (None, f1) -> erout (r, L2, Y) f1 e s -> erout (r, L1 ++ L2, Y) f0 e s.
Proof. intros R (E & pg & A1 & A2 & A3). split; auto. exists pg. split; auto. split; auto. eapply world_cons; eauto. Qed.
Lemma crout_cons L1 L2 (C C' : lay -> Prop) f0 f1 e s : run g f0 L1 = (None, f1) -> (forall Y, C Y -> C' Y) -> crout L2 C f1 e s -> crout (L1 ++ L2) C' f0 e s.
Proof.
  intros R H (E & Yc & pg & A1 & A2 & A3 & A4). split; auto. exists Yc, pg. split; auto. split; auto. split; auto. eapply crashed_cons; eauto.
Qed.

Lemma isyoung_rep Y pg : layok NP Y pg -> qinv Y -> y_bad Y = 0 -> isyoung g pg = true.
Proof. intros L Q B. unfold isyoung. destruct (young_ok g gok Y pg L Q) as [->|[_ X]]; auto; lia. Qed.

Lemma ypush_corr yg Y d ow L Y1 : ypush g yg Y d ow = (Err ECorrupted, L, Y1) -> L = [] /\ content Y1 = content Y /\ (forall B, ysmall g B Y -> ysmall g B Y1).
Proof.
  unfold ypush. destruct (too_big _ _); [discriminate|]. destruct (negb yg); [intros [= <- <-]; auto|].
  destruct (fitsb _ _ _); [discriminate|]. destruct (1 <=? _); [discriminate|]. destruct (_ =? 1).
  - intros [= <- <-]. destruct Y as [f cl pt k bad]. unfold y_start. cbn [y_pt y_f y_cl y_k y_bad]. destruct pt; auto. rewrite !content_app. split; [auto|]. split; [auto|].
    intros B H. rewrite small_app in *. auto.
  - destruct (y_cl _); destruct ow; cbn [orb]; try discriminate. destruct (emptyish _); discriminate.
Qed.

(** A cut call that would have failed anyway loses nothing. *)
Definition cpush2 Y (d : list N) (r : res unit) (Y' Yc : lay) : Prop := cpush g Y d Y' Yc /\ (r = Ok tt \/ content Yc = content Y).
Lemma ypush_err yg Y d ow : let '(r, L, _) := ypush g yg Y d ow in r = Ok tt \/ L = [].
Proof.
  unfold ypush. destruct (too_big _ _); auto. destruct (negb yg); auto.
  destruct (fitsb _ _ _); auto. destruct (1 <=? _); auto. destruct (_ =? 1); auto.
  destruct (y_cl _); destruct ow; cbn [orb]; auto. destruct (emptyish _); auto.
Qed.

Lemma wp_q_push Y pg d ow s :
  layok NP Y pg -> qinv Y -> sworld pg s -> dok d -> tear_ok g ws aw d -> single_ok g ws ae ->
  forall O, O = qpush (isyoung g pg) Y d ow ->
  wp (q_push g d ow) (okout O (s_fl s))
     (fun e s' => erout O (s_fl s) e s' \/ crout (snd (fst O)) (cpush2 Y d (fst (fst O)) (snd O)) (s_fl s) e s') s.
Proof.
  intros LY QI SW DO TO SG O EO. unfold q_push. apply wp_auto_repair.
  pose proof (wp_push_inner g gok ws ae aw Y pg d ow s LY QI SW DO TO SG _ eq_refl) as P.
  unfold qpush in EO. destruct (ypush g (isyoung g pg) Y d ow) as [[r L1] Y1] eqn:EY. cbn [fst snd] in P.
  eapply wp_mono; [exact P| |]; cbv beta.
  - intros a s' H. pose proof H as [-> _]. subst O. exact H.
  - intros e s' [H|H].
    + pose proof H as [-> (pg1 & L1' & Q1' & W1)].
      assert (HH : e <> ECorrupted -> erout O (s_fl s) e s' \/ crout (snd (fst O)) (cpush2 Y d (fst (fst O)) (snd O)) (s_fl s) e s').
      { intros NE. left. subst O. destruct e; auto; congruence. }
      destruct e; try (apply HH; discriminate).
      destruct (ypush_corr _ _ _ _ _ _ EY) as (_ & CC & CS).
      apply (wp_q_repair Y1 pg1 (s_fl s) L1); auto.
      * intros s2 pg2 LY2 W2 _ _ _.
        pose proof (wp_push_inner g gok ws ae aw (yrep Y1) pg2 d ow s2 LY2 (yrep_qinv _ Q1') (world_sworld _ _ _ _ _ _ _ _ W2) DO TO SG _ eq_refl) as P2.
        rewrite (isyoung_rep (yrep Y1) pg2 LY2 (yrep_qinv _ Q1') eq_refl) in P2.
        destruct (ypush g true (yrep Y1) d ow) as [[r L2] Y2] eqn:EY2. cbn [fst snd] in P2.
        assert (RW : run g (s_fl s) (L1 ++ rops Y1) = (None, s_fl s2)) by apply W2.
        eapply wp_mono; [exact P2| |]; cbv beta.
        -- intros a s3 H'. subst O. rewrite app_assoc. eapply okout_cons; eauto.
        -- intros e s3 [H'|H'].
           ++ left. subst O. rewrite app_assoc. eapply erout_cons; eauto.
           ++ right. subst O. cbn [fst snd]. rewrite app_assoc. eapply crout_cons; [exact RW| |exact H'].
              intros Yc [C1 C2]. rewrite yrep_content, CC in C1. split; [split; auto; intros B SB RB; apply C2; auto; rewrite yrep_small; auto|].
              left. pose proof (ypush_err true (yrep Y1) d ow) as X. rewrite EY2 in X. destruct X as [X|X]; auto. subst L2.
              destruct H' as [_ (? & ? & _ & _ & _ & X & _)]. discriminate.
      * intros s2 pg2 Yc YC LY2 CR. right.
        destruct (ypush g true (yrep Y1) d ow) as [[r L2] Y2] eqn:EY2. subst O. cbn [fst snd]. split; auto. exists Yc, pg2.
        split; [|split; [auto|split]].
        -- assert (X : content Yc = content Y) by (destruct YC as [->| ->]; rewrite ?yrep_content; auto).
           split; auto. apply cpush_refl; auto. destruct YC as [->| ->]; auto.
        -- destruct YC as [->| ->]; auto using yrep_qinv.
        -- rewrite app_assoc. now apply crashed_app.
    + pose proof H as [-> _].
      pose proof (ypush_err (isyoung g pg) Y d ow) as X. rewrite EY in X.
      assert (RO : r = Ok tt). { destruct X as [X|X]; auto. subst L1. destruct H as [_ (? & ? & _ & _ & _ & X & _)]. discriminate. }
      subst r. right. subst O. destruct H as [_ (Yc & pg' & H1 & H2)]. split; auto. exists Yc, pg'. split; auto. split; auto.
Qed.
End Rep.
