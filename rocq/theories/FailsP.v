(** Proofs for Fails.v: a call in which reads fail goes as without, or as one dropped at a read that failed, or it skips a half-marked page in a repair. *)
From Coq Require Import List NArith Arith Bool Lia.
From Verif Require Import Base Flash Cache State Item Generic Queue Map Codec Client MClient TMap QSpec QObs MSpec ProgP Reads ReadsP Drops DropP Fails.
Import ListNotations.

Section Fails.
Context {K : Type} (g : geom) (e : serr) (F : nat -> bool).
Notation X := (failing e F).
Implicit Types (s u : st K).
Lemma logged_logged s l l' : logged (logged s l) l' = logged s l'. Proof. reflexivity. Qed.

Definition halfp u : Prop := exists p, fst (page_state (R := steady) g p u) = Err ECorrupted.
(** Dropped late enough, all is as on the mock flash. *)
Definition full {A} (m : reader -> M K A) s ld ld' : Prop := length ld <= length ld' /\ forall T, length ld' <= T -> m (dropping T) (logged s ld) = (fst (m steady s), logged (snd (m steady s)) ld').
Definition asis {A} (m : reader -> M K A) s lf : Prop := exists lf', m X (logged s lf) = (fst (m steady s), logged (snd (m steady s)) lf').
Definition stops {A} (m : reader -> M K A) s lf ld : Prop := exists T u lf', length ld <= T /\ m (dropping T) (logged s ld) = (Err dropped, u) /\ m X (logged s lf) = (Err (EStorage e), logged u lf').
Definition skips {A} (m : reader -> M K A) s ld : Prop := exists T u, length ld <= T /\ m (dropping T) (logged s ld) = (Err dropped, u) /\ halfp u.
Definition fails {A} (m : reader -> M K A) : Prop := forall s lf ld, (asis m s lf /\ exists ld', full m s ld ld') \/ stops m s lf ld \/ skips m s ld.
(** Parts that only read. *)
Definition rf {A} (m : reader -> M K A) : Prop := forall s lf ld, (exists ld', full m s ld ld') /\ (asis m s lf \/ stops m s lf ld).
Lemma rf_fails {A} (m : reader -> M K A) : rf m -> fails m.
Proof. intros H s lf ld. destruct (H s lf ld) as (A1 & [B|B]); auto. Qed.
Lemma full_bind {A B} (m : reader -> M K A) (k : reader -> A -> M K B) s ld ld1 a s1 ld2 : m steady s = (Ok a, s1) -> full m s ld ld1 -> full (fun R => k R a) s1 ld1 ld2 -> full (fun R => bind (m R) (k R)) s ld ld2.
Proof.
  intros EM (L1 & H1) (L2 & H2). split; [lia|]. intros T HT. unfold bind. rewrite H1 by lia. rewrite EM. cbn [fst snd]. now apply H2.
Qed.
Lemma full_err {A B} (m : reader -> M K A) (k : reader -> A -> M K B) s ld ld1 x s1 : m steady s = (Err x, s1) -> full m s ld ld1 -> full (fun R => bind (m R) (k R)) s ld ld1.
Proof. intros EM (L1 & H1). split; auto. intros T HT. unfold bind. rewrite H1 by lia. rewrite EM. reflexivity. Qed.
Lemma stops_here {A B} (m : reader -> M K A) (k : reader -> A -> M K B) s lf ld : stops m s lf ld -> stops (fun R => bind (m R) (k R)) s lf ld.
Proof. intros (T & u & lf' & L & H1 & H2). exists T, u, lf'. split; auto. unfold bind. now rewrite H1, H2. Qed.
Lemma stops_later {A B} (m : reader -> M K A) (k : reader -> A -> M K B) s lf ld a s1 lf1 ld1 : m steady s = (Ok a, s1) -> m X (logged s lf) = (Ok a, logged s1 lf1) -> full m s ld ld1 ->
  stops (fun R => k R a) s1 lf1 ld1 -> stops (fun R => bind (m R) (k R)) s lf ld.
Proof.
  intros EM EX (L1 & H1) (T & u & lf' & L & S1 & S2). exists T, u, lf'. split; [lia|]. unfold bind. rewrite EX, (H1 T L), EM. cbn [fst snd]. auto.
Qed.
Lemma skips_later {A B} (m : reader -> M K A) (k : reader -> A -> M K B) s ld a s1 ld1 : m steady s = (Ok a, s1) -> full m s ld ld1 -> skips (fun R => k R a) s1 ld1 -> skips (fun R => bind (m R) (k R)) s ld.
Proof.
  intros EM (L1 & H1) (T & u & L & S1 & S2). exists T, u. split; [lia|]. unfold bind. rewrite (H1 T L), EM. cbn [fst snd]. auto.
Qed.
Lemma rf_bind {A B} (m : reader -> M K A) (k : reader -> A -> M K B) : rf m -> (forall a, rf (fun R => k R a)) -> rf (fun R => bind (m R) (k R)).
Proof.
  intros H1 H2 s lf ld. destruct (H1 s lf ld) as ((ld1 & F1) & C1). destruct (m steady s) as [[a|x] s1] eqn:EM.
  - split; [destruct (H2 a s1 lf ld1) as ((ld2 & F2) & _); exists ld2; eapply full_bind; eauto|]. destruct C1 as [(lf1 & C1)|C1]; [|right; now apply stops_here]. rewrite EM in C1. cbn [fst snd] in C1.
    destruct (H2 a s1 lf1 ld1) as (_ & [(lf2 & C2)|C2]).
    + left. exists lf2. unfold bind. rewrite C1, EM. exact C2.
    + right. eapply stops_later; eauto.
  - split; [exists ld1; eapply full_err; eauto|]. destruct C1 as [(lf1 & C1)|C1]; [|right; now apply stops_here]. left. exists lf1. unfold bind. rewrite C1, EM. reflexivity.
Qed.
Lemma rf_local {A} (m : M K A) : local m -> rf (fun _ => m).
Proof.
  intros L s lf ld. assert (H : forall l, m (logged s l) = (fst (m s), logged (snd (m s)) l)).
  { intros l. unfold logged. destruct (L s) as (_ & L'). rewrite L'. now rewrite (local_fl m s L). }
  split; [exists ld; split; auto|]. left. exists lf. apply H.
Qed.
Lemma rf_read a n : rf (fun R => fl_read g a n).
Proof.
  intros s lf ld. unfold full, asis, stops, fl_read. cbn [on_read steady dropping failing]. unfold dev_read, logged. cbn [s_fl set_fl]. destruct (chk g (RS g) a n) as [x|]; cbn [fst snd].
  - split; [exists ((a, n) :: ld); split; [cbn; lia|]; intros T HT; reflexivity|]. left. exists ((a, n) :: lf). reflexivity.
  - split; [exists ((a, n) :: ld); split; [cbn; lia|]; intros T HT|].
    + cbn [f_bad with_log]. destruct (Nat.ltb_spec (length ld) T) as [_|C]; [reflexivity|cbn in HT; lia].
    + cbn [f_bad with_log]. destruct (F (length lf)) eqn:EF; [right|left; exists ((a, n) :: lf); reflexivity].
      exists (length ld), (set_fl s (with_log (s_fl s) ld)), ((a, n) :: lf). split; auto. rewrite Nat.ltb_irrefl. split; reflexivity.
Qed.
Ltac rf1 := first [apply rf_read|apply rf_local; first [apply l_ret|apply l_fail; discriminate|apply l_get_buf|apply l_put_buf]|
  lazymatch goal with |- rf (fun R => bind _ _) => apply rf_bind; [|intros ?] | |- rf (fun R => match ?x with _ => _ end) => destruct x end].
Lemma rf_hdr n a : rf (fun R => read_hdr g n a). Proof. induction n; cbn [read_hdr]; repeat rf1; auto. Qed.
Lemma rf_data n h c a x : rf (fun R => read_data g n h c a x). Proof. induction n; cbn [read_data]; repeat rf1; auto. Qed.
Lemma rf_state p : rf (fun R => page_state g p). Proof. unfold page_state. repeat rf1. Qed.
Lemma rf_new a x : rf (fun R => read_new g a x). Proof. unfold read_new. repeat first [rf1|apply rf_hdr]; cbv zeta; repeat rf1. Qed.
Lemma rf_item h a x : rf (fun R => read_item g h a x). Proof. unfold read_item. cbv zeta. repeat first [rf1|apply rf_data]. Qed.

(** Page states: nothing but the log changes. *)
Lemma ps_steady p s : (forall l, fst (page_state (R := steady) g p (logged s l)) = fst (page_state (R := steady) g p s)) /\ exists l, snd (page_state (R := steady) g p s) = logged s l.
Proof.
  split; [intros l|]; unfold page_state, bind, fl_read; cbn [on_read steady]; unfold dev_read.
  - change (f_mem (s_fl (logged s l))) with (f_mem (s_fl s)). destruct (chk _ _ _ _); [reflexivity|]. change (f_mem (s_fl (logged s l))) with (f_mem (s_fl s)). destruct (chk _ _ _ _); [reflexivity|]. repeat destruct (marked _); reflexivity.
  - destruct (chk _ _ _ _); [eexists; reflexivity|]. destruct (chk _ _ _ _); [eexists; reflexivity|]. repeat destruct (marked _); exists (f_bad (s_fl s)); symmetry; apply logged_id.
Qed.
Lemma ps_dropped T p s l u : page_state (R := dropping T) g p (logged s l) = (Err dropped, u) -> exists l', u = logged s l'.
Proof.
  unfold page_state, bind, fl_read. cbn [on_read dropping]. unfold dev_read, logged. cbn [s_fl set_fl with_log f_mem f_bad].
  destruct (chk _ _ _ _) as [x|]; [intros [= -> <-]; eexists; reflexivity|]. destruct (_ <? T); [|intros [= <-]; eexists; reflexivity]. cbn [s_fl set_fl].
  destruct (chk _ _ _ _) as [x|]; [intros [= -> <-]; eexists; reflexivity|]. destruct (_ <? T); [|intros [= <-]; eexists; reflexivity].
  repeat destruct (marked _); intros [=].
Qed.
Lemma att_drop {A} T (m : M K A) s r s1 : m s = (r, s1) -> r <> Err dropped -> attempt (R := dropping T) m s = (Ok r, s1).
Proof. intros EM ND. unfold attempt. cbn [on_result dropping]. rewrite EM. destruct r as [|[[]| | | | | | | |]]; auto. now destruct ND. Qed.
Lemma att_fail {A} (m : M K A) s r s1 : m s = (r, s1) -> attempt (R := X) m s = (Ok r, s1).
Proof. intros EM. unfold attempt. cbn [on_result failing]. unfold hand_on. now rewrite EM. Qed.
Lemma att_steady {A} (m : M K A) s r s1 : m s = (r, s1) -> attempt (R := steady) m s = (Ok r, s1).
Proof. intros EM. unfold attempt. cbn [on_result steady]. unfold hand_on. now rewrite EM. Qed.
Lemma full_att {A} (m : reader -> M K A) s ld ld' : fst (m steady s) <> Err dropped -> full m s ld ld' -> full (fun R => attempt (m R)) s ld ld'.
Proof.
  intros ND (L & H). split; auto. intros T HT. specialize (H T HT). destruct (m steady s) as [r s1] eqn:EM. cbn [fst snd] in *. rewrite (att_drop T _ _ _ _ H ND), (att_steady _ _ _ _ EM). reflexivity.
Qed.

Lemma progb_up {A} Fa (m : reader -> M K A) F1 : progb g false Fa m F1 -> prog g Fa m F1.
Proof.
  induction 1; [now constructor..|eapply P_bind; eauto|eapply P_catch; eauto|apply P_shrug; auto|eapply P_weak; eauto|apply P_forget; auto].
  destruct H2 as [(? & _)|?]; [discriminate|auto].
Qed.
Lemma prog_fails {A} Fa (m : reader -> M K A) F1 : progb g false Fa m F1 -> fails m.
Proof.
  induction 1.
  - now apply rf_fails, rf_local.
  - apply rf_fails, rf_local, l_fail, H.
  - apply rf_fails, rf_local, l_ret.
  - intros s lf ld. left. assert (H : forall l, exists l', length l <= length l' /\ fl_write g a bs (logged s l) = (fst (fl_write g a bs s), logged (snd (fl_write g a bs s)) l')).
    { intros l. unfold fl_write, dev_write, logged. cbn [s_fl set_fl]. unfold with_log. cbn [f_fuel f_aw f_mem f_wc f_er f_ae f_bad]. destruct (chk g (WS g) a (length bs)) as [x|].
      - exists ((a, length bs) :: l). split; [cbn; lia|reflexivity].
      - destruct (spend _ _) as [[k fu] []]; exists l; split; auto. }
    destruct (H lf) as (lf' & _ & E1), (H ld) as (ld' & L & E2). split; [exists lf'; exact E1|]. exists ld'. split; auto.
  - intros s lf ld. left. assert (H : forall l, exists l', length l <= length l' /\ fl_erase g a b (logged s l) = (fst (fl_erase g a b s), logged (snd (fl_erase g a b s)) l')).
    { intros l. unfold fl_erase, dev_erase, logged. cbn [s_fl set_fl]. unfold with_log. cbn [f_fuel f_aw f_mem f_wc f_er f_ae f_bad]. destruct (chk g (ES g) a (b - a)) as [x|].
      - exists ((a, b - a) :: l). split; [cbn; lia|reflexivity].
      - destruct (spend _ _) as [[k fu] []]; exists l; split; auto. }
    destruct (H lf) as (lf' & _ & E1), (H ld) as (ld' & L & E2). split; [exists lf'; exact E1|]. exists ld'. split; auto.
  - apply rf_fails, rf_state.
  - apply rf_fails, rf_new.
  - apply rf_fails, rf_item.
  - intros s lf ld. destruct (IHprogb s lf ld) as [((lf1 & C1) & ld1 & FD)|[C1|(T & u & L & S1 & S2)]].
    + destruct (m steady s) as [[a|x] s1] eqn:EM; cbn [fst snd] in C1.
      * destruct (H1 a s1 lf1 ld1) as [((lf2 & C2) & ld2 & F2')|[C2|C2]].
        -- left. split; [exists lf2; unfold bind; rewrite C1, EM; exact C2|]. exists ld2. eapply full_bind; eauto.
        -- right; left. eapply stops_later; eauto.
        -- right; right. eapply skips_later; eauto.
      * left. split; [exists lf1; unfold bind; rewrite C1, EM; reflexivity|]. exists ld1. eapply full_err; eauto.
    + right; left. now apply stops_here.
    + right; right. exists T, u. split; auto. unfold bind. rewrite S1. auto.
  - destruct H2 as [(? & _)|KF]; [discriminate|]. intros s lf ld.
    assert (ND : fst (m steady s) <> Err dropped).
    { exact (prog_ends g _ _ _ (progb_up _ _ _ H) s). }
    destruct (IHprogb s lf ld) as [((lf1 & C1) & ld1 & FD)|[(T & u & lf1 & L & S1 & S2)|(T & u & L & S1 & S2)]].
    + pose proof (full_att m s ld ld1 ND FD) as FA. destruct (m steady s) as [r s1] eqn:EM. cbn [fst snd] in *. pose proof (att_fail _ _ _ _ C1) as C1'. pose proof (att_steady _ _ _ _ EM) as EM'.
      destruct (H1 r ND s1 lf1 ld1) as [((lf2 & C2) & ld2 & F2')|[C2|C2]].
      * left. split; [exists lf2; unfold bind; rewrite C1', EM'; exact C2|]. exists ld2. eapply full_bind with (m := fun R : reader => attempt (R := R) (m R)); eauto.
      * right; left. eapply stops_later with (m := fun R : reader => attempt (R := R) (m R)); eauto.
      * right; right. eapply skips_later with (m := fun R : reader => attempt (R := R) (m R)); eauto.
    + right; left. exists T, u, lf1. split; auto. split.
      * unfold bind, attempt. cbn [on_result dropping]. rewrite S1. reflexivity.
      * unfold bind. rewrite (att_fail _ _ _ _ S2), KF. reflexivity.
    + right; right. exists T, u. split; auto. split; auto. unfold bind, attempt. cbn [on_result dropping]. rewrite S1. reflexivity.
  - intros s lf ld. destruct (rf_state p s lf ld) as ((ld1 & FD) & C). destruct (ps_steady p s) as (BL & l0 & ES). pose proof (ends_state g p s) as ND. pose proof (full_att (fun R : reader => page_state (R := R) g p) s ld ld1 ND FD) as FA.
    destruct (page_state (R := steady) g p s) as [r s1] eqn:EM. cbn [fst snd] in *. pose proof (att_steady _ _ _ _ EM) as EM'.
    assert (C' : (exists lf1 r', page_state (R := X) g p (logged s lf) = (r', logged s1 lf1) /\ (forall R, k R r' = k R r)) \/ skips (fun R : reader => bind (attempt (R := R) (page_state (R := R) g p)) (k R)) s ld).
    { destruct C as [(lf1 & C)|(T & u & lf1 & L & S1 & S2)].
      - left. exists lf1, r. rewrite C, EM. auto.
      - destruct (ps_dropped T p s ld u S1) as (l1 & ->). destruct r as [x|x]; [|destruct x]; try (left; exists lf1, (Err (EStorage e)); rewrite S2; split; [subst s1; reflexivity|]; intros R; apply H1; discriminate).
        right. exists T, (logged s l1). split; auto. split; [unfold bind, attempt; cbn [on_result dropping]; rewrite S1; reflexivity|]. exists p. now rewrite BL. }
    destruct C' as [(lf1 & r' & C1 & KE)|C']; [|right; right; exact C']. pose proof (att_fail _ _ _ _ C1) as C1'.
    assert (GO : forall lf2 y, k X r (logged s1 lf1) = (y, lf2) -> bind (attempt (R := X) (page_state (R := X) g p)) (k X) (logged s lf) = (y, lf2)) by (intros lf2 y Z; unfold bind; rewrite C1', KE; exact Z).
    destruct (H0 r ND s1 lf1 ld1) as [((lf2 & C2) & ld2 & F2')|[(T & u & lf2 & L & S1 & S2)|C2]].
    + left. split; [exists lf2; rewrite (GO _ _ C2); unfold bind; rewrite EM'; reflexivity|]. exists ld2. eapply full_bind with (m := fun R : reader => attempt (R := R) (page_state (R := R) g p)); eauto.
    + right; left. destruct FA as (L0 & FA). exists T, u, lf2. split; [lia|]. split; [|now apply GO]. unfold bind. rewrite (FA T L), EM'. cbn [fst snd]. exact S1.
    + right; right. eapply skips_later with (m := fun R : reader => attempt (R := R) (page_state (R := R) g p)); eauto.
  - auto.
  - auto.
Qed.
End Fails.
