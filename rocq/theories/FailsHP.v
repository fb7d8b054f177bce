(** Histories of calls in which reads fail. *)
From Coq Require Import List NArith ZArith Arith Bool Lia.
From Verif Require Import Base BaseP Crc CrcP Flash Cache State Item Generic Queue Map Codec CodecP TMap GeomP ScanP WpP ItemP CalcP PageP WorldP LayP QPushP QRepP QIterP QNextP QStepP QMiscP QCallP KeyP MLogP MExecP MHistP Client QSpec QObs QHistP QPropsP MClient MSpec MObs MPropsP ProgP Reads ReadsP Drops DropP DropQP AeP DropMP Fails FailsP.
Import ListNotations.
Local Opaque crc16 acrc crc32.

Lemma same_err_refl e : same_err e e = true. Proof. destruct e; reflexivity. Qed.
Lemma failed_e {A} e : @is_failed A e (Err (EStorage e)) = true. Proof. apply same_err_refl. Qed.
Section Half.
Context {K : Type} (g : geom) (gok : geom_ok g).
Implicit Types (s u w : st K).
Lemma halfp_in u p : fst (page_state (R := steady) g p u) = Err ECorrupted -> p < NP g.
Proof.
  unfold page_state, bind, fl_read at 1. cbn [on_read steady]. unfold dev_read, chk. destruct (_ || _ || _); [discriminate|]. destruct (Nat.ltb_spec (paddr g p) (START g)); [discriminate|]. cbn [orb].
  destruct (Nat.ltb_spec (FEND g) (paddr g p + RS g)) as [|X]; [discriminate|]. intros _.
  pose proof (RS_pos g gok). unfold FEND, paddr in X. destruct (Nat.lt_ge_cases p (NP g)) as [L|L]; auto. apply (Nat.mul_le_mono_l _ _ (ES g)) in L. lia.
Qed.
Lemma halfp_iff u : halfp g u <-> half_marked g u = true.
Proof.
  unfold half_marked. rewrite existsb_exists. split.
  - intros (p & H). exists p. split; [|now rewrite H]. apply in_seq. pose proof (halfp_in u p H). lia.
  - intros (p & _ & H). exists p. destruct (fst (page_state (K := K) (R := steady) g p u)) as [|[]]; try discriminate. reflexivity.
Qed.
Lemma page_state_mem p u w : (forall x, f_mem (s_fl w) x = f_mem (s_fl u) x) -> fst (page_state (R := steady) g p w) = fst (page_state (R := steady) g p u).
Proof.
  intros E. unfold page_state, bind, fl_read. cbn [on_read steady]. unfold dev_read. destruct (chk _ _ _ _); [reflexivity|]. rewrite (rd_ext (f_mem (s_fl u)) (f_mem (s_fl w)) _ _ (fun x _ => E x)).
  destruct (chk _ _ _ _); [reflexivity|]. rewrite (rd_ext (f_mem (s_fl u)) (f_mem (s_fl w)) _ _ (fun x _ => E x)). repeat destruct (marked _); reflexivity.
Qed.
Lemma halfp_same u w : (forall x, f_mem (s_fl w) x = f_mem (s_fl u) x) -> halfp g u -> halfp g w.
Proof. intros E (p & H). exists p. now rewrite (page_state_mem p u w). Qed.
Lemma fworld_half ws aw pg u : WorldP.fworld g ws true aw pg (s_fl u) -> ~ halfp g u.
Proof.
  intros (_ & P & (_ & NB) & _) (p & H). pose proof (halfp_in u p H) as Hp. rewrite (page_state_eq g gok ws p _ u Hp (P p Hp)) in H. cbn [fst] in H. specialize (NB eq_refl p Hp). destruct (pg p); try discriminate. now apply NB.
Qed.
Lemma half_fworld ws ae aw pg u : WorldP.fworld g ws ae aw pg (s_fl u) -> half_marked g u = false -> forall p, p < NP g -> pg p <> PBad.
Proof.
  intros (_ & P & _) H p Hp E. assert (X : half_marked g u = true); [|congruence]. apply halfp_iff. exists p. rewrite (page_state_eq g gok ws p _ u Hp (P p Hp)), E. reflexivity.
Qed.
End Half.
Section QFail.
Context (g : geom) (gok : geom_ok g) (ae : bool) (aw : nat) (SG : single_ok g false ae).
Notation qst := (qst g false ae aw).
Notation qdo := (qdo (rup g) (HL g) (cap g) (2 <=? NP g) true).
Lemma q_exec_fails e F c s :
  (exists lf', q_exec (R := failing e F) g c s = (fst (q_exec g c s), logged (snd (q_exec g c s)) lf')) \/
  (exists T u lf' a a', q_exec (R := dropping T) g c s = (a, u) /\ q_gone a = true /\ q_exec (R := failing e F) g c s = (a', logged u lf') /\ q_failed e a' = true) \/
  (exists T u a, length (f_bad (s_fl s)) <= T /\ q_exec (R := dropping T) g c s = (a, u) /\ q_gone a = true /\ halfp g u).
Proof.
  assert (PL : forall A (f : res A -> qans) (m : reader -> M unit A), (forall R s, q_exec (R := R) g c s = ans1 f (m R s)) -> (forall r, q_gone (f r) = is_gone r) -> (forall r, q_failed e (f r) = is_failed e r) -> fails g e F m ->
    (exists lf', q_exec (R := failing e F) g c s = (fst (q_exec g c s), logged (snd (q_exec g c s)) lf')) \/
    (exists T u lf' a a', q_exec (R := dropping T) g c s = (a, u) /\ q_gone a = true /\ q_exec (R := failing e F) g c s = (a', logged u lf') /\ q_failed e a' = true) \/
    (exists T u a, length (f_bad (s_fl s)) <= T /\ q_exec (R := dropping T) g c s = (a, u) /\ q_gone a = true /\ halfp g u)).
  { intros A f m EX GN FN FL. specialize (FL s (f_bad (s_fl s)) (f_bad (s_fl s))). unfold asis, stops, skips in FL. rewrite logged_id in FL. destruct FL as [((lf' & H) & _)|[(T & u & lf' & _ & H1 & H2)|(T & u & LT & H1 & H2)]].
    - left. exists lf'. rewrite !EX. unfold ans1. rewrite H. reflexivity.
    - right; left. exists T, u, lf', (f (Err dropped)), (f (Err (EStorage e))). rewrite !EX. unfold ans1. rewrite H1, H2, GN, FN. cbn [fst snd]. rewrite failed_e. auto.
    - right; right. exists T, u, (f (Err dropped)). rewrite !EX. unfold ans1. rewrite H1, GN. auto. }
  destruct c as [d ow|b|b|sc| |].
  - exact (PL _ AUnit (fun R => q_push g d ow) (fun _ _ => eq_refl) (fun _ => eq_refl) (fun _ => eq_refl) (prog_fails g e F _ _ _ (p_push g d ow))).
  - exact (PL _ AItem (fun R => q_pop g b) (fun _ _ => eq_refl) (fun _ => eq_refl) (fun _ => eq_refl) (prog_fails g e F _ _ _ (p_q_pop g b))).
  - exact (PL _ AItem (fun R => q_peek g b) (fun _ _ => eq_refl) (fun _ => eq_refl) (fun _ => eq_refl) (prog_fails g e F _ _ _ (p_q_peek g b))).
  - exact (PL _ AIter (fun R => q_iterate g sc) (fun _ _ => eq_refl) (fun _ => eq_refl) (fun _ => eq_refl) (prog_fails g e F _ _ _ (p_q_iterate g sc))).
  - exact (PL _ AMax (fun R => q_max_fit g) (fun _ _ => eq_refl) (fun _ => eq_refl) (fun _ => eq_refl) (prog_fails g e F _ _ _ (p_max_fit g))).
  - exact (PL _ ANum (fun R => q_space_left g) (fun _ _ => eq_refl) (fun _ => eq_refl) (fun _ => eq_refl) (prog_fails g e F _ _ _ (p_space_left g))).
Qed.
Lemma q_dropping_ae T c (s : st unit) : f_fuel (s_fl s) = None ->
  q_exec (R := dropping T) g c (aes s) = (fst (q_exec (R := dropping T) g c s), aes (snd (q_exec (R := dropping T) g c s))) /\ f_ae (s_fl (snd (q_exec (R := dropping T) g c s))) = f_ae (s_fl s).
Proof.
  intros FU.
  assert (PL : forall A (f : res A -> qans) (m : reader -> M unit A), (forall s, q_exec (R := dropping T) g c s = ans1 f (m (dropping T) s)) -> unae (m (dropping T)) ->
    q_exec (R := dropping T) g c (aes s) = (fst (q_exec (R := dropping T) g c s), aes (snd (q_exec (R := dropping T) g c s))) /\ f_ae (s_fl (snd (q_exec (R := dropping T) g c s))) = f_ae (s_fl s)).
  { intros A f m EX UA. rewrite !EX. destruct (UA s FU) as (E & _ & F). unfold ans1. rewrite E. cbn [fst snd]. auto. }
  pose proof (@prog_ae unit g (dropping T) (read_dropping g T) (att_dropping T)) as PA.
  destruct c as [d ow|b|b|sc| |].
  - exact (PL _ AUnit (fun R => q_push g d ow) (fun _ => eq_refl) (PA _ _ _ _ (p_push g d ow))).
  - exact (PL _ AItem (fun R => q_pop g b) (fun _ => eq_refl) (PA _ _ _ _ (p_q_pop g b))).
  - exact (PL _ AItem (fun R => q_peek g b) (fun _ => eq_refl) (PA _ _ _ _ (p_q_peek g b))).
  - exact (PL _ AIter (fun R => q_iterate g sc) (fun _ => eq_refl) (PA _ _ _ _ (p_q_iterate g sc))).
  - exact (PL _ AMax (fun R => q_max_fit g) (fun _ => eq_refl) (PA _ _ _ _ (p_max_fit g))).
  - exact (PL _ ANum (fun R => q_space_left g) (fun _ => eq_refl) (PA _ _ _ _ (p_space_left g))).
Qed.
Lemma qst_up Y s : qst Y s -> half_marked g s = false -> QHistP.qst g false true aw Y (aes s).
Proof.
  intros (pg & LY & QI & (A1 & A2 & (A3 & A6) & A4 & A5) & SW) HM. exists pg. split; [exact LY|]. split; [exact QI|]. split; [|exact SW]. split; [exact A1|].
  split; [|split; [split; [reflexivity|intros _; eapply (half_fworld g gok false ae aw pg s); auto; repeat (split; auto)]|split; [exact A4|exact A5]]].
  intros p Hp. eapply page_is_ext; [exact gok| |apply A2, Hp]. intros y _. split; reflexivity.
Qed.
Lemma qst_down Y s : QHistP.qst g false true aw Y (aes s) -> f_ae (s_fl s) = ae -> qst Y s.
Proof.
  intros (pg & LY & QI & (A1 & A2 & (A3 & A6) & A4 & A5) & SW) AE. exists pg. split; [exact LY|]. split; [exact QI|]. split; [|exact SW]. split; [exact A1|].
  split; [|split; [split; [exact AE|intros _; exact (A6 eq_refl)]|split; [exact A4|discriminate]]].
  intros p Hp. eapply page_is_ext; [exact gok| |apply A2, Hp]. intros y _. split; reflexivity.
Qed.
Lemma qst_clear Y s : ae = true -> qst Y s -> half_marked g s = false.
Proof.
  intros -> (pg & _ & _ & FW & _). destruct (half_marked g s) eqn:H; auto. apply (halfp_iff g gok) in H. now destruct (fworld_half g gok false aw pg s FW).
Qed.
Lemma call_fail e F c Y s a s' : qst Y s -> half_marked g s = false -> call_ok g false aw c -> q_exec (R := failing e F) g c (power s None) = (a, s') ->
  exists Y', qst Y' s' /\ (qdo (content Y) c a (content Y') \/ (q_failed e a = true /\ exists a', qdo (content Y) c a' (content Y'))).
Proof.
  intros QS HM CO E. set (s0 := power s None) in *.
  assert (GO : forall T u b, q_exec (R := dropping T) g c s0 = (b, u) -> q_gone b = true -> exists a' Y', qdo (content Y) c a' (content Y') /\ qst Y' u /\ ~ halfp g u).
  { intros T u b ED G. destruct (q_dropping_ae T c s0 eq_refl) as (EA & AE). rewrite ED in EA, AE. cbn [fst snd] in EA, AE. change (aes s0) with (power (aes s) None) in EA.
    destruct (call_drop g gok true aw T (or_intror (or_introl eq_refl)) c Y (aes s) b (aes u) (qst_up Y s QS HM) CO EA) as [(_ & a' & Y' & D & Q')|(G' & _)]; [|congruence]. exists a', Y'. split; auto. split.
    - apply qst_down; auto. rewrite AE. destruct QS as (pg & _ & _ & (_ & _ & (A3 & _) & _) & _). exact A3.
    - destruct Q' as (pg & _ & _ & FW & _). intros H. apply (fworld_half g gok false aw pg (aes u) FW). eapply halfp_same; [|exact H]. reflexivity. }
  destruct (q_exec_fails e F c s0) as [(lf' & H)|[(T & u & lf' & b & a' & H1 & H2 & H3 & H4)|(T & u & b & LT & H1 & H2 & H3)]].
  - rewrite E in H. destruct (q_exec (R := steady) g c s0) as [a2 s2] eqn:E2. cbn [fst snd] in H. injection H as -> ->.
    destruct (does_ok g gok false ae aw SG Y s c a2 s2 QS CO E2) as (_ & Q1 & Z & _). exists (snd (yact g c Y)). split; [now apply qst_log|now left].
  - rewrite E in H3. injection H3 as -> ->. destruct (GO T u b H1 H2) as (a2 & Y' & D & Q' & _). exists Y'. split; [now apply qst_log|]. right. split; auto. now exists a2.
  - destruct (GO T u b H1 H2) as (a2 & Y' & D & Q' & N). contradiction.
Qed.
End QFail.

Section QHist.
Context (g : geom) (ae : bool) (aw : nat) (ST : setting true g ae aw).
Notation qst := (QHistP.qst g false ae aw).
Theorem fhist_ok evs : forall Y s l s', qst Y s -> Forall (qfev_ok g) evs -> ae = true \/ q_clear g s evs -> q_frun g s evs = (l, s') ->
  exists Y', qst Y' s' /\ qftrace (rup g) (HL g) (cap g) (2 <=? NP g) (content Y) evs l (content Y').
Proof.
  pose proof (setting_single _ _ _ _ ST) as SG. pose proof ST as [gok _]. cbn [negb] in SG.
  induction evs as [|[[c p|c]|c e F] evs IH]; intros Y s l s' QS EV CL E; cbn [q_frun] in E; [injection E as <- <-; exists Y; split; [auto|constructor]|..]; inversion EV as [|? ? EO EV']; subst; cbn [q_clear] in CL.
  - destruct (q_exec (R := steady) g c (power s p)) as [a s1] eqn:E1. destruct (q_frun g s1 evs) as [l2 s2] eqn:E2. injection E as <- <-. cbn [snd] in CL.
    destruct (hist_ok g gok false ae aw SG [ECall c p] Y s [a] s1 QS) as (Y1 & Q1 & T1).
    { constructor; [|constructor]. apply (setting_ev true g ae aw _ ST EO). }
    { cbn [q_run]. now rewrite E1. }
    inversion T1 as [|? ? ? ? ? ? ? ? Z ZZ|]; subst. inversion ZZ; subst. destruct (IH Y1 s1 l2 s2 Q1 EV' CL E2) as (Y' & Q' & T'). exists Y'. split; auto. econstructor; eauto.
  - destruct QS as (pg & LY & QI & SW). destruct (IH Y (set_ca s c) l s') as (Y' & Q' & T'); auto. { exists pg. split; auto. split; auto. apply sworld_boot; auto. } exists Y'. split; auto. now constructor.
  - assert (HM : half_marked g s = false) by (destruct CL as [CL|(CL & _)]; [eapply qst_clear; eauto|exact CL]).
    destruct (q_exec (R := fail_at s e F) g c (power s None)) as [a s1] eqn:E1. destruct (q_frun g s1 evs) as [l2 s2] eqn:E2. injection E as <- <-. cbn [snd] in CL.
    pose proof (setting_call true g ae aw c ST EO) as CO. destruct (call_fail g gok ae aw SG e (fun i => F (i - length (f_bad (s_fl s)))) c Y s a s1 QS HM CO E1) as (Y1 & Q1 & Z).
    destruct (IH Y1 s1 l2 s2 Q1 EV') as (Y' & Q' & T'); [destruct CL as [CL|(_ & CL)]; auto|exact E2|]. exists Y'. split; auto. destruct Z as [Z|(G & a' & Z)]; [eapply FTDone; eauto|eapply FTFail; eauto].
Qed.
End QHist.
Theorem fail_queue g f c evs l s : erased g f -> f_fuel f = None -> fresh_cache (NP g) c -> setting true g (f_ae f) (f_aw f) -> Forall (qfev_ok g) evs -> f_ae f = true \/ q_clear g (st_new f c) evs ->
  q_frun g (st_new f c) evs = (l, s) -> exists q, qftrace (rup g) (HL g) (page_cap g) (2 <=? NP g) [] evs l q /\ q_holds g s q.
Proof.
  intros ER FU FC ST EV CL E. pose proof (setting_single _ _ _ _ ST) as SG. pose proof ST as [gok _]. cbn [negb] in SG.
  pose proof (qst_new g gok false (f_ae f) (f_aw f) f c ER eq_refl eq_refl (fun _ => FU) FC) as Q0.
  destruct (fhist_ok g _ _ ST evs _ _ _ _ Q0 EV CL E) as (Y & QS & T). exists (content Y). split; [exact T|]. eapply holds_of; eauto.
Qed.

Definition no_iter {K} (c : mcall K) : Prop := match c with MIter _ _ => False | _ => True end.
Section MFail.
Context (g : geom) (gok : geom_ok g) (ae : bool) (aw : nat) (np2 : 2 <= NP g).
Context {K : Type} (KO : keyops K) (legal : K -> Prop) (KC : key_codec KO legal).
Implicit Types (s : st K).
Notation mst ae := (mst g false ae aw KO legal).
Notation mcok := (mcok g false aw KO legal).
Notation mdo := (MSpec.mdo (k_eqb KO) legal (item_bytes KO) (mbig g) true).
Lemma m_exec_fails e F c s : no_iter c ->
  (exists lf', m_exec (R := failing e F) KO g c s = (fst (m_exec (R := steady) KO g c s), logged (snd (m_exec (R := steady) KO g c s)) lf')) \/
  (exists T u lf' a a', m_exec (R := dropping T) KO g c s = (a, u) /\ m_gone a = true /\ m_exec (R := failing e F) KO g c s = (a', logged u lf') /\ m_failed e a' = true) \/
  (exists T u a, length (f_bad (s_fl s)) <= T /\ m_exec (R := dropping T) KO g c s = (a, u) /\ m_gone a = true /\ halfp g u).
Proof.
  intros NI. assert (PL : forall A (f : res A -> mans K) (m : reader -> M K A), (forall R s, m_exec (R := R) KO g c s = mans1 f (m R s)) -> (forall r, m_gone (f r) = is_gone r) -> (forall r, m_failed e (f r) = is_failed e r) -> fails g e F m ->
    (exists lf', m_exec (R := failing e F) KO g c s = (fst (m_exec (R := steady) KO g c s), logged (snd (m_exec (R := steady) KO g c s)) lf')) \/
    (exists T u lf' a a', m_exec (R := dropping T) KO g c s = (a, u) /\ m_gone a = true /\ m_exec (R := failing e F) KO g c s = (a', logged u lf') /\ m_failed e a' = true) \/
    (exists T u a, length (f_bad (s_fl s)) <= T /\ m_exec (R := dropping T) KO g c s = (a, u) /\ m_gone a = true /\ halfp g u)).
  { intros A f m EX GN FN FL. specialize (FL s (f_bad (s_fl s)) (f_bad (s_fl s))). unfold asis, stops, skips in FL. rewrite logged_id in FL. destruct FL as [((lf' & H) & _)|[(T & u & lf' & _ & H1 & H2)|(T & u & LT & H1 & H2)]].
    - left. exists lf'. rewrite !EX. unfold mans1. rewrite H. reflexivity.
    - right; left. exists T, u, lf', (f (Err dropped)), (f (Err (EStorage e))). rewrite !EX. unfold mans1. rewrite H1, H2, GN, FN. cbn [fst snd]. rewrite failed_e. auto.
    - right; right. exists T, u, (f (Err dropped)). rewrite !EX. unfold mans1. rewrite H1, GN. auto. }
  destruct c as [b k v|b k|b k|b|b bs]; [..|destruct NI].
  - exact (PL _ RUnit (fun R => m_store KO g b k v) (fun _ _ => eq_refl) (fun _ => eq_refl) (fun _ => eq_refl) (prog_fails g e F _ _ _ (p_store KO g b k v))).
  - exact (PL _ RVal (fun R => m_fetch KO g b k) (fun _ _ => eq_refl) (fun _ => eq_refl) (fun _ => eq_refl) (prog_fails g e F _ _ _ (p_fetch KO g b k))).
  - exact (PL _ RUnit (fun R => m_remove KO g b k) (fun _ _ => eq_refl) (fun _ => eq_refl) (fun _ => eq_refl) (prog_fails g e F _ _ _ (p_remove KO g b k))).
  - exact (PL _ RUnit (fun R => m_remove_all KO g b) (fun _ _ => eq_refl) (fun _ => eq_refl) (fun _ => eq_refl) (prog_fails g e F _ _ _ (p_remove_all KO g b))).
Qed.
Lemma mst_log ae' n t log m s l : mst ae' n t log m s -> mst ae' n t log m (logged s l).
Proof.
  intros (Y & ML & R). exists Y. split; [|exact R]. destruct ML as (pg & LY & (FW & SW) & R2). exists pg. split; auto. split; [|exact R2]. split; [|exact SW]. eapply fworld_same; [exact gok| |exact FW]. repeat split.
Qed.
Lemma mst_ae ae' n t log m s : mst ae' n t log m s -> f_ae (s_fl s) = ae'.
Proof. intros (Y & (pg & _ & ((_ & _ & (A & _) & _) & _) & _) & _). exact A. Qed.
Lemma cov_none t (c : mcall K) : covered true t c (Some 0) -> covered ae t c None \/ ~ no_iter c.
Proof. destruct c; cbn [covered no_iter]; intuition auto. Qed.
Lemma mcall_fail e F n t log m s c ca a s' : mst ae n t log m s -> mcok n c -> no_iter c -> ae = true \/ whole t = true -> covered true t c (Some 0) -> fresh_cache (NP g) ca ->
  m_exec (R := failing e F) KO g c (power s None) = (a, s') ->
  exists m' log', mst ae n (if m_failed e a then gone_mode t c else after_call t c a) log' m' (if m_failed e a then set_ca s' ca else s') /\
    (mdo m log c a m' log' \/ (m_failed e a = true /\ exists a', mdo m log c a' m' log')).
Proof.
  intros MS CO NI HW CV FC E. set (s0 := power s None) in *.
  set (t1 := mkmode (sure t) (fresh t) true). assert (M1 : mst ae n t1 log m s).
  { destruct MS as (Y & ML & MG & SU & WH & VM). exists Y. split; auto. split; auto. split; auto. split; auto. intros _. destruct HW as [HW|HW]; [eapply mlay_whole; eauto|auto]. }
  pose proof (mst_up g gok aw np2 KO legal ae n t1 log m s M1 eq_refl) as MU. pose proof (mst_ae _ _ _ _ _ _ MS) as A0.
  assert (CV1 : covered true t1 c (Some 0)) by (destruct c; cbn in *; intuition auto).
  assert (GO : forall T u b, m_exec (R := dropping T) KO g c s0 = (b, u) -> m_gone b = true -> exists a' m' log', mdo m log c a' m' log' /\ mst ae n (gone_mode t c) log' m' (set_ca u ca) /\ ~ halfp g u).
  { intros T u b ED G. destruct (m_dropping_ae g KO T c s0 eq_refl) as (EA & AE). rewrite ED in EA, AE. cbn [fst snd] in EA, AE. change (aes s0) with (power (aes s) None) in EA.
    destruct (mread_ok0 g gok true aw np2 KO legal KC n t1 log m (aes s) c T ca b (aes u) MU CO CV1 FC EA) as [(_ & a' & m' & log' & D & MS')|(G' & _)]; [|congruence]. exists a', m', log'. split; auto. split.
    - eapply mst_less; [| | |eapply (mst_down g gok aw np2 KO legal ae _ _ _ _ (set_ca u ca) MS'); exact (eq_trans AE A0)]; auto.
    - destruct MS' as (Y & (pg & _ & (FW & _) & _) & _). intros H. apply (fworld_half g gok false aw pg (set_ca (aes u) ca) FW). eapply halfp_same; [|exact H]. reflexivity. }
  destruct (m_exec_fails e F c s0 NI) as [(lf' & H)|[(T & u & lf' & b & a' & H1 & H2 & H3 & H4)|(T & u & b & LT & H1 & H2 & H3)]].
  - rewrite E in H. destruct (m_exec (R := steady) KO g c s0) as [a2 s2] eqn:E2. cbn [fst snd] in H. injection H as -> ->.
    destruct (m_failed e a2) eqn:FA.
    + destruct (m_steady_ae g KO c s0 eq_refl) as (EA & AE). rewrite E2 in EA, AE. cbn [fst snd] in EA, AE. change (aes s0) with (power (aes s) None) in EA.
      assert (CV' : covered true t1 c None) by (destruct c; cbn [covered] in *; intuition auto).
      destruct (mst_step g gok false true aw np2 KO legal KC n t1 log m (aes s) c None a2 (aes s2) MU CO CV' (fun _ => eq_refl) EA) as (m' & log' & D & MS'). exists m', log'. split; [|now left].
      pose proof (mst_down g gok aw np2 KO legal ae _ _ _ _ s2 MS' (eq_trans AE A0)) as MD. eapply mst_reboot; [exact gok|exact np2|exact FC| | | |exact MD]; [repeat split| |auto].
      unfold gone_mode, after_call. destruct (was_cut a2), c; cbn; auto; discriminate.
    + assert (CV' : covered ae t c None) by (destruct (cov_none t c CV) as [?|X]; [auto|now destruct X]).
      destruct (mst_step g gok false ae aw np2 KO legal KC n t log m s c None a2 s2 MS CO CV' (fun _ => eq_refl) E2) as (m' & log' & D & MS'). exists m', log'. split; [now apply mst_log|now left].
  - rewrite E in H3. injection H3 as -> ->. rewrite H4. destruct (GO T u b H1 H2) as (a2 & m' & log' & D & M' & _). exists m', log'. split; [exact (mst_log ae n _ _ _ (set_ca u ca) lf' M')|]. right. split; auto. now exists a2.
  - destruct (GO T u b H1 H2) as (a2 & m' & log' & D & M' & N). contradiction.
Qed.
Notation mftrace := (mftrace (k_eqb KO) legal (item_bytes KO) (mbig g)).
Theorem mfhist_ok (ST : msetting true g aw) n evs : forall t log m s l s', mst ae n t log m s -> Forall (mfev_ok KO legal g n) evs -> calm_f ae t evs l -> m_frun KO g s evs = (l, s') ->
  exists t' m' log', mst ae n t' log' m' s' /\ mftrace m log evs l m' log'.
Proof.
  induction evs as [|[[c p|c]|c e F ca] evs IH]; intros t log m s l s' MS EV CA E; cbn [m_frun] in E; [injection E as <- <-; exists t, m, log; split; [auto|constructor]|..]; inversion EV as [|? ? EO EV']; subst.
  - destruct (m_exec (R := steady) KO g c (power s p)) as [a s1] eqn:E1. destruct (m_frun KO g s1 evs) as [l2 s2] eqn:E2. injection E as <- <-. cbn [calm_f] in CA. destruct CA as (CV & CA). destruct EO as (_ & CO).
    destruct (mst_step g gok false ae aw np2 KO legal KC n t log m s c p a s1 MS (mcall_mcok KO legal true g aw n c ST CO) CV (fun X => ltac:(discriminate)) E1) as (m1 & log1 & D & MS1).
    destruct (IH _ _ _ _ _ _ MS1 EV' CA E2) as (t' & m' & log' & MS' & T'). exists t', m', log'. split; auto. econstructor; eauto.
  - assert (CA' : calm_f ae (mkmode (sure t) true (whole t)) evs l) by (destruct l; exact CA).
    destruct (IH _ _ _ _ _ _ (mst_boot g false ae aw np2 KO legal n _ _ _ _ _ EO MS) EV' CA' E) as (t' & m' & log' & MS' & T'). exists t', m', log'. split; auto. now constructor.
  - destruct (m_exec (R := fail_at s e F) KO g c (power s None)) as [a s1] eqn:E1. destruct (m_frun KO g (if m_failed e a then set_ca s1 ca else s1) evs) as [l2 s2] eqn:E2. injection E as <- <-. destruct EO as (CO & FC & NI).
    cbn [calm_f] in CA. destruct CA as (HW & CV & CA).
    destruct (mcall_fail e (fun i => F (i - length (f_bad (s_fl s)))) n t log m s c ca a s1 MS (mcall_mcok KO legal true g aw n c ST CO) NI HW CV FC E1) as (m1 & log1 & MS1 & Z).
    destruct (IH _ _ _ _ _ _ MS1 EV' CA E2) as (t' & m' & log' & MS' & T'). exists t', m', log'. split; auto. destruct Z as [Z|(G & a' & Z)]; [eapply FMDone; eauto|eapply FMFail; eauto].
Qed.
End MFail.
Theorem fail_map {K} (KO : keyops K) (legal : K -> Prop) g n f c evs l s : key_codec KO legal -> erased g f -> f_fuel f = None -> fresh_cache (NP g) c -> msetting true g (f_aw f) ->
  Forall (mfev_ok KO legal g n) evs -> calm_f (f_ae f) calm0 evs l -> m_frun KO g (st_new f c) evs = (l, s) ->
  exists m log, mftrace (k_eqb KO) legal (item_bytes KO) (mbig g) (@nothing K) [] evs l m log /\ m_holds KO legal g n s m.
Proof.
  intros KC ER FU FC ST EV CA E. pose proof ST as (gok & np2 & _).
  pose proof (mst_new g gok false (f_ae f) (f_aw f) np2 KO legal n f c ER eq_refl eq_refl (fun _ => FU) FC) as M0.
  destruct (mfhist_ok g gok (f_ae f) (f_aw f) np2 KO legal KC ST n evs _ _ _ _ _ _ M0 EV CA E) as (t' & m & log & MS & T). exists m, log. split; auto. eapply mst_holds; eauto.
Qed.

(** Any state. *)
Lemma q_any_fail g s c e F : geom_ok g -> let r := q_exec (R := steady) g c (power s None) in let d := q_exec (R := fail_at s e F) g c (power s None) in
  (fst d = fst r /\ same_but_log (snd r) (snd d)) \/
  (q_failed e (fst d) = true /\ exists k, same_flash (snd d) (snd (q_exec (R := steady) g c (power s (Some k))))) \/
  (exists t, let w := q_exec (R := drop_at s t) g c (power s None) in q_gone (fst w) = true /\ half_marked g (snd w) = true).
Proof.
  intros gok. cbv zeta. unfold fail_at. set (s0 := power s None).
  assert (DR : forall T u b, q_exec (R := dropping T) g c s0 = (b, u) -> q_gone b = true -> exists k, same_fl (s_fl u) (s_fl (snd (q_exec (R := steady) g c (power s (Some k)))))).
  { intros T u b ED G. 
    assert (PL : forall A (f : res A -> qans) (m : reader -> M unit A), (forall R s, q_exec (R := R) g c s = ans1 f (m R s)) -> (forall r, q_gone (f r) = is_gone r) -> drops T m -> ends (m steady) ->
      exists k, same_fl (s_fl u) (s_fl (snd (q_exec (R := steady) g c (power s (Some k)))))).
    { intros A f m EX GN D EN. rewrite EX in ED. unfold ans1 in ED. injection ED as <- <-. rewrite GN in G. apply gone_iff in G. destruct (D s0 (f_bad (s_fl s0)) eq_refl) as [(l' & H)|(H & k & SF & _)]; rewrite logged_id in *.
      - exfalso. rewrite H in G. cbn [fst] in G. now destruct (EN s0).
      - exists k. rewrite EX. exact SF. }
    destruct c as [d ow|b'|b'|sc| |].
    - exact (PL _ AUnit (fun R => q_push g d ow) (fun _ _ => eq_refl) (fun _ => eq_refl) (prog_drops g T _ _ _ (p_push g d ow)) (prog_ends g _ _ _ (p_push g d ow))).
    - exact (PL _ AItem (fun R => q_pop g b') (fun _ _ => eq_refl) (fun _ => eq_refl) (prog_drops g T _ _ _ (p_q_pop g b')) (prog_ends g _ _ _ (p_q_pop g b'))).
    - exact (PL _ AItem (fun R => q_peek g b') (fun _ _ => eq_refl) (fun _ => eq_refl) (prog_drops g T _ _ _ (p_q_peek g b')) (prog_ends g _ _ _ (p_q_peek g b'))).
    - exact (PL _ AIter (fun R => q_iterate g sc) (fun _ _ => eq_refl) (fun _ => eq_refl) (prog_drops g T _ _ _ (p_q_iterate g sc)) (prog_ends g _ _ _ (p_q_iterate g sc))).
    - exact (PL _ AMax (fun R => q_max_fit g) (fun _ _ => eq_refl) (fun _ => eq_refl) (prog_drops g T _ _ _ (p_max_fit g)) (prog_ends g _ _ _ (p_max_fit g))).
    - exact (PL _ ANum (fun R => q_space_left g) (fun _ _ => eq_refl) (fun _ => eq_refl) (prog_drops g T _ _ _ (p_space_left g)) (prog_ends g _ _ _ (p_space_left g))). }
  match goal with |- context [failing e ?G] => set (F' := G) end.
  destruct (q_exec_fails g e F' c s0) as [(lf' & H)|[(T & u & lf' & b & a' & H1 & H2 & H3 & H4)|(T & u & b & LT & H1 & H2 & H3)]].
  - left. rewrite H. cbn [fst snd]. split; auto. now exists lf'.
  - right; left. destruct (DR T u b H1 H2) as (k & SF). rewrite H3. cbn [fst snd]. split; [exact H4|]. exists k. exact SF.
  - right; right. exists (T - length (f_bad (s_fl s))). unfold drop_at.
    rewrite (Nat.add_comm (length _)), Nat.sub_add by (exact LT). fold s0. rewrite H1. cbn [fst snd]. split; [exact H2|]. now apply (halfp_iff g gok).
Qed.
Lemma m_any_fail {K} (KO : keyops K) g s c e F : geom_ok g -> no_iter c -> let r := m_exec (R := steady) KO g c (power s None) in let d := m_exec (R := fail_at s e F) KO g c (power s None) in
  (fst d = fst r /\ same_but_log (snd r) (snd d)) \/
  (m_failed e (fst d) = true /\ exists k, same_flash (snd d) (snd (m_exec (R := steady) KO g c (power s (Some k))))) \/
  (exists t, let w := m_exec (R := drop_at s t) KO g c (power s None) in m_gone (fst w) = true /\ half_marked g (snd w) = true).
Proof.
  intros gok NI. cbv zeta. unfold fail_at. set (s0 := power s None).
  assert (DR : forall T u b, m_exec (R := dropping T) KO g c s0 = (b, u) -> m_gone b = true -> exists k, same_fl (s_fl u) (s_fl (snd (m_exec (R := steady) KO g c (power s (Some k)))))).
  { intros T u b ED G. destruct (m_exec_drops g KO T c s0 (f_bad (s_fl s0)) eq_refl) as [(l' & X & Y)|(_ & k & SF)]; rewrite logged_id, ED in *; cbn [fst snd] in *; [injection X as -> _; congruence|]. exists k. exact SF. }
  match goal with |- context [failing e ?G] => set (F' := G) end.
  destruct (m_exec_fails g KO e F' c s0 NI) as [(lf' & H)|[(T & u & lf' & b & a' & H1 & H2 & H3 & H4)|(T & u & b & LT & H1 & H2 & H3)]].
  - left. rewrite H. cbn [fst snd]. split; auto. now exists lf'.
  - right; left. destruct (DR T u b H1 H2) as (k & SF). rewrite H3. cbn [fst snd]. split; [exact H4|]. exists k. exact SF.
  - right; right. exists (T - length (f_bad (s_fl s))). unfold drop_at.
    rewrite (Nat.add_comm (length _)), Nat.sub_add by (exact LT). fold s0. rewrite H1. cbn [fst snd]. split; [exact H2|]. now apply (halfp_iff g gok).
Qed.
Lemma t_any_fail {K T} (KO : keyops K) (V : valops T) g s b k v e F : geom_ok g -> let r := t_store (R := steady) KO g V b k v (power s None) in let d := t_store (R := fail_at s e F) KO g V b k v (power s None) in
  (fst d = fst r /\ same_but_log (snd r) (snd d)) \/
  (is_failed e (fst d) = true /\ exists j, same_flash (snd d) (snd (t_store (R := steady) KO g V b k v (power s (Some j))))) \/
  (exists t, let w := t_store (R := drop_at s t) KO g V b k v (power s None) in is_gone (fst w) = true /\ half_marked g (snd w) = true).
Proof.
  intros gok. cbv zeta. unfold fail_at. set (s0 := power s None). match goal with |- context [failing e ?G] => set (F' := G) end.
  pose proof (prog_fails g e F' _ _ _ (p_t_store KO g V b k v) s0 (f_bad (s_fl s0)) (f_bad (s_fl s0))) as FL. unfold asis, stops, skips in FL. rewrite logged_id in FL.
  destruct FL as [((lf' & H) & _)|[(T' & u & lf' & _ & H1 & H2)|(T' & u & LT & H1 & H2)]].
  - left. rewrite H. cbn [fst snd]. split; auto. now exists lf'.
  - right; left. rewrite H2. cbn [fst snd]. split; [apply failed_e|]. 
    destruct (prog_drops g T' _ _ _ (p_t_store KO g V b k v) s0 (f_bad (s_fl s0)) eq_refl) as [(l' & H)|(H & j & SF & _)]; rewrite logged_id in *.
    + exfalso. rewrite H in H1. injection H1 as H1 _. now destruct (prog_ends g _ _ _ (p_t_store (lo := true) KO g V b k v) s0).
    + exists j. rewrite H1 in SF. exact SF.
  - right; right. exists (T' - length (f_bad (s_fl s))). unfold drop_at. rewrite (Nat.add_comm (length _)), Nat.sub_add by (exact LT). fold s0. rewrite H1. cbn [fst snd]. split; [reflexivity|]. now apply (halfp_iff g gok).
Qed.
