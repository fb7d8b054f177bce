(** Map histories with power failures on different caches. *)
From Coq Require Import List NArith ZArith Arith Bool Lia ZifyBool ZifyNat ZifyN.
From Verif Require Import Base BaseP Crc CrcP Flash Cache State Item Generic Map Codec CodecP GeomP ScanP WpP ItemP CalcP PageP WorldP LayP QPushP QRepP QStepP QCallP KeyP MLogP MFetchP MMigP MStoreP MCallP MRemP MRmvP MIterP Client QSpec QObs MClient MSpec MExecP MHistP MWearP MObs MPropsP MTwinP.
Import ListNotations.
Local Opaque crc16 acrc crc32.

Section Props.
Context {K : Type} (KO : keyops K) (legal : K -> Prop).
Notation m_reached := (m_reached KO legal).
Implicit Types (s : st K).

Definition same_flash s1 s2 : Prop := f_mem (s_fl s1) = f_mem (s_fl s2) /\ f_wc (s_fl s1) = f_wc (s_fl s2) /\ f_er (s_fl s1) = f_er (s_fl s2).
Lemma twin_flash g ws ae aw n log t1 t2 s1 s2 : mtwin g ws ae aw KO legal n log t1 t2 s1 s2 -> same_flash s1 s2.
Proof. intros (E & _). repeat split; now rewrite E. Qed.
Lemma mcalls_eq (evs : list (mev K)) : mcalls evs = m_calls evs.
Proof. induction evs as [|[c p|c] evs IH]; cbn; auto. now rewrite IH. Qed.

Lemma twin_new (KC : key_codec KO legal) g (gok : geom_ok g) ws aw ae (np2 : 2 <= NP g) n f c1 c2 : erased g f -> f_ae f = ae -> f_aw f = aw -> (ws = true -> f_fuel f = None) ->
  fresh_cache (NP g) c1 -> fresh_cache (NP g) c2 -> mtwin g ws ae aw KO legal n [] calm0 calm0 (st_new f c1) (st_new f c2).
Proof.
  intros ER A1 A2 FU F1 F2. destruct (mst_new0 g gok ws ae aw np2 KO legal n f c1 ER A1 A2 FU F1) as (L1 & G1 & S1).
  destruct (mst_new0 g gok ws ae aw np2 KO legal n f c2 ER A1 A2 FU F2) as (L2 & G2 & S2). split; [reflexivity|]. eexists. split; [exact G1|].
  split; (split; [assumption|]; split; [discriminate|]; split; auto).
Qed.
Lemma free_calm (KC : key_codec KO legal) pf g f n c evs l s : erased g f -> f_fuel f = None -> msetting pf g (f_aw f) -> fresh_cache (NP g) c -> Forall (mev_ok KO legal pf g n) evs ->
  m_run KO g (st_new f c) evs = (l, s) -> (pf = true -> calm (f_ae f) calm0 evs l) -> calm (f_ae f) calm0 evs l.
Proof.
  intros ER FU ST FC EV E H. destruct pf; auto. pose proof ST as (gok & np2 & _).
  pose proof (mst_new g gok true (f_ae f) (f_aw f) np2 KO legal n f c ER eq_refl eq_refl (fun _ => FU) FC) as Q.
  eapply (calm_free KO legal KC g gok (f_ae f) (f_aw f) np2 n evs); [exact Q| |exact E]. eapply Forall_impl; [|exact EV]. intros e. now apply (mev_mevok KO legal false).
Qed.

Lemma m_caches_cut pf g n f c1 c2 evs1 evs2 l1 l2 s1 s2 : key_codec KO legal -> erased g f -> f_fuel f = None -> msetting pf g (f_aw f) -> fresh_cache (NP g) c1 -> fresh_cache (NP g) c2 ->
  Forall (mev_ok KO legal pf g n) evs1 -> Forall (mev_ok KO legal pf g n) evs2 -> m_calls evs1 = m_calls evs2 ->
  m_run KO g (st_new f c1) evs1 = (l1, s1) -> m_run KO g (st_new f c2) evs2 = (l2, s2) ->
  (pf = true -> calm (f_ae f) calm0 evs1 l1 /\ calm (f_ae f) calm0 evs2 l2) -> l1 = l2 /\ same_flash s1 s2.
Proof.
  intros KC ER FU ST F1 F2 V1 V2 EC E1 E2 CA. pose proof ST as (gok & np2 & _).
  assert (EV : forall evs, Forall (mev_ok KO legal pf g n) evs -> Forall (mevok g (negb pf) (f_aw f) KO legal n) evs) by (intros; eapply Forall_impl; [|eassumption]; intros; eapply mev_mevok; eauto).
  pose proof (free_calm KC pf g f n c1 evs1 l1 s1 ER FU ST F1 V1 E1 (fun x => proj1 (CA x))) as H1.
  pose proof (free_calm KC pf g f n c2 evs2 l2 s2 ER FU ST F2 V2 E2 (fun x => proj2 (CA x))) as H2.
  pose proof (twin_new KC g gok (negb pf) (f_aw f) (f_ae f) np2 n f c1 c2 ER eq_refl eq_refl (fun _ => FU) F1 F2) as TW.
  destruct (mtwin_hist g gok (negb pf) (f_ae f) (f_aw f) np2 KO legal KC n (length evs1 + length evs2) evs1 evs2 [] calm0 calm0 (st_new f c1) (st_new f c2) l1 l2 s1 s2) as (A & log & T); auto.
  { now rewrite !mcalls_eq. }
  split; auto. eapply twin_flash; eauto.
Qed.

Lemma reached_twin pf g n evs l s : m_reached pf g n evs l s -> key_codec KO legal /\ exists aw log, msetting pf g aw /\
  mtwin g (negb pf) (f_ae (s_fl s)) aw KO legal n log (mode_after calm0 evs l) (mode_after calm0 evs l) s s.
Proof.
  intros (KC & f & c & ER & FU & FE & FC & ST & EV & CA & E). pose proof ST as (gok & np2 & _). split; auto. exists (f_aw f).
  assert (EV' : Forall (mevok g (negb pf) (f_aw f) KO legal n) evs) by (eapply Forall_impl; [|exact EV]; intros; eapply mev_mevok; eauto).
  pose proof (free_calm KC pf g f n c evs l s ER FU ST FC EV E CA) as H.
  pose proof (twin_new KC g gok (negb pf) (f_aw f) (f_ae f) np2 n f c c ER eq_refl eq_refl (fun _ => FU) FC FC) as TW.
  destruct (mtwin_hist g gok (negb pf) (f_ae f) (f_aw f) np2 KO legal KC n (length evs + length evs) evs evs [] calm0 calm0 (st_new f c) (st_new f c) l l s s) as (_ & log & T); auto.
  exists log. split; auto. pose proof T as (_ & Y & _ & (ML & _) & _). pose proof (mlay_ae KO legal g (negb pf) (f_ae f) (f_aw f) _ _ _ ML) as EA. now rewrite EA.
Qed.

Lemma m_recache_cut pf g n evs l s ca evs1 evs2 l1 l2 s1 s2 : m_reached pf g n evs l s -> fresh_cache (NP g) ca ->
  Forall (mev_ok KO legal pf g n) evs1 -> Forall (mev_ok KO legal pf g n) evs2 -> m_calls evs1 = m_calls evs2 ->
  m_run KO g s evs1 = (l1, s1) -> m_run KO g (set_ca s ca) evs2 = (l2, s2) ->
  calm (f_ae (s_fl s)) (mode_after calm0 evs l) evs1 l1 -> calm (f_ae (s_fl s)) (mode_after calm0 (evs ++ [MBoot ca]) l) evs2 l2 -> l1 = l2 /\ same_flash s1 s2.
Proof.
  intros R F V1 V2 EC E1 E2 H1 H2. destruct (reached_twin _ _ _ _ _ _ R) as (KC & aw & log & ST & TW). pose proof ST as (gok & np2 & _).
  assert (EV : forall evs, Forall (mev_ok KO legal pf g n) evs -> Forall (mevok g (negb pf) aw KO legal n) evs) by (intros; eapply Forall_impl; [|eassumption]; intros; eapply mev_mevok; eauto).
  set (t := mode_after calm0 evs l) in *.
  assert (MA : mode_after calm0 (evs ++ [MBoot ca]) l = mkmode (sure t) true (whole t)).
  { unfold t. destruct R as (_ & f & c & _ & _ & _ & _ & _ & _ & _ & E). clear -E. revert E. generalize (st_new f c) calm0. revert l s.
    induction evs as [|[c1 p1|c1] evs IH]; intros l s s0 t0 E; cbn [m_run] in E.
    - injection E as <- <-. reflexivity.
    - destruct (m_exec KO g c1 (power s0 p1)) as [a u]. destruct (m_run KO g u evs) as [k w] eqn:R. injection E as <- <-. cbn [app mode_after]. eapply IH; eauto.
    - cbn [app mode_after]. eapply IH; eauto. }
  rewrite MA in H2.
  pose proof (mtwin_sym _ _ _ _ _ _ _ _ _ _ _ _ (mtwin_boot g (negb pf) (f_ae (s_fl s)) aw np2 KO legal n log t t s s ca F TW)) as TW2.
  destruct (mtwin_hist g gok (negb pf) (f_ae (s_fl s)) aw np2 KO legal KC n (length evs1 + length evs2) evs1 evs2 log t (mkmode (sure t) true (whole t)) s (set_ca s ca) l1 l2 s1 s2) as (A & log' & T); auto.
  { now rewrite !mcalls_eq. }
  split; auto. eapply twin_flash; eauto.
Qed.
End Props.
