(** [erase_all] on any state. *)
From Coq Require Import List NArith ZArith Arith Bool Lia ZifyBool ZifyNat ZifyN.
From Verif Require Import Base BaseP Crc CrcP Flash Cache State Item Generic Queue Map Client QSpec MClient MSpec GeomP ScanP WpP ItemP CalcP PageP WorldP LayP QPushP QRepP QHistP QObs QPropsP
  Codec CodecP KeyP MLogP MFetchP MExecP MHistP MObs MPropsP.
Import ListNotations.

(** A cache that cannot be stale: newly made, or none at all. *)
Definition uncached {K} (c : cache K) : Prop := c_ps c = PSNone /\ c_pp c = PPNone /\ c_kp c = KPNone.
Definition blank {K} (np : nat) (c : cache K) : Prop := fresh_cache np c \/ uncached c.

Lemma chk_all g : geom_ok g -> chk g (ES g) (START g) (FEND g - START g) = None.
Proof.
  intros G. pose proof (ES_pos g G). destruct G as (A & B & _ & _ & D & E & _ & F). unfold chk, FEND.
  replace (START g + ES g * NP g - START g) with (NP g * ES g) by lia. rewrite D, Nat.mod_mul by lia. cbn [Nat.eqb negb orb].
  destruct (Nat.eqb_spec (NP g * ES g) 0); [nia|]. cbn [orb negb]. destruct (Nat.ltb_spec (START g) (START g)); [lia|]. cbn [orb].
  destruct (Nat.ltb_spec (START g + ES g * NP g) (START g + NP g * ES g)); [lia|]. reflexivity.
Qed.

Lemma erase_all_ok {K} g (s s' : st K) : geom_ok g -> (forall x, (f_mem (s_fl s) x < 256)%N) -> erase_all g s = (Ok tt, s') ->
  erased g (s_fl s') /\ s_ca s' = s_ca s /\ f_ae (s_fl s') = f_ae (s_fl s) /\ f_aw (s_fl s') = f_aw (s_fl s) /\ (f_fuel (s_fl s) = None -> f_fuel (s_fl s') = None).
Proof.
  intros G B. unfold erase_all, fl_erase, dev_erase. rewrite (chk_all g G). assert (X : START g + (FEND g - START g) = FEND g) by (unfold FEND; lia).
  assert (Y : erased g (mkflash (mem_ff (f_mem (s_fl s)) (START g) (FEND g - START g)) (wc_zero (f_wc (s_fl s)) (START g) (FEND g - START g)) [] None false 0 [])).
  { split; cbn [f_mem f_wc]; intros x.
    - unfold mem_ff. destruct ((START g <=? x) && (x <? _)); [lia|auto].
    - intros [L1 L2]. rewrite <- X in L2. unfold mem_ff, wc_zero. apply Nat.leb_le in L1. apply Nat.ltb_lt in L2. rewrite L1, L2. auto. }
  unfold spend. destruct (f_fuel (s_fl s)) as [k|].
  - destruct (FEND g - START g <=? k); intros [=]; subst s'; cbn; auto. split; [exact Y|]. repeat split; auto; discriminate.
  - intros [=]; subst s'; cbn. split; [exact Y|auto].
Qed.
(** It does succeed, unless the power fails. *)
Lemma erase_all_total {K} g (s : st K) : geom_ok g -> f_fuel (s_fl s) = None -> exists s', erase_all g s = (Ok tt, s').
Proof. intros G F. unfold erase_all, fl_erase, dev_erase. rewrite (chk_all g G), F. cbn [spend]. eauto. Qed.

Lemma blank_coh {K} g (gok : geom_ok g) (pg : nat -> page) (c : cache K) : blank (NP g) c -> wfc g c /\ coh g pg c.
Proof.
  intros [F|(A & B & _)]; [now apply (cohK_fresh g)|]. unfold wfc, coh. now rewrite A, B.
Qed.
Lemma blank_kp {K} (g : geom) (np2 : 2 <= NP g) (KO : keyops K) (legal : K -> Prop) np es (c : cache K) : blank np c -> kwf (c_kp c) /\ kcoh KO legal es (c_kp c).
Proof. intros [F|(_ & _ & C)]; [apply (kp_fresh g np2); apply F|]. rewrite C. split; exact I. Qed.

Definition empty_lay g := mklay 0 [] None (NP g) 0.
Lemma empty_layok g : geom_ok g -> layok (NP g) (empty_lay g) (fun _ => POpen).
Proof.
  intros gok. split; [|cbn; lia]. split; [apply (npos g gok)|]. split; [rewrite pages_len; unfold y_c, y_b; cbn; lia|]. intros i Hi. unfold pages. cbn.
  rewrite app_nil_r. rewrite nth_repeat'. destruct (i <? NP g); auto.
Qed.
Lemma empty_fworld g f ws ae aw : erased g f -> f_ae f = ae -> f_aw f = aw -> (ws = true -> f_fuel f = None) -> fworld g ws ae aw (fun _ => POpen) f.
Proof.
  intros [E1 E2] A1 A2 A3. split; [exact E1|]. split; [|split; [split; [exact A1|intros _ p _; discriminate]|auto]].
  intros p Hp x Hx. pose proof (pend_FEND g p Hp). pose proof (START_paddr g p). destruct (E2 x) as [X1 X2]; [lia|]. split; auto.
Qed.

Lemma queue_erased pf g (s : st unit) evs l s' : erased g (s_fl s) -> blank (NP g) (s_ca s) -> (pf = false -> f_fuel (s_fl s) = None) -> setting pf g (f_ae (s_fl s)) (f_aw (s_fl s)) ->
  Forall (qev_ok pf g) evs -> q_run g s evs = (l, s') ->
  exists q, qtrace (rup g) (HL g) (page_cap g) (2 <=? NP g) pf [] evs l q /\ q_holds g s' q.
Proof.
  intros ER BL FU ST EV E. pose proof (setting_single _ _ _ _ ST) as SG. pose proof ST as [gok _].
  assert (Q0 : qst g (negb pf) (f_ae (s_fl s)) (f_aw (s_fl s)) (empty_lay g) s).
  { exists (fun _ => POpen). split; [now apply empty_layok|]. split; [repeat split; cbn; auto; [intros _; apply (npos g gok)|discriminate]|].
    destruct (blank_coh g gok (fun _ => POpen) (s_ca s) BL) as [C1 C2]. split; [|split; auto]. apply empty_fworld; auto. intros X. apply FU. now destruct pf. }
  assert (EV' : Forall (ev_ok g (negb pf) (f_aw (s_fl s))) evs) by (eapply Forall_impl; [|exact EV]; intros; eapply setting_ev; eauto).
  destruct (hist_ok g gok (negb pf) (f_ae (s_fl s)) (f_aw (s_fl s)) SG evs _ _ _ _ Q0 EV' E) as (Y & QS & T). rewrite negb_involutive in T. exists (content Y). split; [exact T|].
  eapply holds_of; eauto.
Qed.

Lemma map_erased {K} (KO : keyops K) (legal : K -> Prop) pf g n (s : st K) evs l s' : key_codec KO legal -> erased g (s_fl s) -> blank (NP g) (s_ca s) ->
  (pf = false -> f_fuel (s_fl s) = None) -> msetting pf g (f_aw (s_fl s)) -> Forall (mev_ok KO legal pf g n) evs -> (pf = true -> calm (f_ae (s_fl s)) calm0 evs l) -> m_run KO g s evs = (l, s') ->
  exists m log, mtrace (k_eqb KO) legal (item_bytes KO) (mbig g) pf (@nothing K) [] evs l m log /\ m_holds KO legal g n s' m.
Proof.
  intros KC ER BL FU ST EV CA E. pose proof ST as (gok & np2 & _).
  assert (EV' : Forall (mevok g (negb pf) (f_aw (s_fl s)) KO legal n) evs) by (eapply Forall_impl; [|exact EV]; intros; eapply mev_mevok; eauto).
  assert (M0 : mst g (negb pf) (f_ae (s_fl s)) (f_aw (s_fl s)) KO legal n calm0 [] (@nothing K) s).
  { exists (empty_lay g). destruct (blank_coh g gok (fun _ => POpen) (s_ca s) BL) as [C1 C2]. destruct (blank_kp g np2 KO legal _ (ents g (empty_lay g)) (s_ca s) BL) as [K1 K2].
    destruct (mst_new0 g gok (negb pf) (f_ae (s_fl s)) (f_aw (s_fl s)) np2 KO legal n (mkflash (f_mem (s_fl s)) (f_wc (s_fl s)) [] None (f_ae (s_fl s)) (f_aw (s_fl s)) []) cache_none) as (_ & MG & SU); auto;
      [split; auto; repeat split; try constructor|].
    split; [|split; [exact MG|split; auto]]. exists (fun _ => POpen). split; [now apply empty_layok|]. split; [|split; [exact K1|split; [right; exact K2|auto]]].
    split; [|split; auto]. apply empty_fworld; auto. intros X. apply FU. now destruct pf. }
  assert (CA' : calm (f_ae (s_fl s)) calm0 evs l). { destruct pf; auto. eapply (calm_free KO legal KC g gok (f_ae (s_fl s)) (f_aw (s_fl s)) np2 n evs); eauto. }
  destruct (mhist_ok g gok (negb pf) (f_ae (s_fl s)) (f_aw (s_fl s)) np2 KO legal KC n evs _ _ _ _ _ _ M0 EV' CA' E) as (m & log & T & MS). rewrite negb_involutive in T.
  exists m, log. split; [exact T|]. eapply (mst_holds KO legal KC g gok); eauto.
Qed.

(** After [erase_all]. *)
Lemma q_erase_all pf g (s s1 : st unit) c evs l s' : (forall x, (f_mem (s_fl s) x < 256)%N) -> setting pf g (f_ae (s_fl s)) (f_aw (s_fl s)) -> erase_all g (power s None) = (Ok tt, s1) ->
  blank (NP g) c -> Forall (qev_ok pf g) evs -> q_run g (set_ca s1 c) evs = (l, s') ->
  exists q, qtrace (rup g) (HL g) (page_cap g) (2 <=? NP g) pf [] evs l q /\ q_holds g s' q.
Proof.
  intros B ST E BL EV R. destruct (erase_all_ok g (power s None) s1 (proj1 ST) B E) as (A1 & A2 & A3 & A4 & A5). cbn [power s_fl set_fl f_ae f_aw f_fuel] in *.
  eapply (queue_erased pf g (set_ca s1 c)); eauto. cbn. now rewrite A3, A4.
Qed.
Lemma m_erase_all {K} (KO : keyops K) (legal : K -> Prop) pf g n (s s1 : st K) c evs l s' : key_codec KO legal -> (forall x, (f_mem (s_fl s) x < 256)%N) -> msetting pf g (f_aw (s_fl s)) ->
  erase_all g (power s None) = (Ok tt, s1) -> blank (NP g) c -> Forall (mev_ok KO legal pf g n) evs -> (pf = true -> calm (f_ae (s_fl s)) calm0 evs l) -> m_run KO g (set_ca s1 c) evs = (l, s') ->
  exists m log, mtrace (k_eqb KO) legal (item_bytes KO) (mbig g) pf (@nothing K) [] evs l m log /\ m_holds KO legal g n s' m.
Proof.
  intros KC B ST E BL EV CA R. destruct (erase_all_ok g (power s None) s1 (proj1 ST) B E) as (A1 & A2 & A3 & A4 & A5). cbn [power s_fl set_fl f_ae f_aw f_fuel] in *.
  eapply (map_erased KO legal pf g n (set_ca s1 c)); eauto; cbn; rewrite ?A3, ?A4; auto.
Qed.
