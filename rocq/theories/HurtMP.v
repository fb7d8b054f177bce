(** Damaged items of a map. *)
From Coq Require Import List NArith ZArith Arith Bool Lia ZifyBool ZifyNat ZifyN.
From Verif Require Import Base BaseP Crc CrcP Flash Cache State Item Generic Map Codec CodecP GeomP ScanP WpP ItemP CalcP PageP WorldP LayP QPushP QRepP QStepP QCallP KeyP MLogP MFetchP MMigP MStoreP MCallP MRemP MRmvP MIterP
  Client QSpec QObs MClient MSpec MExecP MHistP MObs QHistP QPropsP MWearP MPropsP FormatSpec FormatP NoiseSpec HurtSpec HurtP.
Import ListNotations.
Local Opaque crc16 acrc crc32.

Section Lists.
Context (g : geom).
Lemma hslot_live x y : hslot x y -> incl (live_of [y]) (live_of [x]).
Proof. intros [->|(d & -> & [->|(c & ->)])]; [apply incl_refl|cbn; intros ? []|cbn; intros ? []]. Qed.
Lemma hslot_fits n x y : hslot x y -> fits_buf g n x -> fits_buf g n y.
Proof. intros [->|(d & -> & [->|(c & ->)])]; cbn; auto. Qed.
Lemma hslots_fits n sl sl' : Forall2 hslot sl sl' -> Forall (fits_buf g n) sl -> Forall (fits_buf g n) sl'.
Proof. induction 1; intros F; auto. apply Forall_cons_iff in F. destruct F. constructor; auto. eapply hslot_fits; eauto. Qed.
Lemma hpage_fits n x x' : hpage x x' -> Forall (fits_buf g n) (slots_of x) -> Forall (fits_buf g n) (slots_of x').
Proof. destruct x; cbn [hpage]; try (intros ->; auto); intros (sl' & -> & F); cbn [slots_of]; apply hslots_fits; auto. Qed.
End Lists.

Section M.
Context {K : Type} (KO : keyops K) (legal : K -> Prop) (KC : key_codec KO legal) (g : geom) (gok : geom_ok g) (ae : bool) (aw : nat) (np2 : 2 <= NP g).
Notation NP := (NP g).
Notation mst := (mst g false ae aw KO legal).
(** The values that remain. *)
Definition left_of (s : st K) (m2 : nat -> N) (p : nat) : K -> option (list N) := fun k => lastv (k_eqb KO) k (unpack KO (survivors g (f_mem (s_fl s)) m2 p)).
Lemma nth_lay Y pg i : layok NP Y pg -> i < y_c Y + y_b Y -> (y_f Y + i) mod NP < NP /\ slots_of (pg ((y_f Y + i) mod NP)) = nth i (uslots Y) [].
Proof.
  intros ((F & L & N) & _) U. split; [apply Nat.mod_upper_bound; lia|]. rewrite N; [apply nth_uslots; auto|]. rewrite pages_len in L. lia.
Qed.
Lemma uslots_fits n Y pg Y' pg' : layok NP Y pg -> layok NP Y' pg' -> y_f Y' = y_f Y -> y_c Y' = y_c Y -> y_b Y' = y_b Y -> (forall p, p < NP -> hpage (pg p) (pg' p)) ->
  Forall (Forall (fits_buf g n)) (uslots Y) -> Forall (Forall (fits_buf g n)) (uslots Y').
Proof.
  intros LY LY' E1 E2 E3 H F. rewrite Forall_forall in F. apply Forall_forall. intros sl I. apply (In_nth _ _ []) in I. destruct I as (i & Hi & <-). rewrite uslots_len in Hi.
  destruct (nth_lay Y' pg' i LY' Hi) as (B & <-). rewrite E1 in *. rewrite E2, E3 in Hi. destruct (nth_lay Y pg i LY Hi) as (_ & X). eapply hpage_fits; [apply H; exact B|]. rewrite X. apply F. apply nth_In. now rewrite uslots_len.
Qed.
Lemma surv_incl m m2 p : incl (survivors g m m2 p) (map snd (placed g m p)).
Proof. unfold survivors. intros d I. apply in_map_iff in I. destruct I as (i & <- & I). apply filter_In in I. apply in_map, I. Qed.
Lemma mst_hurt n t log v s m2 : mst n t log v s -> sure t = true -> hurt g (f_mem (s_fl s)) m2 ->
  exists p, oldest g (f_mem (s_fl s)) p /\ (forall k, legal k -> v k = lastv (k_eqb KO) k (unpack KO (map snd (placed g (f_mem (s_fl s)) p)))) /\
    (c_kp (s_ca s) = KPNone -> mst n t log (left_of s m2 p) (with_mem s m2)) /\
    (forall c, fresh_cache NP c -> mst n (mkmode (sure t) true (whole t)) log (left_of s m2 p) (set_ca (with_mem s m2) c)).
Proof.
  intros (Y & (pg & LY & (FW & WC & CO) & KW & KD & CL) & (MI & (M1 & M2 & M3) & MC) & SU & WH & V) ST H. specialize (SU ST).
  destruct (read_all g gok false ae aw Y pg _ LY FW) as (O & C). exists (y_f Y). split; [exact O|]. split.
  { intros k L. rewrite stored_placed, C, <- value_pairs. auto. }
  destruct (fworld_hurt g gok ae aw Y pg _ m2 LY FW H) as (pg' & Y' & LY' & FW' & HP & E1 & E2 & E3 & E4 & E5 & E6).
  assert (IN : incl (content Y') (content Y)) by (rewrite E6, <- C, <- stored_placed; apply surv_incl).
  assert (PT : y_pt Y' = None -> y_pt Y = None) by (intros N; unfold y_b in E3; rewrite N in E3; destruct (y_pt Y); [discriminate|reflexivity]).
  assert (ST' : settled Y') by (destruct SU as (S1 & S2); split; [unfold nomig in *; lia|]; intros N; rewrite E4; auto).
  assert (MG : mgood g false aw KO legal (Bl KO n log) Y').
  { split; [|split].
    - destruct MI as (I1 & I2 & I3). split; [|split]; rewrite ?E1, ?E4, ?E5; auto.
    - split; [exact (uslots_fits _ Y pg Y' pg' LY LY' E1 E2 E3 HP M1)|]. split; [exact (incl_Forall IN M2)|exact (incl_Forall IN M3)].
    - intros A B. exfalso. destruct ST' as (N & _). unfold nomig in N. lia. }
  assert (VV : forall k, legal k -> left_of s m2 (y_f Y) k = value KO k (content Y')) by (intros k _; unfold left_of; rewrite E6; symmetry; apply value_pairs).
  assert (W0 : whole t = true -> y_bad Y' = 0) by (intros X; rewrite E5; auto).
  assert (CH : c_dirty (s_ca s) = true \/ coh g pg' (s_ca s)) by (destruct CO as [CO|CO]; [left; exact CO|right; exact (coh_hurt g gok pg pg' _ HP CO)]).
  split.
  - intros KN. exists Y'. split; [|auto]. exists pg'. split; [exact LY'|]. split; [split; [exact FW'|]; split; [exact WC|exact CH]|]. cbn [with_mem set_fl s_ca]. rewrite KN in *. split; [exact KW|]. split; [right; exact I|].
    intros X. split; [|exact I]. apply (coh_hurt g gok pg pg' _ HP). apply CL. exact X.
  - intros c FC. exists Y'. split; [|auto]. destruct (cohK_fresh g pg' c FC) as (C1 & C2). destruct (kp_fresh g np2 KO legal (ents g Y') (c_kp c) ltac:(apply FC)) as (K1 & K2).
    exists pg'. split; [exact LY'|]. split; [split; [exact FW'|]; split; [exact C1|right; exact C2]|]. split; [exact K1|]. split; [right; exact K2|]. intros _. split; [exact C2|exact K2].
Qed.
Lemma m_run_boot s c : m_run KO g s [MBoot c] = ([], set_ca s c). Proof. reflexivity. Qed.
Lemma mhist_hurt n l : forall t log v s, mst n t log v s -> Forall (mevok g false aw KO legal n) (ideal l) -> calm_hurt KO g t s l ->
  exists t' v' log', mst n t' log' v' (snd (real_run (m_run KO g) s l)) /\ mhtrace KO legal g s v log l (fst (real_run (m_run KO g) s l)) v' log'.
Proof.
  remember (length l) as len eqn:LE. revert l LE. induction len as [len IH] using lt_wf_ind. intros l -> t log v s MS EV OH. destruct l as [|[e|m] l]; cbn [real_run calm_hurt fst snd] in *.
  - exists t, v, log. split; auto. constructor.
  - unfold ideal in EV. cbn [flat_map app] in EV. fold (ideal l) in EV. apply Forall_cons_iff in EV. destruct EV as (E1 & EV). destruct (m_run KO g s [e]) as [a s1] eqn:E. destruct OH as (CA & OH).
    assert (AE : f_ae (s_fl s) = ae) by (destruct MS as (Y & ML & _); eapply mlay_ae; eauto). rewrite AE in CA.
    destruct (mhist_ok g gok false ae aw np2 KO legal KC n [e] _ _ _ _ _ _ MS ltac:(auto) CA E) as (v1 & log1 & T & MS1).
    destruct (IH (length l) ltac:(cbn; lia) l eq_refl _ _ _ _ MS1 EV OH) as (t' & v' & log' & MS2 & T2). destruct (real_run (m_run KO g) s1 l) as [r s2]. cbn [fst snd] in *.
    exists t', v', log'. split; auto. econstructor; eauto.
  - destruct OH as (SU & HU & UK & OH). destruct (mst_hurt n t log v s m MS SU HU) as (p & O & V & A1 & A2). destruct UK as [UK|(c & t1 & ->)].
    + destruct (IH (length l) ltac:(cbn; lia) l eq_refl _ _ _ _ (A1 UK) EV OH) as (t' & v' & log' & MS2 & T2). exists t', v', log'. split; auto. eapply MHMem; eauto.
    + cbn [real_run calm_hurt] in *. rewrite m_run_boot in *. destruct OH as (_ & OH). unfold ideal in EV. cbn [flat_map app] in EV. fold (ideal t1) in EV. apply Forall_cons_iff in EV. destruct EV as (E1 & EV). cbn [mevok] in E1.
      destruct (IH (length t1) ltac:(cbn; lia) t1 eq_refl _ _ _ _ (A2 c E1) EV OH) as (t' & v' & log' & MS2 & T2). destruct (real_run (m_run KO g) (set_ca (with_mem s m) c) t1) as [r s2]. cbn [fst snd] in *.
      exists t', v', log'. split; auto. eapply MHMem; eauto. change (([] : list (mans K)) ++ r) with r. change r with (([] : list (mans K)) ++ r). econstructor; [apply m_run_boot| |exact T2]. apply MTBoot. constructor. intros k _. reflexivity.
Qed.
Lemma lastv_keep {A} (h : A -> list N) (keep : A -> bool) k : forall l, (forall i, In i l -> keep i = false -> forall k' j, k_de KO (h i) = inl (k', j) -> k_eqb KO k' k = false) ->
  lastv (k_eqb KO) k (unpack KO (map h (filter keep l))) = lastv (k_eqb KO) k (unpack KO (map h l)).
Proof.
  unfold unpack. induction l as [|i l IH]; intros H; auto. specialize (IH (fun x I => H x (or_intror I))). cbn [filter map flat_map]. destruct (keep i) eqn:KI.
  - cbn [map flat_map]. destruct (k_de KO (h i)) as [[k' j]|]; cbn [app lastv]; rewrite IH; reflexivity.
  - rewrite IH. specialize (H i (or_introl eq_refl) KI). destruct (k_de KO (h i)) as [[k' j]|]; cbn [app lastv]; auto. rewrite (H k' j eq_refl). match goal with |- ?x = _ => destruct x; reflexivity end.
Qed.
End M.

Lemma m_hurt {K} (KO : keyops K) (legal : K -> Prop) g n f c l : key_codec KO legal -> erased g f -> fresh_cache (NP g) c -> msetting true g (f_aw f) -> Forall (mev_ok KO legal true g n) (ideal l) ->
  calm_hurt KO g calm0 (st_new f c) l ->
  exists v log, mhtrace KO legal g (st_new f c) nothing [] l (fst (real_run (m_run KO g) (st_new f c) l)) v log /\ m_holds KO legal g n (snd (real_run (m_run KO g) (st_new f c) l)) v.
Proof.
  intros KC ER FC ST EV OH. pose proof ST as (gok & np2 & _).
  assert (EV' : Forall (mevok g false (f_aw f) KO legal n) (ideal l)) by (eapply Forall_impl; [|exact EV]; intros; eapply (mev_mevok KO legal true); eauto).
  pose proof (mst_new g gok false (f_ae f) (f_aw f) np2 KO legal n f c ER eq_refl eq_refl ltac:(discriminate) FC) as M0.
  destruct (mhist_hurt KO legal KC g gok (f_ae f) (f_aw f) np2 n l _ _ _ _ M0 EV' OH) as (t & v & log & MS & T). exists v, log. split; [exact T|]. eapply mst_holds; eauto.
Qed.
