(** The claims about the map, in terms of calls and answers. *)
From Coq Require Import List NArith ZArith Arith Bool Lia ZifyBool ZifyNat ZifyN.
From Verif Require Import Base BaseP Crc CrcP Flash Cache State Item Generic Map Codec CodecP GeomP ScanP WpP ItemP CalcP PageP WorldP LayP QPushP QRepP QStepP QCallP KeyP MLogP MFetchP MMigP MStoreP MCallP MRemP MRmvP MIterP Client QSpec QObs MClient MSpec MExecP MHistP MObs QHistP QPropsP MWearP.
Import ListNotations.
Local Opaque crc16 acrc crc32.

Section Props.
Context {K : Type} (KO : keyops K) (legal : K -> Prop).
Notation upd := (upd (k_eqb KO)).
Notation eqm := (eqm legal).
Notation m_reached := (m_reached KO legal).
Notation m_holds := (m_holds KO legal).
Notation m_does := (m_does KO).
Notation mdo pf g := (mdo (k_eqb KO) legal (item_bytes KO) (mbig g) pf).
Notation mtrace pf g := (mtrace (k_eqb KO) legal (item_bytes KO) (mbig g) pf).
Implicit Types (s : st K).

Lemma mbig_is g d : mbig g d <-> too_big g (length d) = true.
Proof. rewrite big_ok. reflexivity. Qed.
Lemma mcall_mcok pf g aw n c : msetting pf g aw -> mcall_ok KO legal pf g n c -> mcok g (negb pf) aw KO legal n c.
Proof.
  intros (_ & _ & ST). destruct c as [b k v|b k|b k|b|b bs]; cbn [mcall_ok mcok]; auto. intros (LK & LB & H). split; auto. split; auto. intros d E. destruct (H d E) as [[BY NC] SZ].
  split; auto. split.
  - destruct pf; [right; split; [apply NC|apply ST]; auto|now left].
  - intros TB. destruct SZ as [X|]; auto. apply mbig_is in X. congruence.
Qed.
Lemma mev_mevok pf g aw n e : msetting pf g aw -> mev_ok KO legal pf g n e -> mevok g (negb pf) aw KO legal n e.
Proof. intros ST. destruct e as [c p|c]; cbn [mevok mev_ok]; auto. intros [P C]. split; [eapply mcall_mcok; eauto|]. intros X. apply P. now destruct pf. Qed.

(** Without power failures every history is covered. *)
Lemma exec_power_cut (KC : key_codec KO legal) g (gok : geom_ok g) ae aw (np2 : 2 <= NP g) n t log m s c p a s' : mst g true ae aw KO legal n t log m s -> mcok g true aw KO legal n c -> covered ae t c p -> p = None ->
  m_exec KO g c (power s p) = (a, s') -> was_cut a = false.
Proof.
  intros MS CO CV -> E. eapply (mst_uncut g gok true ae aw np2 KO legal KC); eauto.
Qed.
Lemma calm_free (KC : key_codec KO legal) g (gok : geom_ok g) ae aw (np2 : 2 <= NP g) n evs : forall log m s l s', mst g true ae aw KO legal n calm0 log m s -> Forall (mevok g true aw KO legal n) evs ->
  m_run KO g s evs = (l, s') -> calm ae calm0 evs l /\ mode_after calm0 evs l = calm0.
Proof.
  induction evs as [|[c p|c] evs IH]; intros log m s l s' MS EV E; cbn [m_run] in E.
  - injection E as <- <-. split; cbn; auto.
  - inversion EV as [|? ? CP EV']; subst. destruct CP as [CO PO]. destruct (m_exec KO g c (power s p)) as [a s1] eqn:E1. destruct (m_run KO g s1 evs) as [l2 s2] eqn:E2. injection E as <- <-.
    specialize (PO eq_refl). subst p. assert (CV : covered ae calm0 c None) by (destruct c; cbn; auto).
    pose proof (exec_power_cut KC g gok ae aw np2 n _ _ _ _ _ _ _ _ MS CO CV eq_refl E1) as NC.
    destruct (mst_step g gok true ae aw np2 KO legal KC n _ _ _ _ _ _ _ _ MS CO CV (fun _ => eq_refl) E1) as (m1 & log1 & _ & MS1).
    assert (AC : after_call calm0 c a = calm0) by (unfold after_call; rewrite NC; destruct c; reflexivity). rewrite AC in MS1.
    destruct (IH _ _ _ _ _ MS1 EV' E2). cbn [calm mode_after]. rewrite AC. auto.
  - inversion EV as [|? ? CF EV']; subst. cbn [calm mode_after]. pose proof (mst_boot g true ae aw np2 KO legal n _ _ _ _ _ CF MS) as MS1. destruct (IH _ _ _ _ _ MS1 EV' E) as [A B].
    destruct l; auto.
Qed.

Record reach (pf : bool) (g : geom) (n : nat) (evs : list (mev K)) (l : list (mans K)) s (m : K -> option (list N)) (log : list (K * list N)) (ae : bool) (aw : nat) : Prop := {
  rc_codec : key_codec KO legal; rc_set : msetting pf g aw; rc_ae : f_ae (s_fl s) = ae;
  rc_mst : mst g (negb pf) ae aw KO legal n (mode_after calm0 evs l) log m s;
  rc_trace : mtrace pf g (@nothing K) [] evs l m log;
  rc_free : pf = false -> mode_after calm0 evs l = calm0 }.
Lemma mlay_ae g ws ae aw cl Y s : mlay g ws ae aw KO legal cl Y s -> f_ae (s_fl s) = ae.
Proof. intros (pg & _ & ((A1 & B1 & C1 & D1 & E1) & _) & _). apply C1. Qed.
Lemma reached_reach pf g n evs l s : m_reached pf g n evs l s -> exists m log ae aw, reach pf g n evs l s m log ae aw.
Proof.
  intros (KC & f & c & ER & FU & _ & FC & ST & EV & CA & E). pose proof ST as (gok & np2 & _).
  assert (EV' : Forall (mevok g (negb pf) (f_aw f) KO legal n) evs) by (eapply Forall_impl; [|exact EV]; intros; eapply mev_mevok; eauto).
  pose proof (mst_new g gok (negb pf) (f_ae f) (f_aw f) np2 KO legal n f c ER eq_refl eq_refl (fun _ => FU) FC) as M0.
  assert (CA' : calm (f_ae f) calm0 evs l). { destruct pf; auto. eapply (calm_free KC g gok (f_ae f) (f_aw f) np2 n evs); eauto. }
  destruct (mhist_ok g gok (negb pf) (f_ae f) (f_aw f) np2 KO legal KC n evs _ _ _ _ _ _ M0 EV' CA' E) as (m & log & T & MS).
  exists m, log, (f_ae f), (f_aw f). rewrite negb_involutive in T. constructor; auto.
  - destruct MS as (Y & ML & _). eapply mlay_ae; eauto.
  - intros ->. eapply (calm_free KC g gok (f_ae f) (f_aw f) np2 n evs); eauto.
Qed.
Lemma mst_holds (KC : key_codec KO legal) g (gok : geom_ok g) ws ae aw (np2 : 2 <= NP g) n t log m s : mst g ws ae aw KO legal n t log m s -> m_holds g n s m.
Proof. intros MS k b LK LB. exact (mst_fetch g gok ws ae aw np2 KO legal KC n t log m s b k MS LK LB). Qed.
Lemma holds_unique g n s m m' : m_holds g n s m -> m_holds g n s m' -> eqm m m'.
Proof. intros H1 H2 k LK. destruct (H1 k (repeat 0%N n) LK) as (s1 & E1); [rewrite repeat_length; lia|]. destruct (H2 k (repeat 0%N n) LK) as (s2 & E2); [rewrite repeat_length; lia|]. unfold MObs.m_does in *. congruence. Qed.

(** Every history. *)
Lemma m_history pf g n evs l s : m_reached pf g n evs l s -> exists m log, mtrace pf g (@nothing K) [] evs l m log /\ m_holds g n s m.
Proof.
  intros R. destruct (reached_reach _ _ _ _ _ _ R) as (m & log & ae & aw & RC). exists m, log. split; [apply RC|]. destruct (rc_set _ _ _ _ _ _ _ _ _ _ RC) as (gok & np2 & _).
  eapply mst_holds; eauto; apply RC.
Qed.
Lemma m_unique pf g n evs l s m m' : m_reached pf g n evs l s -> m_holds g n s m -> m_holds g n s m' -> eqm m m'.
Proof. intros _. apply holds_unique. Qed.

Lemma stored_ok pf g : forall m log evs l m' log', mtrace pf g m log evs l m' log' -> incl log' (log ++ stored evs l).
Proof.
  induction 1 as [m m' log E|m log c p a m1 log1 evs l m2 log2 D T IH|m log c evs l m2 log2 T IH].
  - apply incl_appl, incl_refl.
  - cbn [stored]. eapply incl_tran; [exact IH|]. rewrite app_assoc. apply incl_app; [apply incl_appl|apply incl_appr, incl_refl].
    inversion D; subst; try (apply incl_appl, incl_refl); apply incl_refl.
  - destruct l; exact IH.
Qed.

(** One more call. *)
Lemma m_step pf g n evs l s m c p a s' ca : m_reached pf g n evs l s -> m_holds g n s m -> mcall_ok KO legal pf g n c -> (pf = false -> p = None) ->
  covered (f_ae (s_fl s)) (mode_after calm0 evs l) c p -> fresh_cache (NP g) ca -> m_exec KO g c (power s p) = (a, s') ->
  exists m' log log', incl log (stored evs l) /\ mdo pf g m log c a m' log' /\ m_holds g n s' m' /\ m_holds g n (set_ca s' ca) m'.
Proof.
  intros R H CO PO CV FC E. destruct (reached_reach _ _ _ _ _ _ R) as (m0 & log & ae & aw & RC). destruct RC as [KC ST AE MS TR _]. pose proof ST as (gok & np2 & _).
  pose proof (holds_unique g n s m m0 H (mst_holds KC g gok _ _ _ np2 _ _ _ _ _ MS)) as EM. rewrite AE in CV.
  assert (PO' : negb pf = true -> p = None) by (intros X; apply PO; now destruct pf).
  pose proof (mst_eqm g (negb pf) ae aw KO legal n _ _ _ m _ EM MS) as MS'.
  destruct (mst_step g gok (negb pf) ae aw np2 KO legal KC n _ log m s c p a s' MS' (mcall_mcok _ _ _ _ _ ST CO) CV PO' E) as (m' & log' & D & MS2).
  rewrite negb_involutive in D. exists m', log, log'. split; [exact (stored_ok _ _ _ _ _ _ _ _ TR)|]. split; [exact D|]. split.
  - eapply mst_holds; eauto.
  - eapply mst_holds; eauto. eapply mst_boot; eauto.
Qed.

(** Consequences. *)
Lemma replay_eqm evs : forall m m' l, eqm m m' -> eqm (replay (k_eqb KO) m evs l) (replay (k_eqb KO) m' evs l).
Proof.
  induction evs as [|[c p|c] evs IH]; intros m m' l E; cbn [replay]; auto. destruct l as [|a l]; auto. apply IH.
  assert (U : forall k v, eqm (upd m k v) (upd m' k v)) by (intros k v k' L; unfold MSpec.upd; destruct (k_eqb KO k' k); auto).
  destruct c, a as [[]|[]|[]]; auto. intros k L. reflexivity.
Qed.
Lemma eqm_trans (a b c : K -> option (list N)) : eqm a b -> eqm b c -> eqm a c.
Proof. intros H1 H2 k L. rewrite H1; auto. Qed.
Lemma eqm_sym (a b : K -> option (list N)) : eqm a b -> eqm b a.
Proof. intros H k L. symmetry; auto. Qed.
Lemma trace_replay g : forall m log evs l m' log', mtrace false g m log evs l m' log' -> eqm m' (replay (k_eqb KO) m evs l).
Proof.
  induction 1 as [m m' log E|m log c p a m1 log1 evs l m2 log2 D T IH|m log c evs l m2 log2 T IH]; cbn [replay]; auto.
  eapply eqm_trans; [exact IH|]. apply replay_eqm. inversion D; subst; auto; discriminate.
Qed.
Lemma holds_eqm g n s m m' : eqm m m' -> m_holds g n s m -> m_holds g n s m'.
Proof. intros E H k b LK LB. rewrite <- E by auto. auto. Qed.
Lemma m_last g n evs l s : m_reached false g n evs l s -> m_holds g n s (replay (k_eqb KO) (@nothing K) evs l).
Proof. intros R. destruct (m_history _ _ _ _ _ _ R) as (m & log & T & H). eapply holds_eqm; [|exact H]. eapply trace_replay; eauto. Qed.

(** The errors a history can report. *)
Definition fine (pf : bool) (a : mans K) : Prop :=
  match a with
  | RUnit (Ok _) | RVal (Ok _) | RList (Ok _) => True
  | RUnit (Err EItemTooBig) | RUnit (Err EFull) | RUnit (Err (ESer _)) => True
  | RUnit (Err (EStorage SShutoff)) | RVal (Err (EStorage SShutoff)) => pf = true
  | _ => False
  end.
Lemma enc_err n k v e : item_bytes KO n k v = inr e -> exists x, e = ESer x.
Proof. unfold item_bytes. destruct (k_ser KO k n) as [kb|x]; [|intros H; injection H as <-; eauto]. destruct (_ <? _); [|discriminate]. intros H; injection H as <-; eauto. Qed.
Lemma trace_fine pf g : forall m log evs l m' log', mtrace pf g m log evs l m' log' -> Forall (fine pf) l.
Proof.
  induction 1 as [m m' log E|m log c p a m1 log1 evs l m2 log2 D T IH|m log c evs l m2 log2 T IH]; auto. constructor; auto.
  inversion D; subst; cbn; auto. match goal with H : item_bytes _ _ _ _ = inr _ |- _ => destruct (enc_err _ _ _ _ H) as (x & ->) end. exact I.
Qed.
Lemma m_fine pf g n evs l s : m_reached pf g n evs l s -> Forall (fine pf) l.
Proof. intros R. destruct (m_history _ _ _ _ _ _ R) as (m & log & T & _). eapply trace_fine; eauto. Qed.

(** A call with power is not cut. *)
Lemma uncut pf g n evs l s m c a s' : m_reached pf g n evs l s -> m_holds g n s m -> mcall_ok KO legal pf g n c -> covered (f_ae (s_fl s)) (mode_after calm0 evs l) c None ->
  m_does g s c a s' -> exists m' log log', incl log (stored evs l) /\ mdo false g m log c a m' log' /\ m_holds g n s' m'.
Proof.
  intros R H CO CV E. destruct (reached_reach _ _ _ _ _ _ R) as (m0 & log & ae & aw & RC). destruct RC as [KC ST AE MS TR _]. pose proof ST as (gok & np2 & _).
  pose proof (holds_unique g n s m m0 H (mst_holds KC g gok _ _ _ np2 _ _ _ _ _ MS)) as EM. rewrite AE in CV.
  pose proof (mst_eqm g (negb pf) ae aw KO legal n _ _ _ m _ EM MS) as MS'.
  destruct (mst_step g gok (negb pf) ae aw np2 KO legal KC n _ log m s c None a s' MS' (mcall_mcok _ _ _ _ _ ST CO) CV (fun _ => eq_refl) E) as (m' & log' & D & MS2).
  exists m', log, log'. split; [exact (stored_ok _ _ _ _ _ _ _ _ TR)|]. split; [|eapply mst_holds; eauto].
  assert (NC : was_cut a = true -> False).
  { intros WC. rewrite (mst_uncut g gok (negb pf) ae aw np2 KO legal KC n _ log m s c a s' MS' (mcall_mcok _ _ _ _ _ ST CO) CV E) in WC. discriminate. }
  rewrite negb_involutive in D. inversion D; subst; try (exfalso; apply NC; reflexivity); try (econstructor; eassumption).
Qed.

Lemma m_fetch_ok pf g n evs l s m b k a s' : m_reached pf g n evs l s -> m_holds g n s m -> legal k -> n <= length b -> m_does g s (MFetch b k) a s' ->
  a = RVal (Ok (m k)) /\ m_holds g n s' m.
Proof.
  intros R H LK LB E. destruct (uncut pf g n evs l s m (MFetch b k) a s' R H (conj LK LB) I E) as (m' & log & log' & _ & D & H').
  inversion D; subst; try discriminate. split; auto. eapply holds_eqm; eauto.
Qed.
Lemma m_store_ok pf g n evs l s m b k v r s' : m_reached pf g n evs l s -> m_holds g n s m -> mcall_ok KO legal pf g n (MStore b k v) -> m_does g s (MStore b k v) (RUnit r) s' ->
  match r with
  | Ok _ => m_holds g n s' (upd m k (Some v)) /\ exists d, item_bytes KO (length b) k v = inl d /\ ~ mbig g d
  | Err e => m_holds g n s' m /\
      ((e = EItemTooBig /\ exists d, item_bytes KO (length b) k v = inl d /\ mbig g d) \/
       (e = EFull /\ exists d, item_bytes KO (length b) k v = inl d /\ ~ mbig g d) \/
       item_bytes KO (length b) k v = inr e)
  end.
Proof.
  intros R H CO E. destruct (uncut pf g n evs l s m _ _ s' R H CO (or_intror (or_introl eq_refl)) E) as (m' & log & log' & _ & D & H').
  inversion D; subst; try discriminate; (split; [eapply holds_eqm; eauto|]); eauto 6.
Qed.
Lemma m_too_big pf g n evs l s m b k v r s' : m_reached pf g n evs l s -> m_holds g n s m -> mcall_ok KO legal pf g n (MStore b k v) -> m_does g s (MStore b k v) (RUnit r) s' ->
  (r = Err EItemTooBig <-> exists d, item_bytes KO (length b) k v = inl d /\ mbig g d).
Proof.
  intros R H CO E. pose proof (m_store_ok _ _ _ _ _ _ _ _ _ _ _ _ R H CO E) as X. split.
  - intros ->. destruct X as (_ & [(_ & X)|[(X & _)|X]]); auto; [discriminate|]. destruct (enc_err _ _ _ _ X) as (y & Y). discriminate.
  - intros (d & D1 & D2). destruct r as [u|e]. { destruct X as (_ & d' & D3 & D4). rewrite D1 in D3. injection D3 as <-. contradiction. }
    destruct X as (_ & [(-> & _)|[(_ & d' & D3 & D4)|X]]); auto; [|congruence]. rewrite D1 in D3. injection D3 as <-. contradiction.
Qed.
Lemma m_store_ans pf g n evs l s m b k v a s' : m_reached pf g n evs l s -> m_holds g n s m -> mcall_ok KO legal pf g n (MStore b k v) -> m_does g s (MStore b k v) a s' -> exists r, a = RUnit r.
Proof. intros R H CO E. destruct (uncut pf g n evs l s m _ _ s' R H CO (or_intror (or_introl eq_refl)) E) as (m' & log & log' & _ & D & H'). inversion D; eauto. Qed.
Lemma m_remove_ok pf g n evs l s m b k a s' : m_reached pf g n evs l s -> m_holds g n s m -> fresh (mode_after calm0 evs l) = true -> legal k -> n <= length b -> m_does g s (MRemove b k) a s' ->
  a = RUnit (Ok tt) /\ m_holds g n s' (upd m k None).
Proof.
  intros R H F LK LB E. destruct (uncut pf g n evs l s m (MRemove b k) a s' R H (conj LK LB) (conj F (or_introl eq_refl)) E) as (m' & log & log' & _ & D & H').
  inversion D; subst; try discriminate. split; auto. eapply holds_eqm; eauto.
Qed.
Lemma m_clear_ok pf g n evs l s m b a s' : m_reached pf g n evs l s -> m_holds g n s m -> fresh (mode_after calm0 evs l) = true -> n <= length b -> m_does g s (MRemoveAll b) a s' ->
  a = RUnit (Ok tt) /\ m_holds g n s' (@nothing K).
Proof.
  intros R H F LB E. destruct (uncut pf g n evs l s m (MRemoveAll b) a s' R H LB (conj F (or_introl eq_refl)) E) as (m' & log & log' & _ & D & H').
  inversion D; subst; try discriminate. split; auto. eapply holds_eqm; eauto.
Qed.
Lemma m_iter_ok pf g n evs l s m b bs a s' : m_reached pf g n evs l s -> m_holds g n s m -> fresh (mode_after calm0 evs l) = true -> f_ae (s_fl s) = true \/ whole (mode_after calm0 evs l) = true ->
  n <= length b -> Forall (fun x => n <= length x) bs -> m_does g s (MIter b bs) a s' ->
  m_holds g n s' m /\ exists ps, a = RList (Ok (firstn (length bs) (map Some ps ++ [None]))) /\ incl ps (stored evs l) /\ forall k, legal k -> lastv (k_eqb KO) k ps = m k.
Proof.
  intros R H F WH LB LBS E. destruct (uncut pf g n evs l s m (MIter b bs) a s' R H (conj LB LBS) (conj F WH) E) as (m' & log & log' & IN & D & H').
  inversion D as [| | | | | | |? ? ps ? P1 P2 P3| | | | | ]; subst; try discriminate. split; [eapply holds_eqm; eauto|]. exists ps. split; auto. split; auto. eapply incl_tran; eauto.
Qed.

Lemma m_cut_store pf g n evs l s m b k v p a s' ca : m_reached pf g n evs l s -> m_holds g n s m -> mcall_ok KO legal pf g n (MStore b k v) -> (pf = false -> p = None) ->
  covered (f_ae (s_fl s)) (mode_after calm0 evs l) (MStore b k v) p -> fresh_cache (NP g) ca -> m_exec KO g (MStore b k v) (power s p) = (a, s') ->
  (a = RUnit (Ok tt) /\ m_holds g n (set_ca s' ca) (upd m k (Some v)) /\ m_holds g n s' (upd m k (Some v))) \/
  (exists e, a = RUnit (Err e) /\ e <> cut /\ m_holds g n (set_ca s' ca) m /\ m_holds g n s' m) \/
  (a = RUnit (Err cut) /\ exists m', (m' = m \/ m' = upd m k (Some v)) /\ m_holds g n (set_ca s' ca) m' /\ m_holds g n s' m').
Proof.
  intros R H CO PO CV FC E. destruct (m_step _ _ _ _ _ _ _ _ _ _ _ _ R H CO PO CV FC E) as (m' & log & log' & _ & D & H1 & H2). inversion D; subst.
  - left. split; auto. try split; eapply holds_eqm; eauto.
  - right; left. eexists. split; [reflexivity|]. split; [discriminate|]. split; eapply holds_eqm; eauto.
  - right; left. eexists. split; [reflexivity|]. split; [discriminate|]. split; eapply holds_eqm; eauto.
  - right; left. eexists. split; [reflexivity|]. split; [|split; eapply holds_eqm; eauto]. match goal with X : item_bytes _ _ _ _ = inr _ |- _ => destruct (enc_err _ _ _ _ X) as (y & ->) end. discriminate.
  - right; right. split; auto. match goal with X : _ \/ _ |- _ => destruct X as [X|X] end; [exists m; split; [now left|]|eexists; split; [right; reflexivity|]]; split; eapply holds_eqm; eauto.
  - right; right. split; auto. exists m. split; auto. split; eapply holds_eqm; eauto.
Qed.
Lemma m_cut_remove pf g n evs l s m b k p a s' ca : m_reached pf g n evs l s -> m_holds g n s m -> legal k -> n <= length b -> (pf = false -> p = None) ->
  covered (f_ae (s_fl s)) (mode_after calm0 evs l) (MRemove b k) p -> fresh_cache (NP g) ca -> m_exec KO g (MRemove b k) (power s p) = (a, s') ->
  (a = RUnit (Ok tt) /\ m_holds g n (set_ca s' ca) (upd m k None) /\ m_holds g n s' (upd m k None)) \/
  (a = RUnit (Err cut) /\ exists m', (m' = m \/ m' = upd m k None) /\ m_holds g n (set_ca s' ca) m' /\ m_holds g n s' m').
Proof.
  intros R H LK LB PO CV FC E. destruct (m_step pf g n evs l s m (MRemove b k) p a s' ca R H (conj LK LB) PO CV FC E) as (m' & log & log' & _ & D & H1 & H2). inversion D; subst.
  - left. split; auto. try split; eapply holds_eqm; eauto.
  - right. split; auto. match goal with X : _ \/ _ |- _ => destruct X as [X|X] end; [exists m; split; [now left|]|eexists; split; [right; reflexivity|]]; split; eapply holds_eqm; eauto.
Qed.
Lemma m_cut_clear pf g n evs l s m b p a s' ca : m_reached pf g n evs l s -> m_holds g n s m -> n <= length b -> (pf = false -> p = None) ->
  covered (f_ae (s_fl s)) (mode_after calm0 evs l) (@MRemoveAll K b) p -> fresh_cache (NP g) ca -> m_exec KO g (MRemoveAll b) (power s p) = (a, s') ->
  (a = RUnit (Ok tt) /\ m_holds g n (set_ca s' ca) (@nothing K)) \/
  (a = RUnit (Err cut) /\ exists m', (forall k, legal k -> m' k = m k \/ m' k = None) /\ m_holds g n (set_ca s' ca) m' /\ m_holds g n s' m').
Proof.
  intros R H LB PO CV FC E. destruct (m_step pf g n evs l s m (MRemoveAll b) p a s' ca R H LB PO CV FC E) as (m' & log & log' & _ & D & H1 & H2). inversion D; subst.
  - left. split; auto. eapply holds_eqm; eauto.
  - right. split; auto. exists m'. auto.
Qed.

(** What a key holds when later events leave it alone. *)
Definition spares (k : K) (e : mev K) : Prop :=
  match e with
  | MCall (MStore _ k' _) _ | MCall (MRemove _ k') _ => k_eqb KO k k' = false
  | MCall (MRemoveAll _) _ => False
  | _ => True
  end.
Definition stores_not (k : K) (e : mev K) : Prop := match e with MCall (MStore _ k' _) _ => k_eqb KO k k' = false | _ => True end.
Lemma do_spares pf g k m log c a m' log' p : legal k -> mdo pf g m log c a m' log' -> spares k (MCall c p) -> m' k = m k.
Proof.
  intros LK D SP. inversion D; subst; cbn [spares] in SP; try contradiction; auto;
    repeat match goal with X : MSpec.eqm _ m' _ |- _ => rewrite (X k LK) | X : _ \/ _ |- _ => destruct X end; unfold MSpec.upd; try rewrite SP; auto.
Qed.
Lemma do_none pf g k m log c a m' log' p : legal k -> mdo pf g m log c a m' log' -> stores_not k (MCall c p) -> m k = None -> m' k = None.
Proof.
  intros LK D SP MN. inversion D; subst; cbn [stores_not] in SP; auto;
    repeat match goal with X : MSpec.eqm _ m' _ |- _ => rewrite (X k LK) | X : _ \/ _ |- _ => destruct X end; unfold MSpec.upd; try rewrite SP; auto; try (destruct (k_eqb KO k _); auto; fail).
  match goal with X : forall k, legal k -> _ |- _ => destruct (X k LK); congruence end.
Qed.
Lemma trace_spares pf g k : legal k -> forall m log evs l m' log', mtrace pf g m log evs l m' log' -> Forall (spares k) evs -> m' k = m k.
Proof.
  intros LK. induction 1 as [m m' log E|m log c p a m1 log1 evs l m2 log2 D T IH|m log c evs l m2 log2 T IH]; intros F; auto; inversion F; subst; auto.
  rewrite IH by auto. eapply do_spares; eauto.
Qed.
Lemma trace_none pf g k : legal k -> forall m log evs l m' log', mtrace pf g m log evs l m' log' -> Forall (stores_not k) evs -> m k = None -> m' k = None.
Proof.
  intros LK. induction 1 as [m m' log E|m log c p a m1 log1 evs l m2 log2 D T IH|m log c evs l m2 log2 T IH]; intros F MN; auto; inversion F; subst; auto.
  - rewrite E; auto.
  - apply IH; auto. eapply do_none; eauto.
Qed.
Lemma trace_app pf g : forall evs1 m log evs2 l m' log', mtrace pf g m log (evs1 ++ evs2) l m' log' ->
  exists m1 log1, mtrace pf g m log evs1 (firstn (length (m_calls evs1)) l) m1 log1 /\ mtrace pf g m1 log1 evs2 (skipn (length (m_calls evs1)) l) m' log'.
Proof.
  induction evs1 as [|[c p|c] evs1 IH]; intros m log evs2 l m' log' T; cbn [app] in T.
  - exists m, log. cbn. split; auto. constructor. intros k L; auto.
  - inversion T; subst. destruct (IH _ _ _ _ _ _ ltac:(eassumption)) as (m2 & log2 & T1 & T2). exists m2, log2. unfold m_calls in *. cbn [flat_map app length firstn skipn]. split; auto. econstructor; eauto.
  - inversion T; subst. destruct (IH _ _ _ _ _ _ ltac:(eassumption)) as (m2 & log2 & T1 & T2). exists m2, log2. unfold m_calls in *. cbn [flat_map app]. split; auto. now constructor.
Qed.
Lemma skipn_mid {A} (l1 l2 : list A) n : length l1 = n -> skipn n (l1 ++ l2) = l2.
Proof. intros <-. rewrite skipn_app, skipn_all, Nat.sub_diag. reflexivity. Qed.
Lemma m_kept pf g n evs1 evs2 l1 l2 s m b k v p : m_reached pf g n (evs1 ++ MCall (MStore b k v) p :: evs2) (l1 ++ RUnit (Ok tt) :: l2) s -> length l1 = length (m_calls evs1) ->
  legal k -> Forall (spares k) evs2 -> m_holds g n s m -> m k = Some v.
Proof.
  intros R LL LK SP H. destruct (m_history _ _ _ _ _ _ R) as (m0 & log & T & H0). rewrite (holds_unique _ _ _ _ _ H H0 k LK). apply trace_app in T. destruct T as (m1 & log1 & _ & T).
  rewrite skipn_mid in T by auto. inversion T as [|? ? ? ? ? m2 log2 ? ? ? ? D T2|]; subst. rewrite (trace_spares _ _ _ LK _ _ _ _ _ _ T2 SP).
  inversion D as [? ? ? d ? E1 E2 E3| | | | | | | | | | | | ]; subst. rewrite (E3 k LK). unfold MSpec.upd. destruct R as (KC & _). now rewrite (proj2 (kc_eqb _ _ KC k k LK LK) eq_refl).
Qed.
Lemma m_gone pf g n evs1 evs2 l1 l2 s m c k p : m_reached pf g n (evs1 ++ MCall c p :: evs2) (l1 ++ RUnit (Ok tt) :: l2) s -> length l1 = length (m_calls evs1) ->
  (exists b, c = MRemove b k \/ c = MRemoveAll b) -> legal k -> Forall (stores_not k) evs2 -> m_holds g n s m -> m k = None.
Proof.
  intros R LL CC LK SP H. destruct (m_history _ _ _ _ _ _ R) as (m0 & log & T & H0). rewrite (holds_unique _ _ _ _ _ H H0 k LK). apply trace_app in T. destruct T as (m1 & log1 & _ & T).
  rewrite skipn_mid in T by auto. inversion T as [|? ? ? ? ? m2 log2 ? ? ? ? D T2|]; subst. apply (trace_none _ _ _ LK _ _ _ _ _ _ T2 SP).
  destruct CC as (b & [->| ->]); inversion D as [| | | | |? ? ? E3|? ? E3| | | | | | ]; subst; rewrite (E3 k LK); auto. unfold MSpec.upd. destruct R as (KC & _). now rewrite (proj2 (kc_eqb _ _ KC k k LK LK) eq_refl).
Qed.

(** Stores and fetches only, on a device with atomic erases: every history with power failures is covered. *)
Definition store_fetch (e : mev K) : Prop := match e with MCall (MStore _ _ _) _ | MCall (MFetch _ _) _ | MBoot _ => True | _ => False end.
Lemma calm_auto evs : forall t l, Forall store_fetch evs -> calm true t evs l.
Proof.
  induction evs as [|[c p|c] evs IH]; intros t l F; cbn [calm]; auto; inversion F; subst; auto.
  destruct l as [|a l]; auto. split; auto. destruct c; cbn in *; auto; contradiction.
Qed.

(** Runs without power failures. *)
Lemma mev_mevok2 pf g aw n e : msetting pf g aw -> mev_ok KO legal pf g n e -> mevok2 g (negb pf) aw KO legal n e.
Proof. intros ST. destruct e as [c p|c]; cbn [mevok2 mev_ok]; auto. intros [P C]. eapply mcall_mcok; eauto. Qed.
Lemma mev_none g n evs : Forall (mev_ok KO legal false g n) evs -> Forall (fun e => match e with MCall _ p => p = None | MBoot _ => True end) evs.
Proof. intros H. eapply Forall_impl; [|exact H]. intros [c p|c]; cbn; auto. intros [A _]; auto. Qed.
Lemma mst_side g ws ae aw n t log m s : mst g ws ae aw KO legal n t log m s -> exists Y, side g ws ae aw KO legal n t Y s /\ (sure t = true -> settled Y).
Proof. intros (Y & A & B & C & D & _). exists Y. split; auto. split; auto. split; auto. eapply mgood_B0; eauto. Qed.

Lemma m_caches g n f c1 c2 evs1 evs2 l1 l2 s1 s2 : key_codec KO legal -> erased g f -> f_fuel f = None -> msetting false g (f_aw f) -> fresh_cache (NP g) c1 -> fresh_cache (NP g) c2 ->
  Forall (mev_ok KO legal false g n) evs1 -> Forall (mev_ok KO legal false g n) evs2 -> m_calls evs1 = m_calls evs2 ->
  m_run KO g (st_new f c1) evs1 = (l1, s1) -> m_run KO g (st_new f c2) evs2 = (l2, s2) -> l1 = l2 /\ f_mem (s_fl s1) = f_mem (s_fl s2) /\ f_wc (s_fl s1) = f_wc (s_fl s2) /\ f_er (s_fl s1) = f_er (s_fl s2).
Proof.
  intros KC ER FU ST F1 F2 V1 V2 EC E1 E2. pose proof ST as (gok & np2 & _).
  pose proof (mst_new g gok true (f_ae f) (f_aw f) np2 KO legal n f c1 ER eq_refl eq_refl (fun _ => FU) F1) as Q1.
  pose proof (easy_calm evs1 (mev_none g n evs1 V1)) as [Z1 O1]. pose proof (easy_calm evs2 (mev_none g n evs2 V2)) as [Z2 O2].
  assert (EV : forall evs, Forall (mev_ok KO legal false g n) evs -> Forall (mevok2 g true (f_aw f) KO legal n) evs) by (intros; eapply Forall_impl; [|eassumption]; intros; eapply (mev_mevok2 false); eauto).
  assert (TW : two g true (f_ae f) (f_aw f) KO legal n calm0 calm0 (st_new f c1) (st_new f c2)).
  { destruct (mst_side _ _ _ _ _ _ _ _ _ Q1) as (Y & (A & B & C) & _). exists Y, Y. split; [split; auto|]. split; [split; auto|left; auto].
    change (st_new f c2) with (set_ca (st_new f c1) c2). cbn [fresh calm0]. eapply mlay_boot; eauto. }
  destruct (two_hist g gok true (f_ae f) (f_aw f) np2 KO legal KC (length evs1 + length evs2) n evs1 evs2 calm0 calm0 (st_new f c1) (st_new f c2) l1 l2 s1 s2) as [-> TW2]; auto.
  split; auto. rewrite O1, O2 in TW2. pose proof (two_eq _ _ _ _ np2 _ _ _ _ _ _ _ TW2 eq_refl eq_refl) as X.
  split; [exact (f_equal f_mem X)|]. split; [exact (f_equal f_wc X)|exact (f_equal f_er X)].
Qed.
Lemma m_recache pf g n evs l s ca evs2 l1 l2 s1 s2 : m_reached pf g n evs l s -> fresh_cache (NP g) ca -> Forall (mev_ok KO legal pf g n) evs2 ->
  easy (mode_after calm0 evs l) evs2 -> m_run KO g s evs2 = (l1, s1) -> m_run KO g (set_ca s ca) evs2 = (l2, s2) -> l1 = l2.
Proof.
  intros R F V EZ E1 E2. destruct (reached_reach _ _ _ _ _ _ R) as (m0 & log & ae & aw & RC). destruct RC as [KC ST AE MS TR _]. pose proof ST as (gok & np2 & _).
  assert (EV : Forall (mevok2 g (negb pf) aw KO legal n) evs2) by (eapply Forall_impl; [|exact V]; intros; eapply mev_mevok2; eauto).
  set (t := mode_after calm0 evs l) in *.
  assert (TW : two g (negb pf) ae aw KO legal n t (mkmode (sure t) true (whole t)) s (set_ca s ca)).
  { apply two_sym, two_boot; auto. destruct (mst_side _ _ _ _ _ _ _ _ _ MS) as (Y & A & _). exists Y, Y. split; auto. split; auto. now left. }
  destruct (two_hist g gok (negb pf) ae aw np2 KO legal KC (length evs2 + length evs2) n evs2 evs2 t (mkmode (sure t) true (whole t)) s (set_ca s ca) l1 l2 s1 s2) as [-> TW2]; auto. now apply easy_fresh.
Qed.

Lemma m_wearing g n evs l s : m_reached false g n evs l s -> exists Y pg ops k, layok (NP g) Y pg /\ (forall p, p < NP g -> page_is g true (s_fl s) p (pg p)) /\
  f_er (s_fl s) = rev (map (rng g) (des ops)) /\ des ops = map (fun i => i mod NP g) (seq 0 k) /\ (Forall mkeeps evs -> yall alive Y).
Proof.
  intros (KC & f & c & ER & FU & FE & FC & ST & EV & _ & E). pose proof ST as (gok & np2 & _).
  pose proof (mst_new g gok true (f_ae f) (f_aw f) np2 KO legal n f c ER eq_refl eq_refl (fun _ => FU) FC) as Q0.
  assert (SD : exists Y, side g true (f_ae f) (f_aw f) KO legal n calm0 Y (st_new f c) /\ settled Y /\ y_f Y = 0 /\ yall alive Y).
  { destruct (mst_new0 g gok true (f_ae f) (f_aw f) np2 KO legal n f c ER eq_refl eq_refl (fun _ => FU) FC) as (A & B & C). exists (mklay 0 [] None (NP g) 0). split; [split; [exact A|split; [eapply mgood_B0; exact B|reflexivity]]|]. split; [exact C|]. split; [reflexivity|constructor]. }
  destruct SD as (Y & SD & SE & Y0 & YA).
  assert (EV' : Forall (mevok2 g true (f_aw f) KO legal n) evs) by (eapply Forall_impl; [|exact EV]; intros; eapply (mev_mevok2 false); eauto).
  destruct (wear_hist g gok true (f_ae f) (f_aw f) np2 KO legal KC n evs eq_refl Y (st_new f c) l s SD SE EV' (proj1 (easy_calm evs (mev_none g n evs EV))) E) as (Y' & ((pg & LY & SW & _) & _) & _ & (ops & EO & k & DO & _) & AL).
  exists Y', pg, ops, k. split; auto. split; [destruct SW as ((_ & A1 & _) & _); exact A1|]. change (f_er (s_fl (st_new f c))) with (f_er f) in EO. rewrite FE, app_nil_r in EO. split; auto. split; [|auto].
  rewrite DO, Y0. reflexivity.
Qed.
Lemma m_wear g n evs l s : m_reached false g n evs l s ->
  (exists k, f_er (s_fl s) = rev (map (fun i => (paddr g (i mod NP g), pend g (i mod NP g))) (seq 0 k))) /\
  forall p p', p < NP g -> p' < NP g -> erase_count g (s_fl s) p <= erase_count g (s_fl s) p' + 1.
Proof.
  intros R. destruct (m_wearing _ _ _ _ _ R) as (Y & pg & ops & k & LY & _ & EO & DO & _). destruct R as (_ & f & c & _ & _ & _ & _ & (gok & _) & _).
  rewrite DO in EO. split; [exists k; rewrite EO, map_map; reflexivity|]. eapply erase_counts; eauto.
Qed.
Lemma m_writes g n evs l s : m_reached false g n evs l s -> forall x, START g <= x < FEND g ->
  f_wc (s_fl s) x <= 2 /\ (1 < f_wc (s_fl s) x -> exists h, h <= x < h + HL g /\ removed_header (s_fl s) h) /\ (Forall mkeeps evs -> f_wc (s_fl s) x <= 1).
Proof.
  intros R x Hx. destruct (m_wearing _ _ _ _ _ R) as (Y & pg & ops & k & LY & PI & _ & _ & AL). destruct R as (_ & f & c & _ & _ & _ & _ & (gok & _) & _).
  destruct (lay_wc g gok Y pg (s_fl s) LY PI x Hx) as (A & B & C). auto.
Qed.

(** Without power failures. *)
Lemma m_remove_free g n evs l s m b k a s' : m_reached false g n evs l s -> m_holds g n s m -> legal k -> n <= length b -> m_does g s (MRemove b k) a s' ->
  a = RUnit (Ok tt) /\ m_holds g n s' (upd m k None).
Proof. intros R H LK LB D. destruct (reached_reach _ _ _ _ _ _ R) as (m0 & log & ae & aw & RC). eapply m_remove_ok; eauto. destruct RC as [_ _ _ _ _ FR]; now rewrite (FR eq_refl). Qed.
Lemma m_clear_free g n evs l s m b a s' : m_reached false g n evs l s -> m_holds g n s m -> n <= length b -> m_does g s (MRemoveAll b) a s' ->
  a = RUnit (Ok tt) /\ m_holds g n s' (@nothing K).
Proof. intros R H LB D. destruct (reached_reach _ _ _ _ _ _ R) as (m0 & log & ae & aw & RC). eapply m_clear_ok; eauto. destruct RC as [_ _ _ _ _ FR]; now rewrite (FR eq_refl). Qed.
Lemma m_iter_free g n evs l s m b bs a s' : m_reached false g n evs l s -> m_holds g n s m ->
  n <= length b -> Forall (fun x => n <= length x) bs -> m_does g s (MIter b bs) a s' ->
  m_holds g n s' m /\ exists ps, a = RList (Ok (firstn (length bs) (map Some ps ++ [None]))) /\ incl ps (stored evs l) /\ forall k, legal k -> lastv (k_eqb KO) k ps = m k.
Proof. intros R H LB FB D. destruct (reached_reach _ _ _ _ _ _ R) as (m0 & log & ae & aw & RC). eapply m_iter_ok; eauto; destruct RC as [_ _ _ _ _ FR]; rewrite (FR eq_refl); auto. Qed.
End Props.
