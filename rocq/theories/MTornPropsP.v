(** The claims about the map when any erase may be torn, in terms of calls and answers. *)
From Coq Require Import List NArith ZArith Arith Bool Lia ZifyBool ZifyNat ZifyN.
From Verif Require Import Base BaseP Crc CrcP Flash Cache State Item Generic Map Codec CodecP GeomP WpP ItemP PageP TornSpec TornP WorldP LayP QPushP QRepP KeyP MLogP MStoreP MCallP MTornP Client QSpec QObs MClient MSpec MExecP MHistP MTornHistP MObs QPropsP MPropsP MTornObs.
Import ListNotations.
Local Opaque crc16 acrc crc32.

Section Props.
Context {K : Type} (KO : keyops K) (legal : K -> Prop).
Notation upd := (upd (k_eqb KO)).
Notation eqm := (eqm legal).
Notation m_holds := (m_holds KO legal).
Notation torn_reached := (torn_reached KO legal).
Notation mdo g := (mdo (k_eqb KO) legal (item_bytes KO) (mbig g) true).
Notation mtrace g := (mtrace (k_eqb KO) legal (item_bytes KO) (mbig g) true).
Implicit Types (s : st K).

Lemma torn_set g aw : geom_ok g -> 2 <= NP g -> 8 <= W g -> msetting true g aw.
Proof. intros A B C. split; auto. Qed.
Lemma qcall_mcokq g aw n c : geom_ok g -> 2 <= NP g -> 8 <= W g -> qcall_ok KO legal g n c -> mcokq g false aw KO legal n c.
Proof. intros A B C [H Q]. split; [exact (mcall_mcok KO legal true g aw n c (torn_set g aw A B C) H)|exact Q]. Qed.
Lemma qev_mevokq g aw n e : geom_ok g -> 2 <= NP g -> 8 <= W g -> qev_ok KO legal g n e -> mevokq g false aw KO legal n e.
Proof. intros A B C. destruct e as [c p|c]; cbn [qev_ok mevokq]; auto. intros H. split; [now apply qcall_mcokq|discriminate]. Qed.

Record treach (g : geom) (n : nat) (evs : list (mev K)) (l : list (mans K)) s (m : K -> option (list N)) (log : list (K * list N)) (ae : bool) (aw : nat) : Prop := {
  tr_codec : key_codec KO legal; tr_gok : geom_ok g; tr_np : 2 <= NP g; tr_w : 8 <= W g;
  tr_qst : qst g false ae aw KO legal n (mode_after calm0 evs l) log m s;
  tr_trace : mtrace g (@nothing K) [] evs l m log }.
Lemma torn_treach g n evs l s : torn_reached g n evs l s -> exists m log ae aw, treach g n evs l s m log ae aw.
Proof.
  intros (KC & f & c & ER & FU & FC & gok & np2 & W8 & EV & CA & E).
  assert (EV' : Forall (mevokq g false (f_aw f) KO legal n) evs) by (eapply Forall_impl; [|exact EV]; intros; eapply qev_mevokq; eauto).
  pose proof (qst_new g gok false (f_ae f) (f_aw f) np2 W8 KO legal n f c ER eq_refl eq_refl (fun _ => FU) FC) as M0.
  destruct (qhist_ok g gok false (f_ae f) (f_aw f) np2 W8 KO legal KC n evs _ _ _ _ _ _ M0 EV' CA E) as (m & log & T & MS).
  exists m, log, (f_ae f), (f_aw f). constructor; auto.
Qed.
Lemma treach_holds g n evs l s m log ae aw : treach g n evs l s m log ae aw -> m_holds g n s m.
Proof. intros [KC gok np2 W8 MS _] k b LK LB. eapply (qst_fetch g gok false ae aw np2 KO legal KC); eauto. Qed.

Lemma torn_history g n evs l s : torn_reached g n evs l s -> exists m log, mtrace g (@nothing K) [] evs l m log /\ m_holds g n s m.
Proof. intros R. destruct (torn_treach _ _ _ _ _ R) as (m & log & ae & aw & RC). exists m, log. split; [apply RC|eapply treach_holds; eauto]. Qed.

Lemma qst_eqm g ae aw n t log m m' s : eqm m m' -> qst g false ae aw KO legal n t log m s -> qst g false ae aw KO legal n t log m' s.
Proof.
  intros E [(Y & A & B & C & D & F & V)|(SF & Y & J & V)]; [left; exists Y; do 5 (split; auto)|right; split; auto; exists Y; split; auto]; intros k L; rewrite <- E; auto.
Qed.
Lemma torn_step g n evs l s m c p a s' ca : torn_reached g n evs l s -> m_holds g n s m -> qcall_ok KO legal g n c ->
  covered_q (mode_after calm0 evs l) c -> fresh_cache (NP g) ca -> m_exec KO g c (power s p) = (a, s') ->
  exists m' log log', incl log (stored evs l) /\ mdo g m log c a m' log' /\ m_holds g n s' m' /\ m_holds g n (set_ca s' ca) m'.
Proof.
  intros R H CO CV FC E. destruct (torn_treach _ _ _ _ _ R) as (m0 & log & ae & aw & RC). pose proof RC as [KC gok np2 W8 MS TR].
  assert (EM : eqm m0 m) by (eapply holds_unique; [eapply treach_holds; eauto|exact H]).
  destruct (qst_step g gok false ae aw np2 W8 KO legal KC n _ log m s c p a s' (qst_eqm _ _ _ _ _ _ _ _ _ EM MS) (qcall_mcokq _ _ _ _ gok np2 W8 CO) CV ltac:(discriminate) E) as (m' & log' & D & MS2).
  exists m', log, log'. split; [exact (stored_ok _ _ _ _ _ _ _ _ _ _ TR)|]. split; [exact D|]. split; intros k b LK LB.
  - eapply (qst_fetch g gok false ae aw np2 KO legal KC); eauto.
  - eapply (qst_fetch g gok false ae aw np2 KO legal KC); eauto. eapply (qst_boot g false ae aw np2); eauto.
Qed.
Lemma torn_cut_store g n evs l s m b k v p a s' ca : torn_reached g n evs l s -> m_holds g n s m -> qcall_ok KO legal g n (MStore b k v) ->
  fresh_cache (NP g) ca -> m_exec KO g (MStore b k v) (power s p) = (a, s') ->
  (a = RUnit (Ok tt) /\ m_holds g n (set_ca s' ca) (upd m k (Some v)) /\ m_holds g n s' (upd m k (Some v))) \/
  (exists e, a = RUnit (Err e) /\ e <> cut /\ m_holds g n (set_ca s' ca) m /\ m_holds g n s' m) \/
  (a = RUnit (Err cut) /\ exists m', (m' = m \/ m' = upd m k (Some v)) /\ m_holds g n (set_ca s' ca) m' /\ m_holds g n s' m').
Proof.
  intros R H CO FC E. destruct (torn_step _ _ _ _ _ _ _ _ _ _ _ R H CO I FC E) as (m' & log & log' & _ & D & H1 & H2). inversion D; subst.
  - left. split; auto. try split; eapply holds_eqm; eauto.
  - right; left. eexists. split; [reflexivity|]. split; [discriminate|]. split; eapply holds_eqm; eauto.
  - right; left. eexists. split; [reflexivity|]. split; [discriminate|]. split; eapply holds_eqm; eauto.
  - right; left. eexists. split; [reflexivity|]. split; [|split; eapply holds_eqm; eauto]. match goal with X : item_bytes _ _ _ _ = inr _ |- _ => destruct (enc_err _ _ _ _ _ X) as (y & ->) end. discriminate.
  - right; right. split; auto. match goal with X : _ \/ _ |- _ => destruct X as [X|X] end; [exists m; split; [now left|]|eexists; split; [right; reflexivity|]]; split; eapply holds_eqm; eauto.
  - right; right. split; auto. exists m. split; auto. split; eapply holds_eqm; eauto.
Qed.
Lemma torn_kept g n evs1 evs2 l1 l2 s m b k v p : torn_reached g n (evs1 ++ MCall (MStore b k v) p :: evs2) (l1 ++ RUnit (Ok tt) :: l2) s -> length l1 = length (m_calls evs1) ->
  legal k -> Forall (spares KO k) evs2 -> m_holds g n s m -> m k = Some v.
Proof.
  intros R LL LK SP H. destruct (torn_history _ _ _ _ _ R) as (m0 & log & T & H0). rewrite (holds_unique _ _ _ _ _ _ _ H H0 k LK). apply trace_app in T. destruct T as (m1 & log1 & _ & T).
  rewrite skipn_mid in T by auto. inversion T as [|? ? ? ? ? m2 log2 ? ? ? ? D T2|]; subst. rewrite (trace_spares _ _ _ _ _ LK _ _ _ _ _ _ T2 SP).
  inversion D as [? ? ? d ? E1 E2 E3| | | | | | | | | | | | ]; subst. rewrite (E3 k LK). unfold MSpec.upd. destruct R as (KC & _). now rewrite (proj2 (kc_eqb _ _ KC k k LK LK) eq_refl).
Qed.
Lemma torn_auto evs : forall t l, Forall (@store_fetch K) evs -> calm_q t evs l.
Proof.
  induction evs as [|[c p|c] evs IH]; intros t l F; cbn [calm_q]; auto; inversion F; subst; auto.
  destruct l as [|a l]; auto. split; auto. destruct c; cbn in *; auto; contradiction.
Qed.
End Props.
