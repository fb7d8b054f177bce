(** Histories with typed values: proofs of the claims. *)
From Coq Require Import List NArith ZArith Arith Bool Lia ZifyBool ZifyNat ZifyN.
From Verif Require Import Base BaseP Crc Flash Cache State Item Generic Map Codec CodecP Client QSpec QObs MClient MSpec MObs MPropsP TMap TMapP TObs.
Import ListNotations.
Local Opaque crc16 acrc crc32.

Section TPropsP.
Context {K : Type} (KO : keyops K) (legal : K -> Prop).
Implicit Types s : st K.
Notation upd := (upd (k_eqb KO)).
Notation m_reached := (m_reached KO legal).
Notation t_reached := (t_reached KO legal).
Notation m_holds := (m_holds KO legal).
Notation m_does := (m_does KO).
Notation mdo pf g := (mdo (k_eqb KO) legal (item_bytes KO) (mbig g) pf).
Notation mtrace pf g := (mtrace (k_eqb KO) legal (item_bytes KO) (mbig g) pf).

Definition tr (e : tev K) : mev K := match e with TStore _ V b k v p => MCall (MStore b k (tbytes KO V (length b) k v)) p | TRaw e => e end.
Lemma tbytes_item {T} (V : valops T) lv n k v kb : key_codec KO legal -> legal k -> val_codec V lv -> lv v -> k_ser KO k n = inl kb ->
  item_bytes KO n k (tbytes KO V n k v) = match v_ser V v (n - length kb) with inl vb => inl (kb ++ vb) | inr _ => inr (ESer SEBufferTooSmall) end.
Proof.
  intros KC LK VC LV EK. unfold item_bytes, tbytes. rewrite EK. pose proof (kc_fit _ _ KC _ _ _ LK EK). destruct (v_ser V v (n - length kb)) as [vb|e] eqn:EV.
  - pose proof (vc_fit _ _ VC _ _ _ LV EV). destruct (Nat.ltb_spec (n - length kb) (length vb)); [lia|]. reflexivity.
  - rewrite repeat_length. destruct (Nat.ltb_spec (n - length kb) (S n)); [reflexivity|lia].
Qed.
Lemma tr_call {T} pf g n (V : valops T) b k v : key_codec KO legal -> tstore_ok KO legal pf g n V b k v -> mcall_ok KO legal pf g n (MStore b k (tbytes KO V (length b) k v)).
Proof.
  intros KC (LK & LB & (lv & VC & LV) & SZ). split; [|split]; auto. intros d E. destruct (k_ser KO k (length b)) as [kb|e] eqn:EK.
  - rewrite (tbytes_item V lv _ k v kb KC LK VC LV EK) in E. destruct (v_ser V v (length b - length kb)) as [vb|e] eqn:EV; [|discriminate]. injection E as <-. eapply SZ; eauto.
  - unfold item_bytes in E. rewrite EK in E. discriminate.
Qed.
Lemma tr_ok pf g n e : key_codec KO legal -> tev_ok KO legal pf g n e -> mev_ok KO legal pf g n (tr e).
Proof. intros KC. destruct e as [T V b k v p|e]; auto. intros [P C]. split; auto. now apply tr_call. Qed.
Lemma tr_run pf g n evs : key_codec KO legal -> forall s l s', Forall (tev_ok KO legal pf g n) evs -> t_run KO g s evs = (l, s') ->
  exists l', m_run KO g s (map tr evs) = (l', s') /\ Forall2 tans l l'.
Proof.
  intros KC. induction evs as [|[T V b k v p|[c p|c]] evs IH]; intros s l s' EV E; cbn [t_run map tr m_run] in *.
  - injection E as <- <-. exists []. auto.
  - apply Forall_cons_iff in EV; destruct EV as [[P C] EV']. destruct C as (LK & LB & (lv & VC & LV) & SZ).
    destruct (t_store_bytes KO g V lv b k v (power s p) (fun n bs => kc_fit _ _ KC k n bs LK) VC LV) as (r & r' & E1 & E2 & TA). rewrite E1 in E.
    cbn [mans1 fst snd m_exec] in *. unfold mans1 in *. destruct (m_store _ _ _ _ _ _) as [r2 s2]. cbn [fst snd] in *. subst r2. destruct (t_run KO g s2 evs) as [l2 s3] eqn:E3. injection E as <- <-.
    destruct (IH _ _ _ EV' E3) as (l' & E4 & F). rewrite E4. eexists. split; [reflexivity|]. constructor; auto.
  - inversion EV as [|? ? C EV']; subst. destruct (m_exec KO g c (power s p)) as [a s2]. destruct (t_run KO g s2 evs) as [l2 s3] eqn:E3. injection E as <- <-.
    destruct (IH _ _ _ EV' E3) as (l' & E4 & F). rewrite E4. eexists. split; [reflexivity|]. constructor; auto. now left.
  - inversion EV; subst. eapply IH; eauto.
Qed.
Lemma tans_cut (a a' : mans K) : tans a a' -> was_cut a = was_cut a'.
Proof. intros [->|(e & -> & ->)]; reflexivity. Qed.
Lemma tr_after t (e : tev K) c c' p a a' : shape e = MCall c p -> tr e = MCall c' p -> tans a a' -> after_call t c a = after_call t c' a' /\ forall ae, covered ae t c p <-> covered ae t c' p.
Proof.
  intros E1 E2 TA. unfold after_call. rewrite (tans_cut _ _ TA). destruct e as [T V b k v q|[c0 q|c0]]; cbn [shape tr] in *; try discriminate; injection E1 as <- <-; injection E2 as <-; split; intros; cbn [covered]; tauto.
Qed.
Lemma tr_mode evs : forall t l l', Forall2 tans l l' -> mode_after t (map shape evs) l = mode_after t (map tr evs) l'.
Proof.
  induction evs as [|[T V b k v p|[c p|c]] evs IH]; intros t l l' F; cbn [map shape tr mode_after]; auto.
  - destruct F as [|a a' l l' TA F]; auto. rewrite (proj1 (tr_after t (TStore T V b k v p) _ _ _ a a' eq_refl eq_refl TA)). now apply IH.
  - destruct F as [|a a' l l' TA F]; auto. rewrite (proj1 (tr_after t (TRaw (MCall c p)) _ _ _ a a' eq_refl eq_refl TA)). now apply IH.
Qed.
Lemma tr_calm ae evs : forall t l l', Forall2 tans l l' -> calm ae t (map shape evs) l -> calm ae t (map tr evs) l'.
Proof.
  induction evs as [|[T V b k v p|[c p|c]] evs IH]; intros t l l' F; cbn [map shape tr calm]; auto.
  - destruct F as [|a a' l l' TA F]; auto. destruct (tr_after t (TStore T V b k v p) _ _ _ a a' eq_refl eq_refl TA) as [E C]. rewrite E. intros [C1 C2]. split; [now apply C|]. eapply IH; eauto.
  - destruct F as [|a a' l l' TA F]; auto. destruct (tr_after t (TRaw (MCall c p)) _ _ _ a a' eq_refl eq_refl TA) as [E C]. rewrite E. intros [C1 C2]. split; auto. eapply IH; eauto.
  - inversion F; subst; intros C; eapply IH; eauto.
Qed.
Lemma tr_reached pf g n evs l s : t_reached pf g n evs l s -> exists l', m_reached pf g n (map tr evs) l' s /\ Forall2 tans l l'.
Proof.
  intros (KC & f & c & ER & FU & FE & FC & ST & EV & CA & E). destruct (tr_run pf g n evs KC _ _ _ EV E) as (l' & E' & F). exists l'. split; auto. split; auto.
  exists f, c. repeat (split; auto).
  - apply Forall_map. eapply Forall_impl; [|exact EV]. intros. now apply tr_ok.
  - intros P. eapply tr_calm; eauto.
Qed.

Lemma t_history pf g n evs l s : t_reached pf g n evs l s -> exists m, m_holds g n s m.
Proof. intros R. destruct (tr_reached _ _ _ _ _ _ R) as (l' & R' & _). destruct (m_history KO legal _ _ _ _ _ _ R') as (m & log & _ & H). eauto. Qed.

(** Fetching with any codec. *)
Lemma t_fetch_ok {T} (V : valops T) pf g n evs l s m b k : t_reached pf g n evs l s -> m_holds g n s m -> legal k -> n <= length b ->
  exists s', t_fetch KO g V b k (power s None) =
    (match m k with None => Ok None | Some bs => match v_de V bs with inl (x, _) => Ok (Some x) | inr e => Err (ESer e) end end, s') /\ m_holds g n s' m.
Proof.
  intros R H LK LB. destruct (tr_reached _ _ _ _ _ _ R) as (l' & R' & _). destruct (H k b LK LB) as (s' & D). exists s'.
  destruct (m_fetch_ok KO legal _ _ _ _ _ _ m b k _ s' R' H LK LB D) as [_ H']. split; auto. unfold MObs.m_does in D. cbn [m_exec] in D. unfold mans1 in D. unfold t_fetch, bind.
  destruct (m_fetch KO g b k (power s None)) as [r s1]. cbn [fst snd] in D. injection D as -> ->. destruct (m k) as [bs|]; auto. unfold ser_lift. destruct (v_de V bs) as [[x ?]|e]; reflexivity.
Qed.
(** What holds the bytes of [v] gives [v]. *)
Definition gives {T} (V : valops T) g n s k v : Prop := forall b, n <= length b -> exists s', t_fetch KO g V b k (power s None) = (Ok (Some v), s').
Lemma gives_of {T} (V : valops T) lv pf g n evs l s m k v n0 bs : t_reached pf g n evs l s -> m_holds g n s m -> legal k -> m k = Some bs -> val_codec V lv -> lv v -> v_ser V v n0 = inl bs -> gives V g n s k v.
Proof.
  intros R H LK E VC LV EV b LB. destruct (t_fetch_ok V _ _ _ _ _ _ m b k R H LK LB) as (s' & F & _). rewrite E, (vc_de _ _ VC _ _ _ LV EV) in F. eauto.
Qed.
Lemma holds_gives {T} (V : valops T) lv g n s m k v n0 bs : m_holds g n s m -> legal k -> m k = Some bs -> val_codec V lv -> lv v -> v_ser V v n0 = inl bs -> gives V g n s k v.
Proof.
  intros H LK E VC LV EV b LB. destruct (H k b LK LB) as (s' & D). exists s'. unfold MObs.m_does in D. cbn [m_exec] in D. unfold mans1 in D. unfold t_fetch, bind.
  destruct (m_fetch KO g b k (power s None)) as [r s1]. cbn [fst snd] in D. injection D as -> ->. rewrite E. unfold ser_lift. rewrite (vc_de _ _ VC _ _ _ LV EV). reflexivity.
Qed.
Lemma ser_ok {T} (V : valops T) lv n k v d : key_codec KO legal -> legal k -> val_codec V lv -> lv v -> item_bytes KO n k (tbytes KO V n k v) = inl d ->
  exists kb vb, k_ser KO k n = inl kb /\ v_ser V v (n - length kb) = inl vb /\ tbytes KO V n k v = vb /\ d = kb ++ vb.
Proof.
  intros KC LK VC LV E. destruct (k_ser KO k n) as [kb|e] eqn:EK; [|unfold item_bytes in E; rewrite EK in E; discriminate]. exists kb. rewrite (tbytes_item V lv _ k v kb KC LK VC LV EK) in E.
  unfold tbytes. rewrite EK. destruct (v_ser V v (n - length kb)) as [vb|e]; [|discriminate]. injection E as <-. eauto.
Qed.

(** One store, which may be cut. *)
Lemma t_store_cut {T} (V : valops T) pf g n evs l s m b k v p r s' ca : t_reached pf g n evs l s -> m_holds g n s m -> tstore_ok KO legal pf g n V b k v ->
  (pf = false -> p = None) -> covered (f_ae (s_fl s)) (mode_after calm0 (map shape evs) l) (MStore b k []) p -> fresh_cache (NP g) ca -> t_store KO g V b k v (power s p) = (r, s') ->
  exists m', m_holds g n s' m' /\ m_holds g n (set_ca s' ca) m' /\ (forall k', legal k' -> k_eqb KO k' k = false -> m' k' = m k') /\
  match r with
  | Ok _ => gives V g n s' k v /\ gives V g n (set_ca s' ca) k v
  | Err e => m' k = m k \/ (e = cut /\ gives V g n s' k v /\ gives V g n (set_ca s' ca) k v)
  end.
Proof.
  intros R H C P CV FC E. destruct (tr_reached _ _ _ _ _ _ R) as (l' & R' & F2). pose proof R as (KC & _). pose proof C as (LK & LB & (lv & VC & LV) & SZ).
  destruct (t_store_bytes KO g V lv b k v (power s p) (fun n bs => kc_fit _ _ KC k n bs LK) VC LV) as (r0 & r' & E1 & E2 & TA). rewrite E1 in E. injection E as <- E.
  assert (CV' : covered (f_ae (s_fl s)) (mode_after calm0 (map tr evs) l') (MStore b k (tbytes KO V (length b) k v)) p) by (rewrite <- (tr_mode evs calm0 l l' F2); exact CV).
  assert (X : m_exec KO g (MStore b k (tbytes KO V (length b) k v)) (power s p) = (RUnit r', s')) by (cbn [m_exec]; unfold mans1; congruence).
  pose proof (m_step KO legal pf g n _ _ s m _ p _ _ ca R' H (tr_call pf g n V b k v KC C) P CV' FC X) as (m' & log & log' & _ & D & H1 & H2).
  assert (G : forall d, item_bytes KO (length b) k (tbytes KO V (length b) k v) = inl d -> eqm legal m' (upd m k (Some (tbytes KO V (length b) k v))) -> gives V g n s' k v /\ gives V g n (set_ca s' ca) k v).
  { intros d ED EM. destruct (ser_ok V lv _ k v d KC LK VC LV ED) as (kb & vb & K1 & K2 & K3 & _). pose proof (EM k LK) as K4. unfold MSpec.upd in K4.
    rewrite (proj2 (kc_eqb _ _ KC k k LK LK) eq_refl), K3 in K4. split; eapply holds_gives; eauto. }
  assert (OT : eqm legal m' (upd m k (Some (tbytes KO V (length b) k v))) -> forall k', legal k' -> k_eqb KO k' k = false -> m' k' = m k').
  { intros EM k' L' NE. rewrite (EM k' L'). unfold MSpec.upd. now rewrite NE. }
  exists m'. split; [exact H1|]. split; [exact H2|].
  assert (RE : forall e, r' = Err e -> exists e', r0 = Err e' /\ (e = cut -> e' = cut)).
  { intros e ->. destruct TA as [TA|(e2 & A1 & A2)]; [injection TA as ->; eauto|]. injection A1 as ->. injection A2 as ->. eexists. split; [reflexivity|]. discriminate. }
  clear X E1 E2 E. inversion D; subst; try (split; [intros; match goal with X : eqm legal m' _ |- _ => apply X; auto end|]).
  - split; [auto|]. destruct TA as [TA|(e2 & A1 & A2)]; [injection TA as ->; eauto|discriminate].
  - destruct (RE _ eq_refl) as (e' & -> & _). auto.
  - destruct (RE _ eq_refl) as (e' & -> & _). auto.
  - destruct (RE _ eq_refl) as (e' & -> & _). auto.
  - destruct (RE _ eq_refl) as (e' & -> & CC). rewrite (CC eq_refl). match goal with X : _ \/ _ |- _ => destruct X as [Z1|Z1] end.
    + split; [intros; apply Z1; auto|]. auto.
    + split; [auto|]. right. eauto.
  - destruct (RE _ eq_refl) as (e' & -> & _). auto.
Qed.

(** A store whose value is refused by the codec. *)
Lemma t_store_refused {T} (V : valops T) pf g n evs l s m b k v kb ev v0 d0 r s' : t_reached pf g n evs l s -> m_holds g n s m -> tstore_ok KO legal pf g n V b k v ->
  k_ser KO k (length b) = inl kb -> v_ser V v (length b - length kb) = inr ev ->
  mcall_ok KO legal pf g n (MStore b k v0) -> item_bytes KO (length b) k v0 = inl d0 ->
  t_store KO g V b k v (power s None) = (r, s') -> r = Err (ESer ev) /\ m_holds g n s' m.
Proof.
  intros R H C EK EV C0 E0 E. destruct (tr_reached _ _ _ _ _ _ R) as (l' & R' & F2). pose proof R as (KC & _). pose proof C as (LK & LB & (lv & VC & LV) & SZ).
  pose proof (fun n bs => kc_fit _ _ KC k n bs LK) as KF.
  destruct (t_store_bytes KO g V lv b k v (power s None) KF VC LV) as (r0 & r' & E1 & E2 & TA). rewrite E1 in E. injection E as <- E.
  assert (X : m_does g s (MStore b k (tbytes KO V (length b) k v)) (RUnit r') s') by (unfold MObs.m_does; cbn [m_exec]; unfold mans1; congruence).
  pose proof (m_store_ok KO legal pf g n _ _ s m b k _ r' s' R' H (tr_call pf g n V b k v KC C) X) as S1.
  assert (NI : item_bytes KO (length b) k (tbytes KO V (length b) k v) = inr (ESer SEBufferTooSmall)) by (rewrite (tbytes_item V lv _ k v kb KC LK VC LV EK), EV; reflexivity).
  assert (Q : r' = Err (ESer SEBufferTooSmall) /\ m_holds g n s' m).
  { destruct r' as [u|e]; [destruct S1 as (_ & d & Q & _); congruence|]. destruct S1 as (HM & [(_ & d & Q & _)|[(_ & d & Q & _)|Q]]); try congruence. split; auto. congruence. }
  destruct Q as [-> HM]. split; auto.
  destruct (t_store_rel KO g V b k v v0 _ _ ev (power s None) KF (ser_refused0 KO V k v _ kb ev v0 EK (KF _ _ EK) EV)) as [Q|(_ & s2 & Q & _)]; [|congruence].
  destruct (m_store KO g b k v0 (power s None)) as [r2 s2] eqn:E3.
  assert (X2 : m_does g s (MStore b k v0) (RUnit r2) s2) by (unfold MObs.m_does; cbn [m_exec]; unfold mans1; rewrite E3; reflexivity).
  pose proof (m_store_ok KO legal pf g n _ _ s m b k v0 r2 s2 R' H C0 X2) as S2. rewrite Q in E1. injection E1 as -> ->.
  destruct TA as [TA|(e2 & A1 & _)].
  - injection TA as ->. destruct S2 as (_ & [(Z & _)|[(Z & _)|Z]]); congruence.
  - injection A1 as ->. destruct S2 as (_ & [(Z & _)|[(Z & _)|Z]]); congruence.
Qed.

Lemma forall2_len {A B} (R : A -> B -> Prop) l l' : Forall2 R l l' -> length l = length l'.
Proof. induction 1; cbn [length]; auto. Qed.

(** A completed store stays. *)
Definition t_calls (evs : list (tev K)) : nat := length (m_calls (map shape evs)).
Lemma t_calls_tr evs : t_calls evs = length (m_calls (map tr evs)).
Proof. unfold t_calls, m_calls. induction evs as [|[? ? ? ? ? ?|[c p|c]] evs IH]; cbn [map flat_map shape tr app length] in *; auto. Qed.
Lemma t_kept {T} (V : valops T) pf g n evs1 evs2 l1 l2 s b k v p : t_reached pf g n (evs1 ++ TStore T V b k v p :: evs2) (l1 ++ RUnit (Ok tt) :: l2) s ->
  length l1 = t_calls evs1 -> Forall (fun e => spares KO k (shape e)) evs2 -> gives V g n s k v.
Proof.
  intros R LL SP. destruct (tr_reached _ _ _ _ _ _ R) as (l' & R' & F2). destruct (t_history _ _ _ _ _ _ R) as (m & H). pose proof R as (KC & f & c & _ & _ & _ & _ & _ & EV & _ & _).
  apply Forall_app in EV. destruct EV as [_ EV]. apply Forall_cons_iff in EV; destruct EV as [[P C] _]. pose proof C as (LK & LB & (lv & VC & LV) & SZ).
  apply Forall2_app_inv_l in F2. destruct F2 as (l1' & l2' & F1 & F2 & ->). inversion F2 as [|? a' ? l2'' TA F3]; subst.
  assert (a' = RUnit (Ok tt)) as -> by (destruct TA as [|(? & ? & _)]; [auto|discriminate]).
  rewrite map_app in R'. cbn [map tr] in R'. rewrite (forall2_len _ _ _ F1), t_calls_tr in LL.
  assert (SP' : Forall (spares KO k) (map tr evs2)). { apply Forall_map. eapply Forall_impl; [|exact SP]. intros [? ? ? ? ? ?|e]; auto. }
  pose proof (m_kept KO legal pf g n _ _ _ _ s m b k _ p R' LL LK SP' H) as MK.
  (* the bytes are a serialization, because the store was completed *)
  destruct (reached_reach KO legal _ _ _ _ _ _ R') as (m0 & log & ae & aw & RC). pose proof (rc_trace _ _ _ _ _ _ _ _ _ _ _ _ RC) as TRC.
  assert (D : exists m1 lg m2 lg2, mdo pf g m1 lg (MStore b k (tbytes KO V (length b) k v)) (RUnit (Ok tt)) m2 lg2).
  { clear -TRC LL. revert TRC LL. generalize (@nothing K) (@nil (K * list N)). revert l1'.
    induction (map tr evs1) as [|[c q|c] ev IH]; intros l1' m1 lg TRC LL; cbn [app m_calls flat_map length] in *.
    - destruct l1'; [|discriminate]. inversion TRC; subst. eauto.
    - destruct l1' as [|a l1']; [discriminate|]. inversion TRC; subst. eapply IH; [eassumption|]. cbn [length] in LL. now injection LL.
    - inversion TRC; subst. eapply IH; eauto. }
  destruct D as (m1 & lg & m2 & lg2 & D). inversion D as [? ? ? d ? ED| | | | | | | | | | | | ]; subst. destruct (ser_ok V lv _ k v d KC LK VC LV ED) as (kb & vb & K1 & K2 & K3 & _).
  rewrite K3 in MK. eapply holds_gives; eauto.
Qed.

(** Iteration over values of one type. *)
Definition dec {T} (V : valops T) (x : K * list N) (y : K * T) : Prop := fst x = fst y /\ exists n, v_de V (snd x) = inl (snd y, n).
Definition dec_opt {T} (V : valops T) (x : option (K * list N)) (y : option (K * T)) : Prop :=
  match x, y with Some a, Some b => dec V a b | None, None => True | _, _ => False end.
Lemma t_script_of {T} (V : valops T) g bs : forall s rs s' trs, m_script KO g bs s = (Ok rs, s') -> Forall2 (dec_opt V) rs trs -> t_script KO g V bs s = (Ok trs, s').
Proof.
  induction bs as [|b bs IH]; intros s rs s' trs E F; cbn [m_script t_script] in *.
  - injection E as <- <-. inversion F; subst. reflexivity.
  - unfold t_iter_next, bind in *. destruct (m_iter_next KO g b s) as [[[[k v]|]|e] s1]; [| |discriminate].
    + destruct (m_script KO g bs s1) as [[rs1|e] s2] eqn:E2; [|discriminate]. injection E as <- <-. inversion F as [|? y ? trs1 D F1]; subst. destruct y as [[k' x]|]; [|contradiction].
      destruct D as [D1 (n & D2)]. cbn [fst snd] in *. subst k'. unfold ser_lift. rewrite D2. unfold ret; cbn [fst]; rewrite (IH _ _ _ _ E2 F1). reflexivity.
    + injection E as <- <-. inversion F as [|? y ? trs1 D F1]; subst. inversion F1; subst. destruct y as [y|]; [contradiction|]. reflexivity.
Qed.
Lemma dec_all {T} (V : valops T) ps : (forall x, In x ps -> exists y, dec V x y) -> exists tps, Forall2 (dec V) ps tps.
Proof.
  induction ps as [|x ps IH]; intros H; [exists []; auto|]. destruct (H x (or_introl eq_refl)) as (y & D). destruct IH as (tps & F); [intros; apply H; now right|]. exists (y :: tps). auto.
Qed.
Lemma dec_firstn {T} (V : valops T) ps tps n : Forall2 (dec V) ps tps -> Forall2 (dec_opt V) (firstn n (map Some ps ++ [None])) (firstn n (map Some tps ++ [None])).
Proof.
  intros F. revert n. induction F; intros [|n]; cbn [firstn map app]; auto. destruct n; cbn [firstn]; constructor; cbn; auto.
Qed.
Lemma dec_last {T} (V : valops T) k ps tps : Forall2 (dec V) ps tps ->
  match lastv (k_eqb KO) k ps with None => tlast KO k tps = None | Some bs => exists v n, tlast KO k tps = Some v /\ v_de V bs = inl (v, n) end.
Proof.
  induction 1 as [|[k1 b1] [k2 v2] ps tps [D1 (n & D2)] F IH]; cbn [lastv tlast]; auto. cbn [fst snd] in *. subst k2. destruct (lastv (k_eqb KO) k ps) as [bs|].
  - destruct IH as (v & n' & -> & E). eauto.
  - rewrite IH. destruct (k_eqb KO k1 k); eauto.
Qed.
Lemma one_cases {T} (V : valops T) (e : tev K) : one_codec V e -> (exists b k v p, e = TStore T V b k v p) \/ exists e', e = TRaw e' /\ forall b k v p, e' <> MCall (MStore b k v) p.
Proof. intros []; eauto 10. Qed.
Lemma log_typed {T} (V : valops T) pf g n EVS : key_codec KO legal -> forall evs m log l' m' log', incl evs EVS -> Forall (one_codec V) evs -> Forall (tev_ok KO legal pf g n) evs ->
  (forall k bs, In (k, bs) log -> exists b v p n0, In (TStore T V b k v p) EVS /\ v_de V bs = inl (v, n0)) ->
  mtrace pf g m log (map tr evs) l' m' log' ->
  forall k bs, In (k, bs) log' -> exists b v p n0, In (TStore T V b k v p) EVS /\ v_de V bs = inl (v, n0).
Proof.
  intros KC. induction evs as [|e evs IH]; intros m log l' m' log' IN OC EV LG TR; cbn [map] in TR.
  - inversion TR; subst. auto.
  - apply Forall_cons_iff in OC, EV. destruct OC as [OC OC'], EV as [EV EV']. assert (IN' : incl evs EVS) by (intros x X; apply IN; now right).
    destruct (one_cases V e OC) as [(b & k & v & p & ->)|(e' & -> & NS)].
    + destruct EV as [_ C]. pose proof C as (LK & LB & (lv & VC & LV) & SZ). cbn [tr] in TR. inversion TR as [|? ? ? ? ? m1 log1 ? ? ? ? D TR2|]; subst. refine (IH _ _ _ _ _ IN' OC' EV' _ TR2).
      intros k1 b1 I1.
      assert (X : In (k1, b1) log \/ (k1 = k /\ b1 = tbytes KO V (length b) k v /\ exists d, item_bytes KO (length b) k (tbytes KO V (length b) k v) = inl d)).
      { inversion D; subst; auto; apply in_app_or in I1; destruct I1 as [I1|[I1|[]]]; auto; injection I1 as <- <-; right; eauto. }
      destruct X as [X|(-> & -> & d & ED)]; [now apply LG|]. destruct (ser_ok V lv _ k v d KC LK VC LV ED) as (kb & vb & K1 & K2 & K3 & _). exists b, v, p, (length vb). split; [apply IN; now left|]. rewrite K3. eapply vc_de; eauto.
    + cbn [tr] in TR. destruct e' as [c p|c].
      * inversion TR as [|? ? ? ? ? m1 log1 ? ? ? ? D TR2|]; subst. refine (IH _ _ _ _ _ IN' OC' EV' _ TR2).
        assert (log1 = log) as -> by (inversion D; subst; auto; exfalso; eapply NS; reflexivity). exact LG.
      * inversion TR; subst. eapply IH; eauto.
Qed.
Lemma t_iter_ok {T} (V : valops T) pf g n evs l s m b bs : t_reached pf g n evs l s -> m_holds g n s m -> Forall (one_codec V) evs ->
  fresh (mode_after calm0 (map shape evs) l) = true -> f_ae (s_fl s) = true \/ whole (mode_after calm0 (map shape evs) l) = true -> n <= length b -> Forall (fun x => n <= length x) bs ->
  exists ps s', t_iterate KO g V b bs (power s None) = (Ok (firstn (length bs) (map Some ps ++ [None])), s') /\ m_holds g n s' m /\
    (forall k v, In (k, v) ps -> exists b' p, In (TStore T V b' k v p) evs) /\
    forall k b', legal k -> n <= length b' -> exists s2, t_fetch KO g V b' k (power s' None) = (Ok (tlast KO k ps), s2).
Proof.
  intros R H OC FR WH LB LBS. destruct (tr_reached _ _ _ _ _ _ R) as (l' & R' & F2). pose proof R as (KC & f & c & _ & _ & _ & _ & _ & EV & _ & _).
  rewrite (tr_mode evs calm0 l l' F2) in FR, WH.
  destruct (reached_reach KO legal _ _ _ _ _ _ R') as (m0 & log & ae & aw & RC). destruct RC as [_ ST AE MS TR _]. pose proof ST as (gok & np2 & _). rewrite AE in WH.
  pose proof (holds_unique KO legal g n s m m0 H (mst_holds KO legal KC g gok _ _ _ np2 _ _ _ _ _ MS)) as EM.
  destruct (m_exec KO g (MIter b bs) (power s None)) as [a s'] eqn:E.
  pose proof (MHistP.mst_eqm g (negb pf) ae aw KO legal n _ _ _ m _ EM MS) as MS'.
  assert (CO : mcall_ok KO legal pf g n (MIter b bs)) by (split; auto).
  destruct (MHistP.mst_step g gok (negb pf) ae aw np2 KO legal KC n _ log m s _ None a s' MS' (mcall_mcok KO legal _ _ _ _ _ ST CO) (conj FR WH) (fun _ => eq_refl) E) as (m' & log' & D & MS2).
  inversion D as [| | | | | | |? ? ps ? P1 P2 P3| | | | | ]; subst; try discriminate.
  assert (G : forall k bs, In (k, bs) log' -> exists b v p n0, In (TStore T V b k v p) evs /\ v_de V bs = inl (v, n0)).
  { eapply (log_typed V pf g n evs KC evs); eauto; [apply incl_refl|]. intros ? ? []. }
  destruct (dec_all V ps) as (tps & FD).
  { intros [k1 b1] I. destruct (G k1 b1 (P1 _ I)) as (b2 & v & p & n0 & _ & DV). exists (k1, v). split; cbn; eauto. }
  cbn [m_exec] in E. unfold mans1, m_iterate, bind in E.
  assert (HS : m_holds g n s' m) by (eapply holds_eqm; [exact P3|]; eapply mst_holds; eauto).
  exists tps, s'. split; [|split; [exact HS|split]].
  - unfold t_iterate, bind. destruct (m_iter KO g b (power s None)) as [[u|e] s1]; [|cbn [fst snd] in E; discriminate]. destruct (m_script KO g bs s1) as [r s2] eqn:E2. cbn [fst snd] in E. injection E as -> ->.
    eapply t_script_of; [exact E2|]. now apply dec_firstn.
  - intros k v I. clear -FD I G P1. induction FD as [|[k1 b1] [k2 v2] ps tps [D1 (n & D2)] F IH]; [destruct I|]. cbn [fst snd] in *. subst k2. destruct I as [I|I].
    + injection I as <- <-. destruct (G k1 b1 (P1 _ (or_introl eq_refl))) as (b2 & v & p & n0 & I2 & DV). rewrite D2 in DV. injection DV as -> _. eauto.
    + apply IH; auto. intros x X. apply P1. now right.
  - intros k b' LK LB'. destruct (HS k b' LK LB') as (s2 & D2). exists s2. unfold MObs.m_does in D2. cbn [m_exec] in D2. unfold mans1 in D2. unfold t_fetch, bind.
    destruct (m_fetch KO g b' k (power s' None)) as [r s3]. cbn [fst snd] in D2. injection D2 as -> ->. pose proof (dec_last V k ps tps FD) as DL. rewrite (P2 k LK) in DL. destruct (m k) as [bs1|].
    + destruct DL as (v & n0 & -> & DV). unfold ser_lift. rewrite DV. reflexivity.
    + rewrite DL. reflexivity.
Qed.
End TPropsP.
