(** A map whose current values leave enough room never answers that it is full. *)
From Coq Require Import List NArith ZArith Arith Bool Lia ZifyBool ZifyNat ZifyN.
From Verif Require Import Base BaseP Crc CrcP Flash Cache State Item Generic Map Codec CodecP GeomP ScanP WpP ItemP CalcP PageP WorldP LayP QPushP QRepP Client QSpec QObs KeyP MLogP MFetchP MMigP MStoreP MCallP MIterP MClient MExecP MSpec MObs MHistP MPropsP CapSpec.
Import ListNotations.
Local Opaque crc16 acrc crc32.

Section Lay.
Context (g : geom) (gok : geom_ok g) (np2 : 2 <= NP g).
Context {K : Type} (KO : keyops K) (legal : K -> Prop) (KC : key_codec KO legal).
Notation HL := (HL g).
Notation rup := (rup g).
Notation NP := (NP g).
Implicit Types (Y : lay).
Notation good := (good KO legal).
Notation lastd := (lastd KO).
Notation keep := (keep KO).
Notation dkey := (dkey KO).
Notation ymig := (ymig g KO).
Notation yst := (yst g KO).
Notation yadv := (yadv g KO).
Notation yrp := (yrp g KO).
Notation ysto := (ysto g KO).
Notation room1 := (item_room g).
Definition rooms (ds : list (list N)) : nat := list_sum (map room1 ds).
Lemma rooms_app a b : rooms (a ++ b) = rooms a + rooms b.
Proof. unfold rooms. rewrite map_app. apply list_sum_app. Qed.
Lemma rooms_live ds : sizes g (map SLive ds) = rooms ds.
Proof. unfold sizes, rooms. rewrite map_map. reflexivity. Qed.

(** Keys of kept items are distinct. *)
Lemma keep_nodup ds : forall later, Forall good ds -> NoDup (map dkey (keep ds later)).
Proof.
  induction ds as [|d ds IH]; intros later G; cbn [MLogP.keep map]; [constructor|]. apply Forall_cons_iff in G. destruct G as [Gd G].
  destruct (existsb (samek KO d) (ds ++ later)) eqn:X; auto. cbn [map]. constructor; auto. intros I. apply in_map_iff in I. destruct I as (x & E & I).
  destruct (good_de KO legal KC _ Gd) as (k & LK & DK & _). rewrite DK in E. apply keep_in in I.
  assert (samek KO d x = true). { unfold samek. rewrite DK. apply (good_hask KO legal KC); auto. rewrite Forall_forall in G. auto. }
  assert (existsb (samek KO d) (ds ++ later) = true); [|congruence]. apply existsb_exists. exists x. split; auto. apply in_or_app; auto.
Qed.

Section Item.
Context (d0 : list N) (small : too_big g (length d0) = false).
Notation s0 := (room1 d0).
Lemma nofit sl : fitsb g sl (length d0) = false -> W g + (cap g - s0) <= sizes g sl.
Proof.
  pose proof (proj1 (too_big_fits g gok d0 small)) as Y. unfold fitsb, item_room in *. unfold sizes in Y. cbn in Y. intros X. apply Nat.leb_gt in X. apply Nat.leb_le in Y.
  assert (A : cap g + W g <= sizes g sl + (HL + rup (length d0))); [|lia].
  apply (al_lt_le g gok); auto; [apply (al_sub g gok); [apply (al_ES g gok)|rewrite Nat.mul_comm; apply (al_mul g gok), (al_W g gok)]|].
  apply (al_add g gok); [apply sizes_al; exact gok|]. apply (al_add g gok); [apply (al_HL g gok)|apply (al_rup g gok)].
Qed.

(** Pages that are compacted in vain. *)
Lemma vain_pages : forall todo done f cl sl r L Y', cl ++ [sl] = todo ++ done -> length todo < r ->
  Forall good (flat_map live_of (todo ++ done)) -> yst r (mklay f cl (Some sl) 1 0) (inl d0) = (Err EFull, L, Y') ->
  exists D, incl D (flat_map live_of todo) /\ NoDup (map dkey D) /\ copies KO (flat_map live_of (todo ++ done)) D /\
    length todo * (W g + (cap g - s0)) <= rooms D.
Proof.
  induction todo as [|src todo IH]; intros done f cl sl r L Y' EQ LR G E.
  { exists []. split; [intros x []|]. split; [constructor|]. split; [constructor|]. cbn. lia. }
  cbn [length] in LR. destruct r as [|r]; [lia|]. cbn [MStoreP.yst y_pt y_k y_f y_cl Nat.eqb Nat.sub] in E. rewrite small in E.
  destruct (fitsb g sl (length d0)) eqn:F0; [discriminate|]. rewrite EQ in E. cbn [app MStoreP.yadv] in E. unfold MMigP.ymig in E.
  set (later := flat_map live_of (todo ++ done)) in *. set (kp := keep (live_of src) later) in *.
  assert (G' : Forall good (live_of src) /\ Forall good later). { cbn [app flat_map] in G. apply Forall_app in G. exact G. } destruct G' as [Gs Gl].
  destruct (yst r (mklay ((f + 1) mod NP) (todo ++ done) (Some (map SLive kp)) 1 0) (inl d0)) as [[x L2] Y2] eqn:E2. injection E as -> _ ->.
  assert (FK : fitsb g (map SLive kp) (length d0) = false).
  { destruct r as [|r]; [lia|]. cbn [MStoreP.yst y_pt y_k y_f y_cl Nat.eqb Nat.sub] in E2. rewrite small in E2.
    destruct (fitsb g (map SLive kp) (length d0)); auto; discriminate. }
  apply nofit in FK. rewrite rooms_live in FK.
  assert (EK : live_of (map SLive kp) = kp) by apply live_map.
  assert (Gk : Forall good kp). { rewrite Forall_forall in *. intros x I. apply Gs. unfold kp in I. apply keep_in in I. exact I. }
  destruct (IH (done ++ [map SLive kp]) ((f + 1) mod NP) (todo ++ done) (map SLive kp) r L2 Y' (eq_sym (app_assoc todo done [map SLive kp])) ltac:(lia)) with (2 := E2) as (D & I1 & ND & C1 & B1).
  { rewrite app_assoc, flat_map_app. cbn [flat_map]. rewrite app_nil_r, EK. apply Forall_app; auto. }
  rewrite app_assoc, flat_map_app in C1. cbn [flat_map] in C1. rewrite app_nil_r, EK in C1. fold later in C1.
  pose proof (keep_copies KO legal KC (live_of src) later Gs []) as C0. cbn [app] in C0. fold kp in C0.
  exists (kp ++ D). split.
  { cbn [flat_map]. apply incl_app; [apply incl_appl|apply incl_appr; exact I1]. intros x I. unfold kp in I. apply keep_in in I. exact I. }
  split.
  { rewrite map_app. assert (DJ : forall x, In x (map dkey kp) -> ~ In x (map dkey D)).
    { intros x I J. apply in_map_iff in I. destruct I as (a & EA & IA). apply in_map_iff in J. destruct J as (b & EB & IB).
      pose proof (keep_fresh KO legal (live_of src) [] later a ltac:(rewrite app_nil_r; exact Gs) IA) as X. cbn [app] in X.
      rewrite Forall_forall in Gk. destruct (good_de KO legal KC _ (Gk a IA)) as (k & LK & DK & _).
      assert (In b later) by (unfold later; rewrite flat_map_app; apply in_or_app; left; apply I1; exact IB).
      assert (samek KO a b = true). { unfold samek. rewrite DK. apply (good_hask KO legal KC); auto; [|congruence]. rewrite Forall_forall in Gl. auto. }
      assert (existsb (samek KO a) later = true); [|congruence]. apply existsb_exists. eauto. }
    pose proof (keep_nodup (live_of src) later Gs) as N0. fold kp in N0. clear -DJ N0 ND. revert DJ N0. induction (map dkey kp) as [|x l IH]; cbn; intros DJ N0; auto.
    inversion N0; subst. constructor; [|apply IH; auto]. intros I. apply in_app_or in I. destruct I; auto. eapply DJ; eauto. }
  split.
  { apply Forall_app. split; [exact C0|]. cbn [app flat_map]. fold later. unfold copies in *. rewrite Forall_forall in *. intros x I. destruct (C1 x I) as (k & DK & LS). exists k. split; auto.
    assert (Gx : good x) by (apply Gl; unfold later; rewrite flat_map_app; apply in_or_app; left; apply I1; exact I).
    destruct (good_de KO legal KC _ Gx) as (k' & LK & DK' & _). assert (k' = k) by congruence. subst k'.
    rewrite <- LS. symmetry. apply (keep_last KO legal KC); auto. rewrite Forall_forall. exact Gs. }
  cbn [length]. rewrite rooms_app. lia.
Qed.

(** A store on a layout without an interrupted migration. *)
Lemma full_ready Y L Y' : y_c Y + y_b Y + y_k Y = NP -> ready Y -> y_bad Y = 0 -> Forall good (content Y) -> yst NP Y (inl d0) = (Err EFull, L, Y') ->
  exists D, NoDup (map dkey D) /\ copies KO (content Y) D /\ incl D (content Y) /\ (NP - 1) * (W g + (cap g - s0)) <= rooms D.
Proof.
  intros TT ((sl & PT) & K1) B0 G E. destruct Y as [f cl pt k bad]. cbn in *. subst pt bad. unfold y_c, y_b in TT. cbn in TT. destruct (Nat.eq_dec k 1) as [->|N1].
  - unfold content, uslots in *. cbn [y_cl y_pt ptl] in *.
    destruct (vain_pages (cl ++ [sl]) [] f cl sl NP L Y') as (D & I & ND & C & B); auto.
    + now rewrite app_nil_r.
    + rewrite app_length. cbn. lia.
    + now rewrite app_nil_r.
    + rewrite app_nil_r in C. exists D. split; auto. split; auto. split; auto. rewrite app_length in B. cbn in B. replace (NP - 1) with (length cl + 1) by lia. exact B.
  - exfalso. assert (exists r, NP = S (S r)) as (r & RE) by (exists (NP - 2); lia). rewrite RE in E. destruct k as [|[|k]]; try lia.
    cbn [MStoreP.yst y_pt y_k y_f y_cl Nat.eqb] in E. rewrite small in E. destruct (fitsb g sl (length d0)); [discriminate|]. cbn [Nat.sub MStoreP.yadv] in E.
    cbn [MStoreP.yst y_pt y_k y_f y_cl y_bad Nat.eqb] in E. rewrite ?small in E. rewrite (proj1 (too_big_fits g gok d0 small)) in E. discriminate.
Qed.
Lemma yst_full Y L Y' : 1 <= y_k Y \/ y_pt Y <> None -> yst NP Y (inl d0) = (Err EFull, L, Y') -> ready Y.
Proof.
  intros K0 E. assert (exists r, NP = S (S r)) as (r & RE) by (exists (NP - 2); lia). rewrite RE in E. destruct Y as [f cl [sl|] k bad]; cbn [MStoreP.yst y_pt y_k y_f y_cl y_bad] in *.
  - split; cbn; [eauto|]. destruct k; [discriminate|lia].
  - exfalso. destruct (k - 1 =? 0); [discriminate|]. rewrite small, (proj1 (too_big_fits g gok d0 small)) in E. discriminate.
Qed.
Lemma rp_total Y : y_bad Y <= 1 -> y_pt Y <> None -> y_k Y = 0 -> y_c Y + y_b Y + y_k Y + y_bad Y = NP ->
  let Y2 := snd (yrp Y) in y_c Y2 + y_b Y2 + y_k Y2 = NP /\ y_bad Y2 = 0 /\ ready Y2.
Proof.
  intros B1 PT K0 TT. destruct Y as [f cl [sl|] k bad]; cbn in PT, K0; try congruence. subst k. unfold MStoreP.yrp. cbn [y_bad] in *.
  destruct (bad =? 1) eqn:EB; [|destruct cl as [|src cl]]; unfold ready, y_c, y_b in *; cbn in *; try lia; (split; [lia|]; split; [lia|]; split; [eauto|lia]).
Qed.
Lemma sto_full ws aw B Y pg L Y' : layok NP Y pg -> mgood g ws aw KO legal B Y -> ysto Y (inl d0) = (Err EFull, L, Y') ->
  exists D, NoDup (map dkey D) /\ copies KO (content Y) D /\ incl D (content Y) /\ (NP - 1) * (W g + (cap g - s0)) <= rooms D.
Proof.
  intros LY MG E. pose proof (lay_total g gok _ _ LY) as (TF & TT & TB & TBAD). pose proof MG as ((I1 & I2 & I3) & OK & CP). pose proof (mok_good g ws aw KO legal B Y OK) as G.
  assert (PK : 1 <= y_k Y \/ y_pt Y <> None). { destruct (y_pt Y) eqn:PT; [right; discriminate|left; apply I2; auto]. }
  unfold MCallP.ysto in E. destruct (yst NP Y (inl d0)) as [[x L1] Y1] eqn:E1.
  assert (NC : nocorr (inl d0 : list N + err)) by (intros e X; discriminate).
  destruct (yst_factN g np2 KO Y _ _ _ _ NC E1) as (XC & _).
  destruct (match x with Err ECorrupted => true | _ => false end) eqn:EC.
  2:{ assert (E' : (x, L1, Y1) = (Err EFull, L, Y')). { destruct x as [|e]; [exact E|]. destruct e; try exact E. discriminate EC. } injection E' as -> -> ->.
      apply (yst_full Y _ _ PK) in E1 as RD. pose proof RD as [RD1 RD2].
      assert (B0 : y_bad Y = 0) by lia. apply (full_ready Y L Y'); auto; lia. }
  destruct x as [|e]; [discriminate|]. destruct e; try discriminate. clear EC. specialize (XC eq_refl).
  destruct (yrp Y1) as [L2 Y2] eqn:ER. destruct (yst NP Y2 (inl d0)) as [[x3 L3] Y3] eqn:E3. injection E as -> _ _.
  assert (FF : mgood g ws aw KO legal B Y1 /\ y_c Y1 + y_b Y1 + y_k Y1 + y_bad Y1 = NP /\ y_bad Y1 <= 1 /\ y_pt Y1 <> None /\ y_k Y1 = 0 /\ content Y1 = content Y).
  { destruct XC as [(-> & X1 & X2)|(X1 & X2 & ->)].
    - split; [exact MG|]. split; [lia|]. split; auto.
    - destruct (I2 X1) as (X3 & X4). assert (CE : content (mklay (y_f Y) (y_cl Y) (Some []) 0 0) = content Y).
      { unfold content, uslots. cbn. rewrite X1, !flat_map_app. reflexivity. }
      split.
      { split; [split; [right; cbn; lia|split; cbn; intros; discriminate]|]. split.
        - destruct OK as (O1 & O2 & O3). unfold mok. rewrite CE. split; [|split; auto]. unfold uslots in *. cbn [y_cl y_pt ptl]. apply Forall_app. split; [|repeat constructor].
          now apply Forall_app in O1.
        - intros _ _. cbn. constructor. }
      unfold y_c, y_b in *. rewrite X1 in *. cbn [y_cl y_pt y_k y_bad ptl length] in *. split; [lia|]. split; [lia|]. split; [discriminate|]. split; auto. }
  destruct FF as (MG1 & T1 & B1 & P1 & K1 & C1).
  pose proof (rp_total Y1 B1 P1 K1 T1) as RT.
  destruct (yrp_same g ws aw np2 KO legal KC B Y1 B1 MG1) as (SM & G2 & IN2). rewrite ER in RT, SM, G2, IN2. cbn [snd] in RT, SM, G2, IN2. destruct RT as (T2 & B2 & RR).
  destruct (full_ready Y2 _ _ T2 RR B2 G2 E3) as (D & ND & CD & ID & BD). exists D. split; auto. split; [|split; auto; rewrite <- C1; eapply incl_tran; eauto].
  unfold copies in *. rewrite Forall_forall in *. intros x I. destruct (CD x I) as (k & DK & LS). exists k. split; auto. rewrite <- C1.
  destruct (good_de KO legal KC _ (G2 x (ID x I))) as (k' & LK & DK' & _). assert (k' = k) by congruence. subst k'. rewrite (SM k LK). exact LS.
Qed.
End Item.
End Lay.

Lemma sum_incl {A} (f : A -> nat) : forall l ks : list A, NoDup l -> incl l ks -> list_sum (map f l) <= list_sum (map f ks).
Proof.
  induction l as [|x l IH]; intros ks ND I; [cbn; lia|]. change (list_sum (map f (x :: l))) with (f x + list_sum (map f l)). inversion ND as [|y t NI ND']; subst. destruct (in_split x ks (I x (or_introl eq_refl))) as (a & b & ->).
  assert (incl l (a ++ b)). { intros y J. specialize (I y (or_intror J)). apply in_app_or in I. apply in_or_app. destruct I as [|[->|]]; auto. contradiction. }
  specialize (IH (a ++ b) ND' H). rewrite map_app, list_sum_app in *. change (list_sum (map f (x :: b))) with (f x + list_sum (map f b)). lia.
Qed.

Section Cap.
Context {K : Type} (KO : keyops K) (legal : K -> Prop).
Notation m_reached := (m_reached KO legal).
Notation m_holds := (m_holds KO legal).
Notation m_does := (m_does KO).

Lemma m_room pf g n evs l s m b k v d ks a s' : m_reached pf g n evs l s -> m_holds g n s m -> mcall_ok KO legal pf g n (MStore b k v) ->
  item_bytes KO (length b) k v = inl d -> ~ mbig g d -> (forall k', legal k' -> m k' <> None -> In k' ks) ->
  room KO g n m ks < (NP g - 1) * (page_cap g - item_room g d + W g) ->
  m_does g s (MStore b k v) a s' -> a = RUnit (Ok tt).
Proof.
  intros R H CO ED NB KS RM E. destruct (m_store_ans KO legal pf g n evs l s m b k v a s' R H CO E) as (r & ->).
  pose proof (m_store_ok KO legal pf g n evs l s m b k v r s' R H CO E) as X. destruct r as [[]|e]; auto. exfalso.
  assert (e = EFull) as ->. { destruct X as (_ & [(_ & d' & X1 & X2)|[(X & _)|X]]); auto; [|congruence]. rewrite ED in X1. injection X1 as <-. contradiction. } clear X.
  destruct (reached_reach KO legal _ _ _ _ _ _ R) as (m0 & log & ae & aw & RC). destruct RC as [KC ST AE MS TR _]. pose proof ST as (gok & np2 & _).
  pose proof (holds_unique KO legal g n s m m0 H (mst_holds KO legal KC g gok _ _ _ np2 _ _ _ _ _ MS)) as EM.
  pose proof (mst_eqm g (negb pf) ae aw KO legal n _ _ _ m _ EM MS) as (Y & ML & MG & _ & _ & MV).
  pose proof (mcall_mcok KO legal _ _ _ _ _ ST CO) as MC.
  assert (MG2 : mgood g (negb pf) aw KO legal (Bl KO n (newlog KO log (MStore b k v))) Y) by (eapply mgood_log; [|exact MG]; apply newlog_incl).
  pose proof (exec_spec g gok (negb pf) ae aw np2 KO legal KC _ (MStore b k v) None _ Y s _ s' ML MG2 (mcok_callok g (negb pf) aw KO legal KC n log _ MC)
    (or_intror (or_introl eq_refl)) (fun _ => eq_refl) E) as [(L & Y' & (x & EX & YS) & _)|(X & _)]; [|discriminate X].
  injection EX as <-. assert (DS : dser KO (length b) k v = inl d) by exact ED. rewrite DS in YS.
  destruct ML as (pg & LY & _). assert (SM : too_big g (length d) = false). { destruct (too_big g (length d)) eqn:T; auto. apply mbig_is in T. contradiction. }
  destruct (sto_full g gok np2 KO legal KC d SM (negb pf) aw _ Y pg L Y' LY MG YS) as (D & ND & CD & ID & BD).
  set (key := fun x => match dkey KO x with Some k => k | None => k end).
  assert (PR : forall x, In x D -> exists k', legal k' /\ dkey KO x = Some k' /\ key x = k' /\ m k' = Some (dval KO x) /\ item_bytes KO n k' (dval KO x) = inl x).
  { intros x I. unfold copies in CD. rewrite Forall_forall in CD. destruct (CD x I) as (k' & DK & LS). pose proof MG as (_ & (FB & GG & _) & _).
    rewrite Forall_forall in GG. pose proof (GG x (ID x I)) as (k2 & n2 & kb & v2 & LK & SE & XE).
    pose proof (good_ser KO legal KC k2 n2 kb v2 LK SE) as (_ & D2 & V2 & L2). rewrite <- XE in D2, V2, L2. assert (k2 = k') by congruence. subst k2.
    exists k'. split; auto. split; auto. split; [unfold key; now rewrite DK|]. split; [rewrite (MV k' LK); unfold value; now rewrite LS|]. rewrite V2.
    assert (LX : length x <= n).
    { specialize (ID x I). unfold content in ID. apply in_flat_map in ID. destruct ID as (sl & I1 & I2). rewrite Forall_forall in FB. specialize (FB sl I1).
      unfold live_of in I2. apply in_flat_map in I2. destruct I2 as (sx & I2 & I3). rewrite Forall_forall in FB. specialize (FB sx I2).
      destruct sx as [y| | |]; cbn in I3; try contradiction. destruct I3 as [->|[]]. cbn in FB. pose proof (rup_ge g gok (length x)). lia. }
    unfold item_bytes. rewrite XE, app_length in LX. rewrite (kc_mono _ _ KC k' n2 kb n LK SE) by lia. destruct (Nat.ltb_spec (n - length kb) (length v2)); [lia|]. now rewrite XE. }
  assert (NK : NoDup (map key D)).
  { clear -ND PR. induction D as [|x D IH]; cbn in *; constructor; inversion ND; subst; [|apply IH; auto]. intros I. apply in_map_iff in I. destruct I as (y & E & I).
    destruct (PR x (or_introl eq_refl)) as (k1 & _ & D1 & E1 & _). destruct (PR y (or_intror I)) as (k2 & _ & D2 & E2 & _). apply H1. rewrite D1. apply in_map_iff. exists y. split; auto. congruence. }
  assert (IK : incl (map key D) ks).
  { intros k' I. apply in_map_iff in I. destruct I as (x & <- & I). destruct (PR x I) as (k1 & LK & _ & -> & MK & _). apply KS; auto. rewrite MK. discriminate. }
  set (f := fun k => match m k with Some v => match item_bytes KO n k v with inl d => item_room g d | inr _ => 0 end | None => 0 end) in *.
  pose proof (sum_incl f _ _ NK IK) as SI.
  assert (ER : list_sum (map f (map key D)) = rooms g D).
  { unfold rooms. f_equal. rewrite map_map. apply map_ext_in. intros x I. destruct (PR x I) as (k1 & _ & _ & -> & MK & IB). unfold f. now rewrite MK, IB. }
  rewrite ER in SI. change (page_cap g) with (cap g) in RM. unfold room in RM. fold f in RM. assert (1 <= NP g - 1) by lia. nia.
Qed.

Lemma m_room_lt pf g n evs l s m b k v d ks : m_reached pf g n evs l s -> m_holds g n s m -> mcall_ok KO legal pf g n (MStore b k v) ->
  item_bytes KO (length b) k v = inl d -> ~ mbig g d -> (forall k', legal k' -> m k' <> None -> In k' ks) ->
  room KO g n m ks < (NP g - 1) * (page_cap g - item_room g d + W g) ->
  exists s', m_does g s (MStore b k v) (RUnit (Ok tt)) s' /\ m_holds g n s' (upd (k_eqb KO) m k (Some v)).
Proof.
  intros R H CO ED NB KS RM. destruct (m_exec KO g (MStore b k v) (power s None)) as [a s'] eqn:E.
  pose proof (m_room pf g n evs l s m b k v d ks a s' R H CO ED NB KS RM E) as ->. exists s'. split; [exact E|].
  exact (proj1 (m_store_ok KO legal pf g n evs l s m b k v _ s' R H CO E)).
Qed.
Lemma m_room_le pf g n evs l s m b k v d ks : m_reached pf g n evs l s -> m_holds g n s m -> mcall_ok KO legal pf g n (MStore b k v) ->
  item_bytes KO (length b) k v = inl d -> ~ mbig g d -> (forall k', legal k' -> m k' <> None -> In k' ks) ->
  room KO g n m ks <= (NP g - 1) * (page_cap g - item_room g d) ->
  exists s', m_does g s (MStore b k v) (RUnit (Ok tt)) s' /\ m_holds g n s' (upd (k_eqb KO) m k (Some v)).
Proof.
  intros R H CO ED NB KS RM. eapply m_room_lt; eauto. destruct R as (_ & f & c & _ & _ & _ & _ & (gok & np2 & _) & _). pose proof (W_pos g gok). nia.
Qed.
End Cap.
