(** Histories of map calls with power failures and restarts. *)
From Coq Require Import List NArith ZArith Arith Bool Lia ZifyBool ZifyNat ZifyN.
From Verif Require Import Base BaseP Crc CrcP Flash Cache State Item Generic Map Codec CodecP GeomP ScanP WpP ItemP CalcP PageP WorldP LayP QPushP QRepP QStepP QCallP KeyP MLogP MFetchP MMigP MStoreP MCallP MRemP MRmvP MIterP Client QSpec MClient MSpec MExecP.
Import ListNotations.
Local Opaque crc16 acrc crc32.

Section Hist.
Context (g : geom) (gok : geom_ok g) (ws ae : bool) (aw : nat) (np2 : 2 <= NP g).
Context {K : Type} (KO : keyops K) (legal : K -> Prop) (KC : key_codec KO legal).
Notation NP := (NP g).
Notation HL := (HL g).
Notation rup := (rup g).
Notation st := (st K).
Implicit Types (s : st) (pg : nat -> page) (Y : lay) (B : lim).
Notation lastd := (lastd KO).
Notation ents := (ents g).
Notation good := (good KO legal).
Notation same := (same KO legal).
Notation after := (after KO legal).
Notation cst := (cst KO legal).
Notation value := (value KO).
Notation yst := (yst g KO).
Notation yrp := (yrp g KO).
Notation yadv := (yadv g KO).
Notation ysto := (ysto g KO).
Notation mgood := (mgood g ws aw KO legal).
Notation mlay := (mlay g ws ae aw KO legal).
Notation acts := (acts g KO).
Notation cuts := (cuts KO legal).

(** * The outcome of a store *)
Definition rclass (x : res unit) (D : list N + err) : Prop :=
  match x with
  | Ok _ => exists d, D = inl d /\ too_big g (length d) = false
  | Err e => D = inr e \/ exists d, D = inl d /\ (e = EItemTooBig /\ too_big g (length d) = true \/ e = EFull /\ too_big g (length d) = false)
  end.
Definition dl (x : res unit) (D : list N + err) : list (list N) := match x, D with Ok _, inl d => [d] | _, _ => [] end.

Lemma yst_class r : forall Y D x L Y', (exists d, D = inl d /\ too_big g (length d) = false) \/ (1 <= r /\ y_pt Y <> None) \/ 2 <= r ->
  yst r Y D = (x, L, Y') -> x = Err ECorrupted \/ rclass x D.
Proof.
  induction r as [|r IH]; intros Y D x L Y' P H; cbn [MStoreP.yst] in H.
  { injection H as <- <- <-. right. destruct P as [(d & -> & T)|[P|P]]; [|lia|lia]. right. exists d. auto. }
  destruct (y_pt Y) as [sl|] eqn:PT.
  - destruct (y_k Y =? 0); [injection H as <- <- <-; now left|]. destruct D as [d|e]; [|injection H as <- <- <-; right; now left].
    destruct (too_big g (length d)) eqn:T; [injection H as <- <- <-; right; right; exists d; auto|]. destruct (fitsb g sl (length d)).
    { injection H as <- <- <-. right. exists d. auto. }
    destruct (yadv _ _ _) as [L1 Y1]. destruct (yst r Y1 (inl d)) as [[x2 L2] Y2] eqn:YS. injection H as <- <- <-. apply IH in YS; auto. left. exists d. auto.
  - destruct (yst r _ D) as [[x2 L2] Y2] eqn:YS. injection H as <- <- <-. apply IH in YS; auto. destruct P as [P|[[_ P]|P]]; auto; [congruence|]. right. left. split; [lia|discriminate].
Qed.

Lemma yadv_incl f cl k : incl (content (snd (yadv f cl k))) (flat_map live_of cl).
Proof.
  unfold MStoreP.yadv. destruct k as [|k], cl as [|src cl]; cbn [snd]; unfold MMigP.ymig; rewrite content_app; try (change (live_of []) with (@nil (list N)); rewrite app_nil_r; apply incl_refl).
  rewrite live_map. cbn [flat_map]. apply incl_app; [apply incl_appr, incl_refl|apply incl_appl, keep_incl].
Qed.
Lemma yst_incl r : forall Y D x L Y', yst r Y D = (x, L, Y') -> incl (content Y') (content Y ++ dl x D).
Proof.
  induction r as [|r IH]; intros Y D x L Y' H; cbn [MStoreP.yst] in H.
  { injection H as <- <- <-. apply incl_appl, incl_refl. }
  destruct Y as [f cl pt k bad]. cbn [y_f y_cl y_pt y_k y_bad] in *. destruct pt as [sl|].
  - destruct (k =? 0); [injection H as <- <- <-; apply incl_appl, incl_refl|]. destruct D as [d|e]; [|injection H as <- <- <-; apply incl_appl, incl_refl].
    destruct (too_big g (length d)); [injection H as <- <- <-; apply incl_appl, incl_refl|]. destruct (fitsb g sl (length d)).
    { injection H as <- <- <-. unfold y_put, y_sl. cbn [y_f y_cl y_pt y_k y_bad dl]. rewrite !content_app, live_app, app_assoc. apply incl_refl. }
    pose proof (yadv_incl f (cl ++ [sl]) (k - 1)) as SA. destruct (yadv f (cl ++ [sl]) (k - 1)) as [L1 Y1]. cbn [snd] in *.
    destruct (yst r Y1 (inl d)) as [[x2 L2] Y2] eqn:YS. injection H as <- <- <-. specialize (IH _ _ _ _ _ YS).
    rewrite content_app. rewrite flat_map_app in SA. cbn [flat_map] in SA. rewrite app_nil_r in SA.
    eapply incl_tran; [exact IH|]. apply incl_app; [apply incl_appl; exact SA|apply incl_appr, incl_refl].
  - destruct (yst r _ D) as [[x2 L2] Y2] eqn:YS. injection H as <- <- <-. apply IH in YS. rewrite content_app in YS |- *. exact YS.
Qed.

Lemma yrp_same B Y : y_bad Y <= 1 -> mgood B Y -> same Y (snd (yrp Y)) /\ Forall good (content (snd (yrp Y))) /\ incl (content (snd (yrp Y))) (content Y).
Proof.
  intros B1 (_ & (_ & GG & _) & CP). unfold MStoreP.yrp. destruct Y as [f cl pt k bad]. cbn [y_f y_cl y_pt y_k y_bad] in *.
  assert (ID : forall Y', content Y' = content (mklay f cl pt k bad) -> same (mklay f cl pt k bad) Y' /\ Forall good (content Y') /\ incl (content Y') (content (mklay f cl pt k bad))).
  { intros Y' E. split; [intros k' _; now rewrite E|]. rewrite E. split; [exact GG|apply incl_refl]. }
  destruct (Nat.eqb_spec bad 1) as [E|E]; [now apply ID|]. destruct pt as [sl|]; [|now apply ID]. destruct k as [|k]; [|now apply ID].
  destruct cl as [|src cl]; [now apply ID|]. cbn [snd]. unfold mcop in CP. cbn [y_k y_bad y_cl y_sl y_pt] in CP. specialize (CP eq_refl ltac:(lia)).
  rewrite content_app in GG. apply Forall_app in GG. destruct GG as [G1 G2]. cbn [flat_map] in G1. pose proof G1 as G1'. apply Forall_app in G1'. destruct G1' as [G3 G4].
  assert (S1 : same (mklay f (src :: cl) (Some []) 0 bad) (ymig g KO f src cl)) by (apply (ymig_same g KO legal KC); auto).
  split; [|split].
  - eapply same_trans; [|exact S1]. intros k' LK. rewrite !content_app. change (live_of []) with (@nil (list N)). rewrite app_nil_r. apply (copies_last KO legal KC); auto.
  - unfold ymig. rewrite content_app, live_map. apply Forall_app. split; auto. eapply incl_Forall; [apply keep_incl|auto].
  - unfold ymig. rewrite !content_app, live_map. cbn [flat_map]. rewrite <- app_assoc. apply incl_app; [apply incl_appr, incl_appl, incl_refl|apply incl_appl, keep_incl].
Qed.

Lemma ysto_ok B Y pg D x L Y' : layok NP Y pg -> mgood B Y -> nocorr D -> ysto Y D = (x, L, Y') ->
  ready Y' /\ match x with Ok _ => after Y D Y' | Err _ => same Y Y' end /\ incl (content Y') (content Y ++ dl x D) /\ rclass x D.
Proof.
  intros LY MG ND H. pose proof (lay_total g gok _ _ LY) as (TF & TT & TB & TBAD). pose proof MG as ((I1 & I2 & I3) & (_ & GG & _) & CP).
  unfold MCallP.ysto in H. destruct (yst NP Y D) as [[x1 L1] Y1] eqn:YS.
  destruct (yst_factN g np2 KO Y D x1 L1 Y1 ND YS) as [FC FR]. pose proof (yst_class NP Y D x1 L1 Y1 (or_intror (or_intror np2)) YS) as CL.
  pose proof (yst_incl NP Y D x1 L1 Y1 YS) as IN. pose proof (yst_same g KO legal KC NP Y D x1 L1 Y1 GG YS) as SM.
  destruct (match x1 with Err ECorrupted => true | _ => false end) eqn:EC.
  - destruct x1 as [|e]; [discriminate|]. destruct e; try discriminate. clear EC. cbn [dl] in IN. rewrite app_nil_r in IN.
    destruct (yrp Y1) as [L2 Y2] eqn:YR. destruct (yst NP Y2 D) as [[x3 L3] Y3] eqn:YS2. injection H as <- <- <-.
    assert (X : ready Y2 /\ same Y1 Y2 /\ Forall good (content Y2) /\ incl (content Y2) (content Y1)).
    { destruct (FC eq_refl) as [(-> & P & K0)|(P & K1 & ->)].
      - pose proof (yrp_same B Y TBAD MG) as SP. rewrite YR in SP. cbn [snd] in SP. split; [|exact SP].
        unfold MStoreP.yrp in YR. destruct (Nat.eqb_spec (y_bad Y) 1) as [E|E].
        + injection YR as <- <-. split; [destruct (y_pt Y) as [l|] eqn:PE; [exists l; exact PE|congruence]|cbn; lia].
        + pose proof (yrp_ready g np2 KO Y P K0 TBAD) as RD. unfold MStoreP.yrp in RD. destruct (Nat.eqb_spec (y_bad Y) 1); [lia|]. rewrite YR in RD. apply RD.
          intros C0. unfold y_c in TT. rewrite C0 in TT. cbn [length] in TT. lia.
      - destruct (I2 P) as [K2 B0]. set (Y1 := mklay (y_f Y) (y_cl Y) (Some []) 0 0) in *.
        assert (CE : content Y1 = content Y). { destruct Y as [f cl pt k bad]. cbn [y_pt] in P. subst pt. unfold Y1. rewrite !content_app. reflexivity. }
        assert (NC : y_cl Y <> []). { intros C0. unfold y_c, y_b in TT. rewrite C0, P in TT. cbn [length ptl] in TT. lia. }
        assert (RD : ready (snd (yrp Y1))). { apply (yrp_ready g np2 KO); auto; unfold Y1; cbn; auto; try discriminate. }
        rewrite YR in RD. split; [exact RD|].
        unfold MStoreP.yrp, Y1 in YR. cbn [y_bad y_pt y_k y_cl y_f Nat.eqb] in YR. destruct (y_cl Y) as [|src cl] eqn:CLE; [congruence|]. injection YR as <- <-.
        assert (G1 : Forall good (live_of src) /\ Forall good (flat_map live_of cl)).
        { rewrite <- CE in GG. unfold Y1 in GG. rewrite content_app in GG. apply Forall_app in GG. destruct GG as [G1 _]. cbn [flat_map] in G1. now apply Forall_app in G1. }
        split; [apply (ymig_same g KO legal KC); [apply G1|reflexivity]|]. unfold Y1, ymig. rewrite !content_app, live_map. split.
        + apply Forall_app. split; [apply G1|]. eapply incl_Forall; [apply keep_incl|apply G1].
        + cbn [flat_map]. change (live_of []) with (@nil (list N)). rewrite app_nil_r. apply incl_app; [apply incl_appr, incl_refl|apply incl_appl, keep_incl]. }
    destruct X as (RD & S2 & G2 & I4). destruct (yst_ready g np2 KO NP Y2 D _ _ _ ND RD YS2) as [NC RD3].
    split; [exact RD3|]. pose proof (yst_same g KO legal KC NP Y2 D _ _ _ G2 YS2) as S3. split; [|split].
    + destruct x3; [eapply after_same; [|exact S3]; eapply same_trans; eauto|eapply same_trans; [|exact S3]; eapply same_trans; eauto].
    + eapply incl_tran; [exact (yst_incl _ _ _ _ _ _ YS2)|]. apply incl_app; [apply incl_appl; eapply incl_tran; eauto|apply incl_appr, incl_refl].
    + destruct (yst_class NP Y2 D _ _ _ (or_intror (or_intror np2)) YS2); [congruence|auto].
  - assert (H' : (x1, L1, Y1) = (x, L, Y')). { destruct x1 as [|e]; [exact H|]. destruct e; try exact H. discriminate EC. }
    injection H' as <- <- <-. assert (NC : x1 <> Err ECorrupted) by (intros ->; discriminate EC). split; [auto|]. split; [exact SM|]. split; [exact IN|]. destruct CL; [congruence|auto].
Qed.

(** * Values *)
Definition Bl (n : nat) (log : list (K * list N)) : lim := mklim n (fun d => exists x, pair_of KO d = Some x /\ In x log).
Lemma mgood_restrict B1 B2 Y : lim_n B1 = lim_n B2 -> Forall (lim_P B2) (content Y) -> mgood B1 Y -> mgood B2 Y.
Proof.
  intros E F (MI & (A1 & A2 & A3) & CP). split; [exact MI|]. split; [|exact CP]. split; [rewrite <- E; exact A1|]. split; [exact A2|].
  rewrite Forall_forall in *. intros d I. destruct (A3 d I) as (_ & X). split; auto.
Qed.
Lemma mgood_P B Y : mgood B Y -> Forall (lim_P B) (content Y).
Proof. intros (_ & (_ & _ & A3) & _). eapply Forall_impl; [|exact A3]. intros d X. apply X. Qed.
Lemma mgood_good B Y : mgood B Y -> Forall good (content Y).
Proof. intros (_ & (_ & A2 & _) & _). exact A2. Qed.
Lemma mgood_log n log log' Y : incl log log' -> mgood (Bl n log) Y -> mgood (Bl n log') Y.
Proof.
  intros I MG. eapply mgood_restrict; [| |exact MG]; auto. apply mgood_P in MG. eapply Forall_impl; [|exact MG]. intros d (x & E & J). exists x. split; auto.
Qed.

Notation upd := (upd (k_eqb KO)).
Notation eqm := (eqm legal).
Notation lastv := (lastv (k_eqb KO)).
Lemma eqb_sym k k' : legal k -> legal k' -> k_eqb KO k k' = k_eqb KO k' k.
Proof.
  intros L1 L2. pose proof (kc_eqb KO legal KC k k' L1 L2). pose proof (kc_eqb KO legal KC k' k L2 L1).
  destruct (k_eqb KO k k'), (k_eqb KO k' k); auto; [assert (k = k') by tauto|assert (k' = k) by tauto]; subst; destruct H, H0; auto; symmetry; auto.
Qed.
Lemma val_upd lb k v d ds k' : legal k -> legal k' -> dser KO lb k v = inl d ->
  value k' (ds ++ [d]) = if k_eqb KO k' k then Some v else value k' ds.
Proof.
  intros LK LK' E. destruct (dser_good KO legal KC _ k v d LK E) as (_ & DK & DV). unfold MLogP.value. rewrite lastd_app. cbn [MLogP.lastd]. unfold hask. rewrite DK.
  rewrite (eqb_sym k k' LK LK'). destruct (k_eqb KO k' k); [cbn; now rewrite DV|reflexivity].
Qed.
Lemma val_same Y Y' k : same Y Y' -> legal k -> value k (content Y') = value k (content Y).
Proof. intros S L. unfold MLogP.value. now rewrite (S k L). Qed.
Lemma val_after lb Y Y' k v d k' : legal k -> legal k' -> dser KO lb k v = inl d -> after Y (inl d) Y' ->
  value k' (content Y') = if k_eqb KO k' k then Some v else value k' (content Y).
Proof.
  intros LK LK' E (d' & [= <-] & A). rewrite <- (val_upd lb k v d (content Y) k' LK LK' E). unfold MLogP.value. now rewrite (A k' LK').
Qed.
Definition pairs (ds : list (list N)) : list (K * list N) := flat_map (fun d => match pair_of KO d with Some x => [x] | None => [] end) ds.
Lemma pairs_map ds : Forall good ds -> map (pair_of KO) ds = map Some (pairs ds).
Proof.
  induction 1 as [|d ds G _ IH]; auto. unfold pairs. cbn [flat_map map]. rewrite IH, map_app. destruct (good_de KO legal KC d G) as (k & _ & DK & _).
  unfold pair_of at 1 2. rewrite DK. reflexivity.
Qed.
Lemma pairs_last ds k : Forall good ds -> lastv k (pairs ds) = value k ds.
Proof.
  induction 1 as [|d ds G _ IH]; auto. destruct (good_de KO legal KC d G) as (k0 & _ & DK & _). unfold pairs. cbn [flat_map]. fold (pairs ds). unfold pair_of. rewrite DK. cbn [option_map app MSpec.lastv].
  rewrite IH. unfold MLogP.value. cbn [MLogP.lastd]. destruct (lastd k ds); auto. unfold hask. rewrite DK. cbn. destruct (k_eqb KO k0 k); auto.
Qed.

(** * One call *)
Notation mdo := (mdo (k_eqb KO) legal (dser KO) (QSpec.big HL (cap g)) (negb ws)).
Notation mtrace := (mtrace (k_eqb KO) legal (dser KO) (QSpec.big HL (cap g)) (negb ws)).
Notation covered := (covered (K := K) ae).
Definition mst (n : nat) (t : mode) (log : list (K * list N)) (m : vmap) s : Prop := exists Y,
  mlay (fresh t) Y s /\ mgood (Bl n log) Y /\ (sure t = true -> settled Y) /\ (whole t = true -> y_bad Y = 0) /\ forall k, legal k -> m k = value k (content Y).
Definition mcok (n : nat) (c : mcall K) : Prop :=
  match c with
  | MStore b k v => legal k /\ n <= length b /\ forall d, dser KO (length b) k v = inl d ->
      Forall is_byte d /\ (ws = true \/ torn_safe d /\ (8 <= W g \/ HL <= aw)) /\ (too_big g (length d) = false -> rup (length d) <= n)
  | MFetch b k | MRemove b k => legal k /\ n <= length b
  | MRemoveAll b => n <= length b
  | MIter b bs => n <= length b /\ Forall (fun x => n <= length x) bs
  end.
Definition newlog (log : list (K * list N)) (c : mcall K) : list (K * list N) :=
  match c with MStore b k v => match dser KO (length b) k v with inl _ => log ++ [(k, v)] | inr _ => log end | _ => log end.

Lemma dser_pair lb k v d : legal k -> dser KO lb k v = inl d -> pair_of KO d = Some (k, v).
Proof. intros LK E. destruct (dser_good KO legal KC _ k v d LK E) as (_ & DK & DV). unfold pair_of. rewrite DK. cbn. now rewrite DV. Qed.
Lemma mcok_callok n log c : mcok n c -> mcallok g ws aw KO legal (Bl n (newlog log c)) c.
Proof.
  destruct c as [b k v|b k|b k|b|b bs]; cbn [mcok mcallok]; auto. intros (LK & LB & H). split; auto. split; auto. intros d E. destruct (H d E) as (H1 & H2 & H3).
  split; [intros _|auto]. cbn [newlog]. rewrite E. exists (k, v). split; [eapply dser_pair; eauto|]. apply in_or_app. right. now left.
Qed.
Lemma newlog_incl log c : incl log (newlog log c).
Proof. destruct c; try apply incl_refl. cbn. destruct (dser _ _ _ _); [apply incl_appl|]; apply incl_refl. Qed.
Lemma mlay_bad cl Y s : mlay cl Y s -> y_bad Y <= 1.
Proof. intros (pg & LY & _). apply LY. Qed.
Lemma ready_bad Y : minv Y -> y_bad Y <= 1 -> ready Y -> y_bad Y = 0.
Proof. intros (_ & _ & I3) B1 (_ & K1). destruct (Nat.eq_dec (y_bad Y) 1) as [E|E]; [apply I3 in E|]; lia. Qed.
Lemma yrep_settled Y : settled Y -> y_bad Y <= 1 -> settled (yrep Y).
Proof. intros (A & C) B1. split; [unfold nomig in *; cbn; lia|]. cbn. intros P. apply C in P. lia. Qed.
Lemma yrel_settled Y Y' : yrel Y Y' -> settled Y -> settled Y'.
Proof.
  intros (A1 & A2 & A3 & A4 & A5 & _) (C1 & C2). split; [unfold nomig in *; lia|]. rewrite A2. intros P. apply C2. unfold y_b in A5. rewrite P in A5. destruct (y_pt Y); auto. discriminate.
Qed.
Lemma rm_settled sk Y : settled Y -> settled (yrm KO sk Y).
Proof. intros (A & C). split; [exact A|]. cbn [yrm y_pt y_k]. intros P. apply C. destruct (y_pt Y); auto. discriminate. Qed.
Lemma was_cut_ans c : was_cut (cutans c : mans K) = true. Proof. destruct c; reflexivity. Qed.

Lemma rm_val sk Y k : (match sk with Some k' => legal k' | None => True end) -> legal k -> Forall good (content Y) ->
  value k (content (yrm KO sk (yrep Y))) = match sk with Some k' => if k_eqb KO k k' then None else value k (content Y) | None => None end.
Proof.
  intros LS LK G. rewrite yrm_content. change (content (yrep Y)) with (content Y). destruct (lastd_erf KO legal KC sk k (content Y) G LK LS) as [A C]. unfold MLogP.value.
  destruct sk as [k'|]; [|rewrite A by exact I; reflexivity]. pose proof (kc_eqb KO legal KC k k' LK LS) as EQ. destruct (k_eqb KO k k').
  - rewrite A; [reflexivity|]. apply EQ. reflexivity.
  - rewrite C; [reflexivity|]. intros ->. destruct EQ as [_ EQ]. now specialize (EQ eq_refl).
Qed.
Lemma rc_val sk Y Yc k : (match sk with Some k' => legal k' | None => True end) -> legal k -> Forall good (content Y) -> rcut KO sk Y Yc \/ rcut KO sk (yrep Y) Yc ->
  value k (content Yc) = value k (content Y) \/ kills sk k /\ value k (content Yc) = None.
Proof.
  intros LS LK G R. unfold MLogP.value. assert (X : lastd k (content Yc) = lastd k (content Y) \/ kills sk k /\ lastd k (content Yc) = None).
  { destruct R as [R|R]; exact (rcut_value KO legal KC sk _ Yc k R G LK LS). }
  destruct X as [->|[KL ->]]; auto.
Qed.

Lemma mst_step n t log m s c p a s' : mst n t log m s -> mcok n c -> covered t c p -> (ws = true -> p = None) -> m_exec KO g c (power s p) = (a, s') ->
  exists m' log', mdo m log c a m' log' /\ mst n (after_call t c a) log' m' s'.
Proof.
  intros (Y & ML & MG & SU & WH & VM) CO CV PO E. pose proof (mlay_bad _ _ _ ML) as YB.
  pose proof (mgood_log n log (newlog log c) Y (newlog_incl log c) MG) as MG'. pose proof (mgood_good _ _ MG) as GG.
  assert (PR : mpre ae c p (fresh t) Y).
  { pose proof (mlay_whole g gok ws ae aw np2 KO legal _ _ _ ML) as AE. destruct c; cbn [MSpec.covered mpre] in *; try tauto. destruct CV as [C1 [C2|C2]]; split; auto. right. apply SU; auto. destruct CV as [C1 [C2|C2]]; split; auto. right. apply SU; auto. }
  pose proof (exec_spec g gok ws ae aw np2 KO legal KC (Bl n (newlog log c)) c p (fresh t) Y s a s' ML MG' (mcok_callok n log c CO) PR PO E) as OUT.
  destruct OUT as [(L & Y' & AC & ML' & MGY & _)|(-> & HW & _ & Yc & CT & MLc & MGc)].
  - pose proof (mlay_bad _ _ _ ML') as YB'. exists (fun k => value k (content Y')).
    assert (MKS : forall log' t', mgood (Bl n log') Y' -> (sure t' = true -> settled Y') -> (whole t' = true -> y_bad Y' = 0) -> mst n t' log' (fun k => value k (content Y')) s').
    { intros log' t' A1 A2 A3. exists Y'. split; [|split; [exact A1|auto]]. destruct (fresh t'); auto. destruct ML' as (pg & X). exists pg. destruct X as (X1 & X2 & X3 & X4 & X5). repeat (split; auto); discriminate. }
    destruct c as [b k v|b k|b k|b|b bs]; cbn [MExecP.acts mcok newlog] in *.
    + destruct AC as (x & -> & YS). destruct CO as (LK & LB & NW). destruct ML as (pg & LY & _).
      destruct (ysto_ok _ Y pg _ x L Y' LY MG' (dser_nocorr KO (length b) k v) YS) as (RD & SA & IN & CL).
      assert (B0 : y_bad Y' = 0) by (apply ready_bad; auto; apply MGY).
      assert (NCT : x <> Err (EStorage SShutoff)).
      { intros ->. destruct CL as [CL|(d & _ & [[X _]|[X _]])]; try discriminate X. unfold dser in CL. destruct (k_ser KO k (length b)); [destruct (_ <? _)|]; discriminate CL. }
      assert (AF : after_call t (MStore b k v) (RUnit x) = calm0).
      { unfold after_call. destruct x as [|e]; auto. destruct e; auto. destruct e; auto. congruence. }
      rewrite AF. destruct (dser KO (length b) k v) as [d|e] eqn:DS.
      * destruct x as [[]|e].
        -- exists (log ++ [(k, v)]). destruct CL as (d' & [= <-] & TB). split; [|apply MKS; auto; intros _; now apply (ready_settled g np2)].
           eapply MDStore; [exact DS| |]. { rewrite <- big_ok, TB. discriminate. } intros k' LK'. rewrite (val_after _ Y Y' k v d k' LK LK' DS SA). unfold MSpec.upd. now rewrite <- VM.
        -- exists log. destruct CL as [CL|(d' & [= <-] & CL)]; [discriminate CL|].
           assert (EM : eqm (fun k => value k (content Y')) m) by (intros k' LK'; rewrite (val_same Y Y' k' SA LK'); now rewrite VM).
           split; [destruct CL as [[-> TB]|[-> TB]]; [eapply MDBig|eapply MDFull]; eauto; rewrite <- big_ok, TB; auto; discriminate|].
           apply MKS; auto; [|intros _; now apply (ready_settled g np2)]. cbn [dl] in IN. rewrite app_nil_r in IN. eapply mgood_restrict; [|exact (incl_Forall IN (mgood_P _ _ MG))|exact MGY]. auto.
      * exists log. destruct x as [u|e']; [destruct CL as (d & X & _); discriminate X|]. destruct CL as [[= ->]|(d & X & _)]; [|discriminate X].
        split; [eapply MDSer; eauto; intros k' LK'; rewrite (val_same Y Y' k' SA LK'); now rewrite VM|]. apply MKS; auto. intros _. now apply (ready_settled g np2).
    + destruct AC as (-> & YE). destruct CO as (LK & LB). exists log.
      assert (CE : content Y' = content Y) by (destruct YE as [[-> _]|(_ & -> & _)]; reflexivity). split.
      * rewrite <- VM by auto. apply MDFetch. intros k' LK'. now rewrite CE, VM.
      * apply MKS; auto; cbn [after_call was_cut sure whole].
        -- intros S. destruct YE as [[-> _]|(_ & -> & _)]; auto. apply yrep_settled; auto.
        -- intros S. destruct YE as [[-> _]|(B1 & -> & _)]; auto.
    + destruct AC as (-> & -> & _). destruct CO as (LK & LB). exists log. split.
      * apply MDRemove. intros k' LK'. rewrite (rm_val (Some k)) by auto. unfold MSpec.upd. now rewrite <- VM.
      * apply MKS; auto; cbn [after_call was_cut sure whole]; auto. intros S. apply rm_settled, yrep_settled; auto.
    + destruct AC as (-> & -> & _). exists log. split.
      * apply MDRemoveAll. intros k' LK'. now rewrite (rm_val None) by auto.
      * apply MKS; auto; cbn [after_call was_cut sure whole]; auto. intros S. apply rm_settled, yrep_settled; auto.
    + destruct AC as (-> & -> & _). exists log. split.
      * rewrite pairs_map by auto. apply MDIter.
        -- intros x I. unfold pairs in I. apply in_flat_map in I. destruct I as (d & I & J). apply mgood_P in MG. rewrite Forall_forall in MG. destruct (MG d I) as (y & E1 & E2).
           rewrite E1 in J. destruct J as [<-|[]]. exact E2.
        -- intros k LK. rewrite pairs_last by auto. now rewrite VM.
        -- intros k LK. now rewrite VM.
      * apply MKS; auto.
  - assert (PF : negb ws = true) by now rewrite HW. exists (fun k => value k (content Yc)).
    assert (MKS : forall log' t', mgood (Bl n log') Yc -> fresh t' = false -> (sure t' = true -> settled Yc) -> whole t' = false -> mst n t' log' (fun k => value k (content Yc)) s').
    { intros log' t' A1 A2 A3 A4. exists Yc. rewrite A2, A4. repeat (split; auto). discriminate. }
    assert (AF : after_call t c (cutans c) = mkmode (match c with MStore _ _ _ => false | _ => sure t end) false false) by (unfold after_call; now rewrite was_cut_ans).
    rewrite AF. destruct c as [b k v|b k|b k|b|b bs]; cbn [MExecP.cuts mcok newlog] in *; cbn [cutans].
    + destruct CO as (LK & LB & NW). destruct (dser KO (length b) k v) as [d|e] eqn:DS.
      * exists (log ++ [(k, v)]). split; [|apply MKS; auto; discriminate]. eapply MDStoreCut; eauto. destruct CT as [S|A].
        -- left. intros k' LK'. rewrite (val_same Y Yc k' S LK'). now rewrite VM.
        -- right. intros k' LK'. rewrite (val_after _ Y Yc k v d k' LK LK' DS A). unfold MSpec.upd. now rewrite <- VM.
      * exists log. split; [|apply MKS; auto; discriminate]. eapply MDStoreCut1; eauto. destruct CT as [S|A].
        -- intros k' LK'. rewrite (val_same Y Yc k' S LK'). now rewrite VM.
        -- destruct A as (d & X & _). discriminate X.
    + exists log. assert (CE : content Yc = content Y) by (destruct CT as [->| ->]; reflexivity). split.
      * apply MDFetchCut; auto. intros k' LK'. now rewrite CE, VM.
      * apply MKS; auto. cbn [sure]. intros S. destruct CT as [->| ->]; auto. apply yrep_settled; auto.
    + destruct CO as (LK & LB). exists log. split.
      * apply MDRemoveCut; auto. destruct (rc_val (Some k) Y Yc k LK LK GG CT) as [V|[_ V]].
        -- left. intros k' LK'. destruct (rc_val (Some k) Y Yc k' LK LK' GG CT) as [V'|[KL V']]; [now rewrite V', VM|]. cbn in KL. subst k'. now rewrite V, VM.
        -- right. intros k' LK'. unfold MSpec.upd. pose proof (kc_eqb KO legal KC k' k LK' LK) as EQ. destruct (rc_val (Some k) Y Yc k' LK LK' GG CT) as [V'|[KL V']].
           ++ destruct (k_eqb KO k' k); [assert (k' = k) by (apply EQ; auto); subst k'; exact V|]. now rewrite V', VM.
           ++ cbn in KL. subst k'. rewrite V. destruct EQ as [_ EQ]. now rewrite EQ.
      * apply MKS; auto. cbn [sure]. intros S. destruct CT as [[R _]|[R _]]; (eapply yrel_settled; [exact R|]); auto. apply yrep_settled; auto.
    + exists log. split.
      * apply MDRemoveAllCut; auto. intros k' LK'. destruct (rc_val None Y Yc k' I LK' GG CT) as [V'|[KL V']]; [left; now rewrite V', VM|now right].
      * apply MKS; auto. cbn [sure]. intros S. destruct CT as [[R _]|[R _]]; (eapply yrel_settled; [exact R|]); auto. apply yrep_settled; auto.
    + destruct CT.
Qed.

(** * Histories *)
Definition mevok (n : nat) (e : mev K) : Prop :=
  match e with
  | MCall c p => mcok n c /\ (ws = true -> p = None)
  | MBoot c => fresh_cache NP c
  end.
Lemma cohK_fresh pg (c : cache K) : fresh_cache NP c -> wfc g c /\ coh g pg c.
Proof.
  intros (_ & PS & PP & _). split; [|split].
  - unfold wfc. destruct PS as [|m H|]; unfold wfps; auto. now rewrite repeat_length.
  - destruct PS as [|m H|]; unfold coh_ps; auto.
    + rewrite repeat_length. split; auto. intros p x Hp E. apply nth_error_In, repeat_spec in E. discriminate.
    + apply calc_new_coh.
  - destruct PP as [|m1 m H1 H2]; unfold coh_pp; auto. intros p Hp. unfold lookup.
    split; intros a E; exfalso.
    + destruct (nth_error (repeat None m1) p) as [o|] eqn:E2; [|discriminate]. apply nth_error_In, repeat_spec in E2. subst o. discriminate.
    + destruct (nth_error (repeat None m) p) as [o|] eqn:E2; [|discriminate]. apply nth_error_In, repeat_spec in E2. subst o. discriminate.
Qed.
Lemma kp_fresh es (c : kpcache K) : fresh_kp c -> kwf c /\ kcoh KO legal es c.
Proof.
  intros F. assert (X : kcoh KO legal es c).
  { destruct F as [|m H]; [exact I|]. pose proof (kwf_inval KO legal es (KPArray (repeat None m))) as X. cbn [kp_inval] in X. replace (map (fun _ => None) (repeat None m)) with (repeat (@None (K * nat)) m) in X by (clear; induction m; cbn; congruence). apply X. destruct m; [lia|discriminate]. }
  split; auto. eapply kcoh_wf; eauto.
Qed.
Lemma mlay_boot cl Y s c : fresh_cache NP c -> mlay cl Y s -> mlay true Y (set_ca s c).
Proof.
  intros F (pg & LY & (FW & _) & _). exists pg. destruct (cohK_fresh pg c F) as [C1 C2]. destruct (kp_fresh (ents Y) (c_kp c) ltac:(apply F)) as [K1 K2].
  split; auto. split; [split; [exact FW|split; [exact C1|right; exact C2]]|]. split; auto.
Qed.
Lemma mst_boot n t log m s c : fresh_cache NP c -> mst n t log m s -> mst n (mkmode (sure t) true (whole t)) log m (set_ca s c).
Proof. intros F (Y & A & B0). exists Y. split; [cbn [fresh]; eapply mlay_boot; eauto|exact B0]. Qed.
Lemma mst_eqm n t log m m' s : eqm m' m -> mst n t log m s -> mst n t log m' s.
Proof. intros E (Y & A & B0 & C & D & V). exists Y. repeat (split; auto). intros k L. rewrite <- V by auto. auto. Qed.

Theorem mhist_ok n evs : forall t log m s l s', mst n t log m s -> Forall (mevok n) evs -> calm ae t evs l -> m_run KO g s evs = (l, s') ->
  exists m' log', mtrace m log evs l m' log' /\ mst n (mode_after t evs l) log' m' s'.
Proof.
  induction evs as [|[c p|c] evs IH]; intros t log m s l s' MS EV CA E; cbn [m_run] in E.
  - injection E as <- <-. exists m, log. split; [constructor; intros k _; auto|exact MS].
  - inversion EV as [|? ? CP EV']; subst. destruct CP as [CO PO]. destruct (m_exec KO g c (power s p)) as [a s1] eqn:E1. destruct (m_run KO g s1 evs) as [l2 s2] eqn:E2. injection E as <- <-.
    cbn [calm] in CA. destruct CA as [CV CA]. destruct (mst_step n t log m s c p a s1 MS CO CV PO E1) as (m1 & log1 & D & MS1).
    destruct (IH _ _ _ _ _ _ MS1 EV' CA E2) as (m2 & log2 & T & MS2). exists m2, log2. split; [econstructor; eauto|exact MS2].
  - inversion EV as [|? ? CF EV']; subst. cbn [calm mode_after] in *. assert (CA' : calm ae (mkmode (sure t) true (whole t)) evs l) by (destruct l; exact CA).
    destruct (IH _ _ _ _ _ _ (mst_boot _ _ _ _ _ _ CF MS) EV' CA' E) as (m2 & log2 & T & MS2). exists m2, log2. split; [now constructor|].
    destruct l; exact MS2.
Qed.

Lemma mst_new0 n f c : erased g f -> f_ae f = ae -> f_aw f = aw -> (ws = true -> f_fuel f = None) -> fresh_cache NP c ->
  mlay true (mklay 0 [] None NP 0) (st_new f c) /\ mgood (Bl n []) (mklay 0 [] None NP 0) /\ settled (mklay 0 [] None NP 0).
Proof.
  intros [E1 E2] A1 A2 A3 F. destruct (cohK_fresh (fun _ => POpen) c F) as [C1 C2].
  destruct (kp_fresh (ents (mklay 0 [] None NP 0)) (c_kp c) ltac:(apply F)) as [K1 K2].
  split; [exists (fun _ => POpen); split; [|split; [|split; [exact K1|split; [right; exact K2|auto]]]]|split].
  - split; [|cbn; lia]. split; [apply (npos g gok)|]. split; [rewrite pages_len; unfold y_c, y_b; cbn; lia|]. intros i Hi. unfold pages. cbn.
    rewrite app_nil_r. rewrite nth_repeat'. destruct (i <? NP); auto.
  - split; [|split; auto]. split; [exact E1|]. split.
    + intros p Hp x Hx. pose proof (pend_FEND g p Hp). pose proof (START_paddr g p). destruct (E2 x) as [X1 X2]; [lia|]. split; auto.
    + split; [split; [exact A1|intros _ p _; discriminate]|split; auto].
  - split; [|split].
    + split; [now left|]. split; [cbn; lia|]. cbn. discriminate.
    + repeat split; constructor.
    + intros K0. cbn in K0. lia.
  - split; [unfold nomig; cbn; lia|]. cbn. lia.
Qed.
Lemma mst_new n f c : erased g f -> f_ae f = ae -> f_aw f = aw -> (ws = true -> f_fuel f = None) -> fresh_cache NP c -> mst n calm0 [] (@nothing K) (st_new f c).
Proof.
  intros E A1 A2 A3 F. destruct (mst_new0 n f c E A1 A2 A3 F) as (A & B0 & C). exists (mklay 0 [] None NP 0). split; [exact A|]. split; [exact B0|]. split; auto.
Qed.

(** Fetching says what is stored. *)
(** With power no call is cut. *)
Lemma mst_uncut n t log m s c a s' : mst n t log m s -> mcok n c -> covered t c None -> m_exec KO g c (power s None) = (a, s') -> was_cut a = false.
Proof.
  intros (Y & ML & MG & SU & WH & VM) CO CV E.
  pose proof (mgood_log n log (newlog log c) Y (newlog_incl log c) MG) as MG'.
  pose proof (mlay_whole g gok ws ae aw np2 KO legal _ _ _ ML) as AE.
  assert (PR : mpre ae c None (fresh t) Y) by (destruct c; cbn [MSpec.covered mpre] in *; tauto).
  destruct (exec_spec g gok ws ae aw np2 KO legal KC (Bl n (newlog log c)) c None (fresh t) Y s a s' ML MG' (mcok_callok n log c CO) PR (fun _ => eq_refl) E) as [(L & Y' & AC & _)|(_ & _ & X & _)].
  - destruct c as [b k v|b k|b k|b|b bs]; cbn [MExecP.acts newlog] in *; try (destruct AC as (-> & _); reflexivity).
    destruct AC as (x & -> & YS). destruct ML as (pg & LY & _).
    destruct (ysto_ok _ Y pg _ x L Y' LY MG' (dser_nocorr KO (length b) k v) YS) as (_ & _ & _ & CL).
    destruct x as [|e]; auto. destruct CL as [CL|(d & _ & [[-> _]|[-> _]])]; auto. unfold dser in CL. destruct (k_ser KO k (length b)); [destruct (_ <? _)|]; try discriminate CL; injection CL as <-; reflexivity.
  - exfalso. apply X. reflexivity.
Qed.
Lemma mst_fetch n t log m s b k : mst n t log m s -> legal k -> n <= length b ->
  exists s', m_exec KO g (MFetch b k) (power s None) = (RVal (Ok (m k)), s').
Proof.
  intros (Y & ML & MG & _ & _ & VM) LK LB. destruct (m_exec KO g (MFetch b k) (power s None)) as [a s'] eqn:E.
  destruct (exec_spec g gok ws ae aw np2 KO legal KC (Bl n log) (MFetch b k) None (fresh t) Y s a s' ML MG (conj LK LB) I (fun _ => eq_refl) E) as [(L & Y' & (-> & _) & _)|(_ & _ & X & _)].
  - exists s'. now rewrite VM.
  - exfalso. apply X. reflexivity.
Qed.
End Hist.
