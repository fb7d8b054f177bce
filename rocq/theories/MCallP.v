(** The map calls store and fetch on layouts. *)
From Coq Require Import List NArith ZArith Arith Bool Lia ZifyBool ZifyNat ZifyN.
From Verif Require Import Base BaseP Crc CrcP Flash Cache State Item Generic Map Codec CodecP GeomP ScanP WpP ItemP CalcP PageP TornSpec TornP WorldP LayP QPushP QRepP KeyP MLogP MFetchP MMigP MStoreP.
Import ListNotations.
Local Opaque crc16 acrc crc32.

Section Call.
Context (g : geom) (gok : geom_ok g) (ws ae : bool) (aw : nat) (np2 : 2 <= NP g).
Context {K : Type} (KO : keyops K) (legal : K -> Prop) (KC : key_codec KO legal) (B : lim).
Notation W := (W g).
Notation HL := (HL g).
Notation rup := (rup g).
Notation NP := (NP g).
Notation st := (st K).
Implicit Types (s : st) (pg : nat -> page) (Y : lay).
Notation world := (world g ws ae aw).
Notation crashed := (crashed g ws ae aw).
Notation sworld := (sworld g ws ae aw).
Notation newest := (newest KO).
Notation lastd := (lastd KO).
Notation ents := (ents g).
Notation good := (good KO legal).
Notation tearok := (tearok g ws aw B).
Notation mok := (mok g ws aw KO legal B).
Notation mw := (mw g ws ae aw KO legal B).
Notation mgood := (mgood g ws aw KO legal B).
Notation same := (same KO legal).
Notation kcoh := (kcoh KO legal).
Notation ymig := (ymig g KO).
Notation migops := (migops g KO).
Notation y_cur := (y_cur g).

Notation yst := (yst g KO).
Notation yrp := (yrp g KO).
Notation yadv := (yadv g KO).
Notation smw := (smw g ws ae aw KO legal B).
Notation hqY := (hqY g B).
Notation mcrash := (mcrash g ws ae aw KO legal B).
Notation newok := (newok g ws aw B).
Notation after := (after KO legal).
Notation cst := (cst KO legal).

(** * Functional facts *)
(** No interrupted migration, and none would result from marking a page. *)
Definition settled Y : Prop := nomig Y /\ (y_pt Y = None -> 2 <= y_k Y).
Definition ready Y : Prop := (exists sl, y_pt Y = Some sl) /\ 1 <= y_k Y.
Lemma ready_settled Y : ready Y -> settled Y.
Proof. intros ((sl & A) & C). split; [unfold nomig; lia|congruence]. Qed.
Lemma yadv_ready f cl k : cl <> [] -> ready (snd (yadv f cl k)).
Proof.
  intros N. unfold MStoreP.yadv. destruct k as [|k]; [destruct cl as [|s cl]; [congruence|]|]; cbn [snd]; (split; [eexists; reflexivity|cbn; lia]).
Qed.

Definition nocorr (D : list N + err) : Prop := forall e, D = inr e -> e <> ECorrupted.
Lemma yst_ready r : forall Y D x L Y', nocorr D -> ready Y -> yst r Y D = (x, L, Y') -> x <> Err ECorrupted /\ ready Y'.
Proof.
  induction r as [|r IH]; intros Y D x L Y' ND RY H; cbn [MStoreP.yst] in H.
  { injection H as <- <- <-. split; [discriminate|auto]. }
  pose proof RY as ((sl & PT) & K1). rewrite PT in H. destruct (Nat.eqb_spec (y_k Y) 0) as [K0|K0]; [lia|].
  destruct D as [d|e].
  2:{ injection H as <- <- <-. split; auto. intros [= ->]. now destruct (ND ECorrupted). }
  destruct (too_big g (length d)).
  { injection H as <- <- <-. split; [discriminate|auto]. }
  destruct (fitsb g sl (length d)).
  { injection H as <- <- <-. split; [discriminate|]. split; [unfold y_put; cbn; eauto|unfold y_put; cbn; lia]. }
  pose proof (yadv_ready (y_f Y) (y_cl Y ++ [sl]) (y_k Y - 1) ltac:(destruct (y_cl Y); discriminate)) as RD.
  destruct (yadv (y_f Y) (y_cl Y ++ [sl]) (y_k Y - 1)) as [L1 Y1]. cbn [snd] in RD.
  destruct (yst r Y1 (inl d)) as [[x2 L2] Y2] eqn:YS. injection H as <- <- <-. eapply IH; eauto.
Qed.
Lemma yst_fact r Y D x L Y' : nocorr D -> yst (S (S r)) Y D = (x, L, Y') ->
  (x = Err ECorrupted -> (Y' = Y /\ y_pt Y <> None /\ y_k Y = 0) \/ (y_pt Y = None /\ y_k Y <= 1 /\ Y' = mklay (y_f Y) (y_cl Y) (Some []) 0 0)) /\
  (x <> Err ECorrupted -> ready Y').
Proof.
  intros ND H. destruct (y_pt Y) as [sl|] eqn:PT.
  - destruct (Nat.eq_dec (y_k Y) 0) as [K0|K0].
    + cbn [MStoreP.yst] in H. rewrite PT, K0 in H. cbn [Nat.eqb] in H. injection H as <- <- <-. split; [|congruence]. intros _. left. repeat split; auto. discriminate.
    + assert (R : ready Y) by (split; [eauto|lia]). destruct (yst_ready _ _ _ _ _ _ ND R H). split; [congruence|auto].
  - remember (S r) as r1. cbn [MStoreP.yst] in H. rewrite PT in H. destruct (yst r1 _ D) as [[x2 L2] Y2] eqn:YS. injection H as <- <- <-.
    destruct (Nat.eq_dec (y_k Y - 1) 0) as [K0|K0].
    + subst r1. cbn [MStoreP.yst y_pt y_k] in YS. rewrite K0 in YS. cbn [Nat.eqb] in YS. injection YS as <- <- <-. split; [|congruence]. intros _. right.
      split; auto. split; [lia|auto].
    + assert (R : ready (mklay (y_f Y) (y_cl Y) (Some []) (y_k Y - 1) 0)) by (split; [eexists; reflexivity|cbn; lia]). destruct (yst_ready _ _ _ _ _ _ ND R YS). split; [congruence|auto].
Qed.
Lemma yst_factN Y D x L Y' : nocorr D -> yst NP Y D = (x, L, Y') ->
  (x = Err ECorrupted -> (Y' = Y /\ y_pt Y <> None /\ y_k Y = 0) \/ (y_pt Y = None /\ y_k Y <= 1 /\ Y' = mklay (y_f Y) (y_cl Y) (Some []) 0 0)) /\
  (x <> Err ECorrupted -> ready Y').
Proof. intros ND. replace NP with (S (S (NP - 2))) at 1 by lia. now apply yst_fact. Qed.
Lemma after_same Y Y' D Yc : same Y Y' -> after Y' D Yc -> after Y D Yc.
Proof. intros H (d & E & A). exists d. split; auto. intros k LK. rewrite A, !lastd_app by auto. now rewrite (H k LK). Qed.
Lemma keep_incl ds : forall later, incl (keep KO ds later) ds.
Proof.
  induction ds as [|d ds IH]; intros later; cbn [keep]; [apply incl_refl|]. destruct (existsb _ _).
  - apply incl_tl, IH.
  - intros x [<-|I]; [now left|right; eapply IH; eauto].
Qed.
Lemma yadv_content f cl k : Forall good (flat_map live_of cl) -> Forall good (content (snd (yadv f cl k))).
Proof.
  intros G. unfold MStoreP.yadv. destruct k as [|k], cl as [|src cl]; cbn [snd]; unfold MMigP.ymig; rewrite content_app; try (change (live_of []) with (@nil (list N)); rewrite app_nil_r; exact G).
  rewrite live_map. cbn [flat_map] in G. apply Forall_app in G. destruct G as [G1 G2]. apply Forall_app. split; auto.
  eapply incl_Forall; [apply keep_incl|auto].
Qed.
Lemma yst_same r : forall Y D x L Y', Forall good (content Y) -> yst r Y D = (x, L, Y') ->
  match x with Ok _ => after Y D Y' | Err _ => same Y Y' end.
Proof.
  induction r as [|r IH]; intros Y D x L Y' G H; cbn [MStoreP.yst] in H.
  { injection H as <- <- <-. apply same_refl. }
  destruct Y as [f cl pt k bad]. cbn [y_f y_cl y_pt y_k y_bad] in *. destruct pt as [sl|].
  - destruct (k =? 0); [injection H as <- <- <-; apply same_refl|]. destruct D as [d|e]; [|injection H as <- <- <-; apply same_refl].
    destruct (too_big g (length d)); [injection H as <- <- <-; apply same_refl|]. destruct (fitsb g sl (length d)).
    { injection H as <- <- <-. exists d. split; auto. intros k' _. unfold y_put, y_sl. cbn [y_f y_cl y_pt y_k y_bad]. rewrite !content_app, live_app, app_assoc. reflexivity. }
    rewrite content_app in G. assert (G' : Forall good (flat_map live_of (cl ++ [sl]))) by (rewrite flat_map_app; cbn [flat_map]; now rewrite app_nil_r).
    pose proof (yadv_same g KO legal KC f (cl ++ [sl]) (k - 1) G') as SA. pose proof (yadv_content f (cl ++ [sl]) (k - 1) G') as GA.
    destruct (yadv f (cl ++ [sl]) (k - 1)) as [L1 Y1]. cbn [snd] in *.
    assert (S1 : same (mklay f cl (Some sl) k bad) Y1).
    { eapply same_trans; [|exact SA]. intros k' _. rewrite !content_app, flat_map_app. cbn [flat_map]. now rewrite !app_nil_r. }
    destruct (yst r Y1 (inl d)) as [[x2 L2] Y2] eqn:YS. injection H as <- <- <-. specialize (IH _ _ _ _ _ GA YS).
    destruct x2; [eapply after_same; eauto|eapply same_trans; eauto].
  - destruct (yst r _ D) as [[x2 L2] Y2] eqn:YS. injection H as <- <- <-. rewrite content_app in G.
    assert (S1 : same (mklay f cl None k bad) (mklay f cl (Some []) (k - 1) 0)) by (intros k' _; now rewrite !content_app).
    apply IH in YS; [|now rewrite content_app]. destruct x2; [eapply after_same; eauto|eapply same_trans; eauto].
Qed.
Lemma yrp_ready Y : y_pt Y <> None -> y_k Y = 0 -> y_bad Y <= 1 -> y_cl Y <> [] -> ready (snd (yrp Y)).
Proof.
  intros P K0 B1 C. unfold MStoreP.yrp. destruct (Nat.eqb_spec (y_bad Y) 1) as [E|E].
  - cbn [snd]. split; [destruct (y_pt Y) as [l|] eqn:PE; [exists l; exact PE|congruence]|cbn; lia].
  - destruct (y_pt Y); [|congruence]. rewrite K0. destruct (y_cl Y); [congruence|]. cbn [snd]. split; [eexists; reflexivity|cbn; lia].
Qed.

(** * The whole store *)
Definition ysto Y (D : list N + err) : res unit * list dop * lay :=
  match yst NP Y D with
  | (Err ECorrupted, L1, Y1) => let '(L2, Y2) := yrp Y1 in let '(x, L3, Y3) := yst NP Y2 D in (x, (L1 ++ L2) ++ L3, Y3)
  | o => o
  end.
Lemma dser_nocorr lb k v : nocorr (dser KO lb k v).
Proof. intros e. unfold dser. destruct (k_ser KO k lb); [destruct (_ <? _)|]; congruence. Qed.

(** Outcomes of a call. *)
Definition mend Y f0 L s s' : Prop := (exists pg', mw Y pg' f0 L s') /\ mgood Y /\ mfr s s'.
Definition mcut (C : lay -> Prop) f0 L s' : Prop := exists pg' Yc, C Yc /\ mgood Yc /\ layok NP Yc pg' /\ crashed pg' f0 L s' /\ kwfs s'.
Lemma mcut_mcrash Y f0 L (C : lay -> Prop) (E : err -> st -> Prop) : (forall s', mcut C f0 L s' -> E (EStorage SShutoff) s') -> mcrash False Y f0 L C E.
Proof. intros H s' pg' Yc C1 C2 C3 C4 C5 _. apply H. exists pg', Yc. auto. Qed.
Lemma mcut_mono (C C' : lay -> Prop) f0 L L' s' : (forall Y, C Y -> C' Y) -> mcut C f0 L s' -> mcut C' f0 (L ++ L') s'.
Proof. intros H (pg' & Yc & C1 & C2 & C3 & C4 & C5). exists pg', Yc. split; auto. split; auto. split; auto. split; auto. now apply crashed_app. Qed.
Definition mcut2 (G : Prop) (C : lay -> Prop) f0 L s' : Prop :=
  exists pg' Yc, C Yc /\ mgood Yc /\ layok NP Yc pg' /\ crashed pg' f0 L s' /\ kwfs s' /\ (G -> hqY Yc (f_mem (s_fl s'))).
Lemma mcut2_mcrash (G : Prop) Y f0 L (C : lay -> Prop) (E : err -> st -> Prop) : (forall s', mcut2 G C f0 L s' -> E (EStorage SShutoff) s') -> mcrash G Y f0 L C E.
Proof. intros H s' pg' Yc C1 C2 C3 C4 C5 C6. apply H. exists pg', Yc. auto 10. Qed.
Lemma mcut2_mono (G : Prop) (C C' : lay -> Prop) f0 L L' s' : (forall Y, C Y -> C' Y) -> mcut2 G C f0 L s' -> mcut2 G C' f0 (L ++ L') s'.
Proof. intros H (pg' & Yc & C1 & C2 & C3 & C4 & C5 & C6). exists pg', Yc. split; auto. split; auto. split; auto. split; auto. now apply crashed_app. Qed.
Lemma mcut2_mcut G C f0 L s' : mcut2 G C f0 L s' -> mcut C f0 L s'.
Proof. intros (pg' & Yc & C1 & C2 & C3 & C4 & C5 & _). exists pg', Yc. auto. Qed.
(** A torn erase of the page being filled: the page reads as an open one. *)
Definition jcut Y f0 L s' : Prop :=
  exists pg' f src cl sl, same Y (mklay f (src :: cl) (Some sl) 0 0) /\ mgood (mklay f (src :: cl) (Some sl) 0 0) /\
    lay0 NP f (map PClosed (src :: cl) ++ [PStale sl]) pg' /\ crashed pg' f0 L s' /\ kwfs s'.
Lemma mend_smw Y f0 L s s' : mend Y f0 L s s' -> exists pg', smw Y pg' s'.
Proof.
  intros ((pg' & A & W' & KH & LB) & _). exists pg'. split; auto. split; [eapply world_sworld; eauto|]. split; [eapply kcoh_wf; eauto|]. auto.
Qed.

Lemma wp_store_inner (G : Prop) Y pg k v f0 L s (Q : unit -> st -> Prop) (E : err -> st -> Prop) D : legal k ->
  mstart g ws ae aw KO legal B Y pg f0 L s -> mgood Y -> D = dser KO (length (s_buf s)) k v -> (forall d, D = inl d -> newok d) ->
  (forall s' L' Y', yst NP Y D = (Ok tt, L', Y') -> mend Y' f0 (L ++ L') s s' -> Q tt s') ->
  (forall e s' L' Y', yst NP Y D = (Err e, L', Y') -> mend Y' f0 (L ++ L') s s' -> E e s') ->
  (forall s', mcut2 G (cst Y D) f0 (L ++ snd (fst (yst NP Y D))) s' -> E (EStorage SShutoff) s') ->
  wp (store_inner KO g k v) Q E s.
Proof.
  intros LK M MG ED NW HQ HE HC. unfold store_inner. apply wp_bind. eapply wp_check; [exact M|]. intros s1 M1 F1 FL1 _.
  eapply (wp_store_loop g gok ws ae aw np2 KO legal KC B G k v f0 LK NP Y pg L s1 Q E D); [|exact M1|exact MG|exact NW| | |].
  - rewrite ED. f_equal. symmetry. apply F1.
  - intros s' pg' L' Y' YS M' G' F' _. eapply HQ; [exact YS|]. split; [eauto|]. split; auto. eapply mfr_trans; eauto.
  - intros e s' pg' L' Y' YS M' G' F'. eapply HE; [exact YS|]. split; [eauto|]. split; auto. eapply mfr_trans; eauto.
  - apply mcut2_mcrash. exact HC.
Qed.

Lemma wp_m_store2 (J : Prop) Y pg b k v s D : legal k -> smw Y pg (set_buf s b) -> mgood Y -> D = dser KO (length b) k v -> (forall d, D = inl d -> newok d) ->
  (ae = true \/ f_fuel (s_fl s) = None \/ settled Y) \/ J -> (J -> 8 <= W /\ qtl g B /\ hqY Y (f_mem (s_fl s))) ->
  let O := ysto Y D in
  wp (m_store KO g b k v)
     (fun _ s' => fst (fst O) = Ok tt /\ mend (snd O) (s_fl s) (snd (fst O)) (set_buf s b) s')
     (fun e s' => (fst (fst O) = Err e /\ mend (snd O) (s_fl s) (snd (fst O)) (set_buf s b) s') \/
                  (e = EStorage SShutoff /\ (mcut2 J (cst Y D) (s_fl s) (snd (fst O)) s' \/ (J /\ jcut Y (s_fl s) (snd (fst O)) s')))) s.
Proof.
  intros LK SM MG ED NW TE TJ O. unfold m_store. apply wp_bind. unfold wp at 1, put_buf. set (s0 := set_buf s b) in *. apply wp_auto_repair.
  assert (MS : mstart g ws ae aw KO legal B Y pg (s_fl s) [] s0) by (right; split; [exact SM|split; reflexivity]).
  assert (ND : nocorr D) by (rewrite ED; apply dser_nocorr).
  eapply (wp_store_inner J Y pg k v (s_fl s) [] s0 _ _ D LK MS MG); [exact ED|exact NW| | |].
  - intros s' L' Y' YS ME. unfold O, ysto. rewrite YS. auto.
  - intros e s1 L1 Y1 YS ME. assert (EC : e = ECorrupted \/ e <> ECorrupted) by (destruct e; auto; right; discriminate). destruct EC as [->|NE].
    2:{ assert (O = (Err e, L1, Y1)) as -> by (unfold O, ysto; rewrite YS; destruct e; congruence). destruct e; try congruence; left; auto. }
    destruct ME as ((pg1 & M1) & MG1 & F1). rewrite app_nil_l in M1.
    assert (OE : O = let '(L2, Y2) := yrp Y1 in let '(x, L3, Y3) := yst NP Y2 D in (x, (L1 ++ L2) ++ L3, Y3)) by (unfold O, ysto; rewrite YS; reflexivity).
    assert (S1 : same Y Y1). { pose proof (yst_same NP Y D _ _ _ ltac:(apply MG) YS) as X. exact X. }
    destruct (yrp Y1) as [L2 Y2] eqn:YR. destruct (yst NP Y2 D) as [[x L3] Y3] eqn:YS2.
    destruct (yst_factN _ _ _ _ _ ND YS) as [FA _]. specialize (FA eq_refl).
    assert (HJ : J -> hqY Y1 (f_mem (s_fl s1))).
    { intros JJ. destruct FA as [(-> & P & K0)|(P & K1 & ->)]; [|apply (hqY_nil g B True); auto].
      assert (L1E : L1 = []). { replace NP with (S (NP - 1)) in YS by lia. cbn [MStoreP.yst] in YS. destruct (y_pt Y); [|congruence]. rewrite K0 in YS. cbn [Nat.eqb] in YS. now injection YS. }
      destruct M1 as (_ & (R1 & _) & _). rewrite L1E in R1. cbn [run] in R1. injection R1 as <-. now apply TJ. }
    eapply (wp_m_repair g gok ws ae aw np2 KO legal KC B J Y1 pg1 (s_fl s) L1 s1); [exact M1|exact MG1| |exact HJ| |].
    + destruct TE as [[TE|[TE|TE]]|TE]; auto.
      * left; right; right. destruct FA as [(-> & _ & _)|(P & K1 & _)]; [apply TE|]. destruct TE as [_ TE]. specialize (TE P). lia.
      * right. destruct (TJ TE) as (W8 & QT & _). split; [exact W8|split; [exact QT|split; [auto|]]]. rewrite YR. cbn [fst].
        intros s' pg' src cl sl YE LL CR KW. right. split; auto. right. split; [exact TE|]. rewrite OE. cbn [fst snd]. exists pg', (y_f Y1), src, cl, sl.
        rewrite <- YE. split; [exact S1|]. split; [exact MG1|]. split; [exact LL|]. split; [|exact KW]. now apply crashed_app.
    + rewrite YR. cbn [fst snd]. intros s2 pg2 M2 MG2 S2 F2.
      assert (F02 : mfr s0 s2) by (eapply mfr_trans; eauto).
      eapply (wp_store_inner J Y2 pg2 k v (s_fl s) (L1 ++ L2) s2 _ _ D LK); [left; exact M2|exact MG2| |exact NW| | |].
      * rewrite ED. f_equal. symmetry. apply F02.
      * rewrite YS2. intros s' L' Y' [= -> -> ->] (A1 & A2 & A3). rewrite OE. cbn [fst snd]. split; auto. split; auto. split; auto. eapply mfr_trans; eauto.
      * rewrite YS2. intros e s' L' Y' [= -> -> ->] (A1 & A2 & A3). left. rewrite OE. cbn [fst snd]. split; auto. split; auto. split; auto. eapply mfr_trans; eauto.
      * rewrite YS2. intros s' CC. right. split; auto. left. rewrite OE. cbn [fst snd] in *. rewrite <- (app_nil_r (_ ++ L3)). eapply mcut2_mono; [|exact CC].
        intros Yc C1. eapply cst_same; [|exact C1]. eapply same_trans; eauto.
    + rewrite YR. cbn [fst]. apply mcut2_mcrash. intros s' CC. right. split; auto. left. rewrite OE. cbn [fst snd]. eapply mcut2_mono; [|exact CC].
      intros Yc [C1 _]. left. eapply same_trans; eauto.
  - intros s' CC. cbn [app] in CC. right. split; auto. left. unfold O, ysto. destruct (yst NP Y D) as [[x L1] Y1]. cbn [fst snd] in *.
    assert (X : mcut2 J (cst Y D) (s_fl s) L1 s') by exact CC. destruct x as [[]|e]; [exact X|]. destruct e; try exact X.
    destruct (yrp Y1) as [L2 Y2]. destruct (yst NP Y2 D) as [[x3 L3] Y3]. cbn [fst snd]. rewrite <- app_assoc. eapply mcut2_mono; [|exact X]. auto.
Qed.

Lemma wp_m_store Y pg b k v s D : legal k -> smw Y pg (set_buf s b) -> mgood Y -> D = dser KO (length b) k v -> (forall d, D = inl d -> newok d) ->
  (ae = true \/ f_fuel (s_fl s) = None \/ settled Y) ->
  let O := ysto Y D in
  wp (m_store KO g b k v)
     (fun _ s' => fst (fst O) = Ok tt /\ mend (snd O) (s_fl s) (snd (fst O)) (set_buf s b) s')
     (fun e s' => (fst (fst O) = Err e /\ mend (snd O) (s_fl s) (snd (fst O)) (set_buf s b) s') \/
                  (e = EStorage SShutoff /\ mcut (cst Y D) (s_fl s) (snd (fst O)) s')) s.
Proof.
  intros LK SM MG ED NW TE O. eapply wp_mono; [apply (wp_m_store2 False Y pg b k v s D); eauto; tauto|auto|].
  intros e s' [X|(-> & [X|[[] _]])]; [left; exact X|right; split; auto]. eapply mcut2_mcut; exact X.
Qed.

(** * Fetch *)
Lemma wp_m_fetch Y pg b k s : legal k -> smw Y pg (set_buf s b) -> mgood Y ->
  wp (m_fetch KO g b k)
     (fun r s' => r = value KO k (content Y) /\ exists Y' L', mend Y' (s_fl s) L' (set_buf s b) s' /\ (Y' = Y /\ L' = [] \/ y_bad Y = 1 /\ Y' = yrep Y /\ L' = rops g Y))
     (fun e s' => e = EStorage SShutoff /\ y_bad Y = 1 /\ mcut (fun Yc => Yc = Y \/ Yc = yrep Y) (s_fl s) (rops g Y) s') s.
Proof.
  intros LK SM MG. unfold m_fetch. apply wp_bind. unfold wp at 1, put_buf. set (s0 := set_buf s b) in *. apply wp_bind. apply wp_auto_repair.
  assert (MS : mstart g ws ae aw KO legal B Y pg (s_fl s) [] s0) by (right; split; [exact SM|split; reflexivity]).
  assert (FIN : forall Y1 pg1 L1 s1 r, mgood Y1 -> content Y1 = content Y -> ents Y1 = ents Y -> mw Y1 pg1 (s_fl s) L1 s1 -> mfr s0 s1 -> fres g KO k Y1 r s1 ->
    (Y1 = Y /\ L1 = [] \/ y_bad Y = 1 /\ Y1 = yrep Y /\ L1 = rops g Y) -> forall E : err -> st -> Prop,
    wp match r with
       | None => ret None
       | Some (h, _, okl) =>
           b <- get_buf ;;
           let dl := h_len h in
           if length b <? dl then fail EPanic
           else
             kl <- match okl with Some kl => ret kl | None => ser_lift (k_len KO (firstn dl b)) end ;;
             if dl <? kl then fail EPanic else ret (Some (firstn (dl - kl) (skipn kl b)))
       end
      (fun r s' => r = value KO k (content Y) /\ exists Y' L', mend Y' (s_fl s) L' s0 s' /\ (Y' = Y /\ L' = [] \/ y_bad Y = 1 /\ Y' = yrep Y /\ L' = rops g Y)) E s1).
  { intros Y1 pg1 L1 s1 r MG1 CE EE M1 F1 FR REL E. assert (ME : mend Y1 (s_fl s) L1 s0 s1) by (split; [eauto|auto]).
    assert (VE : value KO k (content Y) = option_map (dval KO) (option_map snd (newest k (ents Y1)))).
    { unfold value. now rewrite newest_lastd, ents_data, CE. }
    unfold fres in FR. destruct (newest k (ents Y1)) as [[a d]|] eqn:NE.
    - destruct FR as (okl & -> & OKL & FN & LD). unfold get_buf. eapply wp_ok; [reflexivity|]. cbv beta zeta.
      assert (GD : good d). { destruct MG1 as (_ & (_ & GG & _) & _). rewrite Forall_forall in GG. apply GG. rewrite <- (ents_data g). apply newest_in in NE. destruct NE as [IN _]. now apply (in_map snd) in IN. }
      destruct (good_de KO legal KC d GD) as (k0 & _ & _ & KL & DE). destruct (DE []) as [_ DL]. rewrite app_nil_r in DL.
      cbn [ihdr h_len]. destruct (Nat.ltb_spec (length (s_buf s1)) (length d)); [lia|].
      assert (KV : wp match okl with Some kl => ret kl | None => ser_lift (k_len KO (firstn (length d) (s_buf s1))) end (fun kl s' => kl = dklen KO d /\ s' = s1) E s1).
      { destruct OKL as [->| ->]; [rewrite FN, DL|]; apply wp_ret; auto. }
      apply wp_bind. eapply wp_mono; [exact KV| |auto]. intros kl s2 [-> ->]. destruct (Nat.ltb_spec (length d) (dklen KO d)); [lia|].
      apply wp_ret. split; [|eauto]. rewrite VE. cbn [option_map snd]. f_equal. unfold dval. rewrite <- skipn_firstn_comm. now rewrite FN.
    - subst r. apply wp_ret. split; [|eauto]. rewrite VE. reflexivity. }
  apply (wp_fetch_loc g gok ws ae aw KO legal KC B Y pg (s_fl s) [] k s0); [exact MS|apply MG|apply MG|exact LK| |].
  - intros s1 r M1 F1 FL1 FR. eapply (FIN Y pg []); eauto.
  - intros s1 BD M1 F1 FL1. eapply (wp_m_repair g gok ws ae aw np2 KO legal KC B False Y pg (s_fl s) [] s1); [exact M1|exact MG|left; right; right; unfold nomig; lia|tauto| |].
    + assert (YR : yrp Y = (rops g Y, yrep Y)) by (unfold MStoreP.yrp; rewrite BD; reflexivity). rewrite YR. cbn [fst snd app].
      intros s2 pg2 M2 MG2 _ F2. eapply (wp_fetch_loc g gok ws ae aw KO legal KC B (yrep Y) pg2 (s_fl s) (rops g Y) k s2); [left; exact M2|apply MG2|apply MG2|exact LK| |].
      * intros s3 r M3 F3 FL3 FR. eapply (FIN (yrep Y) pg2 (rops g Y)); eauto. eapply mfr_trans; [exact F1|]. eapply mfr_trans; eauto.
      * intros s3 X. discriminate X.
    + assert (YR : yrp Y = (rops g Y, yrep Y)) by (unfold MStoreP.yrp; rewrite BD; reflexivity). rewrite YR. cbn [fst app].
      apply mcut_mcrash. intros s' (pg' & Yc & [C1 C1'] & C2). split; auto. split; auto. exists pg', Yc. split; auto.
Qed.
End Call.
