(** Map layouts whose youngest page was being filled when an erase of that page was torn: what the calls do on them. *)
From Coq Require Import List NArith ZArith Arith Bool Lia ZifyBool ZifyNat ZifyN.
From Verif Require Import Base BaseP Crc CrcP Flash Cache State Item Generic Map Codec CodecP GeomP ScanP WpP ItemP CalcP PageP TornSpec TornP WorldP LayP QPushP QRepP KeyP MLogP MFetchP MMigP MStoreP MCallP.
Import ListNotations.
Local Opaque crc16 acrc crc32.

Section Junk.
Context (g : geom) (gok : geom_ok g) (ws ae : bool) (aw : nat) (np2 : 2 <= NP g).
Context {K : Type} (KO : keyops K) (legal : K -> Prop) (KC : key_codec KO legal) (B : lim).
Notation W := (W g).
Notation HL := (HL g).
Notation rup := (rup g).
Notation NP := (NP g).
Notation st := (st K).
Implicit Types (s : st) (pg : nat -> page) (Y : lay).
Notation world := (world g ws ae aw).
Notation crashed := (crashed g ws ae aw).
Notation sworld := (sworld g ws ae aw).
Notation newest := (newest KO).
Notation lastd := (lastd KO).
Notation ents := (ents g).
Notation good := (good KO legal).
Notation mok := (mok g ws aw KO legal B).
Notation mw := (mw g ws ae aw KO legal B).
Notation r_mw := (r_mw g ws ae aw KO legal B).
Notation r_smw := (r_smw g ws ae aw KO legal B).
Notation rlay := (rlay g).
Notation mgood := (mgood g ws aw KO legal B).
Notation same := (same KO legal).
Notation kcoh := (kcoh KO legal).
Notation ymig := (ymig g KO).
Notation migops := (migops g KO).
Notation yst := (yst g KO).
Notation hqY := (hqY g B).
Notation newok := (newok g ws aw B).
Notation cst := (cst KO legal).
Notation mend := (mend g ws ae aw KO legal B).
Notation mcut2 := (mcut2 g ws ae aw KO legal B).

(** * Layouts *)
Definition jpage (X : list slot) (P : page) : Prop := P = PStale X \/ exists sl, P = PJunk X sl.
Definition jl f C (P : page) : lay := match P with PJunk _ sl => mklay f C (Some sl) 0 0 | _ => mklay f C None 1 0 end.
(** The layout before the erase. *)
Definition jbase f C (X : list slot) : lay := mklay f C (Some X) 0 0.
Definition jlay f C (P : page) pg : Prop := lay0 NP f (map PClosed C ++ [P]) pg.

Lemma jlay_len f C P pg : jlay f C P pg -> f < NP /\ S (length C) = NP.
Proof. intros (A & L & _). rewrite app_length, map_length in L. cbn [length] in L. split; [exact A|lia]. Qed.
Lemma jlay_at f C P pg : jlay f C P pg -> pg ((f + length C) mod NP) = P.
Proof. intros L. apply lay0_at in L. rewrite map_length in L. exact L. Qed.
Lemma jlay_upd f C P P' pg : jlay f C P pg -> jlay f C P' (upd pg ((f + length C) mod NP) P').
Proof. intros L. unfold jlay in *. rewrite <- (map_length PClosed C). apply lay0_upd_app with (x := P); auto. apply npos; auto. Qed.
Lemma jlay_rlay f C X P pg : jlay f C P pg -> jpage X P -> rlay (jl f C P) pg.
Proof.
  intros L JP. pose proof (npos g gok) as N1.
  set (P0 := match P with PJunk _ sl => PPart sl | _ => POpen end). set (p := (f + length C) mod NP).
  assert (LY : layok NP (jl f C P) (upd pg p P0)).
  { split; [|destruct JP as [->|(sl & ->)]; cbn; lia]. pose proof (jlay_upd f C P P0 pg L) as X0. unfold jlay in X0. fold p in X0.
    destruct JP as [->|(sl & ->)]; cbn [jl P0] in *; unfold pages; cbn [y_f y_cl y_pt ptl map y_k y_bad repeat app] in *; exact X0. }
  pose proof (jlay_at _ _ _ _ L) as PA. fold p in PA.
  assert (SO : forall q, st_of (upd pg p P0 q) = st_of (pg q)).
  { intros q. unfold upd. destruct (Nat.eqb_spec q p) as [->|N]; auto. rewrite PA. destruct JP as [->|(sl & ->)]; reflexivity. }
  destruct (layok_rlay g gok _ _ LY) as [R U]. split.
  - destruct R as (R1 & R2 & R3 & R4 & R5). repeat split; auto. intros q Hq. rewrite <- (R5 q Hq). symmetry. apply SO.
  - intros i Hi. destruct (U i Hi) as [U1 U2]. set (q := (y_f (jl f C P) + i) mod NP) in *. unfold upd in U1, U2. destruct (Nat.eqb_spec q p) as [EQ|N]; auto.
    rewrite EQ, PA. destruct JP as [->|(sl & ->)]; cbn [P0 readable] in U1; [contradiction|]. split; [exact I|exact U2].
Qed.
Lemma jlay_ring f C X P pg : jlay f C P pg -> jpage X P -> ring_ex g pg.
Proof. intros L J. eapply rring. eapply jlay_rlay; eauto. Qed.

Lemma jslots_at f C X sl pg fl : jlay f C (PJunk X sl) pg -> fworld g ws ae aw pg fl -> jslots g X sl.
Proof.
  intros L FW. pose proof (jlay_len _ _ _ _ L) as [Hf LC]. pose proof (jlay_at _ _ _ _ L) as PA. pose proof (proj1 (proj2 FW) ((f + length C) mod NP) ltac:(apply Nat.mod_upper_bound; lia)) as PI.
  rewrite PA in PI. apply PI.
Qed.
Lemma in_live d l : In d (live_of l) <-> In (SLive d) l.
Proof.
  unfold live_of. rewrite in_flat_map. split.
  - intros (x & I & J). destruct x; cbn [In] in J; try contradiction. destruct J as [->|[]]. exact I.
  - intros I. exists (SLive d). split; auto. now left.
Qed.
Lemma live_incl X sl : jslots g X sl -> incl (live_of sl) (live_of X).
Proof. intros (_ & H & _) d I. apply in_live. apply H. now apply in_live. Qed.

Lemma jl_good f src cl X P pg fl : jlay f (src :: cl) P pg -> jpage X P -> fworld g ws ae aw pg fl -> mgood (jbase f (src :: cl) X) ->
  minv (jl f (src :: cl) P) /\ mok (jl f (src :: cl) P) /\ same (jbase f (src :: cl) X) (jl f (src :: cl) P) /\ mgood (mklay f (src :: cl) None 1 0) /\
  same (jbase f (src :: cl) X) (mklay f (src :: cl) None 1 0) /\ y_bad (jl f (src :: cl) P) = 0.
Proof.
  intros L JP FW (MI & OK & CP). specialize (CP eq_refl eq_refl). unfold jbase in *. unfold y_sl in CP. cbn [y_cl y_pt] in CP. set (C := src :: cl) in *.
  apply (proj1 (mok_l g ws aw KO legal B _)) in OK. unfold uslots in OK. cbn [y_cl y_pt ptl] in OK. apply mokl_app in OK. destruct OK as [OK1 OK2].
  assert (ON : mok (mklay f C None 1 0)) by (apply (proj2 (mok_l g ws aw KO legal B _)); unfold uslots; cbn [y_cl y_pt ptl]; now rewrite app_nil_r).
  assert (MN : minv (mklay f C None 1 0)) by (unfold minv; cbn [y_f y_k y_bad y_pt]; repeat split; try discriminate; lia).
  assert (GX : Forall good (live_of X)) by (destruct OK2 as (_ & GG & _); cbn [flat_map] in GG; now rewrite app_nil_r in GG).
  assert (SN : same (mklay f C (Some X) 0 0) (mklay f C None 1 0)).
  { intros k' LK'. rewrite !content_app. change (live_of []) with (@nil (list N)). rewrite app_nil_r. apply (copies_last KO legal KC); auto. }
  assert (GN : mgood (mklay f C None 1 0)) by (split; [exact MN|split; [exact ON|intros X0; discriminate X0]]).
  destruct JP as [->|(sl & ->)]; cbn [jl].
  { auto 10. }
  pose proof (jslots_at _ _ _ _ _ _ L FW) as JS. pose proof (live_incl _ _ JS) as IN.
  split; [unfold minv; cbn [y_f y_k y_bad y_pt]; repeat split; try discriminate; try lia|]. split; [|split; [|auto]].
  - apply (proj2 (mok_l g ws aw KO legal B _)). unfold uslots. cbn [y_cl y_pt ptl]. apply mokl_app. split; auto. destruct OK2 as (FB & GG & TT).
    cbn [flat_map] in GG, TT. rewrite app_nil_r in GG, TT. split; [|split].
    + inversion FB; subst. constructor; auto. now apply JS.
    + cbn [flat_map]. rewrite app_nil_r. eapply incl_Forall; eauto.
    + cbn [flat_map]. rewrite app_nil_r. eapply incl_Forall; eauto.
  - intros k' LK'. rewrite (SN k' LK'). rewrite !content_app. change (live_of []) with (@nil (list N)). rewrite app_nil_r. symmetry.
    apply (copies_last KO legal KC); auto; [eapply incl_Forall; eauto|]. unfold copies in *. eapply incl_Forall; eauto.
Qed.

(** * Fetch *)
Lemma wp_j_fetch Y pg b k s : legal k -> r_smw Y pg (set_buf s b) -> mok Y -> minv Y -> y_bad Y = 0 ->
  wp (m_fetch KO g b k) (fun r s' => r = value KO k (content Y) /\ r_mw Y pg (s_fl s) [] s' /\ mfr (set_buf s b) s') (fun _ _ => False) s.
Proof.
  intros LK SM OK MI BD. unfold m_fetch. apply wp_bind. unfold wp at 1, put_buf. set (s0 := set_buf s b) in *. apply wp_bind. apply wp_auto_repair.
  assert (MS : r_mstart g ws ae aw KO legal B Y pg (s_fl s) [] s0) by (right; split; [exact SM|split; reflexivity]).
  apply (r_wp_fetch_loc g gok ws ae aw KO legal KC B Y pg (s_fl s) [] k s0); auto; [|intros; lia].
  intros s1 r M1 F1 FL1 FR.
  assert (VE : value KO k (content Y) = option_map (dval KO) (option_map snd (newest k (ents Y)))) by (unfold value; now rewrite newest_lastd, ents_data).
  unfold fres in FR. destruct (newest k (ents Y)) as [[a d]|] eqn:NE.
  - destruct FR as (okl & -> & OKL & FN & LD). unfold get_buf. eapply wp_ok; [reflexivity|]. cbv beta zeta.
    assert (GD : good d). { destruct OK as (_ & GG & _). rewrite Forall_forall in GG. apply GG. rewrite <- (ents_data g). apply newest_in in NE. destruct NE as [IN _]. now apply (in_map snd) in IN. }
    destruct (good_de KO legal KC d GD) as (k0 & _ & _ & KL & DE). destruct (DE []) as [_ DL]. rewrite app_nil_r in DL.
    cbn [ihdr h_len]. destruct (Nat.ltb_spec (length (s_buf s1)) (length d)); [lia|].
    assert (KV : wp match okl with Some kl => ret kl | None => ser_lift (k_len KO (firstn (length d) (s_buf s1))) end (fun kl s' => kl = dklen KO d /\ s' = s1) (fun _ _ => False) s1).
    { destruct OKL as [->| ->]; [rewrite FN, DL|]; apply wp_ret; auto. }
    apply wp_bind. eapply wp_mono; [exact KV| |auto]. intros kl s2 [-> ->]. destruct (Nat.ltb_spec (length d) (dklen KO d)); [lia|].
    apply wp_ret. split; [|auto]. rewrite VE. cbn [option_map snd]. f_equal. unfold dval. rewrite <- skipn_firstn_comm. now rewrite FN.
  - subst r. apply wp_ret. split; [|auto]. rewrite VE. reflexivity.
Qed.

(** * Repair and store *)
Context (W8 : 8 <= W) (QT : qtl g B).
(** Cut again: the page is still such a page, with the items it had before the first erase. *)
Definition jcut3 Y f0 L s' : Prop :=
  exists pg' f src cl X P, same Y (jbase f (src :: cl) X) /\ mgood (jbase f (src :: cl) X) /\ jlay f (src :: cl) P pg' /\ jpage X P /\ crashed pg' f0 L s' /\ kwfs s'.
Definition jkill Y f0 s' : Prop := exists L, mcut2 True (same Y) f0 L s' \/ jcut3 Y f0 L s'.

Lemma rep_ops_nobad l : forall pg, (forall p, In p l -> isbad (pg p) = false) -> rep_ops pg l = [].
Proof.
  induction l as [|p l IH]; intros pg H; cbn [rep_ops]; auto. rewrite H by now left. cbn [app]. apply IH. intros q I. unfold upd. destruct (Nat.eqb_spec q p) as [->|]; [|apply H; now right].
  specialize (H p (or_introl eq_refl)). destruct (pg p); auto.
Qed.

Lemma lay0_nobad f C X P pg q : jlay f C P pg -> jpage X P -> q < NP -> isbad (pg q) = false.
Proof.
  intros L JP Hq. rewrite (lay0_pos NP f _ pg q (npos g gok) L Hq). set (i := pos NP f q).
  destruct (nth_in_or_default i (map PClosed C ++ [P]) POpen) as [I| ->]; [|reflexivity].
  apply in_app_or in I. destruct I as [I|[<-|[]]]; [|destruct JP as [->|(sl & ->)]; reflexivity].
  apply in_map_iff in I. destruct I as (x & <- & _). reflexivity.
Qed.

Lemma wp_j_repair f src cl X sl pg f0 L s (Q : unit -> st -> Prop) (E : err -> st -> Prop) :
  let Y0 := jbase f (src :: cl) X in
  jlay f (src :: cl) (PJunk X sl) pg -> world pg f0 L s -> kwf (c_kp (s_ca s)) -> B <= length (s_buf s) -> mgood Y0 ->
  (forall s' pg' L', mw (ymig f src cl) pg' f0 L' s' -> mgood (ymig f src cl) -> same Y0 (ymig f src cl) -> mfr s s' -> Q tt s') ->
  (forall s', jkill Y0 f0 s' -> E (EStorage SShutoff) s') ->
  wp (m_repair KO g) Q E s.
Proof.
  intros Y0 JL Wd KW LB MG HQ HC. unfold m_repair. assert (JP : jpage X (PJunk X sl)) by (right; eauto).
  apply wp_bind. unfold wp at 1, c_inval. set (s1 := set_ca s _) in *.
  assert (W1 : world pg f0 L s1). { destruct Wd as (R & FW & CO). split; [exact R|split; [exact FW|]]. cbn. apply coh_inval. now apply coh_wf in CO. }
  assert (KA : forall es, kcoh es (c_kp (s_ca s1))) by (intros es; cbn; now apply kwf_inval).
  assert (F01 : mfr s s1) by (repeat split).
  apply wp_bind. apply wp_kpk; [apply kpk_repair_in|].
  assert (RN : rep_ops pg (get_pages g 0) = []).
  { apply rep_ops_nobad. intros q I. eapply lay0_nobad; eauto. pose proof (get_pages_lt g gok 0) as GL. rewrite Forall_forall in GL. auto. }
  unfold general_repair. apply (wp_general_repair_in g gok ws ae aw (get_pages g 0) pg f0 L); auto.
  { apply get_pages_lt; auto. }
  { cbn. destruct (c_ps (s_ca s)); cbn; auto. reflexivity. }
  2:{ intros s' pg' _ NE. congruence. }
  rewrite RN, app_nil_r. set (pg1 := rep_in pg (get_pages g 0)). intros s2 W2 _ F2 KE2.
  assert (JL1 : jlay f (src :: cl) (PJunk X sl) pg1).
  { eapply lay0_ext; [|exact JL]. intros q Hq. unfold pg1. rewrite rep_in_eq. pose proof (lay0_nobad _ _ _ _ _ _ JL JP Hq) as NB. destruct (existsb _ _); auto. destruct (pg q); auto. discriminate. }
  clearbody pg1. clear JL. pose proof (jlay_len _ _ _ _ JL1) as [Hf LC]. cbn [length] in LC.
  assert (FW2 : fworld g ws ae aw pg1 (s_fl s2)) by apply W2.
  destruct (jl_good f src cl X (PJunk X sl) pg1 _ JL1 JP FW2 MG) as (MI & OK & SJ & MG2 & S2 & BZ). cbn [jl] in MI, OK, SJ.
  pose proof (jlay_rlay _ _ _ _ _ JL1 JP) as RL. pose proof (jlay_ring _ _ _ _ _ JL1 JP) as RE. cbn [jl] in RL.
  pose proof (r_ffP g gok B _ _ RL MI) as FP. cbn [y_pt y_f y_c y_cl length] in FP.
  set (p := (f + S (length cl)) mod NP) in *. assert (Hp : p < NP) by (apply Nat.mod_upper_bound; lia).
  apply wp_bind. eapply wp_find_first; [exact gok|exact W2|exact RE| |].
  2:{ intros s3 FN. destruct FP as [FP|[_ FP]]; [congruence|discriminate FP]. }
  intros s3 lp FN W3 F3 FL3 _ KN3. destruct FP as [FP|[_ FP]]; [|discriminate FP]. change ((f + y_c (mklay f (src :: cl) (Some sl) 0 0)) mod NP) with p in FP. rewrite FP in FN. injection FN as <-. specialize (KN3 eq_refl _ eq_refl).
  assert (NX : next_page g p = f).
  { unfold p. rewrite next_of by auto. replace (f + S (S (length cl))) with (f + 1 * NP) by lia. rewrite Nat.mod_add by lia. apply Nat.mod_small. lia. }
  rewrite NX. apply wp_bind.
  assert (PF : st_of (pg1 f) = Some Closed).
  { pose proof (r_page_st_at g gok _ _ 0 RL ltac:(lia)) as X0. cbn [y_f] in X0. rewrite Nat.add_0_r, Nat.mod_small in X0 by lia. rewrite X0. reflexivity. }
  eapply wp_psc; [exact gok|exact W3|lia|exact RE| |].
  2:{ rewrite PF. discriminate. }
  intros s4 x ST W4 F4 OB FL4. rewrite PF in ST. injection ST as <-. cbn [pstate_eqb].
  assert (KN4 : kn s4 p PartialOpen) by (apply OB; auto).
  pose proof (jlay_at _ _ _ _ JL1) as PG. change ((f + length (src :: cl)) mod NP) with p in PG.
  destruct (notice_T5 g gok pg1 (c_ps (s_ca s4)) f (S (length cl)) 0 p) as (ps' & N1 & N2 & _).
  { destruct W4 as (_ & _ & C4 & _). exact C4. }
  { apply RL. }
  { exact Hp. }
  { now rewrite PG. }
  { exact KN4. }
  assert (F04 : mfr s s4) by (eapply mfr_trans; [exact F01|]; eapply mfr_trans; [apply fr_mfr; exact F2|]; eapply mfr_trans; [apply fr_mfr; exact F3|apply fr_mfr; exact F4]).
  assert (KA4 : forall es, kcoh es (c_kp (s_ca s4))).
  { intros es. destruct F3 as (_ & _ & _ & E3), F4 as (_ & _ & _ & E4). rewrite E4, E3, KE2. apply KA. }
  apply wp_bind. apply wp_kpk; [apply kpk_open|].
  eapply (wp_open_page0 g gok ws ae aw p ps' pg1 f0 L); [exact W4|exact Hp|exact N1|exact N2| | |].
  - right. right. rewrite PG. exact I.
  - intros s5 W5 F5 _ KE5.
    assert (M5 : mw (mklay f (src :: cl) None 1 0) (upd pg1 p POpen) f0 (L ++ [DE p]) s5).
    { split; [|split; [exact W5|split; [rewrite KE5; apply KA4|]]].
      - split; [|cbn; lia]. pose proof (jlay_upd _ _ _ POpen _ JL1) as X0. unfold pages. cbn [y_f y_cl y_pt ptl map y_k y_bad repeat app]. exact X0.
      - destruct F04 as (_ & _ & B4). destruct F5 as (B5 & _). rewrite B5, B4. exact LB. }
    apply (wp_m_tail g gok ws ae aw np2 KO legal KC B f src cl (upd pg1 p POpen) f0 (L ++ [DE p]) s5); [exact M5|exact MG2| |].
    + intros s6 pg6 M6 MG6 F6. eapply HQ; [exact M6|exact MG6| |].
      * eapply same_trans; [exact S2|]. apply same_trans with (Y2 := mklay f (src :: cl) (Some []) 0 0); [intros k' LK'; now rewrite !content_app|].
        apply (ymig_same g KO legal KC); [|reflexivity]. destruct MG2 as (_ & (_ & GG & _) & _). rewrite content_app in GG. apply Forall_app in GG. destruct GG as [GG _]. cbn [flat_map] in GG. now apply Forall_app in GG.
      * eapply mfr_trans; [exact F04|]. eapply mfr_trans; [apply fr_mfr; exact F5|exact F6].
    + intros s6 pg6 Yc C1 C2 C3 C4 C5 C6. apply HC. eexists. left. exists pg6, Yc. split; [eapply same_trans; [exact S2|exact C1]|]. split; [exact C2|]. split; [exact C3|]. split; [exact C4|]. split; [exact C5|auto].
  - intros s5 x TP CR KE5. assert (KW5 : kwfs s5) by (unfold kwfs; rewrite KE5; eapply kcoh_wf; apply (KA4 [])).
    apply HC. eexists. right. exists (upd pg1 p x), f, src, cl, X, x. split; [apply same_refl|]. split; [exact MG|].
    assert (JX : jpage X x).
    { rewrite PG in TP. destruct TP as [->|TP]; [exact JP|]. cbn in TP. left. exact TP. }
    split; [exact (jlay_upd _ _ _ x _ JL1)|]. split; [exact JX|]. split; [exact CR|exact KW5].
Qed.

Definition yjst f src cl (D : list N + err) := yst NP (ymig f src cl) D.
Lemma wp_j_store f src cl X P pg b k v s D : legal k -> jlay f (src :: cl) P pg -> jpage X P -> r_smw (jl f (src :: cl) P) pg (set_buf s b) ->
  mgood (jbase f (src :: cl) X) -> D = dser KO (length b) k v -> (forall d, D = inl d -> newok d) ->
  let O := yjst f src cl D in
  wp (m_store KO g b k v)
     (fun _ s' => fst (fst O) = Ok tt /\ exists L, mend (snd O) (s_fl s) L (set_buf s b) s')
     (fun e s' => (fst (fst O) = Err e /\ exists L, mend (snd O) (s_fl s) L (set_buf s b) s') \/
                  (e = EStorage SShutoff /\ exists L, mcut2 True (cst (jbase f (src :: cl) X) D) (s_fl s) L s' \/ jcut3 (jbase f (src :: cl) X) (s_fl s) L s')) s.
Proof.
  intros LK JL JP SM MG ED NW O. set (Y0 := jbase f (src :: cl) X) in *. set (C := src :: cl) in *.
  unfold m_store. apply wp_bind. unfold wp at 1, put_buf. set (s0 := set_buf s b) in *. apply wp_auto_repair.
  pose proof (jlay_len _ _ _ _ JL) as [Hf LC]. set (p := (f + length C) mod NP) in *. assert (Hp : p < NP) by (apply Nat.mod_upper_bound; lia).
  assert (CC : 1 <= length C) by (cbn; lia).
  unfold store_inner at 1. apply wp_bind. apply (r_wp_check_smw g ws ae aw KO legal B (jl f C P) pg); [exact SM|]. intros s1 (RL & W1 & KH1 & LB1) F1 FL1 _.
  change (s_fl s0) with (s_fl s) in W1. assert (KW1 : kwf (c_kp (s_ca s1))) by (eapply kcoh_wf; eauto).
  assert (HB : forall r L s2 pg2 sl (Q : unit -> st -> Prop) (E : err -> st -> Prop), jlay f C (PJunk X sl) pg2 -> world pg2 (s_fl s) L s2 -> kwf (c_kp (s_ca s2)) ->
     (forall s3, world pg2 (s_fl s) L s3 -> kwf (c_kp (s_ca s3)) -> mfr s2 s3 -> E ECorrupted s3) -> wp (store_loop KO g (S r) k v) Q E s2).
  { intros r L s2 pg2 sl Q E JL2 W2 KW2 HE. assert (JP2 : jpage X (PJunk X sl)) by (right; eauto). cbn [store_loop].
    destruct (jl_good f src cl X _ pg2 _ JL2 JP2 (proj1 (proj2 W2)) MG) as (MI & OK & _). pose proof (jlay_rlay _ _ _ _ _ JL2 JP2) as RL2. pose proof (jlay_ring _ _ _ _ _ JL2 JP2) as RE2.
    cbn [jl] in MI, OK, RL2. pose proof (r_ffP g gok B _ _ RL2 MI) as FP. cbn [y_pt] in FP. change ((y_f (mklay f C (Some sl) 0 0) + y_c (mklay f C (Some sl) 0 0)) mod NP) with p in FP.
    apply wp_bind. eapply wp_find_first; [exact gok|exact W2|exact RE2| |].
    2:{ intros s3 FN. destruct FP as [FP|[_ FP]]; [congruence|discriminate FP]. }
    intros s3 lp FN W3 F3 FL3 _ _. destruct FP as [FP|[_ FP]]; [|discriminate FP]. rewrite FP in FN. injection FN as <-.
    assert (NX : next_page g p = f).
    { unfold p. rewrite next_of by auto. replace (f + S (length C)) with (f + 1 * NP) by lia. rewrite Nat.mod_add by lia. apply Nat.mod_small. lia. }
    rewrite NX. apply wp_bind. apply wp_bind.
    assert (PF : st_of (pg2 f) = Some Closed).
    { pose proof (r_page_st_at g gok _ _ 0 RL2 ltac:(lia)) as X0. cbn [y_f] in X0. rewrite Nat.add_0_r, Nat.mod_small in X0 by lia. rewrite X0. reflexivity. }
    eapply wp_psc; [exact gok|exact W3|lia|exact RE2| |].
    2:{ rewrite PF. discriminate. }
    intros s4 x ST W4 F4 _ _. rewrite PF in ST. injection ST as <-. cbn [pstate_eqb negb]. unfold wp, fail. apply HE; [exact W4| |].
    - destruct F3 as (_ & _ & _ & E3), F4 as (_ & _ & _ & E4). now rewrite E4, E3.
    - eapply mfr_trans; apply fr_mfr; eassumption. }
  (* what follows when a half filled page is found *)
  assert (HR : forall L s2 pg2 sl, jlay f C (PJunk X sl) pg2 -> world pg2 (s_fl s) L s2 -> kwf (c_kp (s_ca s2)) -> mfr s0 s2 ->
    wp (m_repair KO g) (fun _ s'' => wp (store_inner KO g k v)
      (fun _ s' => fst (fst O) = Ok tt /\ exists L, mend (snd O) (s_fl s) L s0 s')
      (fun e s' => (fst (fst O) = Err e /\ exists L, mend (snd O) (s_fl s) L s0 s') \/
                  (e = EStorage SShutoff /\ exists L, mcut2 True (cst Y0 D) (s_fl s) L s' \/ jcut3 Y0 (s_fl s) L s')) s'')
      (fun e s' => (fst (fst O) = Err e /\ exists L, mend (snd O) (s_fl s) L s0 s') \/
                  (e = EStorage SShutoff /\ exists L, mcut2 True (cst Y0 D) (s_fl s) L s' \/ jcut3 Y0 (s_fl s) L s')) s2).
  { intros L s2 pg2 sl JL2 W2 KW2 F2. assert (LB2 : B <= length (s_buf s2)). { destruct SM as (_ & _ & _ & _ & LB). destruct F2 as (_ & _ & ->). exact LB. }
    apply (wp_j_repair f src cl X sl pg2 (s_fl s) L s2); auto.
    - intros s3 pg3 L3 M3 MG3 S3 F3. assert (F03 : mfr s0 s3) by (eapply mfr_trans; eauto).
      eapply (wp_store_inner g gok ws ae aw np2 KO legal KC B True (ymig f src cl) pg3 k v (s_fl s) L3 s3 _ _ D LK); [left; exact M3|exact MG3| |exact NW| | |].
      + rewrite ED. f_equal. symmetry. apply F03.
      + intros s' L' Y' YS (A1 & A2 & A3). unfold O, yjst. rewrite YS. cbn [fst snd]. split; auto. exists (L3 ++ L'). split; auto. split; auto. eapply mfr_trans; eauto.
      + intros e s' L' Y' YS (A1 & A2 & A3). left. unfold O, yjst. rewrite YS. cbn [fst snd]. split; auto. exists (L3 ++ L'). split; auto. split; auto. eapply mfr_trans; eauto.
      + intros s' CC'. right. split; auto. exists ((L3 ++ snd (fst (yst NP (ymig f src cl) D))) ++ []). left. eapply mcut2_mono; [|exact CC']. intros Yc C1. eapply cst_same; eauto.
    - intros s' (L' & [CC'|CC']); right; split; auto; exists L'; [left|right; exact CC'].
      rewrite <- (app_nil_r L'). eapply mcut2_mono; [|exact CC']. intros Yc C1. now left. }
  destruct JP as [->|(sl & ->)].
  - (* the page looks open: it is marked first *)
    assert (JP : jpage X (PStale X)) by now left. cbn [jl] in *. replace NP with (S (S (NP - 2))) at 1 by lia. remember (S (NP - 2)) as r1. cbn [store_loop].
    destruct (jl_good f src cl X _ pg _ JL JP (proj1 (proj2 W1)) MG) as (MI & OK & _). cbn [jl] in MI, OK. pose proof (jlay_ring _ _ _ _ _ JL JP) as RE.
    pose proof (r_ffP g gok B _ _ RL MI) as FP. cbn [y_pt] in FP. pose proof (r_ffO g gok B _ _ RL MI eq_refl) as FO. change ((y_f (mklay f C None 1 0) + y_c (mklay f C None 1 0)) mod NP) with p in FO.
    apply wp_bind. eapply wp_find_first; [exact gok|exact W1|exact RE| |].
    2:{ intros s3 FN. congruence. }
    intros s2 lp FN W2 F2 FL2 _ _. rewrite FP in FN. injection FN as <-. apply wp_bind. apply wp_ret. cbv beta iota.
    apply wp_bind. eapply wp_find_first; [exact gok|exact W2|exact RE| |].
    2:{ intros s3 FN. congruence. }
    intros s3 lp FN W3 F3 FL3 _ _. rewrite FO in FN. injection FN as <-. cbv beta iota. apply wp_bind. apply wp_kpk; [apply kpk_partial|].
    assert (F03 : mfr s0 s3) by (eapply mfr_trans; [exact F1|]; eapply mfr_trans; apply fr_mfr; eassumption).
    assert (KW3 : kwf (c_kp (s_ca s3))). { destruct F2 as (_ & _ & _ & E2), F3 as (_ & _ & _ & E3). now rewrite E3, E2. }
    pose proof (jlay_at _ _ _ _ JL) as PG. fold p in PG.
    eapply (wp_partial_close_any g gok ws ae aw p f (length C) 0 0 pg (s_fl s) []); [exact W3|exact (proj1 RL)|left; lia|exact Hp| |now rewrite PG| |].
    + unfold p. apply pos_of; lia.
    + intros s4 x ST W4 F4 _ KE4. rewrite PG in ST. destruct ST as (sl & ->). subst r1.
      assert (JL4 : jlay f C (PJunk X sl) (upd pg p (PJunk X sl))) by exact (jlay_upd _ _ _ _ _ JL).
      assert (F04 : mfr s0 s4) by (eapply mfr_trans; [exact F03|apply fr_mfr; exact F4]).
      eapply HB; [exact JL4|exact W4|now rewrite KE4|]. intros s5 W5 KW5 F5. eapply HR; [exact JL4|exact W5|exact KW5|eapply mfr_trans; eauto].
    + intros s4 x ST CR KE4. right. split; auto. eexists. right. exists (upd pg p x), f, src, cl, X, x. split; [apply same_refl|]. split; [exact MG|]. split; [exact (jlay_upd _ _ _ x _ JL)|].
      split; [|split; [exact CR|unfold kwfs; now rewrite KE4]]. rewrite PG in ST. destruct ST as [->|(sl & ->)]; [now left|right; eauto].
  - replace NP with (S (NP - 1)) at 1 by lia. eapply HB; [exact JL|exact W1|exact KW1|]. intros s5 W5 KW5 F5. eapply HR; [exact JL|exact W5|exact KW5|eapply mfr_trans; eauto].
Qed.
End Junk.
