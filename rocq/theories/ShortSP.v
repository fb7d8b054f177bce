(** A store that stops before it writes its item leaves the contents as they were. *)
From Coq Require Import List NArith ZArith Arith Bool Lia ZifyBool ZifyNat ZifyN.
From Verif Require Import Base BaseP Crc CrcP Flash Cache State Item Generic Map Codec CodecP GeomP ScanP WpP ItemP CalcP PageP TornSpec TornP WorldP LayP QPushP QRepP KeyP MLogP MFetchP MMigP MStoreP MCallP ShortP.
Import ListNotations.
Local Opaque crc16 acrc crc32.

Section Stop.
Context (g : geom) (gok : geom_ok g) (ws ae : bool) (aw : nat) (np2 : 2 <= NP g).
Context {K : Type} (KO : keyops K) (legal : K -> Prop) (KC : key_codec KO legal) (B : lim).
Notation W := (W g).
Notation HL := (HL g).
Notation rup := (rup g).
Notation NP := (NP g).
Notation st := (st K).
Implicit Types (s : st) (pg : nat -> page) (Y : lay).
Notation world := (world g ws ae aw).
Notation crashed := (crashed g ws ae aw).
Notation sworld := (sworld g ws ae aw).
Notation newest := (newest KO).
Notation lastd := (lastd KO).
Notation ents := (ents g).
Notation good := (good KO legal).
Notation tearok := (tearok g ws aw B).
Notation mok := (mok g ws aw KO legal B).
Notation mw := (mw g ws ae aw KO legal B).
Notation mgood := (mgood g ws aw KO legal B).
Notation same := (same KO legal).
Notation kcoh := (kcoh KO legal).
Notation ymig := (ymig g KO).
Notation migops := (migops g KO).
Notation y_cur := (y_cur g).

Notation yrp := (yrp g KO).
Notation yadv := (yadv g KO).
Notation smw := (smw g ws ae aw KO legal B).
Notation hqY := (hqY g B).
Notation mcrash := (mcrash g ws ae aw KO legal B).
Notation newok := (newok g ws aw B).
Notation after := (after KO legal).
Notation cst := (cst KO legal).

Fixpoint ysp (r : nat) (Y : lay) (D : list N + err) : res unit * list dop * lay :=
  match r with
  | O => (Err EFull, [], Y)
  | S r' =>
      match y_pt Y with
      | None =>
          let '(x, L, Y') := ysp r' (mklay (y_f Y) (y_cl Y) (Some []) (y_k Y - 1) 0) D in
          (x, [DW (paddr g (y_cur Y)) (zeros g)] ++ L, Y')
      | Some sl =>
          if y_k Y =? 0 then (Err ECorrupted, [], Y)
          else
            match D with
            | inr e => (Err e, [], Y)
            | inl d =>
                if too_big g (length d) then (Err EItemTooBig, [], Y)
                else if fitsb g sl (length d) then (Err EPanic, [], Y)
                else
                  let '(L1, Y1) := yadv (y_f Y) (y_cl Y ++ [sl]) (y_k Y - 1) in
                  let '(x, L, Y') := ysp r' Y1 D in
                  (x, ([DW (dend g (y_cur Y)) (zeros g)] ++ L1) ++ L, Y')
            end
      end
  end.

Lemma wp_stop_loop (G : Prop) k v f0 : legal k -> forall r Y pg L s (Q : unit -> st -> Prop) (E : err -> st -> Prop) D,
  D = dser KO (length (s_buf s)) k v -> mw Y pg f0 L s -> mgood Y ->
  (forall e s' pg' L' Y', ysp r Y D = (Err e, L', Y') -> mw Y' pg' f0 (L ++ L') s' -> mgood Y' -> mfr s s' -> E e s') ->
  mcrash G Y f0 (L ++ snd (fst (ysp r Y D))) (same Y) E ->
  wp (store_stop g KO r k v) Q E s.
Proof.
  intros LK. induction r as [|r IH]; intros Y pg L s Q E D ED M MG HE HC; cbn [store_stop].
  { apply wp_unmark. unfold wp, fail. eapply HE; [reflexivity| |exact MG|apply mfr_dirty]. rewrite app_nil_r. apply mw_dirty; exact M. }
  pose proof M as (LY & Wd & KH & LB). pose proof (lay_total g gok _ _ LY) as (TF & TT & TB & TBAD). pose proof MG as (MI & OK & CP).
  pose proof (ring_of g gok Y pg LY) as RE. pose proof (ffP g gok B Y pg LY MI) as FP. pose proof (y_b_pt Y) as PB. cbn [ysp] in HE, HC.
  assert (ER : forall s' : st, mw Y pg f0 L s' -> mfr s s' -> forall e, ysp (S r) Y D = (Err e, [], Y) -> E e s').
  { intros s' M' F' e X. eapply HE; [exact X| |exact MG|exact F']. rewrite app_nil_r. exact M'. }
  apply wp_bind. eapply wp_find_first; [exact gok|exact Wd|exact RE| |].
  2:{ intros s1 FN W1 F1. destruct (y_pt Y) as [sl|] eqn:PT; [|congruence]. destruct FP as [FP|[_ BD]]; [congruence|].
      apply ER; [eapply mw_fr; eauto|apply fr_mfr; exact F1|]. cbn [ysp]. rewrite PT. destruct MI as (_ & _ & I3). now rewrite (I3 BD). }
  intros s1 lp FN W1 F1 FL1 _ KN1. pose proof (mw_fr g ws ae aw KO legal B _ _ _ _ _ _ M W1 F1) as M1.
  destruct (y_pt Y) as [sl|] eqn:PT.
  - (* a page is in use *)
    destruct FP as [FP|[FP _]]; [|congruence]. rewrite FP in FN. injection FN as <-. specialize (KN1 eq_refl _ eq_refl).
    change ((y_f Y + y_c Y) mod NP) with (y_cur Y) in *. set (p := y_cur Y) in *.
    assert (Hp : p < NP) by (apply Nat.mod_upper_bound; lia).
    assert (NX : next_page g p = (y_f Y + S (y_c Y)) mod NP) by (apply (next_of g gok np2)).
    apply wp_bind. apply wp_bind. eapply wp_psc; [exact gok|exact W1|rewrite NX; apply Nat.mod_upper_bound; lia|exact RE| |].
    2:{ intros X. apply (bad_ring g gok Y pg LY) in X; [|rewrite NX; apply Nat.mod_upper_bound; lia]. apply ER; [exact M1|apply fr_mfr; exact F1|].
        cbn [ysp]. rewrite PT. destruct MI as (_ & _ & I3). now rewrite (I3 X). }
    intros s2 x ST W2 F2 OB FL2. pose proof (mw_fr g ws ae aw KO legal B _ _ _ _ _ _ M1 W2 F2) as M2.
    assert (F02 : mfr s s2) by (eapply mfr_trans; apply fr_mfr; eassumption).
    destruct (Nat.eqb_spec (y_k Y) 0) as [K0|K0].
    { (* no open page *)
      assert (X : pstate_eqb x Open = false).
      { destruct (Nat.eq_dec (y_bad Y) 0) as [B0|B0].
        - assert (CC : S (y_c Y) = NP) by lia. rewrite NX, CC in ST. replace (y_f Y + NP) with (y_f Y + 1 * NP) in ST by lia. rewrite Nat.mod_add, Nat.mod_small in ST by lia.
          pose proof (page_st_at g gok Y pg 0 LY ltac:(lia)) as X. rewrite Nat.add_0_r, Nat.mod_small in X by lia. rewrite ST in X. unfold cls in X.
          destruct (Nat.ltb_spec 0 (y_c Y)); [|lia]. now injection X as ->.
        - rewrite NX, (page_st_at g gok Y pg) in ST by (auto; lia). unfold cls in ST. destruct (Nat.ltb_spec (S (y_c Y)) (y_c Y)); [lia|].
          destruct (Nat.ltb_spec (S (y_c Y)) (y_c Y + y_b Y)); [lia|]. destruct (Nat.ltb_spec (S (y_c Y)) (y_c Y + y_b Y + y_k Y)); [lia|discriminate]. }
      rewrite X. cbn [negb]. apply ER; [exact M2|exact F02|]. cbn [ysp]. rewrite PT. destruct (Nat.eqb_spec (y_k Y) 0); [auto|lia]. }
    assert (B0 : y_bad Y = 0) by (destruct MI as (_ & _ & I3); lia).
    assert (XO : x = Open).
    { rewrite NX, (page_st_at g gok Y pg) in ST by (auto; lia). unfold cls in ST. destruct (Nat.ltb_spec (S (y_c Y)) (y_c Y)); [lia|].
      destruct (Nat.ltb_spec (S (y_c Y)) (y_c Y + y_b Y)); [lia|]. destruct (Nat.ltb_spec (S (y_c Y)) (y_c Y + y_b Y + y_k Y)); [congruence|lia]. }
    subst x. cbn [pstate_eqb negb]. destruct (OB) as [_ OB2]. destruct (OB2 p Hp KN1) as [KNp KNn].
    destruct (ser_item_eq g np2 KO legal KC s2 k v LK) as (buf & LBf & SE). assert (LL : length (s_buf s2) = length (s_buf s)) by apply F02. rewrite LL, <- ED in SE.
    set (s3 := set_buf s2 buf) in *. pose proof (mw_buf g ws ae aw KO legal B _ _ _ _ _ buf M2 LBf) as M3. fold s3 in M3.
    assert (F03 : mfr s s3) by (eapply mfr_trans; [exact F02|repeat split; auto]).
    destruct D as [d|e].
    2:{ apply wp_bind. unfold wp. rewrite SE. apply ER; [exact M3|exact F03|]. cbn [ysp]. rewrite PT. destruct (Nat.eqb_spec (y_k Y) 0); [lia|auto]. }
    destruct SE as (FNd & LD & SE). eapply wp_ok; [exact SE|]. cbv beta.
    destruct (too_big g (length d)) eqn:TBG.
    { apply wp_unmark. unfold wp, fail. apply ER; [now apply mw_dirty|eapply mfr_trans; [exact F03|apply mfr_dirty]|].
      cbn [ysp]. rewrite PT. destruct (Nat.eqb_spec (y_k Y) 0); [lia|]. now rewrite TBG. }
    assert (PG : pg p = PPart sl).
    { destruct Y as [yf ycl ypt yk ybad]. cbn [y_f y_cl y_pt y_k y_bad] in *. subst ypt. exact (lay_at_part NP yf ycl sl yk ybad pg LY). }
    assert (SL : slots_of (pg p) = sl) by now rewrite PG.
    pose proof M3 as (_ & W3 & KH3 & LB3).
    pose proof (find_free_eq g gok ws ae aw pg f0 L s3 p (length d) W3 Hp ltac:(now rewrite PG)) as FF. rewrite SL in FF.
    eapply wp_ok; [exact FF|]. cbv beta.
    assert (YE : Y = mklay (y_f Y) (y_cl Y) (Some sl) (y_k Y) 0) by (destruct Y as [yf ycl ypt yk ybad]; cbn [y_f y_cl y_pt y_k y_bad] in *; congruence).
    assert (YP : y_put Y d = mklay (y_f Y) (y_cl Y) (Some (sl ++ [SLive d])) (y_k Y) (y_bad Y)) by (unfold y_put, y_sl; now rewrite PT).
    destruct (fitsb g sl (length d)) eqn:FB.
    + unfold wp, fail. apply ER; [exact M3|exact F03|]. cbn [ysp]. rewrite PT. destruct (Nat.eqb_spec (y_k Y) 0); [lia|]. now rewrite TBG, FB.
    + (* the page is full *)
      destruct (y_k Y) as [|k1] eqn:KY; [lia|]. rewrite Nat.sub_succ, Nat.sub_0_r in HE, HC.
      destruct (yadv (y_f Y) (y_cl Y ++ [sl]) k1) as [L1 Y1] eqn:YA.
      assert (MGc : mgood (mklay (y_f Y) (y_cl Y ++ [sl]) None (S k1) 0)).
      { split; [|split].
        - destruct MI as (I1 & _ & _). unfold minv. cbn [y_f y_k y_bad y_pt]. rewrite KY in I1. repeat split; try discriminate; lia.
        - apply (proj2 (mok_l g ws aw KO legal B _)). apply (proj1 (mok_l g ws aw KO legal B _)) in OK. rewrite YE in OK. unfold uslots in *. cbn [y_cl y_pt ptl] in *. now rewrite app_nil_r.
        - intros X; discriminate X. }
      assert (SMc : same Y (mklay (y_f Y) (y_cl Y ++ [sl]) None (S k1) 0)).
      { intros k' _. rewrite YE at 1. rewrite !content_app, flat_map_app. cbn [flat_map]. now rewrite !app_nil_r. }
      apply wp_bind.
      pose proof M3 as M3'. pose proof MG as MG'. rewrite YE in M3', MG'.
      assert (PQ : p = y_cur (mklay (y_f Y) (y_cl Y) (Some sl) (S k1) 0)) by reflexivity. rewrite PQ.
      apply (wp_close_m g gok ws ae aw np2 KO legal B G (y_f Y) (y_cl Y) sl k1 pg f0 L s3); [exact M3'|exact MG'|exact KNp|exact KNn| | |exact MGc].
      * rewrite <- PQ. intros s4 pg4 M4 F4. apply wp_ret. cbv beta iota. apply (wp_adv_k g KO). rewrite NX.
        assert (LE : (y_f Y + S (y_c Y)) mod NP = (y_f Y + length (y_cl Y ++ [sl])) mod NP) by (f_equal; rewrite app_length; unfold y_c; cbn [length]; lia). rewrite LE.
        apply (wp_advance g gok ws ae aw np2 KO legal KC B G (y_f Y) (y_cl Y ++ [sl]) k1 pg4 f0 (L ++ [DW (dend g p) (zeros g)]) s4); [exact M4|exact MGc|destruct (y_cl Y); discriminate| |].
        -- rewrite YA. cbn [fst snd]. intros s5 pg5 M5 MG5 F5. rewrite <- app_assoc in M5.
           assert (F05 : mfr s s5) by (eapply mfr_trans; [exact F03|]; eapply mfr_trans; eassumption).
           apply (IH Y1 pg5 (L ++ [DW (dend g p) (zeros g)] ++ L1) s5 Q E (inl d)); [| exact M5|exact MG5| |].
           ++ rewrite ED. f_equal. symmetry. apply F05.
           ++ intros e s' pg' L' Y' YS M' G' F'. rewrite YS in HE. eapply HE; [reflexivity| |exact G'|eapply mfr_trans; eassumption]. rewrite app_assoc. exact M'.
           ++ intros s' pg' Yc C1 C2 C3 C4 C5 C6. destruct (ysp r Y1 (inl d)) as [[x L'] Y'] eqn:YS. cbn [fst snd] in *. eapply (HC s' pg' Yc); auto.
              ** eapply same_trans; [|exact C1]. eapply same_trans; [exact SMc|]. pose proof (yadv_same g KO legal KC (y_f Y) (y_cl Y ++ [sl]) k1) as YS2. rewrite YA in YS2. apply YS2. destruct MGc as (_ & (_ & GG & _) & _). rewrite content_app in GG. now apply Forall_app in GG.
              ** rewrite app_assoc. exact C4.
        -- rewrite YA. cbn [fst]. intros s' pg' Yc C1 C2 C3 C4 C5 C6. destruct (ysp r Y1 (inl d)) as [[x L'] Y'] eqn:YS. cbn [fst snd] in *. eapply (HC s' pg' Yc); auto.
           ++ eapply same_trans; eauto.
           ++ rewrite app_assoc. apply crashed_app. rewrite <- app_assoc in C4. exact C4.
      * rewrite <- PQ. intros s' pg' Yc C1 C2 C3 C4 C5 C6. destruct (ysp r Y1 (inl d)) as [[x L'] Y'] eqn:YS. cbn [fst snd] in *. eapply (HC s' pg' Yc); auto.
        -- rewrite YE at 1. exact C1.
        -- rewrite !app_assoc. do 2 apply crashed_app. exact C4.
  - (* no page in use *)
    rewrite FP in FN. injection FN as <-. apply wp_bind. apply wp_ret. cbv beta iota. pose proof MI as (I1 & I2 & I3). destruct (I2 PT) as [K1 B0].
    apply wp_bind. eapply wp_find_first; [exact gok|exact W1|exact RE| |].
    2:{ intros s2 X. rewrite (ffO g gok B Y pg LY MI PT) in X. discriminate. }
    intros s2 r2 FN W2 F2 FL2 _ _. rewrite (ffO g gok B Y pg LY MI PT) in FN. injection FN as <-. cbv beta iota.
    change ((y_f Y + y_c Y) mod NP) with (y_cur Y).
    assert (YE : Y = mklay (y_f Y) (y_cl Y) None (S (y_k Y - 1)) 0) by (destruct Y as [yf ycl ypt yk ybad]; cbn [y_f y_cl y_pt y_k y_bad] in *; subst ypt; f_equal; lia).
    pose proof (mw_fr g ws ae aw KO legal B _ _ _ _ _ _ M1 W2 F2) as M2. pose proof M2 as M2'. pose proof MG as MG'. rewrite YE in M2', MG'.
    assert (F02 : mfr s s2) by (eapply mfr_trans; apply fr_mfr; eassumption).
    set (Y1 := mklay (y_f Y) (y_cl Y) (Some []) (y_k Y - 1) 0) in *.
    assert (SM : same Y Y1) by (intros k' _; rewrite YE at 1; unfold Y1; now rewrite !content_app).
    apply wp_bind. change (y_cur Y) with ((y_f Y + length (y_cl Y)) mod NP).
    apply (wp_start_m g gok ws ae aw np2 KO legal B G (y_f Y) (y_cl Y) (y_k Y - 1) pg f0 L s2); [exact M2'|exact MG'| |].
    + fold Y1. intros s3 pg3 M3 MG3 F3 _. assert (F03 : mfr s s3) by (eapply mfr_trans; eassumption).
      apply (IH Y1 pg3 (L ++ [DW (paddr g ((y_f Y + length (y_cl Y)) mod NP)) (zeros g)]) s3 Q E D); [|exact M3|exact MG3| |].
      * rewrite ED. f_equal. symmetry. apply F03.
      * intros e s' pg' L' Y' YS M' G' F'. rewrite YS in HE. eapply HE; [reflexivity| |exact G'|eapply mfr_trans; eassumption]. rewrite app_assoc. exact M'.
      * intros s' pg' Yc C1 C2 C3 C4 C5 C6. destruct (ysp r Y1 D) as [[x L'] Y'] eqn:YS. cbn [fst snd] in *. eapply (HC s' pg' Yc); auto.
        -- eapply same_trans; [|exact C1]. exact SM.
        -- rewrite app_assoc. exact C4.
    + intros s' pg' Yc C1 C2 C3 C4 C5 C6. destruct (ysp r Y1 D) as [[x L'] Y'] eqn:YS. cbn [fst snd] in *. eapply (HC s' pg' Yc); auto.
      * rewrite YE at 1. exact C1.
      * rewrite app_assoc. apply crashed_app. exact C4.
Qed.


Notation yst := (yst g KO).
Lemma ysp_corr r : forall Y D L Y', ysp r Y D = (Err ECorrupted, L, Y') -> yst r Y D = (Err ECorrupted, L, Y').
Proof.
  induction r as [|r IH]; intros Y D L Y' H; cbn [ysp MStoreP.yst] in *; [discriminate|]. destruct (y_pt Y) as [sl|].
  - destruct (y_k Y =? 0); [exact H|]. destruct D as [d|e]; [|exact H]. destruct (too_big g (length d)); [discriminate|]. destruct (fitsb g sl (length d)); [discriminate|].
    destruct (yadv (y_f Y) (y_cl Y ++ [sl]) (y_k Y - 1)) as [L1 Y1]. destruct (ysp r Y1 (inl d)) as [[x L2] Y2] eqn:E. injection H as -> <- <-. now rewrite (IH _ _ _ _ E).
  - destruct (ysp r _ D) as [[x L2] Y2] eqn:E. injection H as -> <- <-. now rewrite (IH _ _ _ _ E).
Qed.
Lemma ysp_same r : forall Y D x L Y', Forall good (content Y) -> ysp r Y D = (x, L, Y') -> same Y Y'.
Proof.
  induction r as [|r IH]; intros Y D x L Y' G H; cbn [ysp] in H.
  { injection H as <- <- <-. apply same_refl. }
  destruct Y as [f cl pt k bad]. cbn [y_f y_cl y_pt y_k y_bad] in *. destruct pt as [sl|].
  - destruct (k =? 0); [injection H as <- <- <-; apply same_refl|]. destruct D as [d|e]; [|injection H as <- <- <-; apply same_refl].
    destruct (too_big g (length d)); [injection H as <- <- <-; apply same_refl|]. destruct (fitsb g sl (length d)); [injection H as <- <- <-; apply same_refl|].
    rewrite content_app in G. assert (G' : Forall good (flat_map live_of (cl ++ [sl]))) by (rewrite flat_map_app; cbn [flat_map]; now rewrite app_nil_r).
    pose proof (yadv_same g KO legal KC f (cl ++ [sl]) (k - 1) G') as SA. pose proof (yadv_content g KO legal f (cl ++ [sl]) (k - 1) G') as GA.
    destruct (yadv f (cl ++ [sl]) (k - 1)) as [L1 Y1]. cbn [snd] in *.
    assert (S1 : same (mklay f cl (Some sl) k bad) Y1).
    { eapply same_trans; [|exact SA]. intros k' _. rewrite !content_app, flat_map_app. cbn [flat_map]. now rewrite !app_nil_r. }
    destruct (ysp r Y1 (inl d)) as [[x2 L2] Y2] eqn:YS. injection H as <- <- <-. specialize (IH _ _ _ _ _ GA YS). eapply same_trans; eauto.
  - destruct (ysp r _ D) as [[x2 L2] Y2] eqn:YS. injection H as <- <- <-. rewrite content_app in G.
    assert (S1 : same (mklay f cl None k bad) (mklay f cl (Some []) (k - 1) 0)) by (intros k' _; now rewrite !content_app).
    apply IH in YS; [|now rewrite content_app]. eapply same_trans; eauto.
Qed.
Notation mend := (mend g ws ae aw KO legal B).
Notation mcut := (mcut g ws ae aw KO legal B).
Notation mstart := (mstart g ws ae aw KO legal B).
Lemma wp_stop_inner Y pg k v f0 L s (Q : unit -> st -> Prop) (E : err -> st -> Prop) D : legal k ->
  mstart Y pg f0 L s -> mgood Y -> D = dser KO (length (s_buf s)) k v ->
  (forall e s' L' Y', ysp NP Y D = (Err e, L', Y') -> mend Y' f0 (L ++ L') s s' -> E e s') ->
  (forall s', mcut (same Y) f0 (L ++ snd (fst (ysp NP Y D))) s' -> E (EStorage SShutoff) s') ->
  wp (c_check_dirty ;;; store_stop g KO NP k v) Q E s.
Proof.
  intros LK M MG ED HE HC. apply wp_bind. eapply wp_check; [exact M|]. intros s1 M1 F1 FL1 _.
  eapply (wp_stop_loop False k v f0 LK NP Y pg L s1 Q E D); [|exact M1|exact MG| |].
  - rewrite ED. f_equal. symmetry. apply F1.
  - intros e s' pg' L' Y' YS M' G' F'. eapply HE; [exact YS|]. split; [eauto|]. split; auto. eapply mfr_trans; eauto.
  - apply mcut_mcrash. exact HC.
Qed.
Lemma wp_m_stop Y pg b k v s : legal k -> smw Y pg (set_buf s b) -> mgood Y -> (ae = true \/ f_fuel (s_fl s) = None \/ settled Y) ->
  wp (m_store_stop g KO b k v) (fun _ _ => False)
     (fun e s' => (exists L Y', same Y Y' /\ mend Y' (s_fl s) L (set_buf s b) s') \/ (e = EStorage SShutoff /\ exists L, mcut (same Y) (s_fl s) L s')) s.
Proof.
  intros LK SM MG TE. unfold m_store_stop. apply wp_bind. unfold wp at 1, put_buf. set (s0 := set_buf s b) in *. apply wp_auto_repair.
  assert (MS : mstart Y pg (s_fl s) [] s0) by (right; split; [exact SM|split; reflexivity]). set (D := dser KO (length b) k v).
  assert (ND : nocorr D) by apply dser_nocorr.
  eapply (wp_stop_inner Y pg k v (s_fl s) [] s0 _ _ D LK MS MG); [reflexivity| |].
  - intros e s1 L1 Y1 YS ME. pose proof (ysp_same NP Y D _ _ _ ltac:(apply MG) YS) as S1. assert (EC : e = ECorrupted \/ e <> ECorrupted) by (destruct e; auto; right; discriminate). destruct EC as [->|NE].
    2:{ destruct e; try congruence; left; eauto. }
    destruct ME as ((pg1 & M1) & MG1 & F1). rewrite app_nil_l in M1. apply ysp_corr in YS.
    destruct (yrp Y1) as [L2 Y2] eqn:YR. destruct (yst_factN g np2 KO _ _ _ _ _ ND YS) as [FA _]. specialize (FA eq_refl).
    eapply (wp_m_repair g gok ws ae aw np2 KO legal KC B False Y1 pg1 (s_fl s) L1 s1); [exact M1|exact MG1| |tauto| |].
    + left. destruct TE as [TE|[TE|TE]]; auto. right; right. destruct FA as [(-> & _ & _)|(P & K1 & _)]; [apply TE|]. destruct TE as [_ TE]. specialize (TE P). lia.
    + rewrite YR. cbn [fst snd]. intros s2 pg2 M2 MG2 S2 F2. assert (F02 : mfr s0 s2) by (eapply mfr_trans; eauto).
      eapply (wp_stop_inner Y2 pg2 k v (s_fl s) (L1 ++ L2) s2 _ _ D LK); [left; exact M2|exact MG2| | |].
      * unfold D. f_equal. symmetry. apply F02.
      * intros e s' L' Y' YS2 (A1 & A2 & A3). left. exists ((L1 ++ L2) ++ L'), Y'. split; [|split; [exact A1|split; [exact A2|eapply mfr_trans; eauto]]].
        pose proof (ysp_same NP Y2 D _ _ _ ltac:(apply MG2) YS2) as S3. eapply same_trans; [exact S1|]. eapply same_trans; eauto.
      * intros s' CC. right. split; auto. eexists. eapply (mcut_mono g ws ae aw KO legal B _ _ _ _ []); [|exact CC]. intros Yc C1. eapply same_trans; [exact S1|]. eapply same_trans; eauto.
    + rewrite YR. cbn [fst]. apply mcut_mcrash. intros s' CC. right. split; auto. exists ((L1 ++ L2) ++ []). eapply mcut_mono; [|exact CC]. intros Yc [C1 _]. eapply same_trans; eauto.
  - intros s' CC. right. split; auto. eauto.
Qed.
End Stop.
