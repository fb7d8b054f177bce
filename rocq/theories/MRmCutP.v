(** A removal that is cut while an earlier store is unfinished: what can be fetched straight afterwards. *)
From Coq Require Import List NArith ZArith Arith Bool Lia ZifyBool ZifyNat ZifyN.
From Verif Require Import Base BaseP Crc CrcP Flash Cache State Item Generic Map Codec CodecP GeomP ScanP WpP ItemP CalcP PageP WorldP LayP QPushP QRepP QStepP QCallP KeyP MLogP MFetchP MMigP MStoreP MCallP MRemP MRmvP MIterP Client QSpec QObs MClient MSpec MExecP MHistP MWearP MObs MPropsP.
Import ListNotations.
Local Opaque crc16 acrc crc32.

Section Cut.
Context (g : geom) (gok : geom_ok g) (ws ae : bool) (aw : nat) (np2 : 2 <= NP g).
Context {K : Type} (KO : keyops K) (legal : K -> Prop) (KC : key_codec KO legal) (B : lim).
Notation NP := (NP g).
Notation st := (st K).
Implicit Types (s : st) (pg : nat -> page) (Y : lay).
Notation crashed := (crashed g ws ae aw).
Notation newest := (newest KO).
Notation ents := (ents g).
Notation good := (good KO legal).
Notation mok := (mok g ws aw KO legal B).
Notation mw := (mw g ws ae aw KO legal B).
Notation mgood := (mgood g ws aw KO legal B).
Notation smw := (smw g ws ae aw KO legal B).
Notation mend := (mend g ws ae aw KO legal B).
Notation mstart := (mstart g ws ae aw KO legal B).
Notation value := (value KO).
Notation yrp := (yrp g KO).
Notation rmops := (rmops g KO).
Notation rcut := (rcut KO).

(** Fetching needs no copies to be complete. *)
Lemma m_fetch_weak Y pg b k s : legal k -> smw Y pg (set_buf s b) -> mok Y -> minv Y -> y_bad Y = 0 ->
  wp (m_fetch KO g b k) (fun r _ => r = value k (content Y)) (fun _ _ => False) s.
Proof.
  intros LK SM OK MI B0. unfold m_fetch. apply wp_bind. unfold wp at 1, put_buf. set (s0 := set_buf s b) in *. apply wp_bind. apply wp_auto_repair.
  assert (MS : mstart Y pg (s_fl s) [] s0) by (right; split; [exact SM|split; reflexivity]).
  apply (wp_fetch_loc g gok ws ae aw KO legal KC B Y pg (s_fl s) [] k s0); auto; [|intros; lia].
  intros s1 r M1 F1 FL1 FR.
  assert (VE : value k (content Y) = option_map (dval KO) (option_map snd (newest k (ents Y)))).
  { unfold MLogP.value. now rewrite newest_lastd, ents_data. }
  unfold fres in FR. destruct (newest k (ents Y)) as [[a d]|] eqn:NE.
  - destruct FR as (okl & -> & OKL & FN & LD). unfold get_buf. eapply wp_ok; [reflexivity|]. cbv beta zeta.
    assert (GD : good d). { destruct OK as (_ & GG & _). rewrite Forall_forall in GG. apply GG. rewrite <- (ents_data g). apply newest_in in NE. destruct NE as [IN _]. now apply (in_map snd) in IN. }
    destruct (good_de KO legal KC d GD) as (k0 & _ & _ & KL & DE). destruct (DE []) as [_ DL]. rewrite app_nil_r in DL.
    cbn [ihdr h_len]. destruct (Nat.ltb_spec (length (s_buf s1)) (length d)); [lia|].
    assert (KV : wp match okl with Some kl => ret kl | None => ser_lift (k_len KO (firstn (length d) (s_buf s1))) end (fun kl s' => kl = dklen KO d /\ s' = s1) (fun _ _ => False) s1).
    { destruct OKL as [->| ->]; [rewrite FN, DL|]; apply wp_ret; auto. }
    apply wp_bind. eapply wp_mono; [exact KV| |auto]. intros kl s2 [-> ->]. destruct (Nat.ltb_spec (length d) (dklen KO d)); [lia|].
    apply wp_ret. rewrite VE. cbn [option_map snd]. f_equal. unfold dval. rewrite <- skipn_firstn_comm. now rewrite FN.
  - subst r. apply wp_ret. rewrite VE. reflexivity.
Qed.

Lemma NMG Y : y_bad Y = 1 -> nomig Y.
Proof. unfold nomig. lia. Qed.

(** A state whose layout may hold incomplete copies of items that are gone. *)
Definition left Y s' : Prop := mok Y /\ minv Y /\ exists pg, layok NP Y pg /\ sworld g ws ae aw pg s' /\ kwfs s' /\ c_dirty (s_ca s') = true.

Lemma wp_m_rm_any sk Y pg b s : (match sk with Some k' => legal k' | None => True end) -> mw Y pg (s_fl s) [] (set_buf s b) -> mgood Y ->
  wp (m_rm g KO sk b)
     (fun _ s' => mend (yrm KO sk (yrep Y)) (s_fl s) (rops g Y ++ rmops sk (y_f Y) (uslots Y)) (set_buf s b) s')
     (fun e s' => e = EStorage SShutoff /\ exists Yc, (rcut sk Y Yc \/ rcut sk (yrep Y) Yc) /\ left Yc s' /\ (y_bad Yc = 1 -> mgood Yc)) s.
Proof.
  intros LS M MG. assert (BAD : y_bad Y = 0 \/ y_bad Y = 1) by (destruct M as ((_ & B1) & _); lia).
  destruct BAD as [B0|B1].
  - unfold m_rm. apply wp_bind. unfold wp at 1, put_buf. set (s0 := set_buf s b) in *. apply wp_auto_repair.
    eapply (wp_remove_inner g gok ws ae aw np2 KO legal KC B sk Y pg (s_fl s) [] s0); [exact LS|exact M|exact MG| | |].
    + intros _ s1 pg1 M1 F1. assert (LE : rops g Y = []) by (unfold rops; rewrite B0; reflexivity). rewrite LE, (yrep_id Y B0). split; [eauto|]. split; [|exact F1].
      eapply yrm_good; eauto.
    + intros X. congruence.
    + intros _ s1 pg1 Yc C1 C2 C3 C4. split; auto. exists Yc. split; [now left|]. destruct C1 as (R & _). destruct MG as (MI & OK & _).
      destruct (yrel_ok g ws aw np2 KO legal B Y Yc R OK MI) as [OK' MI']. split.
      * split; auto. split; auto. exists pg1. split; auto. split; [eapply crashed_sworld; eauto|]. split; auto. apply C3.
      * destruct R as (_ & _ & R3 & _). rewrite R3, B0. discriminate.
  - pose proof (wp_m_rm g gok ws ae aw np2 KO legal KC B sk Y pg b s LS M MG (or_intror (NMG Y B1))) as H. cbv zeta in H.
    eapply wp_mono; [exact H|auto|]. intros e s' (-> & pg' & Yc & C1 & C2 & C3 & C4 & C5). split; auto. exists Yc. split; auto. pose proof C2 as (MI' & OK' & _). split; auto.
    split; auto. split; auto. exists pg'. split; auto. split; [eapply crashed_sworld; eauto|]. split; auto. apply C4.
Qed.
End Cut.

Section Props.
Context {K : Type} (KO : keyops K) (legal : K -> Prop).
Notation upd := (upd (k_eqb KO)).
Notation m_reached := (m_reached KO legal).
Notation m_holds := (m_holds KO legal).
Implicit Types (s : st K).

Lemma left_holds (KC : key_codec KO legal) g (gok : geom_ok g) ws ae aw (np2 : 2 <= NP g) n log Y s : left g ws ae aw KO legal (Bl KO n log) Y s -> y_bad Y = 0 \/ mgood g ws aw KO legal (Bl KO n log) Y ->
  m_holds g n s (fun k => value KO k (content Y)) /\ forall ca, fresh_cache (NP g) ca -> m_holds g n (set_ca s ca) (fun k => value KO k (content Y)).
Proof.
  intros (OK & MI & pg & LY & SW & KW & DI) BM.
  assert (GEN : forall s1, sworld g ws ae aw pg s1 -> kwfs s1 -> (c_dirty (s_ca s1) = true \/ kcoh KO legal (ents g Y) (c_kp (s_ca s1))) -> m_holds g n s1 (fun k => value KO k (content Y))).
  { intros s1 SW1 KW1 DK k b LK LB. unfold MObs.m_does. cbn [m_exec]. unfold mans1.
    assert (SWP : sworld g ws ae aw pg (power s1 None)). { destruct SW1 as ((A1 & B1 & C1 & D1 & E1) & F1). split; [|exact F1]. split; [exact A1|]. split; [exact B1|]. split; [exact C1|]. split; [exact D1|auto]. }
    assert (SM : smw g ws ae aw KO legal (Bl KO n log) Y pg (set_buf (power s1 None) b)) by (repeat split; auto; try apply LY; try apply SWP).
    destruct BM as [B0|MG].
    - pose proof (m_fetch_weak g gok ws ae aw np2 KO legal KC (Bl KO n log) Y pg b k (power s1 None) LK SM OK MI B0) as H. unfold wp in H.
      destruct (m_fetch KO g b k (power s1 None)) as [[x|e] s2]; [|destruct H]. subst x. cbn. eauto.
    - pose proof (wp_m_fetch g gok ws ae aw np2 KO legal KC (Bl KO n log) Y pg b k (power s1 None) LK SM MG) as H. unfold wp in H.
      destruct (m_fetch KO g b k (power s1 None)) as [[x|e] s2]; [destruct H as [-> _]; cbn; eauto|]. destruct H as (_ & _ & H). apply mcut_mlay in H. destruct H as (_ & X & _). exfalso. apply X. reflexivity. }
  split; [apply GEN; auto|]. intros ca F. destruct (cohK_fresh g pg ca F) as [C1 C2]. destruct (kp_fresh g np2 KO legal (ents g Y) (c_kp ca) ltac:(apply F)) as [K1 K2].
  apply GEN; auto. destruct SW as (FW & _). split; [exact FW|]. split; [exact C1|now right].
Qed.

Lemma m_cut_rm_any sk pf g n evs l s m b p r s' ca : m_reached pf g n evs l s -> m_holds g n s m -> (match sk with Some k => legal k | None => True end) -> n <= length b -> (pf = false -> p = None) ->
  fresh (mode_after calm0 evs l) = true -> fresh_cache (NP g) ca -> m_rm g KO sk b (power s p) = (r, s') ->
  exists m', (r = Ok tt /\ (forall k, legal k -> m' k = match sk with Some k' => if k_eqb KO k k' then None else m k | None => None end) \/
     r = Err cut /\ forall k, legal k -> m' k = m k \/ kills sk k /\ m' k = None) /\
    m_holds g n s' m' /\ m_holds g n (set_ca s' ca) m'.
Proof.
  intros R H LS LB PO FR FC E. destruct (reached_reach _ _ _ _ _ _ _ _ R) as (m0 & log & ae & aw & RC). destruct RC as [KC ST AE MS _ _]. pose proof ST as (gok & np2 & _).
  pose proof (holds_unique KO legal g n s m m0 H (mst_holds KO legal KC g gok _ _ _ np2 _ _ _ _ _ MS)) as EM.
  destruct MS as (Y & ML & MG & SU & WH & VM). rewrite FR in ML. pose proof ML as (pg & LY & SW & KW & KD & CL). destruct (CL eq_refl) as [C1 C2].
  assert (PW : negb pf = true -> p = None) by (destruct pf; [discriminate|auto]).
  assert (SWP : sworld g (negb pf) ae aw pg (power s p)). { destruct SW as ((A1 & B1 & D1 & E1 & G1) & F1). split; [|exact F1]. split; [exact A1|]. split; [exact B1|]. split; [exact D1|]. split; [exact E1|auto]. }
  assert (MW : mw g (negb pf) ae aw KO legal (Bl KO n log) Y pg (s_fl (power s p)) [] (set_buf (power s p) b)) by (repeat split; auto; try apply LY; try apply SWP; apply C1).
  pose proof (wp_m_rm_any g gok (negb pf) ae aw np2 KO legal KC (Bl KO n log) sk Y pg b (power s p) LS MW MG) as W. unfold wp, M in W. rewrite E in W.
  pose proof (mgood_good _ _ _ _ _ _ _ MG) as GG.
  destruct r as [[]|e].
  - pose proof (mend_mlay g (negb pf) ae aw KO legal (Bl KO n log) _ _ _ _ _ W) as (ML' & MG' & _). exists (fun k => value KO k (content (yrm KO sk (yrep Y)))).
    assert (MST : mst g (negb pf) ae aw KO legal n (mkmode false true true) log (fun k => value KO k (content (yrm KO sk (yrep Y)))) s').
    { eexists. split; [exact ML'|]. split; [exact MG'|]. split; [discriminate|]. split; auto. }
    split; [|split].
    + left. split; auto. intros k LK. rewrite (rm_val KO legal KC sk Y k LS LK GG). destruct sk as [k'|]; auto. rewrite <- VM, <- EM by auto. reflexivity.
    + eapply mst_holds; eauto.
    + eapply mst_holds; eauto. eapply (mst_boot g (negb pf) ae aw np2 KO legal n _ _ _ _ _ FC MST).
  - destruct W as (-> & Yc & CT & LF & BM). exists (fun k => value KO k (content Yc)).
    assert (BM' : y_bad Yc = 0 \/ mgood g (negb pf) aw KO legal (Bl KO n log) Yc). { destruct LF as (_ & _ & pg' & LY' & _). destruct (lay_total g gok Yc pg' LY') as (_ & _ & _ & BD). destruct (Nat.eq_dec (y_bad Yc) 0); [now left|right; apply BM; lia]. }
    destruct (left_holds KC g gok (negb pf) ae aw np2 n log Yc s' LF BM') as [H1 H2]. split; [|auto].
    right. split; auto. intros k LK. destruct (rc_val KO legal KC sk Y Yc k LS LK GG CT) as [V|V]; [left; rewrite V, <- VM, <- EM by auto; reflexivity|now right].
Qed.
(** The removal of one key. *)
Lemma m_cut_remove_any pf g n evs l s m b k p a s' ca : m_reached pf g n evs l s -> m_holds g n s m -> legal k -> n <= length b -> (pf = false -> p = None) ->
  fresh (mode_after calm0 evs l) = true -> fresh_cache (NP g) ca -> m_exec KO g (MRemove b k) (power s p) = (a, s') ->
  (a = RUnit (Ok tt) /\ m_holds g n (set_ca s' ca) (upd m k None) /\ m_holds g n s' (upd m k None)) \/
  (a = RUnit (Err cut) /\ exists m', (m' = m \/ m' = upd m k None) /\ m_holds g n (set_ca s' ca) m' /\ m_holds g n s' m').
Proof.
  intros R H LK LB PO FR FC E. assert (KC : key_codec KO legal) by (destruct (reached_reach _ _ _ _ _ _ _ _ R) as (? & ? & ? & ? & [KC _ _ _ _ _]); exact KC). cbn [m_exec] in E. change (m_remove KO g b k) with (m_rm g KO (Some k) b) in E.
  destruct (m_rm g KO (Some k) b (power s p)) as [r s1] eqn:ER. unfold mans1 in E. cbn [fst snd] in E. injection E as <- <-.
  destruct (m_cut_rm_any (Some k) pf g n evs l s m b p r s1 ca R H LK LB PO FR FC ER) as (m' & CS & H1 & H2).
  assert (EXT : forall s0 (m1 m2 : K -> option (list N)), (forall k', legal k' -> m1 k' = m2 k') -> m_holds g n s0 m1 -> m_holds g n s0 m2).
  { intros s0 m1 m2 EQ HH k' b' LK' LB'. rewrite <- EQ by auto. auto. }
  destruct CS as [[-> V]|[-> V]].
  - left. split; auto. assert (VE : forall k', legal k' -> m' k' = upd m k None k'). { intros k' LK'. rewrite V by auto. reflexivity. }
    split; eapply EXT; eauto.
  - right. split; auto. destruct (V k LK) as [VK|[_ VK]].
    + exists m. split; auto. assert (VE : forall k', legal k' -> m' k' = m k'). { intros k' LK'. destruct (V k' LK') as [X|[X Y]]; auto. cbn in X. subst k'. auto. }
      split; eapply EXT; eauto.
    + exists (upd m k None). split; auto. assert (VE : forall k', legal k' -> m' k' = upd m k None k').
      { intros k' LK'. unfold MSpec.upd. destruct (k_eqb KO k' k) eqn:EK; [apply (kc_eqb _ _ KC) in EK; auto; now subst k'|]. destruct (V k' LK') as [X|[X Y]]; auto. cbn in X. subst k'.
        assert (k_eqb KO k k = true) by now apply (kc_eqb _ _ KC). congruence. }
      split; eapply EXT; eauto.
Qed.
(** The removal of everything. *)
Lemma m_cut_clear_any pf g n evs l s m b p a s' ca : m_reached pf g n evs l s -> m_holds g n s m -> n <= length b -> (pf = false -> p = None) ->
  fresh (mode_after calm0 evs l) = true -> fresh_cache (NP g) ca -> m_exec KO g (MRemoveAll b) (power s p) = (a, s') ->
  (a = RUnit (Ok tt) /\ m_holds g n (set_ca s' ca) (@nothing K)) \/
  (a = RUnit (Err cut) /\ exists m', (forall k, legal k -> m' k = m k \/ m' k = None) /\ m_holds g n (set_ca s' ca) m' /\ m_holds g n s' m').
Proof.
  intros R H LB PO FR FC E. cbn [m_exec] in E. change (m_remove_all KO g b) with (m_rm g KO None b) in E.
  destruct (m_rm g KO None b (power s p)) as [r s1] eqn:ER. unfold mans1 in E. cbn [fst snd] in E. injection E as <- <-.
  destruct (m_cut_rm_any None pf g n evs l s m b p r s1 ca R H I LB PO FR FC ER) as (m' & CS & H1 & H2).
  destruct CS as [[-> V]|[-> V]].
  - left. split; auto. intros k b' LK LB'. unfold nothing. rewrite <- (V k LK). auto.
  - right. split; auto. exists m'. split; auto. intros k LK. destruct (V k LK) as [X|[_ X]]; auto.
Qed.
End Props.
