(** Histories of map calls in which any erase may be torn, also the erase that restarts an interrupted migration. *)
From Coq Require Import List NArith ZArith Arith Bool Lia ZifyBool ZifyNat ZifyN.
From Verif Require Import Base BaseP Crc CrcP Flash Cache State Item Generic Map Codec CodecP GeomP ScanP WpP ItemP CalcP PageP TornSpec TornP WorldP LayP QPushP QRepP QStepP QCallP KeyP MLogP MFetchP MMigP MStoreP MCallP MTornP MRemP MRmvP MIterP Client QSpec MClient MSpec MExecP MHistP.
Import ListNotations.
Local Opaque crc16 acrc crc32.

Section TornHist.
Context (g : geom) (gok : geom_ok g) (ws ae : bool) (aw : nat) (np2 : 2 <= NP g) (W8 : 8 <= W g).
Context {K : Type} (KO : keyops K) (legal : K -> Prop) (KC : key_codec KO legal).
Notation NP := (NP g).
Notation HL := (HL g).
Notation rup := (rup g).
Notation st := (st K).
Implicit Types (s : st) (pg : nat -> page) (Y : lay) (B : lim).
Notation sworld := (sworld g ws ae aw).
Notation lastd := (lastd KO).
Notation ents := (ents g).
Notation good := (good KO legal).
Notation same := (same KO legal).
Notation after := (after KO legal).
Notation cst := (cst KO legal).
Notation kcoh := (kcoh KO legal).
Notation value := (value KO).
Notation ysto := (ysto g KO).
Notation mgood := (mgood g ws aw KO legal).
Notation mlay := (mlay g ws ae aw KO legal).
Notation acts := (acts g KO).
Notation cuts := (cuts KO legal).
Notation smw := (smw g ws ae aw KO legal).
Notation mcut := (mcut g ws ae aw KO legal).
Notation mcut2 := (mcut2 g ws ae aw KO legal).
Notation jcut3 := (jcut3 g ws ae aw KO legal).
Notation mend := (mend g ws ae aw KO legal).
Notation jlay := (jlay g).

(** * Items *)
Definition Bq (n : nat) (log : list (K * list N)) : lim := mklim n (fun d => (exists x, pair_of KO d = Some x /\ In x log) /\ quiet g d).
Lemma Bq_qtl n log : qtl g (Bq n log). Proof. intros d (_ & H). exact H. Qed.
Lemma hqY_B B B' Y m : qtl g B -> hqY g B Y m -> hqY g B' Y m.
Proof. intros Q H _. exact (H Q). Qed.
Lemma hqY_nomig B Y m : nomig Y -> hqY g B Y m.
Proof. intros H. intros Q A C; unfold nomig in H; lia. Qed.
Lemma hqY_bad B Y m : y_bad Y = 1 -> hqY g B Y m. Proof. intros H. apply hqY_nomig. unfold nomig. lia. Qed.
Lemma mgood_q n log log' Y : incl log log' -> mgood (Bq n log) Y -> mgood (Bq n log') Y.
Proof.
  intros I MG. eapply (mgood_restrict g ws aw KO legal); [| |exact MG]; auto. apply mgood_P in MG. eapply Forall_impl; [|exact MG]. intros d ((x & E & J) & Qd). split; [exists x; split; auto|exact Qd].
Qed.
Definition mcokq (n : nat) (c : mcall K) : Prop :=
  mcok g ws aw KO legal n c /\ match c with MStore b k v => forall d, dser KO (length b) k v = inl d -> quiet g d | _ => True end.
Lemma mcokq_callok n log c : mcokq n c -> mcallok g ws aw KO legal (Bq n (newlog KO log c)) c.
Proof.
  intros [CO QD]. destruct c as [b k v|b k|b k|b|b bs]; cbn [mcok mcallok] in *; auto. destruct CO as (LK & LB & H). split; auto. split; auto. intros d E. destruct (H d E) as (H1 & H2 & H3).
  split; [intros _|auto]. cbn [newlog]. rewrite E. split; [|auto]. exists (k, v). split; [eapply dser_pair; eauto|]. apply in_or_app. right. now left.
Qed.

(** * Storage objects between calls, with a page left by a torn erase *)
Definition jst B Y s : Prop := exists pg f src cl X P, jlay f (src :: cl) P pg /\ jpage X P /\ sworld pg s /\ kwf (c_kp (s_ca s)) /\
  (c_dirty (s_ca s) = true \/ kcoh (ents (jl f (src :: cl) P)) (c_kp (s_ca s))) /\ mgood B (jbase f (src :: cl) X) /\ same Y (jbase f (src :: cl) X).
Lemma jcut3_jst B Y f0 L s' : jcut3 B Y f0 L s' -> ws = false /\ jst B Y s'.
Proof.
  intros (pg & f & src & cl & X & P & A1 & A2 & A3 & A4 & A5 & A6). split; [apply A5|]. exists pg, f, src, cl, X, P. split; auto. split; auto. split; [eapply crashed_sworld; eauto|].
  split; [exact A6|]. split; [left; apply A5|auto].
Qed.
Lemma mcut2_mlay B C f0 L s' : mcut2 B True C f0 L s' -> ws = false /\ exists Yc, C Yc /\ mlay false Yc s' /\ mgood B Yc /\ hqY g B Yc (f_mem (s_fl s')).
Proof.
  intros (pg & Yc & HC & MG & LY & CR & KW & HH). split; [apply CR|]. exists Yc. split; auto. split; [|auto]. exists pg. split; auto. split; [eapply crashed_sworld; eauto|].
  split; [exact KW|]. split; [left; apply CR|discriminate].
Qed.
Lemma jst_smw B Y s p b : (ws = true -> p = None) -> jst B Y s -> B <= length b ->
  exists pg f src cl X P, jlay f (src :: cl) P pg /\ jpage X P /\ r_smw g ws ae aw KO legal B (jl f (src :: cl) P) pg (set_buf (power s p) b) /\ mgood B (jbase f (src :: cl) X) /\
    same Y (jbase f (src :: cl) X) /\ fworld g ws ae aw pg (s_fl (power s p)).
Proof.
  intros PO (pg & f & src & cl & X & P & A1 & A2 & SW & A4 & A5 & A6 & A7) LB. exists pg, f, src, cl, X, P. split; auto. split; auto.
  assert (SWP : sworld pg (power s p)). { destruct SW as ((B1 & B2 & B3 & B4 & B5) & B6). split; [|exact B6]. split; [exact B1|]. split; [exact B2|]. split; [exact B3|]. split; [exact B4|auto]. }
  split; [|split; auto; split; auto; apply SWP]. split; [eapply jlay_rlay; eauto|]. split; [exact SWP|]. split; [exact A4|]. split; [exact A5|exact LB].
Qed.

(** * One call on a layout *)
Definition qout (c : mcall K) B Y (a : mans K) s' : Prop :=
  (exists L Y', acts c Y a L Y' /\ mlay true Y' s' /\ mgood B Y' /\ hqY g B Y' (f_mem (s_fl s'))) \/
  (a = cutans c /\ ws = false /\ exists Yc, cuts c Y Yc /\ mlay false Yc s' /\ mgood B Yc /\ hqY g B Yc (f_mem (s_fl s'))) \/
  (exists b k v, c = MStore b k v /\ a = cutans c /\ ws = false /\ jst B Y s').

Lemma ready_hq B Y m : ready Y -> hqY g B Y m.
Proof. intros (_ & H). apply hqY_nomig. unfold nomig. lia. Qed.

Lemma q_exec B c p cl Y s a s' : qtl g B -> mlay cl Y s -> mgood B Y -> hqY g B Y (f_mem (s_fl s)) -> mcallok g ws aw KO legal B c ->
  match c with MStore _ _ _ | MFetch _ _ => True | MIter _ _ => cl = true /\ settled Y /\ y_bad Y = 0 | _ => cl = true /\ settled Y end -> (ws = true -> p = None) ->
  m_exec KO g c (power s p) = (a, s') -> qout c B Y a s'.
Proof.
  intros QT ML MG HH CO PR PO E. pose proof ML as (pg & LY & SW & KW & KD & CL).
  assert (SWP : sworld pg (power s p)). { destruct SW as ((A1 & B1 & C1 & D1 & E1) & F1). split; [|exact F1]. split; [exact A1|]. split; [exact B1|]. split; [exact C1|]. split; [exact D1|auto]. }
  assert (SM : forall b, B <= length b -> smw B Y pg (set_buf (power s p) b)).
  { intros b LB. repeat split; auto; try apply LY; try apply SWP. }
  assert (REST : settled Y -> mpre ae c p cl Y -> match c with MStore _ _ _ | MFetch _ _ => False | _ => True end -> qout c B Y a s').
  { intros ST PP NC. destruct (exec_spec g gok ws ae aw np2 KO legal KC B c p cl Y s a s' ML MG CO PP PO E) as [(L & Y' & AC & ML' & MG' & _)|(-> & HW & _ & Yc & CT & MLc & MGc)].
    - left. exists L, Y'. split; auto. split; auto. split; auto. apply hqY_nomig.
      assert (ST' : settled Y'); [|apply ST'].
      pose proof (mlay_bad g ws ae aw KO legal _ _ _ ML) as YB.
      destruct c as [b k v|b k|b k|b|b bs]; try contradiction; cbn [MExecP.acts] in AC; destruct AC as (_ & -> & _); auto; apply rm_settled, (yrep_settled g np2); auto.
    - right. left. split; auto. split; auto. exists Yc. split; auto. split; auto. split; auto. apply hqY_nomig.
      pose proof (mlay_bad g ws ae aw KO legal _ _ _ ML) as YB.
      assert (ST' : settled Yc); [|apply ST'].
      destruct c as [b k v|b k|b k|b|b bs]; try contradiction; cbn [MExecP.cuts] in CT; destruct CT as [[R _]|[R _]]; (eapply (yrel_settled g np2); [exact R|]); auto; apply (yrep_settled g np2); auto. }
  destruct c as [b k v|b k|b k|b|b bs]; cbn [mcallok] in CO.
  - clear REST. cbn [m_exec] in E. unfold mans1 in E. destruct CO as (LK & LB & NW).
    pose proof (wp_m_store2 g gok ws ae aw np2 KO legal KC B True Y pg b k v (power s p) _ LK (SM b LB) MG eq_refl NW (or_intror I) (fun _ => conj W8 (conj QT HH))) as H. cbv zeta in H. unfold wp in H.
    destruct (ysto Y (dser KO (length b) k v)) as [[x L] Y'] eqn:EY. cbn [fst snd] in H.
    assert (RD : ready Y') by (apply (ysto_ok g gok ws aw np2 KO legal KC B Y pg _ x L Y' LY MG (dser_nocorr KO (length b) k v) EY)).
    destruct (m_store KO g b k v (power s p)) as [[[]|e] s1]; cbn [fst snd] in E; injection E as <- <-.
    + left. exists L, Y'. destruct H as [-> H]. split; [exists (Ok tt); auto|]. apply mend_mlay in H. destruct H as (H1 & H2 & _). split; auto. split; auto. now apply ready_hq.
    + destruct H as [[-> H]|[-> [H|[_ H]]]].
      * left. exists L, Y'. split; [exists (Err e); auto|]. apply mend_mlay in H. destruct H as (H1 & H2 & _). split; auto. split; auto. now apply ready_hq.
      * right. left. split; auto. now apply mcut2_mlay in H.
      * right. right. exists b, k, v. split; auto. split; auto. destruct H as (pg' & f & src & cl0 & sl & S1 & G1 & L1 & C1 & K1). split; [apply C1|].
        exists pg', f, src, cl0, sl, (PStale sl). split; [exact L1|]. split; [now left|]. split; [eapply crashed_sworld; eauto|]. split; [exact K1|]. split; [left; apply C1|auto].
  - clear REST. cbn [m_exec] in E. unfold mans1 in E. destruct CO as (LK & LB). pose proof (wp_m_fetch g gok ws ae aw np2 KO legal KC B Y pg b k (power s p) LK (SM b LB) MG) as H. unfold wp in H.
    destruct (m_fetch KO g b k (power s p)) as [[x|e] s1]; cbn [fst snd] in E; injection E as <- <-.
    + left. destruct H as (-> & Y' & L' & H & D). exists L', Y'. split; [split; auto|]. apply mend_mlay in H. destruct H as (H1 & H2 & RN). split; auto. split; auto.
      destruct D as [[-> ->]|(BD & -> & _)].
      * apply run_nil in RN. rewrite RN. exact HH.
      * apply hqY_nomig. unfold nomig. cbn. lia.
    + right. left. destruct H as (-> & BD & H). split; auto. apply mcut_mlay in H. destruct H as (HW & _ & Yc & CT & H1 & H2). split; auto. exists Yc. split; auto. split; auto. split; auto.
      apply hqY_nomig. unfold nomig. destruct CT as [->| ->]; cbn; lia.
  - destruct PR as [C1 C2]. apply REST; auto. split; auto. right. apply C2.
  - destruct PR as [C1 C2]. apply REST; auto. split; auto. right. apply C2.
  - destruct PR as (C1 & C2 & C3). apply REST; auto. split; auto.
Qed.

(** * The specification of a store *)
Notation upd := (upd (k_eqb KO)).
Notation eqm := (eqm legal).
Notation lastv := (lastv (k_eqb KO)).
Notation mdo := (mdo (k_eqb KO) legal (dser KO) (QSpec.big HL (cap g)) (negb ws)).
Notation mtrace := (mtrace (k_eqb KO) legal (dser KO) (QSpec.big HL (cap g)) (negb ws)).

Lemma store_done n t log m Y pg b k v x L Y' : layok NP Y pg -> legal k -> mgood (Bq n log) Y -> mgood (Bq n (newlog KO log (MStore b k v))) Y' -> y_bad Y' <= 1 ->
  (forall k, legal k -> m k = value k (content Y)) -> ysto Y (dser KO (length b) k v) = (x, L, Y') ->
  ready Y' /\ y_bad Y' = 0 /\ after_call t (MStore b k v) (RUnit x) = calm0 /\
  exists log', mdo m log (MStore b k v) (RUnit x) (fun k => value k (content Y')) log' /\ mgood (Bq n log') Y'.
Proof.
  intros LY LK MG MGY YB VM YS. pose proof (mgood_q n log _ Y (newlog_incl KO log (MStore b k v)) MG) as MG'.
  destruct (ysto_ok g gok ws aw np2 KO legal KC _ Y pg _ x L Y' LY MG' (dser_nocorr KO (length b) k v) YS) as (RD & SA & IN & CL).
  split; [exact RD|]. split; [apply (ready_bad g np2); auto; apply MGY|].
  assert (NCT : x <> Err (EStorage SShutoff)).
  { intros ->. destruct CL as [CL|(d & _ & [[X _]|[X _]])]; try discriminate X. unfold dser in CL. destruct (k_ser KO k (length b)); [destruct (_ <? _)|]; discriminate CL. }
  split. { unfold after_call. destruct x as [|e]; auto. destruct e; auto. destruct e; auto. congruence. }
  cbn [newlog] in MGY. destruct (dser KO (length b) k v) as [d|e] eqn:DS.
  - destruct x as [[]|e].
    + exists (log ++ [(k, v)]). destruct CL as (d' & [= <-] & TB). split; [|exact MGY].
      eapply MDStore; [exact DS| |]. { rewrite <- big_ok, TB. discriminate. } intros k' LK'. rewrite (val_after KO legal KC _ Y Y' k v d k' LK LK' DS SA). unfold MSpec.upd. now rewrite <- VM.
    + exists log. destruct CL as [CL|(d' & [= <-] & CL)]; [discriminate CL|].
      assert (EM : eqm (fun k => value k (content Y')) m) by (intros k' LK'; rewrite (val_same KO legal Y Y' k' SA LK'); now rewrite VM).
      split; [destruct CL as [[-> TB]|[-> TB]]; [eapply MDBig|eapply MDFull]; eauto; rewrite <- big_ok, TB; auto; discriminate|].
      cbn [dl] in IN. rewrite app_nil_r in IN. eapply (mgood_restrict g ws aw KO legal); [|exact (incl_Forall IN (mgood_P g ws aw KO legal _ _ MG))|exact MGY]. auto.
  - exists log. destruct x as [u|e']; [destruct CL as (d & X & _); discriminate X|]. destruct CL as [[= ->]|(d & X & _)]; [|discriminate X].
    split; [|exact MGY]. eapply MDSer; eauto. intros k' LK'. rewrite (val_same KO legal Y Y' k' SA LK'). now rewrite VM.
Qed.
Lemma store_cut n log m Y b k v (V : K -> option (list N)) : ws = false -> legal k -> (forall k, legal k -> m k = value k (content Y)) ->
  (exists Yc, cst Y (dser KO (length b) k v) Yc /\ forall k, legal k -> V k = value k (content Yc)) ->
  (forall Yc, mgood (Bq n (newlog KO log (MStore b k v))) Yc -> mgood (Bq n (newlog KO log (MStore b k v))) Yc) ->
  mdo m log (MStore b k v) (RUnit (Err (EStorage SShutoff))) V (newlog KO log (MStore b k v)).
Proof.
  intros HW LK VM (Yc & CT & VE) _. assert (PF : negb ws = true) by now rewrite HW. cbn [newlog]. destruct (dser KO (length b) k v) as [d|e] eqn:DS.
  - eapply MDStoreCut; eauto. destruct CT as [S|A].
    + left. intros k' LK'. rewrite VE, (val_same KO legal Y Yc k' S LK') by auto. now rewrite VM.
    + right. intros k' LK'. rewrite VE, (val_after KO legal KC _ Y Yc k v d k' LK LK' DS A) by auto. unfold MSpec.upd. now rewrite <- VM.
  - eapply MDStoreCut1; eauto. destruct CT as [S|A].
    + intros k' LK'. rewrite VE, (val_same KO legal Y Yc k' S LK') by auto. now rewrite VM.
    + destruct A as (d & X & _). discriminate X.
Qed.

Lemma yjst_ysto f src cl X D x L Y' : yjst g KO f src cl D = (x, L, Y') -> exists L2, ysto (jbase f (src :: cl) X) D = (x, L2, Y').
Proof.
  intros H. assert (E1 : yst g KO NP (jbase f (src :: cl) X) D = (Err ECorrupted, [], jbase f (src :: cl) X)).
  { replace NP with (S (NP - 1)) by lia. reflexivity. }
  assert (E2 : exists L1, yrp g KO (jbase f (src :: cl) X) = (L1, ymig g KO f src cl)) by (eexists; reflexivity). destruct E2 as (L1 & E2).
  unfold MCallP.ysto. rewrite E1, E2. unfold yjst in H. rewrite H. eauto.
Qed.

(** * Histories *)
Definition qst (n : nat) (t : mode) (log : list (K * list N)) (m : vmap) s : Prop :=
  (exists Y, mlay (fresh t) Y s /\ mgood (Bq n log) Y /\ hqY g (Bq n log) Y (f_mem (s_fl s)) /\
     (sure t = true -> settled Y) /\ (whole t = true -> y_bad Y = 0) /\ forall k, legal k -> m k = value k (content Y)) \/
  (sure t = false /\ exists Y, jst (Bq n log) Y s /\ forall k, legal k -> m k = value k (content Y)).

Lemma jst_q n log log' Y s : incl log log' -> jst (Bq n log) Y s -> jst (Bq n log') Y s.
Proof.
  intros I (pg & f & src & cl & X & P & A1 & A2 & A3 & A4 & A5 & A6 & A7). exists pg, f, src, cl, X, P. do 5 (split; auto). split; [eapply mgood_q; eauto|auto].
Qed.

Lemma qst_step n t log m s c p a s' : qst n t log m s -> mcokq n c -> covered_q t c -> (ws = true -> p = None) -> m_exec KO g c (power s p) = (a, s') ->
  exists m' log', mdo m log c a m' log' /\ qst n (after_call t c a) log' m' s'.
Proof.
  intros [(Y & ML & MG & HH & SU & WH & VM)|(SF & Y & JS & VM)] CO CV PO E.
  - pose proof (mlay_bad g ws ae aw KO legal _ _ _ ML) as YB.
    pose proof (mgood_q n log (newlog KO log c) Y (newlog_incl KO log c) MG) as MG'. pose proof (mgood_good g ws aw KO legal _ _ MG) as GG.
    assert (PR : match c with MStore _ _ _ | MFetch _ _ => True | MIter _ _ => fresh t = true /\ settled Y /\ y_bad Y = 0 | _ => fresh t = true /\ settled Y end).
    { destruct c; cbn [MSpec.covered_q] in CV; auto; destruct CV as [C1 C2]; auto. destruct C2. auto. }
    pose proof (q_exec (Bq n (newlog KO log c)) c p (fresh t) Y s a s' (Bq_qtl _ _) ML MG' (hqY_B _ _ _ _ (Bq_qtl _ _) HH) (mcokq_callok n log c CO) PR PO E) as OUT.
    destruct OUT as [(L & Y' & AC & ML' & MGY & HH')|[(-> & HW & Yc & CT & MLc & MGc & HHc)|(b & k & v & -> & -> & HW & JS)]].
    + pose proof (mlay_bad g ws ae aw KO legal _ _ _ ML') as YB'. exists (fun k => value k (content Y')).
      assert (MKS : forall log' t', mgood (Bq n log') Y' -> (sure t' = true -> settled Y') -> (whole t' = true -> y_bad Y' = 0) -> qst n t' log' (fun k => value k (content Y')) s').
      { intros log' t' A1 A2 A3. left. exists Y'. split; [|split; [exact A1|split; [eapply hqY_B; [apply Bq_qtl|exact HH']|auto]]]. destruct (fresh t'); auto. destruct ML' as (pg & X). exists pg. destruct X as (X1 & X2 & X3 & X4 & X5). repeat (split; auto); discriminate. }
      destruct c as [b k v|b k|b k|b|b bs]; cbn [MExecP.acts] in *; destruct CO as [CO _]; cbn [mcok] in CO.
      * destruct AC as (x & -> & YS). destruct CO as (LK & LB & NW). destruct ML as (pg & LY & _).
        destruct (store_done n t log m Y pg b k v x L Y' LY LK MG MGY YB' VM YS) as (RD & B0 & AF & log' & D & MG2). exists log'. rewrite AF. split; [exact D|].
        apply MKS; auto. intros _. now apply (MCallP.ready_settled g np2).
      * destruct AC as (-> & YE). destruct CO as (LK & LB). exists log.
        assert (CE : content Y' = content Y) by (destruct YE as [[-> _]|(_ & -> & _)]; reflexivity). split.
        -- rewrite <- VM by auto. apply MDFetch. intros k' LK'. now rewrite CE, VM.
        -- apply MKS; auto; cbn [after_call was_cut sure whole].
           ++ intros S. destruct YE as [[-> _]|(_ & -> & _)]; auto. apply (yrep_settled g np2); auto.
           ++ intros S. destruct YE as [[-> _]|(B1 & -> & _)]; auto.
      * destruct AC as (-> & -> & _). destruct CO as (LK & LB). exists log. split.
        -- apply MDRemove. intros k' LK'. rewrite (rm_val KO legal KC (Some k)) by auto. unfold MSpec.upd. now rewrite <- VM.
        -- apply MKS; auto; cbn [after_call was_cut sure whole]; auto. intros S. apply rm_settled, (yrep_settled g np2); auto.
      * destruct AC as (-> & -> & _). exists log. split.
        -- apply MDRemoveAll. intros k' LK'. now rewrite (rm_val KO legal KC None) by auto.
        -- apply MKS; auto; cbn [after_call was_cut sure whole]; auto. intros S. apply rm_settled, (yrep_settled g np2); auto.
      * destruct AC as (-> & -> & _). exists log. split.
        -- rewrite (pairs_map KO legal) by auto. apply MDIter.
           ++ intros x I. unfold pairs in I. apply in_flat_map in I. destruct I as (d & I & J). apply mgood_P in MG. rewrite Forall_forall in MG. destruct (MG d I) as ((y & E1 & E2) & _).
              rewrite E1 in J. destruct J as [<-|[]]. exact E2.
           ++ intros k LK. rewrite (pairs_last KO legal KC) by auto. now rewrite VM.
           ++ intros k LK. now rewrite VM.
        -- apply MKS; auto.
    + assert (PF : negb ws = true) by now rewrite HW. exists (fun k => value k (content Yc)).
      assert (MKS : forall log' t', mgood (Bq n log') Yc -> fresh t' = false -> (sure t' = true -> settled Yc) -> whole t' = false -> qst n t' log' (fun k => value k (content Yc)) s').
      { intros log' t' A1 A2 A3 A4. left. exists Yc. rewrite A2, A4. split; [exact MLc|]. split; [exact A1|]. split; [eapply hqY_B; [apply Bq_qtl|exact HHc]|]. split; auto. split; [discriminate|auto]. }
      assert (AF : after_call t c (cutans c) = mkmode (match c with MStore _ _ _ => false | _ => sure t end) false false) by (unfold after_call; now rewrite was_cut_ans).
      rewrite AF. destruct c as [b k v|b k|b k|b|b bs]; cbn [MExecP.cuts] in *; cbn [cutans]; destruct CO as [CO _]; cbn [mcok] in CO.
      * exists (newlog KO log (MStore b k v)). split; [|apply MKS; auto; discriminate]. eapply (store_cut n); eauto. apply CO.
      * exists log. assert (CE : content Yc = content Y) by (destruct CT as [->| ->]; reflexivity). split.
        -- apply MDFetchCut; auto. intros k' LK'. now rewrite CE, VM.
        -- apply MKS; auto. cbn [sure]. intros S. destruct CT as [->| ->]; auto. apply (yrep_settled g np2); auto.
      * destruct CO as (LK & LB). exists log. split.
        -- apply MDRemoveCut; auto. destruct (rc_val KO legal KC (Some k) Y Yc k LK LK GG CT) as [V|[_ V]].
           ++ left. intros k' LK'. destruct (rc_val KO legal KC (Some k) Y Yc k' LK LK' GG CT) as [V'|[KL V']]; [now rewrite V', VM|]. cbn in KL. subst k'. now rewrite V, VM.
           ++ right. intros k' LK'. unfold MSpec.upd. pose proof (kc_eqb KO legal KC k' k LK' LK) as EQ. destruct (rc_val KO legal KC (Some k) Y Yc k' LK LK' GG CT) as [V'|[KL V']].
              ** destruct (k_eqb KO k' k); [assert (k' = k) by (apply EQ; auto); subst k'; exact V|]. now rewrite V', VM.
              ** cbn in KL. subst k'. rewrite V. destruct EQ as [_ EQ]. now rewrite EQ.
        -- apply MKS; auto. cbn [sure]. intros S. destruct CT as [[R _]|[R _]]; (eapply (yrel_settled g np2); [exact R|]); auto. apply (yrep_settled g np2); auto.
      * exists log. split.
        -- apply MDRemoveAllCut; auto. intros k' LK'. destruct (rc_val KO legal KC None Y Yc k' I LK' GG CT) as [V'|[KL V']]; [left; now rewrite V', VM|now right].
        -- apply MKS; auto. cbn [sure]. intros S. destruct CT as [[R _]|[R _]]; (eapply (yrel_settled g np2); [exact R|]); auto. apply (yrep_settled g np2); auto.
      * destruct CT.
    + exists m, (newlog KO log (MStore b k v)). split.
      * eapply (store_cut n); eauto; [apply CO|]. exists Y. split; [left; apply same_refl|exact VM].
      * right. split; [reflexivity|]. exists Y. split; [exact JS|exact VM].
  - (* a page left by a torn erase *)
    destruct c as [b k v|b k|b k|b|b bs]; cbn [MSpec.covered_q] in CV; [| |exfalso; intuition congruence..].
    + pose proof (mcokq_callok n log _ CO) as CK. cbn [mcallok] in CK. destruct CK as (LK & LB & NW). set (log1 := newlog KO log (MStore b k v)) in *.
      destruct (jst_smw (Bq n log) Y s p b PO JS LB) as (pg & f & src & cl & X & P & JL & JP & SM & MG & SY & FW).
      pose proof (mgood_q n log log1 _ (newlog_incl KO log _) MG) as MG1. cbn [m_exec] in E. unfold mans1 in E.
      pose proof (wp_j_store g gok ws ae aw np2 KO legal KC (Bq n log1) W8 f src cl X P pg b k v (power s p) _ LK JL JP SM MG1 eq_refl NW) as H. cbv zeta in H. unfold wp in H.
      destruct (yjst g KO f src cl (dser KO (length b) k v)) as [[x L] Y'] eqn:EY. cbn [fst snd] in H.
      destruct (yjst_ysto f src cl X _ _ _ _ EY) as (L2 & YS). set (Y0 := jbase f (src :: cl) X) in *.
      assert (LY : layok NP Y0 (CalcP.upd pg ((f + length (src :: cl)) mod NP) (PPart X))).
      { split; [|cbn; lia]. exact (jlay_upd g gok _ _ _ (PPart X) _ JL). }
      assert (VM0 : forall k, legal k -> m k = value k (content Y0)) by (intros k' LK'; rewrite (val_same KO legal Y Y0 k' SY LK'); auto).
      assert (DONE : forall s1, (exists L, mend (Bq n log1) Y' (s_fl (power s p)) L (set_buf (power s p) b) s1) ->
        exists m' log', mdo m log (MStore b k v) (RUnit x) m' log' /\ qst n (after_call t (MStore b k v) (RUnit x)) log' m' s1).
      { intros s1 (L1 & ME). apply mend_mlay in ME. destruct ME as (ML' & MGY & _). pose proof (mlay_bad g ws ae aw KO legal _ _ _ ML') as YB'.
        destruct (store_done n t log m Y0 _ b k v x L2 Y' LY LK MG MGY YB' VM0 YS) as (RD & B0 & AF & log' & D & MG2). exists (fun k => value k (content Y')), log'. rewrite AF. split; [exact D|].
        left. exists Y'. split; [exact ML'|]. split; [exact MG2|]. split; [now apply ready_hq|]. split; [intros _; now apply (MCallP.ready_settled g np2)|auto]. }
      destruct (m_store KO g b k v (power s p)) as [[[]|e] s1]; cbn [fst snd] in E; injection E as <- <-.
      * destruct H as [-> H]. now apply DONE.
      * destruct H as [[-> H]|(-> & L1 & H)]; [now apply DONE|]. cbn [after_call was_cut].
        destruct H as [H|H].
        -- apply mcut2_mlay in H. destruct H as (HW & Yc & CT & MLc & MGc & HHc). exists (fun k => value k (content Yc)), log1. split.
           ++ eapply (store_cut n _ _ Y0); eauto.
           ++ left. exists Yc. split; [exact MLc|]. split; [exact MGc|]. split; [exact HHc|]. split; [discriminate|]. split; [discriminate|auto].
        -- apply jcut3_jst in H. destruct H as (HW & H). exists m, log1. split.
           ++ eapply (store_cut n _ _ Y0); eauto. exists Y0. split; [left; apply same_refl|exact VM0].
           ++ right. split; [reflexivity|]. exists Y0. split; [exact H|exact VM0].
    + destruct CO as [(LK & LB) _]. destruct (jst_smw (Bq n log) Y s p b PO JS LB) as (pg & f & src & cl & X & P & JL & JP & SM & MG & SY & FW).
      cbn [m_exec] in E. unfold mans1 in E.
      destruct (jl_good g ws ae aw np2 KO legal KC (Bq n log) f src cl X P pg _ JL JP FW MG) as (MI & OK & SJ & _ & _ & BZ).
      pose proof (wp_j_fetch g gok ws ae aw np2 KO legal KC (Bq n log) (jl f (src :: cl) P) pg b k (power s p) LK SM OK MI BZ) as H. unfold wp in H.
      destruct (m_fetch KO g b k (power s p)) as [[x|e] s1]; cbn [fst snd] in E; injection E as <- <-; [|destruct H].
      destruct H as (-> & (RL & W1 & KH & LB1) & F1). exists m, log.
      assert (SB : same Y (jl f (src :: cl) P)) by (eapply same_trans; eauto).
      split.
      * rewrite (val_same KO legal Y _ k SB LK), <- VM by auto. apply MDFetch. intros k' _. auto.
      * right. split; [exact SF|]. exists Y. split; [|exact VM]. exists pg, f, src, cl, X, P. split; [exact JL|]. split; [exact JP|]. split; [eapply world_sworld; eauto|]. split; [eapply kcoh_wf; eauto|].
        split; [right; exact KH|auto].
Qed.

Definition mevokq (n : nat) (e : mev K) : Prop :=
  match e with
  | MCall c p => mcokq n c /\ (ws = true -> p = None)
  | MBoot c => fresh_cache NP c
  end.
Lemma qst_boot n t log m s c : fresh_cache NP c -> qst n t log m s -> qst n (mkmode (sure t) true (whole t)) log m (set_ca s c).
Proof.
  intros F [(Y & A & B0)|(SF & Y & (pg & f & src & cl & X & P & A1 & A2 & (FW & _) & _ & _ & A6 & A7) & VM)].
  - left. exists Y. split; [cbn [fresh]; eapply mlay_boot; eauto|exact B0].
  - right. split; [exact SF|]. exists Y. split; [|exact VM]. exists pg, f, src, cl, X, P. destruct (cohK_fresh g pg c F) as [C1 C2].
    destruct (kp_fresh g np2 KO legal (ents (jl f (src :: cl) P)) (c_kp c) ltac:(apply F)) as [K1 K2].
    split; [exact A1|]. split; [exact A2|]. split; [split; [exact FW|split; [exact C1|right; exact C2]]|]. split; auto.
Qed.

Theorem qhist_ok n evs : forall t log m s l s', qst n t log m s -> Forall (mevokq n) evs -> calm_q t evs l -> m_run KO g s evs = (l, s') ->
  exists m' log', mtrace m log evs l m' log' /\ qst n (mode_after t evs l) log' m' s'.
Proof.
  induction evs as [|[c p|c] evs IH]; intros t log m s l s' MS EV CA E; cbn [m_run] in E.
  - injection E as <- <-. exists m, log. split; [constructor; intros k _; auto|exact MS].
  - inversion EV as [|? ? CP EV']; subst. destruct CP as [CO PO]. destruct (m_exec KO g c (power s p)) as [a s1] eqn:E1. destruct (m_run KO g s1 evs) as [l2 s2] eqn:E2. injection E as <- <-.
    cbn [calm_q] in CA. destruct CA as [CV CA]. destruct (qst_step n t log m s c p a s1 MS CO CV PO E1) as (m1 & log1 & D & MS1).
    destruct (IH _ _ _ _ _ _ MS1 EV' CA E2) as (m2 & log2 & T & MS2). exists m2, log2. split; [econstructor; eauto|exact MS2].
  - inversion EV as [|? ? CF EV']; subst. cbn [calm_q mode_after] in *. assert (CA' : calm_q (mkmode (sure t) true (whole t)) evs l) by (destruct l; exact CA).
    destruct (IH _ _ _ _ _ _ (qst_boot _ _ _ _ _ _ CF MS) EV' CA' E) as (m2 & log2 & T & MS2). exists m2, log2. split; [now constructor|].
    destruct l; exact MS2.
Qed.

Lemma qst_new n f c : erased g f -> f_ae f = ae -> f_aw f = aw -> (ws = true -> f_fuel f = None) -> fresh_cache NP c -> qst n calm0 [] (@nothing K) (st_new f c).
Proof.
  intros E A1 A2 A3 F. destruct (mst_new0 g gok ws ae aw np2 KO legal n f c E A1 A2 A3 F) as (ML & MG & ST). left. exists (mklay 0 [] None NP 0).
  split; [exact ML|]. split; [eapply (mgood_restrict g ws aw KO legal (Bl KO n [])); [reflexivity|constructor|exact MG]|]. split; [apply hqY_nomig; apply ST|].
  split; auto.
Qed.

(** With power no call is cut, and fetching says what is stored. *)
Lemma qst_fetch n t log m s b k : qst n t log m s -> legal k -> n <= length b ->
  exists s', m_exec KO g (MFetch b k) (power s None) = (RVal (Ok (m k)), s').
Proof.
  intros QS LK LB. destruct (m_exec KO g (MFetch b k) (power s None)) as [a s'] eqn:E. exists s'. f_equal.
  destruct QS as [(Y & ML & MG & _ & _ & _ & VM)|(_ & Y & JS & VM)].
  - destruct (exec_spec g gok ws ae aw np2 KO legal KC (Bq n log) (MFetch b k) None (fresh t) Y s a s' ML MG (conj LK LB) I (fun _ => eq_refl) E) as [(L & Y' & (-> & _) & _)|(_ & _ & X & _)].
    + now rewrite VM.
    + exfalso. apply X. reflexivity.
  - destruct (jst_smw (Bq n log) Y s None b (fun _ => eq_refl) JS LB) as (pg & f & src & cl & X & P & JL & JP & SM & MG & SY & FW). cbn [m_exec] in E. unfold mans1 in E.
    destruct (jl_good g ws ae aw np2 KO legal KC (Bq n log) f src cl X P pg _ JL JP FW MG) as (MI & OK & SJ & _ & _ & BZ).
    pose proof (wp_j_fetch g gok ws ae aw np2 KO legal KC (Bq n log) (jl f (src :: cl) P) pg b k (power s None) LK SM OK MI BZ) as H. unfold wp in H.
    destruct (m_fetch KO g b k (power s None)) as [[x|e] s1]; cbn [fst snd] in E; injection E as <- <-; [|destruct H].
    destruct H as (-> & _). assert (SB : same Y (jl f (src :: cl) P)) by (eapply same_trans; eauto). now rewrite (val_same KO legal Y _ k SB LK), <- VM by auto.
Qed.
End TornHist.
