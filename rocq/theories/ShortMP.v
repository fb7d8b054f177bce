(** Histories with map calls whose buffers are too small. *)
From Coq Require Import List NArith ZArith Arith Bool Lia.
From Verif Require Import Base BaseP Crc CrcP Flash Cache State Item Generic Map Codec CodecP GeomP ScanP WpP ItemP CalcP PageP WorldP LayP KeyP MLogP MFetchP MMigP MStoreP MCallP MExecP MHistP Client QSpec QObs MClient MSpec MObs MPropsP ProgP Reads ReadsP Drops DropP DropQP AeP DropMP Short ShortP ShortSP.
Import ListNotations.
Local Opaque crc16 acrc crc32.

Section SHist.
Context (g : geom) (gok : geom_ok g) (ae : bool) (aw : nat) (np2 : 2 <= NP g).
Context {K : Type} (KO : keyops K) (legal : K -> Prop) (KC : key_codec KO legal) (PC : prefix_codec KO).
Notation NP := (NP g).
Implicit Types (s : st K).
Notation mst := (mst g false ae aw KO legal).
Notation mcok := (mcok g false aw KO legal).
Notation mdo := (MSpec.mdo (k_eqb KO) legal (item_bytes KO) (mbig g) true).
Notation left_over := (left_over (k_eqb KO) legal).
Notation value := (value KO).

Definition small0 (t : mode) (c : mcall K) : mode := mkmode (match c with MStore _ _ _ => false | _ => sure t end) true false.
(** A store refused for its buffer. *)
Lemma stop_mst n t log m s b k v p r s' : mst n t log m s -> legal k -> n <= length b -> covered ae t (MStore b k v) p -> m_store_stop g KO b k v (power s p) = (r, s') ->
  exists m', eqm legal m' m /\ mst n (mkmode false false false) log m' s'.
Proof.
  intros (Y & ML & MG & SU & WH & VM) LK LB CV E. destruct ML as (pg & LY & SW & KW & KD & CL).
  assert (SWP : sworld g false ae aw pg (power s p)). { destruct SW as ((A1 & B1 & C1 & D1 & E1) & F1). split; [|exact F1]. split; [exact A1|]. split; [exact B1|]. split; [exact C1|]. split; [exact D1|discriminate]. }
  assert (SM : smw g false ae aw KO legal (Bl KO n log) Y pg (set_buf (power s p) b)) by (repeat split; auto; try apply LY; try apply SWP).
  assert (FU : ae = true \/ f_fuel (s_fl (power s p)) = None \/ settled Y). { cbn [covered] in CV. destruct CV as [X|[->|X]]; auto. }
  pose proof (wp_m_stop g gok false ae aw np2 KO legal KC (Bl KO n log) Y pg b k v (power s p) LK SM MG FU) as H. unfold wp in H. unfold M in H. rewrite E in H.
  assert (MK : forall Y' t', same KO legal Y Y' -> mlay g false ae aw KO legal false Y' t' -> mgood g false aw KO legal (Bl KO n log) Y' -> exists m', eqm legal m' m /\ mst n (mkmode false false false) log m' t').
  { intros Y' t' S1 M1 G1. exists (fun k => value k (QPushP.content Y')). split; [intros k' LK'; rewrite (val_same KO legal Y Y' k' S1 LK'); now rewrite VM|]. exists Y'. repeat (split; auto); discriminate. }
  destruct r as [[]|e]; [tauto|]. destruct H as [(L & Y' & S1 & ME)|(-> & L & MC)].
  - apply mend_mlay in ME; auto. destruct ME as (M1 & G1 & _). apply (MK Y'); auto. destruct M1 as (pg' & X1 & X2 & X3 & X4 & X5). exists pg'. repeat (split; auto); try apply X1; try apply X2; discriminate.
  - apply mcut_mlay in MC. destruct MC as (_ & _ & Yc & S1 & M1 & G1). now apply (MK Yc).
Qed.
Lemma small_store n t log m s b k v ca a s' : mst n t log m s -> legal k -> covered ae t (MStore b k v) (Some 0) -> fresh_cache NP ca -> m_exec KO g (MStore b k v) (power s None) = (a, s') -> m_small a = true ->
  exists m', eqm legal m' m /\ mst n (small0 t (MStore b k v)) log m' (set_ca s' ca).
Proof.
  intros MS LK CV FC E SM. cbn [m_exec] in E. unfold mans1 in E. injection E as <- <-. cbn [m_small] in SM.
  assert (LN : n <= length (b ++ repeat 0%N n)) by (rewrite app_length, repeat_length; lia).
  destruct (stop_store g gok KO PC legal KC b (repeat 0%N n) k v s LK) as [[(R1 & R2)|(e & R1 & _ & j & R3 & _)]|R].
  - destruct (m_store_stop g KO (b ++ repeat 0%N n) k v (power s None)) as [r2 s2] eqn:E2. cbn [fst snd] in *.
    destruct (stop_mst n t log m s _ k v None r2 s2 MS LK LN ltac:(cbn [covered] in *; tauto) E2) as (m' & EM & MS'). exists m'. split; auto.
    eapply mst_reboot; [exact gok|exact np2|exact FC|rewrite (ext_fl _ _ R2); apply same_refl| | |exact MS']; unfold small0; cbn [sure whole]; discriminate.
  - change (power (power s None) (Some j)) with (power s (Some j)) in R3. destruct (m_store_stop g KO (b ++ repeat 0%N n) k v (power s (Some j))) as [r2 s2] eqn:E2. cbn [fst snd] in *.
    destruct (stop_mst n t log m s _ k v (Some j) r2 s2 MS LK LN ltac:(cbn [covered] in *; intuition discriminate) E2) as (m' & EM & MS'). exists m'. split; auto.
    eapply mst_reboot; [exact gok|exact np2|exact FC|apply same_sym, R3| | |exact MS']; unfold small0; cbn [sure whole]; discriminate.
  - exfalso. destruct (fst (m_store KO g b k v (power s None))) as [[]|e]; [discriminate|]. destruct e; cbn in *; tauto || discriminate.
Qed.
Lemma cov_wide t n (c : mcall K) p : covered ae t (wide n c) p <-> covered ae t c p. Proof. destruct c; reflexivity. Qed.
Lemma after_wide t n (c : mcall K) a : after_call t (wide n c) a = after_call t c a. Proof. unfold after_call. destruct c; reflexivity. Qed.
Lemma wide_len n b : n <= length (longer n b). Proof. unfold longer. rewrite app_length, repeat_length. lia. Qed.
Lemma mst_ext n t log m s1 s2 : ext s1 s2 -> mst n t log m s2 -> mst n t log m s1.
Proof. intros (pad & ->) H. exact H. Qed.
Lemma any_ok0 n t log m s c ca a s' : mst n t log m s -> mcok n (wide n c) -> covered ae t c (Some 0) -> fresh_cache NP ca -> m_exec KO g c (power s None) = (a, s') ->
  (m_small a = true /\ exists m', left_over m c m' /\ mst n (small0 t c) log m' (set_ca s' ca)) \/
  (m_small a = false /\ exists m' log', mdo m log (wide n c) a m' log' /\ mst n (after_call t c a) log' m' s').
Proof.
  intros MS CO CV FC E.
  assert (ST : forall b k v, c = MStore b k v -> legal k) by (intros b k v ->; apply CO).
  destruct (m_small a) eqn:SM.
  - left. split; auto. destruct c as [b k v|b k|b k|b|b bs]; [destruct CO as (LK & _); exact (small_store n t log m s b k v ca a s' MS LK CV FC E SM)|..].
    all: match type of E with m_exec _ _ ?c _ = _ => set (c0 := c) in * end; destruct (small_any g gok KO PC legal KC n c0 s ST) as [(R1 & R2)|(_ & j & R3)]; rewrite E in *; cbn [fst snd] in *.
    all: try (exfalso; destruct (m_exec KO g (wide n c0) (power s None)) as [a2 s2] eqn:E2; cbn [fst snd] in *; subst a2;
      destruct (mst_step g gok false ae aw np2 KO legal KC n t log m s (wide n c0) None a s2 MS CO (proj2 (cov_wide t n c0 None) ltac:(subst c0; cbn [covered] in *; tauto)) (fun _ => eq_refl) E2) as (m' & log' & D & _);
      subst c0; cbn [wide] in D; inversion D; subst; discriminate).
    all: destruct (m_exec KO g (wide n c0) (power s (Some j))) as [a2 s2] eqn:E2; cbn [fst snd] in *;
      destruct (mst_step g gok false ae aw np2 KO legal KC n t log m s (wide n c0) (Some j) a2 s2 MS CO (proj2 (cov_wide t n c0 (Some j)) ltac:(subst c0; cbn [covered] in *; intuition discriminate)) (fun X => ltac:(discriminate)) E2) as (m' & log' & D & MS');
      exists m'; assert (LG : log' = log) by (subst c0; cbn [wide] in D; inversion D; reflexivity); subst log';
      (split; [subst c0; cbn [wide] in D; cbn [Short.left_over]; inversion D; subst; auto; intros k' LK'; auto; try (match goal with X : eqm legal _ nothing |- _ => right; exact (X k' LK') end)|]);
      (eapply mst_reboot; [exact gok|exact np2|exact FC|apply same_sym, R3| | |exact MS']; unfold small0; cbn [sure whole]; [|discriminate]; rewrite after_wide; unfold after_call; destruct (was_cut a2); subst c0; cbn; auto; discriminate).
  - right. split; auto. destruct (small_any g gok KO PC legal KC n c s ST) as [(R1 & R2)|(R & _)]; [|rewrite E in R; cbn [fst] in R; congruence]. rewrite E in *. cbn [fst snd] in *.
    destruct (m_exec KO g (wide n c) (power s None)) as [a2 s2] eqn:E2. cbn [fst snd] in *. subst a2.
    assert (CV' : covered ae t (wide n c) None) by (apply cov_wide; destruct c; cbn [covered] in *; intuition auto).
    destruct (mst_step g gok false ae aw np2 KO legal KC n t log m s (wide n c) None a s2 MS CO CV' (fun _ => eq_refl) E2) as (m' & log' & D & MS'). exists m', log'. split; [exact D|].
    rewrite after_wide in MS'. eapply mst_ext; eauto.
Qed.
End SHist.
Section SHist2.
Context (g : geom) (gok : geom_ok g) (ae : bool) (aw : nat) (np2 : 2 <= NP g).
Context {K : Type} (KO : keyops K) (legal : K -> Prop) (KC : key_codec KO legal) (PC : prefix_codec KO).
Notation NP := (NP g).
Implicit Types (s : st K).
Notation mst := (mst g false ae aw KO legal).
Notation mcok := (mcok g false aw KO legal).
Notation mdo := (MSpec.mdo (k_eqb KO) legal (item_bytes KO) (mbig g) true).
Notation left_over := (left_over (k_eqb KO) legal).
Lemma any_ok n t log m s c ca a s' : mst n t log m s -> mcok n (wide n c) -> covered (ae || whole t) t c (Some 0) -> fresh_cache NP ca -> m_exec KO g c (power s None) = (a, s') ->
  (m_small a = true /\ exists m', left_over m c m' /\ mst n (small_mode t c) log m' (set_ca s' ca)) \/
  (m_small a = false /\ exists m' log', mdo m log (wide n c) a m' log' /\ mst n (after_call t c a) log' m' s').
Proof.
  intros MS CO CV FC E. destruct (whole t) eqn:WT.
  - rewrite orb_true_r in CV. pose proof (mst_up g gok aw np2 KO legal ae n t log m s MS WT) as MU.
    destruct (m_steady_ae g KO c (power s None) eq_refl) as (E2 & AE). rewrite E in E2, AE. cbn [fst snd] in E2, AE. change (aes (power s None)) with (power (aes s) None) in E2.
    assert (A0 : f_ae (s_fl s) = ae) by (destruct MS as (Y & (pg & _ & ((_ & _ & (A & _) & _) & _) & _) & _); exact A).
    destruct (any_ok0 g gok true aw np2 KO legal KC PC n t log m (aes s) c ca a (aes s') MU CO CV FC E2) as [(G & m' & D & MS')|(G & m' & log' & D & MS')]; [left; split; auto; exists m'|right; split; auto; exists m', log'];
      (split; [exact D|]).
    + eapply mst_less; [| | |eapply (mst_down g gok aw np2 KO legal ae _ _ _ _ (set_ca s' ca) MS'); exact (eq_trans AE A0)]; auto.
    + eapply mst_less; [| | |eapply (mst_down g gok aw np2 KO legal ae _ _ _ _ s' MS'); exact (eq_trans AE A0)]; auto.
  - rewrite orb_false_r in CV. destruct (any_ok0 g gok ae aw np2 KO legal KC PC n t log m s c ca a s' MS CO CV FC E) as [(G & m' & D & MS')|(G & m' & log' & D & MS')]; [left; split; auto; exists m'|right; split; auto; exists m', log'];
      (split; [exact D|]); auto. eapply mst_less; [| | |exact MS']; unfold small_mode, small0; cbn; auto; congruence.
Qed.
Notation msev_ok := (msev_ok KO legal g).
Notation mstrace := (mstrace (k_eqb KO) legal (item_bytes KO) (mbig g)).
Theorem mshist_ok (ST : msetting true g aw) n evs : forall t log m s l s', mst n t log m s -> Forall (msev_ok n) evs -> calm_s ae t evs l -> m_srun KO g s evs = (l, s') ->
  exists t' m' log', mst n t' log' m' s' /\ mstrace n m log evs l m' log'.
Proof.
  induction evs as [|[[c p|c]|c ca] evs IH]; intros t log m s l s' MS EV CA E; cbn [m_srun] in E; [injection E as <- <-; exists t, m, log; split; [auto|constructor]|..]; inversion EV as [|? ? EO EV']; subst.
  - destruct (m_exec KO g c (power s p)) as [a s1] eqn:E1. destruct (m_srun KO g s1 evs) as [l2 s2] eqn:E2. injection E as <- <-. cbn [calm_s] in CA. destruct CA as (CV & CA). destruct EO as (_ & CO).
    destruct (mst_step g gok false ae aw np2 KO legal KC n t log m s c p a s1 MS (mcall_mcok KO legal true g aw n c ST CO) CV (fun X => ltac:(discriminate)) E1) as (m1 & log1 & D & MS1).
    destruct (IH _ _ _ _ _ _ MS1 EV' CA E2) as (t' & m' & log' & MS' & T'). exists t', m', log'. split; auto. econstructor; eauto.
  - assert (CA' : calm_s ae (mkmode (sure t) true (whole t)) evs l) by (destruct l; exact CA).
    destruct (IH _ _ _ _ _ _ (mst_boot g false ae aw np2 KO legal n _ _ _ _ _ EO MS) EV' CA' E) as (t' & m' & log' & MS' & T'). exists t', m', log'. split; auto. now constructor.
  - destruct (m_exec KO g c (power s None)) as [a s1] eqn:E1. destruct (m_srun KO g (if m_small a then set_ca s1 ca else s1) evs) as [l2 s2] eqn:E2. injection E as <- <-. destruct EO as (CO & FC). cbn [calm_s] in CA. destruct CA as (CV & CA).
    destruct (any_ok n t log m s c ca a s1 MS (mcall_mcok KO legal true g aw n _ ST CO) CV FC E1) as [(G' & m1 & D & MS1)|(G' & m1 & log1 & D & MS1)]; rewrite G' in *.
    + destruct (IH _ _ _ _ _ _ MS1 EV' CA E2) as (t' & m' & log' & MS' & T'). exists t', m', log'. split; auto. eapply STSmall; eauto.
    + destruct (IH _ _ _ _ _ _ MS1 EV' CA E2) as (t' & m' & log' & MS' & T'). exists t', m', log'. split; auto. eapply STFits; eauto.
Qed.
End SHist2.
Theorem small_map {K} (KO : keyops K) (legal : K -> Prop) g n f c evs l s : key_codec KO legal -> prefix_codec KO -> erased g f -> f_fuel f = None -> fresh_cache (NP g) c -> msetting true g (f_aw f) ->
  Forall (msev_ok KO legal g n) evs -> calm_s (f_ae f) calm0 evs l -> m_srun KO g (st_new f c) evs = (l, s) ->
  exists m log, mstrace (k_eqb KO) legal (item_bytes KO) (mbig g) n (@nothing K) [] evs l m log /\ m_holds KO legal g n s m.
Proof.
  intros KC PC ER FU FC ST EV CA E. pose proof ST as (gok & np2 & _).
  pose proof (mst_new g gok false (f_ae f) (f_aw f) np2 KO legal n f c ER eq_refl eq_refl (fun _ => FU) FC) as M0.
  destruct (mshist_ok g gok (f_ae f) (f_aw f) np2 KO legal KC PC ST n evs _ _ _ _ _ _ M0 EV CA E) as (t' & m & log & MS & T). exists m, log. split; auto. eapply mst_holds; eauto.
Qed.

(** The built-in keys. *)
Lemma pc_num w : prefix_codec (key_num w).
Proof. intros b x more. cbn [key_num k_de]. destruct (Nat.ltb_spec (length b) w); [discriminate|]. rewrite app_length. destruct (Nat.ltb_spec (length b + length more) w); [lia|]. now rewrite front_app by lia. Qed.
Lemma pc_int w : prefix_codec (key_int w).
Proof. intros b x more. cbn [key_int k_de]. destruct (Nat.ltb_spec (length b) w); [discriminate|]. rewrite app_length. destruct (Nat.ltb_spec (length b + length more) w); [lia|]. now rewrite front_app by lia. Qed.
Lemma pc_array w : prefix_codec (key_array w).
Proof. intros b x more. cbn [key_array k_de]. destruct (Nat.ltb_spec (length b) w); [discriminate|]. rewrite app_length. destruct (Nat.ltb_spec (length b + length more) w); [lia|]. now rewrite front_app by lia. Qed.
Lemma pc_unit : prefix_codec key_unit. Proof. intros b x more H. exact H. Qed.
Lemma pc_prefix cap ok b x more : prefix_de cap ok b = inl x -> prefix_de cap ok (b ++ more) = inl x.
Proof.
  unfold prefix_de, prefix_len. destruct (Nat.ltb_spec (length b) 2); [discriminate|]. rewrite app_length. destruct (Nat.ltb_spec (length b + length more) 2); [lia|]. rewrite front_app by lia.
  set (tot := _ + 2). destruct (Nat.ltb_spec (length b) tot); [discriminate|]. destruct (Nat.ltb_spec (length b + length more) tot); [lia|]. cbv zeta. rewrite skipn_app. replace (2 - length b) with 0 by lia. cbn [skipn].
  rewrite (front_app (match b with [] => [] | _ :: l => match l with [] => [] | _ :: l0 => l0 end end)). 1: auto. change (match b with [] => [] | _ :: l => match l with [] => [] | _ :: l0 => l0 end end) with (skipn 2 b). rewrite skipn_length. lia.
Qed.
Lemma pc_vec cap : prefix_codec (key_vec cap). Proof. intros b x more. apply pc_prefix. Qed.
Lemma pc_string small cap : prefix_codec (key_string small cap). Proof. intros b x more. apply pc_prefix. Qed.
Lemma short_any {K} (KO : keyops K) (legal : K -> Prop) g n c s : geom_ok g -> key_codec KO legal -> prefix_codec KO -> (forall b k v, c = MStore b k v -> legal k) ->
  let r := m_exec KO g c (power s None) in let w := m_exec KO g (wide n c) (power s None) in
  (fst w = fst r /\ s_fl (snd w) = s_fl (snd r) /\ s_ca (snd w) = s_ca (snd r)) \/
  (m_small (fst r) = true /\ exists k, same_flash (snd r) (snd (m_exec KO g (wide n c) (power s (Some k))))).
Proof.
  intros gok KC PC ST r w. destruct (small_any g gok KO PC legal KC n c s ST) as [(R1 & pad & R2)|R]; [left|right; exact R].
  subst r w. split; [exact R1|]. rewrite R2. split; reflexivity.
Qed.
