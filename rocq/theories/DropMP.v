(** Map calls dropped at a read, each followed by a restart; calls dropped at a read in any state whatever. *)
From Coq Require Import List NArith ZArith Arith Bool Lia.
From Verif Require Import Base BaseP Crc CrcP Flash Cache State Item Generic Queue Map Codec CodecP TMap GeomP ScanP WpP ItemP CalcP PageP WorldP LayP KeyP MLogP MExecP MHistP Client QSpec QObs MClient MSpec MObs MPropsP ProgP Reads ReadsP Drops DropP DropQP AeP.
Import ListNotations.
Local Opaque crc16 acrc crc32.

Section MHist.
Context (g : geom) (gok : geom_ok g) (ae : bool) (aw : nat) (np2 : 2 <= NP g).
Context {K : Type} (KO : keyops K) (legal : K -> Prop) (KC : key_codec KO legal).
Notation NP := (NP g).
Implicit Types (s : st K).
Notation mst := (mst g false ae aw KO legal).
Notation mcok := (mcok g false aw KO legal).

Lemma m_exec_drops T c s l : f_fuel (s_fl s) = None ->
  (exists l', m_exec (R := dropping T) KO g c (logged s l) = (fst (m_exec KO g c s), logged (snd (m_exec KO g c s)) l') /\ m_gone (fst (m_exec KO g c s)) = false) \/
  (m_gone (fst (m_exec (R := dropping T) KO g c (logged s l))) = true /\ exists k, same_fl (s_fl (snd (m_exec (R := dropping T) KO g c (logged s l)))) (s_fl (snd (m_exec KO g c (power s (Some k)))))).
Proof.
  intros FU.
  assert (PL : forall A (f : res A -> mans K) (m : reader -> M K A), (forall R s, m_exec (R := R) KO g c s = mans1 f (m R s)) -> (forall r, m_gone (f r) = is_gone r) -> drops T m -> ends (m steady) ->
    (exists l', m_exec (R := dropping T) KO g c (logged s l) = (fst (m_exec KO g c s), logged (snd (m_exec KO g c s)) l') /\ m_gone (fst (m_exec KO g c s)) = false) \/
    (m_gone (fst (m_exec (R := dropping T) KO g c (logged s l))) = true /\ exists k, same_fl (s_fl (snd (m_exec (R := dropping T) KO g c (logged s l)))) (s_fl (snd (m_exec KO g c (power s (Some k))))))).
  { intros A f m EX GN DR EN. rewrite !EX. unfold mans1. cbn [fst snd]. rewrite !GN. destruct (DR s l FU) as [(l' & H)|(H & k & SF & _)].
    - left. exists l'. rewrite H. cbn [fst snd]. split; auto. destruct (is_gone (fst (m steady s))) eqn:G; auto. apply gone_iff in G. now destruct (EN s).
    - right. split; [now apply gone_iff|]. exists k. rewrite EX. exact SF. }
  destruct c as [b k v|b k|b k|b|b bs].
  - exact (PL _ RUnit (fun R => m_store KO g b k v) (fun _ _ => eq_refl) (fun _ => eq_refl) (prog_drops g T _ _ _ (p_store KO g b k v)) (prog_ends g _ _ _ (p_store KO g b k v))).
  - exact (PL _ RVal (fun R => m_fetch KO g b k) (fun _ _ => eq_refl) (fun _ => eq_refl) (prog_drops g T _ _ _ (p_fetch KO g b k)) (prog_ends g _ _ _ (p_fetch KO g b k))).
  - exact (PL _ RUnit (fun R => m_remove KO g b k) (fun _ _ => eq_refl) (fun _ => eq_refl) (prog_drops g T _ _ _ (p_remove KO g b k)) (prog_ends g _ _ _ (p_remove KO g b k))).
  - exact (PL _ RUnit (fun R => m_remove_all KO g b) (fun _ _ => eq_refl) (fun _ => eq_refl) (prog_drops g T _ _ _ (p_remove_all KO g b)) (prog_ends g _ _ _ (p_remove_all KO g b))).
  - exact (PL _ RList (fun R => m_iterate KO g b bs) (fun _ _ => eq_refl) (fun _ => eq_refl) (prog_drops g T _ _ _ (p_m_iterate KO g b bs)) (prog_ends g _ _ _ (p_m_iterate KO g b bs))).
Qed.

(** A restart with the same contents of the flash. *)
Lemma mst_reboot n t t' log m s s' c : fresh_cache NP c -> same_fl (s_fl s) (s_fl s') -> (sure t' = true -> sure t = true) -> (whole t' = true -> whole t = true) ->
  mst n t log m s -> mst n t' log m (set_ca s' c).
Proof.
  intros F SF H1 H2 (Y & ML & MG & SU & WH & VM). destruct ML as (pg & LY & (FW & _) & _). exists Y. split; [|auto 6]. exists pg.
  destruct (cohK_fresh g pg c F) as [C1 C2]. destruct (kp_fresh g np2 KO legal (ents g Y) (c_kp c) ltac:(apply F)) as [K1 K2].
  split; auto. split; [split; [eapply fworld_same; eauto|split; [exact C1|right; exact C2]]|]. split; auto.
Qed.
Notation mdo := (MSpec.mdo (k_eqb KO) legal (item_bytes KO) (mbig g) true).
Lemma cov_any t (c : mcall K) k : covered ae t c (Some 0) -> covered ae t c (Some k).
Proof. destruct c; cbn [covered]; auto; intuition discriminate. Qed.
(* the part of [gone_mode] that needs no more than the power failures *)
Definition gone0 (t : mode) (c : mcall K) : mode := mkmode (match c with MStore _ _ _ => false | _ => sure t end) true false.
Lemma mread_ok0 n t log m s c T ca a s' : mst n t log m s -> mcok n c -> covered ae t c (Some 0) -> fresh_cache NP ca -> m_exec (R := dropping T) KO g c (power s None) = (a, s') ->
  (m_gone a = true /\ exists a' m' log', mdo m log c a' m' log' /\ mst n (gone0 t c) log' m' (set_ca s' ca)) \/
  (m_gone a = false /\ exists m' log', mdo m log c a m' log' /\ mst n (let t' := after_call t c a in mkmode (sure t') true (whole t')) log' m' (set_ca s' ca)).
Proof.
  intros MS CO CV FC E. set (s0 := power s None) in *. destruct (m_exec_drops T c s0 (f_bad (s_fl s0)) eq_refl) as [(l' & X & G)|(G & k & SF)]; rewrite logged_id, E in *; cbn [fst snd] in *.
  - right. injection X as X1 X2. rewrite X1. split; auto. destruct (m_exec (R := steady) KO g c s0) as [a2 s2] eqn:E2. cbn [fst snd] in *.
    assert (CV' : covered ae t c None) by (destruct c; cbn [covered] in *; intuition auto).
    destruct (mst_step g gok false ae aw np2 KO legal KC n t log m s c None a2 s2 MS CO CV' (fun _ => eq_refl) E2) as (m' & log' & D & MS'). exists m', log'. split; [exact D|].
    rewrite X2. eapply mst_reboot; [exact FC| | | |exact MS']; [repeat split|auto|auto].
  - left. split; auto. change (power s0 (Some k)) with (power s (Some k)) in SF. destruct (m_exec (R := steady) KO g c (power s (Some k))) as [a2 s2] eqn:E2. cbn [snd] in SF.
    destruct (mst_step g gok false ae aw np2 KO legal KC n t log m s c (Some k) a2 s2 MS CO (cov_any t c k CV) (fun X => ltac:(discriminate)) E2) as (m' & log' & D & MS'). exists a2, m', log'. split; [exact D|].
    eapply mst_reboot; [exact FC|apply same_sym, SF| | |exact MS']; unfold gone0; cbn [sure whole]; [|discriminate]. unfold after_call. destruct (was_cut a2), c; cbn; auto; discriminate.
Qed.
End MHist.
Section MHist2.
Context (g : geom) (gok : geom_ok g) (ae : bool) (aw : nat) (np2 : 2 <= NP g).
Context {K : Type} (KO : keyops K) (legal : K -> Prop) (KC : key_codec KO legal).
Notation NP := (NP g).
Implicit Types (s : st K).
Notation mst := (mst g false ae aw KO legal).
Notation mcok := (mcok g false aw KO legal).
Notation mdo := (MSpec.mdo (k_eqb KO) legal (item_bytes KO) (mbig g) true).
Lemma mst_less (t t' : mode) n log m s : sure t' = sure t -> fresh t' = fresh t -> (whole t' = true -> whole t = true) -> mst n t log m s -> mst n t' log m s.
Proof. intros E1 E2 E3 (Y & A & B & C & D & F). exists Y. rewrite E1, E2. repeat (split; auto). Qed.
Lemma mread_ok n t log m s c T ca a s' : mst n t log m s -> mcok n c -> covered (ae || whole t) t c (Some 0) -> fresh_cache NP ca -> m_exec (R := dropping T) KO g c (power s None) = (a, s') ->
  (m_gone a = true /\ exists a' m' log', mdo m log c a' m' log' /\ mst n (gone_mode t c) log' m' (set_ca s' ca)) \/
  (m_gone a = false /\ exists m' log', mdo m log c a m' log' /\ mst n (let t' := after_call t c a in mkmode (sure t') true (whole t')) log' m' (set_ca s' ca)).
Proof.
  intros MS CO CV FC E. destruct (whole t) eqn:WT.
  - rewrite orb_true_r in CV. pose proof (mst_up g gok aw np2 KO legal ae n t log m s MS WT) as MU.
    destruct (m_dropping_ae g KO T c (power s None) eq_refl) as (E2 & AE). rewrite E in E2, AE. cbn [fst snd] in E2, AE. change (aes (power s None)) with (power (aes s) None) in E2.
    assert (A0 : f_ae (s_fl s) = ae) by (destruct MS as (Y & (pg & _ & ((_ & _ & (A & _) & _) & _) & _) & _); exact A).
    destruct (mread_ok0 g gok true aw np2 KO legal KC n t log m (aes s) c T ca a (aes s') MU CO CV FC E2) as [(G & a' & m' & log' & D & MS')|(G & m' & log' & D & MS')]; [left; split; auto; exists a', m', log'|right; split; auto; exists m', log'];
      (split; [exact D|]); (eapply mst_less; [| | |eapply (mst_down g gok aw np2 KO legal ae _ _ _ _ (set_ca s' ca) MS'); exact (eq_trans AE A0)]; auto).
  - rewrite orb_false_r in CV. destruct (mread_ok0 g gok ae aw np2 KO legal KC n t log m s c T ca a s' MS CO CV FC E) as [(G & a' & m' & log' & D & MS')|(G & m' & log' & D & MS')]; [left; split; auto; exists a', m', log'|right; split; auto; exists m', log'];
      (split; [exact D|]); auto. eapply mst_less; [| | |exact MS']; unfold gone_mode, gone0; cbn; auto; congruence.
Qed.
Notation mdev_ok := (mdev_ok KO legal g).
Notation mdtrace := (mdtrace (k_eqb KO) legal (item_bytes KO) (mbig g)).
Theorem mdhist_ok (ST : msetting true g aw) n evs : forall t log m s l s', mst n t log m s -> Forall (mdev_ok n) evs -> calm_d ae t evs l -> m_drun KO g s evs = (l, s') ->
  exists t' m' log', mst n t' log' m' s' /\ mdtrace m log evs l m' log'.
Proof.
  induction evs as [|[[c p|c]|c T ca] evs IH]; intros t log m s l s' MS EV CA E; cbn [m_drun] in E; [injection E as <- <-; exists t, m, log; split; [auto|constructor]|..]; inversion EV as [|? ? EO EV']; subst.
  - destruct (m_exec (R := steady) KO g c (power s p)) as [a s1] eqn:E1. destruct (m_drun KO g s1 evs) as [l2 s2] eqn:E2. injection E as <- <-. cbn [calm_d] in CA. destruct CA as (CV & CA). destruct EO as (_ & CO).
    destruct (mst_step g gok false ae aw np2 KO legal KC n t log m s c p a s1 MS (mcall_mcok KO legal true g aw n c ST CO) CV (fun X => ltac:(discriminate)) E1) as (m1 & log1 & D & MS1).
    destruct (IH _ _ _ _ _ _ MS1 EV' CA E2) as (t' & m' & log' & MS' & T'). exists t', m', log'. split; auto. econstructor; eauto.
  - assert (CA' : calm_d ae (mkmode (sure t) true (whole t)) evs l) by (destruct l; exact CA).
    destruct (IH _ _ _ _ _ _ (mst_boot g false ae aw np2 KO legal n _ _ _ _ _ EO MS) EV' CA' E) as (t' & m' & log' & MS' & T'). exists t', m', log'. split; auto. now constructor.
  - destruct (m_exec (R := drop_at s T) KO g c (power s None)) as [a s1] eqn:E1. destruct (m_drun KO g (set_ca s1 ca) evs) as [l2 s2] eqn:E2. injection E as <- <-. destruct EO as (CO & FC).
    destruct (m_gone a) eqn:G; cbn [calm_d] in CA; destruct CA as (CV & CA);
    destruct (mread_ok n t log m s c _ ca a s1 MS (mcall_mcok KO legal true g aw n c ST CO) CV FC E1) as [(G' & a' & m1 & log1 & D & MS1)|(G' & m1 & log1 & D & MS1)]; try congruence.
    + destruct (IH _ _ _ _ _ _ MS1 EV' CA E2) as (t' & m' & log' & MS' & T'). exists t', m', log'. split; auto. eapply MTDrop'; eauto.
    + destruct (IH _ _ _ _ _ _ MS1 EV' CA E2) as (t' & m' & log' & MS' & T'). exists t', m', log'. split; auto. eapply MTDone'; eauto.
Qed.
End MHist2.
Theorem drop_map {K} (KO : keyops K) (legal : K -> Prop) g n f c evs l s : key_codec KO legal -> erased g f -> f_fuel f = None -> fresh_cache (NP g) c -> msetting true g (f_aw f) ->
  Forall (mdev_ok KO legal g n) evs -> calm_d (f_ae f) calm0 evs l -> m_drun KO g (st_new f c) evs = (l, s) ->
  exists m log, mdtrace (k_eqb KO) legal (item_bytes KO) (mbig g) (@nothing K) [] evs l m log /\ m_holds KO legal g n s m.
Proof.
  intros KC ER FU FC ST EV CA E. pose proof ST as (gok & np2 & _).
  pose proof (mst_new g gok false (f_ae f) (f_aw f) np2 KO legal n f c ER eq_refl eq_refl (fun _ => FU) FC) as M0.
  destruct (mdhist_ok g gok (f_ae f) (f_aw f) np2 KO legal KC ST n evs _ _ _ _ _ _ M0 EV CA E) as (t' & m & log & MS & T). exists m, log. split; auto. eapply mst_holds; eauto.
Qed.

(** Any state. *)
Lemma q_any g s c t : let r := q_exec g c (power s None) in let d := q_exec (R := drop_at s t) g c (power s None) in
  (fst d = fst r /\ same_but_log (snd r) (snd d)) \/ (q_gone (fst d) = true /\ exists k, same_flash (snd d) (snd (q_exec g c (power s (Some k))))).
Proof.
  cbv zeta. unfold drop_at. set (T := _ + t). set (s0 := power s None).
  assert (PL : forall A (f : res A -> qans) (m : reader -> M unit A), (forall R s, q_exec (R := R) g c s = ans1 f (m R s)) -> (forall r, q_gone (f r) = is_gone r) -> drops T m ->
    (fst (q_exec (R := dropping T) g c s0) = fst (q_exec g c s0) /\ same_but_log (snd (q_exec g c s0)) (snd (q_exec (R := dropping T) g c s0))) \/
    (q_gone (fst (q_exec (R := dropping T) g c s0)) = true /\ exists k, same_flash (snd (q_exec (R := dropping T) g c s0)) (snd (q_exec g c (power s (Some k)))))).
  { intros A f m EX GN DR. rewrite !EX. unfold ans1. cbn [fst snd]. rewrite !GN. destruct (DR s0 (f_bad (s_fl s0)) eq_refl) as [(l' & H)|(H & k & SF & _)]; rewrite logged_id in *.
    - left. rewrite H. cbn [fst snd]. split; auto. exists l'. reflexivity.
    - right. split; [now apply gone_iff|]. exists k. rewrite EX. exact SF. }
  destruct c as [d ow|b|b|sc| |].
  - exact (PL _ AUnit (fun R => q_push g d ow) (fun _ _ => eq_refl) (fun _ => eq_refl) (prog_drops g T _ _ _ (p_push g d ow))).
  - exact (PL _ AItem (fun R => q_pop g b) (fun _ _ => eq_refl) (fun _ => eq_refl) (prog_drops g T _ _ _ (p_q_pop g b))).
  - exact (PL _ AItem (fun R => q_peek g b) (fun _ _ => eq_refl) (fun _ => eq_refl) (prog_drops g T _ _ _ (p_q_peek g b))).
  - exact (PL _ AIter (fun R => q_iterate g sc) (fun _ _ => eq_refl) (fun _ => eq_refl) (prog_drops g T _ _ _ (p_q_iterate g sc))).
  - exact (PL _ AMax (fun R => q_max_fit g) (fun _ _ => eq_refl) (fun _ => eq_refl) (prog_drops g T _ _ _ (p_max_fit g))).
  - exact (PL _ ANum (fun R => q_space_left g) (fun _ _ => eq_refl) (fun _ => eq_refl) (prog_drops g T _ _ _ (p_space_left g))).
Qed.
Lemma m_any {K} (KO : keyops K) g s c t : let r := m_exec KO g c (power s None) in let d := m_exec (R := drop_at s t) KO g c (power s None) in
  (fst d = fst r /\ same_but_log (snd r) (snd d)) \/ (m_gone (fst d) = true /\ exists k, same_flash (snd d) (snd (m_exec KO g c (power s (Some k))))).
Proof.
  cbv zeta. unfold drop_at. set (T := _ + t). destruct (m_exec_drops g KO T c (power s None) (f_bad (s_fl (power s None))) eq_refl) as [(l' & X & _)|(G & k & SF)]; rewrite logged_id in *.
  - left. rewrite X. cbn [fst snd]. split; auto. now exists l'.
  - right. split; auto. exists k. exact SF.
Qed.
(** Typed values. *)
Lemma t_any {K T} (KO : keyops K) (V : valops T) g s b k v t : let r := t_store KO g V b k v (power s None) in let d := t_store (R := drop_at s t) KO g V b k v (power s None) in
  (fst d = fst r /\ same_but_log (snd r) (snd d)) \/ (is_gone (fst d) = true /\ exists j, same_flash (snd d) (snd (t_store KO g V b k v (power s (Some j))))).
Proof.
  cbv zeta. unfold drop_at. set (N := _ + t). destruct (prog_drops g N _ _ _ (p_t_store KO g V b k v) (power s None) (f_bad (s_fl (power s None))) eq_refl) as [(l' & H)|(H & j & SF & _)]; rewrite logged_id in *.
  - left. rewrite H. cbn [fst snd]. split; auto. now exists l'.
  - right. split; [now apply gone_iff|]. exists j. exact SF.
Qed.
