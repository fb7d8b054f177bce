(** Where no power fails it does not matter whether erases are atomic: a call is followed as if they were. *)
From Coq Require Import List NArith ZArith Arith Bool Lia.
From Verif Require Import Base BaseP Crc CrcP Flash Cache State Item Generic Queue Map Codec CodecP TMap GeomP ScanP WpP ItemP CalcP PageP WorldP LayP KeyP MLogP MExecP MHistP Client QSpec QObs MClient MSpec MObs ProgP Reads Drops.
Import ListNotations.
Local Opaque crc16 acrc crc32.

Definition ae_fl (f : flash) : flash := mkflash (f_mem f) (f_wc f) (f_er f) (f_fuel f) true (f_aw f) (f_bad f).
Section Ae.
Context {K : Type} (g : geom).
Implicit Types (s : st K).
Definition aes s : st K := set_fl s (ae_fl (s_fl s)).
Definition unae {A} (m : M K A) : Prop := forall s, f_fuel (s_fl s) = None -> m (aes s) = (fst (m s), aes (snd (m s))) /\ f_fuel (s_fl (snd (m s))) = None /\ f_ae (s_fl (snd (m s))) = f_ae (s_fl s).
Lemma ua_bind {A B} (m : M K A) (k : A -> M K B) : unae m -> (forall a, unae (k a)) -> unae (bind m k).
Proof.
  intros H1 H2 s FU. destruct (H1 s FU) as (E & F & X). unfold bind. rewrite E. destruct (m s) as [[a|e] u]; cbn [fst snd] in *; auto. rewrite <- X. exact (H2 a u F).
Qed.
Lemma ua_local {A} (m : M K A) : local m -> unae m.
Proof.
  intros L s FU. destruct (L s) as (_ & L1). pose proof (L1 (s_fl s)) as E2. replace (set_fl s (s_fl s)) with s in E2 by (destruct s; reflexivity).
  assert (F : s_fl (snd (m s)) = s_fl s) by (rewrite E2; reflexivity). rewrite F. split; [|auto]. unfold aes. rewrite F. apply L1.
Qed.
Lemma ua_write a bs : unae (fl_write g a bs).
Proof.
  intros s FU. unfold fl_write, dev_write, aes. cbn [s_fl set_fl ae_fl f_mem f_wc f_er f_fuel f_ae f_aw f_bad]. rewrite FU. destruct (chk g (WS g) a (length bs)) as [e|]; cbn [fst snd]; [split; [reflexivity|split; [exact FU|reflexivity]]|].
  cbn [spend]. repeat split.
Qed.
Lemma ua_erase a b : unae (fl_erase g a b).
Proof.
  intros s FU. unfold fl_erase, dev_erase, aes. cbn [s_fl set_fl ae_fl f_mem f_wc f_er f_fuel f_ae f_aw f_bad]. rewrite FU. destruct (chk g (ES g) a (b - a)) as [e|]; cbn [fst snd]; [split; [reflexivity|split; [exact FU|reflexivity]]|].
  cbn [spend andb]. repeat split.
Qed.
Section R.
Context {R : reader} (HR : forall a n, unae (fl_read g a n)).
Context (HA : forall A B (m : M K A) (k : res A -> M K B), unae m -> (forall r, r <> Err dropped -> unae (k r)) -> unae (bind (attempt m) k)).
Ltac ua1 := first [apply HR|apply ua_local; first [apply l_ret|apply l_fail; discriminate|apply l_get_buf|apply l_put_buf]|
  lazymatch goal with |- unae (bind _ _) => apply ua_bind; [|intros ?] | |- unae (match ?x with _ => _ end) => destruct x end].
Lemma ua_hdr n a : unae (read_hdr g n a). Proof. induction n; cbn [read_hdr]; repeat ua1; auto. Qed.
Lemma ua_data n h c a x : unae (read_data g n h c a x). Proof. induction n; cbn [read_data]; repeat ua1; auto. Qed.
Lemma ua_state p : unae (page_state g p). Proof. unfold page_state. repeat ua1. Qed.
Lemma ua_new a e : unae (read_new g a e). Proof. unfold read_new. repeat first [ua1|apply ua_hdr]; cbv zeta; repeat ua1. Qed.
Lemma ua_item h a e : unae (read_item g h a e). Proof. unfold read_item. cbv zeta. repeat first [ua1|apply ua_data]. Qed.
Lemma prog_ae {A} F (m : reader -> M K A) F1 : prog g F m F1 -> unae (m R).
Proof.
  revert A F m F1. apply prog_ind1; intros; auto using ua_write, ua_erase, ua_state, ua_new, ua_item, ua_local, l_ret, l_fail, ua_bind.
Qed.
Context (KO : keyops K).
Lemma m_exec_ae c s : f_fuel (s_fl s) = None -> m_exec KO g c (aes s) = (fst (m_exec KO g c s), aes (snd (m_exec KO g c s))) /\ f_fuel (s_fl (snd (m_exec KO g c s))) = None /\ f_ae (s_fl (snd (m_exec KO g c s))) = f_ae (s_fl s).
Proof.
  intros FU.
  assert (PL : forall A (f : res A -> mans K) (m : reader -> M K A), (forall s, m_exec KO g c s = mans1 f (m R s)) -> unae (m R) ->
    m_exec KO g c (aes s) = (fst (m_exec KO g c s), aes (snd (m_exec KO g c s))) /\ f_fuel (s_fl (snd (m_exec KO g c s))) = None /\ f_ae (s_fl (snd (m_exec KO g c s))) = f_ae (s_fl s)).
  { intros A f m EX UA. rewrite !EX. destruct (UA s FU) as (E & F). unfold mans1. rewrite E. cbn [fst snd]. auto. }
  destruct c as [b k v|b k|b k|b|b bs].
  - exact (PL _ RUnit (fun R => m_store KO g b k v) (fun _ => eq_refl) (prog_ae _ _ _ (p_store KO g b k v))).
  - exact (PL _ RVal (fun R => m_fetch KO g b k) (fun _ => eq_refl) (prog_ae _ _ _ (p_fetch KO g b k))).
  - exact (PL _ RUnit (fun R => m_remove KO g b k) (fun _ => eq_refl) (prog_ae _ _ _ (p_remove KO g b k))).
  - exact (PL _ RUnit (fun R => m_remove_all KO g b) (fun _ => eq_refl) (prog_ae _ _ _ (p_remove_all KO g b))).
  - exact (PL _ RList (fun R => m_iterate KO g b bs) (fun _ => eq_refl) (prog_ae _ _ _ (p_m_iterate KO g b bs))).
Qed.
End R.
Lemma read_steady a n : unae (fl_read (R := steady) g a n).
Proof. intros s FU. unfold fl_read. cbn [on_read steady]. unfold dev_read. destruct (chk g (RS g) a n); cbn [fst snd]; split; auto. Qed.
Lemma read_dropping T a n : unae (fl_read (R := dropping T) g a n).
Proof.
  intros s FU. unfold fl_read. cbn [on_read dropping]. unfold dev_read, aes. cbn [s_fl set_fl ae_fl f_bad f_mem]. destruct (chk g (RS g) a n); cbn [fst snd]; [split; [reflexivity|split; [exact FU|reflexivity]]|].
  destruct (_ <? T); cbn [fst snd]; auto.
Qed.
Lemma att_dropping T A B (m : M K A) (k : res A -> M K B) : unae m -> (forall r, r <> Err dropped -> unae (k r)) -> unae (bind (attempt (R := dropping T) m) k).
Proof.
  intros H1 H2 s FU. destruct (H1 s FU) as (E & F & X). unfold bind, attempt. cbn [on_result dropping]. rewrite E, <- X. destruct (m s) as [r u]. cbn [fst snd] in *.
  assert (D : r = Err dropped \/ r <> Err dropped) by (destruct r as [|[[]| | | | | | | |]]; try (right; discriminate); now left).
  destruct D as [->|D]; [cbn [fst snd]; auto|]. destruct r as [a|[[]| | | | | | | |]]; try exact (H2 _ D u F); now destruct D.
Qed.
Lemma m_dropping_ae (KO : keyops K) T c s : f_fuel (s_fl s) = None ->
  m_exec (R := dropping T) KO g c (aes s) = (fst (m_exec (R := dropping T) KO g c s), aes (snd (m_exec (R := dropping T) KO g c s))) /\ f_ae (s_fl (snd (m_exec (R := dropping T) KO g c s))) = f_ae (s_fl s).
Proof. intros FU. split; apply (m_exec_ae (R := dropping T) (read_dropping T) (att_dropping T) KO c s FU). Qed.
End Ae.

(** From the steady device. *)
Section Steady.
Context {K : Type} (g : geom) (KO : keyops K).
Implicit Types (s : st K).
Lemma att_steady A B F (m : reader -> M K A) F1 (k : res A -> M K B) : prog g F m F1 -> unae (m steady) -> (forall r, r <> Err dropped -> unae (k r)) -> unae (bind (attempt (R := steady) (m steady)) k).
Proof.
  intros P H1 H2 s FU. destruct (H1 s FU) as (E & FF & X). pose proof (prog_ends g F m F1 P s) as D. unfold bind, attempt. cbn [on_result steady]. unfold hand_on. rewrite E, <- X. destruct (m steady s) as [r u]. cbn [fst snd] in *. exact (H2 r D u FF).
Qed.
Lemma prog_ae0 {A} F (m : reader -> M K A) F1 : prog g F m F1 -> unae (m steady).
Proof.
  revert A F m F1. apply prog_ind1; intros; auto using ua_write, ua_erase, ua_local, l_ret, l_fail, ua_bind; try (eapply att_steady; eauto; fail).
  - apply ua_state, read_steady.
  - apply ua_new, read_steady.
  - apply ua_item, read_steady.
Qed.
Lemma m_steady_ae c s : f_fuel (s_fl s) = None -> m_exec KO g c (aes s) = (fst (m_exec KO g c s), aes (snd (m_exec KO g c s))) /\ f_ae (s_fl (snd (m_exec KO g c s))) = f_ae (s_fl s).
Proof.
  intros FU.
  assert (PL : forall A (f : res A -> mans K) (m : M K A), (forall s, m_exec KO g c s = mans1 f (m s)) -> unae m -> m_exec KO g c (aes s) = (fst (m_exec KO g c s), aes (snd (m_exec KO g c s))) /\ f_ae (s_fl (snd (m_exec KO g c s))) = f_ae (s_fl s)).
  { intros A f m EX UA. rewrite !EX. destruct (UA s FU) as (E & F). unfold mans1. rewrite E. split; [reflexivity|apply F]. }
  destruct c as [b k v|b k|b k|b|b bs].
  - exact (PL _ RUnit _ (fun _ => eq_refl) (prog_ae0 _ _ _ (p_store KO g b k v))).
  - exact (PL _ RVal _ (fun _ => eq_refl) (prog_ae0 _ _ _ (p_fetch KO g b k))).
  - exact (PL _ RUnit _ (fun _ => eq_refl) (prog_ae0 _ _ _ (p_remove KO g b k))).
  - exact (PL _ RUnit _ (fun _ => eq_refl) (prog_ae0 _ _ _ (p_remove_all KO g b))).
  - exact (PL _ RList _ (fun _ => eq_refl) (prog_ae0 _ _ _ (p_m_iterate KO g b bs))).
Qed.
End Steady.

(** The state of a history, seen both ways. *)
Section Both.
Context (g : geom) (gok : geom_ok g) (aw : nat) (np2 : 2 <= NP g) {K : Type} (KO : keyops K) (legal : K -> Prop).
Implicit Types (s : st K).
Notation mst ae := (mst g false ae aw KO legal).
Lemma no_bad Y pg : layok (NP g) Y pg -> y_bad Y = 0 -> forall p, p < NP g -> pg p <> PBad.
Proof.
  intros (LY & _) BD p Hp. assert (N1 : 1 <= NP g) by lia. rewrite (lay0_pos (NP g) (y_f Y) (pages Y) pg p N1 LY Hp). intros E.
  assert (I : In PBad (pages Y)). { rewrite <- E. apply nth_In. destruct LY as (L1 & -> & _). now apply pos_lt. }
  unfold pages in I. rewrite BD in I. cbn [repeat] in I. rewrite app_nil_r, !in_app_iff, !in_map_iff in I. destruct I as [(x & X & _)|[(x & X & _)|I]]; try discriminate. apply repeat_spec in I. discriminate.
Qed.
Lemma mst_up ae n t log m s : mst ae n t log m s -> whole t = true -> mst true n t log m (aes s).
Proof.
  intros (Y & ML & MG & SU & WH & VM) WT. exists Y. split; [|auto 6]. destruct ML as (pg & LY & ((A1 & A2 & (A3 & A6) & A4 & A5) & SW) & R). exists pg. split; auto. split; [|exact R].
  split; [|exact SW]. split; [exact A1|]. split; [|split; [split; [reflexivity|intros _; eapply no_bad; eauto]|split; [exact A4|exact A5]]].
  intros p Hp. eapply page_is_ext; [exact gok| |apply A2, Hp]. intros y _. split; reflexivity.
Qed.
Lemma mst_down ae n t log m s : mst true n t log m (aes s) -> f_ae (s_fl s) = ae -> mst ae n (mkmode (sure t) (fresh t) true) log m s.
Proof.
  intros (Y & ML & MG & SU & WH & VM) AE. exists Y. pose proof (mlay_whole g gok false true aw np2 KO legal _ _ _ ML eq_refl) as W0. split; [|auto 6]. cbn [fresh].
  destruct ML as (pg & LY & ((A1 & A2 & (A3 & A6) & A4 & A5) & SW) & R). exists pg. split; auto. split; [|exact R].
  split; [|exact SW]. split; [exact A1|]. split; [|split; [split; [exact AE|intros _; exact (A6 eq_refl)]|split; [exact A4|discriminate]]].
  intros p Hp. eapply page_is_ext; [exact gok| |apply A2, Hp]. intros y _. split; reflexivity.
Qed.
End Both.
