(** What reads of a map do to the flash. *)
From Coq Require Import List NArith ZArith Arith Bool Lia ZifyBool ZifyNat ZifyN.
From Verif Require Import Base BaseP Crc CrcP Flash Cache State Item Generic Map Codec CodecP GeomP ScanP WpP ItemP CalcP PageP WorldP LayP QPushP QRepP QStepP QCallP KeyP MLogP MFetchP MMigP MStoreP MCallP MRemP MRmvP MIterP Client QSpec QObs MClient MSpec MExecP MHistP MObs QHistP QPropsP MWearP MPropsP CapSpec WearSpec QWearP.
Import ListNotations.
Local Opaque crc16 acrc crc32.

Section MRead.
Context {K : Type} (KO : keyops K) (legal : K -> Prop).
Implicit Types (s : st K).
Definition mlooks (c : mcall K) : Prop := match c with MFetch _ _ | MIter _ _ => True | _ => False end.
Lemma m_looks pf g n evs l s c a s' : m_reached KO legal pf g n evs l s -> mlooks c -> mcall_ok KO legal pf g n c -> covered (f_ae (s_fl s)) (mode_after calm0 evs l) c None ->
  m_does KO g s c a s' -> exists ps, length ps <= 1 /\ only_erased g ps (s_fl s) (s_fl s') /\ (pf = false -> ps = []).
Proof.
  intros R LC CO CV E. destruct (reached_reach KO legal _ _ _ _ _ _ R) as (m & log & ae & aw & [KC ST AE (Y & ML & MG & _ & WH & _) _ FR]). pose proof ST as (gok & np2 & _).
  assert (SD : side g (negb pf) ae aw KO legal n (mode_after calm0 evs l) Y s) by (split; [exact ML|split; [eapply mgood_B0; exact MG|exact WH]]).
  rewrite AE in CV.
  destruct (side_step g gok (negb pf) ae aw np2 KO legal KC n _ Y s c a s' SD (mcall_mcok KO legal pf g aw n c ST CO) CV E) as (L & Y' & AC & RN & _).
  assert (X : Forall (fun o => match o with DE _ => True | _ => False end) L /\ length (des L) <= 1 /\ (y_bad Y = 0 -> L = [])).
  { destruct c; try contradiction; cbn [acts] in AC.
    - destruct AC as (_ & [[_ ->]|(B & _ & ->)]); [auto|]. split; [apply rops_de|]. unfold rops. rewrite B. cbn. split; [lia|discriminate].
    - destruct AC as (_ & _ & ->). auto. }
  destruct X as (X1 & X2 & X3). exists (des L). split; auto. split; [apply (run_erases g L gok X1 (s_fl (power s None))); auto|].
  intros ->. rewrite X3; auto. apply WH. rewrite FR by auto. reflexivity.
Qed.
Lemma none_erased g f f' : only_erased g [] f f' -> (forall x, f_mem f' x = f_mem f x) /\ (forall x, f_wc f' x = f_wc f x) /\ f_er f' = f_er f.
Proof. intros (_ & A & B). cbn [existsb] in B. split; [|split; [|exact A]]; intros x; specialize (B x); congruence. Qed.
Lemma m_fetch_flash pf g n evs l s b k a s' : m_reached KO legal pf g n evs l s -> legal k -> n <= length b -> m_does KO g s (MFetch b k) a s' ->
  exists ps, length ps <= 1 /\ only_erased g ps (s_fl s) (s_fl s').
Proof. intros R LK LB E. destruct (m_looks pf g n evs l s (MFetch b k) a s' R I (conj LK LB) I E) as (ps & A & B & _). eauto. Qed.
Lemma m_read_flash g n evs l s c a s' : m_reached KO legal false g n evs l s -> mlooks c -> mcall_ok KO legal false g n c -> m_does KO g s c a s' ->
  (forall x, f_mem (s_fl s') x = f_mem (s_fl s) x) /\ (forall x, f_wc (s_fl s') x = f_wc (s_fl s) x) /\ f_er (s_fl s') = f_er (s_fl s).
Proof.
  intros R LC CO E. destruct (reached_reach KO legal _ _ _ _ _ _ R) as (m & log & ae & aw & RC).
  assert (CV : covered (f_ae (s_fl s)) (mode_after calm0 evs l) c None) by (rewrite (rc_free _ _ _ _ _ _ _ _ _ _ _ _ RC eq_refl); destruct c; try contradiction; cbn; auto).
  destruct (m_looks false g n evs l s c a s' R LC CO CV E) as (ps & _ & B & C). rewrite C in B by auto. now apply none_erased in B.
Qed.
End MRead.
