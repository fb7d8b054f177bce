(** One map call on layouts, whatever the call. *)
From Coq Require Import List NArith ZArith Arith Bool Lia ZifyBool ZifyNat ZifyN.
From Verif Require Import Base BaseP Crc CrcP Flash Cache State Item Generic Map Codec CodecP GeomP ScanP WpP ItemP CalcP PageP WorldP LayP QPushP QRepP QStepP KeyP MLogP MFetchP MMigP MStoreP MCallP MRemP MRmvP MIterP Client MClient.
Import ListNotations.
Local Opaque crc16 acrc crc32.

Section Exec.
Context (g : geom) (gok : geom_ok g) (ws ae : bool) (aw : nat) (np2 : 2 <= NP g).
Context {K : Type} (KO : keyops K) (legal : K -> Prop) (KC : key_codec KO legal) (B : lim).
Notation NP := (NP g).
Notation st := (st K).
Implicit Types (s : st) (pg : nat -> page) (Y : lay).
Notation world := (world g ws ae aw).
Notation crashed := (crashed g ws ae aw).
Notation sworld := (sworld g ws ae aw).
Notation lastd := (lastd KO).
Notation ents := (ents g).
Notation good := (good KO legal).
Notation mok := (mok g ws aw KO legal B).
Notation mw := (mw g ws ae aw KO legal B).
Notation mgood := (mgood g ws aw KO legal B).
Notation same := (same KO legal).
Notation kcoh := (kcoh KO legal).
Notation smw := (smw g ws ae aw KO legal B).
Notation newok := (newok g ws aw B).
Notation cst := (cst KO legal).
Notation mend := (mend g ws ae aw KO legal B).
Notation mcut := (mcut g ws ae aw KO legal B).
Notation value := (value KO).
Notation ysto := (ysto g KO).
Notation yrm := (yrm KO).
Notation rmops := (rmops g KO).
Notation rcut := (rcut KO).
Notation pair_of := (pair_of KO).

(** A storage object between calls; [cl]: the cache is known to be right. *)
Definition mlay (cl : bool) Y s : Prop := exists pg, layok NP Y pg /\ sworld pg s /\ kwf (c_kp (s_ca s)) /\
  (c_dirty (s_ca s) = true \/ kcoh (ents Y) (c_kp (s_ca s))) /\ (cl = true -> coh g pg (s_ca s) /\ kcoh (ents Y) (c_kp (s_ca s))).

Lemma mlay_whole cl Y s : mlay cl Y s -> ae = true -> y_bad Y = 0.
Proof.
  intros (pg & LY & ((_ & _ & (_ & NB) & _) & _) & _) AE. destruct (Nat.eq_dec (y_bad Y) 0) as [|N]; auto. exfalso. assert (B1 : y_bad Y = 1) by (destruct LY; lia).
  pose proof (bad_at g gok Y pg LY B1) as P. refine (NB AE _ _ P). apply Nat.mod_upper_bound. lia.
Qed.
Definition acts (c : mcall K) Y (a : mans K) (L : list dop) Y' : Prop :=
  match c with
  | MStore b k v => exists x, a = RUnit x /\ ysto Y (dser KO (length b) k v) = (x, L, Y')
  | MFetch b k => a = RVal (Ok (value k (content Y))) /\ (Y' = Y /\ L = [] \/ y_bad Y = 1 /\ Y' = yrep Y /\ L = rops g Y)
  | MRemove b k => a = RUnit (Ok tt) /\ Y' = yrm (Some k) (yrep Y) /\ L = rops g Y ++ rmops (Some k) (y_f Y) (uslots Y)
  | MRemoveAll b => a = RUnit (Ok tt) /\ Y' = yrm None (yrep Y) /\ L = rops g Y ++ rmops None (y_f Y) (uslots Y)
  | MIter b bs => a = RList (Ok (firstn (length bs) (map pair_of (content Y) ++ [None]))) /\ Y' = Y /\ L = []
  end.
Definition cuts (c : mcall K) Y Yc : Prop :=
  match c with
  | MStore b k v => cst Y (dser KO (length b) k v) Yc
  | MFetch _ _ => Yc = Y \/ Yc = yrep Y
  | MRemove b k => rcut (Some k) Y Yc \/ rcut (Some k) (yrep Y) Yc
  | MRemoveAll b => rcut None Y Yc \/ rcut None (yrep Y) Yc
  | MIter _ _ => False
  end.
Definition cutans (c : mcall K) : mans K :=
  match c with
  | MStore _ _ _ | MRemove _ _ | MRemoveAll _ => RUnit (Err (EStorage SShutoff))
  | MFetch _ _ => RVal (Err (EStorage SShutoff))
  | MIter _ _ => RList (Err (EStorage SShutoff))
  end.
Definition mcallok (c : mcall K) : Prop :=
  match c with
  | MStore b k v => legal k /\ B <= length b /\ forall d, dser KO (length b) k v = inl d -> newok d
  | MFetch b k | MRemove b k => legal k /\ B <= length b
  | MRemoveAll b => B <= length b
  | MIter b bs => B <= length b /\ Forall (fun x => B <= length x) bs
  end.
Definition mpre (c : mcall K) (p : option nat) (cl : bool) Y : Prop :=
  match c with
  | MStore _ _ _ => ae = true \/ p = None \/ settled Y
  | MFetch _ _ => True
  | MRemove _ _ | MRemoveAll _ => cl = true /\ (p = None \/ nomig Y)
  | MIter _ _ => cl = true /\ y_bad Y = 0
  end.
Definition mout (c : mcall K) (f0 : flash) Y (a : mans K) s' : Prop :=
  (exists L Y', acts c Y a L Y' /\ mlay true Y' s' /\ mgood Y' /\ run g f0 L = (None, s_fl s')) \/
  (a = cutans c /\ ws = false /\ f_fuel f0 <> None /\ exists Yc, cuts c Y Yc /\ mlay false Yc s' /\ mgood Yc).

Lemma mend_mlay Y f0 L s s' : mend Y f0 L s s' -> mlay true Y s' /\ mgood Y /\ run g f0 L = (None, s_fl s').
Proof.
  intros ((pg & LY & W & KH & BB) & MG & _). split; [|split; [auto|apply W]]. exists pg. pose proof (world_sworld _ _ _ _ _ _ _ _ W) as SW.
  destruct W as (_ & _ & CH). split; auto. split; auto. split; [eapply kcoh_wf; eauto|]. split; auto.
Qed.
Lemma mcut_mlay C f0 L s' : mcut C f0 L s' -> ws = false /\ f_fuel f0 <> None /\ exists Yc, C Yc /\ mlay false Yc s' /\ mgood Yc.
Proof.
  intros (pg & Yc & HC & MG & LY & CR & KW). split; [apply CR|]. split. { intros F. eapply run_nocut; [exact F|apply CR]. }
  exists Yc. split; auto. split; auto. exists pg. split; auto. split; [eapply crashed_sworld; eauto|]. split; auto. split; [left; apply CR|discriminate].
Qed.
Lemma run_nil f0 f : run g f0 [] = (None, f) -> f = f0. Proof. cbn. congruence. Qed.

Lemma wp_script Y pg f0 : y_bad Y = 0 -> mok Y -> forall bs rem s, Forall (fun x => B <= length x) bs -> Forall good rem ->
  mw Y pg f0 [] s -> ipos g Y (s_mi s) rem ->
  wp (m_script KO g bs) (fun l s' => l = firstn (length bs) (map pair_of rem ++ [None]) /\ mw Y pg f0 [] s') (fun _ _ => False) s.
Proof.
  intros BZ MO. induction bs as [|b bs IH]; intros rem s FB FG M IP; cbn [m_script].
  { unfold wp, ret. split; auto. }
  inversion FB as [|? ? B1 FB']; subst. apply wp_bind.
  apply (wp_m_iter_next g gok ws ae aw np2 KO legal KC B Y pg f0 [] b rem); auto. { destruct M as (A1 & A2 & A3 & _). repeat split; auto; try apply A1; try apply A2. }
  intros s' M' LB' _. destruct rem as [|d t].
  - unfold wp, ret. split; [|exact M']. cbn. destruct bs; reflexivity.
  - intros IP'. inversion FG as [|? ? Gd FG']; subst. destruct (good_de KO legal KC d Gd) as (k & LK & DK & _).
    assert (PO : pair_of d = Some (k, dval KO d)) by (unfold MIterP.pair_of; now rewrite DK).
    rewrite PO. apply wp_bind. eapply wp_mono; [apply (IH t s' FB' FG' M' IP')| |auto].
    intros l s2 [-> M2]. unfold wp, ret. split; auto. cbn [length map app firstn]. now rewrite PO.
Qed.

Lemma exec_spec c p cl Y s a s' : mlay cl Y s -> mgood Y -> mcallok c -> mpre c p cl Y -> (ws = true -> p = None) ->
  m_exec KO g c (power s p) = (a, s') -> mout c (s_fl (power s p)) Y a s'.
Proof.
  intros (pg & LY & SW & KW & KD & CL) MG CO PR PO E.
  assert (SWP : sworld pg (power s p)). { destruct SW as ((A1 & B1 & C1 & D1 & E1) & F1). split; [|exact F1]. split; [exact A1|]. split; [exact B1|]. split; [exact C1|]. split; [exact D1|auto]. }
  assert (SM : forall b, B <= length b -> smw Y pg (set_buf (power s p) b)).
  { intros b LB. repeat split; auto; try apply LY; try apply SWP. }
  assert (MW : cl = true -> forall b, B <= length b -> mw Y pg (s_fl (power s p)) [] (set_buf (power s p) b)).
  { intros C b LB. destruct (CL C) as [C1 C2]. repeat split; auto; try apply LY; try apply SWP; apply C1. }
  assert (RM : forall sk b, (match sk with Some k => legal k | None => True end) -> B <= length b -> cl = true -> (p = None \/ nomig Y) ->
     forall r s1, m_rm g KO sk b (power s p) = (r, s1) ->
     (r = Ok tt /\ exists L, L = rops g Y ++ rmops sk (y_f Y) (uslots Y) /\ mlay true (yrm sk (yrep Y)) s1 /\ mgood (yrm sk (yrep Y)) /\ run g (s_fl (power s p)) L = (None, s_fl s1)) \/
     (r = Err (EStorage SShutoff) /\ ws = false /\ f_fuel (s_fl (power s p)) <> None /\ exists Yc, (rcut sk Y Yc \/ rcut sk (yrep Y) Yc) /\ mlay false Yc s1 /\ mgood Yc)).
  { intros sk b LK LB C PP r s1 ER. pose proof (wp_m_rm g gok ws ae aw np2 KO legal KC B sk Y pg b (power s p) LK (MW C b LB) MG) as H.
    assert (FU : f_fuel (s_fl (power s p)) = None \/ nomig Y) by (destruct PP as [->|]; [left; reflexivity|now right]). specialize (H FU). cbv zeta in H. unfold wp in H.
    unfold M in H. rewrite ER in H. destruct r as [[]|e].
    - left. split; auto. eexists. split; [reflexivity|]. eapply mend_mlay. exact H.
    - right. destruct H as [-> H]. split; auto. now apply mcut_mlay in H. }
  destruct c as [b k v|b k|b k|b|b bs]; cbn [m_exec mcallok mpre] in *; unfold mans1 in E.
  - destruct CO as (LK & LB & NW). pose proof (wp_m_store g gok ws ae aw np2 KO legal KC B Y pg b k v (power s p) _ LK (SM b LB) MG eq_refl NW) as H.
    assert (FU : ae = true \/ f_fuel (s_fl (power s p)) = None \/ settled Y) by (destruct PR as [X|[->|X]]; auto). specialize (H FU). cbv zeta in H. unfold wp in H.
    destruct (ysto Y (dser KO (length b) k v)) as [[x L] Y'] eqn:EY. cbn [fst snd] in H.
    destruct (m_store KO g b k v (power s p)) as [[[]|e] s1]; cbn [fst snd] in E; injection E as <- <-.
    + left. exists L, Y'. destruct H as [-> H]. split; [exists (Ok tt); auto|]. eapply mend_mlay. exact H.
    + destruct H as [[-> H]|[-> H]].
      * left. exists L, Y'. split; [exists (Err e); auto|]. eapply mend_mlay. exact H.
      * right. split; auto. now apply mcut_mlay in H.
  - destruct CO as (LK & LB). pose proof (wp_m_fetch g gok ws ae aw np2 KO legal KC B Y pg b k (power s p) LK (SM b LB) MG) as H. unfold wp in H.
    destruct (m_fetch KO g b k (power s p)) as [[x|e] s1]; cbn [fst snd] in E; injection E as <- <-.
    + left. destruct H as (-> & Y' & L' & H & D). exists L', Y'. split; [split; auto|]. eapply mend_mlay. exact H.
    + right. destruct H as (-> & _ & H). split; auto. now apply mcut_mlay in H.
  - destruct CO as (LK & LB), PR as (C & PP). change (m_remove KO g b k) with (m_rm g KO (Some k) b) in E.
    destruct (m_rm g KO (Some k) b (power s p)) as [r s1] eqn:ER. cbn [fst snd] in E. injection E as <- <-.
    destruct (RM (Some k) b LK LB C PP r s1 ER) as [(-> & L & -> & H)|(-> & H)]; [left|right]; auto. eexists _, _. split; [|exact H]. split; auto.
  - destruct PR as (C & PP). change (m_remove_all KO g b) with (m_rm g KO None b) in E.
    destruct (m_rm g KO None b (power s p)) as [r s1] eqn:ER. cbn [fst snd] in E. injection E as <- <-.
    destruct (RM None b I CO C PP r s1 ER) as [(-> & L & -> & H)|(-> & H)]; [left|right]; auto. eexists _, _. split; [|exact H]. split; auto.
  - destruct CO as (LB & FB), PR as (C & BZ). pose proof MG as (MI & MO & _).
    assert (H : wp (m_iterate KO g b bs) (fun l s' => l = firstn (length bs) (map pair_of (content Y) ++ [None]) /\ mw Y pg (s_fl (power s p)) [] s') (fun _ _ => False) (power s p)).
    { unfold m_iterate. apply wp_bind. apply (wp_m_iter g gok ws ae aw np2 KO legal B Y pg b); auto. intros s1 M1 _ _ IP. apply wp_script; auto. apply MO. }
    unfold wp in H. destruct (m_iterate KO g b bs (power s p)) as [[l|e] s1]; cbn [fst snd] in E; injection E as <- <-; [|destruct H].
    destruct H as [-> M1]. left. exists [], Y. split; [split; auto|]. apply (mend_mlay Y _ _ s1 s1). split; [exists pg; auto|]. split; auto. apply mfr_refl.
Qed.
End Exec.
