(** Proofs for PropsOneErase.v. *)
From Coq Require Import List NArith ZArith Arith Bool Lia ZifyBool ZifyNat ZifyN.
From Verif Require Import Base BaseP Crc CrcP Flash Cache State Item Generic Queue GeomP ScanP WpP ItemP CalcP PageP WorldP LayP QPushP QRepP QStepP QCallP Client QSpec QHistP QObs QPropsP QMiscP Reads Cost Work WorkMP.
Import ListNotations.
Local Opaque crc16 acrc crc32.

Section O.
Context (g : geom) (gok : geom_ok g).
Lemma run_len ops : forall f, length (f_er (snd (run g f ops))) <= length (des ops) + length (f_er f).
Proof.
  induction ops as [|o ops IH]; intros f; cbn [run]; [cbn; lia|].
  assert (X : forall r f1, run1 g f o = (r, f1) -> length (f_er f1) <= length (des [o]) + length (f_er f)).
  { intros r f1 R. destruct o as [a bs|p]; cbn [run1] in R.
    - unfold dev_write in R. destruct (chk _ _ _ _); [injection R as _ <-; cbn; lia|]. destruct (spend _ _) as [[k fu] cr]. injection R as _ <-. cbn. lia.
    - unfold dev_erase in R. destruct (chk _ _ _ _); [injection R as _ <-; cbn; lia|]. destruct (spend _ _) as [[k fu] cr]. injection R as _ <-. cbn. lia. }
  change (o :: ops) with ([o] ++ ops). rewrite des_app, app_length. destruct (run1 g f o) as [[e|] f1] eqn:R; specialize (X _ _ eq_refl); cbn [snd]; [lia|]. specialize (IH f1). lia.
Qed.
Lemma des_w a b L : des (DW a b :: L) = des L. Proof. reflexivity. Qed.
Lemma des_e q L : des (DE q :: L) = q :: des L. Proof. reflexivity. Qed.
Lemma ypush_des yg Y d ow r L Y' : ypush g yg Y d ow = (r, L, Y') -> length (des L) <= 1 /\ (y_pt Y = None \/ 1 <= y_k (y_start Y) -> des L = []) /\ (r = Err ECorrupted -> L = []).
Proof.
  assert (Z : forall b (L : list dop), des L = [] -> length (des L) <= 1 /\ (b -> des L = []) /\ (Ok tt = Err ECorrupted -> L = [])) by (intros b L0 ->; cbn; repeat split; [lia|discriminate]).
  assert (ON : forall (k : nat) (L : list dop), y_pt Y <> None -> (1 <=? k) = false -> length (des L) = 1 -> length (des L) <= 1 /\ (y_pt Y = None \/ 1 <= k -> des L = []) /\ (Ok tt = Err ECorrupted -> L = [])) by (intros k L0 NN K ->; repeat split; [lia|intros [X|X]; [congruence|lia]|discriminate]).
  unfold ypush. destruct (too_big g (length d)) eqn:TB; [intros [= <- <- <-]; cbn; auto|]. destruct (negb yg); [intros [= <- <- <-]; cbn; auto|]. cbv zeta. destruct (fitsb _ _ _) eqn:FI.
  { intros [= <- <- <-]. apply Z. rewrite des_app, des_item. destruct (y_pt Y); reflexivity. }
  assert (NN : y_pt Y <> None). { intros N. unfold y_start, y_sl in FI. rewrite N in FI. cbn [y_pt] in FI. rewrite (proj1 (too_big_fits g gok d TB)) in FI. discriminate. }
  destruct (1 <=? y_k (y_start Y)) eqn:EK; [intros [= <- <- <-]; apply Z; cbn [app]; rewrite !des_w, des_item; reflexivity|]. destruct (_ =? 1); [intros [= <- <- <-]; cbn; auto|].
  destruct (y_cl _) as [|o cl].
  - destruct ow; intros [= <- <- <-]; [|cbn; auto]. apply ON; [exact NN|exact EK|]. cbn [app]. rewrite des_e, !des_w, des_item. reflexivity.
  - destruct (ow || _); intros [= <- <- <-]; [|cbn; auto]. apply ON; [exact NN|exact EK|]. cbn [app]. rewrite des_e, !des_w, des_item. reflexivity.
Qed.
Lemma qpush_des yg Y d ow : length (des (snd (fst (qpush g yg Y d ow)))) <= 1.
Proof.
  unfold qpush. destruct (ypush g yg Y d ow) as [[r L] Y1] eqn:E1. destruct (ypush_des _ _ _ _ _ _ _ E1) as (A & _ & C). destruct r as [u|e]; [exact A|]. destruct e; try exact A. rewrite (C eq_refl).
  destruct (ypush g true (yrep Y1) d ow) as [[r2 L2] Y2] eqn:E2. destruct (ypush_des _ _ _ _ _ _ _ E2) as (A2 & B2 & _). cbn [fst snd app]. rewrite des_app, app_length. unfold rops. destruct (y_bad Y1 =? 1) eqn:EB; [|cbn; lia].
  rewrite B2; [cbn; lia|]. unfold y_start, yrep. cbn [y_k y_pt]. destruct (y_pt Y1); [right|now left]. cbn [y_k]. lia.
Qed.
Lemma rops_des Y : length (des (rops g Y)) <= 1. Proof. unfold rops. destruct (_ =? 1); cbn; lia. Qed.
Lemma yq_des {A} (q : (nat -> page) -> res A) Y : length (des (snd (fst (yq g q Y)))) <= 1.
Proof. unfold yq. destruct (q (pgof g Y)) as [x|e]; [cbn; lia|]. destruct e; try (cbn; lia). apply rops_des. Qed.
End O.
Lemma one_erase pf g evs l s c p : q_reached pf g evs l s -> callable pf c -> (forall Y, length (des (snd (fst (yact g c Y)))) <= 1) -> (pf = false -> p = None) ->
  length (erases_between s (snd (q_exec (R := steady) g c (power s p)))) <= 1.
Proof.
  intros R CO B PO. destruct (reached_qst _ _ _ _ _ R) as (ae & aw & Y & ST & (pg & LY & QI & SW) & _). pose proof (setting_single _ _ _ _ ST) as SG. pose proof ST as [gok _].
  assert (PO' : negb pf = true -> p = None) by (destruct pf; [discriminate|auto]). destruct (q_exec g c (power s p)) as [a s'] eqn:E.
  pose proof (call_spec g gok (negb pf) ae aw c Y pg _ a s' LY QI (sworld_power g _ ae aw pg s p PO' SW) SG (setting_call _ _ _ _ _ ST CO) E) as C. cbn [snd].
  pose proof (erases_len s s'). assert (X : exists r, run g (s_fl (power s p)) (snd (fst (yact g c Y))) = (r, s_fl s')).
  { destruct C as [(_ & pg' & L1 & Q1 & W1 & D)|(_ & Yc & pg' & L1 & Q1 & C1 & D)]; eexists; [apply W1|apply C1]. }
  destruct X as (r & X). pose proof (run_len g (snd (fst (yact g c Y))) (s_fl (power s p))) as RL. rewrite X in RL. cbn [snd] in RL. change (f_er (s_fl (power s p))) with (f_er (s_fl s)) in RL. specialize (B Y). lia.
Qed.
Lemma push_one_erase pf g evs l s d ow p : q_reached pf g evs l s -> item_ok pf d -> (pf = false -> p = None) -> length (erases_between s (snd (q_exec (R := steady) g (QPush d ow) (power s p)))) <= 1.
Proof.
  intros R I P. assert (gok : geom_ok g) by (destruct R as (f & c & _ & _ & _ & _ & ST & _); apply ST). eapply one_erase; eauto. intros Y. cbn [yact]. pose proof (qpush_des g gok (isyoung g (pgof g Y)) Y d ow) as X. destruct (qpush _ _ _ _ _) as [[r L] Y']. exact X.
Qed.
Lemma query_one_erase pf g evs l s c p : q_reached pf g evs l s -> c = QMaxFit \/ c = QSpace -> (pf = false -> p = None) -> length (erases_between s (snd (q_exec (R := steady) g c (power s p)))) <= 1.
Proof.
  intros R [-> | ->] P; (eapply one_erase; [exact R|exact Logic.I| |exact P]); intros Y; cbn [yact].
  - pose proof (yq_des g (mfit g) Y) as X. destruct (yq _ _ _) as [[r L] Y']. exact X.
  - pose proof (yq_des g (yspc g) Y) as X. destruct (yq _ _ _) as [[r L] Y']. exact X.
Qed.
