(** From the two-run lemmas of SafeP.v, SafeQP.v and SafeMP.v to the claim about wrong marker bits. *)
From Coq Require Import List NArith ZArith Arith Bool Lia ZifyBool ZifyNat ZifyN.
From Verif Require Import Base BaseP Crc CrcP Flash Cache State Item Generic Queue Map Client MClient GeomP ScanP ItemP WorldP WpP NoiseP SafeP SafeQP SafeMP SafeSpec SafeRunP NoiseSpec.
Import ListNotations.
Local Opaque crc16 acrc crc32.

Lemma diff_ff y : bit_diff 255 y = count_zeros y.
Proof.
  reflexivity.
Qed.
Lemma diff_00 y : bit_diff 0 y + count_zeros y = 8.
Proof.
  unfold bit_diff, count_zeros. rewrite <- (seq_length 8 0) at 3. induction (seq 0 8) as [|i l IH]; [reflexivity|]. cbn [filter length]. rewrite N.bits_0 in *. cbn [xorb].
  destruct (N.testbit y (N.of_nat i)); cbn [negb length]; lia.
Qed.
Lemma sum_cons x l : list_sum (x :: l) = x + list_sum l. Proof. reflexivity. Qed.
Lemma word_clean (m m2 : nat -> N) : forall n b, (forall x, b <= x < b + n -> m x = 0%N \/ m x = 255%N) -> wrong_bits m m2 b n <= 3 -> marked (rd m2 b n) = marked (rd m b n).
Proof.
  intros n b C H.
  assert (X : (forall x, b <= x < b + n -> m x = 255%N) \/ exists x, b <= x < b + n /\ m x = 0%N).
  { clear H. induction n as [|n IH]; [left; lia|]. destruct IH as [IH|(x & X1 & X2)]; [intros x Hx; apply C; lia| |right; exists x; split; [lia|auto]].
    destruct (C (b + n) ltac:(lia)) as [Z|Z]; [right; exists (b + n); split; [lia|auto]|left]. intros x Hx. destruct (Nat.eq_dec x (b + n)) as [->|]; auto. apply IH. lia. }
  destruct X as [X|(x & X1 & X2)].
  - assert (E : list_sum (map count_zeros (rd m2 b n)) = wrong_bits m m2 b n).
    { unfold wrong_bits, rd. rewrite map_map. f_equal. apply map_ext_in. intros y I. apply in_seq in I. rewrite (X y) by lia. symmetry. apply diff_ff. }
    rewrite (marked_skip m b n n) by auto. rewrite Nat.sub_diag. unfold marked. rewrite E. change (4 <=? list_sum (map count_zeros (rd m (b + n) 0))) with false. apply Nat.leb_gt. lia.
  - rewrite (marked_zero m b n x X1 X2). unfold marked. apply Nat.leb_le. pose proof (zsum_in m2 b n x X1) as Z. pose proof (diff_00 (m2 x)) as D.
    assert (L : bit_diff 0 (m2 x) <= wrong_bits m m2 b n).
    { unfold wrong_bits. assert (I : In x (seq b n)) by (apply in_seq; lia). clear -I X2. induction (seq b n) as [|y l IH]; [easy|]. cbn [map]. rewrite sum_cons. destruct I as [->|I]; [rewrite X2; lia|]. specialize (IH I). lia. }
    lia.
Qed.
Lemma wrong_suffix m m2 b n j : j <= n -> wrong_bits m m2 (b + j) (n - j) <= wrong_bits m m2 b n.
Proof. intros L. unfold wrong_bits. replace n with (j + (n - j)) at 2 by lia. rewrite seq_app, map_app, list_sum_app. lia. Qed.

Section R.
Context (g : geom) (gok : geom_ok g).
Lemma bad_noise m m2 : clean_markers g m -> bad_markers 3 g m m2 -> noise g m m2.
Proof.
  intros C (D & _ & B). split; [exact D|]. intros p P. destruct (B p P) as (B1 & B2). pose proof (lo_in g p) as L. pose proof (hi_in g gok p) as H. pose proof (dend_lt g gok p). pose proof (pend_eq g p).
  assert (E : paddr g p + (ES g - RS g) = pend g p - RS g) by lia. split.
  - intros j J. apply word_clean; [intros x Hx; apply (C p); auto; lia|]. pose proof (wrong_suffix m m2 (paddr g p) (RS g) j J). lia.
  - rewrite E in *. intros j J. apply word_clean; [intros x Hx; apply (C p); auto; lia|]. pose proof (wrong_suffix m m2 (pend g p - RS g) (RS g) j J). lia.
Qed.
Context {K E A : Type} (run : st K -> list E -> list A * st K) (ok : E -> Prop) (I : st K -> Prop).
Context (nil : forall s, run s [] = ([], s)).
Context (cons : forall e t s, run s (e :: t) = let '(a, s1) := run s [e] in let '(r, s2) := run s1 t in (a ++ r, s2)).
Context (keep : forall e s, ok e -> I s -> I (snd (run s [e]))).
Context (cl : forall s, I s -> clean_markers g (f_mem (s_fl s))).
Context (step : forall e s m2, ok e -> I s -> noise g (f_mem (s_fl s)) m2 -> exists m3, run (wm s m2) [e] = (fst (run s [e]), wm (snd (run s [e])) m3) /\ noise g (f_mem (s_fl (snd (run s [e])))) m3).
Lemma real_ideal : forall l s m2, Forall ok (ideal l) -> I s -> few_bad run 3 g s l -> noise g (f_mem (s_fl s)) m2 ->
  exists m3, real_run run (wm s m2) l = (fst (run s (ideal l)), wm (snd (run s (ideal l))) m3) /\ noise g (f_mem (s_fl (snd (run s (ideal l))))) m3.
Proof.
  induction l as [|[e|m] l IH]; intros s m2 F Is B N; cbn [real_run ideal flat_map few_bad app] in *.
  - rewrite nil. exists m2. auto.
  - apply Forall_cons_iff in F. destruct F as (Fe & F). destruct (step e s m2 Fe Is N) as (m3 & E3 & N3). fold (ideal l) in *. rewrite E3, (cons e (ideal l)). pose proof (keep e s Fe Is) as K1.
    destruct (run s [e]) as [a s1] eqn:R1. cbn [fst snd] in *. destruct (IH s1 m3 F K1 B N3) as (m4 & E4 & N4). cbv beta iota. rewrite E4.
    destruct (run s1 (ideal l)) as [r s2]. exists m4. auto.
  - destruct B as (B1 & B2). change (with_mem (wm s m2) m) with (wm s m). apply IH; auto. apply bad_noise; auto.
Qed.
Lemma real_same l s : Forall ok (ideal l) -> I s -> few_bad run 3 g s l ->
  fst (real_run run s l) = fst (run s (ideal l)) /\ same_flash g (s_fl (snd (run s (ideal l)))) (s_fl (snd (real_run run s l))).
Proof.
  intros F Is B. destruct (real_ideal l s (f_mem (s_fl s)) F Is B (noise_refl g _)) as (m3 & E3 & (N3 & _)). assert (X : wm s (f_mem (s_fl s)) = s) by (destruct s as [f]; destruct f; reflexivity).
  rewrite X in E3. rewrite E3. cbn [fst snd]. split; auto. split; [exact N3|]. split; reflexivity.
Qed.
End R.

Section Q.
Context (g : geom) (gok : geom_ok g) (f : flash) (c : cache unit) (Fc : fresh_cache (NP g) c) (CM : clean_markers g (f_mem f)).
Lemma q_cons e t s : q_run g s (e :: t) = let '(a, s1) := q_run g s [e] in let '(r, s2) := q_run g s1 t in (a ++ r, s2).
Proof. destruct e as [cl p|c']; cbn [q_run]; [|now destruct (q_run g _ t)]. destruct (q_exec g cl (power s p)) as [a s1]. destruct (q_run g s1 t). reflexivity. Qed.
Definition boot_ok (e : qev) : Prop := forall c', e = EBoot c' -> fresh_cache (NP g) c'.
Lemma boot_one e : boot_ok e -> forall c', In (EBoot c') [e] -> fresh_cache (NP g) c'. Proof. intros B c' [H|[]]. now apply B. Qed.
Lemma q_noisy l : (forall c', In (EBoot c') (ideal l) -> fresh_cache (NP g) c') -> few_bad (q_run g) 3 g (st_new f c) l ->
  fst (real_run (q_run g) (st_new f c) l) = fst (q_run g (st_new f c) (ideal l)) /\ same_flash g (s_fl (snd (q_run g (st_new f c) (ideal l)))) (s_fl (snd (real_run (q_run g) (st_new f c) l))).
Proof.
  intros F B. apply (real_same g gok (q_run g) boot_ok (sane g f anyJ)); auto.
  - intros e t s. apply q_cons.
  - intros e s Fe S. apply (q_run_safe g gok f [e] s S). now apply boot_one.
  - intros s ((_ & _ & X) & _). apply X. exact CM.
  - intros e s m2 Fe S N. apply (q_run_rok g gok f [e] s m2 S); auto. now apply boot_one.
  - apply Forall_forall. intros e IN c' ->. now apply F.
  - apply sane_new; [exact Fc|exact I].
Qed.
Lemma q_clean evs : (forall c', In (EBoot c') evs -> fresh_cache (NP g) c') -> clean_markers g (f_mem (s_fl (snd (q_run g (st_new f c) evs)))).
Proof. intros F. destruct (q_any g gok f c Fc evs F) as (_ & (_ & _ & X) & _). apply X. exact CM. Qed.
End Q.

Section M.
Context {K : Type} (KO : keyops K) (kfit : forall k n bs, k_ser KO k n = inl bs -> length bs <= n) (g : geom) (gok : geom_ok g) (f : flash) (c : cache K) (Fc : fresh_cache (NP g) c) (CM : clean_markers g (f_mem f)).
Lemma m_cons e t s : m_run KO g s (e :: t) = let '(a, s1) := m_run KO g s [e] in let '(r, s2) := m_run KO g s1 t in (a ++ r, s2).
Proof. destruct e as [cl p|c']; cbn [m_run]; [|now destruct (m_run KO g _ t)]. destruct (m_exec KO g cl (power s p)) as [a s1]. destruct (m_run KO g s1 t). reflexivity. Qed.
Definition mboot_ok (e : mev K) : Prop := forall c', e = MBoot c' -> fresh_cache (NP g) c'.
Lemma mboot_one e : mboot_ok e -> forall c', In (MBoot c') [e] -> fresh_cache (NP g) c'. Proof. intros B c' [H|[]]. now apply B. Qed.
Lemma m_noisy l : (forall c', In (MBoot c') (ideal l) -> fresh_cache (NP g) c') -> few_bad (m_run KO g) 3 g (st_new f c) l ->
  fst (real_run (m_run KO g) (st_new f c) l) = fst (m_run KO g (st_new f c) (ideal l)) /\ same_flash g (s_fl (snd (m_run KO g (st_new f c) (ideal l)))) (s_fl (snd (real_run (m_run KO g) (st_new f c) l))).
Proof.
  intros F B. apply (real_same g gok (m_run KO g) mboot_ok (sane g f anyM)); auto.
  - intros e t s. apply m_cons.
  - intros e s Fe S. apply (m_run_safe KO kfit g gok f [e] s S). now apply mboot_one.
  - intros s ((_ & _ & X) & _). apply X. exact CM.
  - intros e s m2 Fe S N. apply (m_run_rok KO kfit g gok f [e] s m2 S); auto. now apply mboot_one.
  - apply Forall_forall. intros e IN c' ->. now apply F.
  - apply sane_new; [exact Fc|exact I].
Qed.
Lemma m_clean evs : (forall c', In (MBoot c') evs -> fresh_cache (NP g) c') -> clean_markers g (f_mem (s_fl (snd (m_run KO g (st_new f c) evs)))).
Proof. intros F. destruct (m_any KO kfit g gok f c Fc evs F) as (((_ & _ & X) & _) & _). apply X. exact CM. Qed.
End M.
