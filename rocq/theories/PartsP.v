(** Proofs for Parts.v: what is outside of the range of a storage neither matters to it nor is changed by it. *)
From Coq Require Import List NArith Arith Bool Lia.
From Verif Require Import Base Flash Cache State Item Generic Queue Map Codec Client MClient TMap ProgP Parts.
Import ListNotations.

Section Frame.
Context {K : Type} (g : geom).
Notation alike := (@alike K g).
Lemma elsewhere_refl f : elsewhere g f f. Proof. repeat split. Qed.
Lemma elsewhere_trans f1 f2 f3 : elsewhere g f1 f2 -> elsewhere g f2 f3 -> elsewhere g f1 f3.
Proof. intros (A & A1 & A2 & A3 & A4) (B & B1 & B2 & B3 & B4). split; [|repeat split; congruence]. intros x I. destruct (A x I), (B x I). split; congruence. Qed.
Lemma elsewhere_sym f1 f2 : elsewhere g f1 f2 -> elsewhere g f2 f1.
Proof. intros (A & A1 & A2 & A3 & A4). split; [|repeat split; congruence]. intros x I. destruct (A x I). split; congruence. Qed.
Lemma kept_refl f : kept g f f. Proof. now split. Qed.
Lemma kept_trans f1 f2 f3 : kept g f1 f2 -> kept g f2 f3 -> kept g f1 f3.
Proof. intros A B x I. destruct (A x I), (B x I). split; congruence. Qed.
Lemma alike_refl s : alike s s. Proof. split; [apply elsewhere_refl|repeat split]. Qed.
Lemma alike_trans s1 s2 s3 : alike s1 s2 -> alike s2 s3 -> alike s1 s3.
Proof. intros (A & A1 & A2 & A3 & A4) (B & B1 & B2 & B3 & B4). split; [eapply elsewhere_trans; eauto|repeat split; congruence]. Qed.
Lemma alike_set s s' f : alike s s' -> elsewhere g (s_fl s') f -> alike s (set_fl s' f).
Proof. intros A B. eapply alike_trans; eauto. split; [exact B|repeat split]. Qed.
Lemma alike_form s s' : alike s s' -> s' = set_fl s (s_fl s').
Proof. intros (_ & A1 & A2 & A3 & A4). destruct s', s. cbn in *. subst. reflexivity. Qed.

Definition framed {A} (m : M K A) : Prop := forall s s', alike s s' -> fst (m s') = fst (m s) /\ alike (snd (m s)) (snd (m s')) /\ kept g (s_fl s) (s_fl (snd (m s))).
Lemma fr_bind {A B} (m : M K A) (k : A -> M K B) : framed m -> (forall a, framed (k a)) -> framed (bind m k).
Proof.
  intros H1 H2 s s' A0. destruct (H1 s s' A0) as (E & R & Q). unfold bind. destruct (m s') as [r' u'], (m s) as [r u]. cbn [fst snd] in *. subst r'. destruct r as [a|e]; cbn [fst snd]; auto.
  destruct (H2 a u u' R) as (E2 & R2 & Q2). split; [|split]; auto. eapply kept_trans; eauto.
Qed.
Lemma fr_attempt {A B} (m : M K A) (k : res A -> M K B) : framed m -> (forall r, r <> Err dropped -> framed (k r)) -> (forall s, fst (m s) <> Err dropped) -> framed (bind (attempt (R := steady) m) k).
Proof.
  intros H1 H2 ND s s' A0. specialize (ND s). destruct (H1 s s' A0) as (E & R & Q). unfold bind, attempt. cbn [on_result steady]. unfold hand_on. destruct (m s') as [r' u'], (m s) as [r u]. cbn [fst snd] in *. subst r'.
  destruct (H2 r ND u u' R) as (E2 & R2 & Q2). split; [|split]; auto. eapply kept_trans; eauto.
Qed.
Lemma fr_local {A} (m : M K A) : local m -> framed m.
Proof.
  intros L s s' A0. destruct (L s) as (_ & L1). pose proof (L1 (s_fl s')) as E1. rewrite <- (alike_form _ _ A0) in E1. rewrite E1. cbn [fst snd].
  pose proof (L1 (s_fl s)) as E2. replace (set_fl s (s_fl s)) with s in E2 by (destruct s; reflexivity).
  assert (F : s_fl (snd (m s)) = s_fl s) by (rewrite E2; reflexivity). split; auto. rewrite F. split; [|apply kept_refl].
  split; [|repeat split]. cbn [s_fl set_fl]. rewrite F. apply A0.
Qed.
Lemma chk_inside al a n : chk g al a n = None -> forall x, a <= x < a + n -> inside g x.
Proof. unfold chk, inside. destruct (_ || _); [discriminate|]. destruct (Nat.ltb_spec a (START g)), (Nat.ltb_spec (FEND g) (a + n)); cbn [orb]; try discriminate. lia. Qed.
Lemma rd_inside (m m' : nat -> N) a n : (forall x, a <= x < a + n -> m' x = m x) -> rd m' a n = rd m a n.
Proof. intros H. unfold rd. apply map_ext_in. intros x I. apply in_seq in I. apply H. lia. Qed.
Lemma fr_read a n : framed (fl_read (R := steady) g a n).
Proof.
  intros s s' A0. unfold fl_read. cbn [on_read steady]. unfold dev_read. destruct (chk g (RS g) a n) as [e|] eqn:C; cbn [fst snd].
  - split; auto. destruct A0 as ((B & B1 & B2 & B3 & B4) & A1). split; [|intros y _; now split]. split; [|exact A1]. unfold elsewhere, refuse. cbn [s_fl set_fl f_mem f_wc f_fuel f_ae f_aw f_bad]. rewrite B4. repeat split; auto; intros; apply B; auto.
  - split; [|split]; auto using kept_refl. f_equal. apply rd_inside. intros x I. destruct A0 as ((B & _) & _). apply B. eapply chk_inside; eauto.
Qed.
Lemma spend_le f n k fu cr : spend f n = (k, fu, cr) -> k <= n.
Proof. unfold spend. destruct f as [j|]; [destruct (Nat.leb_spec n j)|]; intros [= <- <- <-]; lia. Qed.
Lemma fr_write a bs : framed (fl_write g a bs).
Proof.
  intros s s' A0. destruct A0 as ((B & B1 & B2 & B3 & B4) & A1). unfold fl_write, dev_write. destruct (chk g (WS g) a (length bs)) as [e|] eqn:C; cbn [fst snd].
  - split; auto. split; [|intros y _; now split]. split; [|exact A1]. unfold elsewhere, refuse. cbn [s_fl set_fl f_mem f_wc f_fuel f_ae f_aw f_bad]. rewrite B4. repeat split; auto; intros; apply B; auto.
  - rewrite B1. destruct (spend (f_fuel (s_fl s)) (length bs)) as [[k fu] cr] eqn:SP. apply spend_le in SP. rewrite B3. set (k' := if cr && _ then 0 else k). assert (KL : k' <= length bs) by (unfold k'; destruct (cr && _); lia). clearbody k'.
    assert (E1 : elsewhere g (mkflash (mem_and (f_mem (s_fl s)) a (firstn k' bs)) (wc_inc (f_wc (s_fl s)) a k') (f_er (s_fl s)) fu (f_ae (s_fl s)) (f_aw (s_fl s)) (f_bad (s_fl s)))
      (mkflash (mem_and (f_mem (s_fl s')) a (firstn k' bs)) (wc_inc (f_wc (s_fl s')) a k') (f_er (s_fl s')) fu (f_ae (s_fl s')) (f_aw (s_fl s)) (f_bad (s_fl s')))).
    { split; [|repeat split; auto]. intros x I. destruct (B x I) as (X & Y). cbn [f_mem f_wc]. unfold mem_and, wc_inc. now rewrite X, Y. }
    assert (E2 : kept g (s_fl s) (mkflash (mem_and (f_mem (s_fl s)) a (firstn k' bs)) (wc_inc (f_wc (s_fl s)) a k') (f_er (s_fl s)) fu (f_ae (s_fl s)) (f_aw (s_fl s)) (f_bad (s_fl s)))).
    { intros x I. cbn [f_mem f_wc]. unfold mem_and, wc_inc. rewrite firstn_length. pose proof (chk_inside _ _ _ C x) as CI.
      destruct (Nat.leb_spec a x), (Nat.ltb_spec x (a + Nat.min k' (length bs))), (Nat.ltb_spec x (a + k')); cbn [andb]; auto; exfalso; apply I, CI; lia. }
    destruct cr; cbn [fst snd]; (split; [reflexivity|split; [split; [exact E1|exact A1]|exact E2]]).
Qed.
Lemma fr_erase a b : framed (fl_erase g a b).
Proof.
  intros s s' A0. destruct A0 as ((B & B1 & B2 & B3 & B4) & A1). unfold fl_erase, dev_erase. destruct (chk g (ES g) a (b - a)) as [e|] eqn:C; cbn [fst snd].
  - split; auto. split; [|intros y _; now split]. split; [|exact A1]. unfold elsewhere, refuse. cbn [s_fl set_fl f_mem f_wc f_fuel f_ae f_aw f_bad]. rewrite B4. repeat split; auto; intros; apply B; auto.
  - rewrite B1. destruct (spend (f_fuel (s_fl s)) (b - a)) as [[k fu] cr] eqn:SP. apply spend_le in SP. rewrite B2. set (k' := if cr && _ then 0 else k). assert (KL : k' <= b - a) by (unfold k'; destruct (cr && _); lia). clearbody k'.
    assert (E1 : elsewhere g (mkflash (mem_ff (f_mem (s_fl s)) a k') (wc_zero (f_wc (s_fl s)) a k') ((a, b) :: f_er (s_fl s)) fu (f_ae (s_fl s)) (f_aw (s_fl s)) (f_bad (s_fl s)))
      (mkflash (mem_ff (f_mem (s_fl s')) a k') (wc_zero (f_wc (s_fl s')) a k') ((a, b) :: f_er (s_fl s')) fu (f_ae (s_fl s)) (f_aw (s_fl s')) (f_bad (s_fl s')))).
    { split; [|repeat split; auto]. intros x I. destruct (B x I) as (X & Y). cbn [f_mem f_wc]. unfold mem_ff, wc_zero. now rewrite X, Y. }
    assert (E2 : kept g (s_fl s) (mkflash (mem_ff (f_mem (s_fl s)) a k') (wc_zero (f_wc (s_fl s)) a k') ((a, b) :: f_er (s_fl s)) fu (f_ae (s_fl s)) (f_aw (s_fl s)) (f_bad (s_fl s)))).
    { intros x I. cbn [f_mem f_wc]. unfold mem_ff, wc_zero. pose proof (chk_inside _ _ _ C x) as CI.
      destruct (Nat.leb_spec a x), (Nat.ltb_spec x (a + k')); cbn [andb]; auto; exfalso; apply I, CI; lia. }
    destruct cr; cbn [fst snd]; (split; [reflexivity|split; [split; [exact E1|exact A1]|exact E2]]).
Qed.
Ltac fr1 := first [apply fr_read|apply fr_local; first [apply l_ret|apply l_fail; discriminate|apply l_get_buf|apply l_put_buf]|
  lazymatch goal with |- framed (bind _ _) => apply fr_bind; [|intros ?] | |- framed (match ?x with _ => _ end) => destruct x end].
Lemma fr_hdr n a : framed (read_hdr (R := steady) g n a). Proof. induction n; cbn [read_hdr]; repeat fr1; auto. Qed.
Lemma fr_data n h c a x : framed (read_data (R := steady) g n h c a x). Proof. induction n; cbn [read_data]; repeat fr1; auto. Qed.
Lemma fr_state p : framed (page_state (R := steady) g p). Proof. unfold page_state. repeat fr1. Qed.
Lemma fr_new a e : framed (read_new (R := steady) g a e). Proof. unfold read_new. repeat first [fr1|apply fr_hdr]; cbv zeta; repeat fr1. Qed.
Lemma fr_item h a e : framed (read_item (R := steady) g h a e). Proof. unfold read_item. cbv zeta. repeat first [fr1|apply fr_data]. Qed.
Lemma prog_framed {A} F (m : reader -> M K A) F1 : prog g F m F1 -> framed (m steady).
Proof.
  revert A F m F1. apply prog_ind1; intros; auto using fr_write, fr_erase, fr_state, fr_new, fr_item, fr_local, l_ret, l_fail, fr_bind.
  apply fr_attempt; auto. apply (prog_ends g F m F1 H).
Qed.
(** Events. *)
Definition steps {E A} (x : E -> st K -> list A * st K) : Prop := forall e s s', alike s s' -> fst (x e s') = fst (x e s) /\ alike (snd (x e s)) (snd (x e s')) /\ kept g (s_fl s) (s_fl (snd (x e s))).
Lemma alike_power s s' p : alike s s' -> alike (power s p) (power s' p).
Proof. intros ((B & B1 & B2 & B3 & B4) & A1). split; [|exact A1]. unfold elsewhere. cbn. repeat split; auto; intros; apply B; auto. Qed.
Lemma alike_boot s s' c : alike s s' -> alike (set_ca s c) (set_ca s' c).
Proof. intros (B & A1 & A2 & A3 & A4). split; [exact B|]. cbn. auto. Qed.
Lemma kept_power (s : st K) p f : kept g (s_fl (power s p)) f -> kept g (s_fl s) f. Proof. auto. Qed.
Lemma st_framed {A E} (x : E -> st K -> list A * st K) e : (exists (m : st K -> A * st K) p, (forall s, x e s = (let '(a, u) := m (power s p) in ([a], u))) /\
    (forall s s', alike s s' -> fst (m s') = fst (m s) /\ alike (snd (m s)) (snd (m s')) /\ kept g (s_fl s) (s_fl (snd (m s))))) \/ (exists c, forall s, x e s = ([], set_ca s c)) ->
  forall s s', alike s s' -> fst (x e s') = fst (x e s) /\ alike (snd (x e s)) (snd (x e s')) /\ kept g (s_fl s) (s_fl (snd (x e s))).
Proof.
  intros [(m & p & HX & HM)|(c & HX)] s s' A0; rewrite !HX.
  - destruct (HM _ _ (alike_power s s' p A0)) as (E1 & R & Q). destruct (m (power s' p)) as [a' u'], (m (power s p)) as [a u]. cbn [fst snd] in *. subst a'. auto.
  - cbn [fst snd]. split; [|split]; auto using alike_boot. apply kept_refl.
Qed.
(** Histories. *)
Section Hist.
Context {E A : Type} (x : E -> st K -> list A * st K) (ST : steps x).
Fixpoint runs (s : st K) (evs : list E) : list A * st K :=
  match evs with [] => ([], s) | e :: t => let '(l, s1) := x e s in let '(l', s2) := runs s1 t in (l ++ l', s2) end.
Lemma among_runs s evs l s2 : among g x s evs l s2 -> forall s0, alike s0 s -> fst (runs s0 evs) = l /\ alike (snd (runs s0 evs)) s2.
Proof.
  induction 1 as [s f EL|s f e l s1 t l' s2 EL EX AM IH]; intros s0 A0; cbn [runs].
  - split; auto. apply alike_set; auto.
  - destruct (ST e s0 (set_fl s f) (alike_set _ _ _ A0 EL)) as (E1 & R & _). rewrite EX in *. destruct (x e s0) as [l0 u]. cbn [fst snd] in *. subst l0. destruct (IH u R) as (E2 & R2). destruct (runs u t) as [l0 u2]. cbn [fst snd] in *. subst. auto.
Qed.
End Hist.
End Frame.
Lemma run_framed {K A} g (m : reader -> M K A) s s' : @progb K g true A None m (fun _ => None) -> alike g s s' ->
  fst (m steady s') = fst (m steady s) /\ alike g (snd (m steady s)) (snd (m steady s')) /\ kept g (s_fl s) (s_fl (snd (m steady s))).
Proof. intros P A0. apply (prog_framed g None m _ P s s' A0). Qed.
Ltac fin P A0 := destruct (run_framed _ _ _ _ P A0) as (-> & ? & ?); auto.
Lemma q_exec_framed g c s s' : alike g s s' -> fst (q_exec g c s') = fst (q_exec g c s) /\ alike g (snd (q_exec g c s)) (snd (q_exec g c s')) /\ kept g (s_fl s) (s_fl (snd (q_exec g c s))).
Proof.
  intros A0. destruct c; cbn [q_exec]; unfold ans1; cbn [fst snd].
  - fin (p_push (lo := true) g d ow) A0.
  - fin (p_q_pop (lo := true) g b) A0.
  - fin (p_q_peek (lo := true) g b) A0.
  - fin (p_q_iterate (lo := true) g sc) A0.
  - fin (p_max_fit (lo := true) g) A0.
  - fin (p_space_left (lo := true) g) A0.
Qed.
Lemma m_exec_framed {K} (KO : keyops K) g c s s' : alike g s s' -> fst (m_exec KO g c s') = fst (m_exec KO g c s) /\ alike g (snd (m_exec KO g c s)) (snd (m_exec KO g c s')) /\ kept g (s_fl s) (s_fl (snd (m_exec KO g c s))).
Proof.
  intros A0. destruct c; cbn [m_exec]; unfold mans1; cbn [fst snd].
  - fin (p_store (lo := true) KO g b k v) A0.
  - fin (p_fetch (lo := true) KO g b k) A0.
  - fin (p_remove (lo := true) KO g b k) A0.
  - fin (p_remove_all (lo := true) KO g b) A0.
  - fin (p_m_iterate KO g b bs) A0.
Qed.
Lemma q_steps g : steps g (q_ev g).
Proof.
  intros e. apply st_framed. destruct e as [c p|c]; [left; exists (q_exec g c), p|right; exists c; reflexivity]. split; [|intros; now apply q_exec_framed].
  intros s. unfold q_ev. cbn [q_run]. destruct (q_exec g c (power s p)). reflexivity.
Qed.
Lemma m_steps {K} (KO : keyops K) g : steps g (m_ev KO g).
Proof.
  intros e. apply st_framed. destruct e as [c p|c]; [left; exists (m_exec KO g c), p|right; exists c; reflexivity]. split; [|intros; now apply m_exec_framed].
  intros s. unfold m_ev. cbn [m_run]. destruct (m_exec KO g c (power s p)). reflexivity.
Qed.
Lemma t_steps {K} (KO : keyops K) g : steps g (t_ev KO g).
Proof.
  intros e. apply st_framed. destruct e as [T V b k v p|[c p|c]].
  - left. exists (fun s => mans1 (@RUnit K) (t_store KO g V b k v s)), p. split.
    + intros s. unfold t_ev. cbn [t_run]. destruct (mans1 _ _). reflexivity.
    + intros s s' A0. unfold mans1. cbn [fst snd]. fin (p_t_store (lo := true) KO g V b k v) A0.
  - left. exists (m_exec KO g c), p. split; [|intros; now apply m_exec_framed]. intros s. unfold t_ev. cbn [t_run]. destruct (m_exec KO g c (power s p)). reflexivity.
  - right. exists c. reflexivity.
Qed.
Lemma q_runs g evs : forall s, runs (q_ev g) s evs = q_run g s evs.
Proof.
  induction evs as [|e t IH]; intros s; [reflexivity|]. cbn [runs]. unfold q_ev at 1. destruct e as [c p|c]; cbn [q_run].
  - destruct (q_exec g c (power s p)) as [a s1]. rewrite IH. destruct (q_run g s1 t). reflexivity.
  - rewrite IH. now destruct (q_run g (set_ca s c) t).
Qed.
Lemma m_runs {K} (KO : keyops K) g evs : forall s, runs (m_ev KO g) s evs = m_run KO g s evs.
Proof.
  induction evs as [|e t IH]; intros s; [reflexivity|]. cbn [runs]. unfold m_ev at 1. destruct e as [c p|c]; cbn [m_run].
  - destruct (m_exec KO g c (power s p)) as [a s1]. rewrite IH. destruct (m_run KO g s1 t). reflexivity.
  - rewrite IH. now destruct (m_run KO g (set_ca s c) t).
Qed.
Lemma t_runs {K} (KO : keyops K) g evs : forall s, runs (t_ev KO g) s evs = t_run KO g s evs.
Proof.
  induction evs as [|e t IH]; intros s; [reflexivity|]. cbn [runs]. unfold t_ev at 1. destruct e as [T V b k v p|[c p|c]]; cbn [t_run].
  - destruct (mans1 _ _) as [a s1]. rewrite IH. destruct (t_run KO g s1 t). reflexivity.
  - destruct (m_exec KO g c (power s p)) as [a s1]. rewrite IH. destruct (t_run KO g s1 t). reflexivity.
  - rewrite IH. now destruct (t_run KO g (set_ca s c) t).
Qed.
Lemma q_among g s evs l s2 : among g (q_ev g) s evs l s2 -> l = fst (q_run g s evs) /\ alike g (snd (q_run g s evs)) s2.
Proof. intros A0. destruct (among_runs g _ (q_steps g) _ _ _ _ A0 s (alike_refl g s)) as (E & R). rewrite q_runs in *. auto. Qed.
Lemma m_among {K} (KO : keyops K) g s evs l s2 : among g (m_ev KO g) s evs l s2 -> l = fst (m_run KO g s evs) /\ alike g (snd (m_run KO g s evs)) s2.
Proof. intros A0. destruct (among_runs g _ (m_steps KO g) _ _ _ _ A0 s (alike_refl g s)) as (E & R). rewrite m_runs in *. auto. Qed.
Lemma t_among {K} (KO : keyops K) g s evs l s2 : among g (t_ev KO g) s evs l s2 -> l = fst (t_run KO g s evs) /\ alike g (snd (t_run KO g s evs)) s2.
Proof. intros A0. destruct (among_runs g _ (t_steps KO g) _ _ _ _ A0 s (alike_refl g s)) as (E & R). rewrite t_runs in *. auto. Qed.

(** Two on one chip. *)
Section Two.
Context {K1 K2 E1 E2 A1 A2 : Type} (g1 g2 : geom) (AP : apart g1 g2) (x1 : E1 -> st K1 -> list A1 * st K1) (x2 : E2 -> st K2 -> list A2 * st K2) (S1 : steps g1 x1) (S2 : steps g2 x2).
Lemma on_own {K} (s : st K) : on_chip (s_fl s) s = s. Proof. destruct s as [[? ? ? ? ? ? ?] ? ? ? ?]. reflexivity. Qed.
Lemma on_other {K} g f f' (u s : st K) : (forall x, inside g x -> f_mem f' x = f_mem f x /\ f_wc f' x = f_wc f x) -> alike g u (on_chip f s) -> alike g u (on_chip f' s).
Proof.
  intros H A0. eapply alike_trans; [exact A0|]. split; [|repeat split]. split; [exact H|repeat split].
Qed.
Lemma two_apart evs : forall ch s1 s2 u1 u2, alike g1 u1 (on_chip ch s1) -> alike g2 u2 (on_chip ch s2) ->
  forall l1 l2 ch' r1 r2, two_run x1 x2 ch s1 s2 evs = (l1, l2, (ch', r1, r2)) ->
  l1 = fst (runs x1 u1 (lefts evs)) /\ alike g1 (snd (runs x1 u1 (lefts evs))) r1 /\ l2 = fst (runs x2 u2 (rights evs)) /\ alike g2 (snd (runs x2 u2 (rights evs))) r2 /\
  (r1 = on_chip ch' r1 /\ r2 = on_chip ch' r2) /\ forall x, ~ inside g1 x -> ~ inside g2 x -> f_mem ch' x = f_mem ch x /\ f_wc ch' x = f_wc ch x.
Proof.
  induction evs as [|[e|e] t IH]; intros ch s1 s2 u1 u2 H1 H2 l1 l2 ch' r1 r2; cbn [two_run].
  - intros [= <- <- <- <- <-]. cbn [lefts rights flat_map runs fst snd]. repeat (split; auto).
  - destruct (S1 e _ _ H1) as (EA & RA & _). destruct (S1 e _ _ (alike_refl g1 (on_chip ch s1))) as (_ & _ & KA).
    destruct (x1 e (on_chip ch s1)) as [l s1'] eqn:EX. destruct (two_run x1 x2 (s_fl s1') s1' s2 t) as [[l1' l2'] [[c' r1'] r2']] eqn:ET. intros [= <- <- <- <- <-]. cbn [fst snd] in *.
    change (lefts (inl e :: t)) with (e :: lefts t). change (rights (inl e :: t)) with (rights t). cbn [runs]. destruct (x1 e u1) as [l0 v1]. cbn [fst snd] in *. subst l0.
    assert (H1' : alike g1 v1 (on_chip (s_fl s1') s1')) by (rewrite on_own; exact RA).
    assert (H2' : alike g2 u2 (on_chip (s_fl s1') s2)). { eapply on_other; [|exact H2]. intros x I. apply KA. intros J. exact (AP x J I). }
    destruct (IH _ _ _ _ _ H1' H2' _ _ _ _ _ ET) as (-> & B1 & -> & B2 & B3 & B4). destruct (runs x1 v1 (lefts t)) as [l0 w1]. cbn [fst snd] in *.
    repeat (split; auto). all: intros; destruct (B4 x) as (Q1 & Q2); auto; destruct (KA x) as (Q3 & Q4); auto; cbn [on_chip s_fl set_fl f_mem f_wc] in *; congruence.
  - destruct (S2 e _ _ H2) as (EA & RA & _). destruct (S2 e _ _ (alike_refl g2 (on_chip ch s2))) as (_ & _ & KA).
    destruct (x2 e (on_chip ch s2)) as [l s2'] eqn:EX. destruct (two_run x1 x2 (s_fl s2') s1 s2' t) as [[l1' l2'] [[c' r1'] r2']] eqn:ET. intros [= <- <- <- <- <-]. cbn [fst snd] in *.
    change (lefts (inr e :: t)) with (lefts t). change (rights (inr e :: t)) with (e :: rights t). cbn [runs]. destruct (x2 e u2) as [l0 v2]. cbn [fst snd] in *. subst l0.
    assert (H2' : alike g2 v2 (on_chip (s_fl s2') s2')) by (rewrite on_own; exact RA).
    assert (H1' : alike g1 u1 (on_chip (s_fl s2') s1)). { eapply on_other; [|exact H1]. intros x I. apply KA. intros J. exact (AP x I J). }
    destruct (IH _ _ _ _ _ H1' H2' _ _ _ _ _ ET) as (-> & B1 & -> & B2 & B3 & B4). destruct (runs x2 v2 (rights t)) as [l0 w2]. cbn [fst snd] in *.
    repeat (split; auto). all: intros; destruct (B4 x) as (Q1 & Q2); auto; destruct (KA x) as (Q3 & Q4); auto; cbn [on_chip s_fl set_fl f_mem f_wc] in *; congruence.
Qed.
End Two.
Lemma two_unharmed {K1 K2 E1 E2 A1 A2} g1 g2 (x1 : E1 -> st K1 -> list A1 * st K1) (x2 : E2 -> st K2 -> list A2 * st K2) ch s1 s2 evs : apart g1 g2 -> steps g1 x1 -> steps g2 x2 ->
  unharmed g1 g2 ch (runs x1 (on_chip ch s1) (lefts evs)) (runs x2 (on_chip ch s2) (rights evs)) (two_run x1 x2 ch s1 s2 evs).
Proof.
  intros AP H1 H2. unfold unharmed. destruct (two_run x1 x2 ch s1 s2 evs) as [[l1 l2] [[c' r1] r2]] eqn:ET.
  destruct (two_apart g1 g2 AP x1 x2 H1 H2 evs ch s1 s2 _ _ (alike_refl g1 _) (alike_refl g2 _) _ _ _ _ _ ET) as (-> & B1 & -> & B2 & (B3 & B4) & B5). repeat (split; auto). intros x I J. now apply B5.
Qed.
Lemma qm_unharmed {K} (KO : keyops K) g1 g2 ch s1 s2 evs : apart g1 g2 ->
  unharmed g1 g2 ch (q_run g1 (on_chip ch s1) (lefts evs)) (m_run KO g2 (on_chip ch s2) (rights evs)) (two_run (q_ev g1) (m_ev KO g2) ch s1 s2 evs).
Proof. intros AP. rewrite <- q_runs, <- m_runs. apply two_unharmed; auto using q_steps, m_steps. Qed.
Lemma qq_unharmed g1 g2 ch s1 s2 evs : apart g1 g2 ->
  unharmed g1 g2 ch (q_run g1 (on_chip ch s1) (lefts evs)) (q_run g2 (on_chip ch s2) (rights evs)) (two_run (q_ev g1) (q_ev g2) ch s1 s2 evs).
Proof. intros AP. rewrite <- !q_runs. apply two_unharmed; auto using q_steps. Qed.
Lemma mm_unharmed {K1 K2} (KO1 : keyops K1) (KO2 : keyops K2) g1 g2 ch s1 s2 evs : apart g1 g2 ->
  unharmed g1 g2 ch (m_run KO1 g1 (on_chip ch s1) (lefts evs)) (m_run KO2 g2 (on_chip ch s2) (rights evs)) (two_run (m_ev KO1 g1) (m_ev KO2 g2) ch s1 s2 evs).
Proof. intros AP. rewrite <- !m_runs. apply two_unharmed; auto using m_steps. Qed.
Lemma q_kept g s e : kept g (s_fl s) (s_fl (snd (q_ev g e s))). Proof. apply (q_steps g e s s (alike_refl g s)). Qed.
Lemma t_kept {K} (KO : keyops K) g s e : kept g (s_fl s) (s_fl (snd (t_ev KO g e s))). Proof. apply (t_steps KO g e s s (alike_refl g s)). Qed.
Lemma unharmed_first {K1 K2 A1 A2} g1 g2 ch (r1 : list A1 * st K1) (r2 : list A2 * st K2) r : unharmed g1 g2 ch r1 r2 r -> fst (fst r) = fst r1.
Proof. destruct r as [[l1 l2] [[c' s1] s2]]. intros U. apply U. Qed.
