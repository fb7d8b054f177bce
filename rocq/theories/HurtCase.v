(** Concrete histories with damaged items. *)
From Coq Require Import List NArith Arith Bool Lia.
From Verif Require Import Base BaseP Crc CrcP Flash Cache State Item Generic Queue Map Codec CodecP GeomP ScanP PageP WorldP LayP QPushP QRepP QIterP QNextP QStepP QMiscP QCallP QHistP QPropsP Client QSpec QObs QCase MClient MSpec MExecP MHistP MObs MPropsP MCase FormatSpec FormatP NoiseSpec HurtSpec HurtP HurtMP SlightP.
Import ListNotations.
Local Opaque crc16 acrc crc32.

(** Bits [v] of the bytes at [x] are wrong, for each [(x, v)] of [l]. *)
Definition flips (m : nat -> N) (l : list (nat * N)) : nat -> N := fun x =>
  match find (fun i => fst i =? x) l with Some (_, v) => N.lxor (m x) v | None => m x end.
Definition part_ofb (g : geom) (i : nat * list N) (x : nat) : bool :=
  let '(a, d) := i in (a <=? x) && (x <? a + 4) || (a + words g 8 <=? x) && (x <? a + words g 8 + words g (length d)).
Definition flipsb (g : geom) (m : nat -> N) (l : list (nat * N)) : bool :=
  let P := placed g m 0 in
  forallb (fun i => (snd i <? 256)%N && existsb (fun j => part_ofb g j (fst i)) P) l &&
  forallb (fun i => wrong_bits m (flips m l) (fst i) 4 + wrong_bits m (flips m l) (fst i + words g 8) (length (snd i)) <=? 2) P.
Lemma flipsb_ok g m l : is_mem m -> flipsb g m l = true -> slightly_hurt g m (flips m l).
Proof.
  intros M H. unfold flipsb in H. apply andb_true_iff in H. destruct H as (H1 & H2). rewrite forallb_forall in H1, H2. split; [|split].
  - intros x. unfold flips. destruct (find _ l) as [[y v]|] eqn:F; [|apply M]. apply find_some in F. destruct F as (I & _). specialize (H1 _ I). apply andb_true_iff in H1. destruct H1 as (V & _). apply N.ltb_lt in V.
    unfold is_byte. change 256%N with (2 ^ 8)%N. apply lxor_lt; [apply M|exact V].
  - intros x NP. unfold flips. destruct (find _ l) as [[y v]|] eqn:F; auto. exfalso. apply find_some in F. destruct F as (I & E). cbn [fst] in E. apply Nat.eqb_eq in E. subst y. specialize (H1 _ I). apply andb_true_iff in H1. destruct H1 as (_ & X).
    apply existsb_exists in X. destruct X as (j & J & X). apply (NP j J). destruct j as [a d]. unfold part_ofb in X. cbn [fst] in X. unfold part_of. apply orb_true_iff in X. rewrite !andb_true_iff, !Nat.leb_le, !Nat.ltb_lt in X. exact X.
  - intros [a d] I. left. specialize (H2 _ I). now apply Nat.leb_le in H2.
Qed.

(** Histories: events, damage, damage followed by a restart. *)
Inductive hstep (E B : Type) := HE (e : E) | HD (l : list (nat * N)) | HR (l : list (nat * N)) (b : B).
Arguments HE {E B} e. Arguments HD {E B} l. Arguments HR {E B} l b.
Section Build.
Context {K E A B : Type} (run : st K -> list E -> list A * st K) (boot : B -> E) (g : geom).
Fixpoint build (s : st K) (l : list (hstep E B)) : list (nev E) :=
  match l with
  | [] => []
  | HE e :: t => NEv e :: build (snd (run s [e])) t
  | HD f :: t => let m := flips (f_mem (s_fl s)) f in NMem m :: build (with_mem s m) t
  | HR f b :: t => let m := flips (f_mem (s_fl s)) f in NMem m :: NEv (boot b) :: build (snd (run (with_mem s m) [boot b])) t
  end.
Fixpoint buildb (s : st K) (l : list (hstep E B)) : bool :=
  match l with
  | [] => true
  | HE e :: t => buildb (snd (run s [e])) t
  | HD f :: t => flipsb g (f_mem (s_fl s)) f && buildb (with_mem s (flips (f_mem (s_fl s)) f)) t
  | HR f b :: t => flipsb g (f_mem (s_fl s)) f && buildb (snd (run (with_mem s (flips (f_mem (s_fl s)) f)) [boot b])) t
  end.
Fixpoint hevs (l : list (hstep E B)) : list E :=
  match l with [] => [] | HE e :: t => e :: hevs t | HD _ :: t => hevs t | HR _ b :: t => boot b :: hevs t end.
Lemma build_ideal : forall l s, ideal (build s l) = hevs l.
Proof. induction l as [|[e|f|f b] l IH]; intros s; cbn [build hevs]; auto; unfold ideal; cbn [flat_map app]; fold (@ideal E); rewrite ?IH; try reflexivity; f_equal; apply IH. Qed.
End Build.

Lemma qbuild_ok g (gok : geom_ok g) ae aw (SG : single_ok g false ae) : forall l Y s, qst g false ae aw Y s -> Forall (ev_ok g false aw) (hevs EBoot l) -> buildb (q_run g) EBoot g s l = true ->
  only_hurt (q_run g) g s (build (q_run g) EBoot s l).
Proof.
  assert (HU : forall Y s f, qst g false ae aw Y s -> flipsb g (f_mem (s_fl s)) f = true -> hurt g (f_mem (s_fl s)) (flips (f_mem (s_fl s)) f)).
  { intros Y s f Q B. assert (M : is_mem (f_mem (s_fl s))) by (destruct Q as (pg & _ & _ & ((M & _) & _)); exact M). apply slight_ok; auto. now apply flipsb_ok. }
  induction l as [|[e|f|f b] l IH]; intros Y s Q EV B; cbn [build buildb hevs only_hurt] in *; auto.
  - apply Forall_cons_iff in EV. destruct EV as (E1 & EV). destruct (q_run g s [e]) as [a s1] eqn:R. destruct (hist_ok g gok false ae aw SG [e] _ _ _ _ Q ltac:(auto) R) as (Y1 & Q1 & _). eapply IH; eauto.
  - apply andb_true_iff in B. destruct B as (B1 & B2). pose proof (HU Y s f Q B1) as H. split; auto. destruct (qst_hurt g gok ae aw Y s _ Q H) as (_ & _ & Y1 & Q1 & _). eapply IH; eauto.
  - apply andb_true_iff in B. destruct B as (B1 & B2). apply Forall_cons_iff in EV. destruct EV as (E1 & EV). pose proof (HU Y s f Q B1) as H. split; auto. destruct (qst_hurt g gok ae aw Y s _ Q H) as (_ & _ & Y1 & Q1 & _).
    destruct (q_run g _ [EBoot b]) as [a s1] eqn:R in B2 |- *. destruct (hist_ok g gok false ae aw SG [EBoot b] _ _ _ _ Q1 ltac:(auto) R) as (Y2 & Q2 & _). cbn [snd] in *. eapply IH; eauto.
Qed.
Lemma q_build g c l : setting true g false 0 -> fresh_cache (NP g) c -> Forall (qev_ok true g) (hevs EBoot l) -> buildb (q_run g) EBoot g (st_new flash_new c) l = true ->
  only_hurt (q_run g) g (st_new flash_new c) (build (q_run g) EBoot (st_new flash_new c) l).
Proof.
  intros ST FC EV B. pose proof (setting_single _ _ _ _ ST) as SG. pose proof ST as (gok & _).
  apply (qbuild_ok g gok false 0 SG l _ _ (qst_new g gok false false 0 flash_new c (fl_erased g) eq_refl eq_refl ltac:(discriminate) FC)); auto.
  eapply Forall_impl; [|exact EV]. intros; eapply (setting_ev true); eauto.
Qed.

Fixpoint mbuildb (g : geom) (ae : bool) (t : mode) (s : st N) (l : list (hstep (mev N) (cache N))) : bool :=
  match l with
  | [] => true
  | HE e :: r => let '(a, s1) := m_run kn g s [e] in calmb ae t [e] a && mbuildb g ae (mode_after t [e] a) s1 r
  | HD f :: r => sure t && flipsb g (f_mem (s_fl s)) f && (match c_kp (s_ca s) with KPNone => true | _ => false end) && mbuildb g ae t (with_mem s (flips (f_mem (s_fl s)) f)) r
  | HR f b :: r => sure t && flipsb g (f_mem (s_fl s)) f && mbuildb g ae (mkmode (sure t) true (whole t)) (set_ca (with_mem s (flips (f_mem (s_fl s)) f)) b) r
  end.
Lemma mbuild_ok g (gok : geom_ok g) ae aw (np2 : 2 <= NP g) n : forall l t log v s, mst g false ae aw kn kl n t log v s -> Forall (mevok g false aw kn kl n) (hevs (@MBoot N) l) -> mbuildb g ae t s l = true ->
  calm_hurt kn g t s (build (m_run kn g) (@MBoot N) s l).
Proof.
  assert (HU : forall t log v s f, mst g false ae aw kn kl n t log v s -> flipsb g (f_mem (s_fl s)) f = true -> hurt g (f_mem (s_fl s)) (flips (f_mem (s_fl s)) f)).
  { intros t log v s f Q B. assert (M : is_mem (f_mem (s_fl s))) by (destruct Q as (Y & (pg & _ & ((M & _) & _) & _) & _); exact M). apply slight_ok; auto. now apply flipsb_ok. }
  induction l as [|[e|f|f b] l IH]; intros t log v s Q EV B; cbn [build mbuildb hevs calm_hurt] in *; auto.
  - apply Forall_cons_iff in EV. destruct EV as (E1 & EV). destruct (m_run kn g s [e]) as [a s1] eqn:R. apply andb_true_iff in B. destruct B as (B1 & B2). apply calmb_ok in B1.
    assert (AE : f_ae (s_fl s) = ae) by (destruct Q as (Y & ML & _); eapply mlay_ae; eauto). rewrite AE. split; auto.
    destruct (mhist_ok g gok false ae aw np2 kn kl kn_codec n [e] _ _ _ _ _ _ Q ltac:(auto) B1 R) as (v1 & log1 & _ & Q1). cbn [snd]. eapply IH; eauto.
  - rewrite !andb_true_iff in B. destruct B as (((B0 & B1) & B2) & B3). pose proof (HU _ _ _ s f Q B1) as H. split; auto. split; auto. assert (KN : c_kp (s_ca s) = KPNone) by (destruct (c_kp (s_ca s)); auto; discriminate). split; [left; exact KN|].
    destruct (mst_hurt kn kl g gok ae aw np2 n t log v s _ Q B0 H) as (p & _ & _ & Q1 & _). eapply IH; eauto.
  - rewrite !andb_true_iff in B. destruct B as ((B0 & B1) & B3). apply Forall_cons_iff in EV. destruct EV as (E1 & EV). pose proof (HU _ _ _ s f Q B1) as H. split; auto. split; auto. split; [right; eauto|].
    rewrite m_run_boot. split; [exact I|]. cbn [snd]. destruct (mst_hurt kn kl g gok ae aw np2 n t log v s _ Q B0 H) as (p & _ & _ & _ & Q1). eapply IH; eauto.
Qed.
Lemma m_build g n ae c l : msetting true g 0 -> fresh_cache (NP g) c -> Forall (mev_ok kn kl true g n) (hevs (@MBoot N) l) -> mbuildb g ae calm0 (st_new (mfl ae) c) l = true ->
  calm_hurt kn g calm0 (st_new (mfl ae) c) (build (m_run kn g) (@MBoot N) (st_new (mfl ae) c) l).
Proof.
  intros ST FC EV B. pose proof ST as (gok & np2 & _).
  eapply (mbuild_ok g gok ae 0 np2 n); [|eapply Forall_impl; [|exact EV]; intros; eapply (mev_mevok kn kl true); eauto|exact B].
  apply (mst_new g gok false ae 0 np2 kn kl n (mfl ae) c); auto; try discriminate. split; intros; cbn; auto; reflexivity.
Qed.
Lemma reached_mem pf g n evs l s : m_reached kn kl pf g n evs l s -> is_mem (f_mem (s_fl s)).
Proof. intros R. destruct (reached_reach kn kl _ _ _ _ _ _ R) as (v & log & ae & aw & RC). destruct RC as [_ _ _ (Y & (pg & _ & ((M & _) & _) & _) & _) _ _]. exact M. Qed.
