(** Proofs for Port.v. *)
From Coq Require Import List NArith Arith Bool Lia.
From Verif Require Import Base Flash Cache State Crc Client MClient QSpec QObs QPropsP Map Codec MSpec MObs MPropsP Port.
Import ListNotations.
Local Opaque crc16 acrc crc32.

(** Histories as lists of calls. *)
Inductive ctrace (D : list item -> qcall -> qans -> list item -> Prop) : list item -> list (qcall * option nat) -> list qans -> list item -> Prop :=
| CNil q : ctrace D q [] [] q
| CCons q c p a q1 cs l q2 : D q c a q1 -> ctrace D q1 cs l q2 -> ctrace D q ((c, p) :: cs) (a :: l) q2.
Lemma q_ctrace rw hl pc many pf q evs l q' : qtrace rw hl pc many pf q evs l q' -> ctrace (qdo rw hl pc many pf) q (q_calls evs) l q'.
Proof. induction 1; cbn; try constructor; auto. econstructor; eauto. Qed.

Section Two.
Context (rw1 rw2 : nat -> nat) (hl1 hl2 pc1 pc2 : nat) (many1 many2 : bool) (n : nat) (N1 : pc1 <= n) (N2 : pc2 <= n).
Lemma no_short rw hl pc q b k : pc <= n -> n <= length b -> ~ short rw hl pc false q b k.
Proof. intros A B (C & D & _). lia. Qed.
Lemma istep_eq bf rm x r bf1 rm1 r' bf2 rm2 : n <= length (fst x) -> istep rw1 hl1 pc1 false bf rm x r bf1 rm1 -> istep rw2 hl2 pc2 false bf rm x r' bf2 rm2 -> r = r' /\ bf1 = bf2 /\ rm1 = rm2.
Proof.
  intros L A B. destruct A as [b d t E Lb|b d t E Lb|x E|b pop k Sh]; inversion B as [b' d' t' E' Lb'|b' d' t' E' Lb'|x' E'|b' pop' k' Sh']; subst;
    try (exfalso; match goal with H : short _ _ _ _ _ _ _ |- _ => revert H; apply no_short; assumption end); try discriminate; try (injection E' as -> ->); auto.
Qed.
Lemma isteps_eq bf rm sc rs q1 : isteps rw1 hl1 pc1 false bf rm sc rs q1 -> Forall (fun x => n <= length (fst x)) sc -> forall rs' q2, isteps rw2 hl2 pc2 false bf rm sc rs' q2 -> rs = rs' /\ q1 = q2.
Proof.
  induction 1 as [bf rm|bf rm x sc r rs bf' rm' q St Sts IH]; intros F rs' q2 B; inversion B; subst; auto.
  inversion F; subst. match goal with H : istep rw2 _ _ _ _ _ _ _ _ _ |- _ => destruct (istep_eq _ _ _ _ _ _ _ _ _ ltac:(eassumption) St H) as (-> & -> & ->) end.
  destruct (IH ltac:(assumption) _ _ ltac:(eassumption)) as (-> & ->). auto.
Qed.
Lemma qdo_eq q c a1 a2 q1 q2 : plain n c -> (match c with QPush _ _ => a1 = a2 | _ => True end) -> qdo rw1 hl1 pc1 many1 false q c a1 q1 -> qdo rw2 hl2 pc2 many2 false q c a2 q2 -> a1 = a2 /\ q1 = q2.
Proof.
  intros P E A B. destruct A; cbn in P, E; try contradiction; try discriminate; inversion B; subst; try discriminate; try congruence; auto.
  - match goal with H : istep rw1 _ _ _ _ _ _ _ _ _, H' : istep rw2 _ _ _ _ _ _ _ _ _ |- _ => now destruct (istep_eq _ _ (b, _) _ _ _ _ _ _ P H H') as (-> & -> & ->) end.
  - match goal with H : istep rw1 _ _ _ _ _ _ _ _ _, H' : istep rw2 _ _ _ _ _ _ _ _ _ |- _ => now destruct (istep_eq _ _ (b, _) _ _ _ _ _ _ P H H') as (-> & -> & ->) end.
  - match goal with H : isteps rw1 _ _ _ _ _ _ _ _, H' : isteps rw2 _ _ _ _ _ _ _ _ |- _ => now destruct (isteps_eq _ _ _ _ _ H P _ _ H') as (-> & ->) end.
Qed.
Lemma ctrace_eq q cs l1 q1 : ctrace (qdo rw1 hl1 pc1 many1 false) q cs l1 q1 -> forall l2 q2, ctrace (qdo rw2 hl2 pc2 many2 false) q cs l2 q2 -> Forall (fun c => plain n (fst c)) cs ->
  push_answers cs l1 = push_answers cs l2 -> l1 = l2 /\ q1 = q2.
Proof.
  induction 1 as [q|q c p a q1 cs l q1' D T IH]; intros l2 q2 B F E; inversion B; subst; auto. inversion F as [|? ? P F']; subst. cbn in P.
  match goal with H : qdo rw2 _ _ _ _ _ _ ?a' ?q' |- _ =>
    assert (X : match c with QPush _ _ => a = a' | _ => True end) by (destruct c; auto; cbn in E; now injection E); destruct (qdo_eq q c a a' q1 q' P X D H) as (-> & ->) end.
  destruct (IH _ _ ltac:(eassumption) F') as (-> & ->); auto. destruct c; cbn in E; auto. now injection E.
Qed.
End Two.

Lemma port_queue g1 g2 evs1 evs2 l1 l2 s1 s2 n : q_reached false g1 evs1 l1 s1 -> q_reached false g2 evs2 l2 s2 -> ES g1 <= n -> ES g2 <= n ->
  q_calls evs1 = q_calls evs2 -> Forall (fun c => plain n (fst c)) (q_calls evs1) -> push_answers (q_calls evs1) l1 = push_answers (q_calls evs1) l2 ->
  l1 = l2 /\ exists q, q_holds g1 s1 q /\ q_holds g2 s2 q.
Proof.
  intros R1 R2 L1 L2 E F P. destruct (q_history _ _ _ _ _ R1) as (q1 & T1 & H1). destruct (q_history _ _ _ _ _ R2) as (q2 & T2 & H2).
  apply q_ctrace in T1, T2. rewrite <- E in T2. unfold page_cap in *.
  assert (N1 : ES g1 - 2 * W g1 <= n) by lia. assert (N2 : ES g2 - 2 * W g2 <= n) by lia.
  destruct (ctrace_eq _ _ _ _ _ _ _ _ n N1 N2 _ _ _ _ T1 _ _ T2 F P) as (-> & ->). split; auto. now exists q2.
Qed.

Section MapTwo.
Context {K : Type} (KO : keyops K) (legal : K -> Prop).
Inductive mctrace (D : vmap -> list (K * list N) -> mcall K -> mans K -> vmap -> list (K * list N) -> Prop) : vmap -> list (K * list N) -> list (mcall K * option nat) -> list (mans K) -> vmap -> Prop :=
| MCNil m log m' : eqm legal m' m -> mctrace D m log [] [] m'
| MCCons m log c p a m1 log1 cs l m2 : D m log c a m1 log1 -> mctrace D m1 log1 cs l m2 -> mctrace D m log ((c, p) :: cs) (a :: l) m2.
Lemma m_ctrace eqb enc big m log evs l m' log' : mtrace eqb legal enc big false m log evs l m' log' -> mctrace (mdo eqb legal enc big false) m log (m_calls evs) l m'.
Proof. induction 1; cbn; try (constructor; assumption); auto. econstructor; eauto. Qed.
Definition fetches_legal (c : mcall K) : Prop := match c with MFetch _ k => legal k | _ => True end.
Lemma eqm_sym m m' : eqm legal m m' -> eqm legal m' m. Proof. intros E k L. symmetry. auto. Qed.
Lemma eqm_trans (a b c : vmap) : eqm legal a b -> eqm legal b c -> eqm legal a c. Proof. intros E F k L. rewrite E; auto. Qed.
Lemma eqm_upd eqb a b k v : eqm legal a b -> eqm legal (upd eqb a k v) (upd eqb b k v). Proof. intros E j L. unfold upd. destruct (eqb j k); auto. Qed.
Lemma mdo_eq eqb enc big1 big2 m m' log log' c a1 a2 m1 m2 log1 log2 : unordered c -> fetches_legal c -> (match c with MStore _ _ _ => a1 = a2 | _ => True end) -> eqm legal m m' ->
  mdo eqb legal enc big1 false m log c a1 m1 log1 -> mdo eqb legal enc big2 false m' log' c a2 m2 log2 -> a1 = a2 /\ eqm legal m1 m2.
Proof.
  intros U FL E EM A B. destruct A; cbn in U, FL, E; try contradiction; try discriminate; inversion B; subst; try discriminate; try congruence;
    (split; [first [reflexivity|now rewrite EM by assumption|congruence]|]; eapply eqm_trans; [eassumption|]; apply eqm_sym; eapply eqm_trans; [eassumption|]; apply eqm_sym; auto using eqm_upd).
  intros k' L. reflexivity.
Qed.
Lemma mctrace_eq eqb enc big1 big2 m log cs l1 m1 : mctrace (mdo eqb legal enc big1 false) m log cs l1 m1 -> forall m' log' l2 m2, mctrace (mdo eqb legal enc big2 false) m' log' cs l2 m2 -> eqm legal m m' ->
  Forall (fun c => unordered (fst c) /\ fetches_legal (fst c)) cs -> store_answers cs l1 = store_answers cs l2 -> l1 = l2 /\ eqm legal m1 m2.
Proof.
  induction 1 as [m log m1 Em|m log c p a m1 log1 cs l m1' D T IH]; intros m' log' l2 m2 B EM F E; inversion B; subst.
  - split; auto. eapply eqm_trans; [eassumption|]. eapply eqm_trans; [eassumption|]. now apply eqm_sym.
  - inversion F as [|? ? (P & P') F']; subst. cbn in P, P'.
    match goal with H : mdo _ _ _ big2 _ _ _ _ ?a' ?x ?y |- _ =>
      assert (X : match c with MStore _ _ _ => a = a' | _ => True end) by (destruct c; auto; cbn in E; now injection E); destruct (mdo_eq eqb enc big1 big2 m m' log log' c a a' m1 x log1 y P P' X EM D H) as (-> & EM') end.
    match goal with H : mctrace (mdo _ _ _ big2 _) _ _ _ _ _ |- _ => destruct (IH _ _ _ _ H EM' F') as (-> & ?); auto end. destruct c; cbn in E; auto. now injection E.
Qed.
Lemma port_map g1 g2 n1 n2 evs1 evs2 l1 l2 s1 s2 : m_reached KO legal false g1 n1 evs1 l1 s1 -> m_reached KO legal false g2 n2 evs2 l2 s2 ->
  m_calls evs1 = m_calls evs2 -> Forall (fun c => unordered (fst c)) (m_calls evs1) -> store_answers (m_calls evs1) l1 = store_answers (m_calls evs1) l2 ->
  l1 = l2 /\ exists m, m_holds KO legal g1 n1 s1 m /\ m_holds KO legal g2 n2 s2 m.
Proof.
  intros R1 R2 E F P. destruct (m_history _ _ _ _ _ _ _ _ R1) as (m1 & log1 & T1 & H1). destruct (m_history _ _ _ _ _ _ _ _ R2) as (m2 & log2 & T2 & H2).
  apply m_ctrace in T1, T2. rewrite <- E in T2.
  assert (FL : Forall (fun c => fetches_legal (fst c)) (m_calls evs1)).
  { destruct R1 as (_ & f & c & _ & _ & _ & _ & _ & EV & _). unfold m_calls. apply Forall_forall. intros x I. apply in_flat_map in I. destruct I as ([c0 p|c0] & I & I2); [|destruct I2]. destruct I2 as [<-|[]].
    rewrite Forall_forall in EV. destruct (EV _ I) as (_ & O). destruct c0; cbn in *; auto. apply O. }
  assert (F2 : Forall (fun c => unordered (fst c) /\ fetches_legal (fst c)) (m_calls evs1)).
  { rewrite Forall_forall in *. auto. }
  destruct (mctrace_eq _ _ _ _ _ _ _ _ _ T1 _ _ _ _ T2 ltac:(intros k L; reflexivity) F2 P) as (-> & EM). split; auto. exists m2. split; auto.
  intros k b L Lb. rewrite <- (EM k L). now apply H1.
Qed.
End MapTwo.
