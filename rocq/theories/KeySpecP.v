(** What the bounded most-recently-used list of KeyP.v means for a user of the key cache. *)
From Coq Require Import List NArith ZArith Arith Bool Lia ZifyBool ZifyNat ZifyN.
From Verif Require Import Base BaseP Flash Cache KeyP.
Import ListNotations.

Section Keys.
Context {K : Type} (keqb : K -> K -> bool) (legal : K -> Prop).
Hypothesis keqb_ok : forall a b, legal a -> legal b -> (keqb a b = true <-> a = b).
Notation recall := (recall keqb).
Notation forget := (forget keqb).
Notation kop_ok := (kop_ok legal).
Notation keys_ok := (keys_ok legal).

(** The address noted last for [k], unless it was erased or everything was reset later. *)
Definition note1 (k : K) (x : option nat) (o : kop) : option nat :=
  match o with
  | KNote k' a => if keqb k k' then Some a else x
  | KErase k' => if keqb k k' then None else x
  | KReset => None
  end.
Definition last_note (k : K) (os : list kop) : option nat := fold_left (note1 k) os None.

Lemma recall_firstn n k es a : recall k (firstn n es) = Some a -> recall k es = Some a.
Proof.
  revert es. induction n as [|n IH]; intros [|e es] H; try discriminate; auto. unfold KeyP.recall in *. cbn [firstn find] in *.
  destruct (keqb k (fst e)); auto.
Qed.
Lemma recall_forget k k' es : legal k -> legal k' -> keys_ok es -> recall k (forget k' es) = if keqb k k' then None else recall k es.
Proof.
  intros L L' [_ LE]. unfold KeyP.recall, KeyP.forget. induction es as [|e es IH]; [now destruct (keqb k k')|]. inversion LE as [|? ? Le LE']; subst.
  specialize (IH LE'). cbn [filter find]. destruct (keqb k' (fst e)) eqn:E1; cbn [negb].
  - apply keqb_ok in E1; auto. rewrite IH. destruct (keqb k k') eqn:E2; auto. destruct (keqb k (fst e)) eqn:E3; auto. rewrite <- E1 in E3. congruence.
  - cbn [find]. destruct (keqb k (fst e)) eqn:E3; auto. destruct (keqb k k') eqn:E2; auto.
    apply keqb_ok in E2; auto. subst k'. congruence.
Qed.
Lemma keys_cons k a es : legal k -> keys_ok es -> keys_ok ((k, a) :: forget k es).
Proof.
  intros L H. pose proof (forget_not keqb legal keqb_ok k es L H) as N. destruct (keys_forget keqb legal k es H) as [H1 H2].
  split; cbn [map fst]; constructor; auto.
Qed.
Lemma keys_step n es o : kop_ok o -> keys_ok es -> keys_ok (lru_step keqb n es o).
Proof.
  intros O H. destruct o as [k a|k|]; cbn [lru_step].
  - apply keys_firstn. apply keys_cons; auto. apply O.
  - now apply keys_forget.
  - split; constructor.
Qed.

Lemma lru_true n k os : legal k -> Forall kop_ok os -> forall es x, keys_ok es -> (forall a, recall k es = Some a -> x = Some a) ->
  forall a, recall k (fold_left (lru_step keqb n) os es) = Some a -> fold_left (note1 k) os x = Some a.
Proof.
  intros L. induction os as [|o os IH]; intros F es x KE H a E; cbn [fold_left] in *; auto. inversion F as [|? ? O F']; subst.
  eapply (IH F'); [|clear E a|exact E]; [now apply keys_step|]. intros a E. destruct o as [k' a'|k'|]; cbn [lru_step note1] in *; cbn in O.
  - apply recall_firstn in E. destruct O as [O _]. unfold KeyP.recall in E. cbn [find fst] in E. destruct (keqb k k') eqn:Q; [exact E|].
    apply H. change (recall k (forget k' es) = Some a) in E. rewrite (recall_forget k k' es L O KE), Q in E. exact E.
  - rewrite (recall_forget k k' es L O KE) in E. destruct (keqb k k'); [discriminate|auto].
  - discriminate.
Qed.

(** Keys noted by a list of calls are among [ks]; [k] itself is left alone. *)
Definition others (k : K) (ks : list K) (o : kop) : Prop :=
  match o with KNote k' _ => In k' ks /\ keqb k k' = false | KErase k' => keqb k k' = false | KReset => False end.
Lemma forget_app k e1 e2 : forget k (e1 ++ e2) = forget k e1 ++ forget k e2.
Proof. unfold KeyP.forget. apply filter_app. Qed.
Lemma forget_in k e es : In e (forget k es) -> In e es.
Proof. unfold KeyP.forget. intros H. apply filter_In in H. apply H. Qed.
Lemma forget_in_fst k x es : In x (map fst (forget k es)) -> In x (map fst es).
Proof. intros H. apply in_map_iff in H. destruct H as (e & E & I). apply in_map_iff. exists e. split; auto. eapply forget_in; eauto. Qed.
Lemma lru_keep n k a ks os : legal k -> length ks < n -> Forall kop_ok os -> Forall (others k ks) os -> forall es, keys_ok es ->
  (exists e1 e2, es = e1 ++ (k, a) :: e2 /\ incl (map fst e1) ks) ->
  exists e1 e2, fold_left (lru_step keqb n) os es = e1 ++ (k, a) :: e2.
Proof.
  intros L LK. induction os as [|o os IH]; intros F O es KE (e1 & e2 & E & I); cbn [fold_left]; [subst; eauto|].
  inversion F as [|? ? F1 F2]; subst. inversion O as [|? ? O1 O2]; subst. eapply (IH F2 O2); [now apply keys_step|].
  destruct o as [k' a'|k'|]; cbn in O1; cbn [lru_step]; [| |contradiction].
  - destruct O1 as [I1 N1]. cbn in F1. destruct F1 as [L' _]. rewrite forget_app. unfold KeyP.forget at 2. cbn [filter fst].
    destruct (keqb k' k) eqn:Q; [apply keqb_ok in Q; auto; subst; rewrite (proj2 (keqb_ok k k L L) eq_refl) in N1; discriminate|]. cbn [negb].
    change (filter _ e2) with (forget k' e2). rewrite app_comm_cons.
    pose proof (keys_cons k' a' _ L' KE) as KC. rewrite forget_app in KC. rewrite app_comm_cons in KC.
    assert (LN : length ((k', a') :: forget k' e1) <= length ks).
    { rewrite <- (map_length fst). destruct KC as [ND _]. rewrite map_app in ND. apply NoDup_incl_length.
      - clear - ND. induction (map fst ((k', a') :: forget k' e1)) as [|x l IHl]; [constructor|]. cbn in ND. inversion ND; subst. constructor; [|auto].
        intros C. apply H1. apply in_or_app. auto.
      - cbn [map fst]. intros x [X|X]; [now subst|]. apply I. eapply forget_in_fst; eauto. }
    rewrite firstn_app. rewrite firstn_all2 by lia. replace (n - length ((k', a') :: forget k' e1)) with (S (n - length ((k', a') :: forget k' e1) - 1)) by lia. cbn [firstn].
    eexists; eexists. split; [reflexivity|]. cbn [map fst]. intros x [X|X]; [now subst|]. apply I. eapply forget_in_fst; eauto.
  - cbn in F1. rewrite forget_app. unfold KeyP.forget at 2. cbn [filter fst].
    destruct (keqb k' k) eqn:Q; [apply keqb_ok in Q; auto; subst; rewrite (proj2 (keqb_ok k k L L) eq_refl) in O1; discriminate|]. cbn [negb].
    eexists; eexists. split; [reflexivity|]. intros x X. apply I. eapply forget_in_fst; eauto.
Qed.

Lemma keys_fold n os : forall es, Forall kop_ok os -> keys_ok es -> keys_ok (fold_left (lru_step keqb n) os es).
Proof. induction os as [|o os IH]; intros es F H; cbn [fold_left]; auto. inversion F; subst. apply IH; auto. now apply keys_step. Qed.
Lemma recall_mid k a e1 e2 : legal k -> keys_ok (e1 ++ (k, a) :: e2) -> recall k (e1 ++ (k, a) :: e2) = Some a.
Proof.
  intros L. unfold KeyP.recall. induction e1 as [|e e1 IH]; intros [ND LE]; cbn [app find fst].
  - now rewrite (proj2 (keqb_ok k k L L) eq_refl).
  - cbn [app map] in ND, LE. inversion ND as [|? ? NI ND']; subst. inversion LE as [|? ? Le LE']; subst.
    destruct (keqb k (fst e)) eqn:Q; [|apply IH; split; auto]. apply keqb_ok in Q; auto. exfalso. apply NI. rewrite <- Q. rewrite map_app. apply in_or_app. right. now left.
Qed.

Lemma key_lookup_true n os k a : n <> 0 -> Forall kop_ok os -> legal k ->
  exists c, kp_steps keqb (KPArray (repeat None n)) os = Some c /\ (kp_get keqb c k = Some a -> last_note k os = Some a).
Proof.
  intros N F L. destruct (kp_lookup keqb legal keqb_ok n os k N F L) as (c & E & G). exists c. split; auto. intros H. rewrite G in H.
  unfold last_note. eapply (lru_true n k os L F []); [split; constructor|discriminate|exact H].
Qed.
Lemma key_lookup_kept n os1 os2 k a ks : Forall kop_ok (os1 ++ KNote k a :: os2) -> length ks < n -> Forall (others k ks) os2 ->
  exists c, kp_steps keqb (KPArray (repeat None n)) (os1 ++ KNote k a :: os2) = Some c /\ kp_get keqb c k = Some a.
Proof.
  intros F LK O. pose proof F as F0. apply Forall_app in F0. destruct F0 as [F1 F2]. inversion F2 as [|? ? LA F3]; subst. destruct (LA : legal k /\ a <> 0) as [L A].
  destruct (kp_lookup keqb legal keqb_ok n _ k ltac:(lia) F L) as (c & E & G). exists c. split; auto. rewrite G. rewrite fold_left_app. cbn [fold_left].
  set (es := fold_left (lru_step keqb n) os1 []). assert (KE : keys_ok es). { apply keys_fold; auto. split; constructor. }
  destruct (lru_keep n k a ks os2 L LK F3 O (lru_step keqb n es (KNote k a))) as (e1 & e2 & X).
  - apply keys_step; auto.
  - cbn [lru_step]. destruct n as [|n]; [lia|]. cbn [firstn]. exists [], (firstn n (forget k es)). split; [reflexivity|intros x []].
  - rewrite X. apply recall_mid; auto. rewrite <- X. apply keys_fold; auto. apply keys_step; auto.
Qed.
End Keys.
