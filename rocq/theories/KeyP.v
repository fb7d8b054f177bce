(** The key cache refines a bounded most-recently-used list. *)
From Coq Require Import List NArith ZArith Arith Bool Lia ZifyBool ZifyNat ZifyN.
From Verif Require Import Base BaseP Flash Cache.
Import ListNotations.

Section Keys.
Context {K : Type} (keqb : K -> K -> bool) (legal : K -> Prop).
Hypothesis keqb_ok : forall a b, legal a -> legal b -> (keqb a b = true <-> a = b).

(** * Specification: entries, most recently noted first. *)
Definition forget (k : K) (es : list (K * nat)) : list (K * nat) := filter (fun e => negb (keqb k (fst e))) es.
Definition recall (k : K) (es : list (K * nat)) : option nat :=
  match find (fun e => keqb k (fst e)) es with Some e => Some (snd e) | None => None end.
Inductive kop := KNote (k : K) (a : nat) | KErase (k : K) | KReset.
Definition lru_step (cap : nat) (es : list (K * nat)) (o : kop) : list (K * nat) :=
  match o with
  | KNote k a => firstn cap ((k, a) :: forget k es)
  | KErase k => forget k es
  | KReset => []
  end.

(** * Proof *)
Definition entries (es : list (K * nat)) (m : nat) : list (option (K * nat)) := map Some es ++ repeat None m.
Definition keys_ok (es : list (K * nat)) : Prop := NoDup (map fst es) /\ Forall (fun e => legal (fst e)) es.
Definition kp_is (l : list (option (K * nat))) (es : list (K * nat)) : Prop :=
  exists m, l = entries es m /\ keys_ok es.

Lemma find_none_rep k m : forall i, kp_find keqb (repeat None m) k i = None.
Proof. induction m; intros i; cbn; auto. Qed.
Lemma kp_find_split k es m : keys_ok es -> legal k ->
  (forall i, kp_find keqb (entries es m) k i = None /\ find (fun e => keqb k (fst e)) es = None /\ forget k es = es /\ ~ In k (map fst es)) \/
  exists e1 a e2, es = e1 ++ (k, a) :: e2 /\ (forall i, kp_find keqb (entries es m) k i = Some (i + length e1, a)) /\
    find (fun e => keqb k (fst e)) es = Some (k, a) /\ forget k es = e1 ++ e2 /\ ~ In k (map fst (e1 ++ e2)).
Proof.
  intros [ND LE] LK. induction es as [|[k' a] es IH].
  - left. intros i. split; [apply find_none_rep|]. repeat split; auto.
  - inversion ND as [|x l NI ND']; subst. inversion LE as [|x l L0 LE']; subst. cbn [fst] in *.
    destruct (keqb k k') eqn:EQ.
    + apply keqb_ok in EQ; auto. subst k'. right. exists [], a, es. split; auto.
      assert (R : keqb k k = true) by (apply keqb_ok; auto).
      assert (F : forget k es = es).
      { clear -NI LE' keqb_ok L0. induction es as [|[k2 b] es IH]; auto. cbn. inversion LE'; subst. cbn in *.
        destruct (keqb k k2) eqn:E; [apply keqb_ok in E; auto; subst; exfalso; auto|]. cbn. f_equal. apply IH; auto. }
      split; [intros i; cbn; rewrite R; f_equal; f_equal; lia|]. split; [cbn; now rewrite R|].
      split; [cbn; rewrite R; cbn; auto|]. auto.
    + destruct (IH ND' LE') as [N|(e1 & b & e2 & -> & F & FI & FG & NI')].
      * left. intros i. destruct (N (S i)) as (N1 & N2 & N3 & N4). cbn [entries map app kp_find find fst forget filter].
        rewrite EQ. split; auto. split; auto. cbn [negb]. split; [f_equal; exact N3|]. cbn. intros [->|]; auto.
        assert (keqb k k = true) by (apply keqb_ok; auto). congruence.
      * right. exists ((k', a) :: e1), b, e2. split; auto. split.
        { intros i. cbn [entries map app kp_find]. rewrite EQ. change (map Some (e1 ++ (k, b) :: e2) ++ repeat None m) with (entries (e1 ++ (k, b) :: e2) m).
          rewrite F. f_equal. f_equal. cbn. lia. }
        split; [cbn; now rewrite EQ|]. split; [cbn [forget filter]; cbn [fst]; rewrite EQ; cbn [negb app]; f_equal; exact FG|].
        cbn. intros [->|]; auto. assert (keqb k k = true) by (apply keqb_ok; auto). congruence.
Qed.

Lemma nth_error_mid {A} (a : list A) x b : nth_error (a ++ x :: b) (length a) = Some x.
Proof. rewrite nth_error_app2, Nat.sub_diag; auto. Qed.
Lemma firstn_mid {A} (a b : list A) : firstn (length a) (a ++ b) = a.
Proof. rewrite firstn_app, firstn_all, Nat.sub_diag. cbn. apply app_nil_r. Qed.
Lemma skipn_mid {A} (a : list A) x b : skipn (S (length a)) (a ++ x :: b) = b.
Proof. rewrite skipn_app, skipn_all2, Nat.sub_succ_l, Nat.sub_diag; auto. Qed.
Lemma list_set_mid {A} (a : list A) x b y : list_set (a ++ x :: b) (length a) y = a ++ y :: b.
Proof. induction a; cbn; auto. f_equal. auto. Qed.
Lemma front_mid {A} (a : list A) x b : move_to_front (a ++ x :: b) (length a) = x :: a ++ b.
Proof. unfold move_to_front. now rewrite nth_error_mid, firstn_mid, skipn_mid. Qed.
Lemma back_mid {A} (a : list A) x b : move_to_back (a ++ x :: b) (length a) = a ++ b ++ [x].
Proof. unfold move_to_back. now rewrite nth_error_mid, firstn_mid, skipn_mid. Qed.

Lemma entries_length es m : length (entries es m) = length es + m.
Proof. unfold entries. now rewrite app_length, map_length, repeat_length. Qed.
Lemma repeat_snoc {A} (x : A) m : repeat x (S m) = repeat x m ++ [x].
Proof. induction m; cbn; auto. f_equal. auto. Qed.

Lemma keys_forget k es : keys_ok es -> keys_ok (forget k es).
Proof.
  intros [A B]. split; [|apply Forall_forall; intros e H; apply filter_In in H; rewrite Forall_forall in B; now apply B].
  induction es as [|e es IH]; cbn; [constructor|]. inversion A; inversion B; subst. destruct (negb (keqb k (fst e))); cbn; auto.
  constructor; auto. intros H. apply in_map_iff in H. destruct H as (e' & E & H). apply filter_In in H. apply H1. rewrite <- E. apply in_map. tauto.
Qed.
Lemma keys_firstn n es : keys_ok es -> keys_ok (firstn n es).
Proof.
  intros [A B]. rewrite <- (firstn_skipn n es) in A, B. apply Forall_app in B. split; [|tauto].
  rewrite map_app in A. clear B. induction (map fst (firstn n es)) as [|x l IH]; [constructor|]. inversion A; subst. constructor; auto.
  intros H. apply H1. apply in_or_app. auto.
Qed.
Lemma forget_not k es : legal k -> keys_ok es -> ~ In k (map fst (forget k es)).
Proof.
  intros L [_ B] H. apply in_map_iff in H. destruct H as (e & E & H). apply filter_In in H. destruct H as [H H2].
  rewrite Forall_forall in B. specialize (B e H). assert (keqb k (fst e) = true) by (apply keqb_ok; auto). rewrite H0 in H2. discriminate.
Qed.

Lemma kp_new n : kp_is (repeat None n) [].
Proof. exists n. split; auto. split; constructor. Qed.
Lemma kp_inval_is l es : kp_is l es -> kp_is (map (fun _ => None) l) [].
Proof.
  intros _. exists (length l). split; [|split; constructor]. unfold entries. cbn. induction l; cbn; auto. now f_equal.
Qed.
Lemma kp_get_is l es k : kp_is l es -> legal k -> kp_get keqb (KPArray l) k = recall k es.
Proof.
  intros (m & -> & KO) LK. unfold kp_get, recall.
  destruct (kp_find_split k es m KO LK) as [N|(e1 & a & e2 & E & F & FI & _)].
  - destruct (N 0) as (-> & -> & _). auto.
  - rewrite FI, F. auto.
Qed.
(** Noting a key. *)
Lemma kp_notice_is l es k a : kp_is l es -> legal k -> a <> 0 -> l <> [] ->
  exists l', kp_notice keqb (KPArray l) k a = Some (KPArray l') /\ length l' = length l /\
    kp_is l' (firstn (length l) ((k, a) :: forget k es)).
Proof.
  intros (m & -> & KO) LK A NE. unfold kp_notice. apply Nat.eqb_neq in A. rewrite A.
  assert (KO' : keys_ok (firstn (length (entries es m)) ((k, a) :: forget k es))).
  { apply keys_firstn. pose proof (keys_forget k es KO) as [B C]. split; cbn; constructor; auto. now apply forget_not. }
  destruct (kp_find_split k es m KO LK) as [N|(e1 & b & e2 & E & F & FI & FG & NI)].
  - destruct (N 0) as (-> & _ & FG & _). destruct (length (entries es m) =? 0) eqn:Z; [apply Nat.eqb_eq in Z; destruct (entries es m); cbn in Z; try discriminate; congruence|].
    rewrite FG in *. destruct m as [|m].
    + destruct es as [|x es'] using rev_ind; [cbn in NE; congruence|]. clear IHes'. unfold entries in *. cbn [repeat] in *. rewrite app_nil_r in *.
      rewrite map_app in *. cbn [map] in *. rewrite app_length, map_length in *. cbn [length] in *.
      replace (length es' + 1 - 1) with (length (map Some es')) by (rewrite map_length; lia). rewrite list_set_mid, front_mid.
      eexists. split; [reflexivity|]. rewrite app_nil_r. split; [cbn; rewrite map_length; lia|].
      exists 0. split; auto. replace (length es' + 1) with (S (length es')) by lia. cbn [firstn]. rewrite firstn_mid. cbn [map repeat entries]. unfold entries. cbn. now rewrite app_nil_r.
    + unfold entries in *. rewrite repeat_snoc, app_assoc in *. set (x := map Some es ++ repeat None m) in *.
      rewrite app_length in *. cbn [length] in *. replace (length x + 1 - 1) with (length x) by lia. rewrite list_set_mid, front_mid.
      eexists. split; [reflexivity|]. rewrite app_nil_r. split; [cbn; lia|]. exists m.
      assert (LX : length x = length es + m) by (unfold x; rewrite app_length, map_length, repeat_length; auto).
      rewrite firstn_all2 by (cbn; lia). split; [reflexivity|]. rewrite firstn_all2 in KO' by (cbn; lia). auto.
  - rewrite (F 0). rewrite entries_length in *. cbn [plus].
    assert (EN : entries es m = map Some e1 ++ Some (k, b) :: (map Some e2 ++ repeat None m)) by (unfold entries; rewrite E, map_app, <- app_assoc; reflexivity).
    rewrite EN. replace (length e1) with (length (map (@Some (K * nat)) e1)) by apply map_length. rewrite list_set_mid, front_mid. eexists. split; [reflexivity|].
    assert (LE : length es = length e1 + S (length e2)) by (rewrite E, app_length; auto).
    split; [cbn; rewrite ?app_length, ?map_length, ?repeat_length; lia|].
    rewrite FG in *. rewrite firstn_all2 in KO' by (cbn; rewrite app_length; lia).
    exists m. rewrite firstn_all2 by (cbn; rewrite app_length; lia). split; auto. unfold entries. cbn [map app]. now rewrite map_app, <- app_assoc.
Qed.
Lemma kp_erased_is l es k : kp_is l es -> legal k ->
  exists l', kp_erased keqb (KPArray l) k = KPArray l' /\ length l' = length l /\ kp_is l' (forget k es).
Proof.
  intros (m & -> & KO) LK. unfold kp_erased.
  destruct (kp_find_split k es m KO LK) as [N|(e1 & b & e2 & E & F & FI & FG & NI)].
  - destruct (N 0) as (-> & _ & FG & _). eexists. split; [reflexivity|]. split; auto. rewrite FG. exists m. auto.
  - rewrite (F 0). cbn [plus].
    assert (EN : entries es m = map Some e1 ++ Some (k, b) :: (map Some e2 ++ repeat None m)) by (unfold entries; rewrite E, map_app, <- app_assoc; reflexivity).
    rewrite EN. replace (length e1) with (length (map (@Some (K * nat)) e1)) by apply map_length. rewrite list_set_mid, back_mid. eexists. split; [reflexivity|].
    split; [rewrite !app_length; cbn; rewrite !app_length; cbn; lia|].
    pose proof (keys_forget k es KO) as KF. rewrite FG in *. exists (S m). split; auto. unfold entries.
    rewrite map_app, repeat_snoc, <- !app_assoc. reflexivity.
Qed.

(** Every history. *)
Definition kp_step (c : kpcache K) (o : kop) : option (kpcache K) :=
  match o with
  | KNote k a => kp_notice keqb c k a
  | KErase k => Some (kp_erased keqb c k)
  | KReset => Some (kp_inval c)
  end.
Fixpoint kp_steps (c : kpcache K) (os : list kop) : option (kpcache K) :=
  match os with [] => Some c | o :: t => match kp_step c o with Some c' => kp_steps c' t | None => None end end.
Definition kop_ok (o : kop) : Prop := match o with KNote k a => legal k /\ a <> 0 | KErase k => legal k | KReset => True end.
Lemma kp_history os : forall l es, kp_is l es -> l <> [] -> Forall kop_ok os ->
  exists l', kp_steps (KPArray l) os = Some (KPArray l') /\ length l' = length l /\ kp_is l' (fold_left (lru_step (length l)) os es).
Proof.
  induction os as [|o os IH]; intros l es H NE OK; cbn [kp_steps fold_left]; [eauto|].
  inversion OK as [|x y O1 O2]; subst.
  assert (S1 : exists l1, kp_step (KPArray l) o = Some (KPArray l1) /\ length l1 = length l /\ kp_is l1 (lru_step (length l) es o)).
  { destruct o as [k a|k|]; cbn [kp_step lru_step kop_ok] in *.
    - destruct O1. now apply kp_notice_is.
    - destruct (kp_erased_is l es k H O1) as (l1 & E & R). exists l1. split; [now rewrite E|auto].
    - exists (map (fun _ => None) l). split; [reflexivity|]. rewrite map_length. split; auto. eapply kp_inval_is; eauto. }
  destruct S1 as (l1 & E & LL & H1). rewrite E. assert (NE1 : l1 <> []) by (intros ->; destruct l; cbn in LL; congruence).
  destruct (IH l1 _ H1 NE1 O2) as (l' & A & B & C). exists l'. split; auto. rewrite LL in *. split; [congruence|auto].
Qed.
Lemma kp_lookup n os k : n <> 0 -> Forall kop_ok os -> legal k ->
  exists c, kp_steps (KPArray (repeat None n)) os = Some c /\ kp_get keqb c k = recall k (fold_left (lru_step n) os []).
Proof.
  intros N OK LK. destruct (kp_history os (repeat None n) [] (kp_new n)) as (l' & A & B & C); auto.
  - destruct n; cbn; congruence.
  - exists (KPArray l'). split; auto. rewrite repeat_length in C. now apply kp_get_is.
Qed.
End Keys.
