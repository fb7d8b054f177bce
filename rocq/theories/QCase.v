(** A concrete queue with power failures, used to show that the claims about the queue speak about something. *)
From Coq Require Import List NArith Arith Bool Lia.
From Verif Require Import Base Flash Cache State Crc Queue Client QSpec QObs QPropsP.
Import ListNotations.

(** Three pages of 128 bytes, words of 8 bytes; the mock flash with torn erases and writes. *)
Definition cg : geom := mkgeom 1 8 128 0 3.
Definition cc : cache unit := mkcache false (PSCalc (calc_new 3)) (PPArray (repeat None 3) (repeat None 3)) KPNone.
Definition it (x : N) (n : nat) : list N := map (fun i => (x + N.of_nat i)%N) (seq 0 n).
Definition cb : list N := repeat 0%N 128.

Definition no_collisionb (d : list N) : bool :=
  forallb (fun j => negb (acrc (torn_data j d) =? acrc d)%N || (forallb (fun ab => (fst ab =? snd ab)%N) (combine (torn_data j d) d))) (seq 0 (length d)).
Lemma pairs_eq : forall a b : list N, length a = length b -> forallb (fun ab => (fst ab =? snd ab)%N) (combine a b) = true -> a = b.
Proof.
  induction a as [|x a IH]; intros [|y b] L H; try discriminate; auto. cbn [combine forallb fst snd] in H. apply andb_true_iff in H. destruct H as [H1 H2].
  apply N.eqb_eq in H1. f_equal; auto.
Qed.
Lemma no_collisionb_ok d : no_collisionb d = true -> no_collision d.
Proof.
  intros H j E. destruct (Nat.lt_ge_cases j (length d)) as [L|L].
  - unfold no_collisionb in H. rewrite forallb_forall in H. specialize (H j ltac:(apply in_seq; lia)). rewrite E, N.eqb_refl in H. cbn [negb orb] in H.
    apply pairs_eq in H; auto. unfold torn_data. rewrite app_length, firstn_length, repeat_length. lia.
  - unfold torn_data. rewrite firstn_all2 by auto. replace (length d - j) with 0 by lia. apply app_nil_r.
Qed.
Definition bytesb (d : list N) : bool := forallb (fun b => (b <? 256)%N) d.
Lemma bytesb_ok d : bytesb d = true -> Forall is_byte d.
Proof. intros H. apply Forall_forall. intros b I. unfold bytesb in H. rewrite forallb_forall in H. specialize (H b I). now apply N.ltb_lt in H. Qed.
Lemma item_okb pf d : bytesb d && no_collisionb d = true -> item_ok pf d.
Proof. intros H. apply andb_true_iff in H. destruct H. split; auto using bytesb_ok, no_collisionb_ok. Qed.

(** Pushes that fill and overrun the queue, one cut in a page erase, one in an item; pops; a restart. *)
Definition calls1 : list (qcall * option nat) :=
  [(QPush (it 1 40) false, None); (QPush (it 2 40) false, None); (QPush (it 3 40) false, None); (QPush (it 4 33) false, None);
   (QPush (it 5 40) false, None); (QPush (it 6 40) false, None); (QPush (it 7 40) false, None);
   (QPush (it 7 40) true, Some 50); (QPush (it 8 40) true, Some 20); (QPush (it 8 40) true, None); (QPop cb, None)].
Definition evs1 : list qev := map (fun x => ECall (fst x) (snd x)) calls1 ++ [EBoot cc; ECall (QPeek cb) None].
Definition st0 : st unit := st_new flash_new cc.
Definition st1 : st unit := snd (q_run cg st0 evs1).
Definition q1 : list item := [it 4 33; it 5 40; it 6 40; it 8 40].

Lemma cg_ok : geom_ok cg.
Proof. unfold geom_ok. cbn. lia. Qed.
Lemma cc_fresh : fresh_cache (NP cg) cc.
Proof. split; [reflexivity|]. split; [apply FPCalc|]. split; [|apply FKNone]. apply (FQArray 3 3 3); cbn; lia. Qed.
Lemma fl_erased g : erased g flash_new.
Proof. split; intros; cbn; [reflexivity|auto]. Qed.
Lemma cg_setting : setting true cg false 0.
Proof. split; [apply cg_ok|]. intros _. split; [left; cbn; lia|right; cbn; lia]. Qed.
Lemma evs1_ok : Forall (qev_ok true cg) evs1.
Proof.
  unfold evs1, calls1. cbn [map app fst snd]. repeat (constructor; [split; [discriminate|]; try exact I; apply item_okb; vm_compute; reflexivity|]).
  constructor; [apply cc_fresh|]. constructor; [split; [discriminate|exact I]|]. constructor.
Qed.
Lemma st1_reached : q_reached true cg evs1 (fst (q_run cg st0 evs1)) st1.
Proof.
  exists flash_new, cc. split; [apply fl_erased|]. split; [reflexivity|]. split; [reflexivity|]. split; [apply cc_fresh|]. split; [apply cg_setting|]. split; [apply evs1_ok|].
  unfold st1. fold st0. now destruct (q_run cg st0 evs1).
Qed.
Lemma st1_holds : q_holds cg st1 q1.
Proof. eapply (q_shows true cg evs1 _ st1 cb q1 st1_reached); [reflexivity|vm_compute; reflexivity]. Qed.

(** Without power failures: twice around the ring, with pops. *)
Definition evs2 : list qev := map (fun c => ECall c None)
  [QPush (it 1 40) false; QPush (it 2 40) false; QPush (it 3 40) false; QPush (it 4 33) false; QPush (it 5 40) false; QPush (it 6 40) false;
   QPush (it 1 100) true; QPop cb; QPush (it 3 40) true; QPop cb; QPop cb; QPush (it 4 33) false; QPush (it 5 40) true; QPop cb].
Definition st2 : st unit := snd (q_run cg st0 evs2).
Lemma st2_reached : q_reached false cg evs2 (fst (q_run cg st0 evs2)) st2.
Proof.
  exists flash_new, cc. split; [apply fl_erased|]. split; [reflexivity|]. split; [reflexivity|]. split; [apply cc_fresh|]. split; [split; [apply cg_ok|discriminate]|]. split.
  - unfold evs2. cbn [map]. repeat (constructor; [split; [reflexivity|]; try exact I; apply item_okb; vm_compute; reflexivity|]). constructor.
  - unfold st2. fold st0. now destruct (q_run cg st0 evs2).
Qed.
Lemma st2_holds : q_holds cg st2 [it 3 40; it 4 33; it 5 40].
Proof. eapply (q_shows false cg evs2 _ st2 cb _ st2_reached); [reflexivity|vm_compute; reflexivity]. Qed.
