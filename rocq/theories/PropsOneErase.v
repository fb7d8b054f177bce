(** Claims about how many pages a push may erase.  Statements only; proofs are in OneEraseP.v.
    Vocabulary: [erases_between s s'] (Work.v): the erases made between two states, each with its address range; see QObs.v for [q_reached] and [item_ok]. *)
From Coq Require Import List NArith Arith Bool Lia.
From Verif Require Import Base BaseP CrcP Flash Cache State Item Generic Queue Client QObs QCase MCase FormatSpec Reads Cost Work Cheap PropsCheap OneEraseP.
Import ListNotations.

(** C53.  A push erases at most one page: overwriting gives up at most the items of one page, and a repair in the same call (after a power failure) is not followed by a second erase.  The
    power may fail in this push, too. *)
Theorem c53_push pf g evs l s d ow p : q_reached pf g evs l s -> item_ok pf d -> (pf = false -> p = None) -> length (erases_between s (snd (q_exec (R := steady) g (QPush d ow) (power s p)))) <= 1.
Proof. exact (push_one_erase pf g evs l s d ow p). Qed.
(** C53 for the two questions about space: they erase at most the page that a power failure left half erased. *)
Theorem c53_query pf g evs l s c p : q_reached pf g evs l s -> c = QMaxFit \/ c = QSpace -> (pf = false -> p = None) -> length (erases_between s (snd (q_exec (R := steady) g c (power s p)))) <= 1.
Proof. exact (query_one_erase pf g evs l s c p). Qed.
Print Assumptions c53_push.
Print Assumptions c53_query.

(** Three pages full of items, on a chip that may leave a page half erased. *)
Definition es (evs : list qev) : list qans * st unit := q_run (R := steady) hg (st_new (mfl false) hc) evs.
Definition efill : list qev := unfailed (repeat hpush 45).
Definition ework (evs : list qev) (c : qcall) (p : option nat) : qans * list (nat * nat) :=
  let s := snd (es evs) in let r := q_exec (R := steady) hg c (power s p) in (fst r, erases_between s (snd r)).
(** A push that overwrites is cut short while it erases the oldest page. *)
Definition ecut : list qev := efill ++ [ECall hpush (Some 100); EBoot hc].
Lemma es_reached evs : Forall (qev_ok true hg) evs -> q_reached true hg evs (fst (es evs)) (snd (es evs)).
Proof.
  intros EV. exists (mfl false), hc. split; [exact (fl_erased hg)|]. split; [reflexivity|]. split; [reflexivity|]. split; [exact hc_fresh|]. split; [|split; [exact EV|unfold es; now destruct (q_run hg _ evs)]].
  split; [exact hg_ok|]. intros _. split; [left; cbn; lia|]. right. cbn. lia.
Qed.
Lemma ecut_ok : Forall (qev_ok true hg) ecut.
Proof. apply Forall_app. split; [apply pushes_ok|]. constructor; [split; [discriminate|exact (hpush_ok true)]|]. constructor; [exact hc_fresh|constructor]. Qed.
(** The half erased page is erased again by the next push, or by a question about space, and nothing else is. *)
Example c53_case : q_reached true hg ecut (fst (es ecut)) (snd (es ecut)) /\ item_ok true (it 1 8) /\ ework efill hpush None = (AUnit (Ok tt), [(0, 256)]) /\
  ework efill hpush (Some 100) = (AUnit (Err (EStorage SShutoff)), [(0, 256)]) /\ ework ecut hpush None = (AUnit (Ok tt), [(0, 256)]) /\ ework ecut QSpace None = (ANum (Ok 240), [(0, 256)]).
Proof. split; [exact (es_reached ecut ecut_ok)|]. split; [exact (hpush_ok true)|]. repeat split; vm_compute; reflexivity. Qed.
(** There is no such bound for a pop: where an iteration passed over the first item and removed the others, the next but one gives back two pages at once. *)
Definition epast : list qcall := [QIter ((repeat 0%N 256, false) :: repeat (repeat 0%N 256, true) 39); hpop].
Example c53_pop : ework (unfailed (repeat hpush 40 ++ epast)) hpop None = (AItem (Ok None), [(256, 512); (0, 256)]).
Proof. vm_compute. reflexivity. Qed.
