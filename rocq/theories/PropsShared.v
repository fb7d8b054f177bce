(** Claims about the calls of the shared ring's drain task.  Statements only; proofs are in SharedCallP.v.
    Vocabulary: [sx_reached g cap irq cs l x]: after the calls [cs] with answers [l], while interrupts enqueued the groups [irq] one after the other, each at
    some point between two critical sections.  [x_acc x]: the items accepted so far.  [sout]: what [pop] returned.  [part_of a b]: [a] is [b] with elements left out.
    [rejecting]: all enqueues use the rejecting policy.  [sow c]: the call may overwrite items on flash.  [says], [says_exactly]: what the answers mean. *)
From Coq Require Import List NArith Arith Bool Lia.
From Verif Require Import Base Crc Flash Cache State Item Generic Queue Buffered Shared Client QSpec QObs QPropsP QCase BSpec BufP SharedP SharedCallP.
Import ListNotations.

(** C41: after any calls with any interrupts: what was popped, then what is on flash, then what is in RAM is what was accepted, in order, nothing twice;
    all of it if nothing may be given up. *)
Theorem c41_flow g cap irq cs l x : sx_reached g cap irq cs l x -> exists F R, q_holds g (x_st x) F /\ ram_holds (x_ring x) R /\
  part_of (sout cs l ++ F ++ R) (x_acc x) /\ (rejecting irq -> Forall (fun c => sow c = false) cs -> sout cs l ++ F ++ R = x_acc x).
Proof. exact (sx_flow g cap irq cs l x). Qed.
(** C41: what each answer means. *)
Theorem c41_answers g cap irq cs l x c a x' : sx_reached g cap irq cs l x -> sexec g c x = (a, x') -> exists F R i F' R', q_holds g (x_st x) F /\ ram_holds (x_ring x) R /\
  x_acc x' = x_acc x ++ i /\ q_holds g (x_st x') F' /\ ram_holds (x_ring x') R' /\ part_of (sout1 c a ++ F' ++ R') (F ++ R ++ i) /\ says i F' R' c a /\
  (rejecting irq -> sow c = false -> sout1 c a ++ F' ++ R' = F ++ R ++ i /\ says_exactly F R i c a).
Proof. exact (sx_answer g cap irq cs l x c a x'). Qed.

Definition scase (irq : list (list (list N * policy))) (cs : list scall) : list sans * shx := srun cg (sx_new 50 flash_new cc irq) cs.
Lemma scase_reached irq cs : Forall (fun e => item_ok false (fst e)) (concat irq) -> sx_reached cg 50 irq cs (fst (scase irq cs)) (snd (scase irq cs)).
Proof.
  intros H. exists flash_new, cc. split; [apply fl_erased|]. split; [reflexivity|]. split; [reflexivity|]. split; [apply cc_fresh|]. split; [apply cg_ok|].
  split; [exact H|apply surjective_pairing].
Qed.
Ltac iok := cbn [concat app]; repeat (constructor; [apply item_okb; vm_compute; reflexivity|]); constructor.
(** Items come in before, during and after the drains; one is refused because the ring is full; a pop takes an item that came in during the call. *)
Definition irq1 : list (list (list N * policy)) :=
  [[(it 1 20, PErr); (it 2 20, PErr); (it 9 20, PErr)]; []; [(it 9 20, PErr)]; [(it 3 20, PErr)]; []; []; [(it 4 4, PErr)]; []; []; []; []; []; []; []; []; [(it 5 8, PErr)]].
Definition cs1 : list scall := [SDrain 32 false; SPop cb false; SWaitDrain 32 false; SPeek cb false; SPop cb false; SPop cb false; SPop cb false; SPop cb false; SDrainAll 32 false; SWaitDrain 32 false].
Example c41_case : sx_reached cg 50 irq1 cs1 (fst (scase irq1 cs1)) (snd (scase irq1 cs1)) /\ rejecting irq1 /\ Forall (fun c => sow c = false) cs1 /\
  x_acc (snd (scase irq1 cs1)) = [it 1 20; it 2 20; it 3 20; it 4 4; it 5 8] /\ sout cs1 (fst (scase irq1 cs1)) = [it 1 20; it 2 20; it 3 20; it 4 4; it 5 8] /\
  nth 2 (fst (scase irq1 cs1)) SWaits = SAll (Ok tt) /\ nth 3 (fst (scase irq1 cs1)) SWaits = SItem (Ok (Some (it 2 20))).
Proof.
  split; [apply scase_reached; unfold irq1; iok|]. split; [unfold irq1, rejecting; cbn [concat app]; repeat (constructor; [reflexivity|]); constructor|].
  split; [unfold cs1; repeat (constructor; [reflexivity|]); constructor|]. vm_compute. repeat split.
Qed.
(** Discarding: item 1 is evicted in the middle of its own drain and still reaches flash, item 2 is given up. *)
Definition irq2 : list (list (list N * policy)) := [[(it 1 20, PDiscardOldest); (it 2 20, PDiscardOldest)]; [(it 3 20, PDiscardOldest)]].
Definition cs2 : list scall := [SDrainAll 32 true; SPop cb false; SPop cb false; SPop cb false].
Example c41_case_discarding : sx_reached cg 50 irq2 cs2 (fst (scase irq2 cs2)) (snd (scase irq2 cs2)) /\
  x_acc (snd (scase irq2 cs2)) = [it 1 20; it 2 20; it 3 20] /\ sout cs2 (fst (scase irq2 cs2)) = [it 1 20; it 3 20].
Proof. split; [apply scase_reached; unfold irq2; iok|]. vm_compute. repeat split. Qed.
(** C34 for the calls: [woken] counts the [wait_and_drain_all] calls that were woken; each needs an accepted item, except one if the signal was set at the start. *)
Theorem c34_calls g cs x l y : srun g x cs = (l, y) -> woken cs l + length (x_acc x) <= length (x_acc y) + Nat.b2n (x_sig x).
Proof. exact (shared_woken g cs x l y). Qed.
Definition cs3 : list scall := [SWaitDrain 32 false; SWaitDrain 32 false; SWaitDrain 32 false].
Definition irq3 : list (list (list N * policy)) := [[(it 1 20, PErr)]; []; [(it 2 20, PErr)]].
Example c34_case_calls : fst (scase irq3 cs3) = [SAll (Ok tt); SAll (Ok tt); SWaits] /\ woken cs3 (fst (scase irq3 cs3)) = 2 /\ length (x_acc (snd (scase irq3 cs3))) = 2.
Proof. vm_compute. auto. Qed.
Print Assumptions c34_calls.
Print Assumptions c41_flow.
Print Assumptions c41_answers.
