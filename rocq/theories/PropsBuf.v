(** Claims about the buffered queue and the shared ring.  Statements only; proofs are in the [...P] files.
    Vocabulary (BSpec.v): [bdo], [btrace]: what two lists do, the items on flash and the items in RAM.  [bin], [bout]: what was accepted by
    [enqueue] and what came out of [pop].  [part_of a b]: [a] is [b] with elements left out.  [ram_holds r R]: peeking and discarding yields [R]. *)
From Coq Require Import List NArith Arith Bool Lia.
From Verif Require Import Base Crc Flash Cache State Item Generic Queue Buffered Client QSpec QObs QPropsP QCase BSpec BufP SharedP.
Import ListNotations.

(** C24: every history, with power failures and restarts, is one of the two lists. *)
Theorem c24_every_history pf g cap evs l q : b_reached pf g cap evs l q ->
  exists F R, btrace (rup g) (HL g) (page_cap g) (2 <=? NP g) pf cap [] [] evs l F R /\ q_holds g (snd q) F /\ ram_holds (fst q) R.
Proof. exact (b_history pf g cap evs l q). Qed.
(** C24: without power failures: popped items, then the items on flash, then the items in RAM are the accepted items in order, each at most once.
    None is missing if no call may drop items. *)
Theorem c24_fifo g cap evs l q : b_reached false g cap evs l q ->
  exists F R, q_holds g (snd q) F /\ ram_holds (fst q) R /\ part_of (bout evs l ++ F ++ R) (bin evs l) /\ (Forall careful evs -> bout evs l ++ F ++ R = bin evs l).
Proof. exact (b_fifo g cap evs l q). Qed.

Definition bevs : list bev := map (fun c => VCall c None)
  [BEnq (it 1 20) PErr; BEnq (it 2 20) PErr; BEnq (it 3 20) PErr; BDrain 32 false; BPeek cb; BEnq (it 3 20) PErr; BPop cb; BPop cb; BDrainAll 32 false;
   BEnq (it 4 20) PErr; BEnq (it 5 10) PErr; BPop cb; BPop (it 0 8); BDrainAll 32 false; BEnq (it 6 20) PErr].
Definition bcase (evs : list bev) : list bans * bq := brun cg 50 (ring_new 50, st0) evs.
Ltac bok := repeat (constructor; [first [apply cc_fresh|split; [try (apply item_okb; vm_compute; reflexivity); exact I|first [reflexivity|discriminate]]]|]); constructor.
Lemma bcase_reached pf evs : Forall (bev_ok pf cg) evs -> b_reached pf cg 50 evs (fst (bcase evs)) (snd (bcase evs)).
Proof.
  intros H. exists flash_new, cc. split; [apply fl_erased|]. split; [reflexivity|]. split; [reflexivity|]. split; [apply cc_fresh|]. split; [destruct cg_setting as [A B]; split; auto; intros _; apply B; reflexivity|].
  split; [exact H|]. apply surjective_pairing.
Qed.
(** The third enqueue is refused, pops take from flash and from RAM, a pop with a small buffer fails; everything accepted is accounted for. *)
Example c24_case : Forall careful bevs /\ b_reached false cg 50 bevs (fst (bcase bevs)) (snd (bcase bevs)) /\
  bin bevs (fst (bcase bevs)) = [it 1 20; it 2 20; it 3 20; it 4 20; it 5 10; it 6 20] /\ bout bevs (fst (bcase bevs)) = [it 1 20; it 2 20; it 3 20].
Proof.
  split; [unfold bevs; cbn [map]; repeat (constructor; [cbn; auto|]); constructor|]. split.
  - apply bcase_reached. unfold bevs. cbn [map]. repeat (constructor; [split; [try exact I; apply item_okb; vm_compute; reflexivity|reflexivity]|]). constructor.
  - split; vm_compute; reflexivity.
Qed.
Definition bevs2 : list bev := [VCall (BEnq (it 1 20) PErr) None; VCall (BEnq (it 2 20) PDiscardOldest) None; VCall (BEnq (it 3 20) PDiscardOldest) None; VCall (BDrain 32 false) (Some 20);
  VCall (BDrainAll 32 true) None; VCall (BEnq (it 4 20) PErr) None; VBoot cc; VCall (BPop cb) None; VCall (BPop cb) None; VCall (BPop cb) None].
Example c24_case_failures : b_reached true cg 50 bevs2 (fst (bcase bevs2)) (snd (bcase bevs2)) /\ nth 3 (fst (bcase bevs2)) (BOk true) = BDrained (Err cut) /\
  bin bevs2 (fst (bcase bevs2)) = [it 1 20; it 2 20; it 3 20; it 4 20] /\ bout bevs2 (fst (bcase bevs2)) = [it 2 20; it 3 20].
Proof.
  split; [|split; [|split]; vm_compute; reflexivity]. apply bcase_reached. unfold bevs2.
  repeat (constructor; [first [apply cc_fresh|split; [try exact I; apply item_okb; vm_compute; reflexivity|discriminate]]|]). constructor.
Qed.
(** C24 does not extend to power failures survived by the RAM contents: a drain that is cut after its item is complete leaves the item in both places. *)
Definition bevs3 : list bev := [VCall (BEnq (it 1 13) PErr) None; VCall (BDrain 32 false) (Some 31); VCall (BPop cb) None; VCall (BPop cb) None].
Theorem c24_after_failure_refuted : exists d evs l q, b_reached true cg 50 evs l q /\ bin evs l = [d] /\ bout evs l = [d; d].
Proof.
  exists (it 1 13), bevs3, (fst (bcase bevs3)), (snd (bcase bevs3)). split; [|split; vm_compute; reflexivity]. apply bcase_reached. unfold bevs3.
  repeat (constructor; [split; [try exact I; apply item_okb; vm_compute; reflexivity|discriminate]|]). constructor.
Qed.

(** C24, power failures survived by the RAM contents: if no pop was cut off and no call may drop items, nothing accepted is missing: what came out, then the flash, then
    the RAM are the accepted items in order, some of them repeated on the spot. *)
Theorem c24_at_least_once g cap evs l q : b_reached true g cap evs l q -> Forall careful evs -> pops_end evs l ->
  exists F R, q_holds g (snd q) F /\ ram_holds (fst q) R /\ repeats (bout evs l ++ F ++ R) (bin evs l).
Proof. exact (b_at_least_once g cap evs l q). Qed.
(** Drains cut off in the item, right after it and before it. *)
Definition bevs4 : list bev := [VCall (BEnq (it 1 13) PErr) None; VCall (BDrain 32 false) (Some 20); VCall (BEnq (it 2 13) PErr) None; VCall (BDrainAll 32 false) (Some 46); VCall (BPop cb) None;
  VCall (BDrain 32 false) (Some 0); VCall (BEnq (it 3 13) PErr) None; VCall (BPop cb) None; VCall (BPop cb) None].
Example c24_at_least_once_case : b_reached true cg 50 bevs4 (fst (bcase bevs4)) (snd (bcase bevs4)) /\ Forall careful bevs4 /\ pops_end bevs4 (fst (bcase bevs4)) /\
  nth 3 (fst (bcase bevs4)) (BOk true) = BAll (Err cut) /\
  bin bevs4 (fst (bcase bevs4)) = [it 1 13; it 2 13; it 3 13] /\ bout bevs4 (fst (bcase bevs4)) = [it 1 13; it 2 13; it 2 13].
Proof.
  split; [apply bcase_reached; unfold bevs4; repeat (constructor; [split; [try exact I; apply item_okb; vm_compute; reflexivity|discriminate]|]); constructor|].
  split; [unfold bevs4; repeat (constructor; [cbn; auto|]); constructor|]. split; [vm_compute; repeat split; discriminate|]. split; [|split]; vm_compute; reflexivity.
Qed.

(** C25, rejecting policy: at any moment of any schedule, the popped items, the items on flash and the items only in RAM are the accepted items in order.
    (With overwriting drains: the same with items left out.) *)
Theorem c25_rejecting g cap acts os x : sh_reached g cap acts os x -> Forall act_careful acts -> exists F R, q_holds g (sh_st x) F /\ ram_holds (sh_ring x) R /\
  sh_out acts os ++ F ++ unsaved (sh_pc x) R = sh_in acts os.
Proof. exact (fun H C => match shared_flow g cap acts os x H with ex_intro _ F (ex_intro _ R (conj A (conj B (conj _ D)))) => ex_intro _ F (ex_intro _ R (conj A (conj B (D C)))) end). Qed.
(** C25, any policy, any schedule: nothing is duplicated or reordered.  What is missing may be more than what was evicted: c25_discarding_refuted. *)
Theorem c25_order g cap acts os x : sh_reached g cap acts os x -> exists F R, q_holds g (sh_st x) F /\ ram_holds (sh_ring x) R /\
  part_of (sh_out acts os ++ F ++ unsaved (sh_pc x) R) (sh_in acts os).
Proof. exact (fun H => match shared_flow g cap acts os x H with ex_intro _ F (ex_intro _ R (conj A (conj B (conj D _)))) => ex_intro _ F (ex_intro _ R (conj A (conj B D))) end). Qed.
Definition sx (acts : list act) : option (shared * list obs) := sh_run cg (sh_new 50 flash_new cc) acts.
Lemma sx_reached acts x os : Forall act_ok acts -> sx acts = Some (x, os) -> sh_reached cg 50 acts os x.
Proof.
  intros A E. exists flash_new, cc. split; [apply fl_erased|]. split; [reflexivity|]. split; [reflexivity|]. split; [apply cc_fresh|]. split; [apply cg_ok|].
  split; [exact A|exact E].
Qed.
Definition sobs (acts : list act) := option_map (fun r => (sh_in acts (snd r), sh_out acts (snd r), sh_pc (fst r))) (sx acts).
Lemma sx_case acts i o c : Forall act_ok acts -> sobs acts = Some (i, o, c) ->
  exists x os, sh_reached cg 50 acts os x /\ sh_in acts os = i /\ sh_out acts os = o /\ sh_pc x = c.
Proof.
  intros A H. unfold sobs in H. destruct (sx acts) as [[x os]|] eqn:E; [|discriminate]. cbn [option_map fst snd] in H. injection H as <- <- <-.
  exists x, os. split; [now apply sx_reached|auto].
Qed.
Definition sacts : list act := [AEnq (it 1 20) PErr; APeek 32; AEnq (it 2 20) PErr; AEnq (it 3 20) PErr; APush false; AEnq (it 3 4) PErr; ADiscard; AEnq (it 3 20) PErr;
  APeek 32; APush false; ADiscard; APopF cb; APeek 32; APush false].
Example c25_case : Forall act_careful sacts /\ exists x os, sh_reached cg 50 sacts os x /\ sh_in sacts os = [it 1 20; it 2 20; it 3 4; it 3 20] /\
  sh_out sacts os = [it 1 20] /\ sh_pc x = CPushed.
Proof.
  split; [unfold sacts; repeat (constructor; [cbn; auto|]); constructor|]. apply sx_case; [|vm_compute; reflexivity..].
  unfold sacts. repeat (constructor; [try exact I; apply item_okb; vm_compute; reflexivity|]). constructor.
Qed.
Definition sacts2 : list act := [AEnq (it 1 20) PErr; AEnq (it 2 20) PErr; AEnq (it 3 20) PDiscardOldest; APeek 32; APush false; AEnq (it 4 4) PDiscardOldest; ADiscard;
  APeek 32; APush true; ADiscard; APopF cb].
Example c25_case_discarding : exists x os, sh_reached cg 50 sacts2 os x /\ sh_in sacts2 os = [it 1 20; it 2 20; it 3 20; it 4 4] /\
  sh_out sacts2 os = [it 2 20] /\ sh_pc x = CIdle.
Proof.
  apply sx_case; [|vm_compute; reflexivity..].
  unfold sacts2. repeat (constructor; [try exact I; apply item_okb; vm_compute; reflexivity|]). constructor.
Qed.
(** C25 is false for the discarding policy: item 2 is accepted, never evicted (the enqueue of item 3 evicts item 1), and is neither on flash nor in RAM at the end:
    the discard after the push of item 1 removes it. *)
Definition ract1 : list act := [AEnq (it 1 20) PDiscardOldest; AEnq (it 2 20) PDiscardOldest; APeek 32].
Definition ract2 : list act := [AEnq (it 3 20) PDiscardOldest].
Definition ract3 : list act := [APush false; ADiscard; APeek 32; APush false; ADiscard; APopF cb; APopF cb; APopF cb].
Theorem c25_discarding_refuted : exists x1 x2 x3 o1 o2 o3, sx ract1 = Some (x1, o1) /\ sh_run cg x1 ract2 = Some (x2, o2) /\ sh_run cg x2 ract3 = Some (x3, o3) /\
  sh_in (ract1 ++ ract2 ++ ract3) (o1 ++ o2 ++ o3) = [it 1 20; it 2 20; it 3 20] /\ ram_holds (sh_ring x1) [it 1 20; it 2 20] /\ ram_holds (sh_ring x2) [it 2 20; it 3 20] /\
  r_cnt (sh_ring x3) = 0 /\ sh_out (ract1 ++ ract2 ++ ract3) (o1 ++ o2 ++ o3) = [it 1 20; it 3 20].
Proof.
  assert (X : match sx ract1 with
    | Some (x1, o1) => match sh_run cg x1 ract2 with
      | Some (x2, o2) => match sh_run cg x2 ract3 with
        | Some (x3, o3) => sh_in (ract1 ++ ract2 ++ ract3) (o1 ++ o2 ++ o3) = [it 1 20; it 2 20; it 3 20] /\ ram_holds (sh_ring x1) [it 1 20; it 2 20] /\
          ram_holds (sh_ring x2) [it 2 20; it 3 20] /\ r_cnt (sh_ring x3) = 0 /\ sh_out (ract1 ++ ract2 ++ ract3) (o1 ++ o2 ++ o3) = [it 1 20; it 3 20]
        | None => False end
      | None => False end
    | None => False end) by (vm_compute; repeat split).
  destruct (sx ract1) as [[x1 o1]|]; [|contradiction]. destruct (sh_run cg x1 ract2) as [[x2 o2]|] eqn:E2; [|contradiction].
  destruct (sh_run cg x2 ract3) as [[x3 o3]|] eqn:E3; [|contradiction]. exists x1, x2, x3, o1, o2, o3. destruct X as (A & B & C & D & E).
  split; [reflexivity|]. split; [exact E2|]. split; [exact E3|]. auto.
Qed.

(** C25, any policy, drains that do not overwrite: not more items are missing than were evicted, though perhaps others. *)
Theorem c25_losses g cap acts os f c x : erased g f -> f_fuel f = None -> f_er f = [] -> fresh_cache (NP g) c -> geom_ok g -> Forall act_ok acts ->
  Forall drain_keeps acts -> sh_run g (sh_new cap f c) acts = Some (x, os) ->
  exists F R, q_holds g (sh_st x) F /\ ram_holds (sh_ring x) R /\ length (sh_in acts os) <= length (sh_out acts os ++ F ++ unsaved (sh_pc x) R) + evicted g (sh_new cap f c) acts.
Proof. exact (shared_losses g cap acts os f c x). Qed.
Example c25_case_losses : let acts := ract1 ++ ract2 ++ ract3 in Forall act_ok acts /\ Forall drain_keeps acts /\ evicted cg (sh_new 50 flash_new cc) acts = 1 /\
  option_map (fun r => (length (sh_in acts (snd r)), sh_out acts (snd r))) (sx acts) = Some (3, [it 1 20; it 3 20]).
Proof.
  intros acts. split; [unfold acts, ract1, ract2, ract3; cbn [app]; repeat (constructor; [try exact I; apply item_okb; vm_compute; reflexivity|]); constructor|].
  split; [unfold acts, ract1, ract2, ract3; cbn [app]; repeat (constructor; [cbn; auto|]); constructor|]. split; vm_compute; reflexivity.
Qed.

(** C34: when the drain task waits, the signal is not set and no enqueue is about to set it (between its two critical sections), the ring is empty: no accepted item is forgotten
    until the next enqueue. *)
Theorem c34_no_lost_wakeup g cap sl acts os f c x : sh_run g (sh_new cap f c) acts = Some (x, os) -> task_run sl true acts os = Some true -> sh_sig x = false ->
  sh_due x = 0 -> r_cnt (sh_ring x) = 0.
Proof. exact (shared_wakes g cap sl acts os f c x). Qed.
(* the second enqueue signals only after the task has drained its item *)
Definition wacts : list act := [AEnq (it 1 20) PErr; ASig; AWait; APeek 32; AEnq (it 2 20) PErr; APush false; ADiscard; APeek 32; APush false; ADiscard; APeek 32; ASig; AWait; APeek 32].
Example c34_case : exists x os, sx wacts = Some (x, os) /\ task_run 32 true wacts os = Some true /\ sh_sig x = false /\ sh_due x = 0 /\ r_cnt (sh_ring x) = 0.
Proof.
  assert (X : match sx wacts with Some (x, os) => (task_run 32 true wacts os, sh_sig x, sh_due x, r_cnt (sh_ring x)) | None => (None, true, 1, 1) end = (Some true, false, 0, 0)) by (vm_compute; reflexivity).
  destruct (sx wacts) as [[x os]|]; [|discriminate]. exists x, os. injection X as X1 X2 X3 X4. auto.
Qed.
(** C34: the task is not woken for nothing: from any state (say, just after a wait), the number of completed waits is at most that of accepted enqueues, and one more if the signal
    was set at the start, and one more for each enqueue that was about to set it then. *)
Theorem c34_no_empty_wakeup g acts x x' os : sh_run g x acts = Some (x', os) -> waited acts + Nat.b2n (sh_sig x') + sh_due x' <=
  taken os + Nat.b2n (sh_sig x) + sh_due x.
Proof. exact (shared_waits g acts x x' os). Qed.
Example c34_case_waits : exists x os, sx wacts = Some (x, os) /\ waited wacts = 2 /\ taken os = 2 /\ sh_sig x = false.
Proof.
  assert (X : match sx wacts with Some (x, os) => (waited wacts, taken os, sh_sig x) | None => (0, 0, true) end = (2, 2, false)) by (vm_compute; reflexivity).
  destruct (sx wacts) as [[x os]|]; [|discriminate]. exists x, os. injection X as X1 X2. auto.
Qed.

Print Assumptions c34_no_empty_wakeup.
Print Assumptions c24_every_history.
Print Assumptions c24_fifo.
Print Assumptions c24_after_failure_refuted.
Print Assumptions c24_at_least_once.
Print Assumptions c25_rejecting.
Print Assumptions c25_order.
Print Assumptions c25_losses.
Print Assumptions c25_discarding_refuted.
Print Assumptions c34_no_lost_wakeup.
