(** C46.  A call given up at any point where it waits: a future that is dropped. *)
From Coq Require Import List NArith Arith Bool Lia.
From Verif Require Import Base Flash Cache State Item Generic Queue Map Codec CodecP TMap Client QSpec QObs QCase MClient MSpec MObs MCase Reads Drops DropQP DropMP Buffered BSpec BDrops DropBP SharedP SDrops SDropP.
Import ListNotations.

(** The queue object goes on being used.  Futures are dropped while they wait for a read ([DRead]), for a write or an erase ([ECall c (Some k)]: what has
    been programmed so far stays), or once the last write is done ([DLate]).  The answers are those of a FIFO in which each dropped call has either run or
    stopped where a power failure could have stopped it, and what the queue holds in the end is what that FIFO holds. *)
Theorem c46_queue g f c evs l s : erased g f -> f_fuel f = None -> fresh_cache (NP g) c -> setting true g (f_ae f) (f_aw f) -> Forall (qdev_ok g) evs ->
  q_drun g (st_new f c) evs = (l, s) -> exists q, qdtrace (rup g) (HL g) (page_cap g) (2 <=? NP g) [] evs l q /\ q_holds g s q.
Proof. exact (drop_queue g f c evs l s). Qed.

(** The map, with a new cache object after each future dropped at a read (going on with the same object is unsound: c18_map_refuted). *)
Theorem c46_map {K} (KO : keyops K) (legal : K -> Prop) g n f c evs l s : key_codec KO legal -> erased g f -> f_fuel f = None -> fresh_cache (NP g) c ->
  msetting true g (f_aw f) -> Forall (mdev_ok KO legal g n) evs -> calm_d (f_ae f) calm0 evs l -> m_drun KO g (st_new f c) evs = (l, s) ->
  exists m log, mdtrace (k_eqb KO) legal (item_bytes KO) (mbig g) (@nothing K) [] evs l m log /\ m_holds KO legal g n s m.
Proof. exact (drop_map KO legal g n f c evs l s). Qed.

(** Any flash contents, any cache: a call dropped at a read leaves the flash as some power failure in the same call does. *)
Theorem c46_queue_any g s c t : let r := q_exec g c (power s None) in let d := q_exec (R := drop_at s t) g c (power s None) in
  (fst d = fst r /\ same_but_log (snd r) (snd d)) \/ (q_gone (fst d) = true /\ exists k, same_flash (snd d) (snd (q_exec g c (power s (Some k))))).
Proof. exact (q_any g s c t). Qed.
Theorem c46_map_any {K} (KO : keyops K) g s c t : let r := m_exec KO g c (power s None) in let d := m_exec (R := drop_at s t) KO g c (power s None) in
  (fst d = fst r /\ same_but_log (snd r) (snd d)) \/ (m_gone (fst d) = true /\ exists k, same_flash (snd d) (snd (m_exec KO g c (power s (Some k))))).
Proof. exact (m_any KO g s c t). Qed.
Theorem c46_typed_any {K T} (KO : keyops K) (V : valops T) g s b k v t : let r := t_store KO g V b k v (power s None) in
  let d := t_store (R := drop_at s t) KO g V b k v (power s None) in
  (fst d = fst r /\ same_but_log (snd r) (snd d)) \/ (is_gone (fst d) = true /\ exists j, same_flash (snd d) (snd (t_store KO g V b k v (power s (Some j))))).
Proof. exact (t_any KO V g s b k v t). Qed.
(** The buffered queue goes on being used.  A drain that was given up has moved some items; the next one may be on flash and still in RAM.  If no pop was given up and no
    call may drop items, nothing accepted is missing: what came out, then the flash, then the RAM are the accepted items in order, some of them repeated on the spot. *)
Theorem c46_buffered g cap f c evs l q : erased g f -> f_fuel f = None -> fresh_cache (NP g) c -> setting true g (f_ae f) (f_aw f) -> Forall (bdev_ok g) evs ->
  b_drun g cap (ring_new cap, st_new f c) evs = (l, q) ->
  exists F R, bdtrace (rup g) (HL g) (page_cap g) (2 <=? NP g) cap [] [] evs l F R /\ q_holds g (snd q) F /\ ram_holds (fst q) R /\
    (Forall wcareful evs -> Forall wends (wcalls evs l) -> repeats (flat_map wout (wcalls evs l) ++ F ++ R) (flat_map win (wcalls evs l))).
Proof. exact (drop_buffered g cap f c evs l q). Qed.
(** The shared ring, with enqueues at any moment: drains given up anywhere lose nothing (rejecting policy, drains that do not overwrite, no pop given up). *)
Theorem c46_shared g cap f c evs os x : erased g f -> f_fuel f = None -> fresh_cache (NP g) c -> setting true g (f_ae f) (f_aw f) ->
  Forall (fun e => match act_of e with AEnq d _ => item_ok true d | _ => True end /\ act_careful (act_of e)) evs -> sd_run g (sh_new cap f c) evs = Some (x, os) ->
  Forall pop_ended (combine (map act_of evs) os) ->
  exists F R, q_holds g (sh_st x) F /\ ram_holds (sh_ring x) R /\ repeats (sh_out (map act_of evs) os ++ F ++ unsaved (sh_pc x) R) (sh_in (map act_of evs) os).
Proof. exact (drop_shared g cap f c evs os x). Qed.
Print Assumptions c46_queue.
Print Assumptions c46_map.
Print Assumptions c46_buffered.
Print Assumptions c46_shared.
Print Assumptions c46_queue_any.
Print Assumptions c46_map_any.
Print Assumptions c46_typed_any.

(** A queue that is filled; a pop whose future is dropped after its write, so that nobody gets item 1; an overwriting push dropped at its tenth read; a pop
    dropped at its third; a pop dropped while it writes (item 2 is gone too); a peek. *)
Definition P (x : N) (n : nat) : qdev := DCall (ECall (QPush (it x n) false) None).
Definition fillq : list qdev := [P 1 40; P 2 40; P 3 40; P 4 33; P 5 40; P 6 40].
Definition devs : list qdev := fillq ++ [DLate (QPop cb); DRead (QPush (it 7 40) true) 9; DRead (QPop cb) 2; DCall (ECall (QPop cb) (Some 1)); DCall (ECall (QPeek cb) None)].
Example c46_queue_case : Forall (qdev_ok cg) devs /\
  fst (q_drun cg st0 devs) = repeat (Some (AUnit (Ok tt))) 6 ++ [None; None; None; Some (AItem (Err QSpec.cut)); Some (AItem (Ok (Some (it 3 40))))].
Proof.
  split; [|vm_compute; reflexivity]. unfold devs, fillq, P. cbn [app].
  repeat (constructor; [first [exact I | split; [discriminate|]; try exact I; apply item_okb; vm_compute; reflexivity | apply item_okb; vm_compute; reflexivity]|]). constructor.
Qed.
(** A map: the fifth store has to move items and is dropped while it does, and so is a second attempt; later a fetch is dropped; everything is as before that store. *)
Definition mdevs : list (mdev (K := N)) := map MDCall [Sto 1 1 15 None; Sto 2 2 15 None; Sto 3 3 15 None; Sto 1 4 15 None]%N ++
  [MDRead (MStore kb 2%N (it 5 15)) 12 (mc 3 2); MDRead (MStore kb 2%N (it 5 15)) 14 (mc 3 2); MDCall (Fet 2); MDRead (MFetch kb 1%N) 3 (mc 3 1); MDCall (Fet 1); MDCall (Sto 3 6 15 None); MDCall (Fet 3)]%N.
Example c46_map_case : let l := fst (m_drun kn (mg 3) (mst0 false 3) mdevs) in Forall (mdev_ok kn kl (mg 3) 64) mdevs /\ calm_d false calm0 mdevs l /\
  l = repeat (Some (RUnit (Ok tt))) 4 ++ [None; None; Some (RVal (Ok (Some (it 2 15)))); None; Some (RVal (Ok (Some (it 4 15)))); Some (RUnit (Ok tt)); Some (RVal (Ok (Some (it 6 15))))].
Proof.
  cbv zeta. split; [|split; [|vm_compute; reflexivity]].
  - repeat (constructor; [split; [first [discriminate | apply call_okb_ok; vm_compute; reflexivity]|first [apply mc_fresh; lia | apply call_okb_ok; vm_compute; reflexivity]]|]). constructor.
  - vm_compute. repeat split; auto.
Qed.

(** A drain of everything dropped in its second round after the push; one dropped at its third read; one dropped while it erases or writes; a pop of each item. *)
Definition bdevs : list bdev := [WCall (VCall (BEnq (it 1 13) PErr) None); WCall (VCall (BEnq (it 2 13) PErr) None); WLate (BDrainAll 32 false) 1; WRead (BDrain 32 false) 2;
  WCall (VCall (BEnq (it 3 13) PErr) None); WCall (VCall (BDrainAll 32 false) (Some 20)); WCall (VCall (BPop cb) None); WRead (BPop cb) 999; WCall (VCall (BPop cb) None)].
Example c46_buffered_case : let r := b_drun cg 50 (ring_new 50, st0) bdevs in
  Forall (bdev_ok cg) bdevs /\ Forall wcareful bdevs /\ Forall wends (wcalls bdevs (fst r)) /\ firstn 6 (fst r) = [Some (BOk true); Some (BOk true); None; None; Some (BOk true); Some (BAll (Err QSpec.cut))] /\
  flat_map win (wcalls bdevs (fst r)) = [it 1 13; it 2 13; it 3 13] /\ flat_map wout (wcalls bdevs (fst r)) = [it 1 13; it 2 13; it 2 13].
Proof.
  intros r. split; [unfold bdevs; repeat (constructor; [first [exact I|apply item_okb; vm_compute; reflexivity]|]); constructor|].
  split; [unfold bdevs; repeat (constructor; [cbn; auto|]); constructor|].
  split; [|split; [|split]; vm_compute; reflexivity]. set (x := wcalls bdevs (fst r)). vm_compute in x. unfold x. repeat (constructor; [cbn; auto; split; discriminate|]). constructor.
Qed.

(** Two items; a drain dropped after its push, with a third enqueue in between; one dropped at its second read; one dropped while it writes; a whole round; two pops. *)
Definition sdevs : list sdev := [XStep (AEnq (it 1 13) PErr) None; XStep (APeek 32) None; XStep (AEnq (it 2 13) PErr) None; XLate (APush false); XStep ASig None; XStep (AEnq (it 3 13) PErr) None;
  XStep (APeek 32) None; XRead (APush false) 1; XStep (APeek 32) None; XStep (APush false) (Some 20); XStep (APeek 32) None; XStep (APush false) None; XStep ADiscard None;
  XStep (APopF cb) None; XRead (APopF cb) 999].
Definition sres : option (shared * list obs) := sd_run cg (sh_new 50 flash_new cc) sdevs.
Example c46_shared_case : exists x os, sres = Some (x, os) /\ Forall (fun e => match act_of e with AEnq d _ => item_ok true d | _ => True end /\ act_careful (act_of e)) sdevs /\
  Forall pop_ended (combine (map act_of sdevs) os) /\ sh_in (map act_of sdevs) os = [it 1 13; it 2 13; it 3 13] /\ sh_out (map act_of sdevs) os = [it 1 13; it 1 13] /\
  ram_holds (sh_ring x) [it 2 13; it 3 13].
Proof.
  assert (X : match sres with Some (x, os) => Forall pop_ended (combine (map act_of sdevs) os) /\ sh_in (map act_of sdevs) os = [it 1 13; it 2 13; it 3 13] /\
    sh_out (map act_of sdevs) os = [it 1 13; it 1 13] /\ ram_holds (sh_ring x) [it 2 13; it 3 13] | None => False end).
  { vm_compute. split; [|repeat split]. repeat (constructor; [first [exact I|split; [discriminate|reflexivity]]|]). constructor. }
  destruct sres as [[x os]|]; [|contradiction]. exists x, os. split; [reflexivity|]. split; [|exact X].
  unfold sdevs. repeat (constructor; [split; [first [exact I|apply item_okb; vm_compute; reflexivity]|cbn; auto]|]). constructor.
Qed.

(** C34 does not carry over to a task whose [wait_and_drain_all] is given up (or fails) after the wait has taken the signal: the ring holds an item, no signal is set or due, and
    a new [wait] does not return until somebody enqueues again. *)
Definition asleep (evs : list sdev) : Prop := exists x os, sd_run cg (sh_new 50 flash_new cc) evs = Some (x, os) /\ sh_pc x = CIdle /\ ram_holds (sh_ring x) [it 1 13] /\ sh_due x = 0 /\
  forall p, sd_step cg x (XStep AWait p) = None.
Definition asleep_b (evs : list sdev) : Prop := match sd_run cg (sh_new 50 flash_new cc) evs with
  | Some (x, _) => sh_pc x = CIdle /\ ram_holds (sh_ring x) [it 1 13] /\ sh_due x = 0 /\ sh_sig x = false | None => False end.
Lemma asleep_ok evs : asleep_b evs -> asleep evs.
Proof.
  unfold asleep_b, asleep. destruct (sd_run cg (sh_new 50 flash_new cc) evs) as [[x os]|]; [|contradiction]. intros (A & B & C & D). exists x, os. split; [reflexivity|]. split; [exact A|]. split; [exact B|].
  split; [exact C|]. intros p. cbn [sd_step sh_step with_st sh_pc sh_sig]. rewrite A, D. reflexivity.
Qed.
Theorem c34_given_up_refuted : exists t, asleep [XStep (AEnq (it 1 13) PErr) None; XStep ASig None; XStep AWait None; XStep (APeek 32) None; XRead (APush false) t].
Proof. exists 0. apply asleep_ok. vm_compute. repeat split. Qed.
(* here the push fails because the item does not fit on the flash of full pages *)
Definition full_up : list sdev := concat (repeat [XStep (AEnq (it 9 40) PErr) None; XStep (APeek 40) None; XStep (APush false) None; XStep ADiscard None] 6) ++ repeat (XStep ASig None) 6 ++ [XStep AWait None].
Theorem c34_failed_drain_refuted : asleep (full_up ++ [XStep (AEnq (it 1 13) PErr) None; XStep ASig None; XStep AWait None; XStep (APeek 32) None; XStep (APush false) None]).
Proof. apply asleep_ok. vm_compute. repeat split. Qed.
Print Assumptions c34_given_up_refuted.
Print Assumptions c34_failed_drain_refuted.
