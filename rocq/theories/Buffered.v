(** The RAM ring and the buffered queues: src/queue/buffered.rs. *)
From Coq Require Import List NArith Arith Bool.
From Verif Require Import Base Crc Flash Cache State Item Generic Queue.
Import ListNotations.

(** [RamRing], src/queue/buffered.rs 43-50.  The capacity [N] is the length of [r_buf]. *)
Record ring := mkring { r_buf : list N; r_rp : nat; r_wp : nat; r_used : nat; r_cnt : nat }.

(** The const parameter [N], src/queue/buffered.rs 43; also [ram_capacity_bytes], 322-324, 516-518. *)
Definition r_cap (r : ring) : nat := length (r_buf r).

(** [RamRing::new], src/queue/buffered.rs 54-62. *)
Definition ring_new (n : nat) : ring := mkring (repeat 0%N n) 0 0 0 0.

(** [len], src/queue/buffered.rs 65-67; also [ram_pending_count], 332-334 and 526-528. *)
Definition ring_len (r : ring) : nat := r_cnt r.

(** [is_empty], src/queue/buffered.rs 71-73. *)
Definition ring_is_empty (r : ring) : bool := r_cnt r =? 0.

(** [bytes_used], src/queue/buffered.rs 76-78; also [ram_bytes_used], 337-339. *)
Definition ring_bytes_used (r : ring) : nat := r_used r.

(** [ram_free_bytes], src/queue/buffered.rs 327-329 and 521-523.  The subtraction would panic below zero; it is proved not to go there. *)
Definition ring_free (r : ring) : option nat := if r_cap r <? r_used r then None else Some (r_cap r - r_used r).

(** [oldest_len], src/queue/buffered.rs 81-88; also [oldest_ram_item_len], 531-533. *)
Definition oldest_len (r : ring) : option nat :=
  if r_cnt r =? 0 then None
  else Some (N.to_nat (le_val [nth (r_rp r) (r_buf r) 0%N; nth ((r_rp r + 1) mod r_cap r) (r_buf r) 0%N])).

(** [write_byte], src/queue/buffered.rs 163-166. *)
Definition ring_byte (r : ring) (b : N) : ring :=
  mkring (list_set (r_buf r) (r_wp r) b) (r_rp r) ((r_wp r + 1) mod r_cap r) (r_used r) (r_cnt r).

(** [write_raw], src/queue/buffered.rs 152-161. *)
Definition ring_raw (r : ring) (d : list N) : ring :=
  let r' := fold_left ring_byte (le_bytes 2 (N.of_nat (length d)) ++ d) r in
  mkring (r_buf r') (r_rp r') (r_wp r') (r_used r' + (2 + length d)) (r_cnt r' + 1).

(** [RamRing::push], src/queue/buffered.rs 94-105: [None] is [Err(())]. *)
Definition ring_push (r : ring) (d : list N) : option ring :=
  if (65535 <? N.of_nat (length d))%N then None
  else if r_cap r <? r_used r + (2 + length d) then None
  else Some (ring_raw r d).

(** [discard_oldest], src/queue/buffered.rs 144-150. *)
Definition ring_discard (r : ring) : ring :=
  match oldest_len r with
  | Some n => mkring (r_buf r) ((r_rp r + 2 + n) mod r_cap r) (r_wp r) (r_used r - (2 + n)) (r_cnt r - 1)
  | None => r
  end.

(** The [while] loop of [push_overwriting], src/queue/buffered.rs 120-122: [None] when the bound runs out. *)
Fixpoint ring_evict (fuel : nat) (r : ring) (total : nat) : option ring :=
  if r_cap r <? r_used r + total then
    match fuel with
    | O => None
    | S f => ring_evict f (ring_discard r) total
    end
  else Some r.

(** [push_overwriting], src/queue/buffered.rs 111-125.  [None] is [Err(())]; the loop bound [r_cnt] is
    proved sufficient. *)
Definition ring_push_ow (r : ring) (d : list N) : option ring :=
  if (65535 <? N.of_nat (length d))%N then None
  else if r_cap r <? 2 + length d then None
  else match ring_evict (r_cnt r) r (2 + length d) with
       | Some r' => Some (ring_raw r' d)
       | None => None
       end.

(** The bytes copied by [peek_into], src/queue/buffered.rs 135-139. *)
Definition ring_bytes (r : ring) (n : nat) : list N :=
  map (fun i => nth ((r_rp r + 2 + i) mod r_cap r) (r_buf r) 0%N) (seq 0 n).

(** [peek_into] with a buffer of [bl] bytes, src/queue/buffered.rs 130-141. *)
Definition ring_peek (r : ring) (bl : nat) : option (list N) :=
  match oldest_len r with
  | None => None
  | Some n => if bl <? n then None else Some (ring_bytes r n)
  end.

(** [OverflowPolicy], src/queue/buffered.rs 180-188. *)
Inductive policy := PErr | PDiscardOldest.

(** [enqueue], src/queue/buffered.rs 235-240 and 412-416: [false] is [Err(())]. *)
Definition ring_enqueue (r : ring) (d : list N) (p : policy) : bool * ring :=
  match (match p with PErr => ring_push r d | PDiscardOldest => ring_push_ow r d end) with
  | Some r' => (true, r')
  | None => (false, r)
  end.

Section BQ.
Context (g : geom) {R : reader}.

(** [BufferedQueue], src/queue/buffered.rs 216-219. *)
Definition bq := (ring * st unit)%type.

(** [BufferedQueue::drain_one], src/queue/buffered.rs 248-260; [sl] is the length of the scratch buffer. *)
Definition bq_drain_one (sl : nat) (ow : bool) (q : bq) : res bool * bq :=
  let '(r, s) := q in
  match ring_peek r sl with
  | None => (Ok false, (r, s))
  | Some d =>
      match q_push g d ow s with
      | (Ok _, s') => (Ok true, (ring_discard r, s'))
      | (Err e, s') => (Err e, (r, s'))
      end
  end.

(** [BufferedQueue::drain_all], src/queue/buffered.rs 265-272. *)
Fixpoint bq_drain_loop (fuel : nat) (sl : nat) (ow : bool) (q : bq) : res unit * bq :=
  match fuel with
  | O => (Err EFuel, q)
  | S f =>
      match bq_drain_one sl ow q with
      | (Ok true, q') => bq_drain_loop f sl ow q'
      | (Ok false, q') => (Ok tt, q')
      | (Err e, q') => (Err e, q')
      end
  end.
(** [drain_all], src/queue/buffered.rs 265-272; the bound of the loop is proved to be large enough. *)
Definition bq_drain_all (sl : nat) (ow : bool) (q : bq) : res unit * bq :=
  bq_drain_loop (S (r_cnt (fst q))) sl ow q.

(** [BufferedQueue::pop], src/queue/buffered.rs 278-296; [b] is the caller's buffer. *)
Definition bq_pop (b : list N) (q : bq) : res (option (list N)) * bq :=
  let '(r, s) := q in
  match q_pop g b s with
  | (Err e, s') => (Err e, (r, s'))
  | (Ok (Some d), s') => (Ok (Some d), (r, s'))
  | (Ok None, s') =>
      match ring_peek r (length b) with
      | Some d => (Ok (Some d), (ring_discard r, s'))
      | None => (Ok None, (r, s'))
      end
  end.

(** [BufferedQueue::peek], src/queue/buffered.rs 302-319. *)
Definition bq_peek (b : list N) (q : bq) : res (option (list N)) * bq :=
  let '(r, s) := q in
  match q_peek g b s with
  | (Err e, s') => (Err e, (r, s'))
  | (Ok (Some d), s') => (Ok (Some d), (r, s'))
  | (Ok None, s') => (Ok (ring_peek r (length b)), (r, s'))
  end.

(** [BufferedQueue::enqueue], src/queue/buffered.rs 235-240. *)
Definition bq_enqueue (d : list N) (p : policy) (q : bq) : bool * bq :=
  let '(ok, r) := ring_enqueue (fst q) d p in (ok, (r, snd q)).

(** Where the drain task of a [SharedRamRing] stands: outside [drain_one]; between the locked peek
    and the flash push; between the push and the locked discard (src/queue/buffered.rs 443-451). *)
Inductive pc := CIdle | CPeeked (d : list N) | CPushed.

(** [SharedRamRing] with its drain task and its queue, src/queue/buffered.rs 382-391.
    [sh_sig] is the [Signal]; [sh_due]: how many enqueues have added their item and not yet signalled (src/queue/buffered.rs 413-419). *)
Record shared := mkshared { sh_ring : ring; sh_sig : bool; sh_pc : pc; sh_st : st unit; sh_due : nat }.

(** The atomic steps.  [AEnq]: an interrupt or another task adds an item under the lock (src/queue/buffered.rs 413-416);
    [ASig]: one that has added an item signals (417-419).  Any number of other steps may come in between.
    [APeek]: the locked peek of [drain_one] (443-448). [APush]: the flash push (449), which does not touch the ring.
    [ADiscard]: the locked discard (450). [AWait]: [wait] returns (426-428).
    [APopF]: the [storage.pop] at the end of [pop] (496). *)
Inductive act :=
| AEnq (d : list N) (p : policy)
| ASig
| APeek (sl : nat)
| APush (ow : bool)
| ADiscard
| AWait
| APopF (b : list N).

(** What the steps of src/queue/buffered.rs 412-496 report to their callers. *)
Inductive obs := ONone | OEnq (ok : bool) | OEmpty | OPushed (ok : bool) | OPop (r : res (option (list N))).

(** One atomic step (src/queue/buffered.rs 412-451, 496); [None] when the step is not possible in that state. *)
Definition sh_step (x : shared) (a : act) : option (shared * obs) :=
  match a with
  | AEnq d p =>
      let '(ok, r) := ring_enqueue (sh_ring x) d p in
      Some (mkshared r (sh_sig x) (sh_pc x) (sh_st x) (if ok then S (sh_due x) else sh_due x), OEnq ok)
  | ASig =>
      match sh_due x with
      | O => None
      | S n => Some (mkshared (sh_ring x) true (sh_pc x) (sh_st x) n, ONone)
      end
  | APeek sl =>
      match sh_pc x with
      | CIdle =>
          match ring_peek (sh_ring x) sl with
          | Some d => Some (mkshared (sh_ring x) (sh_sig x) (CPeeked d) (sh_st x) (sh_due x), ONone)
          | None => Some (x, OEmpty)
          end
      | _ => None
      end
  | APush ow =>
      match sh_pc x with
      | CPeeked d =>
          match q_push g d ow (sh_st x) with
          | (Ok _, s) => Some (mkshared (sh_ring x) (sh_sig x) CPushed s (sh_due x), OPushed true)
          | (Err _, s) => Some (mkshared (sh_ring x) (sh_sig x) CIdle s (sh_due x), OPushed false)
          end
      | _ => None
      end
  | ADiscard =>
      match sh_pc x with
      | CPushed => Some (mkshared (ring_discard (sh_ring x)) (sh_sig x) CIdle (sh_st x) (sh_due x), ONone)
      | _ => None
      end
  | AWait =>
      match sh_pc x, sh_sig x with
      | CIdle, true => Some (mkshared (sh_ring x) false CIdle (sh_st x) (sh_due x), ONone)
      | _, _ => None
      end
  | APopF b =>
      match sh_pc x with
      | CIdle => let '(r, s) := q_pop g b (sh_st x) in
                 Some (mkshared (sh_ring x) (sh_sig x) CIdle s (sh_due x), OPop r)
      | _ => None
      end
  end.

(** A schedule: the steps in the order in which they happen; not a function of src/queue/buffered.rs but of its users. *)
Fixpoint sh_run (x : shared) (l : list act) : option (shared * list obs) :=
  match l with
  | [] => Some (x, [])
  | a :: t =>
      match sh_step x a with
      | Some (x', o) => match sh_run x' t with Some (x'', os) => Some (x'', o :: os) | None => None end
      | None => None
      end
  end.

End BQ.
