(** The calls of the shared RAM ring as its drain task makes them, with interrupts: src/queue/buffered.rs 382-534. *)
From Coq Require Import List NArith Arith Bool.
From Verif Require Import Base Crc Flash Cache State Item Generic Queue Buffered.
Import ListNotations.

(** [SharedRamRing] (src/queue/buffered.rs 382-391) together with the storage that its calls borrow.  [x_irq]: the enqueues that interrupts make at the
    next points where an interrupt can come in between (a critical section cannot be interrupted).  [x_acc]: ghost, the items accepted so far. *)
Record shx := mkshx { x_ring : ring; x_sig : bool; x_st : st unit; x_irq : list (list (list N * policy)); x_acc : list (list N) }.

(** [enqueue], src/queue/buffered.rs 412-421. *)
Definition sx_enqueue (d : list N) (p : policy) (x : shx) : bool * shx :=
  let '(ok, r) := ring_enqueue (x_ring x) d p in
  (ok, mkshx r (if ok then true else x_sig x) (x_st x) (x_irq x) (if ok then x_acc x ++ [d] else x_acc x)).

(** A point where interrupts may enqueue: before each critical section and flash access of src/queue/buffered.rs 426-512.  (Interrupts during a flash access
    do as much as interrupts before it: the storage and the ring do not share state.) *)
Definition sx_irq (x : shx) : shx :=
  match x_irq x with
  | [] => x
  | b :: t => fold_left (fun y e => snd (sx_enqueue (fst e) (snd e) y)) b (mkshx (x_ring x) (x_sig x) (x_st x) t (x_acc x))
  end.

Section SX.
Context (g : geom).

(** [drain_one], src/queue/buffered.rs 437-452; [sl] is the length of the scratch buffer. *)
Definition sx_drain_one (sl : nat) (ow : bool) (x0 : shx) : res bool * shx :=
  let x := sx_irq x0 in
  match ring_peek (x_ring x) sl with
  | None => (Ok false, x)
  | Some d =>
      let y := sx_irq x in
      match q_push g d ow (x_st y) with
      | (Err e, s) => (Err e, mkshx (x_ring y) (x_sig y) s (x_irq y) (x_acc y))
      | (Ok _, s) =>
          let z := sx_irq (mkshx (x_ring y) (x_sig y) s (x_irq y) (x_acc y)) in
          (Ok true, mkshx (ring_discard (x_ring z)) (x_sig z) (x_st z) (x_irq z) (x_acc z))
      end
  end.

(** The loop of [drain_all], src/queue/buffered.rs 457-465. *)
Fixpoint sx_drain_loop (fuel : nat) (sl : nat) (ow : bool) (x : shx) : res unit * shx :=
  match fuel with
  | O => (Err EFuel, x)
  | S f =>
      match sx_drain_one sl ow x with
      | (Ok true, x') => sx_drain_loop f sl ow x'
      | (Ok false, x') => (Ok tt, x')
      | (Err e, x') => (Err e, x')
      end
  end.
(** How many items there are and may still come: a bound for the loop of src/queue/buffered.rs 463, proved to be large enough. *)
Definition sx_fuel (x : shx) : nat := S (ring_len (x_ring x) + length (concat (x_irq x))).
(** [drain_all], src/queue/buffered.rs 457-465. *)
Definition sx_drain_all (sl : nat) (ow : bool) (x : shx) : res unit * shx := sx_drain_loop (sx_fuel x) sl ow x.

(** [wait], src/queue/buffered.rs 426-428: [None] if the signal is not set and no interrupt sets it. *)
Fixpoint sx_wait (fuel : nat) (x : shx) : option shx :=
  if x_sig x then Some (mkshx (x_ring x) false (x_st x) (x_irq x) (x_acc x))
  else match fuel with O => None | S f => sx_wait f (sx_irq x) end.

(** [wait_and_drain_all], src/queue/buffered.rs 475-483. *)
Definition sx_wait_drain (sl : nat) (ow : bool) (x : shx) : option (res unit) * shx :=
  match sx_wait (S (length (x_irq x))) x with
  | None => (None, fold_left (fun y _ => sx_irq y) (x_irq x) x)
  | Some y => let '(r, z) := sx_drain_all sl ow y in (Some r, z)
  end.

(** The first part of [pop] and [peek]: drain if the ring is not empty (src/queue/buffered.rs 492-495, 506-509).  The scratch buffer is the caller's
    buffer; simplified: what the drain leaves in it is not modelled, [pop] and [peek] overwrite it. *)
Definition sx_flush (b : list N) (ow : bool) (x0 : shx) : res unit * shx :=
  let x := sx_irq x0 in
  if 0 <? ring_len (x_ring x) then sx_drain_all (length b) ow x else (Ok tt, x).

(** [pop], src/queue/buffered.rs 486-497. *)
Definition sx_pop (b : list N) (ow : bool) (x0 : shx) : res (option (list N)) * shx :=
  match sx_flush b ow x0 with
  | (Err e, x) => (Err e, x)
  | (Ok _, x) => let y := sx_irq x in let '(r, s) := q_pop g b (x_st y) in (r, mkshx (x_ring y) (x_sig y) s (x_irq y) (x_acc y))
  end.

(** [peek], src/queue/buffered.rs 500-511. *)
Definition sx_peek (b : list N) (ow : bool) (x0 : shx) : res (option (list N)) * shx :=
  match sx_flush b ow x0 with
  | (Err e, x) => (Err e, x)
  | (Ok _, x) => let y := sx_irq x in let '(r, s) := q_peek g b (x_st y) in (r, mkshx (x_ring y) (x_sig y) s (x_irq y) (x_acc y))
  end.
End SX.
