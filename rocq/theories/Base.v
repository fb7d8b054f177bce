(** Bytes, little-endian numbers and list helpers shared by the model. *)
From Coq Require Import List NArith Arith Bool Lia.
Import ListNotations.

(** A byte of flash or RAM ([u8], e.g. src/item.rs 60, src/mock_flash.rs 26).  Bytes are [N] values below 256 (a predicate, not a type). *)
Definition byte := N.

(** The range of [u8] (e.g. src/item.rs 60). *)
Definition is_byte (b : N) : Prop := (b < 256)%N.

(** [to_le_bytes] of an unsigned number of [n] bytes (src/item.rs 178-182, src/map.rs 1152). *)
Fixpoint le_bytes (n : nat) (x : N) : list N :=
  match n with
  | O => []
  | S n' => (x mod 256)%N :: le_bytes n' (x / 256)%N
  end.

(** [from_le_bytes] (src/item.rs 82, 101, 103). *)
Fixpoint le_val (l : list N) : N :=
  match l with
  | [] => 0%N
  | b :: l' => (b + 256 * le_val l')%N
  end.

(** All bytes are erased flash bytes (src/item.rs 77). *)
Definition all_ff (l : list N) : bool := forallb (N.eqb 255) l.

(** Replace the front of a buffer: [read] into [&mut buf[..n]] and [copy_from_slice] (src/item.rs 144-153, src/map.rs 1156). *)
Definition put_front (bs buf : list N) : list N := bs ++ skipn (length bs) buf.

(** Bit count of zero bits of a byte, [u8::count_zeros] (src/lib.rs 214, 231). *)
Definition count_zeros (b : N) : nat :=
  length (filter (fun i => negb (N.testbit b (N.of_nat i))) (seq 0 8)).

(** Array store at position [i] (src/cache/page_states.rs 274, src/queue/buffered.rs 164); out of range leaves the list unchanged. *)
Fixpoint list_set {A} (l : list A) (i : nat) (x : A) : list A :=
  match l, i with
  | [], _ => []
  | _ :: t, O => x :: t
  | h :: t, S j => h :: list_set t j x
  end.
