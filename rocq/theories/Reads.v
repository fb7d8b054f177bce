(** Devices whose reads go wrong: what is stored is right, but what a read delivers may not be (for instance because of an error on the bus; CHANGELOG.md: "Retry reading
    flash when CRCs are not equal to aid with SPI errors").  Nothing here models library code.  The vocabulary is that of the documented representation (FormatSpec.v). *)
From Coq Require Import List NArith Arith Bool.
From Verif Require Import Base CrcP Flash Cache State FormatSpec.
Import ListNotations.

(** What the [t]-th access delivers when [m] is stored and [n] bytes at [a] are read. *)
Definition garbling : Type := nat -> (nat -> N) -> nat -> nat -> list N.
(** A device with such reads; writes and erases are as for the mock flash, and so are the accesses it refuses (src/mock_flash.rs 187-200).
    The ghost log of refused accesses also has the reads here, which is how accesses are counted. *)
Definition garbled (gl : garbling) : reader := mkreader (fun K g a n s =>
  match dev_read g (s_fl s) a n with
  | inl _ => (Ok (gl (length (f_bad (s_fl s))) (f_mem (s_fl s)) a n), set_fl s (refuse (s_fl s) a n))
  | inr e => (Err (EStorage e), set_fl s (refuse (s_fl s) a n))
  end) (fun K A => hand_on).

Section Harmless.
Variable g : geom.
(** The bytes [x] are delivered for bytes at [a].  If that is a marker, it still counts as the marker it is. *)
Definition as_marker (m : nat -> N) (a : nat) (x : list N) : Prop := length x = RS g -> (4 <=? length (filter negb (flat_map bits_of x))) = mark g m a.
(** If it is a header, it does not look erased, and the length does not match its checksum. *)
Definition as_header (x : list N) : Prop := length x = words g 8 -> forallb (N.eqb 255) x = false /\ num (fun i => nth i x 0%N) 6 2 <> check16 (firstn 2 (skipn 4 x)).
(** If it is the data of an item (its header is at [h]), the item is intact, and the data delivered does not match the checksum. *)
Definition as_data (m : nat -> N) (a : nat) (x : list N) : Prop := forall h len, a = h + words g 8 -> words g len = length x ->
  num m h 4 <> 0%N -> num m (h + 4) 2 = N.of_nat len -> num m (h + 6) 2 = check16 (bytes m (h + 4) 2) ->
  num m h 4 = check32 (bytes m a len) /\ num m h 4 <> check32 (firstn len x).
(** Each read is right, or it is seen to be wrong and the next one is right. *)
Definition harmless (gl : garbling) : Prop := forall t m a n, gl t m a n = bytes m a n \/
  length (gl t m a n) = n /\ Forall is_byte (gl t m a n) /\ as_marker m a (gl t m a n) /\ as_header (gl t m a n) /\ as_data m a (gl t m a n) /\
  forall m' a' n', gl (S t) m' a' n' = bytes m' a' n'.
End Harmless.

(** The same state, apart from the ghost log. *)
Definition same_but_log {K} (s s2 : st K) : Prop := exists l,
  s2 = set_fl s (let f := s_fl s in mkflash (f_mem f) (f_wc f) (f_er f) (f_fuel f) (f_ae f) (f_aw f) l).
