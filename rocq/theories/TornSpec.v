(** Items whose remains cannot be taken for items.  When the erase of a page is cut, the front of the page is erased and the rest is not; the bytes
    of an item after that point are then read from the wrong places.  Nothing here mentions the implementation but the format of an item. *)
From Coq Require Import List NArith Arith Bool.
From Verif Require Import Base Crc Flash.
Import ListNotations.

(** Bytes of which the first [j] were erased and those from [t] on never written. *)
Definition wiped (j t : nat) (l : list N) : list N :=
  map (fun i => if (j <=? i) && (i <? t) then nth i l 255%N else 255%N) (seq 0 (length l)).

(** Eight bytes that pass for a header: the checksum of the length is right. *)
Definition looks (w : list N) : bool := (crc16 (firstn 2 (skipn 4 w)) =? le_val (firstn 2 (skipn 6 w)))%N.

(** The header of an item with data [d]. *)
Definition head (d : list N) : list N :=
  let n := le_bytes 2 (N.of_nat (length d)) in le_bytes 4 (acrc d) ++ n ++ le_bytes 2 (crc16 n).

(** If what is left of the header passes for a header then only the checksum of the data was hit, and it does not fit
    any beginning of the data; and no word of the data, or beginning of one, passes for a header. *)
Definition quiet (g : geom) (d : list N) : Prop :=
  (forall j t, 1 <= j -> let w := wiped j t (head d) in looks w = true ->
     wiped 0 t (head d) = head d /\ firstn 2 (skipn 4 w) = le_bytes 2 (N.of_nat (length d)) /\
     (w = head d \/ forall t', acrc (wiped 0 t' d) <> le_val (firstn 4 w))) /\
  (forall i t, i * W g < rup g (length d) ->
     looks (wiped 0 t (firstn 8 (skipn (i * W g) (d ++ repeat 0%N (rup g (length d) - length d))))) = false).

(** A check of the same. *)
Definition leqb (a b : list N) : bool := (length a =? length b) && forallb (fun x => (fst x =? snd x)%N) (combine a b).
Definition quietb (g : geom) (d : list N) : bool :=
  forallb (fun j => forallb (fun t => let w := wiped j t (head d) in
     negb (looks w) || (leqb (wiped 0 t (head d)) (head d) && leqb (firstn 2 (skipn 4 w)) (le_bytes 2 (N.of_nat (length d))) &&
     (leqb w (head d) || forallb (fun t' => negb (acrc (wiped 0 t' d) =? le_val (firstn 4 w))%N) (seq 0 (S (length d))))))
     (seq 0 9)) (seq 1 8) &&
  forallb (fun i => forallb (fun t => (rup g (length d) <=? i * W g) ||
     negb (looks (wiped 0 t (firstn 8 (skipn (i * W g) (d ++ repeat 0%N (rup g (length d) - length d))))))) (seq 0 9)) (seq 0 (rup g (length d))).
