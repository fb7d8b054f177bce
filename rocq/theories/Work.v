(** The work of one call: reads and erases.  Nothing here models library code; reads are counted as in Cost.v. *)
From Coq Require Import List NArith Arith Bool.
From Verif Require Import Base Flash Cache State Item Generic Queue Map Codec TMap Client MClient Reads Cost.
Import ListNotations.

(** The erases made between two states, latest first. *)
Definition erases_between {K} (s s' : st K) : list (nat * nat) :=
  firstn (length (f_er (s_fl s')) - length (f_er (s_fl s))) (f_er (s_fl s')).

Section Bounds.
Variable g : geom.
(** The words of a page. *)
Definition page_words : nat := ES g / W g.
Notation P := (NP g).
Notation U := page_words.
(** Repairing a queue looks at the markers of every page and may erase it; a call may run twice, with a repair in between.
    (Wherever something is written or erased there is one more: the log that counts the reads also has writes and erases that the device refuses.) *)
Definition q_twice (r e : nat) : nat * nat := (2 * r + 3 * P, 2 * e + P).
(** Advancing an iterator: headers and data (each read twice if need be) of every page, and its markers. *)
Definition q_next_work : nat * nat := q_twice (P * (4 * U + 3)) (P - 1).
Definition q_work (c : qcall) : nat * nat :=
  let add (x y : nat * nat) := (fst x + fst y, snd x + snd y) in
  match c with
  | QPush _ _ => q_twice (6 * P + 4 * U + 16) 1
  | QPop _ | QPeek _ => add (q_twice (8 * P) 0) (fst q_next_work + 1, snd q_next_work)
  | QIter sc => add (q_twice (8 * P) 0) (length sc * (fst q_next_work + 1), length sc * snd q_next_work)
  | QMaxFit => q_twice (6 * P + 4 * U + 2) 0
  | QSpace => q_twice (P * (6 * U + 2)) 0
  end.
(** Searching a key: the key pointer, the page markers, every item (one page may be visited twice), and the item found. *)
Definition find_work : nat := 4 * P + (P + 1) * (4 * U + 2) + 10.
(** Compacting a page: a search for every item. *)
Definition compact_work : nat := U * (find_work + 7) + 1.
Definition m_twice (r e : nat) : nat * nat := (2 * r + (5 * P + 6 + compact_work), 2 * e + (P + 2)).
Definition m_work {K} (c : mcall K) : nat * nat :=
  match c with
  | MStore _ _ _ => m_twice (P * (4 * P + 2 * U + 13 + compact_work)) P
  | MFetch _ _ => m_twice find_work 0
  | MRemove _ _ | MRemoveAll _ => m_twice (P * (5 * U + 6)) 0
  | MIter _ bs => let t := m_twice (4 * P + 2) 0 in (fst t + length bs * ((P + 2) * (4 * U + 2 * (P + 1))), snd t)
  end.
End Bounds.
