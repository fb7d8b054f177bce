(** What a queue is: a list of byte strings.  This file mentions nothing of the implementation but the types of calls and answers. *)
From Coq Require Import List NArith Arith Bool.
From Verif Require Import Flash Cache State Client.
Import ListNotations.

Definition item := list N.
(** The error a call returns when the power fails during it. *)
Definition cut : err := EStorage SShutoff.

Section QSpec.
(** [rw n]: [n] rounded up to whole flash words; [hl]: space for an item header; [pc]: space in a page;
    [many]: more than one page; [pf]: power failures may happen. *)
Context (rw : nat -> nat) (hl pc : nat) (many : bool) (pf : bool).

(** The largest item. *)
Definition mx : nat := pc - hl.
Definition big (d : item) : Prop := mx < length d \/ (65535 < N.of_nat (length d))%N.
(** Flash space taken by items. *)
Definition wt (l : list item) : nat := list_sum (map (fun d => hl + rw (length d)) l).

(** A buffer is refused for being too small only if it is smaller than the largest item, and without
    power failures only if it cannot take the item that is due. *)
Definition short (q : list item) (b : list N) (n : nat) : Prop :=
  length b < n /\ hl + n <= pc /\ (pf = false -> exists d t, q = d :: t /\ n = rw (length d)).

(** One step of an iteration: [bf] are the items passed and kept, [rm] those ahead. *)
Inductive istep (bf rm : list item) : list N * bool -> res (option item) -> list item -> list item -> Prop :=
| IItem b d t : rm = d :: t -> rw (length d) <= length b -> istep bf rm (b, false) (Ok (Some d)) (bf ++ [d]) t
| IItemPop b d t : rm = d :: t -> rw (length d) <= length b -> istep bf rm (b, true) (Ok (Some d)) bf t
| IEnd x : rm = [] -> istep bf rm x (Ok None) bf rm
| IShort b pop n : short rm b n -> istep bf rm (b, pop) (Err (EBufTooSmall n)) bf rm.
Inductive isteps : list item -> list item -> list (list N * bool) -> list (res (option item)) -> list item -> Prop :=
| INil bf rm : isteps bf rm [] [] (bf ++ rm)
| ICons bf rm x sc r rs bf' rm' q : istep bf rm x r bf' rm' -> isteps bf' rm' sc rs q -> isteps bf rm (x :: sc) (r :: rs) q.

(** One call: queue contents before, the call, its answer, queue contents after. *)
Inductive qdo (q : list item) : qcall -> qans -> list item -> Prop :=
| DPush d : ~ big d -> qdo q (QPush d false) (AUnit (Ok tt)) (q ++ [d])
| DPushOver d dr q' : ~ big d -> q = dr ++ q' -> wt dr <= pc -> qdo q (QPush d true) (AUnit (Ok tt)) (q' ++ [d])
| DPushFull d : ~ big d -> (pf = false -> many = true -> q <> []) -> qdo q (QPush d false) (AUnit (Err EFull)) q
| DPushBig d ow : big d -> qdo q (QPush d ow) (AUnit (Err EItemTooBig)) q
| DPop b r bf rm : istep [] q (b, true) r bf rm -> qdo q (QPop b) (AItem r) (bf ++ rm)
| DPeek b r bf rm : istep [] q (b, false) r bf rm -> qdo q (QPeek b) (AItem r) (bf ++ rm)
| DIter sc rs q' : isteps [] q sc rs q' -> qdo q (QIter sc) (AIter (Ok rs)) q'
| DMaxFit r : qdo q QMaxFit (AMax (Ok r)) q
| DMaxFit1 : many = false -> qdo q QMaxFit (AMax (Err ECorrupted)) q
| DSpace n : qdo q QSpace (ANum (Ok n)) q
(* power failures *)
| DPushCut d ow dr q1 q' : pf = true -> q = dr ++ q1 -> wt dr <= pc -> (ow = false -> dr = []) -> In q' [q; q1; q1 ++ [d]] ->
    qdo q (QPush d ow) (AUnit (Err cut)) q'
| DPopCut b q' : pf = true -> In q' [q; tl q] -> qdo q (QPop b) (AItem (Err cut)) q'
| DPeekCut b : pf = true -> qdo q (QPeek b) (AItem (Err cut)) q
| DIterCut sc1 sc2 rs q' : pf = true -> isteps [] q sc1 rs q' -> qdo q (QIter (sc1 ++ sc2)) (AIter (Err cut)) q'
| DMaxFitCut : pf = true -> qdo q QMaxFit (AMax (Err cut)) q
| DSpaceCut : pf = true -> qdo q QSpace (ANum (Err cut)) q.

(** A history. *)
Inductive qtrace : list item -> list qev -> list qans -> list item -> Prop :=
| TNil q : qtrace q [] [] q
| TCall q c p a q1 evs l q2 : qdo q c a q1 -> qtrace q1 evs l q2 -> qtrace q (ECall c p :: evs) (a :: l) q2
| TBoot q c evs l q2 : qtrace q evs l q2 -> qtrace q (EBoot c :: evs) l q2.
End QSpec.
