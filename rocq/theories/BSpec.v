(** What a buffered queue is: two lists, the items on flash and the items in RAM.  How it is used: calls, power failures, restarts. *)
From Coq Require Import List NArith Arith Bool.
From Verif Require Import Base Flash Cache State Item Generic Queue Buffered Client QSpec.
Import ListNotations.

Inductive bcall :=
| BEnq (d : list N) (p : policy)
| BDrain (sl : nat) (ow : bool)
| BDrainAll (sl : nat) (ow : bool)
| BPop (b : list N)
| BPeek (b : list N).
Inductive bans := BOk (ok : bool) | BDrained (r : res bool) | BAll (r : res unit) | BItem (r : res (option item)).

(** Bytes of RAM taken by items: two bytes of length each. *)
Definition ram (l : list item) : nat := list_sum (map (fun d => 2 + length d) l).

Section BSpec.
Context (rw : nat -> nat) (hl pc : nat) (many pf : bool) (cap : nat).
Notation qdo := (qdo rw hl pc many pf).

(** The oldest RAM item does not exist or is longer than [n]. *)
Definition nothing_for (n : nat) (R : list item) : Prop := match R with [] => True | d :: _ => n < length d end.

Inductive drain1 (sl : nat) (ow : bool) (F R : list item) : res bool -> list item -> list item -> Prop :=
| D1None : nothing_for sl R -> drain1 sl ow F R (Ok false) F R
| D1Item d R' F' : R = d :: R' -> length d <= sl -> qdo F (QPush d ow) (AUnit (Ok tt)) F' -> drain1 sl ow F R (Ok true) F' R'
| D1Err d R' e F' : R = d :: R' -> length d <= sl -> qdo F (QPush d ow) (AUnit (Err e)) F' -> drain1 sl ow F R (Err e) F' R.
Inductive drains (sl : nat) (ow : bool) : list item -> list item -> res unit -> list item -> list item -> Prop :=
| DAEnd F R F' R' : drain1 sl ow F R (Ok false) F' R' -> drains sl ow F R (Ok tt) F' R'
| DAErr F R e F' R' : drain1 sl ow F R (Err e) F' R' -> drains sl ow F R (Err e) F' R'
| DAItem F R F1 R1 r F' R' : drain1 sl ow F R (Ok true) F1 R1 -> drains sl ow F1 R1 r F' R' -> drains sl ow F R r F' R'.

Inductive bdo (F R : list item) : bcall -> bans -> list item -> list item -> Prop :=
| BDEnq d : (N.of_nat (length d) <= 65535)%N -> ram (R ++ [d]) <= cap -> bdo F R (BEnq d PErr) (BOk true) F (R ++ [d])
| BDFull d : (65535 < N.of_nat (length d))%N \/ cap < ram (R ++ [d]) -> bdo F R (BEnq d PErr) (BOk false) F R
| BDEvict d gone R' : (N.of_nat (length d) <= 65535)%N -> R = gone ++ R' -> ram (R' ++ [d]) <= cap ->
    (forall g1 x, gone = g1 ++ [x] -> cap < ram (x :: R' ++ [d])) -> bdo F R (BEnq d PDiscardOldest) (BOk true) F (R' ++ [d])
| BDTooBig d : (65535 < N.of_nat (length d))%N \/ cap < ram [d] -> bdo F R (BEnq d PDiscardOldest) (BOk false) F R
| BDDrain sl ow r F' R' : drain1 sl ow F R r F' R' -> bdo F R (BDrain sl ow) (BDrained r) F' R'
| BDAll sl ow r F' R' : drains sl ow F R r F' R' -> bdo F R (BDrainAll sl ow) (BAll r) F' R'
| BDPopF b r F' : qdo F (QPop b) (AItem r) F' -> r <> Ok None -> bdo F R (BPop b) (BItem r) F' R
| BDPopR b d F' R' : qdo F (QPop b) (AItem (Ok None)) F' -> R = d :: R' -> length d <= length b -> bdo F R (BPop b) (BItem (Ok (Some d))) F' R'
| BDPopNone b F' : qdo F (QPop b) (AItem (Ok None)) F' -> nothing_for (length b) R -> bdo F R (BPop b) (BItem (Ok None)) F' R
| BDPeekF b r F' : qdo F (QPeek b) (AItem r) F' -> r <> Ok None -> bdo F R (BPeek b) (BItem r) F' R
| BDPeekR b d R' F' : qdo F (QPeek b) (AItem (Ok None)) F' -> R = d :: R' -> length d <= length b -> bdo F R (BPeek b) (BItem (Ok (Some d))) F' R
| BDPeekNone b F' : qdo F (QPeek b) (AItem (Ok None)) F' -> nothing_for (length b) R -> bdo F R (BPeek b) (BItem (Ok None)) F' R.

(** Histories.  [VBoot]: a restart loses the RAM contents. *)
Inductive bev := VCall (c : bcall) (p : option nat) | VBoot (c : cache unit).
Inductive btrace : list item -> list item -> list bev -> list bans -> list item -> list item -> Prop :=
| BTNil F R : btrace F R [] [] F R
| BTCall F R c p a F1 R1 evs l F2 R2 : bdo F R c a F1 R1 -> btrace F1 R1 evs l F2 R2 -> btrace F R (VCall c p :: evs) (a :: l) F2 R2
| BTBoot F R c evs l F2 R2 : btrace F [] evs l F2 R2 -> btrace F R (VBoot c :: evs) l F2 R2.
End BSpec.

(** Running the model. *)
Section BClient.
Context (g : geom).
Definition bexec {R : reader} (c : bcall) (q : bq) : bans * bq :=
  match c with
  | BEnq d p => let '(ok, q') := bq_enqueue d p q in (BOk ok, q')
  | BDrain sl ow => let '(r, q') := bq_drain_one g sl ow q in (BDrained r, q')
  | BDrainAll sl ow => let '(r, q') := bq_drain_all g sl ow q in (BAll r, q')
  | BPop b => let '(r, q') := bq_pop g b q in (BItem r, q')
  | BPeek b => let '(r, q') := bq_peek g b q in (BItem r, q')
  end.
Fixpoint brun (cap : nat) (q : bq) (evs : list bev) : list bans * bq :=
  match evs with
  | [] => ([], q)
  | VCall c p :: t => let '(a, q') := bexec c (fst q, power (snd q) p) in let '(l, q2) := brun cap q' t in (a :: l, q2)
  | VBoot c :: t => brun cap (ring_new cap, set_ca (snd q) c) t
  end.
End BClient.

(** Peeking and discarding again and again yields [R]. *)
Fixpoint ram_holds (r : ring) (R : list item) : Prop :=
  match R with [] => r_cnt r = 0 | d :: t => ring_peek r (length d) = Some d /\ ram_holds (ring_discard r) t end.

(** What went in and what came out. *)
Fixpoint bin (evs : list bev) (l : list bans) : list item :=
  match evs, l with
  | VBoot _ :: t, l => bin t l
  | VCall (BEnq d _) _ :: t, BOk true :: l => d :: bin t l
  | VCall _ _ :: t, _ :: l => bin t l
  | _, _ => []
  end.
Fixpoint bout (evs : list bev) (l : list bans) : list item :=
  match evs, l with
  | VBoot _ :: t, l => bout t l
  | VCall (BPop _) _ :: t, BItem (Ok (Some d)) :: l => d :: bout t l
  | VCall _ _ :: t, _ :: l => bout t l
  | _, _ => []
  end.
(** Calls that never give items up. *)
Definition careful (e : bev) : Prop :=
  match e with
  | VBoot _ => False
  | VCall (BEnq _ PDiscardOldest) _ => False
  | VCall (BDrain _ ow) _ | VCall (BDrainAll _ ow) _ => ow = false
  | VCall _ _ => True
  end.
(** [a] results from [b] by leaving elements out. *)
Inductive part_of {A} : list A -> list A -> Prop :=
| PNil : part_of [] []
| PKeep x a b : part_of a b -> part_of (x :: a) (x :: b)
| PLose x a b : part_of a b -> part_of a (x :: b).

(** [a] results from [b] by repeating elements on the spot. *)
Inductive repeats {A} : list A -> list A -> Prop :=
| RpNil : repeats [] []
| RpKeep x a b : repeats a b -> repeats (x :: a) (x :: b)
| RpAgain x a b : repeats (x :: a) b -> repeats (x :: x :: a) b.
(** No pop was cut off. *)
Fixpoint pops_end (evs : list bev) (l : list bans) : Prop :=
  match evs, l with
  | VBoot _ :: t, l => pops_end t l
  | VCall c _ :: t, a :: l => match c with BPop _ => a <> BItem (Err cut) | _ => True end /\ pops_end t l
  | _, _ => True
  end.

(** The shared ring: what was accepted and what was popped, in the order of the schedule. *)
Fixpoint sh_in (acts : list act) (os : list obs) : list item :=
  match acts, os with
  | AEnq d _ :: t, OEnq true :: l => d :: sh_in t l
  | _ :: t, _ :: l => sh_in t l
  | _, _ => []
  end.
Fixpoint sh_out (acts : list act) (os : list obs) : list item :=
  match acts, os with
  | APopF _ :: t, OPop (Ok (Some d)) :: l => d :: sh_out t l
  | _ :: t, _ :: l => sh_out t l
  | _, _ => []
  end.
(** Accepted items that are only in RAM: between the flash push and the discard the oldest RAM item is already on flash. *)
Definition unsaved (c : pc) (R : list item) : list item := match c with CPushed => tl R | _ => R end.
(** Steps that never give items up. *)
Definition act_careful (a : act) : Prop :=
  match a with AEnq _ PDiscardOldest => False | APush ow => ow = false | _ => True end.

(** The recommended drain task, src/queue/buffered.rs 459-485: wait for the signal, drain until the ring is empty, wait again.
    [w]: the task waits.  A failing push ends the task, so it does not occur here. *)
Definition task_step (sl : nat) (w : bool) (a : act) (o : obs) : option bool :=
  match a, o with
  | AEnq d _, _ => if length d <=? sl then Some w else None
  | ASig, _ => Some w
  | AWait, _ => if w then Some false else None
  | APeek n, OEmpty => if w then None else if n =? sl then Some true else None
  | APeek n, _ => if w then None else if n =? sl then Some false else None
  | APush _, OPushed true => if w then None else Some false
  | ADiscard, _ => if w then None else Some false
  | _, _ => None
  end.
Fixpoint task_run (sl : nat) (w : bool) (acts : list act) (os : list obs) : option bool :=
  match acts, os with
  | [], [] => Some w
  | a :: t, o :: l => match task_step sl w a o with Some w' => task_run sl w' t l | None => None end
  | _, _ => None
  end.
