(** The buffered queue when calls are given up while they wait.  Nothing here models library code. *)
From Coq Require Import List NArith Arith Bool.
From Verif Require Import Base Flash Cache State Queue Buffered Client QSpec QObs BSpec Drops.
Import ListNotations.

Definition b_gone (a : bans) : bool := match a with BOk _ => false | BDrained r => is_gone r | BAll r => is_gone r | BItem r => is_gone r end.

(** Histories as for the plain queue (Drops.v).  [WCall]: calls and restarts as before; with too little power also: dropped while waiting for a write or an erase.
    [WRead c t]: dropped while waiting for its [t]-th read.  [WLate c n]: dropped when the flash part was done, the cache object still marked dirty and the RAM part not
    yet done; a drain of everything is dropped like this in its [n]-th round (counted from 0). *)
Inductive bdev := WCall (e : bev) | WRead (c : bcall) (t : nat) | WLate (c : bcall) (n : nat).
Section Run.
Context (g : geom).
Fixpoint drain_late (n sl : nat) (ow : bool) (q : bq) : bq :=
  match n with
  | O => match ring_peek (fst q) sl with None => q | Some d => (fst q, mark (snd (q_push g d ow (snd q)))) end
  | S n' => match bq_drain_one g sl ow q with (Ok true, q') => drain_late n' sl ow q' | (_, q') => q' end
  end.
Definition b_late (c : bcall) (n : nat) (q : bq) : bq :=
  match c with
  | BEnq _ _ => q
  | BDrain sl ow => drain_late 0 sl ow q
  | BDrainAll sl ow => drain_late n sl ow q
  | BPop b => (fst q, mark (snd (q_pop g b (snd q))))
  | BPeek b => (fst q, mark (snd (q_peek g b (snd q))))
  end.
Fixpoint b_drun (cap : nat) (q : bq) (evs : list bdev) : list (option bans) * bq :=
  match evs with
  | [] => ([], q)
  | WCall (VCall c p) :: t => let '(a, q') := bexec g c (fst q, power (snd q) p) in let '(l, q2) := b_drun cap q' t in (Some a :: l, q2)
  | WCall (VBoot c) :: t => b_drun cap (ring_new cap, set_ca (snd q) c) t
  | WRead c n :: t => let '(a, q') := bexec g (R := drop_at (snd q) n) c (fst q, power (snd q) None) in let '(l, q2) := b_drun cap q' t in ((if b_gone a then None else Some a) :: l, q2)
  | WLate c n :: t => let '(l, q2) := b_drun cap (b_late c n (fst q, power (snd q) None)) t in (None :: l, q2)
  end.
End Run.

(** What a call that was given up has done: a drain has moved some items, and the next one may be in both places; a pop may have taken an item. *)
Section Trace.
Context (rw : nat -> nat) (hl pc : nat) (many : bool) (cap : nat).
Notation qdo := (qdo rw hl pc many true).
Notation drain1 := (drain1 rw hl pc many true).
Notation bdo := (bdo rw hl pc many true cap).
Inductive drained (sl : nat) (ow : bool) : list item -> list item -> list item -> list item -> Prop :=
| DrNo F R : drained sl ow F R F R
| DrOne F R F1 R1 F2 R2 : drain1 sl ow F R (Ok true) F1 R1 -> drained sl ow F1 R1 F2 R2 -> drained sl ow F R F2 R2.
Inductive bstop (F R : list item) : bcall -> list item -> list item -> Prop :=
| GNothing c : bstop F R c F R
| GDrain sl ow d R' a F' : R = d :: R' -> length d <= sl -> qdo F (QPush d ow) a F' -> bstop F R (BDrain sl ow) F' R
| GDrainAll sl ow F1 R1 F' : drained sl ow F R F1 R1 -> bstop F1 R1 (BDrain sl ow) F' R1 -> bstop F R (BDrainAll sl ow) F' R1
| GPop b a F' : qdo F (QPop b) a F' -> bstop F R (BPop b) F' R.
Inductive bdtrace : list item -> list item -> list bdev -> list (option bans) -> list item -> list item -> Prop :=
| WTNil F R : bdtrace F R [] [] F R
| WTCall F R c p a F1 R1 evs l F2 R2 : bdo F R c a F1 R1 -> bdtrace F1 R1 evs l F2 R2 -> bdtrace F R (WCall (VCall c p) :: evs) (Some a :: l) F2 R2
| WTBoot F R c evs l F2 R2 : bdtrace F [] evs l F2 R2 -> bdtrace F R (WCall (VBoot c) :: evs) l F2 R2
| WTDone F R c t a F1 R1 evs l F2 R2 : bdo F R c a F1 R1 -> bdtrace F1 R1 evs l F2 R2 -> bdtrace F R (WRead c t :: evs) (Some a :: l) F2 R2
| WTDrop F R c t F1 R1 evs l F2 R2 : bstop F R c F1 R1 -> bdtrace F1 R1 evs l F2 R2 -> bdtrace F R (WRead c t :: evs) (None :: l) F2 R2
| WTLate F R c n F1 R1 evs l F2 R2 : bstop F R c F1 R1 -> bdtrace F1 R1 evs l F2 R2 -> bdtrace F R (WLate c n :: evs) (None :: l) F2 R2.
End Trace.

(** What went in and what came out, and the calls that never give items up, as in BSpec.v. *)
Definition wcall (e : bdev) : option bcall := match e with WCall (VCall c _) => Some c | WCall (VBoot _) => None | WRead c _ => Some c | WLate c _ => Some c end.
Fixpoint wcalls (evs : list bdev) (l : list (option bans)) : list (bcall * option bans) :=
  match evs with
  | [] => []
  | e :: t => match wcall e, l with Some c, a :: l' => (c, a) :: wcalls t l' | None, _ => wcalls t l | _, [] => [] end
  end.
Definition win (x : bcall * option bans) : list item := match x with (BEnq d _, Some (BOk true)) => [d] | _ => [] end.
Definition wout (x : bcall * option bans) : list item := match x with (BPop _, Some (BItem (Ok (Some d)))) => [d] | _ => [] end.
Definition wcareful (e : bdev) : Prop :=
  match wcall e with
  | None => False
  | Some (BEnq _ PDiscardOldest) => False
  | Some (BDrain _ ow) | Some (BDrainAll _ ow) => ow = false
  | Some _ => True
  end.
(** A pop that was not given up. *)
Definition wends (x : bcall * option bans) : Prop := match x with (BPop _, a) => a <> None /\ a <> Some (BItem (Err cut)) | _ => True end.
Definition bdev_ok (g : geom) (e : bdev) : Prop :=
  match e with WCall (VBoot c) => fresh_cache (NP g) c | WCall (VCall c _) | WRead c _ | WLate c _ => match c with BEnq d _ => item_ok true d | _ => True end end.
