(** The shared ring when its drains and pops are given up while they wait.  Nothing here models library code. *)
From Coq Require Import List NArith Arith Bool.
From Verif Require Import Base Flash Cache State Queue Buffered Client QSpec QObs BSpec Drops.
Import ListNotations.

(** Schedules as before, of steps that can be given up.  [XStep a p]: the step; a push or a pop with too little power is one dropped while it waits for a write or an erase.
    [XRead a t]: dropped while it waits for its [t]-th read.  [XLate a]: a push or pop dropped when its flash part was done, the cache object still marked dirty.
    Dropping a push ends the drain: the item stays in the ring, and a new drain may begin. *)
Inductive sdev := XStep (a : act) (p : option nat) | XRead (a : act) (t : nat) | XLate (a : act).
Definition act_of (e : sdev) : act := match e with XStep a _ => a | XRead a _ => a | XLate a => a end.
Section Run.
Context (g : geom).
Definition with_st (x : shared) (s : st unit) : shared := mkshared (sh_ring x) (sh_sig x) (sh_pc x) s (sh_due x).
Definition sd_step (x : shared) (e : sdev) : option (shared * obs) :=
  match e with
  | XStep a p => sh_step g (with_st x (power (sh_st x) p)) a
  | XRead a t => sh_step g (R := drop_at (sh_st x) t) (with_st x (power (sh_st x) None)) a
  | XLate a =>
      match a, sh_step g (with_st x (power (sh_st x) None)) a with
      | (APush _ | APopF _), Some (x', _) => Some (mkshared (sh_ring x') (sh_sig x') CIdle (mark (sh_st x')) (sh_due x'), ONone)
      | _, _ => None
      end
  end.
Fixpoint sd_run (x : shared) (l : list sdev) : option (shared * list obs) :=
  match l with
  | [] => Some (x, [])
  | e :: t =>
      match sd_step x e with
      | Some (x', o) => match sd_run x' t with Some (x'', os) => Some (x'', o :: os) | None => None end
      | None => None
      end
  end.
End Run.
(** No pop was given up. *)
Definition pop_ended (o : act * obs) : Prop :=
  match o with
  | (APopF _, OPop r) => r <> Err cut /\ is_gone r = false
  | (APopF _, _) => False
  | _ => True
  end.
