(** Calls whose future is dropped while it waits for a read.  (A future that is dropped while it waits for a write or an erase leaves what a power failure there leaves.)
    Nothing here models library code. *)
From Coq Require Import List NArith Arith Bool.
From Verif Require Import Base Flash Cache State Client MClient QSpec QObs MSpec MObs.
Import ListNotations.

(** The first read from the [t]-th on does not come back: nothing that follows it happens, in particular nobody is handed a result.
    The ghost log of refused accesses also has the reads here, which is how accesses are counted. *)
Definition dropping (t : nat) : reader := mkreader (fun K g a n s =>
  match dev_read g (s_fl s) a n with
  | inl b => if length (f_bad (s_fl s)) <? t then (Ok b, set_fl s (refuse (s_fl s) a n)) else (Err (EStorage SDropped), s)
  | inr e => (Err (EStorage e), set_fl s (refuse (s_fl s) a n))
  end)
  (fun K A c s => match c s with
                  | (Err (EStorage SDropped), s') => (Err (EStorage SDropped), s')
                  | (r, s') => (Ok r, s')
                  end).

(** The same contents of the flash. *)
Definition same_flash {K} (s s2 : st K) : Prop := let f := s_fl s in let f2 := s_fl s2 in
  (forall x, f_mem f2 x = f_mem f x) /\ (forall x, f_wc f2 x = f_wc f x) /\ f_ae f2 = f_ae f /\ f_aw f2 = f_aw f.

(** The call did not come back. *)
Definition is_gone {A} (r : res A) : bool := match r with Err (EStorage SDropped) => true | _ => false end.
Definition q_gone (a : qans) : bool := match a with AUnit r => is_gone r | AItem r => is_gone r | AIter r => is_gone r | AMax r => is_gone r | ANum r => is_gone r end.
Definition m_gone {K} (a : mans K) : bool := match a with RUnit r => is_gone r | RVal r => is_gone r | RList r => is_gone r end.

(** Histories in which calls are given up.  [DCall]: calls and restarts as before; a call with too little power is also a call dropped while it waited for a write or an
    erase, part of which was done.  [DRead c t]: dropped while it waited for its [t]-th read (or not at all, if it makes less).  [DLate c]: dropped when all it had to do
    in the flash was done, the cache object still marked dirty. *)
Inductive qdev := DCall (e : qev) | DRead (c : qcall) (t : nat) | DLate (c : qcall).
Definition drop_at {K} (s : st K) (t : nat) : reader := dropping (length (f_bad (s_fl s)) + t).
Definition mark {K} (s : st K) : st K := set_ca s (set_dirty (s_ca s) true).
Fixpoint q_drun (g : geom) (s : st unit) (evs : list qdev) : list (option qans) * st unit :=
  match evs with
  | [] => ([], s)
  | DCall (ECall c p) :: t => let '(a, s') := q_exec g c (power s p) in let '(l, s2) := q_drun g s' t in (Some a :: l, s2)
  | DCall (EBoot c) :: t => q_drun g (set_ca s c) t
  | DRead c n :: t => let '(a, s') := q_exec (R := drop_at s n) g c (power s None) in let '(l, s2) := q_drun g s' t in ((if q_gone a then None else Some a) :: l, s2)
  | DLate c :: t => let '(a, s') := q_exec g c (power s None) in let '(l, s2) := q_drun g (mark s') t in (None :: l, s2)
  end.

(** What such a history does to the queue: a call that was dropped did what one cut off by a power failure can do. *)
Section Trace.
Context (rup : nat -> nat) (hl pc : nat) (many : bool).
Notation qdo := (qdo rup hl pc many true).
Inductive qdtrace : list item -> list qdev -> list (option qans) -> list item -> Prop :=
| DTNil q : qdtrace q [] [] q
| DTCall q c p a q1 evs l q2 : qdo q c a q1 -> qdtrace q1 evs l q2 -> qdtrace q (DCall (ECall c p) :: evs) (Some a :: l) q2
| DTBoot q c evs l q2 : qdtrace q evs l q2 -> qdtrace q (DCall (EBoot c) :: evs) l q2
| DTDone q c t a q1 evs l q2 : qdo q c a q1 -> qdtrace q1 evs l q2 -> qdtrace q (DRead c t :: evs) (Some a :: l) q2
| DTDrop q c t a q1 evs l q2 : qdo q c a q1 -> qdtrace q1 evs l q2 -> qdtrace q (DRead c t :: evs) (None :: l) q2
| DTLate q c a q1 evs l q2 : qdo q c a q1 -> qdtrace q1 evs l q2 -> qdtrace q (DLate c :: evs) (None :: l) q2.
End Trace.

(** The same for maps, where the cache object is thrown away after a dropped call. *)
Section MDrop.
Context {K : Type} (KO : Map.keyops K).
Inductive mdev := MDCall (e : mev K) | MDRead (c : mcall K) (t : nat) (ca : cache K).
Fixpoint m_drun (g : geom) (s : st K) (evs : list mdev) : list (option (mans K)) * st K :=
  match evs with
  | [] => ([], s)
  | MDCall (MCall c p) :: t => let '(a, s') := m_exec KO g c (power s p) in let '(l, s2) := m_drun g s' t in (Some a :: l, s2)
  | MDCall (MBoot c) :: t => m_drun g (set_ca s c) t
  | MDRead c n ca :: t => let '(a, s') := m_exec (R := drop_at s n) KO g c (power s None) in let '(l, s2) := m_drun g (set_ca s' ca) t in ((if m_gone a then None else Some a) :: l, s2)
  end.
Context (eqb : K -> K -> bool) (legal : K -> Prop) (enc : nat -> K -> list N -> list N + err) (big : list N -> Prop).
Notation mdo := (mdo eqb legal enc big true).
Inductive mdtrace : (K -> option (list N)) -> list (K * list N) -> list mdev -> list (option (mans K)) -> (K -> option (list N)) -> list (K * list N) -> Prop :=
| MTNil' m log : mdtrace m log [] [] m log
| MTCall' m log c p a m1 log1 evs l m2 log2 : mdo m log c a m1 log1 -> mdtrace m1 log1 evs l m2 log2 -> mdtrace m log (MDCall (MCall c p) :: evs) (Some a :: l) m2 log2
| MTBoot' m log c evs l m2 log2 : mdtrace m log evs l m2 log2 -> mdtrace m log (MDCall (MBoot c) :: evs) l m2 log2
| MTDone' m log c t ca a m1 log1 evs l m2 log2 : mdo m log c a m1 log1 -> mdtrace m1 log1 evs l m2 log2 -> mdtrace m log (MDRead c t ca :: evs) (Some a :: l) m2 log2
| MTDrop' m log c t ca a m1 log1 evs l m2 log2 : mdo m log c a m1 log1 -> mdtrace m1 log1 evs l m2 log2 -> mdtrace m log (MDRead c t ca :: evs) (None :: l) m2 log2.
(** The histories covered, as without dropped calls ([calm], MSpec.v): a dropped call counts as one that was cut, but not in an erase. *)
Definition gone_mode (t : mode) (c : mcall K) : mode := mkmode (match c with MStore _ _ _ => false | _ => sure t end) true (whole t).
Fixpoint calm_d (ae : bool) (t : mode) (evs : list mdev) (l : list (option (mans K))) : Prop :=
  match evs, l with
  | MDCall (MCall c p) :: evs', Some a :: l' => covered ae t c p /\ calm_d ae (after_call t c a) evs' l'
  | MDCall (MBoot _) :: evs', _ => calm_d ae (mkmode (sure t) true (whole t)) evs' l
  | MDRead c _ _ :: evs', None :: l' => covered (ae || whole t) t c (Some 0) /\ calm_d ae (gone_mode t c) evs' l'
  | MDRead c _ _ :: evs', Some a :: l' => covered (ae || whole t) t c (Some 0) /\ calm_d ae (let t' := after_call t c a in mkmode (sure t') true (whole t')) evs' l'
  | _, _ => True
  end.
End MDrop.
(** The calls of a history with dropped calls are those of any other ([qev_ok], [mev_ok]); the caches after a restart are new. *)
Definition qdev_ok (g : geom) (e : qdev) : Prop :=
  match e with DCall e => qev_ok true g e | DRead c _ | DLate c => match c with QPush d _ => item_ok true d | _ => True end end.
Definition mdev_ok {K} (KO : Map.keyops K) (legal : K -> Prop) (g : geom) (n : nat) (e : mdev) : Prop :=
  match e with MDCall e => mev_ok KO legal true g n e | MDRead c _ ca => mcall_ok KO legal true g n c /\ fresh_cache (NP g) ca end.
