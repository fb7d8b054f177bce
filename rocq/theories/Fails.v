(** Calls during which reads fail: the device hands an error to the library instead of the bytes.  Nothing here models library code. *)
From Coq Require Import List NArith Arith Bool.
From Verif Require Import Base Flash Cache State Item Generic Client MClient QSpec QObs MSpec MObs Drops.
Import ListNotations.

(** The reads whose number is chosen by [F] fail with [e]; the others work.  The ghost log of refused accesses also has the reads here, which is how accesses are counted. *)
Definition failing (e : serr) (F : nat -> bool) : reader := mkreader (fun K g a n s =>
  match dev_read g (s_fl s) a n with
  | inl b => (if F (length (f_bad (s_fl s))) then Err (EStorage e) else Ok b, set_fl s (refuse (s_fl s) a n))
  | inr e' => (Err (EStorage e'), set_fl s (refuse (s_fl s) a n))
  end) (fun K A => hand_on).
(** Reads counted from the start of the call. *)
Definition fail_at {K} (s : st K) (e : serr) (F : nat -> bool) : reader := failing e (fun i => F (i - length (f_bad (s_fl s)))).

(** The call handed on that error. *)
Definition same_err (e e' : serr) : bool := match e, e' with SOob, SOob | SAlign, SAlign | SShutoff, SShutoff | SDropped, SDropped => true | _, _ => false end.
Definition is_failed {A} (e : serr) (r : res A) : bool := match r with Err (EStorage e') => same_err e e' | _ => false end.
Definition q_failed (e : serr) (a : qans) : bool :=
  match a with AUnit r => is_failed e r | AItem r => is_failed e r | AIter r => is_failed e r | AMax r => is_failed e r | ANum r => is_failed e r end.
Definition m_failed {K} (e : serr) (a : mans K) : bool := match a with RUnit r => is_failed e r | RVal r => is_failed e r | RList r => is_failed e r end.

(** There is a page whose markers are half erased or half written ([get_page_state], src/lib.rs 138-203, answers [Corrupted]). *)
Definition half_marked {K} (g : geom) (s : st K) : bool :=
  existsb (fun p => match fst (page_state (R := steady) g p s) with Err ECorrupted => true | _ => false end) (seq 0 (NP g)).

(** Histories of a queue.  [FRead c e F]: the reads of the call chosen by [F] fail with [e]. *)
Inductive qfev := FCall (e : qev) | FRead (c : qcall) (e : serr) (F : nat -> bool).
Fixpoint q_frun (g : geom) (s : st unit) (evs : list qfev) : list qans * st unit :=
  match evs with
  | [] => ([], s)
  | FCall (ECall c p) :: t => let '(a, s') := q_exec g c (power s p) in let '(l, s2) := q_frun g s' t in (a :: l, s2)
  | FCall (EBoot c) :: t => q_frun g (set_ca s c) t
  | FRead c e F :: t => let '(a, s') := q_exec (R := fail_at s e F) g c (power s None) in let '(l, s2) := q_frun g s' t in (a :: l, s2)
  end.
(** No read fails while there is a half-marked page. *)
Fixpoint q_clear (g : geom) (s : st unit) (evs : list qfev) : Prop :=
  match evs with
  | [] => True
  | FCall (ECall c p) :: t => q_clear g (snd (q_exec g c (power s p))) t
  | FCall (EBoot c) :: t => q_clear g (set_ca s c) t
  | FRead c e F :: t => half_marked g s = false /\ q_clear g (snd (q_exec (R := fail_at s e F) g c (power s None))) t
  end.
(** What such a history does to the queue: a call with failing reads is answered as any other, or with an error of the device, and then it did what one cut off by a power
    failure can do. *)
Section Trace.
Context (rup : nat -> nat) (hl pc : nat) (many : bool).
Notation qdo := (qdo rup hl pc many true).
Inductive qftrace : list item -> list qfev -> list qans -> list item -> Prop :=
| FTNil q : qftrace q [] [] q
| FTCall q c p a q1 evs l q2 : qdo q c a q1 -> qftrace q1 evs l q2 -> qftrace q (FCall (ECall c p) :: evs) (a :: l) q2
| FTBoot q c evs l q2 : qftrace q evs l q2 -> qftrace q (FCall (EBoot c) :: evs) l q2
| FTDone q c e F a q1 evs l q2 : qdo q c a q1 -> qftrace q1 evs l q2 -> qftrace q (FRead c e F :: evs) (a :: l) q2
| FTFail q c e F a a' q1 evs l q2 : q_failed e a = true -> qdo q c a' q1 -> qftrace q1 evs l q2 -> qftrace q (FRead c e F :: evs) (a :: l) q2.
End Trace.
Definition qfev_ok (g : geom) (e : qfev) : Prop :=
  match e with FCall e => qev_ok true g e | FRead c e _ => match c with QPush d _ => item_ok true d | _ => True end end.

(** The same for maps; the cache object is replaced by a new one after a call that handed on an error of the device.  No failing reads in iterations. *)
Section MFail.
Context {K : Type} (KO : Map.keyops K).
Inductive mfev := MFCall (e : mev K) | MFRead (c : mcall K) (e : serr) (F : nat -> bool) (ca : cache K).
Fixpoint m_frun (g : geom) (s : st K) (evs : list mfev) : list (mans K) * st K :=
  match evs with
  | [] => ([], s)
  | MFCall (MCall c p) :: t => let '(a, s') := m_exec KO g c (power s p) in let '(l, s2) := m_frun g s' t in (a :: l, s2)
  | MFCall (MBoot c) :: t => m_frun g (set_ca s c) t
  | MFRead c e F ca :: t => let '(a, s') := m_exec (R := fail_at s e F) KO g c (power s None) in
      let '(l, s2) := m_frun g (if m_failed e a then set_ca s' ca else s') t in (a :: l, s2)
  end.
Context (eqb : K -> K -> bool) (legal : K -> Prop) (enc : nat -> K -> list N -> list N + err) (big : list N -> Prop).
Notation mdo := (mdo eqb legal enc big true).
Inductive mftrace : (K -> option (list N)) -> list (K * list N) -> list mfev -> list (mans K) -> (K -> option (list N)) -> list (K * list N) -> Prop :=
| FMNil m log : mftrace m log [] [] m log
| FMCall m log c p a m1 log1 evs l m2 log2 : mdo m log c a m1 log1 -> mftrace m1 log1 evs l m2 log2 -> mftrace m log (MFCall (MCall c p) :: evs) (a :: l) m2 log2
| FMBoot m log c evs l m2 log2 : mftrace m log evs l m2 log2 -> mftrace m log (MFCall (MBoot c) :: evs) l m2 log2
| FMDone m log c e F ca a m1 log1 evs l m2 log2 : mdo m log c a m1 log1 -> mftrace m1 log1 evs l m2 log2 -> mftrace m log (MFRead c e F ca :: evs) (a :: l) m2 log2
| FMFail m log c e F ca a a' m1 log1 evs l m2 log2 : m_failed e a = true -> mdo m log c a' m1 log1 -> mftrace m1 log1 evs l m2 log2 -> mftrace m log (MFRead c e F ca :: evs) (a :: l) m2 log2.
(** The histories covered, as with dropped calls ([calm_d], Drops.v): no failing reads while there is a half-erased page. *)
Fixpoint calm_f (ae : bool) (t : mode) (evs : list mfev) (l : list (mans K)) : Prop :=
  match evs, l with
  | MFCall (MCall c p) :: evs', a :: l' => covered ae t c p /\ calm_f ae (after_call t c a) evs' l'
  | MFCall (MBoot _) :: evs', _ => calm_f ae (mkmode (sure t) true (whole t)) evs' l
  | MFRead c e _ _ :: evs', a :: l' => (ae = true \/ whole t = true) /\ covered true t c (Some 0) /\ calm_f ae (if m_failed e a then gone_mode t c else after_call t c a) evs' l'
  | _, _ => True
  end.
End MFail.
Definition mfev_ok {K} (KO : Map.keyops K) (legal : K -> Prop) (g : geom) (n : nat) (e : mfev) : Prop :=
  match e with
  | MFCall e => mev_ok KO legal true g n e
  | MFRead c e _ ca => mcall_ok KO legal true g n c /\ fresh_cache (NP g) ca /\ match c with MIter _ _ => False | _ => True end
  end.
