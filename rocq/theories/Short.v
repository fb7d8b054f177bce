(** Map calls whose data buffer may be too small.  Nothing here models library code. *)
From Coq Require Import List NArith Arith Bool.
From Verif Require Import Base Flash Cache State Client MClient QSpec MSpec MObs.
Import ListNotations.

(** Codecs that look at a prefix of what they are given: more bytes behind do not change a key that was recognised. *)
Definition prefix_codec {K} (KO : Map.keyops K) : Prop := forall b x more, Map.k_de KO b = inl x -> Map.k_de KO (b ++ more) = inl x.

(** The answers to a buffer that is too small: the library's own, or that of the key's or value's code. *)
Definition is_small (e : err) : bool := match e with EBufTooSmall _ | ESer _ => true | _ => false end.
Definition res_small {A} (r : res A) : bool := match r with Err e => is_small e | Ok _ => false end.
Definition m_small {K} (a : mans K) : bool := match a with RUnit r => res_small r | RVal r => res_small r | RList r => res_small r end.

(** The same call with buffers that are [n] bytes longer. *)
Definition longer (n : nat) (b : list N) : list N := b ++ repeat 0%N n.
Definition wide {K} (n : nat) (c : mcall K) : mcall K :=
  match c with
  | MStore b k v => MStore (longer n b) k v
  | MFetch b k => MFetch (longer n b) k
  | MRemove b k => MRemove (longer n b) k
  | MRemoveAll b => MRemoveAll (longer n b)
  | MIter b bs => MIter (longer n b) (map (longer n) bs)
  end.

(** Histories in which a call may bring buffers of any size.  After an answer that a buffer is too small the client goes on with a new cache object. *)
Section Hist.
Context {K : Type} (KO : Map.keyops K).
Inductive msev := SEv (e : mev K) | SAny (c : mcall K) (ca : cache K).
Fixpoint m_srun (g : geom) (s : st K) (evs : list msev) : list (mans K) * st K :=
  match evs with
  | [] => ([], s)
  | SEv (MCall c p) :: t => let '(a, s') := m_exec KO g c (power s p) in let '(l, s2) := m_srun g s' t in (a :: l, s2)
  | SEv (MBoot c) :: t => m_srun g (set_ca s c) t
  | SAny c ca :: t => let '(a, s') := m_exec KO g c (power s None) in let '(l, s2) := m_srun g (if m_small a then set_ca s' ca else s') t in (a :: l, s2)
  end.
Context (eqb : K -> K -> bool) (legal : K -> Prop) (enc : nat -> K -> list N -> list N + err) (big : list N -> Prop).
Notation mdo := (mdo eqb legal enc big true).
(** What a call leaves whose buffer was too small: stores, fetches and iterations nothing new; a removal may have been completed, and a removal of everything may
    have removed some of the keys. *)
Definition left_over (m : K -> option (list N)) (c : mcall K) (m' : K -> option (list N)) : Prop :=
  match c with
  | MStore _ _ _ | MFetch _ _ | MIter _ _ => eqm legal m' m
  | MRemove _ k => eqm legal m' m \/ eqm legal m' (upd eqb m k None)
  | MRemoveAll _ => forall k, legal k -> m' k = m k \/ m' k = None
  end.
(** A call that did not complain did what it would have done with buffers that are [n] bytes longer. *)
Inductive mstrace (n : nat) : (K -> option (list N)) -> list (K * list N) -> list msev -> list (mans K) -> (K -> option (list N)) -> list (K * list N) -> Prop :=
| STNil m log : mstrace n m log [] [] m log
| STCall m log c p a m1 log1 evs l m2 log2 : mdo m log c a m1 log1 -> mstrace n m1 log1 evs l m2 log2 -> mstrace n m log (SEv (MCall c p) :: evs) (a :: l) m2 log2
| STBoot m log c evs l m2 log2 : mstrace n m log evs l m2 log2 -> mstrace n m log (SEv (MBoot c) :: evs) l m2 log2
| STFits m log c ca a m1 log1 evs l m2 log2 : m_small a = false -> mdo m log (wide n c) a m1 log1 -> mstrace n m1 log1 evs l m2 log2 -> mstrace n m log (SAny c ca :: evs) (a :: l) m2 log2
| STSmall m log c ca a m1 evs l m2 log2 : m_small a = true -> left_over m c m1 -> mstrace n m1 log evs l m2 log2 -> mstrace n m log (SAny c ca :: evs) (a :: l) m2 log2.
(** The histories covered, as in [calm] (MSpec.v); a call that ended because of its buffer counts as one that was cut, but not in an erase, followed by a restart. *)
Definition small_mode (t : mode) (c : mcall K) : mode := mkmode (match c with MStore _ _ _ => false | _ => sure t end) true (whole t).
Fixpoint calm_s (ae : bool) (t : mode) (evs : list msev) (l : list (mans K)) : Prop :=
  match evs, l with
  | SEv (MCall c p) :: evs', a :: l' => covered ae t c p /\ calm_s ae (after_call t c a) evs' l'
  | SEv (MBoot _) :: evs', _ => calm_s ae (mkmode (sure t) true (whole t)) evs' l
  | SAny c _ :: evs', a :: l' => covered (ae || whole t) t c (Some 0) /\ calm_s ae (if m_small a then small_mode t c else after_call t c a) evs' l'
  | _, _ => True
  end.
End Hist.
Arguments msev K : clear implicits.
(** The calls are those of any other history, but for the length of their buffers. *)
Definition msev_ok {K} (KO : Map.keyops K) (legal : K -> Prop) (g : geom) (n : nat) (e : msev K) : Prop :=
  match e with SEv e => mev_ok KO legal true g n e | SAny c ca => mcall_ok KO legal true g n (wide n c) /\ fresh_cache (NP g) ca end.
