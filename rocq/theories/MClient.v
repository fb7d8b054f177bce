(** Client programs that use a map: sequences of calls to one storage object, with power failures and restarts in
    between.  Nothing here models library code; it says how the library is used. *)
From Coq Require Import List NArith Arith Bool.
From Verif Require Import Base Flash Cache State Item Generic Map Client.
Import ListNotations.

Section MClient.
Context {K : Type} (KO : keyops K) (g : geom) {R : reader}.

(** Call [next] of an iteration once for every buffer in [bs], and stop at the first [None]. *)
Fixpoint m_script (bs : list (list N)) : M K (list (option (K * list N))) :=
  match bs with
  | [] => ret []
  | b :: t =>
      r <- m_iter_next KO g b ;;
      match r with
      | None => ret [None]
      | Some x => rs <- m_script t ;; ret (Some x :: rs)
      end
  end.
Definition m_iterate (b : list N) (bs : list (list N)) : M K (list (option (K * list N))) := m_iter KO g b ;;; m_script bs.

(** Calls; every call brings its own buffer.  Values are given as the bytes they serialize to. *)
Inductive mcall :=
| MStore (b : list N) (k : K) (v : list N)
| MFetch (b : list N) (k : K)
| MRemove (b : list N) (k : K)
| MRemoveAll (b : list N)
| MIter (b : list N) (bs : list (list N)).

Inductive mans :=
| RUnit (r : res unit)
| RVal (r : res (option (list N)))
| RList (r : res (list (option (K * list N)))).

Definition mans1 {A} (f : res A -> mans) (x : res A * st K) : mans * st K := (f (fst x), snd x).
Definition m_exec (c : mcall) (s : st K) : mans * st K :=
  match c with
  | MStore b k v => mans1 RUnit (m_store KO g b k v s)
  | MFetch b k => mans1 RVal (m_fetch KO g b k s)
  | MRemove b k => mans1 RUnit (m_remove KO g b k s)
  | MRemoveAll b => mans1 RUnit (m_remove_all KO g b s)
  | MIter b bs => mans1 RList (m_iterate b bs s)
  end.

(** A history: calls, each with a supply of power, and restarts with a new cache object. *)
Inductive mev := MCall (c : mcall) (p : option nat) | MBoot (c : cache K).

Fixpoint m_run (s : st K) (evs : list mev) : list mans * st K :=
  match evs with
  | [] => ([], s)
  | MCall c p :: t => let '(a, s') := m_exec c (power s p) in let '(l, s2) := m_run s' t in (a :: l, s2)
  | MBoot c :: t => m_run (set_ca s c) t
  end.
End MClient.
Arguments mcall K : clear implicits.
Arguments mans K : clear implicits.
Arguments mev K : clear implicits.
