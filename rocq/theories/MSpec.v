(** What a map is: a function from keys to optional values.  This file mentions nothing of the implementation but the
    types of calls and answers. *)
From Coq Require Import List NArith Arith Bool.
From Verif Require Import Flash Cache State Client QSpec MClient.
Import ListNotations.

Section MSpec.
(** [eqb], [legal]: equality of keys and the keys that may be used; [enc n k v]: the bytes of the item that holds [k]
    and [v], or an error when they cannot be put in a buffer of [n] bytes; [big]: items larger than a page holds;
    [pf]: power failures may happen. *)
Context {K : Type} (eqb : K -> K -> bool) (legal : K -> Prop) (enc : nat -> K -> list N -> list N + err) (big : list N -> Prop) (pf : bool).

Definition vmap := K -> option (list N).
Definition eqm (m m' : vmap) : Prop := forall k, legal k -> m k = m' k.
Definition upd (m : vmap) (k : K) (v : option (list N)) : vmap := fun k' => if eqb k' k then v else m k'.
Definition nothing : vmap := fun _ => None.

(** The last value of a key in a list of pairs. *)
Fixpoint lastv (k : K) (l : list (K * list N)) : option (list N) :=
  match l with
  | [] => None
  | (k', v) :: t => match lastv k t with Some x => Some x | None => if eqb k' k then Some v else None end
  end.

(** One call: the map before, the pairs stored so far, the call, its answer, and both afterwards. *)
Inductive mdo (m : vmap) (log : list (K * list N)) : mcall K -> mans K -> vmap -> list (K * list N) -> Prop :=
| MDStore b k v d m' : enc (length b) k v = inl d -> ~ big d -> eqm m' (upd m k (Some v)) -> mdo m log (MStore b k v) (RUnit (Ok tt)) m' (log ++ [(k, v)])
| MDBig b k v d m' : enc (length b) k v = inl d -> big d -> eqm m' m -> mdo m log (MStore b k v) (RUnit (Err EItemTooBig)) m' log
| MDFull b k v d m' : enc (length b) k v = inl d -> ~ big d -> eqm m' m -> mdo m log (MStore b k v) (RUnit (Err EFull)) m' log
| MDSer b k v e m' : enc (length b) k v = inr e -> eqm m' m -> mdo m log (MStore b k v) (RUnit (Err e)) m' log
| MDFetch b k m' : eqm m' m -> mdo m log (MFetch b k) (RVal (Ok (m k))) m' log
| MDRemove b k m' : eqm m' (upd m k None) -> mdo m log (MRemove b k) (RUnit (Ok tt)) m' log
| MDRemoveAll b m' : eqm m' nothing -> mdo m log (MRemoveAll b) (RUnit (Ok tt)) m' log
| MDIter b bs ps m' : incl ps log -> (forall k, legal k -> lastv k ps = m k) -> eqm m' m ->
    mdo m log (MIter b bs) (RList (Ok (firstn (length bs) (map Some ps ++ [None])))) m' log
(* power failures *)
| MDStoreCut b k v d m' : pf = true -> enc (length b) k v = inl d -> eqm m' m \/ eqm m' (upd m k (Some v)) ->
    mdo m log (MStore b k v) (RUnit (Err cut)) m' (log ++ [(k, v)])
| MDStoreCut1 b k v m' : pf = true -> eqm m' m -> mdo m log (MStore b k v) (RUnit (Err cut)) m' log
| MDFetchCut b k m' : pf = true -> eqm m' m -> mdo m log (MFetch b k) (RVal (Err cut)) m' log
| MDRemoveCut b k m' : pf = true -> eqm m' m \/ eqm m' (upd m k None) -> mdo m log (MRemove b k) (RUnit (Err cut)) m' log
| MDRemoveAllCut b m' : pf = true -> (forall k, legal k -> m' k = m k \/ m' k = None) -> mdo m log (MRemoveAll b) (RUnit (Err cut)) m' log.

(** A history. *)
Inductive mtrace : vmap -> list (K * list N) -> list (mev K) -> list (mans K) -> vmap -> list (K * list N) -> Prop :=
| MTNil m m' log : eqm m' m -> mtrace m log [] [] m' log
| MTCall m log c p a m1 log1 evs l m2 log2 : mdo m log c a m1 log1 -> mtrace m1 log1 evs l m2 log2 -> mtrace m log (MCall c p :: evs) (a :: l) m2 log2
| MTBoot m log c evs l m2 log2 : mtrace m log evs l m2 log2 -> mtrace m log (MBoot c :: evs) l m2 log2.

(** What one has after a history without power failures: the last value stored and not removed. *)
Fixpoint replay (m : vmap) (evs : list (mev K)) (l : list (mans K)) : vmap :=
  match evs, l with
  | MCall c _ :: evs', a :: l' =>
      replay (match c, a with
              | MStore _ k v, RUnit (Ok _) => upd m k (Some v)
              | MRemove _ k, RUnit (Ok _) => upd m k None
              | MRemoveAll _, RUnit (Ok _) => nothing
              | _, _ => m
              end) evs' l'
  | MBoot _ :: evs', _ => replay m evs' l
  | _, _ => m
  end.

(** The pairs that were stored, also those whose store was cut. *)
Fixpoint stored (evs : list (mev K)) (l : list (mans K)) : list (K * list N) :=
  match evs, l with
  | MCall c _ :: evs', a :: l' =>
      match c, a with
      | MStore _ k v, RUnit (Ok _) | MStore _ k v, RUnit (Err (EStorage SShutoff)) => [(k, v)]
      | _, _ => []
      end ++ stored evs' l'
  | MBoot _ :: evs', _ => stored evs' l
  | _, _ => []
  end.

(** What a client knows about the storage.  [sure]: no store was cut since the last complete store; [fresh]: the cache object
    is new, or a store or fetch was completed since the last cut; [whole]: a store or removal was completed since the last cut. *)
Record mode := mkmode { sure : bool; fresh : bool; whole : bool }.
Definition calm0 : mode := mkmode true true true.
Definition was_cut (a : mans K) : bool :=
  match a with
  | RUnit (Err (EStorage SShutoff)) | RVal (Err (EStorage SShutoff)) | RList (Err (EStorage SShutoff)) => true
  | _ => false
  end.
Definition after_call (t : mode) (c : mcall K) (a : mans K) : mode :=
  if was_cut a then mkmode (match c with MStore _ _ _ => false | _ => sure t end) false false
  else match c with
       | MStore _ _ _ => calm0
       | MFetch _ _ => mkmode (sure t) true (whole t)
       | MRemove _ _ | MRemoveAll _ => mkmode (sure t) true true
       | MIter _ _ => t
       end.
(** The calls covered.  [ae]: erasing a page is atomic.  A store that has to complete an earlier, interrupted store must not be
    cut again unless erasing is atomic; removals need a new or confirmed cache object, iterations that and no half-erased page. *)
Definition covered (ae : bool) (t : mode) (c : mcall K) (p : option nat) : Prop :=
  match c with
  | MStore _ _ _ => ae = true \/ p = None \/ sure t = true
  | MFetch _ _ => True
  | MRemove _ _ | MRemoveAll _ => fresh t = true /\ (p = None \/ sure t = true)
  | MIter _ _ => fresh t = true /\ (ae = true \/ whole t = true)
  end.
Fixpoint calm (ae : bool) (t : mode) (evs : list (mev K)) (l : list (mans K)) : Prop :=
  match evs, l with
  | MCall c p :: evs', a :: l' => covered ae t c p /\ calm ae (after_call t c a) evs' l'
  | MBoot _ :: evs', _ => calm ae (mkmode (sure t) true (whole t)) evs' l
  | _, _ => True
  end.
Fixpoint mode_after (t : mode) (evs : list (mev K)) (l : list (mans K)) : mode :=
  match evs, l with
  | MCall c _ :: evs', a :: l' => mode_after (after_call t c a) evs' l'
  | MBoot _ :: evs', _ => mode_after (mkmode (sure t) true (whole t)) evs' l
  | _, _ => t
  end.
(** A later history of calls that are not cut.  Until a store or fetch is completed (or a restart) no removal, and until a store or
    removal is completed no iteration. *)
Fixpoint easy (t : mode) (evs : list (mev K)) : Prop :=
  match evs with
  | [] => True
  | MCall c p :: evs' => p = None /\ covered false t c None /\
      easy (match c with MStore _ _ _ => calm0 | MFetch _ _ => mkmode (sure t) true (whole t) | MIter _ _ => t | _ => mkmode (sure t) true true end) evs'
  | MBoot _ :: evs' => easy (mkmode (sure t) true (whole t)) evs'
  end.
(** The calls covered when an erase may be cut anywhere, also while it completes an earlier, interrupted store: stores and
    fetches always, removals and iterations after a completed store. *)
Definition covered_q (t : mode) (c : mcall K) : Prop :=
  match c with
  | MStore _ _ _ | MFetch _ _ => True
  | MRemove _ _ | MRemoveAll _ => fresh t = true /\ sure t = true
  | MIter _ _ => fresh t = true /\ whole t = true /\ sure t = true
  end.
Fixpoint calm_q (t : mode) (evs : list (mev K)) (l : list (mans K)) : Prop :=
  match evs, l with
  | MCall c _ :: evs', a :: l' => covered_q t c /\ calm_q (after_call t c a) evs' l'
  | MBoot _ :: evs', _ => calm_q (mkmode (sure t) true (whole t)) evs' l
  | _, _ => True
  end.
End MSpec.
