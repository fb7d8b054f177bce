(** What reads leave behind, and what was stored. *)
From Coq Require Import List NArith Arith Bool.
From Verif Require Import Base Flash Cache State Crc Map Client QObs MClient MSpec MObs CapSpec.
Import ListNotations.

(** Not a byte programmed or erased. *)
Definition untouched (f f' : flash) : Prop := (forall x, f_mem f' x = f_mem f x) /\ (forall x, f_wc f' x = f_wc f x) /\ f_er f' = f_er f.
(** Nothing happened but erases of the pages [ps]. *)
Definition only_erased (g : geom) (ps : list nat) (f f' : flash) : Prop :=
  Forall (fun p => p < NP g) ps /\ f_er f' = rev (map (fun p => (paddr g p, pend g p)) ps) ++ f_er f /\
  forall x, (f_mem f' x, f_wc f' x) =
    if existsb (fun p => (paddr g p <=? x) && (x <? pend g p)) ps then (255%N, 0) else (f_mem f x, f_wc f x).
(** The items that were accepted. *)
Definition pushed (evs : list qev) (l : list qans) : list (list N) :=
  flat_map (fun x => match x with ((QPush d _, _), AUnit (Ok _)) => [d] | _ => [] end) (combine (q_calls evs) l).
(** No item that is accepted takes more than [M] bytes. *)
Definition sized (g : geom) (M : nat) (e : qev) : Prop :=
  match e with
  | ECall (QPush d _) _ => item_room g d <= M \/ page_cap g < item_room g d \/ (65535 < N.of_nat (length d))%N
  | _ => True
  end.

Section Maps.
Context {K : Type} (KO : keyops K) (legal : K -> Prop).
(** The items that were stored in a map. *)
Definition accepted (evs : list (mev K)) (l : list (mans K)) : list (list N) :=
  flat_map (fun x => match x with
                     | ((MStore b k v, _), RUnit (Ok _)) => match item_bytes KO (length b) k v with inl d => [d] | inr _ => [] end
                     | _ => []
                     end) (combine (m_calls evs) l).
(** No item that is stored takes more than [M] bytes. *)
Definition msized (g : geom) (M : nat) (e : mev K) : Prop :=
  match e with
  | MCall (MStore b k v) _ => forall d, item_bytes KO (length b) k v = inl d -> item_room g d <= M \/ mbig g d
  | _ => True
  end.
(** At no time do the current values of all keys take more than [R] bytes; only keys of [ks] ever have a value. *)
Definition within (g : geom) (n : nat) (ks : list K) (R : nat) (evs : list (mev K)) (l : list (mans K)) : Prop :=
  forall i, let m := replay (k_eqb KO) (@nothing K) (firstn i evs) l in
    (forall k, legal k -> m k <> None -> In k ks) /\ room KO g n m ks <= R.
End Maps.
