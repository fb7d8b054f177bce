(** Map histories with typed values and what can be observed of them. *)
From Coq Require Import List NArith Arith Bool.
From Verif Require Import Base Flash Cache State Crc Map Codec CodecP Client QSpec QObs MClient MSpec MObs TMap.
Import ListNotations.

Section TObs.
Context {K : Type} (KO : keyops K) (legal : K -> Prop).

(** The call without its value. *)
Definition shape (e : tev K) : mev K := match e with TStore _ _ b k _ p => MCall (MStore b k []) p | TRaw e => e end.
(** What histories may contain: values of types with a correct codec (C22); the rest as in MObs.v. *)
Definition tstore_ok (pf : bool) (g : geom) (n : nat) {T} (V : valops T) (b : list N) (k : K) (v : T) : Prop :=
  legal k /\ n <= length b /\ (exists lv, val_codec V lv /\ lv v) /\
  forall kb vb, k_ser KO k (length b) = inl kb -> v_ser V v (length b - length kb) = inl vb ->
    item_ok pf (kb ++ vb) /\ (mbig g (kb ++ vb) \/ rup g (length (kb ++ vb)) <= n).
Definition tev_ok (pf : bool) (g : geom) (n : nat) (e : tev K) : Prop :=
  match e with
  | TStore _ V b k v p => (pf = false -> p = None) /\ tstore_ok pf g n V b k v
  | TRaw e => mev_ok KO legal pf g n e
  end.
(** As [m_reached] (MObs.v). *)
Definition t_reached (pf : bool) (g : geom) (n : nat) (evs : list (tev K)) (l : list (mans K)) (s : st K) : Prop :=
  key_codec KO legal /\
  exists f c, erased g f /\ f_fuel f = None /\ f_er f = [] /\ fresh_cache (NP g) c /\ msetting pf g (f_aw f) /\
    Forall (tev_ok pf g n) evs /\ (pf = true -> calm (f_ae f) calm0 (map shape evs) l) /\ t_run KO g (st_new f c) evs = (l, s).

(** The last value of a key in a list of pairs. *)
Fixpoint tlast {T} (k : K) (l : list (K * T)) : option T :=
  match l with
  | [] => None
  | (k', v) :: t => match tlast k t with Some x => Some x | None => if k_eqb KO k' k then Some v else None end
  end.
(** Histories in which all stores are of values with the one codec [V]. *)
Inductive one_codec {T} (V : valops T) : tev K -> Prop :=
| OneStore b k v p : one_codec V (TStore T V b k v p)
| OneRaw e : (forall b k v p, e <> MCall (MStore b k v) p) -> one_codec V (TRaw e).
End TObs.
