(** Reachable map states when any erase may be torn. *)
From Coq Require Import List NArith Arith Bool.
From Verif Require Import Base Flash Cache State Crc Map CodecP Client QSpec QObs MClient MSpec MObs TornSpec.
Import ListNotations.

Section MTornObs.
Context {K : Type} (KO : keyops K) (legal : K -> Prop).

(** The calls are those of [mcall_ok]; what is stored is also quiet. *)
Definition qcall_ok (g : geom) (n : nat) (c : mcall K) : Prop :=
  mcall_ok KO legal true g n c /\
  match c with MStore b k v => forall d, item_bytes KO (length b) k v = inl d -> quiet g d | _ => True end.
Definition qev_ok (g : geom) (n : nat) (e : mev K) : Prop :=
  match e with
  | MCall c _ => qcall_ok g n c
  | MBoot c => fresh_cache (NP g) c
  end.
(** [s] is reached by the history [evs] on erased flash, with answers [l]; the power may fail in any call, and erases may be torn ([f_ae f = false]). *)
Definition torn_reached (g : geom) (n : nat) (evs : list (mev K)) (l : list (mans K)) (s : st K) : Prop :=
  key_codec KO legal /\
  exists f c, erased g f /\ f_fuel f = None /\ fresh_cache (NP g) c /\ geom_ok g /\ 2 <= NP g /\ 8 <= W g /\
    Forall (qev_ok g n) evs /\ calm_q calm0 evs l /\ m_run KO g (st_new f c) evs = (l, s).
End MTornObs.
