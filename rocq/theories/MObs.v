(** Reachable map states and what can be observed of them. *)
From Coq Require Import List NArith Arith Bool.
From Verif Require Import Base Flash Cache State Crc Map CodecP Client QSpec QObs MClient MSpec.
Import ListNotations.

Section MObs.
Context {K : Type} (KO : keyops K) (legal : K -> Prop).

(** The bytes of an item: the key, then the value; both must fit in the buffer of [n] bytes. *)
Definition item_bytes (n : nat) (k : K) (v : list N) : list N + err :=
  match k_ser KO k n with
  | inr e => inr (ESer e)
  | inl kb => if n - length kb <? length v then inr (ESer SEBufferTooSmall) else inl (kb ++ v)
  end.
(** Items too long for a page. *)
Definition mbig (g : geom) (d : list N) : Prop := page_cap g - HL g < length d \/ (65535 < N.of_nat (length d))%N.

(** What histories may contain.  [pf]: with power failures; [n]: all buffers have at least [n] bytes and all items that can
    be stored fit in [n] bytes, padding included.  ([n = ES g] always works for the items.) *)
Definition mcall_ok (pf : bool) (g : geom) (n : nat) (c : mcall K) : Prop :=
  match c with
  | MStore b k v => legal k /\ n <= length b /\
      forall d, item_bytes (length b) k v = inl d -> item_ok pf d /\ (mbig g d \/ rup g (length d) <= n)
  | MFetch b k | MRemove b k => legal k /\ n <= length b
  | MRemoveAll b => n <= length b
  | MIter b bs => n <= length b /\ Forall (fun x => n <= length x) bs
  end.
Definition mev_ok (pf : bool) (g : geom) (n : nat) (e : mev K) : Prop :=
  match e with
  | MCall c p => (pf = false -> p = None) /\ mcall_ok pf g n c
  | MBoot c => fresh_cache (NP g) c
  end.
(** Two pages at least; with power failures a header must be one word or written atomically. *)
Definition msetting (pf : bool) (g : geom) (aw : nat) : Prop :=
  geom_ok g /\ 2 <= NP g /\ (pf = true -> 8 <= W g \/ HL g <= aw).

(** [s] is reached by the history [evs] on erased flash, with answers [l].  The erase log starts empty. *)
Definition m_reached (pf : bool) (g : geom) (n : nat) (evs : list (mev K)) (l : list (mans K)) (s : st K) : Prop :=
  key_codec KO legal /\
  exists f c, erased g f /\ f_fuel f = None /\ f_er f = [] /\ fresh_cache (NP g) c /\ msetting pf g (f_aw f) /\
    Forall (mev_ok pf g n) evs /\ (pf = true -> calm (f_ae f) calm0 evs l) /\ m_run KO g (st_new f c) evs = (l, s).

(** The call [c] on [s] answers [a] and leaves [s']; the power does not fail. *)
Definition m_does (g : geom) (s : st K) (c : mcall K) (a : mans K) (s' : st K) : Prop := m_exec KO g c (power s None) = (a, s').

(** Fetching any key says what [m] says. *)
Definition m_holds (g : geom) (n : nat) (s : st K) (m : K -> option (list N)) : Prop :=
  forall k b, legal k -> n <= length b -> exists s', m_does g s (MFetch b k) (RVal (Ok (m k))) s'.

(** Calls of a history without the restarts. *)
Definition m_calls (evs : list (mev K)) : list (mcall K * option nat) :=
  flat_map (fun e => match e with MCall c p => [(c, p)] | MBoot _ => [] end) evs.
(** Histories that remove nothing. *)
Definition mkeeps (e : mev K) : Prop := match e with MCall (MRemove _ _) _ | MCall (MRemoveAll _) _ => False | _ => True end.
End MObs.
