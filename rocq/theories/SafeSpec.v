(** Vocabulary for the claims about arbitrary flash contents.  Nothing here models library code. *)
From Coq Require Import List NArith Arith Bool.
From Verif Require Import Base Crc Flash Cache State Item Generic Queue Map Client MClient.
Import ListNotations.

(** What a call must never end in: a panic, an endless loop ([EFuel]), an access that the flash driver refuses, or [Error::LogicBug]. *)
Definition crash (e : err) : Prop := e = EPanic \/ e = EFuel \/ e = ELogicBug \/ e = EStorage SOob \/ e = EStorage SAlign.
Definition err_of {A} (r : res A) : list err := match r with Ok _ => [] | Err e => [e] end.
(** The errors in the answers. *)
Definition q_errs (a : qans) : list err :=
  match a with
  | AUnit r => err_of r | AItem r => err_of r | AMax r => err_of r | ANum r => err_of r
  | AIter r => err_of r ++ match r with Ok l => flat_map err_of l | Err _ => [] end
  end.
Definition m_errs {K} (a : mans K) : list err := match a with RUnit r => err_of r | RVal r => err_of r | RList r => err_of r end.

(** [in_order g al a n]: an access of [n] bytes at [a], with alignment [al], that lies in the flash range. *)
Definition in_order (g : geom) (al a n : nat) : Prop := a mod al = 0 /\ n mod al = 0 /\ 0 < n /\ START g <= a /\ a + n <= FEND g.
(** No access was refused between the two flash states, and nothing outside the range changed. *)
Definition well_used (g : geom) (f f' : flash) : Prop := f_bad f' = f_bad f /\ forall x, x < START g \/ FEND g <= x -> f_mem f' x = f_mem f x.

(** Any use of the iterators, also after errors: each step has its own buffer and supply of power. *)
Fixpoint q_walk (g : geom) (s : st unit) (l : list (list N * bool * option nat)) : list (res (option (list N))) * st unit :=
  match l with
  | [] => ([], s)
  | (b, pop, p) :: t => let '(r, s1) := (put_buf b ;;; q_step g pop) (power s p) in let '(rs, s2) := q_walk g s1 t in (r :: rs, s2)
  end.
Fixpoint m_walk {K} (KO : keyops K) (g : geom) (s : st K) (l : list (list N * option nat)) : list (res (option (K * list N))) * st K :=
  match l with
  | [] => ([], s)
  | (b, p) :: t => let '(r, s1) := m_iter_next KO g b (power s p) in let '(rs, s2) := m_walk KO g s1 t in (r :: rs, s2)
  end.

(** An intact item at [a] on page [p], as written on flash: a header whose length field passes its check and that fits in
    the page, and data that pass the check of the header. *)
Definition stored (g : geom) (m : nat -> N) (p a : nat) (d : list N) : Prop :=
  exists hb, p < NP g /\ a mod W g = 0 /\ dstart g p <= a /\ a + HL g + rup g (length d) <= dend g p /\
    rd m a (HL g) = hb /\ lcrc_ok hb = true /\ h_len (hdr_of hb) = length d /\ h_crc (hdr_of hb) = Some (acrc d) /\ rd m (a + HL g) (length d) = d.
(** An intact item that is shorter than the key at its start: [k_de] reads the key from a buffer that may go on after the
    item, and [k_len] may answer without looking. *)
Definition short_item {K} (KO : keyops K) (g : geom) (m : nat -> N) : Prop :=
  exists p a d n, stored g m p a d /\ length d < n /\ (k_len KO d = inl n \/ exists rest k, k_de KO (d ++ rest) = inl (k, n)).
