(** Reachable queue states and what can be observed of them. *)
From Coq Require Import List NArith Arith Bool.
From Verif Require Import Base Flash Cache State Crc Queue Client QSpec.
Import ListNotations.

(** Space for items in a page: all but the two marker words. *)
Definition page_cap (g : geom) : nat := ES g - 2 * W g.

(** The first [j] bytes of [d] made it to flash, the others are still erased. *)
Definition torn_data (j : nat) (d : list N) : list N := firstn j d ++ repeat 255%N (length d - j).
(** No such prefix has the checksum of the whole by chance. *)
Definition no_collision (d : list N) : Prop := forall j, acrc (torn_data j d) = acrc d -> torn_data j d = d.

(** What histories may contain.  [pf]: with power failures. *)
Definition item_ok (pf : bool) (d : list N) : Prop := Forall is_byte d /\ (pf = true -> no_collision d).
Definition qev_ok (pf : bool) (g : geom) (e : qev) : Prop :=
  match e with
  | ECall c p => (pf = false -> p = None) /\ match c with QPush d _ => item_ok pf d | _ => True end
  | EBoot c => fresh_cache (NP g) c
  end.
(** Power failures are survived if a header is one word (or written atomically) and if there are two pages (or
    erasing is atomic). *)
Definition setting (pf : bool) (g : geom) (ae : bool) (aw : nat) : Prop :=
  geom_ok g /\ (pf = true -> (8 <= W g \/ HL g <= aw) /\ (ae = true \/ 2 <= NP g)).

(** [s] is reached by the history [evs] on erased flash, with answers [l].  The erase log starts empty. *)
Definition q_reached (pf : bool) (g : geom) (evs : list qev) (l : list qans) (s : st unit) : Prop :=
  exists f c, erased g f /\ f_fuel f = None /\ f_er f = [] /\ fresh_cache (NP g) c /\ setting pf g (f_ae f) (f_aw f) /\
    Forall (qev_ok pf g) evs /\ q_run g (st_new f c) evs = (l, s).

(** The call [c] on [s] answers [a] and leaves [s']; the power does not fail. *)
Definition q_does (g : geom) (s : st unit) (c : qcall) (a : qans) (s' : st unit) : Prop := q_exec g c (power s None) = (a, s').

(** Iterating over the whole queue without removing anything yields [q]. *)
Definition q_holds (g : geom) (s : st unit) (q : list item) : Prop :=
  forall b, length b = ES g -> exists s',
    q_does g s (QIter (repeat (b, false) (S (length q)))) (AIter (Ok (map (fun d => Ok (Some d)) q ++ [Ok None]))) s'.

(** Calls of a history without the restarts. *)
Definition q_calls (evs : list qev) : list (qcall * option nat) :=
  flat_map (fun e => match e with ECall c p => [(c, p)] | EBoot _ => [] end) evs.

(** How often page [p] was erased. *)
Definition erase_count (g : geom) (f : flash) (p : nat) : nat :=
  length (filter (fun r => (fst r =? paddr g p) && (snd r =? pend g p)) (f_er f)).

(** A header that marks its item as removed: the checksum field is zero. *)
Definition removed_header (f : flash) (a : nat) : Prop := forall i, i < 4 -> f_mem f (a + i) = 0%N.
(** Histories that remove nothing. *)
Definition keeps (e : qev) : Prop :=
  match e with
  | ECall (QPop _) _ => False
  | ECall (QIter sc) _ => Forall (fun x => snd x = false) sc
  | _ => True
  end.
