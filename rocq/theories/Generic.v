(** Page handling of [GenericStorage], src/lib.rs. *)
From Coq Require Import List NArith Arith Bool.
From Verif Require Import Base Crc Flash Cache State Item.
Import ListNotations.

Section Generic.
Context {K : Type} (g : geom) {R : reader}.

(** [get_pages], src/lib.rs 145-151. *)
Definition get_pages (start : nat) : list nat := map (fun i => (i + start) mod NP g) (seq 0 (NP g)).

(** [next_page], src/lib.rs 154-157. *)
Definition next_page (p : nat) : nat := (p + 1) mod NP g.

(** [previous_page], src/lib.rs 160-167. *)
Definition prev_page (p : nat) : nat := match p with O => NP g - 1 | S q => q end.

(** The marker test of [get_page_state], src/lib.rs 201, 212-216. *)
Definition marked (b : list N) : bool := 4 <=? list_sum (map count_zeros b).

(** [get_page_state], src/lib.rs 196-249. *)
Definition page_state (p : nat) : M K pstate :=
  b1 <- fl_read g (paddr g p) (RS g) ;;
  b2 <- fl_read g (paddr g p + (ES g - RS g)) (RS g) ;;
  match marked b1, marked b2 with
  | true, true => ret Closed
  | true, false => ret PartialOpen
  | false, true => fail ECorrupted
  | false, false => ret Open
  end.

(** [get_page_state_cached], src/lib.rs 170-193 (without the [_check-cache] test feature). *)
Definition page_state_c (p : nat) : M K pstate :=
  o <- c_get_ps p ;;
  match o with
  | Some s => ret s
  | None => s <- page_state p ;; c_notice_ps p s false ;;; ret s
  end.

(** [open_page], src/lib.rs 252-270. *)
Definition open_page (p : nat) : M K unit :=
  c_notice_ps p Open true ;;; fl_erase g (paddr g p) (pend g p).

(** [partial_close_page], src/lib.rs 301-331. *)
Definition partial_close (p : nat) : M K pstate :=
  s <- page_state_c p ;;
  if negb (pstate_eqb s Open) then ret s
  else
    c_notice_ps p PartialOpen true ;;;
    fl_write g (paddr g p) (repeat 0%N (W g)) ;;;
    ret PartialOpen.

(** [close_page], src/lib.rs 273-298. *)
Definition close_page (p : nat) : M K unit :=
  s <- partial_close p ;;
  if negb (pstate_eqb s PartialOpen) then ret tt
  else
    c_notice_ps p Closed true ;;;
    fl_write g (pend g p - W g) (repeat 0%N (W g)).

(** The loop of [find_first_page], src/lib.rs 98-110. *)
Fixpoint find_first_in (l : list nat) (s : pstate) : M K (option nat) :=
  match l with
  | [] => ret None
  | p :: t => x <- page_state_c p ;; if pstate_eqb s x then ret (Some p) else find_first_in t s
  end.
(** [find_first_page], src/lib.rs 98-110. *)
Definition find_first (start : nat) (s : pstate) : M K (option nat) := find_first_in (get_pages start) s.

(** The loop of [find_last_page], src/lib.rs 119-136. *)
Fixpoint find_last_in (l : list nat) (s : pstate) (last : option nat) : M K (option nat) :=
  match l with
  | [] => ret last
  | p :: t =>
      x <- page_state_c p ;;
      if pstate_eqb s x then find_last_in t s (Some p)
      else match last with
           | Some _ => ret last
           | None => find_last_in t s None
           end
  end.
(** [find_last_page], src/lib.rs 119-136. *)
Definition find_last (start : nat) (s : pstate) : M K (option nat) := find_last_in (get_pages start) s None.

(** The loop of [try_general_repair], src/lib.rs 77-93. *)
Fixpoint general_repair_in (l : list nat) : M K unit :=
  match l with
  | [] => ret tt
  | p :: t =>
      r <- attempt (page_state p) ;;
      (match r with Err ECorrupted => open_page p | _ => ret tt end) ;;;
      general_repair_in t
  end.
(** [try_general_repair], src/lib.rs 77-93. *)
Definition general_repair : M K unit := general_repair_in (get_pages 0).

(** [erase_all], src/lib.rs 57-66. *)
Definition erase_all : M K unit := fl_erase g (START g) (FEND g).

(** [is_page_empty] with a given page state, src/item.rs 536-569 (always called with a state). *)
Definition is_page_empty (p : nat) (s : pstate) : M K bool :=
  match s with
  | Closed =>
      ae <- c_after_erased p ;;
      let from := match ae with Some x => x | None => dstart g p end in
      t <- traverse g (tfuel from (dend g p)) is_erased_hdr from (dend g p) ;;
      ret (match fst (fst t) with None => true | Some _ => false end)
  | PartialOpen => ret false
  | Open => ret true
  end.

(** [calculate_page_size] minus the header, saturating: src/lib.rs 456, src/queue/mod.rs 186. *)
Definition max_item : nat := (ES g - W g * 2) - HL g.

(** The size check of [push_inner]/[store_item_inner], src/queue/mod.rs 184-188, src/map.rs 486-490. *)
Definition too_big (n : nat) : bool := (65535 <? N.of_nat n)%N || (max_item <? n).

End Generic.
