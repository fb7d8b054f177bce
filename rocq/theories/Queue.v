(** The queue: src/queue/mod.rs.  Keys are [unit]. *)
From Coq Require Import List NArith Arith Bool.
From Verif Require Import Base Crc Flash Cache State Item Generic.
Import ListNotations.

Section Queue.
Context (g : geom) {R : reader}.
Notation MQ := (M unit).

(** [find_youngest_page], src/queue/mod.rs 488-523. *)
Definition find_youngest : MQ nat :=
  lp <- find_first g 0 PartialOpen ;;
  match lp with
  | Some p => ret p
  | None =>
      fc <- find_first g 0 Closed ;;
      fo <- match fc with
            | Some anchor => find_first g anchor Open
            | None => ret (Some 0)
            end ;;
      match fo with
      | Some p => ret p
      | None => fail ECorrupted
      end
  end.

(** [find_oldest_page], src/queue/mod.rs 525-535. *)
Definition find_oldest : MQ nat :=
  y <- find_youngest ;;
  o <- find_first g y Closed ;;
  ret (match o with Some p => p | None => y end).

(** [try_repair] of the queue, src/queue/mod.rs 547-552. *)
Definition q_repair : MQ unit := c_inval ;;; general_repair g.

(** [push_inner], src/queue/mod.rs 174-271. *)
Definition push_inner (data : list N) (ow : bool) : MQ unit :=
  c_check_dirty ;;;
  if too_big g (length data) then c_unmark ;;; fail EItemTooBig
  else
    cur <- find_youngest ;;
    partial_close g cur ;;;
    na <- find_free g (dstart g cur) (dend g cur) (length data) ;;
    a <- match na with
         | Some a => ret a
         | None =>
             let nxt := next_page g cur in
             s <- page_state_c g nxt ;;
             let single := nxt =? cur in
             match s with
             | Open =>
                 close_page g cur ;;;
                 partial_close g nxt ;;;
                 ret (dstart g nxt)
             | _ =>
                 if pstate_eqb s Closed || single then
                   full <- (if ow then ret false
                            else e <- is_page_empty g nxt s ;; ret (negb e)) ;;
                   if (full : bool) then c_unmark ;;; fail EFull
                   else
                     open_page g nxt ;;;
                     (if single then ret tt else close_page g cur) ;;;
                     partial_close g nxt ;;;
                     ret (dstart g nxt)
                 else fail ECorrupted
             end
         end ;;
    write_new g a data ;;;
    c_unmark.

(** [push], src/queue/mod.rs 163-172. *)
Definition q_push (data : list N) (ow : bool) : MQ unit :=
  auto_repair (push_inner data ow) q_repair.

(** [find_start_address], src/queue/mod.rs 554-571. *)
Definition find_start : MQ nat :=
  c_check_dirty ;;;
  o <- find_oldest ;;
  ae <- c_after_erased o ;;
  ret (match ae with Some a => a | None => dstart g o end).

(** [QueueStorage::iter] and [QueueIterator::new], src/queue/mod.rs 279-282, 651-670. *)
Definition q_iter : MQ unit :=
  a <- auto_repair find_start q_repair ;;
  put_qi (mkqi (NAddr a) AllPopped (pindex g a)).

(** [PageState::is_open], src/lib.rs 498-500. *)
Definition is_open (s : pstate) : bool := pstate_eqb s Open.

(** The loop of [next_inner], src/queue/mod.rs 714-813. *)
Fixpoint next_loop (fuel : nat) : MQ (option (hdr * nat)) :=
  match fuel with
  | O => fail EFuel
  | S f =>
      qi <- get_qi ;;
      pa <- match qi_next qi with
            | NPageAfter prev =>
                let nxt := next_page g prev in
                s <- page_state_c g nxt ;;
                if is_open s || (nxt =? qi_oldest qi) then c_unmark ;;; ret None
                else
                  (match qi_prev qi with AllPopped => open_page g prev | _ => ret tt end) ;;;
                  put_qi (mkqi (NAddr (dstart g nxt)) (qi_prev qi) (qi_oldest qi)) ;;;
                  ret (Some (nxt, dstart g nxt))
            | NAddr a => ret (Some (pindex g a, a))
            end ;;
      match pa with
      | None => ret None
      | Some (p, a) =>
          let e := dend g p in
          t <- traverse g (tfuel a e) is_erased_hdr a e ;;
          match t with
          | (Some h, fa, _) =>
              mi <- read_item g h fa (Some e) ;;
              qi <- get_qi ;;
              match mi with
              | MCorrupted h =>
                  let nx := next_addr g fa h in
                  put_qi (mkqi (if e <=? nx then NPageAfter p else NAddr nx) (qi_prev qi) (qi_oldest qi)) ;;;
                  next_loop f
              | MErased _ => fail ELogicBug
              | MPresent h =>
                  let nx := next_addr g fa h in
                  put_qi (mkqi (if e <=? nx then NPageAfter p else NAddr nx)
                               (match qi_prev qi with AllPopped => AllButCurrentPopped | x => x end)
                               (qi_oldest qi)) ;;;
                  c_unmark ;;;
                  ret (Some (h, fa))
              end
          | (None, _, _) =>
              qi <- get_qi ;;
              put_qi (mkqi (NPageAfter p) (qi_prev qi) (qi_oldest qi)) ;;;
              next_loop f
          end
      end
  end.

(** A bound for the loop of src/queue/mod.rs 714-813 that is always large enough: at most one turn per byte of the region, plus one per page. *)
Definition qfuel : nat := S (NP g * S (ES g)).

(** [next_inner], src/queue/mod.rs 706-814. *)
Definition next_inner : MQ (option (hdr * nat)) := c_check_dirty ;;; next_loop qfuel.

(** [QueueIterator::next], src/queue/mod.rs 677-704: the entry's header and address; its bytes are
    the first [h_len] bytes of the buffer ([reborrow], src/item.rs 381-387). *)
Definition q_next : MQ (option (hdr * nat)) :=
  qi <- get_qi ;;
  (match qi_prev qi with
   | AllButCurrentPopped => put_qi (mkqi (qi_next qi) Unpopped (qi_oldest qi))
   | _ => ret tt
   end) ;;;
  r <- auto_repair next_inner q_repair ;;
  match r with
  | None => ret None
  | Some (h, a) =>
      b <- get_buf ;;
      if length b <? h_len h then fail ELogicBug else ret (Some (h, a))
  end.

(** The bytes of an entry ([Deref] of [QueueIteratorEntry], src/queue/mod.rs 824-830). *)
Definition entry_data (h : hdr) : MQ (list N) := b <- get_buf ;; ret (firstn (h_len h) b).

(** [QueueIteratorEntry::pop], src/queue/mod.rs 848-870. *)
Definition q_entry_pop (h : hdr) (a : nat) : MQ unit :=
  qi <- get_qi ;;
  (match qi_prev qi with
   | AllButCurrentPopped => put_qi (mkqi (qi_next qi) AllPopped (qi_oldest qi))
   | _ => ret tt
   end) ;;;
  erase_data g h a ;;;
  c_unmark.

(** [peek], src/queue/mod.rs 294-307; [b] is the caller's buffer. *)
Definition q_peek (b : list N) : MQ (option (list N)) :=
  put_buf b ;;;
  q_iter ;;;
  r <- q_next ;;
  match r with
  | Some (h, _) => d <- entry_data h ;; ret (Some d)
  | None => ret None
  end.

(** [pop], src/queue/mod.rs 319-334; [b] is the caller's buffer. *)
Definition q_pop (b : list N) : MQ (option (list N)) :=
  put_buf b ;;;
  q_iter ;;;
  r <- q_next ;;
  match r with
  | Some (h, a) => q_entry_pop h a ;;; d <- entry_data h ;; ret (Some d)
  | None => ret None
  end.

(** The scan for the free space of a page, src/queue/mod.rs 384-398 and 449-463. *)
Definition free_addr (p : nat) : MQ nat :=
  aw <- c_after_written p ;;
  match aw with
  | Some a => ret a
  | None =>
      ae <- c_after_erased p ;;
      let from := match ae with Some x => x | None => dstart g p end in
      t <- traverse g (tfuel from (dend g p)) (fun _ => true) from (dend g p) ;;
      ret (snd (fst t))
  end.

(** [find_max_fit_inner], src/queue/mod.rs 349-404. *)
Definition max_fit_inner : MQ (option nat) :=
  c_check_dirty ;;;
  cur <- find_youngest ;;
  let nxt := next_page g cur in
  s <- page_state_c g nxt ;;
  whole <- match s with
           | Closed => is_page_empty g nxt Closed
           | Open => ret true
           | PartialOpen => fail ECorrupted
           end ;;
  if (whole : bool) then c_unmark ;;; ret (Some (ES g - 2 * W g))
  else
    a <- free_addr cur ;;
    c_unmark ;;;
    if dend g cur <? a then fail EPanic else ret (avail g (dend g cur - a)).

(** [find_max_fit], src/queue/mod.rs 342-347. *)
Definition q_max_fit : MQ (option nat) := auto_repair max_fit_inner q_repair.

(** The loop of [space_left_inner], src/queue/mod.rs 429-482. *)
Fixpoint space_loop (l : list nat) (total : nat) : MQ nat :=
  match l with
  | [] => ret total
  | p :: t =>
      s <- page_state_c g p ;;
      empty <- is_page_empty g p s ;;
      if pstate_eqb s Closed && negb empty then space_loop t total
      else if (empty : bool) then space_loop t (total + (dend g p - dstart g p))
      else
        a <- free_addr p ;;
        if dend g p <? a then fail EPanic
        else
          e2 <- match avail g (dend g p - a) with
                | None => is_page_empty g p Closed
                | Some _ => ret false
                end ;;
          if (e2 : bool) then space_loop t (total + (dend g p - dstart g p))
          else space_loop t (total + (dend g p - a))
  end.

(** [space_left_inner], src/queue/mod.rs 422-486. *)
Definition space_left_inner : MQ nat :=
  c_check_dirty ;;; n <- space_loop (get_pages g 0) 0 ;; c_unmark ;;; ret n.

(** [space_left], src/queue/mod.rs 415-420. *)
Definition q_space_left : MQ nat := auto_repair space_left_inner q_repair.

End Queue.
