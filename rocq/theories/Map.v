(** The map: src/map.rs.  Generic in the key type and its codec. *)
From Coq Require Import List NArith Arith Bool.
From Verif Require Import Base Crc Flash Cache State Item Generic.
Import ListNotations.

(** The [Key] trait, src/map.rs 1134-1146.  [k_ser k n] serializes into a buffer of [n] bytes. *)
Record keyops (K : Type) := mkkeyops {
  k_eqb : K -> K -> bool;
  k_ser : K -> nat -> list N + sererr;
  k_de : list N -> (K * nat) + sererr;
  k_len : list N -> nat + sererr }.
Arguments mkkeyops {K}. Arguments k_eqb {K}. Arguments k_ser {K}. Arguments k_de {K}. Arguments k_len {K}.

Section Map.
Context {K : Type} (KO : keyops K) (g : geom) {R : reader}.
Notation MM := (M K).

(** A serialization result as a monadic value ([?] with [From<SerializationError>], src/lib.rs 545). *)
Definition ser_lift {A} (r : A + sererr) : MM A :=
  match r with inl a => ret a | inr e => fail (ESer e) end.

(** The scan of one page for the newest item with a key: the [while] loop of src/map.rs 329-335. *)
Fixpoint scan_page (fuel : nat) (k : K) (cur e : nat) (found : option (nat * nat)) : MM (option (nat * nat)) :=
  match fuel with
  | O => fail EFuel
  | S f =>
      t <- item_next g (tfuel cur e) cur e ;;
      match t with
      | (Some (h, a), nx) =>
          b <- get_buf ;;
          kl <- ser_lift (k_de KO b) ;;
          scan_page f k nx e (if k_eqb KO (fst kl) k then Some (a, snd kl) else found)
      | (None, _) => ret found
      end
  end.

(** The page loop of [fetch_item_with_location], src/map.rs 321-356. *)
Fixpoint fetch_pages (fuel : nat) (k : K) (p : nat) : MM (option (nat * nat)) :=
  match fuel with
  | O => fail EFuel
  | S f =>
      r <- scan_page (tfuel (dstart g p) (dend g p)) k (dstart g p) (dend g p) None ;;
      match r with
      | Some (a, kl) => c_notice_key (k_eqb KO) k a false ;;; ret (Some (a, kl))
      | None =>
          let pp := prev_page g p in
          s <- page_state_c g pp ;;
          if negb (pstate_eqb s Closed) then c_unmark ;;; ret None
          else fetch_pages f k pp
      end
  end.

(** The cached part of [fetch_item_with_location], src/map.rs 224-278. *)
Definition fetch_cached (k : K) : MM (option (hdr * nat)) :=
  loc <- c_key_loc (k_eqb KO) k ;;
  match loc with
  | None => ret None
  | Some a =>
      let e := dend g (pindex g a) in
      h <- read_new g a (Some e) ;;
      match h with
      | None => c_inval ;;; ret None
      | Some h =>
          mi <- read_item g h a (Some e) ;;
          match mi with
          | MPresent h => ret (Some (h, a))
          | _ => c_inval ;;; ret None
          end
      end
  end.

(** The search for the last used page, src/map.rs 281-313: [None] means that there are no items. *)
Definition last_used : MM (option nat) :=
  lp <- find_first g 0 PartialOpen ;;
  match lp with
  | Some p => ret (Some p)
  | None =>
      fo <- find_first g 0 Open ;;
      match fo with
      | Some p =>
          let pp := prev_page g p in
          s <- page_state_c g pp ;;
          if pstate_eqb s Closed then ret (Some pp)
          else c_unmark ;;; ret None
      | None => fail ECorrupted
      end
  end.

(** [fetch_item_with_location], src/map.rs 215-390. *)
Definition fetch_loc (k : K) : MM (option (hdr * nat * option nat)) :=
  c_check_dirty ;;;
  c <- fetch_cached k ;;
  match c with
  | Some (h, a) => ret (Some (h, a, None))
  | None =>
      lu <- last_used ;;
      match lu with
      | None => ret None
      | Some p =>
          r <- fetch_pages (S (NP g)) k p ;;
          match r with
          | None => ret None
          | Some (a, kl) =>
              c_unmark ;;;
              h <- read_new g a None ;;
              match h with
              | None => fail ECorrupted
              | Some h =>
                  mi <- read_item g h a None ;;
                  match mi with
                  | MPresent h => ret (Some (h, a, Some kl))
                  | MCorrupted _ => fail ECorrupted
                  | MErased _ => fail ELogicBug
                  end
              end
          end
      end
  end.

(** The loop of [migrate_items], src/map.rs 867-907; [wa] is [next_page_write_address]. *)
Fixpoint migrate_loop (fuel : nat) (cur e wa : nat) : MM unit :=
  match fuel with
  | O => fail EFuel
  | S f =>
      t <- item_next g (tfuel cur e) cur e ;;
      match t with
      | (None, _) => ret tt
      | (Some (_, ia), nx) =>
          b <- get_buf ;;
          kl <- ser_lift (k_de KO b) ;;
          let k := fst kl in
          c_unmark ;;;
          r <- fetch_loc k ;;
          match r with
          | None => fail ECorrupted
          | Some (h, fa, _) =>
              b <- get_buf ;;
              if length b <? h_len h then fail ELogicBug
              else if fa =? ia then
                c_notice_key (k_eqb KO) k wa true ;;;
                write_raw g h (firstn (h_len h) b) wa ;;;
                migrate_loop f nx e (next_addr g wa h)
              else migrate_loop f nx e wa
          end
      end
  end.

(** [migrate_items], src/map.rs 851-912. *)
Definition migrate (src tgt : nat) : MM unit :=
  migrate_loop (tfuel (dstart g src) (dend g src)) (dstart g src) (dend g src) (dstart g tgt) ;;;
  open_page g src.

(** [try_repair] of the map, src/map.rs 924-955. *)
Definition m_repair : MM unit :=
  c_inval ;;;
  general_repair g ;;;
  lp <- find_first g 0 PartialOpen ;;
  match lp with
  | None => ret tt
  | Some p =>
      let bp := next_page g p in
      s <- page_state_c g bp ;;
      if pstate_eqb s Open then ret tt
      else
        open_page g p ;;;
        partial_close g p ;;;
        migrate bp p
  end.

(** [fetch_item], src/map.rs 187-211.  The value is returned as raw bytes, i.e. the slice given to
    [V::deserialize_from] (see Codec.v for the value types). *)
Definition m_fetch (b : list N) (k : K) : MM (option (list N)) :=
  put_buf b ;;;
  r <- auto_repair (fetch_loc k) m_repair ;;
  match r with
  | None => ret None
  | Some (h, _, okl) =>
      b <- get_buf ;;
      let dl := h_len h in
      if length b <? dl then fail EPanic
      else
        kl <- match okl with
              | Some kl => ret kl
              | None => ser_lift (k_len KO (firstn dl b))
              end ;;
        if dl <? kl then fail EPanic
        else ret (Some (firstn (dl - kl) (skipn kl b)))
  end.

(** Serialization of key and value into the buffer, src/map.rs 480-484; the value is given by its
    bytes and its [serialize_into] fails when they do not fit. *)
Definition ser_item (k : K) (v : list N) : MM nat :=
  b <- get_buf ;;
  kb <- ser_lift (k_ser KO k (length b)) ;;
  put_buf (put_front kb b) ;;;
  if length b <? length kb then fail EPanic
  else if length b - length kb <? length v then fail (ESer SEBufferTooSmall)
  else
    put_buf (kb ++ put_front v (skipn (length kb) b)) ;;;
    ret (length kb + length v).

(** The loop of [store_item_inner], src/map.rs 441-575; [r] is the page count minus [recursion_level]. *)
Fixpoint store_loop (r : nat) (k : K) (v : list N) : MM unit :=
  match r with
  | O => c_unmark ;;; fail EFull
  | S r' =>
      lp <- find_first g 0 PartialOpen ;;
      nxt <- match lp with
             | None => ret (Some None)
             | Some p =>
                 s <- page_state_c g (next_page g p) ;;
                 if negb (pstate_eqb s Open) then fail ECorrupted
                 else
                   n <- ser_item k v ;;
                   if too_big g n then c_unmark ;;; fail EItemTooBig
                   else
                     fs <- find_free g (dstart g p) (dend g p) n ;;
                     match fs with
                     | Some a =>
                         c_notice_key (k_eqb KO) k a true ;;;
                         b <- get_buf ;;
                         write_new g a (firstn n b) ;;;
                         c_unmark ;;;
                         ret None
                     | None =>
                         close_page g p ;;;
                         ret (Some (Some (next_page g p)))
                     end
             end ;;
      match nxt with
      | None => ret tt
      | Some (Some np) =>
          s <- page_state_c g np ;;
          if negb (pstate_eqb s Open) then fail ECorrupted
          else
            partial_close g np ;;;
            let bp := next_page g np in
            s2 <- page_state_c g bp ;;
            (if pstate_eqb s2 Open then ret tt else migrate bp np) ;;;
            store_loop r' k v
      | Some None =>
          fo <- find_first g 0 Open ;;
          match fo with
          | None => fail ECorrupted
          | Some p => partial_close g p ;;; store_loop r' k v
          end
      end
  end.

(** [store_item_inner], src/map.rs 430-576. *)
Definition store_inner (k : K) (v : list N) : MM unit :=
  c_check_dirty ;;; store_loop (NP g) k v.

(** [store_item]/[store_item_generic], src/map.rs 397-428; [b] is the caller's buffer. *)
Definition m_store (b : list N) (k : K) (v : list N) : MM unit :=
  put_buf b ;;; auto_repair (store_inner k v) m_repair.

(** The item loop of [remove_item_inner], src/map.rs 682-715. *)
Fixpoint remove_items (fuel : nat) (sk : option K) (cur e : nat) : MM unit :=
  match fuel with
  | O => fail EFuel
  | S f =>
      t <- traverse g (tfuel cur e) (fun _ => false) cur e ;;
      match t with
      | (None, _, _) => ret tt
      | (Some h, a, nx) =>
          mi <- read_item g h a (Some e) ;;
          match mi with
          | MPresent h =>
              m <- match sk with
                   | Some k => b <- get_buf ;; kl <- ser_lift (k_de KO b) ;; ret (k_eqb KO (fst kl) k)
                   | None => ret true
                   end ;;
              (if (m : bool) then erase_data g h a else ret tt) ;;;
              remove_items f sk nx e
          | _ => remove_items f sk nx e
          end
      end
  end.

(** The page loop of [remove_item_inner], src/map.rs 661-716. *)
Fixpoint remove_pages (l : list nat) (sk : option K) : MM unit :=
  match l with
  | [] => ret tt
  | p :: t =>
      s <- page_state_c g p ;;
      (if pstate_eqb s Open then ret tt
       else remove_items (tfuel (dstart g p) (dend g p)) sk (dstart g p) (dend g p)) ;;;
      remove_pages t sk
  end.

(** [remove_item_inner], src/map.rs 625-722. *)
Definition remove_inner (sk : option K) : MM unit :=
  (match sk with
   | Some k => c_key_erased (k_eqb KO) k
   | None => c_inval
   end) ;;;
  lp <- find_first g 0 PartialOpen ;;
  lu <- match lp with
        | Some p => ret p
        | None => l <- find_last g 0 Closed ;; ret (match l with Some p => p | None => 0 end)
        end ;;
  remove_pages (get_pages g (next_page g lu)) sk ;;;
  c_unmark.

(** [remove_item], src/map.rs 590-602. *)
Definition m_remove (b : list N) (k : K) : MM unit :=
  put_buf b ;;; auto_repair (remove_inner (Some k)) m_repair.

(** [remove_all_items], src/map.rs 614-622. *)
Definition m_remove_all (b : list N) : MM unit :=
  put_buf b ;;; auto_repair (remove_inner None) m_repair.

(** The expression inside [run_with_auto_repair!] of [fetch_all_items], src/map.rs 791-833.
    Errors of the page-state calls leave the whole function ([?] inside the macro argument);
    only the explicit [Err(Corrupted)] of line 826 reaches the macro: that is [None] here. *)
Definition first_page_expr : MM (option nat) :=
  lp <- find_first g 0 PartialOpen ;;
  match lp with
  | Some p => ret (Some (next_page g p))
  | None =>
      fo <- find_first g 0 Open ;;
      match fo with
      | Some p =>
          s <- page_state_c g (prev_page g p) ;;
          if pstate_eqb s Closed then ret (Some p)
          else c_unmark ;;; ret (Some 0)
      | None => ret None
      end
  end.

(** [fetch_all_items], src/map.rs 784-849. *)
Definition m_iter (b : list N) : MM unit :=
  put_buf b ;;;
  r <- first_page_expr ;;
  fp <- match r with
        | Some p => ret p
        | None =>
            m_repair ;;;
            r2 <- first_page_expr ;;
            match r2 with Some p => ret p | None => fail ECorrupted end
        end ;;
  put_mi (mkmi fp fp (dstart g fp) (dend g fp)).

(** The [ItemIter::next] of [MapItemIter], keeping the iterator position up to date also when an
    error is returned (src/item.rs 583-604 with src/map.rs 1074). *)
Fixpoint mi_item_next (fuel : nat) : MM (option hdr) :=
  match fuel with
  | O => fail EFuel
  | S f =>
      mi <- get_mi ;;
      t <- traverse g (tfuel (mi_cur mi) (mi_end mi)) (fun _ => false) (mi_cur mi) (mi_end mi) ;;
      match t with
      | (oh, a, nx) =>
          put_mi (mkmi (mi_first mi) (mi_page mi) nx (mi_end mi)) ;;;
          match oh with
          | None => ret None
          | Some h =>
              x <- read_item g h a (Some (mi_end mi)) ;;
              match x with
              | MPresent h => ret (Some h)
              | _ => mi_item_next f
              end
          end
      end
  end.

(** The inner page loop of [MapItemIter::next], src/map.rs 1085-1114: [true] when a page was found. *)
Fixpoint mi_next_page (fuel : nat) : MM bool :=
  match fuel with
  | O => fail EFuel
  | S f =>
      mi <- get_mi ;;
      let p := next_page g (mi_page mi) in
      put_mi (mkmi (mi_first mi) p (mi_cur mi) (mi_end mi)) ;;;
      if p =? mi_first mi then ret false
      else
        r <- attempt (page_state_c g p) ;;
        match r with
        | Ok Closed | Ok PartialOpen =>
            put_mi (mkmi (mi_first mi) p (dstart g p) (dend g p)) ;;; ret true
        | _ => mi_next_page f
        end
  end.

(** The outer loop of [MapItemIter::next], src/map.rs 1073-1115. *)
Fixpoint mi_loop (fuel : nat) : MM (option hdr) :=
  match fuel with
  | O => fail EFuel
  | S f =>
      mi <- get_mi ;;
      r <- mi_item_next (tfuel (mi_cur mi) (mi_end mi)) ;;
      match r with
      | Some h => ret (Some h)
      | None =>
          more <- mi_next_page (S (NP g)) ;;
          if (more : bool) then mi_loop f else ret None
      end
  end.

(** [MapItemIter::next], src/map.rs 1068-1123; the value as raw bytes. *)
Definition m_iter_next (b : list N) : MM (option (K * list N)) :=
  put_buf b ;;;
  r <- mi_loop (S (S (NP g))) ;;
  match r with
  | None => ret None
  | Some h =>
      b <- get_buf ;;
      kl <- ser_lift (k_de KO b) ;;
      if (length b <? h_len h) || (h_len h <? snd kl) then fail EPanic
      else ret (Some (fst kl, skipn (snd kl) (firstn (h_len h) b)))
  end.

End Map.
