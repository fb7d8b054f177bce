(** The map with values of any type that has a codec: src/map.rs.  (Map.v has values as bytes.) *)
From Coq Require Import List NArith Arith Bool.
From Verif Require Import Base Crc Flash Cache State Item Generic Map Codec Client MClient.
Import ListNotations.

Section TMap.
Context {K : Type} (KO : keyops K) (g : geom) {R : reader}.
Notation MM := (M K).

(** Serialization of key and value into the buffer, src/map.rs 480-484. *)
Definition t_ser {T} (V : valops T) (k : K) (v : T) : MM nat :=
  b <- get_buf ;;
  kb <- ser_lift (k_ser KO k (length b)) ;;
  put_buf (put_front kb b) ;;;
  if length b <? length kb then fail EPanic
  else
    vb <- ser_lift (v_ser V v (length b - length kb)) ;;
    put_buf (kb ++ put_front vb (skipn (length kb) b)) ;;;
    ret (length kb + length vb).

(** The loop of [store_item_inner], src/map.rs 441-575, with a given serialization. *)
Fixpoint store_with (ser : MM nat) (r : nat) (k : K) : MM unit :=
  match r with
  | O => c_unmark ;;; fail EFull
  | S r' =>
      lp <- find_first g 0 PartialOpen ;;
      nxt <- match lp with
             | None => ret (Some None)
             | Some p =>
                 s <- page_state_c g (next_page g p) ;;
                 if negb (pstate_eqb s Open) then fail ECorrupted
                 else
                   n <- ser ;;
                   if too_big g n then c_unmark ;;; fail EItemTooBig
                   else
                     fs <- find_free g (dstart g p) (dend g p) n ;;
                     match fs with
                     | Some a =>
                         c_notice_key (k_eqb KO) k a true ;;;
                         b <- get_buf ;;
                         write_new g a (firstn n b) ;;;
                         c_unmark ;;;
                         ret None
                     | None =>
                         close_page g p ;;;
                         ret (Some (Some (next_page g p)))
                     end
             end ;;
      match nxt with
      | None => ret tt
      | Some (Some np) =>
          s <- page_state_c g np ;;
          if negb (pstate_eqb s Open) then fail ECorrupted
          else
            partial_close g np ;;;
            let bp := next_page g np in
            s2 <- page_state_c g bp ;;
            (if pstate_eqb s2 Open then ret tt else migrate KO g bp np) ;;;
            store_with ser r' k
      | Some None =>
          fo <- find_first g 0 Open ;;
          match fo with
          | None => fail ECorrupted
          | Some p => partial_close g p ;;; store_with ser r' k
          end
      end
  end.

(** [store_item::<V>], src/map.rs 397-428. *)
Definition t_store {T} (V : valops T) (b : list N) (k : K) (v : T) : MM unit :=
  put_buf b ;;; auto_repair (c_check_dirty ;;; store_with (t_ser V k v) (NP g) k) (m_repair KO g).

(** [fetch_item::<V>], src/map.rs 187-211. *)
Definition t_fetch {T} (V : valops T) (b : list N) (k : K) : MM (option T) :=
  r <- m_fetch KO g b k ;;
  match r with
  | None => ret None
  | Some bs => x <- ser_lift (v_de V bs) ;; ret (Some (fst x))
  end.

(** [MapItemIter::next::<V>], src/map.rs 1068-1123. *)
Definition t_iter_next {T} (V : valops T) (b : list N) : MM (option (K * T)) :=
  r <- m_iter_next KO g b ;;
  match r with
  | None => ret None
  | Some (k, bs) => x <- ser_lift (v_de V bs) ;; ret (Some (k, fst x))
  end.

(** As [m_iterate] (MClient.v), with values: an iteration that calls [next::<V>] once for every buffer; not part of the Rust code. *)
Fixpoint t_script {T} (V : valops T) (bs : list (list N)) : MM (list (option (K * T))) :=
  match bs with
  | [] => ret []
  | b :: t =>
      r <- t_iter_next V b ;;
      match r with
      | None => ret [None]
      | Some x => rs <- t_script V t ;; ret (Some x :: rs)
      end
  end.
(** As [t_script], from the call of [fetch_all_items] on (src/map.rs 784-849); not part of the Rust code. *)
Definition t_iterate {T} (V : valops T) (b : list N) (bs : list (list N)) : MM (list (option (K * T))) := m_iter KO g b ;;; t_script V bs.

(** Histories with stores of values of any types; not part of the Rust code (see MClient.v for the rest). *)
Inductive tev :=
| TStore (T : Type) (V : valops T) (b : list N) (k : K) (v : T) (p : option nat)
| TRaw (e : mev K).
Fixpoint t_run (s : st K) (evs : list tev) : list (mans K) * st K :=
  match evs with
  | [] => ([], s)
  | TStore T V b k v p :: t => let '(a, s') := mans1 (@RUnit K) (t_store V b k v (power s p)) in let '(l, s2) := t_run s' t in (a :: l, s2)
  | TRaw (MCall c p) :: t => let '(a, s') := m_exec KO g c (power s p) in let '(l, s2) := t_run s' t in (a :: l, s2)
  | TRaw (MBoot c) :: t => t_run (set_ca s c) t
  end.
End TMap.
Arguments tev K : clear implicits.
