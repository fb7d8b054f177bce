(** Items on a page: src/item.rs. *)
From Coq Require Import List NArith Arith Bool.
From Verif Require Import Base Crc Flash Cache State.
Import ListNotations.

Section Item.
Context {K : Type} (g : geom) {R : reader}.

(** [ItemHeader], src/item.rs 38-42. *)
Record hdr := mkhdr { h_len : nat; h_crc : option N }.

(** [next_item_address], src/item.rs 217-220. *)
Definition next_addr (a : nat) (h : hdr) : nat := a + HL g + rup g (h_len h).

(** [available_data_bytes], src/item.rs 224-229. *)
Definition avail (total : nat) : option nat :=
  if HL g <=? rdown g total then Some (rdown g total - HL g) else None.

(** The length field and its checksum in a header buffer, src/item.rs 48-49. *)
Definition len_field (b : list N) : list N := firstn 2 (skipn 4 b).
(** The length checksum field, src/item.rs 49. *)
Definition lcrc_field (b : list N) : list N := firstn 2 (skipn 6 b).

(** The length checksum comparison, src/item.rs 82-85. *)
Definition lcrc_ok (b : list N) : bool :=
  (crc16 (len_field b) =? le_val (lcrc_field b))%N.

(** Decoding of the header fields, src/item.rs 100-108. *)
Definition hdr_of (b : list N) : hdr :=
  mkhdr (N.to_nat (le_val (len_field b)))
        (let c := le_val (firstn 4 b) in if (c =? 0)%N then None else Some c).

(** The retry loop of [read_new], src/item.rs 66-98: [None] is "no header here". *)
Fixpoint read_hdr (retries a : nat) : M K (option (list N)) :=
  b <- fl_read g a (HL g) ;;
  if all_ff b then ret None
  else if lcrc_ok b then ret (Some b)
  else match retries with
       | O => fail ECorrupted
       | S r => read_hdr r a
       end.

(** Comparison with an end address; [None] stands for [u32::MAX] (src/map.rs 365, 378). *)
Definition beyond (e : option nat) (a : nat) : bool :=
  match e with Some e => e <? a | None => false end.

(** [ItemHeader::read_new], src/item.rs 54-121. *)
Definition read_new (a : nat) (e : option nat) : M K (option hdr) :=
  if beyond e (a + HL g) then ret None
  else
    r <- read_hdr 1 a ;;
    match r with
    | None => ret None
    | Some b =>
        let h := hdr_of b in
        if beyond e (next_addr a h) then fail ECorrupted else ret (Some h)
    end.

(** [MaybeItem], src/item.rs 390-394.  The data of a present item is the (whole) data buffer. *)
Inductive maybe_item := MCorrupted (h : hdr) | MErased (h : hdr) | MPresent (h : hdr).

(** The retry loop of [read_item], src/item.rs 142-170. *)
Fixpoint read_data (retries : nat) (h : hdr) (c : N) (da rl : nat) : M K maybe_item :=
  (if rl =? 0 then ret tt
   else d <- fl_read g da rl ;; b <- get_buf ;; put_buf (put_front d b)) ;;;
  b <- get_buf ;;
  if (acrc (firstn (h_len h) b) =? c)%N then ret (MPresent h)
  else match retries with
       | O => ret (MCorrupted h)
       | S r => read_data r h c da rl
       end.

(** [ItemHeader::read_item], src/item.rs 123-173. *)
Definition read_item (h : hdr) (a : nat) (e : option nat) : M K maybe_item :=
  match h_crc h with
  | None => ret (MErased h)
  | Some c =>
      let da := a + HL g in
      let rl := rup g (h_len h) in
      if beyond e (da + rl) then ret (MCorrupted h)
      else
        b <- get_buf ;;
        if length b <? rl then fail (EBufTooSmall rl)
        else read_data 1 h c da rl
  end.

(** The header bytes as written, padded with 0xFF, src/item.rs 175-188. *)
Definition hdr_bytes (h : hdr) : list N :=
  let lb := le_bytes 2 (N.of_nat (h_len h)) in
  let b := le_bytes 4 (match h_crc h with Some c => c | None => 0%N end) ++ lb ++ le_bytes 2 (crc16 lb) in
  b ++ repeat 255%N (HL g - length b).

(** [ItemHeader::write], src/item.rs 175-195. *)
Definition hdr_write (h : hdr) (a : nat) : M K unit := fl_write g a (hdr_bytes h).

(** [ItemHeader::erase_data], src/item.rs 198-209. *)
Definition erase_data (h : hdr) (a : nat) : M K unit :=
  let h' := mkhdr (h_len h) None in
  c_item_erased g a (next_addr a h') ;;; hdr_write h' a.

(** [Item::write_raw], src/item.rs 284-345. *)
Definition write_raw (h : hdr) (data : list N) (a : nat) : M K unit :=
  c_item_written g a (next_addr a h) ;;;
  hdr_write h a ;;;
  let nb := rdown g (length data) in
  if length data <? nb then fail ELogicBug
  else
    let block := firstn nb data in
    let left := skipn nb data in
    let da := a + HL g in
    (if length block =? 0 then ret tt else fl_write g da block) ;;;
    (if length left =? 0 then ret tt
     else
       let ext := rup g (length left) in
       if 32 <? ext then fail ELogicBug
       else fl_write g (da + length block) (left ++ repeat 0%N (ext - length left))).

(** [usize as u16], src/item.rs 275. *)
Definition as_u16 (n : nat) : nat := N.to_nat (N.of_nat n mod 65536)%N.

(** [Item::write_new], src/item.rs 267-282. *)
Definition write_new (a : nat) (data : list N) : M K unit :=
  write_raw (mkhdr (as_u16 (length data)) (Some (acrc data))) data a.

(** [ItemHeaderIter::traverse], src/item.rs 632-658.  Returns the header found, its address, and the
    iterator's new current address.  [skip] is the callback. *)
Fixpoint traverse (fuel : nat) (skip : hdr -> bool) (cur e : nat) : M K (option hdr * nat * nat) :=
  match fuel with
  | O => fail EFuel
  | S f =>
      r <- attempt (read_new cur (Some e)) ;;
      match r with
      | Ok (Some h) =>
          if skip h then traverse f skip (next_addr cur h) e
          else ret (Some h, cur, next_addr cur h)
      | Ok None => ret (None, cur, cur)
      | Err ECorrupted => traverse f skip (cur + W g) e
      | Err x => fail x
      end
  end.

(** A bound for the loops of src/item.rs 583-604 and 632-658 that is always large enough: every turn advances by at least one byte. *)
Definition tfuel (cur e : nat) : nat := S (S (e - cur)).

(** [crc.is_none()], src/item.rs 561. *)
Definition is_erased_hdr (h : hdr) : bool := match h_crc h with None => true | Some _ => false end.

(** [ItemIter::next], src/item.rs 583-604: the next present item (data left in the buffer), its address
    and the new current address of the iterator.  On an error the iterator is not used again by the
    callers in the crate except by [MapItemIter], see [map_iter_next]. *)
Fixpoint item_next (fuel : nat) (cur e : nat) : M K (option (hdr * nat) * nat) :=
  match fuel with
  | O => fail EFuel
  | S f =>
      t <- traverse (tfuel cur e) (fun _ => false) cur e ;;
      match t with
      | (Some h, a, nx) =>
          mi <- read_item h a (Some e) ;;
          match mi with
          | MPresent h => ret (Some (h, a), nx)
          | _ => item_next f nx e
          end
      | (None, _, nx) => ret (None, nx)
      end
  end.

(** [find_next_free_item_spot], src/item.rs 494-529. *)
Definition find_free (start e dl : nat) : M K (option nat) :=
  let p := pindex g start in
  aw <- c_after_written p ;;
  free <- match aw with
          | Some a => ret a
          | None =>
              ae <- c_after_erased p ;;
              let from := Nat.max (match ae with Some x => x | None => 0 end) start in
              t <- traverse (tfuel from e) (fun _ => true) from e ;;
              ret (snd (fst t))
          end ;;
  if e <? free then fail EPanic
  else match avail (e - free) with
       | Some av => ret (if dl <=? av then Some free else None)
       | None => ret None
       end.

End Item.
