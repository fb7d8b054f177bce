(** Sums of addresses as the code computes them, in 32 bits.  The rest of the model adds natural numbers. *)
From Coq Require Import List NArith Arith Bool.
From Verif Require Import Base Crc Flash Cache State Item.
Import ListNotations.

Section Addr32.
(** [chk]: overflow checks are on (debug builds): an overflow panics; otherwise the sum wraps around. *)
Context {K : Type} (g : geom) {R : reader} (chk : bool).

(** [+] on [u32], e.g. src/item.rs 62, 135, 213, 219, 653.  Only these sums are bounded here; rounding a length up to words (src/lib.rs 415-423) cannot overflow. *)
Definition plus32 (x y : nat) : M K nat :=
  let z := (N.of_nat x + N.of_nat y)%N in
  if (z <? 2 ^ 32)%N then ret (x + y) else if chk then fail EPanic else ret (N.to_nat (z - 2 ^ 32)).

(** [data_address], src/item.rs 212-214. *)
Definition data_addr32 (a : nat) : M K nat := plus32 a (HL g).
(** [next_item_address], src/item.rs 217-220. *)
Definition next_addr32 (a : nat) (h : hdr) : M K nat := da <- data_addr32 a ;; plus32 da (rup g (h_len h)).

(** [ItemHeader::read_new], src/item.rs 54-121. *)
Definition read_new32 (a : nat) (e : option nat) : M K (option hdr) :=
  x <- plus32 a (HL g) ;;
  if beyond e x then ret None
  else
    r <- read_hdr g 1 a ;;
    match r with
    | None => ret None
    | Some b =>
        let h := hdr_of b in
        nx <- next_addr32 a h ;;
        if beyond e nx then fail ECorrupted else ret (Some h)
    end.

(** [ItemHeader::read_item], src/item.rs 123-173. *)
Definition read_item32 (h : hdr) (a : nat) (e : option nat) : M K maybe_item :=
  match h_crc h with
  | None => ret (MErased h)
  | Some c =>
      da <- data_addr32 a ;;
      let rl := rup g (h_len h) in
      x <- plus32 da rl ;;
      if beyond e x then ret (MCorrupted h)
      else
        b <- get_buf ;;
        if length b <? rl then fail (EBufTooSmall rl)
        else read_data g 1 h c da rl
  end.

(** [ItemHeaderIter::traverse], src/item.rs 632-658. *)
Fixpoint traverse32 (fuel : nat) (skip : hdr -> bool) (cur e : nat) : M K (option hdr * nat * nat) :=
  match fuel with
  | O => fail EFuel
  | S f =>
      r <- attempt (read_new32 cur (Some e)) ;;
      match r with
      | Ok (Some h) =>
          nx <- next_addr32 cur h ;;
          if skip h then traverse32 f skip nx e else ret (Some h, cur, nx)
      | Ok None => ret (None, cur, cur)
      | Err ECorrupted => x <- plus32 cur (W g) ;; traverse32 f skip x e
      | Err x => fail x
      end
  end.

(** [ItemIter::next], src/item.rs 583-604, as [item_next] in Item.v. *)
Fixpoint item_next32 (fuel : nat) (cur e : nat) : M K (option (hdr * nat) * nat) :=
  match fuel with
  | O => fail EFuel
  | S f =>
      t <- traverse32 (tfuel cur e) (fun _ => false) cur e ;;
      match t with
      | (Some h, a, nx) =>
          mi <- read_item32 h a (Some e) ;;
          match mi with
          | MPresent h => ret (Some (h, a), nx)
          | _ => item_next32 f nx e
          end
      | (None, _, nx) => ret (None, nx)
      end
  end.
End Addr32.

(** The flash holds bytes: the type [u8] of the buffer in [NorFlash::read], e.g. src/item.rs 59-75. *)
Definition bytes_in {K} (s : st K) : Prop := forall x, is_byte (f_mem (s_fl s) x).
