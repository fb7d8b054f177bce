(** The NOR flash device, after src/mock_flash.rs, and the flash geometry of a storage. *)
From Coq Require Import List NArith Arith Bool.
From Verif Require Import Base.
Import ListNotations.

(** Geometry of a storage: [READ_SIZE], [WRITE_SIZE], [ERASE_SIZE] of the flash and the
    [flash_range], given by its start and its number of pages (src/lib.rs 46-51, 138-142). *)
Record geom := mkgeom { RS : nat; WS : nat; ES : nat; START : nat; NP : nat }.

(** [WORD_SIZE], src/lib.rs 614-624. *)
Definition W (g : geom) : nat := if RS g <? WS g then WS g else RS g.

(** [round_up_to_alignment], src/lib.rs 415-423. *)
Definition rup (g : geom) (n : nat) : nat := ((n + W g - 1) / W g) * W g.

(** [round_down_to_alignment], src/lib.rs 427-436. *)
Definition rdown (g : geom) (n : nat) : nat := (n / W g) * W g.

(** [ItemHeader::data_address(0)], the header length rounded up to words, src/item.rs 45, 212. *)
Definition HL (g : geom) : nat := rup g 8.

(** End of the flash range: [flash_range.end] (src/map.rs 40-65, src/queue/mod.rs 34-58: a whole number of pages). *)
Definition FEND (g : geom) : nat := START g + ES g * NP g.

(** [calculate_page_address], src/lib.rs 439. *)
Definition paddr (g : geom) (p : nat) : nat := START g + ES g * p.

(** [calculate_page_end_address], src/lib.rs 444. *)
Definition pend (g : geom) (p : nat) : nat := START g + ES g * (p + 1).

(** First address after the start marker of a page, e.g. src/queue/mod.rs 195. *)
Definition dstart (g : geom) (p : nat) : nat := paddr g p + W g.

(** Address of the end marker of a page, e.g. src/queue/mod.rs 197. *)
Definition dend (g : geom) (p : nat) : nat := pend g p - W g.

(** [calculate_page_index], src/lib.rs 452. *)
Definition pindex (g : geom) (a : nat) : nat := (a - START g) / ES g.

(** What the flash device and the configuration guarantee: sizes are positive and multiples of
    each other (src/lib.rs 627), pages are whole words (contract of [NorFlash::ERASE_SIZE]),
    the range consists of whole pages, pages are large enough and words small enough
    (src/map.rs 40-65, src/queue/mod.rs 34-58). *)
Definition geom_ok (g : geom) : Prop :=
  0 < RS g /\ 0 < WS g /\
  (WS g mod RS g = 0 \/ RS g mod WS g = 0) /\
  ES g mod W g = 0 /\
  START g mod ES g = 0 /\
  3 * W g + HL g <= ES g /\
  W g <= 32 /\
  1 <= NP g.

(** Errors of the flash device: out of bounds, not aligned, power lost (src/mock_flash.rs 301-311).  [SDropped] is not an error of the code:
    it stands for a call whose future was dropped, see Drops.v. *)
Inductive serr := SOob | SAlign | SShutoff | SDropped.

(** State of the device.  [f_mem] is the contents.  [f_fuel] is [bytes_until_shutoff]
    (src/mock_flash.rs 31).  Ghost state: [f_wc] counts how often a byte was programmed since its
    last erase; [f_er] logs the erase calls, newest first; [f_bad] logs the accesses that the device refused because
    they were out of range, misaligned or empty (start and length, newest first).
    Two switches describe better-than-mock hardware: with [f_ae] an erase cut by a power failure has not
    started; a write of at most [f_aw] bytes cut by a power failure has not started.
    The mock flash is [f_ae = false], [f_aw = 0]. *)
Record flash := mkflash {
  f_mem : nat -> N;
  f_wc : nat -> nat;
  f_er : list (nat * nat);
  f_fuel : option nat;
  f_ae : bool;
  f_aw : nat;
  f_bad : list (nat * nat) }.

(** Log a refused access (ghost; the accesses refused by src/mock_flash.rs 187-300 leave no trace in the Rust code). *)
Definition refuse (f : flash) (a n : nat) : flash :=
  mkflash (f_mem f) (f_wc f) (f_er f) (f_fuel f) (f_ae f) (f_aw f) ((a, n) :: f_bad f).

(** Read [n] bytes from address [a]: the copy in src/mock_flash.rs 187-200. *)
Definition rd (m : nat -> N) (a n : nat) : list N := map m (seq a n).

(** Program bytes: NOR flash can only clear bits (src/mock_flash.rs 292). *)
Definition mem_and (m : nat -> N) (a : nat) (bs : list N) : nat -> N :=
  let n := length bs in
  fun x => if (a <=? x) && (x <? a + n) then N.land (m x) (nth (x - a) bs 255%N) else m x.

(** Erase [n] bytes from [a] (src/mock_flash.rs 237). *)
Definition mem_ff (m : nat -> N) (a n : nat) : nat -> N :=
  fun x => if (a <=? x) && (x <? a + n) then 255%N else m x.

(** Ghost write counters after programming [n] bytes from [a]: the counting in src/mock_flash.rs 269-287 (per byte here, per word there). *)
Definition wc_inc (w : nat -> nat) (a n : nat) : nat -> nat :=
  fun x => if (a <=? x) && (x <? a + n) then S (w x) else w x.
(** The counters after an erase, src/mock_flash.rs 240: the cells start again at zero. *)
Definition wc_zero (w : nat -> nat) (a n : nat) : nat -> nat :=
  fun x => if (a <=? x) && (x <? a + n) then 0 else w x.

(** [check_shutoff] for [n] consecutive bytes (src/mock_flash.rs 101-115): how many are done, the
    remaining budget, and whether power was lost. *)
Definition spend (fuel : option nat) (n : nat) : nat * option nat * bool :=
  match fuel with
  | None => (n, None, false)
  | Some k => if n <=? k then (n, Some (k - n), false) else (k, None, true)
  end.

(** [validate_operation] (src/mock_flash.rs 87-99) with alignment [al], relative to the storage's own range
    (stricter than the mock, which allows the whole device). *)
Definition chk (g : geom) (al a n : nat) : option serr :=
  if negb (a mod al =? 0) || (n =? 0) || negb (n mod al =? 0) then Some SAlign
  else if (a <? START g) || (FEND g <? a + n) then Some SOob
  else None.

(** [NorFlash::read], src/mock_flash.rs 187-200. *)
Definition dev_read (g : geom) (f : flash) (a n : nat) : list N + serr :=
  match chk g (RS g) a n with
  | Some e => inr e
  | None => inl (rd (f_mem f) a n)
  end.

(** [NorFlash::write], src/mock_flash.rs 247-297.  The error component is [None] on success.
    The write-count check (lines 269-288) is not enforced but counted in [f_wc]. *)
Definition dev_write (g : geom) (f : flash) (a : nat) (bs : list N) : option serr * flash :=
  match chk g (WS g) a (length bs) with
  | Some e => (Some e, refuse f a (length bs))
  | None =>
      let '(k, fu, cr) := spend (f_fuel f) (length bs) in
      let k := if cr && (length bs <=? f_aw f) then 0 else k in
      (if cr then Some SShutoff else None,
       mkflash (mem_and (f_mem f) a (firstn k bs)) (wc_inc (f_wc f) a k) (f_er f) fu (f_ae f) (f_aw f) (f_bad f))
  end.

(** [NorFlash::erase], src/mock_flash.rs 219-245. *)
Definition dev_erase (g : geom) (f : flash) (from to : nat) : option serr * flash :=
  match chk g (ES g) from (to - from) with
  | Some e => (Some e, refuse f from (to - from))
  | None =>
      let '(k, fu, cr) := spend (f_fuel f) (to - from) in
      let k := if cr && f_ae f then 0 else k in
      (if cr then Some SShutoff else None,
       mkflash (mem_ff (f_mem f) from k) (wc_zero (f_wc f) from k) ((from, to) :: f_er f) fu (f_ae f) (f_aw f) (f_bad f))
  end.

(** A freshly erased device, [MockFlashBase::new] (src/mock_flash.rs 56-75). *)
Definition flash_new : flash :=
  mkflash (fun _ => 255%N) (fun _ => 0) [] None false 0 [].
