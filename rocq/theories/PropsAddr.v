(** Claims about address arithmetic in 32 bits.  Statements only; proofs are in Addr32P.v and Addr32Q.v.
    Vocabulary (Addr32.v): [traverse32], [read_new32], [read_item32]: the code of src/item.rs with its sums computed in 32 bits, where an overflow panics ([chk = true], debug builds) or wraps
    around; [traverse], [read_new], [read_item] (Item.v): the same with unbounded sums, as the rest of the model has them; [bytes_in s]: the flash holds bytes, which may be anything. *)
From Coq Require Import List NArith Arith Bool Lia.
From Verif Require Import Base BaseP CrcP Flash Cache State Item FormatSpec Addr32 Addr32P Addr32Q.
Import ListNotations.

(** C55.  If what is scanned ends 65567 bytes or more below the top of the 32-bit address space, no sum overflows while the items of a page are looked for, whatever the flash holds: the scan
    does the same as the one with unbounded sums.  Missing for the full claim: ranges that end closer to the top, see below. *)
Theorem c55_scan_partial {K} g (chk : bool) (s : st K) e f skip cur : geom_ok g -> bytes_in s -> (N.of_nat e + 65566 < 2 ^ 32)%N -> cur <= e ->
  traverse32 (R := steady) g chk f skip cur e s = traverse (R := steady) g f skip cur e s.
Proof. exact (fun G B E C => trav_ok g G chk e E skip f cur s B C). Qed.
Print Assumptions c55_scan_partial.
(** The same for one header, and for the data of an item whose header was read. *)
Theorem c55_header_partial {K} g (chk : bool) (s : st K) e a : geom_ok g -> bytes_in s -> (N.of_nat e + 65566 < 2 ^ 32)%N -> a <= e ->
  read_new32 (R := steady) g chk a (Some e) s = read_new (R := steady) g a (Some e) s.
Proof. exact (fun G B E A => new_ok g G chk e E a s B A). Qed.
Print Assumptions c55_header_partial.
Theorem c55_item_partial {K} g (chk : bool) (s : st K) e a h o : geom_ok g -> (N.of_nat e + 65566 < 2 ^ 32)%N -> a + HL g <= e -> (N.of_nat (h_len h) <= 65535)%N ->
  read_item32 (R := steady) g chk h a o s = read_item (R := steady) g h a o s.
Proof. exact (fun G E A L => item_ok32 g G chk e E h a s A L o). Qed.
Print Assumptions c55_item_partial.
(** And for the iteration over the intact items of a page. *)
Theorem c55_items_partial {K} g (chk : bool) (s : st K) e f cur : geom_ok g -> bytes_in s -> (N.of_nat e + 65566 < 2 ^ 32)%N -> cur <= e ->
  item_next32 (R := steady) g chk f cur e s = item_next (R := steady) g f cur e s.
Proof. exact (fun G B E C => next_ok32 g G chk e E f cur s B C). Qed.
Print Assumptions c55_items_partial.
(** Two pages of 64 bytes at address 0; where an item is expected there are a length of 65535 and its right checksum.  The scan passes over them. *)
Example c55_case : geom_ok (tg 0) /\ bytes_in (ts 0) /\ (N.of_nat (dend (tg 0) 1) + 65566 < 2 ^ 32)%N /\ dstart (tg 0) 1 <= dend (tg 0) 1 /\
  fst (read_new32 (R := steady) (tg 0) true (dstart (tg 0) 1) (Some (dend (tg 0) 1)) (ts 0)) = Err ECorrupted /\
  fst (traverse32 (R := steady) (tg 0) true 9 (fun _ => false) (dstart (tg 0) 1) (dend (tg 0) 1) (ts 0)) = Ok (None, 80, 80).
Proof. split; [apply tg_ok|]. split; [apply t_bytes|]. split; [reflexivity|]. split; [cbn; lia|]. split; vm_compute; reflexivity. Qed.

(** Close to the top the claim is false: with the same damage in a page that ends below 2^32, but not by so much, a debug build panics; a release build takes the header for that of an item that
    ends at the bottom of the address space, and goes on there, outside the range it was given. *)
Theorem c55_top_refuted : exists g (s : st unit) h nx, geom_ok g /\ (N.of_nat (FEND g) < 2 ^ 32)%N /\ bytes_in s /\
  (forall f, fst (traverse32 (R := steady) g true (S f) (fun _ => false) (dstart g 1) (dend g 1) s) = Err EPanic) /\
  (forall f, fst (traverse32 (R := steady) g false (S f) (fun _ => false) (dstart g 1) (dend g 1) s) = Ok (Some h, dstart g 1, nx)) /\ nx < START g.
Proof. exact top_wraps. Qed.
Print Assumptions c55_top_refuted.

(** It takes damage for that: if a page holds items one after another and erased bytes behind them, as documented ([items_at], FormatSpec.v), nothing overflows in it while its items are looked
    for or iterated over, though the range may end as close as eight bytes below the top. *)
Theorem c55_undamaged {K} g (chk : bool) (s : st K) p l f : geom_ok g -> bytes_in s -> p < NP g -> (N.of_nat (FEND g) + 8 <= 2 ^ 32)%N ->
  items_at g (f_mem (s_fl s)) (dstart g p) (dend g p) l ->
  (forall skip, traverse32 (R := steady) g chk f skip (dstart g p) (dend g p) s = traverse (R := steady) g f skip (dstart g p) (dend g p) s) /\
  item_next32 (R := steady) g chk f (dstart g p) (dend g p) s = item_next (R := steady) g f (dstart g p) (dend g p) s.
Proof. exact (top_page g chk s p l f). Qed.
Print Assumptions c55_undamaged.
(** Less than 65 bytes below the top: an item and a removed one. *)
Example c55_top_case : exists g (s : st unit) l, geom_ok g /\ bytes_in s /\ 1 < NP g /\ (N.of_nat (FEND g) + 8 <= 2 ^ 32)%N /\ (2 ^ 32 < N.of_nat (FEND g) + 65)%N /\
  l = [([1; 2; 3]%N, true); ([7]%N, false)] /\ items_at g (f_mem (s_fl s)) (dstart g 1) (dend g 1) l.
Proof. exact top_case. Qed.
