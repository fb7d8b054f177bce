(** The in-flash representation, written down as a reader that knows nothing of the library: the checksums
    fed bit by bit, little-endian fields, and the rules for markers and items.
    After the comments of /repo/src/item.rs 1-23, /repo/src/lib.rs 31-45 and README.md ("Inner workings"). *)
From Coq Require Import List NArith Arith Bool.
From Verif Require Import Base Flash Map QObs MObs.
Import ListNotations.

(** ** Checksums, least significant bit first *)
Definition feed (poly : N) (r : N) (b : bool) : N :=
  N.lxor (N.div2 r) (if xorb (N.odd r) b then poly else 0%N).
Definition bits_of (x : N) : list bool := map (fun i => N.testbit x (N.of_nat i)) (seq 0 8).
Definition crc_of (poly init : N) (l : list N) : N := fold_left (feed poly) (flat_map bits_of l) init.

(** 16 bits, over the length.  The erased value does not occur. *)
Definition check16 (l : list N) : N :=
  let c := N.lxor (crc_of 0x1a2e 0xffff l) 0xffff in if (c =? 0xffff)%N then 0xfffe%N else c.
(** 32 bits (Castagnoli polynomial), over the data.  Zero does not occur, and the lowest byte is neither 0 nor 255. *)
Definition check32 (l : list N) : N :=
  let c := N.lxor (crc_of 0x82f63b78 0xeeeeeeee l) 0xffffffff in
  if (c =? 0)%N then 1%N
  else if ((N.land c 255 =? 0) || (N.land c 255 =? 255))%N then N.lxor c 1 else c.

Section Reader.
Variable g : geom.
Variable m : nat -> N.

(** A word is the larger of the read and the write size. *)
Definition word : nat := Nat.max (RS g) (WS g).
Definition words (n : nat) : nat := (n / word + (if n mod word =? 0 then 0 else 1)) * word.

Fixpoint bytes (a n : nat) : list N := match n with 0 => [] | S n => m a :: bytes (S a) n end.
Fixpoint num (a n : nat) : N := match n with 0 => 0%N | S n => (m a + 256 * num (S a) n)%N end.

(** A marker of [RS] bytes is set when at least four of its bits are zero. *)
Definition zero_bits (x : N) : nat := length (filter negb (bits_of x)).
Definition mark (a : nat) : bool := 4 <=? length (filter negb (flat_map bits_of (bytes a (RS g)))).

(** Items between [a] and [e].  Header: data checksum (4 bytes, zero once removed), length (2), checksum of the
    length (2), rounded up to words; then the data, rounded up to words.  An erased header ends the list; a header
    whose length cannot be trusted or that leads out of the page is skipped word by word; an item whose data does
    not match its checksum does not count. *)
Fixpoint items (fuel a e : nat) : list (list N) :=
  match fuel with
  | 0 => []
  | S k =>
    let hl := words 8 in
    if e <? a + hl then []
    else if forallb (N.eqb 255) (bytes a hl) then []
    else
      let len := N.to_nat (num (a + 4) 2) in
      let next := a + hl + words len in
      if (num (a + 6) 2 =? check16 (bytes (a + 4) 2))%N && (next <=? e) then
        let d := bytes (a + hl) len in
        if (num a 4 =? check32 d)%N then d :: items k next e else items k next e
      else items k (a + word) e
  end.

(** Page [p] begins with a marker word and ends with one; a page without start marker holds nothing. *)
Definition first_byte (p : nat) : nat := START g + p * ES g.
Definition begun (p : nat) : bool := mark (first_byte p).
Definition ended (p : nat) : bool := mark (first_byte p + ES g - RS g).
Definition page_items (p : nat) : list (list N) :=
  if begun p then items (ES g) (first_byte p + word) (first_byte p + ES g - word) else [].

(** All pages, from page [p] around the ring. *)
Definition ring (p : nat) : list nat := map (fun i => (p + i) mod NP g) (seq 0 (NP g)).
(** From the oldest page: full pages, at most one in use, erased pages, at most one half-erased. *)
Definition oldest (p : nat) : Prop :=
  p < NP g /\ exists full cur erased half, cur <= 1 /\ half <= 1 /\
    map (fun i => (begun i, ended i)) (ring p) =
      repeat (true, true) full ++ repeat (true, false) cur ++ repeat (false, false) erased ++ repeat (false, true) half /\
    forall i, i < NP g -> begun i = false -> ended i = false -> forall x, first_byte i <= x < first_byte i + ES g -> m x = 255%N.
(** What is stored, oldest item first. *)
Definition stored (p : nat) : list (list N) := flat_map page_items (ring p).
End Reader.

(** ** The same as a relation, for flash that was written by someone else *)
Section Image.
Variable g : geom.
Variable m : nat -> N.
(** An item with the data [d], removed or not, at [a]. *)
Definition item_at (a : nat) (d : list N) (kept : bool) : Prop :=
  num m a 4 = (if kept then check32 d else 0%N) /\
  num m (a + 4) 2 = N.of_nat (length d) /\ num m (a + 6) 2 = check16 (bytes m (a + 4) 2) /\
  bytes m (a + words g 8) (length d) = d.
(** Items one after the other, erased bytes behind them. *)
Fixpoint items_at (a e : nat) (l : list (list N * bool)) : Prop :=
  match l with
  | [] => forall x, a <= x < e -> m x = 255%N
  | (d, kept) :: t => item_at a d kept /\ a + words g 8 + words g (length d) <= e /\ items_at (a + words g 8 + words g (length d)) e t
  end.
Inductive content_of := Full (l : list (list N * bool)) | Current (l : list (list N * bool)) | Erased.
Definition page_at (p : nat) (c : content_of) : Prop :=
  let lo := first_byte g p in let hi := first_byte g p + ES g in
  match c with
  | Full l => begun g m p = true /\ items_at (lo + word g) (hi - word g) l /\ forall x, hi - word g <= x < hi -> m x = 0%N
  | Current l => begun g m p = true /\ items_at (lo + word g) (hi - word g) l /\ forall x, hi - word g <= x < hi -> m x = 255%N
  | Erased => forall x, lo <= x < hi -> m x = 255%N
  end.
(** From page [p] around the ring: full pages, at most one current page, [k] erased pages. *)
Definition image (p : nat) (full : list (list (list N * bool))) (cur : option (list (list N * bool))) (k : nat) : Prop :=
  p < NP g /\ Forall2 page_at (ring g p)
    (map Full full ++ (match cur with Some l => [Current l] | None => [] end) ++ repeat Erased k).
(** What it holds, oldest first. *)
Definition kept_in (full : list (list (list N * bool))) (cur : option (list (list N * bool))) : list (list N) :=
  map fst (filter snd (concat full ++ match cur with Some l => l | None => [] end)).
End Image.

(** A map item is the encoded key followed by the value; [KO] is the encoding of keys. *)
Definition unpack {K} (KO : keyops K) (ds : list (list N)) : list (K * list N) :=
  flat_map (fun d => match k_de KO d with inl (k, n) => [(k, skipn n d)] | inr _ => [] end) ds.
(** Items a map can hold: a legal key and a value, within the buffers that will be used (as in [MObs.mcall_ok]). *)
Definition map_item {K} (KO : keyops K) (legal : K -> Prop) (pf : bool) (g : geom) (n : nat) (d : list N) : Prop :=
  (exists k v b, legal k /\ item_bytes KO b k v = inl d) /\ item_ok pf d /\ words g (length d) <= n.
(** The contents of a device: bytes; nothing is known about earlier programming. *)
Definition device (f : flash) : Prop := (forall x, is_byte (f_mem f x)) /\ (forall x, f_wc f x = 0) /\ f_fuel f = None.
