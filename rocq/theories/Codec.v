(** The built-in key and value codecs: src/map.rs 1134-1430, src/alloc_impl.rs, src/heapless_impl.rs,
    src/heapless_09_impl.rs, src/arrayvec_impl.rs.  Postcard values are not modelled. *)
From Coq Require Import List NArith ZArith Arith Bool.
From Verif Require Import Base State Map.
Import ListNotations.

(** Write a fixed number of bytes into a buffer of [n] bytes, e.g. src/map.rs 1151-1161. *)
Definition ser_fixed (bs : list N) (n : nat) : list N + sererr :=
  if n <? length bs then inr SEBufferTooSmall else inl bs.

(** [Key] for unsigned integers of [w] bytes, src/map.rs 1148-1178. *)
Definition key_num (w : nat) : keyops N :=
  mkkeyops N.eqb
    (fun k n => ser_fixed (le_bytes w k) n)
    (fun b => if length b <? w then inr SEBufferTooSmall else inl (le_val (firstn w b), w))
    (fun _ => inl w).

(** Two's complement: [iN::to_le_bytes] (src/map.rs 1152 at the types of 1185-1189). *)
Definition twos (w : nat) (z : Z) : N := Z.to_N (z mod 256 ^ Z.of_nat w).
(** [iN::from_le_bytes] (src/map.rs 1164 at the types of 1185-1189). *)
Definition untwos (w : nat) (n : N) : Z :=
  if (n <? 128 * 256 ^ (N.of_nat w - 1))%N then Z.of_N n else (Z.of_N n - 256 ^ Z.of_nat w)%Z.

(** [Key] for signed integers of [w] bytes, src/map.rs 1185-1189. *)
Definition key_int (w : nat) : keyops Z :=
  mkkeyops Z.eqb
    (fun k n => ser_fixed (le_bytes w (twos w k)) n)
    (fun b => if length b <? w then inr SEBufferTooSmall else inl (untwos w (le_val (firstn w b)), w))
    (fun _ => inl w).

(** Equality of byte strings ([Eq] of [[u8; N]], [Vec<u8>] and [String], required by src/map.rs 1134). *)
Fixpoint bytes_eqb (a b : list N) : bool :=
  match a, b with
  | [], [] => true
  | x :: a', y :: b' => (x =? y)%N && bytes_eqb a' b'
  | _, _ => false
  end.

(** [Key] for [[u8; N]], src/map.rs 1191-1215 (the key is a list of length [w]). *)
Definition key_array (w : nat) : keyops (list N) :=
  mkkeyops bytes_eqb
    (fun k n => ser_fixed k n)
    (fun b => if length b <? w then inr SEBufferTooSmall else inl (firstn w b, w))
    (fun _ => inl w).

(** [Key] for [()], src/map.rs 1217-1225, with the default [get_len] (1142-1144). *)
Definition key_unit : keyops unit :=
  mkkeyops (fun _ _ => true) (fun _ _ => inl []) (fun _ => inl (tt, 0)) (fun _ => inl 0).

(** [core::str::from_utf8] (called in src/alloc_impl.rs 94, 127): a continuation byte. *)
Definition cont (b : N) : bool := (0x80 <=? b)%N && (b <=? 0xBF)%N.
(** A byte in a range of the same table (src/alloc_impl.rs 94). *)
Definition within (lo hi b : N) : bool := (lo <=? b)%N && (b <=? hi)%N.
(** [core::str::from_utf8] (src/alloc_impl.rs 94, 127, src/heapless_impl.rs 102, src/arrayvec_impl.rs 77): the well-formed byte sequences of the Unicode standard, table 3-7. *)
Fixpoint utf8 (l : list N) : bool :=
  match l with
  | [] => true
  | a :: t =>
      if (a <? 0x80)%N then utf8 t
      else if within 0xC2 0xDF a then
        match t with b :: t' => cont b && utf8 t' | _ => false end
      else if within 0xE0 0xEF a then
        match t with
        | b :: c :: t' =>
            (if (a =? 0xE0)%N then within 0xA0 0xBF b
             else if (a =? 0xED)%N then within 0x80 0x9F b else cont b) && cont c && utf8 t'
        | _ => false
        end
      else if within 0xF0 0xF4 a then
        match t with
        | b :: c :: d :: t' =>
            (if (a =? 0xF0)%N then within 0x90 0xBF b
             else if (a =? 0xF4)%N then within 0x80 0x8F b else cont b) && cont c && cont d && utf8 t'
        | _ => false
        end
      else false
  end.

(** Capacity check of a fixed-capacity container, e.g. src/heapless_impl.rs 35-38, 100-105; [None] is an unbounded ([alloc]) container. *)
Definition fits (cap : option nat) (n : nat) : bool :=
  match cap with None => true | Some c => n <=? c end.

(** [get_len] of the length-prefixed keys, e.g. src/alloc_impl.rs 37-45. *)
Definition prefix_len (b : list N) : nat + sererr :=
  if length b <? 2 then inr SEBufferTooSmall
  else inl (N.to_nat (le_val (firstn 2 b)) + 2).

(** [serialize_into] of the length-prefixed keys, e.g. src/alloc_impl.rs 8-21.  [small] is the error for a
    small buffer: BufferTooSmall, but InvalidFormat for the heapless [String] (src/heapless_impl.rs 81). *)
Definition prefix_ser (small : sererr) (k : list N) (n : nat) : list N + sererr :=
  if (65535 <? N.of_nat (length k))%N then inr SEInvalidData
  else if n <? length k + 2 then inr small
  else inl (le_bytes 2 (N.of_nat (length k)) ++ k).

(** [deserialize_from] of the length-prefixed keys; [ok] is the content check ([from_utf8] for strings),
    e.g. src/alloc_impl.rs 23-35, 84-99, src/heapless_impl.rs 25-40, 90-108. *)
Definition prefix_de (cap : option nat) (ok : list N -> bool) (b : list N) : (list N * nat) + sererr :=
  match prefix_len b with
  | inr e => inr e
  | inl total =>
      if length b <? total then inr SEBufferTooSmall
      else
        let d := firstn (total - 2) (skipn 2 b) in
        if negb (ok d) then inr SEInvalidFormat
        else if negb (fits cap (length d)) then inr SEInvalidFormat
        else inl (d, total)
  end.

(** [Key] for byte vectors: alloc [Vec] (src/alloc_impl.rs 7-46, no capacity), heapless [Vec]
    (src/heapless_impl.rs 9-51, src/heapless_09_impl.rs 9-50), [ArrayVec] (src/arrayvec_impl.rs 5-47). *)
Definition key_vec (cap : option nat) : keyops (list N) :=
  mkkeyops bytes_eqb (prefix_ser SEBufferTooSmall) (prefix_de cap (fun _ => true)) prefix_len.

(** [Key] for strings (as their UTF-8 bytes): alloc [String] (src/alloc_impl.rs 68-110), [ArrayString]
    (src/arrayvec_impl.rs 49-95), heapless [String] (src/heapless_impl.rs 74-119, src/heapless_09_impl.rs 73-118). *)
Definition key_string (small : sererr) (cap : option nat) : keyops (list N) :=
  mkkeyops bytes_eqb (prefix_ser small) (prefix_de cap utf8) prefix_len.

(** The [Value] trait, src/map.rs 1231-1246. *)
Record valops (T : Type) := mkvalops {
  v_ser : T -> nat -> list N + sererr;
  v_de : list N -> (T * nat) + sererr }.
Arguments mkvalops {T}. Arguments v_ser {T}. Arguments v_de {T}.

(** Numbers of [w] bytes, src/map.rs 1359-1384; floats are given by their bit pattern. *)
Definition val_num (w : nat) : valops N :=
  mkvalops (fun v n => ser_fixed (le_bytes w v) n)
           (fun b => if length b <? w then inr SEBufferTooSmall else inl (le_val (firstn w b), w)).

(** Signed numbers of [w] bytes, src/map.rs 1359-1384. *)
Definition val_int (w : nat) : valops Z :=
  mkvalops (fun v n => ser_fixed (le_bytes w (twos w v)) n)
           (fun b => if length b <? w then inr SEBufferTooSmall else inl (untwos w (le_val (firstn w b)), w)).

(** [bool], src/map.rs 1248-1261. *)
Definition val_bool : valops bool :=
  mkvalops (fun (v : bool) n => v_ser (val_num 1) (if v then 1%N else 0%N) n)
           (fun b => match v_de (val_num 1) b with
                     | inl (x, n) => inl (negb (x =? 0)%N, n)
                     | inr e => inr e
                     end).

(** [Option<T>], src/map.rs 1263-1298. *)
Definition val_option {T} (V : valops T) : valops (option T) :=
  mkvalops
    (fun (v : option T) n =>
       match v with
       | Some x =>
           match v_ser val_bool true n with
           | inr e => inr e
           | inl tag =>
               if n <? length tag then inr SEBufferTooSmall
               else match v_ser V x (n - length tag) with
                    | inr e => inr e
                    | inl bs => inl (tag ++ bs)
                    end
           end
       | None => v_ser val_bool false n
       end)
    (fun b =>
       match v_de val_bool b with
       | inr e => inr e
       | inl (true, n) =>
           if length b <? n then inr SEBufferTooSmall
           else match v_de V (skipn n b) with
                | inr e => inr e
                | inl (x, m) => inl (Some x, n + m)
                end
       | inl (false, n) => inl (None, n)
       end).

(** [&[u8]], src/map.rs 1300-1315, and alloc [Vec<u8>], src/alloc_impl.rs 48-64. *)
Definition val_slice : valops (list N) :=
  mkvalops ser_fixed (fun b => inl (b, length b)).

(** heapless [Vec<u8, CAP>], src/heapless_impl.rs 53-70, src/heapless_09_impl.rs 52-69. *)
Definition val_vec (cap : option nat) : valops (list N) :=
  mkvalops ser_fixed (fun b => if fits cap (length b) then inl (b, length b) else inr SEInvalidFormat).

(** Strings: src/alloc_impl.rs 112-133, src/heapless_impl.rs 121-143, src/heapless_09_impl.rs 120-142. *)
Definition val_string (cap : option nat) : valops (list N) :=
  mkvalops ser_fixed
    (fun b => if negb (utf8 b) then inr SEInvalidFormat
              else if fits cap (length b) then inl (b, length b) else inr SEBufferTooSmall).

(** [chunks_exact] of [w] bytes zipped with an array of [n] numbers, src/map.rs 1410-1412. *)
Fixpoint chunks (w n : nat) (b : list N) : list N :=
  match n with
  | O => []
  | S n' => le_val (firstn w b) :: chunks w n' (skipn w b)
  end.

(** Arrays of [n] numbers of [w] bytes, src/map.rs 1386-1417 (signed numbers and floats by bit pattern). *)
Definition val_array (w n : nat) : valops (list N) :=
  mkvalops
    (fun v m => if m <? w * n then inr SEBufferTooSmall else inl (flat_map (le_bytes w) v))
    (fun b => if length b <? w * n then inr SEBufferTooSmall else inl (chunks w n b, w * n)).
