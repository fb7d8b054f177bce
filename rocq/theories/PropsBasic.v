(** Claims about checksums, codecs and the RAM ring.  Statements only; proofs are in the [...P] files. *)
From Coq Require Import List NArith ZArith Arith Bool Lia.
From Verif Require Import Base BaseP Crc CrcP State Map Codec CodecP Utf8P Buffered RingP.
Import ListNotations.

(** C33: a run of erased bytes never has the erased checksum (the repository tests n < 1024 only). *)
Theorem c33_erased_run_checksum n : (N.of_nat n <= 65535)%N -> crc32 (repeat 255%N n) <> 0xffffffff%N.
Proof. exact (crc32_ff n). Qed.
Example c33_case : crc32 (repeat 255%N 1000) <> 0xffffffff%N.
Proof. vm_compute. discriminate. Qed.

(** C20: the checksum stored with an item is never 0 (erased item), never 0xFFFFFFFF, and neither is its low byte. *)
Theorem c20_checksum_special d : (acrc d mod 256)%N <> 0%N /\ (acrc d mod 256)%N <> 255%N /\ acrc d <> 0%N /\ acrc d <> 0xffffffff%N.
Proof. exact (conj (proj1 (acrc_low d)) (conj (proj2 (acrc_low d)) (conj (acrc_nonzero d) (acrc_not_erased d)))). Qed.

(** C20: damage to one byte is always detected by the stored checksum. *)
Theorem c20_one_byte_detected pre x y post : Forall is_byte (pre ++ x :: post) -> is_byte y -> x <> y ->
  (N.of_nat (length (pre ++ x :: post)) <= 65535)%N -> acrc (pre ++ x :: post) <> acrc (pre ++ y :: post).
Proof. exact (acrc_byte pre x y post). Qed.

(** C20: damage to at most four adjacent bytes always changes the raw CRC-32. *)
Theorem c20_burst_changes_crc32 pre x y post : Forall is_byte (pre ++ x ++ post) -> Forall is_byte y -> length x = length y ->
  length x <= 4 -> x <> y -> crc32 (pre ++ x ++ post) <> crc32 (pre ++ y ++ post).
Proof. exact (crc32_burst pre x y post). Qed.
Example c20_burst_case : crc32 ([1;2] ++ [3;4;5;6] ++ [7])%N <> crc32 ([1;2] ++ [3;9;9;6] ++ [7])%N.
Proof. vm_compute. discriminate. Qed.

(** C20: damage to one byte of a length field is always detected by the length checksum. *)
Theorem c20_length_byte_detected a b a' b' : is_byte a -> is_byte b -> is_byte a' -> is_byte b' ->
  (a = a' /\ b <> b') \/ (a <> a' /\ b = b') -> crc16 [a; b] <> crc16 [a'; b'].
Proof. exact (crc16_byte_change a b a' b'). Qed.

(** C22: all provided key types: decoding what was encoded, followed by anything, gives the key and its length
    ([key_codec]); encoding works exactly when the buffer is large enough ([ser_exact]). *)
Theorem c22_key_numbers w : let legal := fun k => (k < 256 ^ N.of_nat w)%N in
  key_codec (key_num w) legal /\ ser_exact (k_ser (key_num w)) SEBufferTooSmall legal (fun _ => w).
Proof. exact (conj (key_num_ok w) (key_num_ser w _)). Qed.
Theorem c22_key_signed w : 0 < w ->
  let legal := fun z => (- (128 * 256 ^ (Z.of_nat w - 1)) <= z < 128 * 256 ^ (Z.of_nat w - 1))%Z in
  key_codec (key_int w) legal /\ ser_exact (k_ser (key_int w)) SEBufferTooSmall legal (fun _ => w).
Proof. exact (fun H => conj (key_int_ok w H) (key_int_ser w _)). Qed.
Theorem c22_key_arrays w : let legal := fun k => length k = w /\ Forall is_byte k in
  key_codec (key_array w) legal /\ ser_exact (k_ser (key_array w)) SEBufferTooSmall legal (fun _ => w).
Proof. exact (conj (key_array_ok w) (key_array_ser w)). Qed.
Theorem c22_key_unit : key_codec key_unit (fun _ => True) /\ ser_exact (k_ser key_unit) SEBufferTooSmall (fun _ => True) (fun _ => 0).
Proof. exact (conj key_unit_ok key_unit_ser). Qed.
Theorem c22_key_vec cap : key_codec (key_vec cap) (fun k => Forall is_byte k /\ room cap (length k)).
Proof. exact (key_vec_room cap). Qed.
Theorem c22_key_string e cap :
  key_codec (key_string e cap) (fun k => text k /\ room cap (length k)).
Proof. exact (key_text_ok e cap). Qed.
(** The encoder of the length-prefixed keys (vectors and strings). *)
Theorem c22_key_prefixed e cap small :
  let legal := fun k => (N.of_nat (length k) <= 65535)%N in
  ser_exact (k_ser (key_vec cap)) SEBufferTooSmall legal (fun k => 2 + length k) /\
  ser_exact (k_ser (key_string small cap)) small legal (fun k => 2 + length k) /\
  (forall k n, (65535 < N.of_nat (length k))%N -> prefix_ser e k n = inr SEInvalidData).
Proof. exact (conj (prefix_ser_exact SEBufferTooSmall _ (fun _ H => H))
                   (conj (prefix_ser_exact small _ (fun _ H => H)) (prefix_ser_long e))). Qed.
Example c22_key_case : k_ser (key_int 2) (-2)%Z 5 = inl [254; 255]%N /\
  k_de (key_int 2) [254; 255; 7]%N = inl ((-2)%Z, 2) /\
  k_ser (key_string SEInvalidFormat (Some 8)) [104; 195; 169]%N 9 = inl [3; 0; 104; 195; 169]%N /\
  k_de (key_string SEInvalidFormat (Some 8)) [3; 0; 104; 195; 169; 7]%N = inl ([104; 195; 169]%N, 5).
Proof. vm_compute. auto. Qed.

(** C22: all provided value types. *)
Theorem c22_val_numbers w : let legal := fun v => (v < 256 ^ N.of_nat w)%N in
  val_codec (val_num w) legal /\ ser_exact (v_ser (val_num w)) SEBufferTooSmall legal (fun _ => w).
Proof. exact (conj (val_num_ok w) (val_num_ser w _)). Qed.
Theorem c22_val_signed w : 0 < w ->
  let legal := fun z => (- (128 * 256 ^ (Z.of_nat w - 1)) <= z < 128 * 256 ^ (Z.of_nat w - 1))%Z in
  val_codec (val_int w) legal /\ ser_exact (v_ser (val_int w)) SEBufferTooSmall legal (fun _ => w).
Proof. exact (fun H => conj (val_int_ok w H) (val_int_ser w _)). Qed.
Theorem c22_val_bool : val_codec val_bool (fun _ => True) /\ ser_exact (v_ser val_bool) SEBufferTooSmall (fun _ => True) (fun _ => 1).
Proof. exact (conj val_bool_ok val_bool_ser). Qed.
Theorem c22_val_option {T} (V : valops T) legal size :
  val_codec V legal -> ser_exact (v_ser V) SEBufferTooSmall legal size ->
  let legal' := fun o => match o with Some v => legal v | None => True end in
  val_codec (val_option V) legal' /\
  ser_exact (v_ser (val_option V)) SEBufferTooSmall legal' (fun o => match o with Some v => 1 + size v | None => 1 end).
Proof. exact (fun A B => conj (val_option_ok V legal A) (val_option_ser V legal size B)). Qed.
Theorem c22_val_slice : val_codec val_slice (Forall is_byte) /\
  ser_exact (v_ser val_slice) SEBufferTooSmall (Forall is_byte) (@length N).
Proof. exact (conj val_slice_ok (val_slice_ser _)). Qed.
Theorem c22_val_vec cap : val_codec (val_vec cap) (fun v => Forall is_byte v /\ room cap (length v)).
Proof. exact (val_vec_room cap). Qed.
Theorem c22_val_string cap :
  val_codec (val_string cap) (fun v => text v /\ room cap (length v)).
Proof. exact (val_text_ok cap). Qed.
(** Only well-formed text is read as a string. *)
Theorem c22_text_only e cap b d n : (k_de (key_string e cap) b = inl (d, n) -> text d) /\ (v_de (val_string cap) b = inl (d, n) -> d = b /\ text d).
Proof. exact (conj (key_text_only e cap b d n) (val_text_only cap b d n)). Qed.
Example c22_text_case : text [104; 195; 169; 240; 159; 166; 128]%N /\ v_de (val_string None) [192; 128]%N = inr SEInvalidFormat /\
  v_de (val_string None) [237; 160; 128]%N = inr SEInvalidFormat /\ v_de (val_string None) [240; 159; 166; 128]%N = inl ([240; 159; 166; 128]%N, 4).
Proof. split; [exists [0x68; 0xE9; 0x1F980]%N; split; [repeat constructor; unfold scalar; lia|reflexivity]|vm_compute; auto]. Qed.
Theorem c22_val_array w n : let legal := fun v => length v = n /\ Forall (fun x => (x < 256 ^ N.of_nat w)%N) v in
  val_codec (val_array w n) legal /\ ser_exact (v_ser (val_array w n)) SEBufferTooSmall legal (fun _ => w * n).
Proof. exact (conj (val_array_ok w n) (val_array_ser w n)). Qed.
Example c22_val_case : v_ser (val_option (val_num 4)) (Some 77%N) 9 = inl [1; 77; 0; 0; 0]%N /\
  v_de (val_option (val_num 4)) [1; 77; 0; 0; 0]%N = inl (Some 77%N, 5).
Proof. vm_compute. auto. Qed.

(** C23: the RAM ring behaves like a FIFO list with a byte budget, for every history of calls. *)
Theorem c23_ring_is_bounded_fifo n l :
  fst (runs ring_step (ring_new n) l) = fst (runs (fifo_step n) [] l).
Proof. exact (ring_refines_fifo n l). Qed.
Theorem c23_eviction_is_minimal cap need q : need <= cap ->
  exists gone, q = gone ++ drop_until cap need q /\ cost (drop_until cap need q) + need <= cap /\
    (forall g1 d, gone = g1 ++ [d] -> cap < cost (d :: drop_until cap need q) + need).
Proof. exact (drop_until_spec cap need q). Qed.

Print Assumptions c33_erased_run_checksum.
Print Assumptions c20_checksum_special.
Print Assumptions c20_one_byte_detected.
Print Assumptions c20_burst_changes_crc32.
Print Assumptions c20_length_byte_detected.
Print Assumptions c22_key_numbers.
Print Assumptions c22_key_signed.
Print Assumptions c22_key_arrays.
Print Assumptions c22_key_unit.
Print Assumptions c22_key_vec.
Print Assumptions c22_key_string.
Print Assumptions c22_key_prefixed.
Print Assumptions c22_val_numbers.
Print Assumptions c22_val_signed.
Print Assumptions c22_val_bool.
Print Assumptions c22_val_option.
Print Assumptions c22_val_slice.
Print Assumptions c22_val_vec.
Print Assumptions c22_val_string.
Print Assumptions c22_text_only.
Print Assumptions c22_val_array.
Print Assumptions c23_ring_is_bounded_fifo.
Print Assumptions c23_eviction_is_minimal.
