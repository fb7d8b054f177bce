(** The checksums of src/item.rs, bit by bit. *)
From Coq Require Import List NArith Arith Bool.
From Verif Require Import Base.
Import ListNotations.
Local Open Scope N_scope.

(** One bit step of [crc16], src/item.rs 435-439. *)
Definition crc16_bit (c : N) : N :=
  if N.testbit c 0 then N.lxor (N.shiftr c 1) 0x1a2e else N.shiftr c 1.

(** The byte step of [crc16], src/item.rs 433-440. *)
Definition crc16_byte (c b : N) : N :=
  let c := N.lxor c b in
  crc16_bit (crc16_bit (crc16_bit (crc16_bit (crc16_bit (crc16_bit (crc16_bit (crc16_bit c))))))).

(** [crc16], src/item.rs 430-447. *)
Definition crc16 (data : list N) : N :=
  let c := N.lxor (fold_left crc16_byte data 0xffff) 0xffff in
  if c =? 0xffff then 0xfffe else c.

(** One bit step of [crc32_with_initial], src/item.rs 479-483. *)
Definition crc32_bit (c : N) : N :=
  if N.testbit c 0 then N.lxor (N.shiftr c 1) 0x82f63b78 else N.shiftr c 1.

(** The byte step of [crc32_with_initial], src/item.rs 475-485. *)
Definition crc32_byte (c b : N) : N :=
  let c := N.lxor c b in
  crc32_bit (crc32_bit (crc32_bit (crc32_bit (crc32_bit (crc32_bit (crc32_bit (crc32_bit c))))))).

(** [crc32_with_initial], src/item.rs 470-488. *)
Definition crc32_with_initial (data : list N) (init : N) : N :=
  N.lxor (fold_left crc32_byte data init) 0xffffffff.

(** [crc32], src/item.rs 464-468. *)
Definition crc32 (data : list N) : N := crc32_with_initial data 0xEEEEEEEE.

(** [adapted_crc32], src/item.rs 450-462. *)
Definition acrc (data : list N) : N :=
  let v := crc32 data in
  if v =? 0 then 1
  else if (v mod 256 =? 0) || (v mod 256 =? 255) then N.lxor v 1
  else v.
