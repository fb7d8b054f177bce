(** The configuration checks: src/map.rs 40-65, src/queue/mod.rs 34-58. *)
From Coq Require Import List NArith Arith Bool.
Import ListNotations.
Local Open Scope N_scope.

(** Sizes of a flash as numbers: [READ_SIZE], [WRITE_SIZE], [ERASE_SIZE] of the [NorFlash] traits used in src/lib.rs 614-624. *)
Record fsizes := mkfsizes { z_rs : N; z_ws : N; z_es : N }.

(** [MapConfigError]/[QueueConfigError], src/map.rs 69-82, src/queue/mod.rs 62-75.
    [CPanic]: subtraction overflow with overflow checks on (also: a compile error in a [const]). *)
Inductive cfgerr := CStart | CEnd | CTooSmall | CPagesTooSmall | CWordTooLarge | CPanic.

(** [WORD_SIZE], src/lib.rs 614-624. *)
Definition z_word (z : fsizes) : N := if z_rs z <? z_ws z then z_ws z else z_rs z.

(** [ItemHeader::data_address::<S>(0)], src/item.rs 212-214. *)
Definition z_hl (z : fsizes) : N := ((8 + z_word z - 1) / z_word z) * z_word z.

(** [try_new], src/map.rs 40-65, src/queue/mod.rs 34-58; [pages] is 2 for a map and 1 for a queue; [checks] says whether arithmetic overflow panics
    (debug builds and constant evaluation) or wraps (release builds). *)
Definition try_new (checks : bool) (pages : N) (z : fsizes) (start end_ : N) : option cfgerr :=
  if negb (start mod z_es z =? 0) then Some CStart
  else if negb (end_ mod z_es z =? 0) then Some CEnd
  else if checks && (end_ <? start) then Some CPanic
  else
    let len := (end_ + 2 ^ 32 - start) mod 2 ^ 32 in
    if len <? z_es z * pages then Some CTooSmall
    else if z_es z <? z_word z * 3 + z_hl z then Some CPagesTooSmall
    else if 32 <? z_word z then Some CWordTooLarge
    else None.

(** [MapConfig::try_new], src/map.rs 40-65. *)
Definition map_try_new (checks : bool) := try_new checks 2.

(** [QueueConfig::try_new], src/queue/mod.rs 34-58. *)
Definition queue_try_new (checks : bool) := try_new checks 1.
