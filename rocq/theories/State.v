(** The state/error monad of the model and the primitive flash and cache actions. *)
From Coq Require Import List NArith Arith Bool.
From Verif Require Import Base Flash Cache.
Import ListNotations.

(** [SerializationError], src/map.rs 1438. *)
Inductive sererr := SEBufferTooSmall | SEInvalidData | SEInvalidFormat | SECustom.

(** [Error], src/lib.rs 507-543, plus [EPanic] (the Rust code panics) and [EFuel] (the model's own loop
    bound ran out; theorems exclude it). *)
Inductive err :=
| EStorage (e : serr)
| EFull
| ECorrupted
| ELogicBug
| EBufTooSmall (n : nat)
| ESer (e : sererr)
| EItemTooBig
| EPanic
| EFuel.

(** [Result] with the errors of src/lib.rs 507-543. *)
Inductive res (A : Type) := Ok (a : A) | Err (e : err).
Arguments Ok {A} a. Arguments Err {A} e.

(** [NextAddress], src/queue/mod.rs 645-648. *)
Inductive nextaddr := NAddr (a : nat) | NPageAfter (p : nat).

(** [PreviousItemStates], src/queue/mod.rs 622-626. *)
Inductive prevst := AllPopped | AllButCurrentPopped | Unpopped.

(** The fields of [QueueIterator], src/queue/mod.rs 629-634. *)
Record qiter := mkqi { qi_next : nextaddr; qi_prev : prevst; qi_oldest : nat }.

(** The fields of [MapItemIter] (src/map.rs 1058-1064) and of its [ItemIter] (src/item.rs 572, 607). *)
Record miter := mkmi { mi_first : nat; mi_page : nat; mi_cur : nat; mi_end : nat }.

(** Everything a call can touch: the flash and the cache (fields of [GenericStorage], src/lib.rs 46-51), the caller's [data_buffer], and the iterator objects (src/queue/mod.rs 629-634, src/map.rs 1058-1064).
    (The Rust code passes these as separate borrows.) *)
Record st (K : Type) := mkst {
  s_fl : flash; s_ca : cache K; s_buf : list N; s_qi : qiter; s_mi : miter }.
Arguments mkst {K}. Arguments s_fl {K}. Arguments s_ca {K}. Arguments s_buf {K}.
Arguments s_qi {K}. Arguments s_mi {K}.

(** Field updates of the state (assignments through the borrows of src/lib.rs 46-51); not a function of the Rust code. *)
Definition set_fl {K} (s : st K) x := mkst x (s_ca s) (s_buf s) (s_qi s) (s_mi s).
(** As [set_fl] (src/lib.rs 46-51). *)
Definition set_ca {K} (s : st K) (x : cache K) := mkst (s_fl s) x (s_buf s) (s_qi s) (s_mi s).
(** As [set_fl] (src/lib.rs 46-51). *)
Definition set_buf {K} (s : st K) x := mkst (s_fl s) (s_ca s) x (s_qi s) (s_mi s).
(** As [set_fl] (src/lib.rs 46-51). *)
Definition set_qi {K} (s : st K) x := mkst (s_fl s) (s_ca s) (s_buf s) x (s_mi s).
(** As [set_fl] (src/lib.rs 46-51). *)
Definition set_mi {K} (s : st K) x := mkst (s_fl s) (s_ca s) (s_buf s) (s_qi s) x.

(** A new storage object on a flash device with a given cache (src/queue/mod.rs 144, src/map.rs 167). *)
Definition st_new {K} (f : flash) (c : cache K) : st K :=
  mkst f c [] (mkqi (NAddr 0) Unpopped 0) (mkmi 0 0 0 0).

(** A fallible computation on the state: an [async fn] that returns a [Result] (e.g. src/lib.rs 77).  Simplified: a future is run to its end or to a power failure; futures that are
    dropped half-way are treated in DESIGN.md. *)
Definition M (K A : Type) := st K -> res A * st K.

(** [Ok] (e.g. src/lib.rs 92). *)
Definition ret {K A} (a : A) : M K A := fun s => (Ok a, s).
(** [Err] (e.g. src/item.rs 84). *)
Definition fail {K A} (e : err) : M K A := fun s => (Err e, s).
(** The [?] operator after [.await] (e.g. src/lib.rs 87). *)
Definition bind {K A B} (c : M K A) (f : A -> M K B) : M K B :=
  fun s => match c s with
           | (Ok a, s') => f a s'
           | (Err e, s') => (Err e, s')
           end.
Declare Scope m_scope.
Delimit Scope m_scope with m.
Notation "x <- c ;; k" := (bind c (fun x => k)) (at level 61, c at next level, right associativity) : m_scope.
Notation "c ;;; k" := (bind c (fun _ => k)) (at level 61, right associativity) : m_scope.
Open Scope m_scope.

(** Reads and writes of the [data_buffer] borrow (e.g. src/item.rs 146), the iterator fields (src/queue/mod.rs 629-634, src/map.rs 1058-1064) and the cache field (src/lib.rs 49). *)
Definition get_buf {K} : M K (list N) := fun s => (Ok (s_buf s), s).
(** As [get_buf] (src/lib.rs 46-51). *)
Definition put_buf {K} (b : list N) : M K unit := fun s => (Ok tt, set_buf s b).
(** As [get_buf] (src/lib.rs 46-51). *)
Definition get_qi {K} : M K qiter := fun s => (Ok (s_qi s), s).
(** As [get_buf] (src/lib.rs 46-51). *)
Definition put_qi {K} (q : qiter) : M K unit := fun s => (Ok tt, set_qi s q).
(** As [get_buf] (src/lib.rs 46-51). *)
Definition get_mi {K} : M K miter := fun s => (Ok (s_mi s), s).
(** As [get_buf] (src/lib.rs 46-51). *)
Definition put_mi {K} (q : miter) : M K unit := fun s => (Ok tt, set_mi s q).
(** As [get_buf] (src/lib.rs 46-51). *)
Definition get_ca {K} : M K (cache K) := fun s => (Ok (s_ca s), s).
(** As [get_buf] (src/lib.rs 46-51). *)
Definition put_ca {K} (c : cache K) : M K unit := fun s => (Ok tt, set_ca s c).

(** What is around the library's code.  [on_read]: how reads are answered, that is [NorFlash::read] as the library sees it, a device error mapped to [Error::Storage],
    e.g. src/item.rs 68-75.  [on_result]: a [match] on a [Result] (e.g. src/lib.rs 81-84, src/item.rs 640): run the part and hand its result on.
    The library's code below is written for any such surroundings. *)
Class reader := mkreader { on_read : forall K : Type, geom -> nat -> nat -> M K (list N); on_result : forall K A : Type, M K A -> M K (res A) }.
(** Every result is handed on (e.g. src/lib.rs 81-84). *)
Definition hand_on {K A} (c : M K A) : M K (res A) := fun s => match c s with (r, s') => (Ok r, s') end.
(** The mock flash (src/mock_flash.rs 187-200): reads tell what is stored.  It is meant wherever nothing else is named; Reads.v and Drops.v have others. *)
Global Instance steady : reader := mkreader (fun K g a n s =>
  match dev_read g (s_fl s) a n with
  | inl b => (Ok b, s)
  | inr e => (Err (EStorage e), set_fl s (refuse (s_fl s) a n))
  end) (fun K A => hand_on).
(** [flash.read] with its error mapped, e.g. src/item.rs 68-75. *)
Definition fl_read {K} {R : reader} (g : geom) (a n : nat) : M K (list N) := on_read K g a n.
(** A [match] on the [Result] of [c] (e.g. src/lib.rs 81-84, src/item.rs 640). *)
Definition attempt {K A} {R : reader} (c : M K A) : M K (res A) := on_result K A c.
(** [run_with_auto_repair!], src/lib.rs 634-652. *)
Definition auto_repair {K A} {R : reader} (f : M K A) (repair : M K unit) : M K A :=
  r <- attempt f ;;
  match r with
  | Err ECorrupted => repair ;;; f
  | Err e => fail e
  | Ok a => ret a
  end.

(** [flash.write] with its error mapped, e.g. src/item.rs 184-194. *)
Definition fl_write {K} (g : geom) (a : nat) (bs : list N) : M K unit :=
  fun s => match dev_write g (s_fl s) a bs with
           | (None, f) => (Ok tt, set_fl s f)
           | (Some e, f) => (Err (EStorage e), set_fl s f)
           end.
(** [flash.erase] with its error mapped, e.g. src/lib.rs 57-66. *)
Definition fl_erase {K} (g : geom) (from to : nat) : M K unit :=
  fun s => match dev_erase g (s_fl s) from to with
           | (None, f) => (Ok tt, set_fl s f)
           | (Some e, f) => (Err (EStorage e), set_fl s f)
           end.

(** Cache actions, src/cache/mod.rs 132-229. *)
Definition c_is_dirty {K} : M K bool := fun s => (Ok (c_dirty (s_ca s)), s).
(** [unmark_dirty], src/cache/mod.rs 146-148. *)
Definition c_unmark {K} : M K unit := fun s => (Ok tt, set_ca s (set_dirty (s_ca s) false)).
(** [invalidate_cache_state], src/cache/mod.rs 203-208. *)
Definition c_inval {K} : M K unit := fun s => (Ok tt, set_ca s (cache_inval (s_ca s))).
(** [get_page_state], src/cache/mod.rs 151-153. *)
Definition c_get_ps {K} (p : nat) : M K (option pstate) :=
  fun s => match ps_get (c_ps (s_ca s)) p with
           | Some r => (Ok r, s)
           | None => (Err EPanic, s)
           end.
(** src/cache/mod.rs 159-165. *)
Definition c_notice_ps {K} (p : nat) (x : pstate) (dirty : bool) : M K unit :=
  fun s => let c := s_ca s in
           let d := if dirty then true else c_dirty c in
           match ps_notice (c_ps c) p x with
           | Some ps => (Ok tt, set_ca s (mkcache d ps (pp_page_state (c_pp c) p x) (c_kp c)))
           | None => (Err EPanic, set_ca s (set_dirty c d))
           end.
(** [first_item_after_erased], src/cache/mod.rs 170-172. *)
Definition c_after_erased {K} (p : nat) : M K (option nat) := fun s => (Ok (pp_erased (c_pp (s_ca s)) p), s).
(** [first_item_after_written], src/cache/mod.rs 175-177. *)
Definition c_after_written {K} (p : nat) : M K (option nat) := fun s => (Ok (pp_written (c_pp (s_ca s)) p), s).
(** src/cache/mod.rs 180-189. *)
Definition c_item_written {K} (g : geom) (a nx : nat) : M K unit :=
  fun s => let c := s_ca s in
           (Ok tt, set_ca s (mkcache true (c_ps c) (pp_item_written g (c_pp c) a nx) (c_kp c))).
(** src/cache/mod.rs 192-201. *)
Definition c_item_erased {K} (g : geom) (a nx : nat) : M K unit :=
  fun s => let c := s_ca s in
           (Ok tt, set_ca s (mkcache true (c_ps c) (pp_item_erased g (c_pp c) a nx) (c_kp c))).
(** src/cache/mod.rs 214-216. *)
Definition c_key_loc {K} (keqb : K -> K -> bool) (k : K) : M K (option nat) :=
  fun s => (Ok (kp_get keqb (c_kp (s_ca s)) k), s).
(** src/cache/mod.rs 218-223. *)
Definition c_notice_key {K} (keqb : K -> K -> bool) (k : K) (a : nat) (dirty : bool) : M K unit :=
  fun s => let c := s_ca s in
           let d := if dirty then true else c_dirty c in
           match kp_notice keqb (c_kp c) k a with
           | Some kp => (Ok tt, set_ca s (mkcache d (c_ps c) (c_pp c) kp))
           | None => (Err EPanic, set_ca s (set_dirty c d))
           end.
(** src/cache/mod.rs 225-228. *)
Definition c_key_erased {K} (keqb : K -> K -> bool) (k : K) : M K unit :=
  fun s => let c := s_ca s in
           (Ok tt, set_ca s (mkcache true (c_ps c) (c_pp c) (kp_erased keqb (c_kp c) k))).
(** The first lines of most calls: invalidate the cache if it is dirty, e.g. src/queue/mod.rs 179-181. *)
Definition c_check_dirty {K} : M K unit :=
  d <- c_is_dirty ;; if (d : bool) then c_inval else ret tt.
