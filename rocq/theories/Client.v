(** Client programs: sequences of calls to one storage object, with power failures and restarts in between.
    Nothing here models library code except where cited; it says how the library is used. *)
From Coq Require Import List NArith Arith Bool.
From Verif Require Import Base Flash Cache State Item Generic Queue.
Import ListNotations.

(** Supply enough power for [p] more bytes ([None]: no power failure), src/mock_flash.rs 31. *)
Definition power {K} (s : st K) (p : option nat) : st K :=
  let f := s_fl s in set_fl s (mkflash (f_mem f) (f_wc f) (f_er f) p (f_ae f) (f_aw f) (f_bad f)).

(** A cache object as its constructor returns it: [Cache::new], src/cache/mod.rs 104-138; [CachePageStates]
    src/cache/page_states.rs 70-74; [CacheCalculatedPageStates::new] 143-152; [CachePagePointers] src/cache/page_pointers.rs 27-35;
    [CacheKeyPointers] src/cache/key_pointers.rs 36-40.  The arrays must have one entry per page. *)
Inductive fresh_ps (np : nat) : pscache -> Prop :=
| FPNone : fresh_ps np PSNone
| FPArray n : np <= n -> fresh_ps np (PSArray (repeat None n))
| FPCalc : fresh_ps np (PSCalc (calc_new np)).
(** As [fresh_ps]: src/cache/page_pointers.rs 27-35. *)
Inductive fresh_pp (np : nat) : ppcache -> Prop :=
| FQNone : fresh_pp np PPNone
| FQArray n m : np <= n -> np <= m -> fresh_pp np (PPArray (repeat None n) (repeat None m)).
(** As [fresh_ps]: src/cache/key_pointers.rs 36-40. *)
Inductive fresh_kp {K} : kpcache K -> Prop :=
| FKNone : fresh_kp KPNone
| FKArray n : 1 <= n -> fresh_kp (KPArray (repeat None n)).
(** [Cache::new], src/cache/mod.rs 104-129. *)
Definition fresh_cache {K} (np : nat) (c : cache K) : Prop :=
  c_dirty c = false /\ fresh_ps np (c_ps c) /\ fresh_pp np (c_pp c) /\ fresh_kp (c_kp c).

(** A flash range that holds only erased bytes. *)
Definition erased (g : geom) (f : flash) : Prop :=
  (forall x, (f_mem f x < 256)%N) /\ (forall x, START g <= x < FEND g -> f_mem f x = 255%N /\ f_wc f x = 0).

Section QClient.
Context (g : geom) {R : reader}.

(** Advance an iterator and perhaps remove the entry it returns. *)
Definition q_step (pop : bool) : M unit (option (list N)) :=
  r <- q_next g ;;
  match r with
  | Some (h, a) => (if pop then q_entry_pop g h a else ret tt) ;;; d <- entry_data h ;; ret (Some d)
  | None => ret None
  end.
(** Any number of steps, each with its own buffer; a too small buffer is reported and the iteration goes on. *)
Fixpoint q_script (sc : list (list N * bool)) : M unit (list (res (option (list N)))) :=
  match sc with
  | [] => ret []
  | (b, pop) :: t =>
      put_buf b ;;;
      r <- attempt (q_step pop) ;;
      match r with
      | Ok _ | Err (EBufTooSmall _) => rs <- q_script t ;; ret (r :: rs)
      | Err e => fail e
      end
  end.
Definition q_iterate (sc : list (list N * bool)) : M unit (list (res (option (list N)))) := q_iter g ;;; q_script sc.

Inductive qcall :=
| QPush (d : list N) (ow : bool)
| QPop (b : list N)
| QPeek (b : list N)
| QIter (sc : list (list N * bool))
| QMaxFit
| QSpace.

Inductive qans :=
| AUnit (r : res unit)
| AItem (r : res (option (list N)))
| AIter (r : res (list (res (option (list N)))))
| AMax (r : res (option nat))
| ANum (r : res nat).

Definition ans1 {A} (f : res A -> qans) (x : res A * st unit) : qans * st unit := (f (fst x), snd x).
Definition q_exec (c : qcall) (s : st unit) : qans * st unit :=
  match c with
  | QPush d ow => ans1 AUnit (q_push g d ow s)
  | QPop b => ans1 AItem (q_pop g b s)
  | QPeek b => ans1 AItem (q_peek g b s)
  | QIter sc => ans1 AIter (q_iterate sc s)
  | QMaxFit => ans1 AMax (q_max_fit g s)
  | QSpace => ans1 ANum (q_space_left g s)
  end.

(** A history: calls, each with a supply of power, and restarts with a new cache object. *)
Inductive qev := ECall (c : qcall) (p : option nat) | EBoot (c : cache unit).

Fixpoint q_run (s : st unit) (evs : list qev) : list qans * st unit :=
  match evs with
  | [] => ([], s)
  | ECall c p :: t => let '(a, s') := q_exec c (power s p) in let '(l, s2) := q_run s' t in (a :: l, s2)
  | EBoot c :: t => q_run (set_ca s c) t
  end.
End QClient.
