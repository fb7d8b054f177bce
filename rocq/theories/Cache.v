(** The caches of src/cache.  An [option] result of [None] means the Rust code panics. *)
From Coq Require Import List NArith Arith Bool.
From Verif Require Import Base Flash.
Import ListNotations.

(** [PageState], src/lib.rs 467-474. *)
Inductive pstate := Closed | PartialOpen | Open.

(** The derived [PartialEq] of [PageState], src/lib.rs 467. *)
Definition pstate_eqb (a b : pstate) : bool :=
  match a, b with
  | Closed, Closed | PartialOpen, PartialOpen | Open, Open => true
  | _, _ => false
  end.

(** [CalculatedPageStates], src/cache/page_states.rs 43-50. *)
Record calc := mkcalc {
  k_pc : nat; k_anchor : option nat; k_partial : bool; k_guess : bool;
  k_closed : nat; k_open : nat }.

(** [CalculatedPageStates::new], src/cache/page_states.rs 71-80. *)
Definition calc_new (n : nat) : calc := mkcalc n None false true 0 0.

(** [places_in_front_of_anchor], src/cache/page_states.rs 82-90. *)
Definition calc_front (c : calc) (p : nat) : option nat :=
  match k_anchor c with
  | None => None
  | Some a => if a <=? p then Some (p - a) else Some (k_pc c - a + p)
  end.

(** [places_behind_of_anchor], src/cache/page_states.rs 92-100. *)
Definition calc_behind (c : calc) (p : nat) : option nat :=
  match k_anchor c with
  | None => None
  | Some a => if p <=? a then Some (a - p) else Some (a + 1 + k_pc c - p)
  end.

(** [get_page_state], src/cache/page_states.rs 104-122. *)
Definition calc_get (c : calc) (p : nat) : option pstate :=
  if match k_anchor c with Some a => a =? p | None => false end then
    Some (if k_partial c then PartialOpen else Open)
  else if match calc_front c p with Some i => i <? k_open c | None => false end then Some Open
  else if match calc_behind c p with Some b => b <=? k_closed c | None => false end then Some Closed
  else None.

(** [notice_page_state], src/cache/page_states.rs 124-235. *)
Definition calc_notice (c : calc) (p : nat) (s : pstate) : option calc :=
  match s with
  | PartialOpen =>
      match calc_get c p with
      | Some PartialOpen => Some (mkcalc (k_pc c) (k_anchor c) (k_partial c) false (k_closed c) (k_open c))
      | Some Open => Some (mkcalc (k_pc c) (Some p) true false (k_closed c) (k_open c))
      | Some Closed => None
      | None => Some (mkcalc (k_pc c) (Some p) true false (k_closed c) 1)
      end
  | Closed =>
      match calc_get c p with
      | Some Closed => Some c
      | Some PartialOpen =>
          match k_anchor c, k_open c with
          | Some a, S o => Some (mkcalc (k_pc c) (Some ((a + 1) mod k_pc c)) false (k_guess c) (k_closed c + 1) o)
          | _, _ => None
          end
      | Some Open => None
      | None =>
          if k_guess c then Some c
          else match calc_behind c p with
               | Some b => Some (mkcalc (k_pc c) (k_anchor c) (k_partial c) (k_guess c) (Nat.max (k_closed c) b) (k_open c))
               | None => Some c
               end
      end
  | Open =>
      match calc_get c p with
      | Some Open => Some c
      | Some PartialOpen => Some (mkcalc (k_pc c) (k_anchor c) false (k_guess c) (k_closed c) (k_open c))
      | Some Closed =>
          let o := match calc_front c p with Some f => Nat.max (k_open c) (f + 1) | None => k_open c end in
          let c1 := mkcalc (k_pc c) (k_anchor c) (k_partial c) (k_guess c) (k_closed c) o in
          let cl := match calc_behind c1 ((p + 1) mod k_pc c1) with Some b => Nat.min (k_closed c1) b | None => k_closed c1 end in
          Some (mkcalc (k_pc c) (k_anchor c) (k_partial c) (k_guess c) cl o)
      | None =>
          match k_anchor c with
          | Some a =>
              if k_guess c then
                if p =? (a + k_open c) mod k_pc c
                then Some (mkcalc (k_pc c) (k_anchor c) (k_partial c) (k_guess c) (k_closed c) (k_open c + 1))
                else Some c
              else match calc_front c p with
                   | Some f => Some (mkcalc (k_pc c) (k_anchor c) (k_partial c) (k_guess c) (k_closed c) (Nat.max (k_open c) (f + 1)))
                   | None => Some c
                   end
          | None => Some (mkcalc (k_pc c) (Some p) false true 0 1)
          end
      end
  end.

(** The page-state caches: [Uncached] (src/cache/mod.rs 272), [ArrayPageStates]/[HeapPageStates]
    (src/cache/page_states.rs 249-320, same code on an array and a vector), [CalculatedPageStates]. *)
Inductive pscache :=
| PSNone
| PSArray (l : list (option pstate))
| PSCalc (c : calc).

(** [get_page_state] of the page-state caches; array indexing panics out of range
    (src/cache/page_states.rs 270, 306). *)
Definition ps_get (c : pscache) (p : nat) : option (option pstate) :=
  match c with
  | PSNone => Some None
  | PSArray l => nth_error l p
  | PSCalc k => Some (calc_get k p)
  end.

(** [notice_page_state] of the page-state caches (src/cache/page_states.rs 274, 310). *)
Definition ps_notice (c : pscache) (p : nat) (s : pstate) : option pscache :=
  match c with
  | PSNone => Some PSNone
  | PSArray l => if p <? length l then Some (PSArray (list_set l p (Some s))) else None
  | PSCalc k => match calc_notice k p s with Some k' => Some (PSCalc k') | None => None end
  end.

(** [invalidate_cache_state] of the page-state caches (src/cache/page_states.rs 237, 277, 313). *)
Definition ps_inval (c : pscache) : pscache :=
  match c with
  | PSNone => PSNone
  | PSArray l => PSArray (map (fun _ => None) l)
  | PSCalc k => PSCalc (calc_new (k_pc k))
  end.

(** Page pointers: [Uncached] or [ArrayPagePointers]/[HeapPagePointers]
    (src/cache/page_pointers.rs 42-192): pointers after the erased prefix and after the written part. *)
Inductive ppcache :=
| PPNone
| PPArray (er wr : list (option nat)).

(** Entry of an array of options, e.g. src/cache/page_pointers.rs 202-216 (an index out of range, a panic there, gives [None]; excluded by [fresh_cache]). *)
Definition lookup {A} (l : list (option A)) (i : nat) : option A :=
  match nth_error l i with Some (Some x) => Some x | _ => None end.

(** [first_item_after_erased], src/cache/page_pointers.rs 202-208. *)
Definition pp_erased (c : ppcache) (p : nat) : option nat :=
  match c with PPNone => None | PPArray er _ => lookup er p end.

(** [first_item_after_written], src/cache/page_pointers.rs 210-216. *)
Definition pp_written (c : ppcache) (p : nat) : option nat :=
  match c with PPNone => None | PPArray _ wr => lookup wr p end.

(** [NonZeroU32::new], src/cache/page_pointers.rs 236, 256. *)
Definition nonzero (n : nat) : option nat := if n =? 0 then None else Some n.

(** [notice_item_written], src/cache/page_pointers.rs 218-238; [nx] is the header's next item address. *)
Definition pp_item_written (g : geom) (c : ppcache) (a nx : nat) : ppcache :=
  match c with
  | PPNone => PPNone
  | PPArray er wr =>
      let p := pindex g a in
      match lookup wr p with
      | Some old => if nx <=? old then c else PPArray er (list_set wr p (nonzero nx))
      | None => PPArray er (list_set wr p (nonzero nx))
      end
  end.

(** [notice_item_erased], src/cache/page_pointers.rs 240-259. *)
Definition pp_item_erased (g : geom) (c : ppcache) (a nx : nat) : ppcache :=
  match c with
  | PPNone => PPNone
  | PPArray er wr =>
      let p := pindex g a in
      let nu := match lookup er p with Some x => x | None => dstart g p end in
      if a =? nu then PPArray (list_set er p (nonzero nx)) wr else c
  end.

(** [notice_page_state] of the pointers, src/cache/page_pointers.rs 261-271. *)
Definition pp_page_state (c : ppcache) (p : nat) (s : pstate) : ppcache :=
  match c, s with
  | PPArray er wr, Open => PPArray (list_set er p None) (list_set wr p None)
  | _, _ => c
  end.

(** [invalidate_cache_state] of the pointers, src/cache/page_pointers.rs 273-280. *)
Definition pp_inval (c : ppcache) : ppcache :=
  match c with
  | PPNone => PPNone
  | PPArray er wr => PPArray (map (fun _ => None) er) (map (fun _ => None) wr)
  end.

(** [move_to_front], src/cache/key_pointers.rs 186-193: rotate [data[..=index]] right by one. *)
Definition move_to_front {T} (l : list T) (i : nat) : list T :=
  match nth_error l i with
  | Some x => x :: firstn i l ++ skipn (S i) l
  | None => l
  end.

(** [move_to_back], src/cache/key_pointers.rs 195-202: rotate [data[index..]] left by one. *)
Definition move_to_back {T} (l : list T) (i : nat) : list T :=
  match nth_error l i with
  | Some x => firstn i l ++ skipn (S i) l ++ [x]
  | None => l
  end.

Section Keys.
Context {K : Type} (keqb : K -> K -> bool).

(** Key pointers: [Uncached] or [ArrayKeyPointers]/[HeapKeyPointers] (src/cache/key_pointers.rs 27-123). *)
Inductive kpcache :=
| KPNone
| KPArray (l : list (option (K * nat))).

(** Index and address of the first entry with the key (the [find] of src/cache/key_pointers.rs 144, 154, 171). *)
Fixpoint kp_find (l : list (option (K * nat))) (k : K) (i : nat) : option (nat * nat) :=
  match l with
  | [] => None
  | Some (k', a) :: t => if keqb k k' then Some (i, a) else kp_find t k (S i)
  | None :: t => kp_find t k (S i)
  end.

(** [key_location], src/cache/key_pointers.rs 140-146. *)
Definition kp_get (c : kpcache) (k : K) : option nat :=
  match c with
  | KPNone => None
  | KPArray l => match kp_find l k 0 with Some (_, a) => Some a | None => None end
  end.

(** [notice_key_location] and [insert_front], src/cache/key_pointers.rs 132-136, 148-164.
    Panics on address zero (line 159, 162) and on an empty array (line 134). *)
Definition kp_notice (c : kpcache) (k : K) (a : nat) : option kpcache :=
  match c with
  | KPNone => Some KPNone
  | KPArray l =>
      if a =? 0 then None
      else match kp_find l k 0 with
           | Some (i, _) => Some (KPArray (move_to_front (list_set l i (Some (k, a))) i))
           | None =>
               if length l =? 0 then None
               else Some (KPArray (move_to_front (list_set l (length l - 1) (Some (k, a))) (length l - 1)))
           end
  end.

(** [notice_key_erased], src/cache/key_pointers.rs 166-177. *)
Definition kp_erased (c : kpcache) (k : K) : kpcache :=
  match c with
  | KPNone => KPNone
  | KPArray l =>
      match kp_find l k 0 with
      | Some (i, _) => KPArray (move_to_back (list_set l i None) i)
      | None => c
      end
  end.

(** [invalidate_cache_state] of the keys, src/cache/key_pointers.rs 179-183. *)
Definition kp_inval (c : kpcache) : kpcache :=
  match c with
  | KPNone => KPNone
  | KPArray l => KPArray (map (fun _ => None) l)
  end.

End Keys.
Arguments kpcache : clear implicits.
Arguments KPNone {K}.
Arguments KPArray {K} l.

(** [Cache], src/cache/mod.rs 91-102. *)
Record cache (K : Type) := mkcache {
  c_dirty : bool; c_ps : pscache; c_pp : ppcache; c_kp : kpcache K }.
Arguments mkcache {K}. Arguments c_dirty {K}. Arguments c_ps {K}. Arguments c_pp {K}. Arguments c_kp {K}.

(** [Cache::new_uncached], src/cache/mod.rs 121-129. *)
Definition cache_none {K} : cache K := mkcache false PSNone PPNone KPNone.

(** [invalidate_cache_state] of the whole cache, src/cache/mod.rs 203-208. *)
Definition cache_inval {K} (c : cache K) : cache K :=
  mkcache false (ps_inval (c_ps c)) (pp_inval (c_pp c)) (kp_inval (c_kp c)).

(** [mark_dirty] and [unmark_dirty], src/cache/mod.rs 141-148. *)
Definition set_dirty {K} (c : cache K) (b : bool) : cache K :=
  mkcache b (c_ps c) (c_pp c) (c_kp c).
