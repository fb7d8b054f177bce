(** Calls that need few reads thanks to the page caches.  Nothing here models library code; reads are counted as in Cost.v. *)
From Coq Require Import List NArith Arith Bool.
From Verif Require Import Base Flash Cache State FormatSpec Cost Work.
Import ListNotations.

(** The page states and the page pointers are cached, with a place for each page ([ArrayPageStates] and [ArrayPagePointers]). *)
Definition page_caches {K} (g : geom) (c : cache K) : Prop :=
  exists l er wr, c_ps c = PSArray l /\ c_pp c = PPArray er wr /\ NP g <= length l /\ NP g <= length er /\ NP g <= length wr.
(** Between [s] and [s'] a page was erased or the end marker of a page was set. *)
Definition moved_on {K} (g : geom) (s s' : st K) : Prop :=
  erases_between s s' <> [] \/ exists p, p < NP g /\ ended g (f_mem (s_fl s)) p = false /\ ended g (f_mem (s_fl s')) p = true.
