(** Claims about what the page caches save.  Statements only; proofs are in CheapP.v.
    Vocabulary (Cheap.v, Cost.v): [page_caches g c]: the cache [c] has a place for the state and for the pointers of each page; [q_exec (R := counted)]: the call, on a device that keeps a list
    of the reads it is asked for; [reads_between s s']: these reads; [moved_on g s s']: a page was erased or closed in between.  See QObs.v for [q_reached] and [item_ok]. *)
From Coq Require Import List NArith Arith Bool Lia.
From Verif Require Import Base BaseP CrcP Flash Cache State Item Generic Queue Client QObs QCase MCase FormatSpec Reads Cost Work Cheap CheapP.
Import ListNotations.

(** C52.  A push straight after a completed push reads nothing at all from the flash, unless it has to move on to another page.  The state before the two pushes is any state that can be
    reached, also just after a restart or a power failure; the power may be about to fail in the first push as long as it completes. *)
Theorem c52_push pf g evs l s d ow p s1 d2 ow2 : q_reached pf g evs l s -> page_caches g (s_ca s) -> item_ok pf d -> item_ok pf d2 -> (pf = false -> p = None) ->
  q_exec (R := steady) g (QPush d ow) (power s p) = (AUnit (Ok tt), s1) -> let n := q_exec (R := counted) g (QPush d2 ow2) (power s1 None) in
  fst n = AUnit (Ok tt) -> reads_between s1 (snd n) = [] \/ moved_on g s1 (snd n).
Proof. exact (cheap_push pf g evs l s d ow p s1 d2 ow2). Qed.
Print Assumptions c52_push.

(** The answers to calls, one after the other, each with the number of reads it takes. *)
Fixpoint costs (g : geom) (s : st unit) (cs : list qcall) : list (qans * nat) :=
  match cs with
  | [] => []
  | c :: cs' => let n := q_exec (R := counted) g c (power s None) in (fst n, length (reads_between s (snd n))) :: costs g (snd n) cs'
  end.
Definition hg : geom := mkgeom 1 8 256 0 3.
Definition hc : cache unit := mkcache false (PSArray (repeat None 3)) (PPArray (repeat None 3) (repeat None 3)) KPNone.
Definition hc0 : cache unit := mkcache false PSNone PPNone KPNone.
Definition hpush : qcall := QPush (it 1 8) true.
Definition hpop : qcall := QPop (repeat 0%N 256).
Definition hs (c : cache unit) (evs : list qev) : list qans * st unit := q_run (R := steady) hg (st_new (mfl true) c) evs.
Definition unfailed (cs : list qcall) : list qev := map (fun c => ECall c None) cs.
Lemma hg_ok : geom_ok hg. Proof. unfold geom_ok. cbn. lia. Qed.
Lemma hpush_ok pf : item_ok pf (it 1 8). Proof. apply item_okb. vm_compute. reflexivity. Qed.
Lemma hc_fresh : fresh_cache (NP hg) hc.
Proof. split; [reflexivity|]. split; [exact (FPArray 3 3 (le_n 3))|]. split; [exact (FQArray 3 3 3 (le_n 3) (le_n 3))|constructor]. Qed.
Lemma hs_reached evs : Forall (qev_ok true hg) evs -> q_reached true hg evs (fst (hs hc evs)) (snd (hs hc evs)).
Proof.
  intros EV. exists (mfl true), hc. split; [exact (fl_erased hg)|]. split; [reflexivity|]. split; [reflexivity|]. split; [exact hc_fresh|]. split; [|split; [exact EV|unfold hs; now destruct (q_run hg _ evs)]].
  split; [exact hg_ok|]. intros _. split; [left; cbn; lia|now left].
Qed.
(** After a restart, and with a push cut short by a power failure before that: the first push has to look around, the others need not read; the one that moves on to the next page erases it.
    Without caches each push scans its page. *)
Definition hevs : list qev := unfailed (repeat hpush 20) ++ [ECall hpush (Some 9); EBoot hc].
Lemma pushes_ok n : Forall (qev_ok true hg) (unfailed (repeat hpush n)).
Proof. apply Forall_forall. intros e He. apply in_map_iff in He. destruct He as (c & <- & Hc). apply repeat_spec in Hc. subst c. split; [discriminate|exact (hpush_ok true)]. Qed.
Lemma hevs_ok : Forall (qev_ok true hg) hevs.
Proof. apply Forall_app. split; [apply pushes_ok|]. constructor; [split; [discriminate|exact (hpush_ok true)]|]. constructor; [exact hc_fresh|constructor]. Qed.
Example c52_case : q_reached true hg hevs (fst (hs hc hevs)) (snd (hs hc hevs)) /\ page_caches hg (s_ca (snd (hs hc hevs))) /\ item_ok true (it 1 8) /\
  nth 20 (fst (hs hc hevs)) (ANum (Ok 0)) = AUnit (Err (EStorage SShutoff)) /\
  costs hg (snd (hs hc hevs)) (repeat hpush 12) = map (fun n => (AUnit (Ok tt), n)) [11; 0; 0; 0; 0; 0; 0; 0; 0; 2; 0; 0] /\
  costs hg (snd (hs hc0 (unfailed (repeat hpush 20)))) (repeat hpush 6) = map (fun n => (AUnit (Ok tt), n)) [12; 13; 14; 15; 16; 17].
Proof.
  split; [exact (hs_reached hevs hevs_ok)|]. split; [|split; [exact (hpush_ok true)|split; [vm_compute; reflexivity|split; vm_compute; reflexivity]]].
  assert (X : match s_ca (snd (hs hc hevs)) with mkcache _ (PSArray l) (PPArray er wr) _ => (3 <=? length l) && (3 <=? length er) && (3 <=? length wr) | _ => false end = true) by (vm_compute; reflexivity).
  destruct (s_ca (snd (hs hc hevs))) as [? [|l|] [|er wr] ?]; try discriminate. apply andb_prop in X. destruct X as (X & X3). apply andb_prop in X. destruct X as (X1 & X2). apply Nat.leb_le in X1, X2, X3. exists l, er, wr. repeat split; assumption.
Qed.
(** Pops are as cheap as that only where the pointer behind the removed items is known.  It is learned from removing the items of a page in order from its first one
    ([notice_item_erased], src/cache/page_pointers.rs 240-259).  After a restart with the first items of a page already removed it is never learned for this page: with the same caches, each
    pop passes over all removed items again, until the page is used up. *)
Definition hitems : list qcall := map (fun x => QPush (it x 8) false) [1; 2; 3; 4; 5; 6; 7; 8; 9; 10; 11; 12]%N.
Definition popped (xs : list N) (ns : list nat) : list (qans * nat) := combine (map (fun x => AItem (Ok (Some (it x 8)))) xs) ns.
Example c52_pops : costs hg (snd (hs hc (unfailed hitems))) (repeat hpop 6) = popped [1; 2; 3; 4; 5; 6]%N [2; 2; 2; 2; 2; 2] /\
  costs hg (snd (hs hc (unfailed (hitems ++ repeat hpop 6)))) (repeat hpop 5) = popped [7; 8; 9; 10; 11]%N [2; 2; 2; 2; 2] /\
  costs hg (snd (hs hc (unfailed (hitems ++ repeat hpop 6) ++ [EBoot hc]))) (repeat hpop 5) = popped [7; 8; 9; 10; 11]%N [14; 9; 10; 11; 12].
Proof. repeat split; vm_compute; reflexivity. Qed.
