(** Claims about storages that share a chip.  Statements only; proofs are in PartsP.v.  Vocabulary (Parts.v): [inside g x]: the address belongs to the range of the storage; [among]: a history in
    which others change the rest of the chip in any way between the events; [alike]: the same contents of the range (bytes and counters), the same log of refused accesses, cache, buffer and
    iterators; [kept]: nothing outside of the range changed; [two_run]: two storages used in turn on one chip; [unharmed]: each of the two as if it had been alone. *)
From Coq Require Import List NArith Arith Bool Lia.
From Verif Require Import Base Flash Cache State Item Generic Queue Map Codec TMap Client MClient QCase MCase QSpec Parts PartsP.
Import ListNotations.

(** C48, queue: whatever happens to the rest of the chip between the calls, from any state and in any history with power failures and restarts, the queue answers as if it were alone. *)
Theorem c48_queue g s evs l s2 : among g (q_ev g) s evs l s2 -> l = fst (q_run g s evs) /\ alike g (snd (q_run g s evs)) s2.
Proof. exact (q_among g s evs l s2). Qed.
(** C48, map. *)
Theorem c48_map {K} (KO : keyops K) g s evs l s2 : among g (m_ev KO g) s evs l s2 -> l = fst (m_run KO g s evs) /\ alike g (snd (m_run KO g s evs)) s2.
Proof. exact (m_among KO g s evs l s2). Qed.
(** C48, map with typed values. *)
Theorem c48_typed {K} (KO : keyops K) g s evs l s2 : among g (t_ev KO g) s evs l s2 -> l = fst (t_run KO g s evs) /\ alike g (snd (t_run KO g s evs)) s2.
Proof. exact (t_among KO g s evs l s2). Qed.
(** C48: no event of a storage, from any state, touches the rest of the chip. *)
Theorem c48_queue_keeps g s e : kept g (s_fl s) (s_fl (snd (q_ev g e s))).
Proof. exact (q_kept g s e). Qed.
Theorem c48_map_keeps {K} (KO : keyops K) g s e : kept g (s_fl s) (s_fl (snd (t_ev KO g e s))).
Proof. exact (t_kept KO g s e). Qed.
(** C48, two storages on one chip, their events in any order. *)
Theorem c48_queue_and_map {K} (KO : keyops K) g1 g2 ch s1 s2 evs : apart g1 g2 ->
  unharmed g1 g2 ch (q_run g1 (on_chip ch s1) (lefts evs)) (m_run KO g2 (on_chip ch s2) (rights evs)) (two_run (q_ev g1) (m_ev KO g2) ch s1 s2 evs).
Proof. exact (qm_unharmed KO g1 g2 ch s1 s2 evs). Qed.
Theorem c48_two_queues g1 g2 ch s1 s2 evs : apart g1 g2 ->
  unharmed g1 g2 ch (q_run g1 (on_chip ch s1) (lefts evs)) (q_run g2 (on_chip ch s2) (rights evs)) (two_run (q_ev g1) (q_ev g2) ch s1 s2 evs).
Proof. exact (qq_unharmed g1 g2 ch s1 s2 evs). Qed.
Theorem c48_two_maps {K1 K2} (KO1 : keyops K1) (KO2 : keyops K2) g1 g2 ch s1 s2 evs : apart g1 g2 ->
  unharmed g1 g2 ch (m_run KO1 g1 (on_chip ch s1) (lefts evs)) (m_run KO2 g2 (on_chip ch s2) (rights evs)) (two_run (m_ev KO1 g1) (m_ev KO2 g2) ch s1 s2 evs).
Proof. exact (mm_unharmed KO1 KO2 g1 g2 ch s1 s2 evs). Qed.
Print Assumptions c48_queue.
Print Assumptions c48_map.
Print Assumptions c48_typed.
Print Assumptions c48_queue_keeps.
Print Assumptions c48_map_keeps.
Print Assumptions c48_queue_and_map.
Print Assumptions c48_two_queues.
Print Assumptions c48_two_maps.

(** A queue on the first three 64-byte pages of a chip, a map on the next three, directly behind it; the queue wraps, the map is moved to a new page, and power fails in one call of each. *)
Definition pq : geom := mkgeom 1 8 64 0 3.
Definition pm : geom := mkgeom 1 8 64 192 3.
Definition pevs : list (qev + mev N) :=
  flat_map (fun i => [inl (ECall (QPush (it (N.of_nat i) 9) false) None); inr (Sto (N.of_nat (i mod 3)) (N.of_nat i) 6 None); inl (ECall (QPop cb) None)]) (seq 1 12) ++
  [inl (ECall (QPush (it 20 9) false) (Some 9)); inl (EBoot cc); inr (Boot 3); inl (ECall (QPush (it 21 9) false) None);
   inr (Sto 1 22 6 (Some 13)); inl (EBoot cc); inr (Boot 3); inl (ECall (QPop cb) None); inr (Fet 1); inr (Fet 2); inl (ECall (QPop cb) None)].
Definition pr := two_run (q_ev pq) (m_ev kn pm) flash_new st0 (mst0 false 3) pevs.
Example c48_case : apart pq pm /\ skipn 24 (fst (fst pr)) = [AUnit (Err cut); AUnit (Ok tt); AItem (Ok (Some (it 21 9))); AItem (Ok None)] /\
  skipn 12 (snd (fst pr)) = [RUnit (Err cut); RVal (Ok (Some (it 10 6))); RVal (Ok (Some (it 11 6)))] /\
  rev (f_er (fst (fst (snd pr)))) = [(0, 64); (64, 128); (192, 256); (128, 192); (0, 64); (256, 320); (64, 128); (128, 192)].
Proof. split; [unfold apart, inside, FEND; cbn; lia|]. split; [|split]; vm_compute; reflexivity. Qed.
(** A history as in [c48_map], in which another program fills the first pages between the calls, and then everything behind the map. *)
Definition scribble (f : flash) (a n : nat) (b : N) : flash := mkflash (fun x => if (a <=? x) && (x <? a + n) then b else f_mem f x) (f_wc f) (f_er f) (f_fuel f) (f_ae f) (f_aw f) (f_bad f).
Example c48_case_among : exists s2, among pm (m_ev kn pm) (mst0 false 3) [Sto 1 10 6 None; Sto 1 20 6 None; Fet 1] [RUnit (Ok tt); RUnit (Ok tt); RVal (Ok (Some (it 20 6)))] s2.
Proof.
  assert (EL : forall f a n b, a + n <= 192 \/ 384 <= a -> elsewhere pm f (scribble f a n b)).
  { intros f a n b H. split; [|repeat split]. intros x I. split; [|reflexivity]. unfold scribble, inside, FEND in *. cbn in I. cbn [f_mem]. destruct (Nat.leb_spec a x), (Nat.ltb_spec x (a + n)); cbn [andb]; auto. lia. }
  assert (AE : forall s f e (l : list (mans N)) t l', elsewhere pm (s_fl s) f -> fst (m_ev kn pm e (set_fl s f)) = l -> (exists s2, among pm (m_ev kn pm) (snd (m_ev kn pm e (set_fl s f))) t l' s2) ->
    exists s2, among pm (m_ev kn pm) s (e :: t) (l ++ l') s2).
  { intros s f e l t l' H1 <- (s2 & H2). exists s2. eapply AmEv; eauto. now destruct (m_ev _ _ _ _). }
  change [RUnit (Ok tt); RUnit (Ok tt); RVal (Ok (Some (it 20 6)))] with ([@RUnit N (Ok tt)] ++ [RUnit (Ok tt)] ++ [RVal (Ok (Some (it 20 6)))] ++ []).
  eapply AE; [apply (EL _ 0 192 7%N); lia|vm_compute; reflexivity|]. eapply AE; [apply (EL _ 64 100 0%N); lia|vm_compute; reflexivity|].
  eapply AE; [apply (EL _ 384 900 85%N); lia|vm_compute; reflexivity|]. eexists. apply AmEnd. apply elsewhere_refl.
Qed.

(** [apart] is needed: with one page in common the map loses its values. *)
Theorem c48_overlap_refuted : exists g1 g2 evs, ~ apart g1 g2 /\
  ~ unharmed g1 g2 flash_new (q_run g1 (on_chip flash_new st0) (lefts evs)) (m_run kn g2 (on_chip flash_new (mst0 false 3)) (rights evs)) (two_run (q_ev g1) (m_ev kn g2) flash_new st0 (mst0 false 3) evs).
Proof.
  exists pq, (mkgeom 1 8 64 128 3), pevs. split.
  - intros A. apply (A 128); unfold inside, FEND; cbn; lia.
  - intros U. apply unharmed_first in U. revert U. vm_compute. discriminate.
Qed.
