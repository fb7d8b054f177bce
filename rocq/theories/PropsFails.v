(** C50.  Reads, writes and erases that fail: the device hands an error to the library. *)
From Coq Require Import List NArith Arith Bool Lia.
From Verif Require Import Base Flash Cache State Item Generic Queue Map Codec CodecP TMap Client QSpec QObs QCase MClient MSpec MObs MCase Reads Drops Fails FailsHP FailsWP.
Import ListNotations.

(** The queue object goes on being used.  Any reads of any calls fail; other calls may be cut off by power failures.  The answers are those of a FIFO: a call with failing reads
    is answered as if they had worked, or with that very error, and then it has run or stopped where a power failure could have stopped it.  Reads fail only while no page is
    half erased or half marked, unless erases are atomic. *)
Theorem c50_queue g f c evs l s : erased g f -> f_fuel f = None -> fresh_cache (NP g) c -> setting true g (f_ae f) (f_aw f) -> Forall (qfev_ok g) evs ->
  f_ae f = true \/ q_clear g (st_new f c) evs -> q_frun g (st_new f c) evs = (l, s) ->
  exists q, qftrace (rup g) (HL g) (page_cap g) (2 <=? NP g) [] evs l q /\ q_holds g s q.
Proof. exact (fail_queue g f c evs l s). Qed.
(** The map, with a new cache object after each call that handed on the error. *)
Theorem c50_map {K} (KO : keyops K) (legal : K -> Prop) g n f c evs l s : key_codec KO legal -> erased g f -> f_fuel f = None -> fresh_cache (NP g) c -> msetting true g (f_aw f) ->
  Forall (mfev_ok KO legal g n) evs -> calm_f (f_ae f) calm0 evs l -> m_frun KO g (st_new f c) evs = (l, s) ->
  exists m log, mftrace (k_eqb KO) legal (item_bytes KO) (mbig g) (@nothing K) [] evs l m log /\ m_holds KO legal g n s m.
Proof. exact (fail_map KO legal g n f c evs l s). Qed.

(** Any flash contents, any cache: the call answers and does what it would have with working reads; or it hands on the error and leaves the flash as some power failure in the
    same call does; or there is a half-marked page while one of its reads is under way. *)
Theorem c50_queue_any g s c e F : geom_ok g -> let r := q_exec (R := steady) g c (power s None) in let d := q_exec (R := fail_at s e F) g c (power s None) in
  (fst d = fst r /\ same_but_log (snd r) (snd d)) \/
  (q_failed e (fst d) = true /\ exists k, same_flash (snd d) (snd (q_exec (R := steady) g c (power s (Some k))))) \/
  (exists t, let w := q_exec (R := drop_at s t) g c (power s None) in q_gone (fst w) = true /\ half_marked g (snd w) = true).
Proof. exact (q_any_fail g s c e F). Qed.
Theorem c50_map_any {K} (KO : keyops K) g s c e F : geom_ok g -> match c with MIter _ _ => False | _ => True end ->
  let r := m_exec (R := steady) KO g c (power s None) in let d := m_exec (R := fail_at s e F) KO g c (power s None) in
  (fst d = fst r /\ same_but_log (snd r) (snd d)) \/
  (m_failed e (fst d) = true /\ exists k, same_flash (snd d) (snd (m_exec (R := steady) KO g c (power s (Some k))))) \/
  (exists t, let w := m_exec (R := drop_at s t) KO g c (power s None) in m_gone (fst w) = true /\ half_marked g (snd w) = true).
Proof. exact (m_any_fail KO g s c e F). Qed.
Theorem c50_typed_any {K T} (KO : keyops K) (V : valops T) g s b k v e F : geom_ok g ->
  let r := t_store (R := steady) KO g V b k v (power s None) in let d := t_store (R := fail_at s e F) KO g V b k v (power s None) in
  (fst d = fst r /\ same_but_log (snd r) (snd d)) \/
  (is_failed e (fst d) = true /\ exists j, same_flash (snd d) (snd (t_store (R := steady) KO g V b k v (power s (Some j))))) \/
  (exists t, let w := t_store (R := drop_at s t) KO g V b k v (power s None) in is_gone (fst w) = true /\ half_marked g (snd w) = true).
Proof. exact (t_any_fail KO V g s b k v e F). Qed.

(** Writes and erases.  [Some k]: the operation that would program or erase the byte after the [k]-th fails when it gets there (or without any effect, for atomic erases and
    writes); after that the device works again ([spend], Flash.v).  The call is answered as if it had not failed, because it did not get there, or with that error: no failure of
    a write is ignored.  What the stored data and later calls with the same object are like is said by C05 and C11, where a cut call need not be followed by a restart. *)
Theorem c50_queue_writes g s c k : let r := q_exec (R := steady) g c (power s None) in let d := q_exec (R := steady) g c (power s (Some k)) in
  (fst d = fst r /\ same_flash (snd r) (snd d)) \/ q_failed SShutoff (fst d) = true.
Proof. exact (q_tells g s c k). Qed.
Theorem c50_map_writes {K} (KO : keyops K) g s c k : let r := m_exec (R := steady) KO g c (power s None) in let d := m_exec (R := steady) KO g c (power s (Some k)) in
  (fst d = fst r /\ same_flash (snd r) (snd d)) \/ m_failed SShutoff (fst d) = true.
Proof. exact (m_tells KO g s c k). Qed.
Theorem c50_typed_writes {K T} (KO : keyops K) (V : valops T) g s b k v n : let r := t_store (R := steady) KO g V b k v (power s None) in
  let d := t_store (R := steady) KO g V b k v (power s (Some n)) in (fst d = fst r /\ same_flash (snd r) (snd d)) \/ is_failed SShutoff (fst d) = true.
Proof. exact (t_tells KO V g s b k v n). Qed.
(* a push into a full queue that fails in its erase (128 bytes) or in one of its writes *)
Definition fullq : st unit := snd (q_frun cg st0 [FCall (ECall (QPush (it 1 40) false) None); FCall (ECall (QPush (it 2 40) false) None); FCall (ECall (QPush (it 3 40) false) None);
  FCall (ECall (QPush (it 4 33) false) None); FCall (ECall (QPush (it 5 40) false) None); FCall (ECall (QPush (it 6 40) false) None)]).
Example c50_writes_case : map (fun k => fst (q_exec cg (QPush (it 7 40) true) (power fullq (Some k)))) [0; 100; 128; 140; 150; 185; 300] =
  repeat (AUnit (Err (EStorage SShutoff))) 6 ++ [AUnit (Ok tt)].
Proof. vm_compute. reflexivity. Qed.

(** It does not hold of map iterations: an error while the state of the next page is read is ignored and the page left out (src/map.rs 1092-1114), so that the iteration ends
    normally without keys that are stored. *)
Definition threek : st N := snd (m_run kn (mg 3) (mst0 false 3) ([Sto 1 1 15 None; Sto 2 2 15 None; Sto 3 3 15 None; Boot 3])%N).
Definition allk : mcall N := MIter kb (repeat kb 4).
Theorem c50_iteration_refuted : exists t, fst (m_exec (R := fail_at threek SOob (Nat.eqb t)) kn (mg 3) allk (power threek None)) = RList (Ok [Some (3%N, it 3 15); None]) /\
  fst (m_exec (R := steady) kn (mg 3) allk (power threek None)) = RList (Ok [Some (1%N, it 1 15); Some (2%N, it 2 15); Some (3%N, it 3 15); None]).
Proof. exists 5. split; vm_compute; reflexivity. Qed.
Print Assumptions c50_queue.
Print Assumptions c50_map.
Print Assumptions c50_queue_any.
Print Assumptions c50_map_any.
Print Assumptions c50_typed_any.
Print Assumptions c50_queue_writes.
Print Assumptions c50_map_writes.
Print Assumptions c50_typed_writes.
Print Assumptions c50_iteration_refuted.

(** A queue that is filled and reopened; an overwriting push whose tenth read fails; a pop of which all reads fail but the first two; another overwriting push; later everything that was
    accepted and not evicted is there. *)
Definition FP (x : N) (n : nat) : qfev := FCall (ECall (QPush (it x n) false) None).
Definition fevs : list qfev := [FP 1 40; FP 2 40; FP 3 40; FP 4 33; FP 5 40; FP 6 40; FCall (EBoot cc)] ++
  [FRead (QPush (it 7 40) true) SOob (Nat.eqb 9); FRead (QPop cb) SAlign (fun t => 2 <=? t); FRead (QPop cb) SOob (Nat.eqb 90);
   FRead (QPush (it 7 40) true) SOob (Nat.eqb 20); FCall (ECall (QIter (repeat (cb, false) 6)) None)].
Example c50_queue_case : Forall (qfev_ok cg) fevs /\ q_clear cg st0 fevs /\ fst (q_frun cg st0 fevs) = repeat (AUnit (Ok tt)) 6 ++ [AUnit (Err (EStorage SOob)); AItem (Err (EStorage SAlign));
    AItem (Ok (Some (it 1 40))); AUnit (Ok tt); AIter (Ok [Ok (Some (it 3 40)); Ok (Some (it 4 33)); Ok (Some (it 5 40)); Ok (Some (it 6 40)); Ok (Some (it 7 40)); Ok None])].
Proof.
  split; [|split; [vm_compute; repeat split|vm_compute; reflexivity]]. unfold fevs, FP. cbn [app].
  repeat (constructor; [first [exact I | apply cc_fresh | split; [discriminate|]; try exact I; apply item_okb; vm_compute; reflexivity | apply item_okb; vm_compute; reflexivity]|]). constructor.
Qed.
(** A map: two attempts at a store that has to move items fail while it does; a fetch fails; everything is as before that store. *)
Definition mfevs : list (mfev (K := N)) := map MFCall [Sto 1 1 15 None; Sto 2 2 15 None; Sto 3 3 15 None; Sto 1 4 15 None]%N ++
  [MFRead (MStore kb 2%N (it 5 15)) SOob (Nat.eqb 12) (mc 3 2); MFRead (MStore kb 2%N (it 5 15)) SOob (fun t => (14 <=? t)%nat) (mc 3 2); MFCall (Fet 2);
   MFRead (MFetch kb 1%N) SAlign (Nat.eqb 3) (mc 3 1); MFCall (Fet 1); MFRead (MStore kb 3%N (it 6 15)) SOob (Nat.eqb 99) (mc 3 1); MFCall (Fet 3)]%N.
Example c50_map_case : let l := fst (m_frun kn (mg 3) (mst0 false 3) mfevs) in Forall (mfev_ok kn kl (mg 3) 64) mfevs /\ calm_f false calm0 mfevs l /\
  l = repeat (RUnit (Ok tt)) 4 ++ [RUnit (Err (EStorage SOob)); RUnit (Err (EStorage SOob)); RVal (Ok (Some (it 2 15))); RVal (Err (EStorage SAlign)); RVal (Ok (Some (it 4 15)));
    RUnit (Ok tt); RVal (Ok (Some (it 6 15)))].
Proof.
  cbv zeta. split; [|split; [|vm_compute; reflexivity]].
  - repeat (constructor; [first [apply call_okb_ok; vm_compute; reflexivity | split; [apply call_okb_ok; vm_compute; reflexivity|split; [apply mc_fresh; lia|exact I]] | split; [discriminate|apply call_okb_ok; vm_compute; reflexivity]]|]). constructor.
  - vm_compute. repeat split; auto.
Qed.
