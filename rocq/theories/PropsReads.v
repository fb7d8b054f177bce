(** Claims about reads that go wrong.  Statements only; proofs are in ReadsP.v.
    Vocabulary (Reads.v), in terms of the documented representation: [garbled gl]: a device that stores everything correctly but whose reads deliver what [gl] says;
    [harmless]: each read is right, or it is seen to be wrong - the length in a header does not match its checksum, the data of an intact item does not match its checksum, a marker
    still counts as what it is - and the next read is right.  [same_but_log]: the same flash contents, cache, buffer and iterators. *)
From Coq Require Import List NArith Arith Bool Lia.
From Verif Require Import Base CrcP Flash Cache State Item Generic Queue Map Codec TMap Client MClient QCase MCase FormatSpec Reads ReadsP ReadsCase.
Import ListNotations.

(** C45, queue: wrong reads of this kind change no answer and nothing in flash, from any state and in any history, with power failures and restarts. *)
Theorem c45_queue g gl s evs : geom_ok g -> (forall x, is_byte (f_mem (s_fl s) x)) -> harmless g gl ->
  fst (q_run (R := garbled gl) g s evs) = fst (q_run g s evs) /\ same_but_log (snd (q_run g s evs)) (snd (q_run (R := garbled gl) g s evs)).
Proof. exact (q_reads g gl s evs). Qed.
(** C45, map. *)
Theorem c45_map {K} (KO : keyops K) g gl s evs : geom_ok g -> (forall x, is_byte (f_mem (s_fl s) x)) -> harmless g gl ->
  fst (m_run (R := garbled gl) KO g s evs) = fst (m_run KO g s evs) /\ same_but_log (snd (m_run KO g s evs)) (snd (m_run (R := garbled gl) KO g s evs)).
Proof. exact (m_reads KO g gl s evs). Qed.
(** C45, map with typed values. *)
Theorem c45_typed {K} (KO : keyops K) g gl s evs : geom_ok g -> (forall x, is_byte (f_mem (s_fl s) x)) -> harmless g gl ->
  fst (t_run (R := garbled gl) KO g s evs) = fst (t_run KO g s evs) /\ same_but_log (snd (t_run KO g s evs)) (snd (t_run (R := garbled gl) KO g s evs)).
Proof. exact (t_reads KO g gl s evs). Qed.
Print Assumptions c45_queue.
Print Assumptions c45_map.
Print Assumptions c45_typed.

(** Every other read has one wrong bit, unless that would go unnoticed.  In the queue history of QCase.v and the map history of MCase.v, 8 and 110 additional reads are made because of that. *)
Definition nreads {K} (x : st K) : nat := length (f_bad (s_fl x)).
Definition exact_reads : garbling := fun _ => bytes.
Example c45_queue_case : harmless cg (tame cg flicker) /\
  nreads (snd (q_run (R := garbled exact_reads) cg st0 evs1)) = 42 /\ nreads (snd (q_run (R := garbled (tame cg flicker)) cg st0 evs1)) = 50.
Proof. split; [apply tame_ok|]. split; vm_compute; reflexivity. Qed.
Example c45_map_case : harmless (mg 3) (tame (mg 3) flicker) /\
  nreads (snd (m_run (R := garbled exact_reads) kn (mg 3) (mst0 false 3) mevs1)) = 238 /\ nreads (snd (m_run (R := garbled (tame (mg 3) flicker)) kn (mg 3) (mst0 false 3) mevs1)) = 348.
Proof. split; [apply tame_ok|]. split; vm_compute; reflexivity. Qed.

(** What [harmless] excludes.  One read delivers one wrong bit of the data checksum of a header, which only the length checksum is compared with: the oldest item of a queue is passed over and comes second. *)
Theorem c45_checksum_bit_refuted : exists t d1 d2, fst (q_run (R := garbled (one_byte t 0 (N.lxor 4))) cg st0
    [ECall (QPush d1 false) None; ECall (QPush d2 false) None; ECall (QPop cb) None; ECall (QPop cb) None]) =
  [AUnit (Ok tt); AUnit (Ok tt); AItem (Ok (Some d2)); AItem (Ok (Some d1))] /\ d1 <> d2.
Proof. exists 7, (it 4 33), (it 5 40). split; [vm_compute; reflexivity|discriminate]. Qed.
(** The same in a map, while values are copied to a new page: the value of key 2 is lost for good, though all calls succeed. *)
Definition evr : list (mev N) := [Sto 1 3 10 None; Sto 2 4 10 None; Sto 1 5 10 None; Sto 3 6 10 None; Sto 3 9 10 None; Sto 1 2 10 None; Sto 3 7 10 None].
Theorem c45_migration_refuted : exists t, let r := m_run (R := garbled (one_byte t 0 (N.lxor 4))) kn (mg 3) (mst0 false 3) evr in
  fst r = repeat (RUnit (Ok tt)) 7 /\ fst (m_run kn (mg 3) (snd r) [Boot 3; Fet 1; Fet 2; Fet 3]) = [RVal (Ok (Some (it 2 10))); RVal (Ok None); RVal (Ok (Some (it 7 10)))] /\
  fst (m_run kn (mg 3) (snd (m_run kn (mg 3) (mst0 false 3) evr)) [Fet 2]) = [RVal (Ok (Some (it 4 10)))].
Proof. exists 12. cbv zeta. split; [vm_compute; reflexivity|]. split; vm_compute; reflexivity. Qed.
(** One read delivers only ones in place of a header: a push takes the place for free and writes over the item that is there; both items are lost. *)
Theorem c45_ones_refuted : exists t d1 d2, fst (q_run (R := garbled (all_ones t)) cg st0
    [ECall (QPush d1 false) None; EBoot cc; ECall (QPush d2 false) None; ECall (QPop cb) None; ECall (QPop cb) None]) =
  [AUnit (Ok tt); AUnit (Ok tt); AItem (Ok None); AItem (Ok None)].
Proof. exists 9, (it 4 33), (it 5 40). vm_compute. reflexivity. Qed.
Print Assumptions c45_checksum_bit_refuted.
Print Assumptions c45_migration_refuted.
Print Assumptions c45_ones_refuted.
