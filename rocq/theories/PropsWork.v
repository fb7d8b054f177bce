(** Claims about the work that one call may take.  Statements only; proofs are in WorkP.v and WorkMP.v.
    Vocabulary (Work.v, Cost.v): [q_exec (R := counted)], [m_exec (R := counted)]: the call, on a device that keeps a list of the reads it is asked for; [reads_between], [erases_between]: the
    reads and the erases made between two states; [q_work g c], [m_work g c]: the two bounds, which depend on the geometry (the pages, and the words of a page) and, for an
    iteration, on how often it is advanced, and on nothing else. *)
From Coq Require Import List NArith Arith Bool Lia.
From Verif Require Import Base BaseP CrcP Flash Cache State Item Generic Queue Map Codec Client MClient QCase MCase FormatSpec SafeP Reads Cost Work WorkMP.
Import ListNotations.

(** C51.  Whatever bytes are on the chip, whatever calls were made before, with power failures and restarts, and whenever the power fails in this call: a queue call makes at most that many
    reads and erases.  The first part says that nothing changes for the list being kept. *)
Theorem c51_queue g f c0 evs c p : geom_ok g -> (forall x, is_byte (f_mem f x)) -> fresh_cache (NP g) c0 -> (forall c', In (EBoot c') evs -> fresh_cache (NP g) c') ->
  let s := snd (q_run (R := steady) g (st_new f c0) evs) in let r := q_exec (R := steady) g c (power s p) in let n := q_exec (R := counted) g c (power s p) in
  (fst n = fst r /\ same_but_log (snd r) (snd n)) /\ length (reads_between s (snd n)) <= fst (q_work g c) /\ length (erases_between s (snd n)) <= snd (q_work g c).
Proof. exact (q_all_work g f c0 evs c p). Qed.
(** C51 for maps: in any state, whatever the cache says. *)
Theorem c51_map {K} (KO : keyops K) g (s : st K) c p : geom_ok g -> (forall x, is_byte (f_mem (s_fl s) x)) ->
  let r := m_exec (R := steady) KO g c (power s p) in let n := m_exec (R := counted) KO g c (power s p) in
  (fst n = fst r /\ same_but_log (snd r) (snd n)) /\ length (reads_between s (snd n)) <= fst (m_work g c) /\ length (erases_between s (snd n)) <= snd (m_work g c).
Proof. exact (m_all_work KO g s c p). Qed.
Print Assumptions c51_queue.
Print Assumptions c51_map.

(** A chip full of zeroes (every page seems to be closed), and one full of noise: what the first calls take, next to the bounds. *)
Definition wfl (m : nat -> N) : flash := mkflash m (f_wc flash_new) [] None true 0 [].
Definition zeros : flash := wfl (fun _ => 0%N).
Definition noise : flash := wfl (fun a => N.of_nat ((a * a * 7 + a * 13 + 5) mod 251)).
Definition qwork (f : flash) (c : qcall) : qans * (nat * nat) * (nat * nat) :=
  let s := st_new (K := unit) f (mkcache false PSNone PPNone KPNone) in let n := q_exec (R := counted) (mg 3) c (power s None) in
  (fst n, (length (reads_between s (snd n)), length (erases_between s (snd n))), q_work (mg 3) c).
Definition mwork (s : st N) (c : mcall N) : mans N * (nat * nat) * (nat * nat) :=
  let n := m_exec (R := counted) kn (mg 3) c (power s None) in (fst n, (length (reads_between s (snd n)), length (erases_between s (snd n))), m_work (mg 3) c).
Example c51_geometry : geom_ok (mg 3) /\ (forall x, is_byte (f_mem zeros x)) /\ (forall x, is_byte (f_mem noise x)) /\ fresh_cache (NP (mg 3)) (mkcache (K := unit) false PSNone PPNone KPNone).
Proof. split; [unfold geom_ok; cbn; lia|]. split; [intros x; reflexivity|]. split; [|repeat split; constructor]. intros x. unfold is_byte. cbn [f_mem noise wfl]. pose proof (Nat.mod_upper_bound (x * x * 7 + x * 13 + 5) 251). lia. Qed.
Example c51_queue_case : qwork zeros (QPush (it 1 9) true) = (AUnit (Err ECorrupted), (34, 0), (141, 5)) /\ qwork noise (QPush (it 1 9) true) = (AUnit (Err ECorrupted), (42, 0), (141, 5)) /\
  qwork noise (QPop cb) = (AItem (Ok None), (50, 2), (277, 10)) /\ qwork flash_new (QPush (it 1 9) true) = (AUnit (Ok tt), (15, 0), (141, 5)).
Proof. repeat split; vm_compute; reflexivity. Qed.
(** Stores that have to repair or to compact a page. *)
Example c51_map_case : mwork (st_new zeros (mc 3 2)) (MStore kb 1%N (it 1 9)) = (RUnit (Err ECorrupted), (36, 0), (9514, 11)) /\ mwork (st_new noise (mc 3 2)) (MStore kb 1%N (it 1 9)) = (RUnit (Ok tt), (31, 2), (9514, 11)) /\
  mwork (snd (mrun true 3 mevs1)) (MStore kb 1%N (it 1 9)) = (RUnit (Ok tt), (23, 2), (9514, 11)).
Proof. repeat split; vm_compute; reflexivity. Qed.
