(** Claims about arbitrary flash contents: any bytes, in and around the flash range.  Statements only; proofs are in SafeRunP.v.
    Vocabulary (SafeSpec.v): [crash]: panics, endless loops, refused accesses, [Error::LogicBug].  [well_used]: no access was refused and nothing outside the range changed.
    [short_item]: an intact item on flash that is shorter than its key.  [q_walk], [m_walk]: any use of an iterator, also after errors.
    The flash [f] is any flash state, so [f_mem f] is any memory and [f_ae f], [f_aw f] any kind of torn erases and writes; every call has any supply of power. *)
From Coq Require Import List NArith Arith Bool Lia.
From Verif Require Import Base Crc Flash Cache State Item Generic Queue Map Codec CodecP Client QSpec QObs QPropsP QCase MClient MSpec MObs MPropsP MCase GeomP SafeSpec SafeRunP SafeP SafeQP SafeMP PropsErase.
Import ListNotations.

(** C15: what the log of refused accesses says: an access that leaves it unchanged is aligned, not empty and in the flash range. *)
Theorem c15_reads_logged {K} g a n (s : st K) : f_bad (s_fl (snd (fl_read g a n s))) = f_bad (s_fl s) -> in_order g (RS g) a n.
Proof. exact (read_logged g a n s). Qed.
Theorem c15_writes_logged {K} g a bs (s : st K) : f_bad (s_fl (snd (fl_write g a bs s))) = f_bad (s_fl s) -> in_order g (WS g) a (length bs).
Proof. exact (write_logged g a bs s). Qed.
Theorem c15_erases_logged {K} g a b (s : st K) : f_bad (s_fl (snd (fl_erase g a b s))) = f_bad (s_fl s) -> in_order g (ES g) a (b - a).
Proof. exact (erase_logged g a b s). Qed.
(** C15, queue: in every history on any flash contents no access is refused, and nothing outside the range changes. *)
Theorem c15_queue g f c evs : geom_ok g -> fresh_cache (NP g) c -> (forall c', In (EBoot c') evs -> fresh_cache (NP g) c') ->
  well_used g f (s_fl (snd (q_run g (st_new f c) evs))).
Proof. exact (fun G Fc Fe => sane_used g f _ _ (proj2 (q_any g G f c Fc evs Fe))). Qed.
(** C15, map, for any key type whose serialization stays in its buffer. *)
Theorem c15_map {K} (KO : keyops K) g f c evs : geom_ok g -> (forall k n bs, k_ser KO k n = inl bs -> length bs <= n) -> fresh_cache (NP g) c ->
  (forall c', In (MBoot c') evs -> fresh_cache (NP g) c') -> well_used g f (s_fl (snd (m_run KO g (st_new f c) evs))).
Proof. exact (fun G KF Fc Fe => sane_used g f _ _ (proj1 (m_any KO KF g G f c Fc evs Fe))). Qed.
(** C15, iterators in any use. *)
Theorem c15_queue_iterator g f c evs p s1 l : geom_ok g -> fresh_cache (NP g) c -> (forall c', In (EBoot c') evs -> fresh_cache (NP g) c') ->
  q_iter g (power (snd (q_run g (st_new f c) evs)) p) = (Ok tt, s1) -> well_used g f (s_fl (snd (q_walk g s1 l))).
Proof. exact (fun G Fc Fe E => sane_used g f _ _ (proj2 (walk_safe g G f l s1 (q_iter_sane g G f _ p s1 (proj2 (q_any g G f c Fc evs Fe)) E)))). Qed.
Theorem c15_map_iterator {K} (KO : keyops K) g f c evs p b s1 l : geom_ok g -> (forall k n bs, k_ser KO k n = inl bs -> length bs <= n) -> fresh_cache (NP g) c ->
  (forall c', In (MBoot c') evs -> fresh_cache (NP g) c') -> m_iter KO g b (power (snd (m_run KO g (st_new f c) evs)) p) = (Ok tt, s1) -> well_used g f (s_fl (snd (m_walk KO g s1 l))).
Proof. exact (fun G KF Fc Fe E => sane_used g f _ _ (proj1 (m_walk_safe KO KF g G f l s1 (m_iter_sane KO KF g G f _ p b s1 (proj1 (m_any KO KF g G f c Fc evs Fe)) E)))). Qed.
(** C15, [erase_all]. *)
Theorem c15_erase_all {K} g (s : st K) : geom_ok g -> well_used g (s_fl s) (s_fl (snd (erase_all g s))).
Proof. exact (erase_all_used g s). Qed.

(** C29, queue: in every history on any flash contents every call ends with an answer that is not a crash. *)
Theorem c29_queue g f c evs : geom_ok g -> fresh_cache (NP g) c -> (forall c', In (EBoot c') evs -> fresh_cache (NP g) c') ->
  Forall (fun a => Forall (fun e => ~ crash e) (q_errs a)) (fst (q_run g (st_new f c) evs)).
Proof. exact (fun G Fc Fe => proj1 (q_any g G f c Fc evs Fe)). Qed.
(** C29, queue iterators in any use. *)
Theorem c29_queue_iterator g f c evs p s1 l : geom_ok g -> fresh_cache (NP g) c -> (forall c', In (EBoot c') evs -> fresh_cache (NP g) c') ->
  q_iter g (power (snd (q_run g (st_new f c) evs)) p) = (Ok tt, s1) -> Forall (fun r => Forall (fun e => ~ crash e) (err_of r)) (fst (q_walk g s1 l)).
Proof. exact (fun G Fc Fe E => Forall_impl _ (@fine_errs _) (proj1 (walk_safe g G f l s1 (q_iter_sane g G f _ p s1 (proj2 (q_any g G f c Fc evs Fe)) E)))). Qed.
(** C29, map, partial (missing: flash contents with an item that is shorter than its key, refuted below): no crash as long as there is no such item. *)
Theorem c29_map_partial {K} (KO : keyops K) g f c evs : geom_ok g -> (forall k n bs, k_ser KO k n = inl bs -> length bs <= n) -> fresh_cache (NP g) c ->
  (forall c', In (MBoot c') evs -> fresh_cache (NP g) c') -> (forall n, ~ short_item KO g (f_mem (s_fl (snd (m_run KO g (st_new f c) (firstn n evs)))))) ->
  Forall (fun a => Forall (fun e => ~ crash e) (m_errs a)) (fst (m_run KO g (st_new f c) evs)).
Proof. exact (fun G KF Fc Fe => proj2 (proj2 (m_any KO KF g G f c Fc evs Fe))). Qed.
(** C29, map: on any contents the only crash is a panic of a fetch or an iteration that meets such an item; everything terminates. *)
Theorem c29_map_only_short_partial {K} (KO : keyops K) g f c evs cl p a s' : geom_ok g -> (forall k n bs, k_ser KO k n = inl bs -> length bs <= n) -> fresh_cache (NP g) c ->
  (forall c', In (MBoot c') evs -> fresh_cache (NP g) c') -> m_exec KO g cl (power (snd (m_run KO g (st_new f c) evs)) p) = (a, s') ->
  Forall (fun e => ~ crash e \/ e = EPanic) (m_errs a) /\
  (In EPanic (m_errs a) -> match cl with MFetch _ _ | MIter _ _ => True | _ => False end /\ short_item KO g (f_mem (s_fl s'))).
Proof. exact (fun G KF Fc Fe E => let X := m_last KO KF g G f c Fc evs cl p a s' Fe E in conj (proj2 X) (proj1 X)). Qed.
(** C29, map iterators in any use, partial in the same way. *)
Theorem c29_map_iterator_partial {K} (KO : keyops K) g f c evs p b s1 l : geom_ok g -> (forall k n bs, k_ser KO k n = inl bs -> length bs <= n) -> fresh_cache (NP g) c ->
  (forall c', In (MBoot c') evs -> fresh_cache (NP g) c') -> m_iter KO g b (power (snd (m_run KO g (st_new f c) evs)) p) = (Ok tt, s1) ->
  Forall (fun r => Forall (fun e => ~ crash e \/ e = EPanic) (err_of r)) (fst (m_walk KO g s1 l)).
Proof. exact (fun G KF Fc Fe E => proj2 (m_walk_safe KO KF g G f l s1 (m_iter_sane KO KF g G f _ p b s1 (proj1 (m_any KO KF g G f c Fc evs Fe)) E))). Qed.

(** A flash that holds the pages of a queue, with words cut by power failures, opened as a map with keys of one byte; then garbage opened as a queue.
    In both cases some calls fail, some succeed. *)
Definition qf : flash := s_fl st1.
Definition evm : list (mev N) := [MCall (MFetch cb 7%N) None; MCall (MStore cb 7%N [1; 2; 3]%N) (Some 60); MCall (MStore cb 7%N [1; 2; 3]%N) None; MCall (MFetch cb 7%N) None; MCall (MRemove cb 4%N) None; MCall (MIter cb [cb; cb]) None].
Lemma kn_fit : forall k n bs, k_ser kn k n = inl bs -> length bs <= n.
Proof. intros k n bs H. cbn [kn key_num k_ser] in H. apply ser_fixed_inv in H. destruct H. subst. auto. Qed.
(** With keys of one byte the short items are the empty ones. *)
Definition no_empty (g : geom) (m : nat -> N) : bool :=
  forallb (fun p => forallb (fun a => negb (lcrc_ok (rd m a (HL g)) && (h_len (hdr_of (rd m a (HL g))) =? 0))) (seq (dstart g p) (S (dend g p)))) (seq 0 (NP g)).
Lemma no_empty_ok g m : no_empty g m = true -> ~ short_item kn g m.
Proof.
  intros H (p & a & d & n & (hb & P & _ & L1 & L2 & <- & C & L & _) & LT & D). assert (n = 1) as ->.
  { destruct D as [D|(r & k & D)]; cbn [kn key_num k_len k_de] in D; [congruence|]. destruct (length (d ++ r) <? 1); congruence. }
  unfold no_empty in H. rewrite forallb_forall in H. specialize (H p ltac:(apply in_seq; lia)). rewrite forallb_forall in H. specialize (H a ltac:(apply in_seq; lia)).
  rewrite C, L in H. destruct d; cbn in *; [discriminate|lia].
Qed.
Definition no_empties (evs : list (mev N)) : bool := forallb (fun n => no_empty cg (f_mem (s_fl (snd (m_run kn cg (st_new qf (mc 3 2)) (firstn n evs)))))) (seq 0 (S (length evs))).
Lemma no_empties_ok evs : no_empties evs = true -> forall n, ~ short_item kn cg (f_mem (s_fl (snd (m_run kn cg (st_new qf (mc 3 2)) (firstn n evs))))).
Proof.
  unfold no_empties. rewrite forallb_forall. intros X n. apply no_empty_ok. destruct (Nat.le_gt_cases n (length evs)) as [L|L]; [apply X, in_seq; lia|].
  rewrite firstn_all2 by lia. pose proof (X (length evs) ltac:(apply in_seq; lia)) as Y. now rewrite firstn_all in Y.
Qed.
Example c29_map_case : geom_ok cg /\ fresh_cache (NP cg) (mc 3 2) /\ (forall k n bs, k_ser kn k n = inl bs -> length bs <= n) /\
  (forall n, ~ short_item kn cg (f_mem (s_fl (snd (m_run kn cg (st_new qf (mc 3 2)) (firstn n evm)))))) /\ (f_mem qf 13 =? 255)%N = false /\
  fst (m_run kn cg (st_new qf (mc 3 2)) evm) = [RVal (Ok None); RUnit (Err (EStorage SShutoff)); RUnit (Ok tt); RVal (Ok (Some [1; 2; 3]%N)); RUnit (Ok tt);
    RList (Ok [Some (5%N, it 6 39); Some (6%N, it 7 39)])].
Proof.
  split; [apply cg_ok|]. split; [split; [reflexivity|]; split; [apply FPCalc|]; split; [apply (FQArray 3 3 3); lia|apply (FKArray 2); lia]|]. split; [apply kn_fit|].
  split; [|split; [vm_compute; reflexivity|vm_compute; reflexivity]]. apply no_empties_ok. vm_compute. reflexivity.
Qed.
Definition evq : list qev := [ECall QMaxFit None; ECall (QPush (it 1 30) true) (Some 40); ECall QSpace None; ECall (QPush (it 1 30) true) None; ECall (QPop cb) None; ECall (QIter [(cb, true)]) None; EBoot cc; ECall (QPush (it 1 100) true) None].
Example c29_queue_case : geom_ok cg /\ fresh_cache (NP cg) cc /\ (forall c', In (EBoot c') evq -> fresh_cache (NP cg) c') /\ f_mem junk 13 <> 255%N /\
  fst (q_run cg (st_new junk cc) evq) = [AMax (Ok (Some 112)); AUnit (Err (EStorage SShutoff)); ANum (Ok 296); AUnit (Ok tt); AItem (Ok (Some (it 1 30))); AIter (Ok [Ok None]); AUnit (Ok tt)].
Proof.
  split; [apply cg_ok|]. split; [apply cc_fresh|]. split; [|split; [discriminate|vm_compute; reflexivity]]. intros c' H. cbn in H. repeat destruct H as [H|H]; try easy. injection H as <-. apply cc_fresh.
Qed.
(** An iterator used after an error: a too small buffer, then a power failure in the middle of a pop, then again. *)
Definition walk : list (list N * bool * option nat) := [([], true, None); (cb, true, Some 4); (cb, true, None); (cb, false, None)].
Example c29_iterator_case : exists s1, q_iter cg (power (snd (q_run cg (st_new qf cc) [])) None) = (Ok tt, s1) /\
  fst (q_walk cg s1 walk) = [Err (EBufTooSmall 40); Err (EStorage SShutoff); Ok (Some (it 5 40)); Ok (Some (it 6 40))].
Proof.
  assert (X : match q_iter cg (power (snd (q_run cg (st_new qf cc) [])) None) with (Ok tt, s1) => fst (q_walk cg s1 walk) | _ => [] end = [Err (EBufTooSmall 40); Err (EStorage SShutoff); Ok (Some (it 5 40)); Ok (Some (it 6 40))]) by (vm_compute; reflexivity).
  destruct (q_iter cg _) as [[[]|e] s1]; [|discriminate]. exists s1. auto.
Qed.
Example c29_map_iterator_case : exists s1, m_iter kn cg cb (power (snd (m_run kn cg (st_new qf (mc 3 2)) [])) None) = (Ok tt, s1) /\
  fst (m_walk kn cg s1 [([], None); (cb, None); (repeat 0%N 40, None)]) = [Err (EBufTooSmall 40); Ok (Some (5%N, it 6 39)); Ok (Some (6%N, it 7 39))].
Proof.
  assert (X : match m_iter kn cg cb (power (snd (m_run kn cg (st_new qf (mc 3 2)) [])) None) with (Ok tt, s1) => fst (m_walk kn cg s1 [([], None); (cb, None); (repeat 0%N 40, None)]) | _ => [] end =
    [Err (EBufTooSmall 40); Ok (Some (5%N, it 6 39)); Ok (Some (6%N, it 7 39))]) by (vm_compute; reflexivity).
  destruct (m_iter kn cg cb _) as [[[]|e] s1]; [|discriminate]. exists s1. auto.
Qed.
(** The device does refuse accesses: the log is not empty by construction. *)
Example c15_case : f_bad (s_fl (snd (fl_write cg 380 (repeat 0%N 8) (st_new junk cc)))) = [(380, 8)] /\ f_bad (s_fl (snd (fl_read cg 384 1 (st_new junk cc)))) = [(384, 1)].
Proof. split; reflexivity. Qed.

(** C29 is false for the map: values stored under keys of one byte, with empty values, make a fetch with keys of four bytes panic. *)
Theorem c29_map_refuted : exists f c, fresh_cache (NP cg) c /\ (forall k n bs, k_ser (key_num 4) k n = inl bs -> length bs <= n) /\
  fst (m_run (key_num 4) cg (st_new f c) [MCall (MFetch cb 7%N) None]) = [RVal (Err EPanic)].
Proof.
  exists (s_fl (snd (m_run kn cg (st_new flash_new (mc 3 2)) [MCall (MStore cb 7%N []) None]))), (mc 3 2).
  split; [split; [reflexivity|]; split; [apply FPCalc|]; split; [apply (FQArray 3 3 3); lia|apply (FKArray 2); lia]|]. split; [|vm_compute; reflexivity].
  intros k n bs H. cbn [key_num k_ser] in H. apply ser_fixed_inv in H. destruct H. subst. auto.
Qed.

Print Assumptions c15_reads_logged.
Print Assumptions c15_writes_logged.
Print Assumptions c15_erases_logged.
Print Assumptions c15_queue.
Print Assumptions c15_map.
Print Assumptions c15_queue_iterator.
Print Assumptions c15_map_iterator.
Print Assumptions c15_erase_all.
Print Assumptions c29_queue.
Print Assumptions c29_queue_iterator.
Print Assumptions c29_map_partial.
Print Assumptions c29_map_only_short_partial.
Print Assumptions c29_map_iterator_partial.
Print Assumptions c29_map_refuted.
