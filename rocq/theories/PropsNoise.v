(** Claims about wrong bits in page markers.  Statements only; proofs are in NoiseRunP.v.
    Vocabulary (NoiseSpec.v): [bad_markers k]: at most [k] wrong bits in each of the two marker words of each page, data unchanged.
    [real_run]: a history in which the flash contents change by themselves; [ideal]: its calls and restarts alone; [few_bad k]: the changes stay within [bad_markers k] of the ideal run.
    [clean_markers]: the bytes beside the data of each page are 00 or FF.  [same_flash]: same data, same erases, same power left. *)
From Coq Require Import List NArith Arith Bool Lia.
From Verif Require Import Base Crc Flash Cache State Item Generic Queue Map Codec CodecP Client QSpec QObs QPropsP QCase MClient MSpec MObs MPropsP MCase GeomP SafeSpec SafeMP PropsErase PropsSafe NoiseSpec NoiseRunP.
Import ListNotations.

(** C43, queue: with up to three wrong bits in each marker word, in any history with power failures and restarts, every answer and every byte of data is as with a perfect flash. *)
Theorem c43_queue g f c l : geom_ok g -> fresh_cache (NP g) c -> clean_markers g (f_mem f) -> (forall c', In (EBoot c') (ideal l) -> fresh_cache (NP g) c') ->
  few_bad (q_run g) 3 g (st_new f c) l ->
  fst (real_run (q_run g) (st_new f c) l) = fst (q_run g (st_new f c) (ideal l)) /\
  same_flash g (s_fl (snd (q_run g (st_new f c) (ideal l)))) (s_fl (snd (real_run (q_run g) (st_new f c) l))).
Proof. exact (fun G Fc CM Fe B => q_noisy g G f c Fc CM l Fe B). Qed.
(** C43, map, for any key type whose serialization stays in its buffer. *)
Theorem c43_map {K} (KO : keyops K) g f c l : geom_ok g -> (forall k n bs, k_ser KO k n = inl bs -> length bs <= n) -> fresh_cache (NP g) c -> clean_markers g (f_mem f) ->
  (forall c', In (MBoot c') (ideal l) -> fresh_cache (NP g) c') -> few_bad (m_run KO g) 3 g (st_new f c) l ->
  fst (real_run (m_run KO g) (st_new f c) l) = fst (m_run KO g (st_new f c) (ideal l)) /\
  same_flash g (s_fl (snd (m_run KO g (st_new f c) (ideal l)))) (s_fl (snd (real_run (m_run KO g) (st_new f c) l))).
Proof. exact (fun G KF Fc CM Fe B => m_noisy KO KF g G f c Fc CM l Fe B). Qed.
(** C43, the hypothesis about the flash is met by everything the library leaves on an erased flash: clean markers stay clean. *)
Theorem c43_clean_queue g f c evs : geom_ok g -> fresh_cache (NP g) c -> clean_markers g (f_mem f) -> (forall c', In (EBoot c') evs -> fresh_cache (NP g) c') ->
  clean_markers g (f_mem (s_fl (snd (q_run g (st_new f c) evs)))).
Proof. exact (fun G Fc CM Fe => q_clean g G f c Fc CM evs Fe). Qed.
Theorem c43_clean_map {K} (KO : keyops K) g f c evs : geom_ok g -> (forall k n bs, k_ser KO k n = inl bs -> length bs <= n) -> fresh_cache (NP g) c -> clean_markers g (f_mem f) ->
  (forall c', In (MBoot c') evs -> fresh_cache (NP g) c') -> clean_markers g (f_mem (s_fl (snd (m_run KO g (st_new f c) evs)))).
Proof. exact (fun G KF Fc CM Fe => m_clean KO KF g G f c Fc CM evs Fe). Qed.
Print Assumptions c43_queue.
Print Assumptions c43_map.
Print Assumptions c43_clean_queue.
Print Assumptions c43_clean_map.

(** Boolean versions for concrete histories. *)
Definition bad_markersb (k : nat) (g : geom) (m m2 : nat -> N) : bool :=
  forallb (fun p => forallb (fun x => (m2 x =? m x)%N) (seq (dstart g p) (dend g p - dstart g p)) && forallb (fun x => (m2 x <? 256)%N) (seq (paddr g p) (pend g p - paddr g p)) &&
    (wrong_bits m m2 (paddr g p) (RS g) <=? k) && (wrong_bits m m2 (pend g p - RS g) (RS g) <=? k)) (seq 0 (NP g)).
Lemma bad_markersb_ok k g m m2 : bad_markersb k g m m2 = true -> bad_markers k g m m2.
Proof.
  intros H. unfold bad_markersb in H. rewrite forallb_forall in H. assert (X : forall p, p < NP g -> In p (seq 0 (NP g))) by (intros; apply in_seq; lia). split; [|split].
  - intros p x P B. specialize (H p (X p P)). rewrite !andb_true_iff in H. destruct H as (((H & _) & _) & _). rewrite forallb_forall in H. apply N.eqb_eq, H, in_seq. lia.
  - intros p x P B. specialize (H p (X p P)). rewrite !andb_true_iff in H. destruct H as (((_ & H) & _) & _). rewrite forallb_forall in H. apply N.ltb_lt, H, in_seq. lia.
  - intros p P. specialize (H p (X p P)). rewrite !andb_true_iff, !Nat.leb_le in H. tauto.
Qed.
Fixpoint few_badb {K E A} (run : st K -> list E -> list A * st K) (k : nat) (g : geom) (s : st K) (l : list (nev E)) : bool :=
  match l with
  | [] => true
  | NEv e :: t => few_badb run k g (snd (run s [e])) t
  | NMem m :: t => bad_markersb k g (f_mem (s_fl s)) m && few_badb run k g s t
  end.
Lemma few_badb_ok {K E A} (run : st K -> list E -> list A * st K) k g : forall l s, few_badb run k g s l = true -> few_bad run k g s l.
Proof. induction l as [|[e|m] l IH]; intros s H; cbn in *; auto. apply andb_true_iff in H. destruct H. split; auto. now apply bad_markersb_ok. Qed.
(** Three bits of both marker words of every page of [g] are wrong after every event, other bits each time. *)
Definition upset (g : geom) (m : nat -> N) (i : nat) : nat -> N := fun x =>
  if existsb (fun p => x =? paddr g p) (seq 0 (NP g)) then N.lxor (m x) (if Nat.even i then 37 else 194) else
  if existsb (fun p => x =? pend g p - 1) (seq 0 (NP g)) then N.lxor (m x) (if Nat.even i then 7 else 25) else m x.
Fixpoint upsets {K E A} (run : st K -> list E -> list A * st K) (g : geom) (s : st K) (i : nat) (l : list E) : list (nev E) :=
  match l with
  | [] => []
  | e :: t => let s' := snd (run s [e]) in NEv e :: NMem (upset g (f_mem (s_fl s')) i) :: upsets run g s' (S i) t
  end.
Lemma upsets_ideal {K E A} (run : st K -> list E -> list A * st K) g : forall l s i, ideal (upsets run g s i l) = l.
Proof. induction l as [|e l IH]; intros s i; cbn; auto. f_equal. apply IH. Qed.
Lemma new_clean g : clean_markers g (f_mem flash_new). Proof. intros p x _ _. now right. Qed.
(** The queue history of QCase.v, with power failures in an erase and in an item, and a restart. *)
Example c43_queue_case : few_bad (q_run cg) 3 cg st0 (upsets (q_run cg) cg st0 0 evs1) /\ ideal (upsets (q_run cg) cg st0 0 evs1) = evs1 /\
  wrong_bits (f_mem (s_fl st1)) (f_mem (s_fl (snd (real_run (q_run cg) st0 (upsets (q_run cg) cg st0 0 evs1))))) 0 384 = 18 /\
  In (AUnit (Err (EStorage SShutoff))) (fst (q_run cg st0 evs1)) /\ In (AItem (Ok (Some (it 4 33)))) (fst (q_run cg st0 evs1)).
Proof.
  split; [apply few_badb_ok; vm_compute; reflexivity|]. split; [apply upsets_ideal|]. split; [vm_compute; reflexivity|].
  split; [|]; (match goal with |- In ?a ?l => assert (X : l = l) by reflexivity; vm_compute; tauto end).
Qed.
Definition evn : list (mev N) := [Sto 1 3 10 None; Sto 1 5 10 None; Sto 1 4 10 (Some 30); Boot 2; Sto 1 4 10 None; Fet 1; Fet 2].
Example c43_map_case : few_bad (m_run kn (mg 2)) 3 (mg 2) (mst0 false 2) (upsets (m_run kn (mg 2)) (mg 2) (mst0 false 2) 0 evn) /\
  fst (m_run kn (mg 2) (mst0 false 2) evn) = [RUnit (Ok tt); RUnit (Ok tt); RUnit (Err (EStorage SShutoff)); RUnit (Ok tt); RVal (Ok (Some (it 4 10))); RVal (Ok None)].
Proof. split; [apply few_badb_ok; vm_compute; reflexivity|vm_compute; reflexivity]. Qed.

(** Three is the most that can be promised: with four wrong bits in one marker word a stored value is gone. *)
Definition ev4 : list (mev N) := [Sto 1 3 10 None; Sto 1 5 10 None; Sto 1 4 10 None].
Definition m4 : nat -> N := let m := f_mem (s_fl (snd (m_run kn (mg 2) (mst0 false 2) ev4))) in fun x => if x =? 0 then N.lxor (m x) 15 else m x.
Definition l4 : list (nev (mev N)) := map NEv ev4 ++ [NMem m4; NEv (Boot 2); NEv (Fet 1)].
Theorem c43_four_bits_refuted : exists l, few_bad (m_run kn (mg 2)) 4 (mg 2) (mst0 false 2) l /\
  fst (m_run kn (mg 2) (mst0 false 2) (ideal l)) = [RUnit (Ok tt); RUnit (Ok tt); RUnit (Ok tt); RVal (Ok (Some (it 4 10)))] /\
  fst (real_run (m_run kn (mg 2)) (mst0 false 2) l) = [RUnit (Ok tt); RUnit (Ok tt); RUnit (Ok tt); RVal (Ok None)].
Proof. exists l4. split; [apply few_badb_ok; vm_compute; reflexivity|]. split; vm_compute; reflexivity. Qed.
Print Assumptions c43_four_bits_refuted.
