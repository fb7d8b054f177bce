(** Claims about damaged items.  Statements only; proofs are in HurtP.v, HurtMP.v, BitsP.v and SlightP.v.
    Vocabulary (HurtSpec.v), all in terms of the documented representation: [placed]: the stored items and where they are; [hurt]: bytes of data or data
    checksums of stored items are wrong, and no wrong item has a matching checksum; [slightly_hurt]: at most two wrong bits per item, or wrong bits within one
    byte of an item, or only its checksum; [survivors]: the items without wrong bytes.  [real_run]: a history in which the flash contents change
    by themselves (NoiseSpec.v).  [htrace], [mhtrace]: every call does what the specification says, each change leaves the survivors. *)
From Coq Require Import List NArith Arith Bool Lia.
From Verif Require Import Base Crc CrcP Flash Cache State Item Generic Queue Map Codec CodecP ScanP PageP Client QSpec QObs QPropsP QCase MClient MSpec MObs MPropsP MCase FormatSpec NoiseSpec HurtSpec HurtP HurtMP SlightP HurtCase.
Import ListNotations.

(** C44, queue: in any history with power failures, restarts and damage to stored items, at any time, every answer is that of a queue which has lost exactly the damaged items. *)
Theorem c44_queue g f c l : erased g f -> fresh_cache (NP g) c -> setting true g (f_ae f) (f_aw f) -> Forall (qev_ok true g) (ideal l) -> only_hurt (q_run g) g (st_new f c) l ->
  exists q, htrace g (st_new f c) [] l (fst (real_run (q_run g) (st_new f c) l)) q /\ q_holds g (snd (real_run (q_run g) (st_new f c) l)) q.
Proof. exact (q_hurt g f c l). Qed.
(** C44, map: after damage a key has the last of its values whose item is not damaged. *)
Theorem c44_map {K} (KO : keyops K) (legal : K -> Prop) g n f c l : key_codec KO legal -> erased g f -> fresh_cache (NP g) c -> msetting true g (f_aw f) ->
  Forall (mev_ok KO legal true g n) (ideal l) -> calm_hurt KO g calm0 (st_new f c) l ->
  exists v log, mhtrace KO legal g (st_new f c) nothing [] l (fst (real_run (m_run KO g) (st_new f c) l)) v log /\ m_holds KO legal g n (snd (real_run (m_run KO g) (st_new f c) l)) v.
Proof. exact (m_hurt KO legal g n f c l). Qed.
(** C44, other keys: a key none of whose items is damaged keeps its value. *)
Theorem c44_other_keys {K} (KO : keyops K) g m m2 p k :
  (forall i, In i (placed g m p) -> intact g m m2 i = false -> forall k' j, k_de KO (snd i) = inl (k', j) -> k_eqb KO k' k = false) ->
  lastv (k_eqb KO) k (unpack KO (survivors g m m2 p)) = lastv (k_eqb KO) k (unpack KO (map snd (placed g m p))).
Proof. exact (lastv_keep KO snd (intact g m m2) k (placed g m p)). Qed.
(** C44, what always shows: up to two wrong bits per item, counting data and checksum; any change within one byte; any change of the checksum alone. *)
Theorem c44_slight g m m2 : geom_ok g -> (forall x, is_byte (m x)) -> slightly_hurt g m m2 -> hurt g m m2.
Proof. exact (fun G => slight_ok g G m m2). Qed.
Print Assumptions c44_queue.
Print Assumptions c44_map.
Print Assumptions c44_other_keys.
Print Assumptions c44_slight.

(** The queue history of QCase.v.  Then two bits of an item are wrong; a pop; a push that is cut; two more items damaged, one in its checksum, and a restart; a push and pops. *)
Definition hq : list (hstep qev (cache unit)) := map HE evs1 ++
  [HD [(280, 1%N); (290, 128%N)]; HE (ECall (QPop cb) None); HE (ECall (QPush (it 9 20) true) (Some 15)); HR [(330, 3%N); (8, 64%N)] cc;
   HE (ECall (QPush (it 9 20) true) None); HE (ECall (QPop cb) None); HE (ECall (QPop cb) None)].
Example c44_queue_case : Forall (qev_ok true cg) (ideal (build (q_run cg) EBoot st0 hq)) /\ only_hurt (q_run cg) cg st0 (build (q_run cg) EBoot st0 hq) /\
  skipn 12 (fst (real_run (q_run cg) st0 (build (q_run cg) EBoot st0 hq))) =
    [AItem (Ok (Some (it 4 33))); AUnit (Err cut); AUnit (Ok tt); AItem (Ok (Some (it 9 20))); AItem (Ok None)].
Proof.
  assert (EV : Forall (qev_ok true cg) (hevs EBoot hq)).
  { change (hevs EBoot hq) with (evs1 ++ [ECall (QPop cb) None; ECall (QPush (it 9 20) true) (Some 15); EBoot cc; ECall (QPush (it 9 20) true) None; ECall (QPop cb) None; ECall (QPop cb) None]).
    apply Forall_app. split; [apply evs1_ok|].
    repeat (constructor; [first [exact cc_fresh|split; [discriminate|]; first [exact I|apply item_okb; vm_compute; reflexivity]]|]). constructor. }
  split; [rewrite build_ideal; exact EV|]. split; [apply q_build; [apply cg_setting|apply cc_fresh|exact EV|vm_compute; reflexivity]|]. vm_compute. reflexivity.
Qed.
(** A map: the newest value of key 1 is damaged, then the only value of key 2 that is left; restarts in between. *)
Definition hm : list (hstep (mev N) (cache N)) :=
  [HE (Sto 1 3 10 None); HE (Sto 2 4 2 None); HE (Sto 1 5 10 None); HE (Fet 1); HR [(81, 16%N)] (mc 3 1); HE (Fet 1); HE (Fet 2); HE (Sto 2 9 2 None); HE (Sto 3 9 2 None); HR [(105, 6%N)] (mc 3 1); HE (Fet 1); HE (Fet 2); HE (Fet 3)].

Example c44_map_case : Forall (mev_ok kn kl true (mg 3) 64) (ideal (build (m_run kn (mg 3)) (@MBoot N) (mst0 false 3) hm)) /\
  calm_hurt kn (mg 3) calm0 (mst0 false 3) (build (m_run kn (mg 3)) (@MBoot N) (mst0 false 3) hm) /\
  fst (real_run (m_run kn (mg 3)) (mst0 false 3) (build (m_run kn (mg 3)) (@MBoot N) (mst0 false 3) hm)) =
    [RUnit (Ok tt); RUnit (Ok tt); RUnit (Ok tt); RVal (Ok (Some (it 5 10))); RVal (Ok (Some (it 3 10))); RVal (Ok (Some (it 4 2))); RUnit (Ok tt); RUnit (Ok tt);
     RVal (Ok (Some (it 3 10))); RVal (Ok None); RVal (Ok (Some (it 9 2)))].
Proof.
  assert (EV : Forall (mev_ok kn kl true (mg 3) 64) (hevs (@MBoot N) hm)).
  { apply evs_okb_ok; [vm_compute; reflexivity|]. cbn. intros c H. repeat destruct H as [H|H]; try discriminate; try contradiction; now injection H. }
  split; [rewrite build_ideal; exact EV|]. split; [apply (m_build (mg 3) 64 false); [apply mg_set; lia|apply mc_fresh; lia|exact EV|vm_compute; reflexivity]|]. vm_compute. reflexivity.
Qed.
(** In that history: the flash just before the first damage; keys 2 and 3 are not damaged. *)
Definition sm4 : st N := snd (m_run kn (mg 3) (mst0 false 3) [Sto 1 3 10 None; Sto 2 4 2 None; Sto 1 5 10 None; Fet 1]).
Example c44_other_keys_case : let m := f_mem (s_fl sm4) in placed (mg 3) m 0 = [(8, 1%N :: it 3 10); (32, 2%N :: it 4 2); (72, 1%N :: it 5 10)] /\
  survivors (mg 3) m (flips m [(81, 16%N)]) 0 = [1%N :: it 3 10; 2%N :: it 4 2] /\
  (forall i, In i (placed (mg 3) m 0) -> intact (mg 3) m (flips m [(81, 16%N)]) i = false -> forall k' j, k_de kn (snd i) = inl (k', j) -> k_eqb kn k' 2%N = false).
Proof.
  cbv zeta. assert (P : placed (mg 3) (f_mem (s_fl sm4)) 0 = [(8, 1%N :: it 3 10); (32, 2%N :: it 4 2); (72, 1%N :: it 5 10)]) by (vm_compute; reflexivity).
  split; [exact P|]. split; [vm_compute; reflexivity|]. rewrite P. intros i [<-|[<-|[<-|[]]]] H k' j E; revert H E; [vm_compute; discriminate|vm_compute; discriminate|]. intros _ E. vm_compute in E. injection E as <- <-. reflexivity.
Qed.

(** A push and a pop with wrong bits in between. *)
Definition pop_hurt (g : geom) (c : cache unit) (d : list N) (m2 : (nat -> N) -> nat -> N) : qans :=
  let s := snd (q_run g (st_new flash_new c) [ECall (QPush d false) None]) in
  fst (q_exec g (QPop (repeat 0%N (ES g))) (power (with_mem s (m2 (f_mem (s_fl s)))) None)).
Definition wrongb (k : nat) (g : geom) (m : nat -> N) (l : list (nat * N)) : bool :=
  let P := placed g m 0 in
  forallb (fun i => existsb (fun j => part_ofb g j (fst i)) P) l &&
  forallb (fun i => wrong_bits m (flips m l) (fst i) 4 + wrong_bits m (flips m l) (fst i + words g 8) (length (snd i)) <=? k) P.
Lemma wrongb_ok k g m l : wrongb k g m l = true -> wrong_at_most g m k (flips m l).
Proof.
  intros H. unfold wrongb in H. apply andb_true_iff in H. destruct H as (H1 & H2). rewrite forallb_forall in H1, H2. split.
  - intros x NP. unfold flips. destruct (find _ l) as [[y v]|] eqn:F; auto. exfalso. apply find_some in F. destruct F as (I & E). cbn [fst] in E. apply Nat.eqb_eq in E. subst y. specialize (H1 _ I).
    apply existsb_exists in H1. destruct H1 as (j & J & X). apply (NP j J). destruct j as [a d]. unfold part_ofb in X. cbn [fst] in X. unfold part_of. apply orb_true_iff in X. rewrite !andb_true_iff, !Nat.leb_le, !Nat.ltb_lt in X. exact X.
  - intros a d I. specialize (H2 _ I). now apply Nat.leb_le in H2.
Qed.
(** Three wrong bits may go unnoticed: an item of 660 bytes is returned with three wrong bits.  (The checksum alone, CRC-32, would have shown them; the change of its low byte in [adapted_crc32] hides them.) *)
Definition bg : geom := mkgeom 1 8 1024 0 2.
Definition bc : cache unit := mkcache false PSNone PPNone KPNone.
Definition d3 : list N := it 7 240 ++ it 3 250 ++ it 1 169 ++ [12%N].
Definition l3 : list (nat * N) := [(16, 32%N); (112, 16%N); (332, 2%N)].
Theorem c44_three_bits_refuted : exists d l, let m := f_mem (s_fl (snd (q_run bg (st_new flash_new bc) [ECall (QPush d false) None]))) in
  wrong_at_most bg m 3 (flips m l) /\ exists d', pop_hurt bg bc d (fun m => flips m l) = AItem (Ok (Some d')) /\ d' <> d.
Proof.
  exists d3, l3. cbv zeta. split; [apply wrongb_ok; vm_compute; reflexivity|]. exists (map (fun i => match find (fun x => fst x =? i + 16) l3 with Some (_, v) => N.lxor (nth i d3 0%N) v | None => nth i d3 0%N end) (seq 0 660)).
  split; [vm_compute; reflexivity|]. intros E. apply (f_equal (fun l => nth 0 l 0%N)) in E. vm_compute in E. discriminate.
Qed.
(** Wrong bits within four adjacent bytes, which CRC-32 would always have shown, may go unnoticed too. *)
Definition d4 : list N := it 7 5 ++ [34%N].
Definition l4 : list (nat * N) := [(18, 241%N); (19, 118%N); (20, 236%N); (21, 5%N)].
Theorem c44_burst_refuted : exists d l d', Forall is_byte d /\ (forall x v, In (x, v) l -> 18 <= x < 22) /\ pop_hurt bg bc d (fun m => flips m l) = AItem (Ok (Some d')) /\ d' <> d /\ crc32 d' <> crc32 d.
Proof.
  exists d4, l4, [7; 8; 248; 124; 231; 39]%N. split; [repeat constructor|]. split; [intros x v H; cbn in H; repeat destruct H as [H|H]; try injection H as <- <-; try contradiction; lia|].
  split; [vm_compute; reflexivity|]. split; [vm_compute; discriminate|vm_compute; discriminate].
Qed.
(** A wrong bit in a length field is noticed, but may cost more than its item or bring up an item that was never pushed: the library then looks for items word by word.
    First an item with eight bytes FF in its data, and one behind it that is lost; then an item whose data looks like an item, which is returned. *)
Definition len_hurt (d1 d2 : list N) (v : N) : list qans :=
  let s := snd (q_run cg st0 [ECall (QPush d1 false) None; ECall (QPush d2 false) None]) in
  fst (q_run cg (with_mem s (flips (f_mem (s_fl s)) [(12, v)])) [EBoot cc; ECall (QPop cb) None; ECall (QPop cb) None]).
Theorem c44_length_refuted : (exists d1 d2, len_hurt d1 d2 1 = [AItem (Ok None); AItem (Ok None)] /\ len_hurt d1 d2 0 = [AItem (Ok (Some d1)); AItem (Ok (Some d2))]) /\
  (exists d1 d2 d3, len_hurt d1 d2 1 = [AItem (Ok (Some d3)); AItem (Ok (Some d2))] /\ d3 <> d1 /\ d3 <> d2 /\ len_hurt d1 d2 0 = [AItem (Ok (Some d1)); AItem (Ok (Some d2))]).
Proof.
  split.
  - exists (it 1 8 ++ repeat 255%N 8), (it 5 16). split; vm_compute; reflexivity.
  - set (h := le_bytes 4 (acrc (it 66 8)) ++ le_bytes 2 8 ++ le_bytes 2 (crc16 (le_bytes 2 8))). exists (h ++ it 66 8), (it 5 16), (it 66 8). split; [vm_compute; reflexivity|]. split; [vm_compute; discriminate|]. split; [discriminate|vm_compute; reflexivity].
Qed.
(** Why damage to a map is considered after completed stores only: a store is cut after it copied the value of key 2 to a new page.  The old item of key 2 gets one wrong bit; the copy is intact and is
    still fetched.  The next store starts the interrupted work anew, from the damaged item, and erases the copy. *)
Definition ev5 : list (mev N) := [Sto 1 3 10 None; Sto 2 4 10 None; Sto 1 5 10 None; Sto 3 6 10 None; Sto 4 9 10 (Some 40)].
Definition s5 : st N := snd (m_run kn (mg 3) (mst0 true 3) ev5).
Definition m5 : nat -> N := flips (f_mem (s_fl s5)) [(41, 1%N)].
Theorem c44_interrupted_refuted : m_reached kn kl true (mg 3) 64 ev5 (fst (m_run kn (mg 3) (mst0 true 3) ev5)) s5 /\ slightly_hurt (mg 3) (f_mem (s_fl s5)) m5 /\
  lastv (k_eqb kn) 2%N (unpack kn (survivors (mg 3) (f_mem (s_fl s5)) m5 0)) = Some (it 4 10) /\
  fst (m_run kn (mg 3) (with_mem s5 m5) [Boot 3; Fet 2; Sto 4 9 10 None; Fet 2]) = [RVal (Ok (Some (it 4 10))); RUnit (Ok tt); RVal (Ok None)].
Proof.
  assert (R : m_reached kn kl true (mg 3) 64 ev5 (fst (m_run kn (mg 3) (mst0 true 3) ev5)) s5).
  { apply (run_reached true true 3 ev5); [lia|vm_compute; reflexivity|]. cbn. intros c H. repeat destruct H as [H|H]; try discriminate; contradiction. }
  split; [exact R|]. split; [apply flipsb_ok; [eapply reached_mem; exact R|vm_compute; reflexivity]|]. split; vm_compute; reflexivity.
Qed.
Print Assumptions c44_interrupted_refuted.
Print Assumptions c44_three_bits_refuted.
Print Assumptions c44_burst_refuted.
Print Assumptions c44_length_refuted.
