(** What reads do to the flash, and how many erases writing takes.  Vocabulary as in PropsQueue.v and PropsMap.v; WearSpec.v: [untouched], [only_erased], the items that were accepted. *)
From Coq Require Import List NArith Arith Bool Lia.
From Verif Require Import Base Crc Flash Cache State Item Generic Map Codec CodecP Client QSpec QObs QPropsP QCase MClient MSpec MObs MPropsP MCase CapSpec QCapP WearSpec QWearP MReadP MAmoP PropsCap.
Import ListNotations.

(** C36: asking a queue for its free space or largest fitting item does nothing to the flash. *)
Theorem c36_queue_queries g evs l s c a s' : q_reached false g evs l s -> c = QSpace \/ c = QMaxFit -> q_does g s c a s' -> untouched (s_fl s) (s_fl s').
Proof. exact (q_queries g evs l s c a s'). Qed.
(** C36: no read of a queue programs anything, even after power failures; at most some pages are erased. *)
Theorem c36_queue_reading pf g evs l s c a s' : q_reached pf g evs l s -> looks c -> q_does g s c a s' -> exists ps, only_erased g ps (s_fl s) (s_fl s').
Proof. exact (q_looks pf g evs l s c a s'). Qed.
(** C37: what was pushed pays for the erases. *)
Theorem c37_erases_amortised g M evs l s : q_reached false g evs l s -> Forall (sized g M) evs ->
  length (f_er (s_fl s)) * (page_cap g + W g - M) <= list_sum (map (item_room g) (pushed evs l)).
Proof. exact (q_amortised g M evs l s). Qed.

Section Props.
Context {K : Type} (KO : keyops K) (legal : K -> Prop).
Notation m_reached := (m_reached KO legal).
Notation m_does := (m_does KO).
(** C36: without power failures neither fetch nor iteration does anything to the flash. *)
Theorem c36_map_reading g n evs l s c a s' : m_reached false g n evs l s -> mlooks c -> mcall_ok KO legal false g n c -> m_does g s c a s' -> untouched (s_fl s) (s_fl s').
Proof. exact (m_read_flash KO legal g n evs l s c a s'). Qed.
(** C36: with power failures a fetch may erase one page, and does nothing else. *)
Theorem c36_map_fetch pf g n evs l s b k a s' : m_reached pf g n evs l s -> legal k -> n <= length b -> m_does g s (MFetch b k) a s' ->
  exists ps, length ps <= 1 /\ only_erased g ps (s_fl s) (s_fl s').
Proof. exact (m_fetch_flash KO legal pf g n evs l s b k a s'). Qed.
(** C38: what was stored pays for the erases of a map, with the migration of at most [R] bytes of current values. *)
Theorem c38_erases_amortised g n M R ks evs l s : m_reached false g n evs l s -> Forall (msized KO g M) evs -> within KO legal g n ks R evs l ->
  (NP g - 1) * (length (f_er (s_fl s)) * (page_cap g + W g - M)) <= (NP g - 1) * (list_sum (map (item_room g) (accepted KO evs l)) + R) + length (f_er (s_fl s)) * R.
Proof. exact (m_amortised KO legal g n M R ks evs l s). Qed.
End Props.

Print Assumptions c36_queue_queries.
Print Assumptions c36_queue_reading.
Print Assumptions c36_map_reading.
Print Assumptions c36_map_fetch.
Print Assumptions c37_erases_amortised.
Print Assumptions c38_erases_amortised.

(** Concrete cases.  The queue reports its free space; a peek erases the page whose two items were popped; three pages of items of 48 bytes took two erases. *)
Example c36_case_query : q_reached false cg evs_q (fst (q_run cg st0 evs_q)) st_q /\ fst (q_exec cg QSpace (power st_q None)) = ANum (Ok 176).
Proof. split; [apply cg_reached, ev_okb_ok; vm_compute; reflexivity|]. vm_compute. reflexivity. Qed.
Definition evs_p : list qev := map (fun c => ECall c None) [QPush (it 1 40) false; QPush (it 2 40) false; QPush (it 3 40) false; QPop cb; QPop cb].
Definition st_p : st unit := snd (q_run cg st0 evs_p).
Example c36_case_peek : q_reached false cg evs_p (fst (q_run cg st0 evs_p)) st_p /\ looks (QPeek cb) /\
  fst (q_exec cg (QPeek cb) (power st_p None)) = AItem (Ok (Some (it 3 40))) /\ f_er (s_fl st_p) = [] /\ f_er (s_fl (snd (q_exec cg (QPeek cb) (power st_p None)))) = [(0, 128)].
Proof. split; [apply cg_reached, ev_okb_ok; vm_compute; reflexivity|]. split; [exact I|]. repeat split; vm_compute; reflexivity. Qed.
Definition sizedb (M : nat) (e : qev) : bool := match e with ECall (QPush d _) _ => item_room cg d <=? M | _ => true end.
Lemma sizedb_ok M evs : forallb (sizedb M) evs = true -> Forall (sized cg M) evs.
Proof.
  intros H. apply Forall_forall. intros e I. rewrite forallb_forall in H. specialize (H e I). destruct e as [[d ow| | |sc| |] p|]; cbn in *; auto. left. now apply Nat.leb_le.
Qed.
Example c37_case : q_reached false cg evs_q (fst (q_run cg st0 evs_q)) st_q /\ Forall (sized cg 48) evs_q /\
  length (f_er (s_fl st_q)) = 2 /\ page_cap cg + W cg - 48 = 72 /\ list_sum (map (item_room cg) (pushed evs_q (fst (q_run cg st0 evs_q)))) = 432.
Proof.
  split; [apply cg_reached, ev_okb_ok; vm_compute; reflexivity|]. split; [apply sizedb_ok; vm_compute; reflexivity|]. repeat split; vm_compute; reflexivity.
Qed.

(** A map: nothing happens when it is read; after a power failure in a migration the fetch of a key that is not stored erases the half-erased page; and two keys
    overwritten thirty times each. *)
Example c36_case_map : m_reached kn kl false (mg 3) 64 mevs2 (fst (mrun false 3 mevs2)) ms2 /\ mcall_ok kn kl false (mg 3) 64 (MIter kb (repeat kb 9)) /\
  exists l, fst (m_exec kn (mg 3) (MIter kb (repeat kb 9)) (power ms2 None)) = RList (Ok l) /\ length l = 4.
Proof. split; [exact ms2_reached|]. split; [apply call_okb_ok; vm_compute; reflexivity|]. eexists. split; vm_compute; reflexivity. Qed.
Definition mevs_t : list (mev N) :=
  [Sto 1 10 7 None; Sto 2 20 15 None; Sto 1 30 7 None; Sto 3 40 7 None; Rmv 2 None; Sto 4 50 20 None; Sto 1 60 7 None; Sto 5 70 15 (Some 60); Boot 3].
Example c36_case_fetch : m_reached kn kl true (mg 3) 64 mevs_t (fst (mrun false 3 mevs_t)) (snd (mrun false 3 mevs_t)) /\
  let r := m_exec kn (mg 3) (MFetch kb 2%N) (power (snd (mrun false 3 mevs_t)) None) in fst r = RVal (Ok None) /\ length (f_er (s_fl (snd r))) = S (length (f_er (s_fl (snd (mrun false 3 mevs_t))))).
Proof. split; [reach|]. split; vm_compute; reflexivity. Qed.
Definition mevs_w : list (mev N) := flat_map (fun i => [Sto 1 (N.of_nat i) 7 None; Sto 2 (N.of_nat i + 100) 7 None]) (seq 0 30).
Definition msizedb (M : nat) (e : mev N) : bool := match e with MCall (MStore b k v) _ => match item_bytes kn (length b) k v with inl d => item_room (mg 3) d <=? M | inr _ => true end | _ => true end.
Lemma msizedb_ok M evs : forallb (msizedb M) evs = true -> Forall (msized kn (mg 3) M) evs.
Proof.
  intros H. apply Forall_forall. intros e I. rewrite forallb_forall in H. specialize (H e I). destruct e as [[b k v| | | |] p|]; cbn [msized msizedb] in *; auto.
  intros d E. rewrite E in H. left. now apply Nat.leb_le.
Qed.
Definition withinb (ks : list N) (R : nat) (evs : list (mev N)) (l : list (mans N)) : bool :=
  forallb (fun i => let m := replay (k_eqb kn) (@nothing N) (firstn i evs) l in
    forallb (fun i => match m (N.of_nat i) with None => true | Some _ => existsb (N.eqb (N.of_nat i)) ks end) (seq 0 256) && (room kn (mg 3) 64 m ks <=? R)) (seq 0 (S (length evs))).
Lemma withinb_ok ks R evs l : withinb ks R evs l = true -> within kn kl (mg 3) 64 ks R evs l.
Proof.
  intros H i. unfold withinb in H. rewrite forallb_forall in H. specialize (H (Nat.min i (length evs)) ltac:(apply in_seq; lia)). cbv zeta in H.
  replace (firstn (Nat.min i (length evs)) evs) with (firstn i evs) in H.
  2:{ destruct (Nat.leb_spec i (length evs)); [now rewrite Nat.min_l by lia|]. rewrite Nat.min_r by lia. now rewrite !firstn_all2 by lia. }
  apply andb_true_iff in H. destruct H as [H1 H2]. split; [now apply listed|now apply Nat.leb_le].
Qed.
Example c38_case : let r := mrun false 3 mevs_w in
  m_reached kn kl false (mg 3) 64 mevs_w (fst r) (snd r) /\ Forall (msized kn (mg 3) 16) mevs_w /\ within kn kl (mg 3) 64 [1; 2]%N 32 mevs_w (fst r) /\
  length (f_er (s_fl (snd r))) = 18 /\ page_cap (mg 3) + W (mg 3) - 16 = 40 /\ list_sum (map (item_room (mg 3)) (accepted kn mevs_w (fst r))) = 960.
Proof.
  split. { apply run_reached; [lia|vm_compute; reflexivity|]. intros c H. unfold mevs_w in H. apply in_flat_map in H. destruct H as (i & _ & [H|[H|[]]]); discriminate H. }
  split; [apply msizedb_ok; vm_compute; reflexivity|]. split; [apply withinb_ok; vm_compute; reflexivity|]. repeat split; vm_compute; reflexivity.
Qed.
