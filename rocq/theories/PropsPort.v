(** Claims about the same calls on storages of different geometries.  Statements only; proofs are in PortP.v.
    Vocabulary (Port.v): [plain n c]: a push without overwriting, or a pop, peek or iteration with buffers of [n] bytes at least; [push_answers], [store_answers]: the answers to the pushes and
    stores; [unordered c]: not an iteration of a map.  See QObs.v and MObs.v for the rest. *)
From Coq Require Import List NArith Arith Bool Lia.
From Verif Require Import Base BaseP CrcP Flash Cache State Item Generic Queue Map Client MClient QSpec QObs QPropsP QCase MSpec MObs MPropsP MCase Port PortP.
Import ListNotations.

(** C54 for queues.  The same calls on two storages that may differ in everything - sizes and numbers of words and pages, caches, restarts: if both accept the same pushes, all answers are the
    same and so are the contents. *)
Theorem c54_queue g1 g2 evs1 evs2 l1 l2 s1 s2 n : q_reached false g1 evs1 l1 s1 -> q_reached false g2 evs2 l2 s2 -> ES g1 <= n -> ES g2 <= n ->
  q_calls evs1 = q_calls evs2 -> Forall (fun c => plain n (fst c)) (q_calls evs1) -> push_answers (q_calls evs1) l1 = push_answers (q_calls evs1) l2 ->
  l1 = l2 /\ exists q, q_holds g1 s1 q /\ q_holds g2 s2 q.
Proof. exact (port_queue g1 g2 evs1 evs2 l1 l2 s1 s2 n). Qed.
Print Assumptions c54_queue.

(** C54 for maps, with the buffers that each of them needs. *)
Theorem c54_map {K} (KO : keyops K) legal g1 g2 n1 n2 evs1 evs2 l1 l2 s1 s2 : m_reached KO legal false g1 n1 evs1 l1 s1 -> m_reached KO legal false g2 n2 evs2 l2 s2 ->
  m_calls evs1 = m_calls evs2 -> Forall (fun c => unordered (fst c)) (m_calls evs1) -> store_answers (m_calls evs1) l1 = store_answers (m_calls evs1) l2 ->
  l1 = l2 /\ exists m, m_holds KO legal g1 n1 s1 m /\ m_holds KO legal g2 n2 s2 m.
Proof. exact (port_map KO legal g1 g2 n1 n2 evs1 evs2 l1 l2 s1 s2). Qed.
Print Assumptions c54_map.

(** Two pages of 128 bytes with words of 8 bytes and a restart, three pages of 64 bytes with words of 4 bytes and another cache. *)
Definition pg1 : geom := mkgeom 1 8 128 0 2.
Definition pg2 : geom := mkgeom 4 4 64 64 3.
Definition pcs : list qcall :=
  [QPush (it 1 20) false; QPush (it 2 9) false; QPop (repeat 0%N 128); QPush (it 3 30) false; QPeek (repeat 0%N 128); QPush (it 4 11) false; QIter (repeat (repeat 0%N 128, true) 2); QPush (it 5 21) false;
   QPop (repeat 0%N 128); QPeek (repeat 0%N 128)].
Definition pe1 : list qev := map (fun c => ECall c None) (firstn 4 pcs) ++ [EBoot cache_none] ++ map (fun c => ECall c None) (skipn 4 pcs).
Definition pe2 : list qev := map (fun c => ECall c None) pcs.
Definition pc2 : cache unit := mkcache false (PSArray (repeat None 3)) (PPArray (repeat None 3) (repeat None 3)) KPNone.
Definition pr1 : list qans * st unit := q_run pg1 (st_new (mfl false) cache_none) pe1.
Definition pr2 : list qans * st unit := q_run pg2 (st_new (mfl true) pc2) pe2.
Lemma plain_pcs : Forall (fun c => plain 128 (fst c)) (map (fun c => (c, @None nat)) pcs).
Proof. repeat constructor. Qed.
Lemma pev_ok g evs : Forall (fun c => match c with QPush d _ => item_ok false d | _ => True end) pcs -> (forall c, In (EBoot c) evs -> fresh_cache (NP g) c) ->
  (forall c p, In (ECall c p) evs -> p = None /\ In c pcs) -> Forall (qev_ok false g) evs.
Proof.
  intros I B C. apply Forall_forall. intros [c p|c] H; [|exact (B c H)]. destruct (C c p H) as (-> & Hc). split; auto. rewrite Forall_forall in I. exact (I c Hc).
Qed.
Lemma pcs_ok : Forall (fun c => match c with QPush d _ => item_ok false d | _ => True end) pcs.
Proof. unfold pcs. repeat (apply Forall_cons; [exact I || (apply item_okb; vm_compute; reflexivity)|]). apply Forall_nil. Qed.
Lemma pr1_reached : q_reached false pg1 pe1 (fst pr1) (snd pr1).
Proof.
  exists (mfl false), cache_none. split; [exact (fl_erased pg1)|]. split; [reflexivity|]. split; [reflexivity|]. split; [repeat constructor|].
  split; [split; [unfold geom_ok; cbn; lia|discriminate]|]. split; [|unfold pr1; now destruct (q_run pg1 _ pe1)]. apply pev_ok; [exact pcs_ok| |].
  - intros c H. unfold pe1 in H. rewrite !in_app_iff, !in_map_iff in H. destruct H as [(? & ? & _)|[[H|[]]|(? & ? & _)]]; try discriminate. injection H as <-. repeat constructor.
  - intros c p H. unfold pe1 in H. rewrite !in_app_iff, !in_map_iff in H. destruct H as [(x & E & H)|[[H|[]]|(x & E & H)]]; try discriminate; injection E as <- <-; split; auto.
    + rewrite <- (firstn_skipn 4 pcs). apply in_app_iff. now left.
    + rewrite <- (firstn_skipn 4 pcs). apply in_app_iff. now right.
Qed.
Lemma pr2_reached : q_reached false pg2 pe2 (fst pr2) (snd pr2).
Proof.
  exists (mfl true), pc2. split; [split; intros; cbn; try reflexivity; auto|]. split; [reflexivity|]. split; [reflexivity|].
  split; [split; [reflexivity|]; split; [exact (FPArray 3 3 (le_n 3))|]; split; [exact (FQArray 3 3 3 (le_n 3) (le_n 3))|constructor]|].
  split; [split; [unfold geom_ok; cbn; lia|discriminate]|]. split; [|unfold pr2; now destruct (q_run pg2 _ pe2)]. apply pev_ok; [exact pcs_ok| |].
  - intros c H. unfold pe2 in H. apply in_map_iff in H. destruct H as (? & ? & _). discriminate.
  - intros c p H. unfold pe2 in H. apply in_map_iff in H. destruct H as (x & E & H). injection E as <- <-. auto.
Qed.
Example c54_case : q_reached false pg1 pe1 (fst pr1) (snd pr1) /\ q_reached false pg2 pe2 (fst pr2) (snd pr2) /\ q_calls pe1 = q_calls pe2 /\
  Forall (fun c => plain 128 (fst c)) (q_calls pe1) /\ push_answers (q_calls pe1) (fst pr1) = push_answers (q_calls pe1) (fst pr2) /\
  skipn 6 (fst pr2) = [AIter (Ok [Ok (Some (it 2 9)); Ok (Some (it 3 30))]); AUnit (Ok tt); AItem (Ok (Some (it 4 11))); AItem (Ok (Some (it 5 21)))].
Proof.
  split; [exact pr1_reached|]. split; [exact pr2_reached|]. split; [reflexivity|]. split; [exact plain_pcs|]. split; vm_compute; reflexivity.
Qed.
(** The map of MCase.v with three pages and with five. *)
Definition pms : list (mev N) := [Sto 1 11 15 None; Sto 2 12 7 None; Sto 1 13 7 None; Fet 1; Rmv 2 None; Fet 2; Sto 3 14 7 None; Sto 1 15 7 None; Sto 2 16 7 None; Fet 1; Fet 3].
Example c54_map_case : m_reached kn kl false (mg 3) 64 pms (fst (mrun true 3 pms)) (snd (mrun true 3 pms)) /\ m_reached kn kl false (mg 5) 64 pms (fst (mrun true 5 pms)) (snd (mrun true 5 pms)) /\
  Forall (fun c => unordered (fst c)) (m_calls pms) /\ store_answers (m_calls pms) (fst (mrun true 3 pms)) = store_answers (m_calls pms) (fst (mrun true 5 pms)) /\
  store_answers (m_calls pms) (fst (mrun true 3 pms)) = repeat (RUnit (Ok tt)) 6 /\
  f_er (s_fl (snd (mrun true 3 pms))) <> f_er (s_fl (snd (mrun true 5 pms))).
Proof.
  assert (B : forall p c, In (MBoot c) pms -> c = mc p 1) by (unfold pms, Sto, Fet, Rmv; cbn [In]; intros p c H; repeat (destruct H as [H|H]; [discriminate|]); destruct H).
  split; [apply run_reached; [lia|vm_compute; reflexivity|apply B]|]. split; [apply run_reached; [lia|vm_compute; reflexivity|apply B]|].
  split; [unfold pms, Sto, Fet, Rmv; cbn [m_calls flat_map app]; repeat (apply Forall_cons; [exact I|]); apply Forall_nil|]. split; [vm_compute; reflexivity|]. split; [vm_compute; reflexivity|].
  vm_compute. discriminate.
Qed.
