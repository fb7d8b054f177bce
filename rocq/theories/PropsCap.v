(** How much a map and a queue can hold.  Vocabulary as in PropsQueue.v and PropsMap.v; [item_room], [room] (CapSpec.v): the bytes that an item and the current values of some keys take. *)
From Coq Require Import List NArith Arith Bool Lia.
From Verif Require Import Base Crc Flash Cache State Item Generic Map Codec CodecP Client QSpec QObs QPropsP QCase MClient MSpec MObs MPropsP MCase CapSpec MCapP QCapP.
Import ListNotations.

Section Props.
Context {K : Type} (KO : keyops K) (legal : K -> Prop).
Notation upd := (upd (k_eqb KO)).
Notation m_reached := (m_reached KO legal).
Notation m_holds := (m_holds KO legal).
Notation m_does := (m_does KO).

(** C08: [ks] has all keys that are stored. *)
Theorem c08_enough_room pf g n evs l s m b k v d ks : m_reached pf g n evs l s -> m_holds g n s m -> mcall_ok KO legal pf g n (MStore b k v) ->
  item_bytes KO (length b) k v = inl d -> ~ mbig g d -> (forall k', legal k' -> m k' <> None -> In k' ks) ->
  room KO g n m ks <= (NP g - 1) * (page_cap g - item_room g d) ->
  exists s', m_does g s (MStore b k v) (RUnit (Ok tt)) s' /\ m_holds g n s' (upd m k (Some v)).
Proof. exact (m_room_le KO legal pf g n evs l s m b k v d ks). Qed.
(** C08: rounding of sizes to words allows one word more on each page but the last. *)
Theorem c08_exact_bound pf g n evs l s m b k v d ks : m_reached pf g n evs l s -> m_holds g n s m -> mcall_ok KO legal pf g n (MStore b k v) ->
  item_bytes KO (length b) k v = inl d -> ~ mbig g d -> (forall k', legal k' -> m k' <> None -> In k' ks) ->
  room KO g n m ks < (NP g - 1) * (page_cap g - item_room g d + W g) ->
  exists s', m_does g s (MStore b k v) (RUnit (Ok tt)) s' /\ m_holds g n s' (upd m k (Some v)).
Proof. exact (m_room_lt KO legal pf g n evs l s m b k v d ks). Qed.
End Props.

Print Assumptions c08_enough_room.
Print Assumptions c08_exact_bound.

Lemma listed (m : N -> option (list N)) ks :
  forallb (fun i => match m (N.of_nat i) with None => true | Some _ => existsb (N.eqb (N.of_nat i)) ks end) (seq 0 256) = true ->
  forall k, kl k -> m k <> None -> In k ks.
Proof.
  intros H k L M. unfold kl in L. rewrite forallb_forall in H. specialize (H (N.to_nat k) ltac:(apply in_seq; lia)). rewrite N2Nat.id in H.
  destruct (m k); [|congruence]. apply existsb_exists in H. destruct H as (x & I & E). apply N.eqb_eq in E. now subst.
Qed.
(** Concrete cases: 72 of 80 bytes are taken, then an item of 16 bytes is stored; it needs a migration. *)
Example c08_case : exists d, item_bytes kn (length kb) 1%N (it 95 7) = inl d /\ item_room (mg 3) d = 16 /\ ~ mbig (mg 3) d /\
  m_reached kn kl false (mg 3) 64 mevs2 (fst (mrun false 3 mevs2)) ms2 /\ m_holds kn kl (mg 3) 64 ms2 mm2 /\ mcall_ok kn kl false (mg 3) 64 (MStore kb 1%N (it 95 7)) /\
  (forall k', kl k' -> mm2 k' <> None -> In k' [1; 4; 5]%N) /\ room kn (mg 3) 64 mm2 [1; 4; 5]%N = 72 /\ page_cap (mg 3) = 48 /\ W (mg 3) = 8 /\
  fst (m_exec kn (mg 3) (MStore kb 1%N (it 95 7)) (power ms2 None)) = RUnit (Ok tt).
Proof.
  eexists. split; [vm_compute; reflexivity|]. split; [vm_compute; reflexivity|]. split.
  { intros [X|X]; vm_compute in X; [lia|discriminate X]. }
  split; [exact ms2_reached|]. split; [exact ms2_holds|]. split; [apply call_okb_ok; vm_compute; reflexivity|]. split.
  { apply listed. vm_compute. reflexivity. }
  split; [vm_compute; reflexivity|]. split; [vm_compute; reflexivity|]. split; vm_compute; reflexivity.
Qed.

(** The bound of [c08_exact_bound] cannot be improved: one state where it is met with equality and the map is full. *)
Definition evs_full : list (mev N) := [Sto 1 10 7 None; Sto 2 20 15 None; Sto 3 30 7 None; Sto 4 40 15 None].
Definition ms_full : st N := snd (mrun false 3 evs_full).
Definition mm_full : N -> option (list N) := fun k => match k with 1 => Some (it 10 7) | 2 => Some (it 20 15) | 3 => Some (it 30 7) | 4 => Some (it 40 15) | _ => None end%N.
Theorem c08_beyond_bound_refuted : exists evs l s m b k v d ks, m_reached kn kl false (mg 3) 64 evs l s /\ m_holds kn kl (mg 3) 64 s m /\
  mcall_ok kn kl false (mg 3) 64 (MStore b k v) /\ item_bytes kn (length b) k v = inl d /\ ~ mbig (mg 3) d /\ (forall k', kl k' -> m k' <> None -> In k' ks) /\
  room kn (mg 3) 64 m ks = (NP (mg 3) - 1) * (page_cap (mg 3) - item_room (mg 3) d + W (mg 3)) /\
  fst (m_exec kn (mg 3) (MStore b k v) (power s None)) = RUnit (Err EFull).
Proof.
  exists evs_full, (fst (mrun false 3 evs_full)), ms_full, mm_full, kb, 5%N, (it 50 7). eexists. exists [1; 2; 3; 4]%N.
  assert (R : m_reached kn kl false (mg 3) 64 evs_full (fst (mrun false 3 evs_full)) ms_full) by reach.
  split; [exact R|]. split; [apply (shown_holds false 3 evs_full _ _ _ R); vm_compute; reflexivity|]. split; [apply call_okb_ok; vm_compute; reflexivity|].
  split; [vm_compute; reflexivity|]. split; [intros [X|X]; vm_compute in X; [lia|discriminate X]|]. split.
  { apply listed. vm_compute. reflexivity. }
  split; vm_compute; reflexivity.
Qed.
Print Assumptions c08_beyond_bound_refuted.

(** C35: a queue of at least two pages that items leave only from the front, each of at most [M] bytes. *)
Theorem c35_enough_room g M evs l s q d r s' : 2 <= NP g -> q_reached false g evs l s -> Forall (in_order g M) evs -> q_holds g s q -> item_ok false d -> ~ too_long g d ->
  q_does g s (QPush d false) (AUnit r) s' ->
  list_sum (map (item_room g) q) < (NP g - 2) * (page_cap g + W g - M) + (page_cap g + W g - item_room g d) + HL g -> r = Ok tt.
Proof. exact (q_room g M evs l s q d r s'). Qed.
Print Assumptions c35_enough_room.

Lemma cg_reached evs : Forall (qev_ok false cg) evs -> q_reached false cg evs (fst (q_run cg st0 evs)) (snd (q_run cg st0 evs)).
Proof.
  intros EV. exists flash_new, cc. split; [apply fl_erased|]. split; [reflexivity|]. split; [reflexivity|]. split; [apply cc_fresh|]. split; [split; [apply cg_ok|discriminate]|].
  split; auto. unfold st0. now destruct (q_run cg (st_new flash_new cc) evs).
Qed.
Definition ev_okb (e : qev) : bool := match e with ECall (QPush d _) None => bytesb d && no_collisionb d | ECall _ None => true | _ => false end.
Lemma ev_okb_ok evs : forallb ev_okb evs = true -> Forall (qev_ok false cg) evs.
Proof.
  intros H. apply Forall_forall. intros e I. rewrite forallb_forall in H. specialize (H e I). destruct e as [[d ow| | | | |] [p|]|]; try discriminate H; split; auto.
  apply item_okb. exact H.
Qed.
Definition in_orderb (M : nat) (e : qev) : bool :=
  match e with ECall (QPush d _) _ => item_room cg d <=? M | ECall (QIter sc) _ => forallb (fun x => negb (snd x)) sc | _ => true end.
Lemma in_orderb_ok M evs : forallb (in_orderb M) evs = true -> Forall (in_order cg M) evs.
Proof.
  intros H. apply Forall_forall. intros e I. rewrite forallb_forall in H. specialize (H e I). destruct e as [[d ow| | |sc| |] p|]; cbn in *; auto.
  - left. now apply Nat.leb_le.
  - apply Forall_forall. intros x J. rewrite forallb_forall in H. specialize (H x J). now apply negb_true_iff in H.
Qed.
(** Eight items of 48 bytes went through three pages that take two each; three are left. *)
Definition evs_q : list qev := map (fun c => ECall c None)
  [QPush (it 1 40) false; QPush (it 2 40) false; QPush (it 3 40) false; QPush (it 4 40) false; QPush (it 5 40) false; QPush (it 6 40) false;
   QPop cb; QPush (it 7 40) true; QPop cb; QPop cb; QPush (it 8 40) true; QPop cb; QIter [(cb, false); (cb, false)]; QPush (it 9 40) false; QPop cb].
Definition st_q : st unit := snd (q_run cg st0 evs_q).
Example c35_case : 2 <= NP cg /\ q_reached false cg evs_q (fst (q_run cg st0 evs_q)) st_q /\ Forall (in_order cg 48) evs_q /\
  q_holds cg st_q [it 7 40; it 8 40; it 9 40] /\ item_ok false (it 10 40) /\ ~ too_long cg (it 10 40) /\
  list_sum (map (item_room cg) [it 7 40; it 8 40; it 9 40]) = 144 /\ (NP cg - 2) * (page_cap cg + W cg - 48) + (page_cap cg + W cg - item_room cg (it 10 40)) + HL cg = 152 /\
  fst (q_exec cg (QPush (it 10 40) false) (power st_q None)) = AUnit (Ok tt).
Proof.
  assert (R : q_reached false cg evs_q (fst (q_run cg st0 evs_q)) st_q) by (apply cg_reached, ev_okb_ok; vm_compute; reflexivity).
  split; [cbn; lia|]. split; [exact R|]. split; [apply in_orderb_ok; vm_compute; reflexivity|].
  split; [apply (q_shows false cg evs_q _ st_q cb _ R); [reflexivity|vm_compute; reflexivity]|]. split; [apply item_okb; vm_compute; reflexivity|].
  split; [intros [X|X]; vm_compute in X; [lia|discriminate X]|]. split; [vm_compute; reflexivity|]. split; vm_compute; reflexivity.
Qed.

(** The bound cannot be improved: with equality the queue may be full. *)
Definition evs_x : list qev := map (fun c => ECall c None)
  [QPush (it 1 32) false; QPush (it 2 24) false; QPush [] false; QPush (it 3 32) false; QPush (it 4 32) false; QPush (it 5 32) false; QPush (it 6 32) false; QPop cb; QPop cb].
Definition st_x : st unit := snd (q_run cg st0 evs_x).
Definition q_x : list item := [[]; it 3 32; it 4 32; it 5 32; it 6 32].
Theorem c35_beyond_bound_refuted : exists M evs l s q d, q_reached false cg evs l s /\ Forall (in_order cg M) evs /\ q_holds cg s q /\ item_ok false d /\ item_room cg d <= M /\
  list_sum (map (item_room cg) q) = (NP cg - 2) * (page_cap cg + W cg - M) + (page_cap cg + W cg - item_room cg d) + HL cg /\
  fst (q_exec cg (QPush d false) (power s None)) = AUnit (Err EFull).
Proof.
  exists 40, evs_x, (fst (q_run cg st0 evs_x)), st_x, q_x, (it 7 32).
  assert (R : q_reached false cg evs_x (fst (q_run cg st0 evs_x)) st_x) by (apply cg_reached, ev_okb_ok; vm_compute; reflexivity).
  split; [exact R|]. split; [apply in_orderb_ok; vm_compute; reflexivity|].
  split; [apply (q_shows false cg evs_x _ st_x cb _ R); [reflexivity|vm_compute; reflexivity]|]. split; [apply item_okb; vm_compute; reflexivity|].
  split; [apply Nat.leb_le; vm_compute; reflexivity|]. split; vm_compute; reflexivity.
Qed.
(** Items must leave from the front: here five of six were removed through an iterator, one is left, and the queue is full. *)
Definition evs_y : list qev := map (fun c => ECall c None)
  [QPush (it 1 40) false; QPush (it 2 40) false; QPush (it 3 40) false; QPush (it 4 40) false; QPush (it 5 40) false; QPush (it 6 40) false;
   QIter ((cb, false) :: repeat (cb, true) 5)].
Definition st_y : st unit := snd (q_run cg st0 evs_y).
Theorem c35_out_of_order_refuted : exists evs l s q d, q_reached false cg evs l s /\ q_holds cg s q /\ item_ok false d /\
  (forall d' ow p, In (ECall (QPush d' ow) p) evs -> item_room cg d' <= 48) /\
  list_sum (map (item_room cg) q) < (NP cg - 2) * (page_cap cg + W cg - 48) + (page_cap cg + W cg - item_room cg d) + HL cg /\
  fst (q_exec cg (QPush d false) (power s None)) = AUnit (Err EFull).
Proof.
  exists evs_y, (fst (q_run cg st0 evs_y)), st_y, [it 1 40], (it 7 40).
  assert (R : q_reached false cg evs_y (fst (q_run cg st0 evs_y)) st_y) by (apply cg_reached, ev_okb_ok; vm_compute; reflexivity).
  split; [exact R|]. split; [apply (q_shows false cg evs_y _ st_y cb _ R); [reflexivity|vm_compute; reflexivity]|]. split; [apply item_okb; vm_compute; reflexivity|].
  split. { intros d' ow p I. unfold evs_y in I. cbn [map In] in I. repeat (destruct I as [I|I]; [try discriminate I; injection I as <- _ _; apply Nat.leb_le; vm_compute; reflexivity|]). destruct I. }
  split; [apply Nat.ltb_lt; vm_compute; reflexivity|vm_compute; reflexivity].
Qed.
Print Assumptions c35_beyond_bound_refuted.
Print Assumptions c35_out_of_order_refuted.
