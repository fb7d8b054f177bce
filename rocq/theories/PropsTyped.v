(** Claims about the map with typed values.  Statements only; proofs are in the [...P] files.
    Vocabulary: [t_reached pf g n evs l s] (TObs.v): as [m_reached] (MObs.v), for histories with stores of values of any types with a correct codec.
    [t_store], [t_fetch], [t_iterate] (TMap.v): the calls with a codec.  [gives V g n s k v]: in [s] every fetch of [k] with the codec [V] answers [v].
    [m_holds] (MObs.v): what fetching the bytes of the values says. *)
From Coq Require Import List NArith Arith Bool Lia.
From Verif Require Import Base Crc Flash Cache State Item Generic Map Codec CodecP Utf8P Client QSpec QObs QPropsP QCase MClient MSpec MObs MPropsP MCase TMap TMapP TObs TPropsP.
Import ListNotations.

Section Props.
Context {K : Type} (KO : keyops K) (legal : K -> Prop).
Notation t_reached := (t_reached KO legal).
Notation m_holds := (m_holds KO legal).

(** C42: a store, which may be cut; [ca] is the cache of the restarted program.  Fetching gives the value itself, other keys keep theirs. *)
Theorem c42_store {T} (V : valops T) pf g n evs l s m b k v p r s' ca : t_reached pf g n evs l s -> m_holds g n s m -> tstore_ok KO legal pf g n V b k v ->
  (pf = false -> p = None) -> covered (f_ae (s_fl s)) (mode_after calm0 (map shape evs) l) (MStore b k []) p -> fresh_cache (NP g) ca -> t_store KO g V b k v (power s p) = (r, s') ->
  exists m', m_holds g n s' m' /\ m_holds g n (set_ca s' ca) m' /\ (forall k', legal k' -> k_eqb KO k' k = false -> m' k' = m k') /\
  match r with
  | Ok _ => gives KO V g n s' k v /\ gives KO V g n (set_ca s' ca) k v
  | Err e => m' k = m k \/ (e = cut /\ gives KO V g n s' k v /\ gives KO V g n (set_ca s' ca) k v)
  end.
Proof. exact (t_store_cut KO legal V pf g n evs l s m b k v p r s' ca). Qed.

(** C42: a completed store of a value is kept, whatever values of whatever types other keys get later. *)
Theorem c42_kept {T} (V : valops T) pf g n evs1 evs2 l1 l2 s b k v p : t_reached pf g n (evs1 ++ TStore T V b k v p :: evs2) (l1 ++ RUnit (Ok tt) :: l2) s ->
  length l1 = t_calls evs1 -> Forall (fun e => spares KO k (shape e)) evs2 -> gives KO V g n s k v.
Proof. exact (t_kept KO legal V pf g n evs1 evs2 l1 l2 s b k v p). Qed.

(** C42: a value its codec refuses: the codec's error is the answer and nothing changes.  ([v0]: some bytes could have been stored.) *)
Theorem c42_refused {T} (V : valops T) pf g n evs l s m b k v kb ev v0 d0 r s' : t_reached pf g n evs l s -> m_holds g n s m -> tstore_ok KO legal pf g n V b k v ->
  k_ser KO k (length b) = inl kb -> v_ser V v (length b - length kb) = inr ev ->
  mcall_ok KO legal pf g n (MStore b k v0) -> item_bytes KO (length b) k v0 = inl d0 ->
  t_store KO g V b k v (power s None) = (r, s') -> r = Err (ESer ev) /\ m_holds g n s' m.
Proof. exact (t_store_refused KO legal V pf g n evs l s m b k v kb ev v0 d0 r s'). Qed.

(** C42: a fetch with any codec, also one that is not the one the value was stored with. *)
Theorem c42_fetch {T} (V : valops T) pf g n evs l s m b k : t_reached pf g n evs l s -> m_holds g n s m -> legal k -> n <= length b ->
  exists s', t_fetch KO g V b k (power s None) =
    (match m k with None => Ok None | Some bs => match v_de V bs with inl (x, _) => Ok (Some x) | inr e => Err (ESer e) end end, s') /\ m_holds g n s' m.
Proof. exact (t_fetch_ok KO legal V pf g n evs l s m b k). Qed.
(** Every reachable state holds something, so the hypothesis on [m] above can always be met. *)
Theorem c42_contents pf g n evs l s : t_reached pf g n evs l s -> exists m, m_holds g n s m.
Proof. exact (t_history KO legal pf g n evs l s). Qed.

(** C42: iterating over a map with values of one type gives pairs that were stored, and for every key last its value. *)
Theorem c42_iteration {T} (V : valops T) pf g n evs l s m b bs : t_reached pf g n evs l s -> m_holds g n s m -> Forall (one_codec V) evs ->
  fresh (mode_after calm0 (map shape evs) l) = true -> f_ae (s_fl s) = true \/ whole (mode_after calm0 (map shape evs) l) = true -> n <= length b -> Forall (fun x => n <= length x) bs ->
  exists ps s', t_iterate KO g V b bs (power s None) = (Ok (firstn (length bs) (map Some ps ++ [None])), s') /\ m_holds g n s' m /\
    (forall k v, In (k, v) ps -> exists b' p, In (TStore T V b' k v p) evs) /\
    forall k b', legal k -> n <= length b' -> exists s2, t_fetch KO g V b' k (power s' None) = (Ok (tlast KO k ps), s2).
Proof. exact (t_iter_ok KO legal V pf g n evs l s m b bs). Qed.
End Props.

(** Concrete cases. *)
Lemma tstore_okb {T} (V : valops T) lv pf g n b k v : call_okb g n (MStore b k (tbytes kn V (length b) k v)) = true -> val_codec V lv -> lv v -> tstore_ok kn kl pf g n V b k v.
Proof.
  intros H VC LV. destruct (call_okb_ok pf g n _ H) as (LK & LB & SZ). split; auto. split; auto. split; [eauto|]. intros kb' vb EK EV. apply SZ.
  unfold item_bytes, tbytes. rewrite EK, EV. pose proof (vc_fit _ _ VC _ _ _ LV EV). destruct (Nat.ltb_spec (length b - length kb') (length vb)); [lia|]. reflexivity.
Qed.
Lemma traw_ok pf p e : evs_okb pf p [e] = true -> (forall c, e = MBoot c -> c = mc p 1) -> tev_ok kn kl pf (mg p) 64 (TRaw e).
Proof. intros H HB. pose proof (evs_okb_ok pf p [e] H) as F. cbn [tev_ok]. apply Forall_inv in F; auto. intros c [X|[]]. auto. Qed.
Definition trun (ae : bool) (p : nat) (evs : list (tev N)) : list (mans N) * st N := t_run kn (mg p) (mst0 ae p) evs.
Lemma trun_reached pf ae p evs : 2 <= p -> Forall (tev_ok kn kl pf (mg p) 64) evs -> negb pf || calmb ae calm0 (map shape evs) (fst (trun ae p evs)) = true ->
  t_reached kn kl pf (mg p) 64 evs (fst (trun ae p evs)) (snd (trun ae p evs)).
Proof.
  intros P H H2. split; [apply kn_codec|]. exists (mfl ae), (mc p 2). split; [split; intros; cbn; try reflexivity; auto|].
  split; [reflexivity|]. split; [reflexivity|]. split; [apply mc_fresh; lia|]. split; [now apply mg_set|]. split; [exact H|]. split.
  - intros ->. apply calmb_ok. exact H2.
  - unfold trun, mst0. apply surjective_pairing.
Qed.
(** A codec of numbers that refuses odd ones. *)
Definition evens : valops N := mkvalops (fun v n => if N.odd v then inr SECustom else v_ser (val_num 2) v n) (v_de (val_num 2)).
Lemma evens_ok : val_codec evens (fun v => (v < 65536)%N).
Proof.
  pose proof (val_num_ok 2) as V. constructor; cbn [evens v_ser v_de]; intros v n bs LV E; destruct (N.odd v); try discriminate.
  - eapply (vc_fit _ _ V); eauto.
  - eapply (vc_bytes _ _ V); eauto.
  - eapply (vc_de _ _ V); eauto.
Qed.
Notation VO := (val_option (val_num 4)).
Definition tsto {T} (V : valops T) (k : N) (v : T) (p : option nat) : tev N := TStore T V kb k v p.
(** Numbers, an optional number, truth values and a refused number; two stores are cut. *)
Definition evs1 : list (tev N) :=
  [tsto (val_num 4) 1%N 305419896%N None; tsto VO 2%N (Some 77%N) None; tsto val_bool 3%N true None; tsto evens 3%N 5%N None; tsto evens 4%N 6%N (Some 3); TRaw (Boot 4); TRaw (Fet 4);
   tsto (val_num 8) 5%N 1%N None; tsto (val_num 8) 5%N 2%N None; tsto (val_num 8) 5%N 3%N (Some 9); TRaw (Boot 4); tsto VO 6%N None None; TRaw (Fet 1)].
Definition s1 : st N := snd (trun false 4 evs1).
Lemma s1_reached : t_reached kn kl true (mg 4) 64 evs1 (fst (trun false 4 evs1)) s1.
Proof.
  apply trun_reached; [lia| |vm_compute; reflexivity]. unfold evs1.
  repeat (apply Forall_cons; [first [split; [discriminate|eapply tstore_okb; [vm_compute; reflexivity|first [apply evens_ok|apply (val_num_ok 4)|apply (val_num_ok 8)|apply val_bool_ok|apply (val_option_ok _ _ (val_num_ok 4))]|cbv; try reflexivity; auto]]
    |apply traw_ok; [vm_compute; reflexivity|intros c E; first [discriminate E|injection E as <-; reflexivity]]]|]). apply Forall_nil.
Qed.
(** The number stored first, through the codec, after everything else. *)
Example c42_kept_case : nth 0 evs1 (TRaw (Fet 0)) = tsto (val_num 4) 1%N 305419896%N None /\ nth 0 (fst (trun false 4 evs1)) (RVal (Ok None)) = RUnit (Ok tt) /\
  Forall (fun e => spares kn 1%N (shape e)) (skipn 1 evs1) /\ fst (t_fetch kn (mg 4) (val_num 4) kb 1%N (power s1 None)) = Ok (Some 305419896%N).
Proof. split; [reflexivity|]. split; [vm_compute; reflexivity|]. split; [unfold evs1; cbn [skipn]; repeat constructor|vm_compute; reflexivity]. Qed.
(** The odd number is refused with the codec's error. *)
Example c42_refused_case : tstore_ok kn kl true (mg 4) 64 evens kb 3%N 7%N /\ v_ser evens 7%N 63 = inr SECustom /\ mcall_ok kn kl true (mg 4) 64 (MStore kb 3%N [0%N; 0%N]) /\
  fst (t_store kn (mg 4) evens kb 3%N 7%N (power s1 None)) = Err (ESer SECustom) /\ fst (t_store kn (mg 4) evens kb 3%N 8%N (power s1 None)) = Ok tt.
Proof.
  split; [eapply tstore_okb; [vm_compute; reflexivity|apply evens_ok|cbv; reflexivity]|]. split; [reflexivity|]. split; [apply call_okb_ok; vm_compute; reflexivity|]. split; vm_compute; reflexivity.
Qed.
(** Key 3 holds a truth value: one byte, too short for a number. *)
Example c42_fetch_case : fst (t_fetch kn (mg 4) val_bool kb 3%N (power s1 None)) = Ok (Some true) /\ fst (t_fetch kn (mg 4) (val_num 2) kb 3%N (power s1 None)) = Err (ESer SEBufferTooSmall) /\
  fst (t_fetch kn (mg 4) VO kb 2%N (power s1 None)) = Ok (Some (Some 77%N)) /\ fst (t_fetch kn (mg 4) VO kb 6%N (power s1 None)) = Ok (Some None) /\
  fst (t_fetch kn (mg 4) VO kb 7%N (power s1 None)) = Ok None.
Proof. repeat split; vm_compute; reflexivity. Qed.
(** Iteration. *)
Definition evs2 : list (tev N) :=
  [tsto VO 1%N (Some 10%N) None; tsto VO 2%N None None; tsto VO 1%N (Some 11%N) None; tsto VO 3%N (Some 12%N) (Some 3); TRaw (Boot 3); tsto VO 4%N (Some 13%N) None; TRaw (Rmv 2 None)].
Definition s2 : st N := snd (trun false 3 evs2).
Lemma s2_reached : t_reached kn kl true (mg 3) 64 evs2 (fst (trun false 3 evs2)) s2.
Proof.
  apply trun_reached; [lia| |vm_compute; reflexivity]. unfold evs2.
  repeat (apply Forall_cons; [first [split; [discriminate|eapply tstore_okb; [vm_compute; reflexivity|apply (val_option_ok _ _ (val_num_ok 4))|cbv; try reflexivity; auto]]
    |apply traw_ok; [vm_compute; reflexivity|intros c E; first [discriminate E|injection E as <-; reflexivity]]]|]). apply Forall_nil.
Qed.
Example c42_iteration_case : Forall (one_codec VO) evs2 /\ mode_after calm0 (map shape evs2) (fst (trun false 3 evs2)) = calm0 /\
  fst (t_iterate kn (mg 3) VO kb (repeat kb 5) (power s2 None)) = Ok [Some (1%N, Some 10%N); Some (1%N, Some 11%N); Some (4%N, Some 13%N); None].
Proof.
  split; [|split; vm_compute; reflexivity]. unfold evs2, tsto. repeat (apply Forall_cons; [first [apply OneStore|apply OneRaw; intros; discriminate]|]). apply Forall_nil.
Qed.

Print Assumptions c42_store.
Print Assumptions c42_kept.
Print Assumptions c42_refused.
Print Assumptions c42_fetch.
Print Assumptions c42_contents.
Print Assumptions c42_iteration.
