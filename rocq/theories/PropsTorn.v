(** C11 and C13 when the power may fail in any erase, also in the erase with which a store restarts the migration that an earlier, interrupted store
    had begun.  [PropsMap] admits such failures only if erases are atomic; here they may be torn.  What is needed instead: words of at least
    eight bytes, and stored items that are [quiet] (TornSpec.v): no word of the item passes for an item header.  Without the second
    C13 is false (c13_torn_erase_refuted in PropsMap.v). *)
From Coq Require Import List NArith Arith Bool Lia.
From Verif Require Import Base Flash Cache State Crc Map Codec CodecP Client QSpec QObs QPropsP QCase MClient MSpec MObs MPropsP MCase TornSpec QuietP MTornObs MTornPropsP.
Import ListNotations.

Section Torn.
Context {K : Type} (KO : keyops K) (legal : K -> Prop).
Notation torn_reached := (torn_reached KO legal).
Notation m_holds := (m_holds KO legal).
Notation upd := (upd (k_eqb KO)).
Notation mdo g := (mdo (k_eqb KO) legal (item_bytes KO) (mbig g) true).
Notation mtrace g := (mtrace (k_eqb KO) legal (item_bytes KO) (mbig g) true).

(** C11: a store after any such history, cut at any byte.  Missing: words of fewer than eight bytes, items that are not quiet, and histories with
    removals or iterations before a cut store has been completed. *)
Theorem c11_torn_cut_store_partial g n evs l s m b k v p a s' ca : torn_reached g n evs l s -> m_holds g n s m -> qcall_ok KO legal g n (MStore b k v) ->
  fresh_cache (NP g) ca -> m_exec KO g (MStore b k v) (power s p) = (a, s') ->
  (a = RUnit (Ok tt) /\ m_holds g n (set_ca s' ca) (upd m k (Some v)) /\ m_holds g n s' (upd m k (Some v))) \/
  (exists e, a = RUnit (Err e) /\ e <> cut /\ m_holds g n (set_ca s' ca) m /\ m_holds g n s' m) \/
  (a = RUnit (Err cut) /\ exists m', (m' = m \/ m' = upd m k (Some v)) /\ m_holds g n (set_ca s' ca) m' /\ m_holds g n s' m').
Proof. exact (torn_cut_store KO legal g n evs l s m b k v p a s' ca). Qed.
(** C11: every such history. *)
Theorem c11_torn_history_partial g n evs l s : torn_reached g n evs l s -> exists m log, mtrace g (@nothing K) [] evs l m log /\ m_holds g n s m.
Proof. exact (torn_history KO legal g n evs l s). Qed.
(** C11: any one more call. *)
Theorem c11_torn_one_call_partial g n evs l s m c p a s' ca : torn_reached g n evs l s -> m_holds g n s m -> qcall_ok KO legal g n c ->
  covered_q (mode_after calm0 evs l) c -> fresh_cache (NP g) ca -> m_exec KO g c (power s p) = (a, s') ->
  exists m' log log', incl log (stored evs l) /\ mdo g m log c a m' log' /\ m_holds g n s' m' /\ m_holds g n (set_ca s' ca) m'.
Proof. exact (torn_step KO legal g n evs l s m c p a s' ca). Qed.
(** C13 *)
Theorem c13_torn_kept_partial g n evs1 evs2 l1 l2 s m b k v p : torn_reached g n (evs1 ++ MCall (MStore b k v) p :: evs2) (l1 ++ RUnit (Ok tt) :: l2) s ->
  length l1 = length (m_calls evs1) -> legal k -> Forall (spares KO k) evs2 -> m_holds g n s m -> m k = Some v.
Proof. exact (torn_kept KO legal g n evs1 evs2 l1 l2 s m b k v p). Qed.
(** C13: all histories of stores, fetches and restarts are admitted, with a power failure at any byte of every call. *)
Theorem c13_torn_admitted_partial (evs : list (mev K)) l : Forall store_fetch evs -> calm_q calm0 evs l.
Proof. exact (torn_auto evs calm0 l). Qed.
End Torn.

(** A check of the conditions on histories. *)
Definition qokb (p : nat) (e : mev N) : bool :=
  match e with
  | MCall (MStore b k v) _ => call_okb (mg p) 64 (MStore b k v) && match item_bytes kn (length b) k v with inl d => quietb (mg p) d | inr _ => true end
  | MCall c _ => call_okb (mg p) 64 c
  | MBoot _ => true
  end.
Lemma qokb_ok p evs : forallb (qokb p) evs = true -> (forall c, In (MBoot c) evs -> c = mc p 1) -> Forall (qev_ok kn kl (mg p) 64) evs.
Proof.
  rewrite forallb_forall. intros H HB. apply Forall_forall. intros e I. specialize (H e I). destruct e as [c q|c]; cbn [qev_ok].
  - destruct c; cbn [qokb] in H; try (split; [now apply call_okb_ok|exact (fun x => x) || exact Logic.I]).
    apply andb_true_iff in H. destruct H as [H1 H2]. split; [now apply call_okb_ok|]. intros d E. rewrite E in H2. apply quietb_ok; [cbn; lia|exact H2].
  - rewrite (HB c I). apply mc_fresh. lia.
Qed.
Lemma run_torn p evs : 2 <= p -> forallb (qokb p) evs = true -> Forall (@store_fetch N) evs -> (forall c, In (MBoot c) evs -> c = mc p 1) ->
  torn_reached kn kl (mg p) 64 evs (fst (mrun false p evs)) (snd (mrun false p evs)).
Proof.
  intros P H SF HB. split; [apply kn_codec|]. exists (mfl false), (mc p 2). split; [split; intros; cbn; try reflexivity; auto|].
  split; [reflexivity|]. split; [apply mc_fresh; lia|]. split; [apply (mg_set true p 0 P)|]. split; [exact P|]. split; [cbn; lia|]. split; [now apply qokb_ok|]. split.
  - now apply torn_auto.
  - unfold mrun, mst0. apply surjective_pairing.
Qed.
(** The store of key 3 starts a migration and is cut; the next one is cut in the erase of the half-filled page, the third one in marking
    that page again, so that it now holds the torn rest of the old items. *)
Definition tevs : list (mev N) :=
  [Sto 2 1 7 None; Sto 1 10 7 None; Sto 2 5 7 None; Sto 3 20 7 (Some 48); Boot 2; Fet 1; Sto 3 20 7 (Some 14); Boot 2; Fet 1; Sto 3 20 7 (Some 8); Boot 2; Fet 1; Fet 2;
   Sto 3 21 7 (Some 20); Fet 1].
Definition ts : st N := snd (mrun false 2 tevs).
Lemma tevs_reached : torn_reached kn kl (mg 2) 64 tevs (fst (mrun false 2 tevs)) ts.
Proof.
  apply run_torn; [lia|vm_compute; reflexivity|unfold tevs; repeat constructor|].
  let c := fresh in let H := fresh in intros c H; repeat (destruct H as [H|H]; [first [discriminate H|injection H as <-; reflexivity]|]); destruct H.
Qed.
(** The page of the unfinished migration after the second and the third cut store. *)
Definition page1 (k : nat) : list N := map (f_mem (s_fl (snd (mrun false 2 (firstn k tevs))))) (seq 64 24).
Example torn_page_case : page1 7 = repeat 255%N 14 ++ [80; 253; 1; 10; 11; 12; 13; 14; 15; 16]%N /\
  page1 10 = repeat 0%N 8 ++ repeat 255%N 6 ++ [80; 253; 1; 10; 11; 12; 13; 14; 15; 16]%N.
Proof. split; vm_compute; reflexivity. Qed.
Definition tm : N -> option (list N) := fun k => match k with 1 => Some (it 10 7) | 2 => Some (it 5 7) | _ => None end%N.
Lemma torn_shown p evs l s m : torn_reached kn kl (mg p) 64 evs l s -> shown p s m = true -> m_holds kn kl (mg p) 64 s m.
Proof.
  intros R H. destruct (torn_history kn kl (mg p) 64 evs l s R) as (m0 & log & _ & H0). intros k b Lk Lb.
  replace (m k) with (m0 k); [now apply H0|]. destruct (H0 k kb Lk) as [s' E]; [cbn; lia|]. unfold m_does in E. unfold shown in H. rewrite forallb_forall in H.
  unfold kl in Lk. specialize (H (N.to_nat k) ltac:(apply in_seq; lia)). cbv zeta in H. rewrite N2Nat.id, E in H. cbn [fst] in H.
  destruct (m0 k) as [v|], (m k) as [w|]; try discriminate; auto. apply andb_true_iff in H. destruct H as [H1 H2]. apply Nat.eqb_eq in H1. f_equal. now apply pairs_eq.
Qed.
Lemma ts_holds : m_holds kn kl (mg 2) 64 ts tm.
Proof. apply (torn_shown 2 tevs _ _ _ tevs_reached). vm_compute. reflexivity. Qed.
(** The last four stores were cut; the theorems speak about this state and about storing and fetching in it. *)
Example c11_torn_case : torn_reached kn kl (mg 2) 64 tevs (fst (mrun false 2 tevs)) ts /\ m_holds kn kl (mg 2) 64 ts tm /\
  qcall_ok kn kl (mg 2) 64 (MStore kb 3%N (it 90 7)) /\
  fst (m_exec kn (mg 2) (MStore kb 3%N (it 90 7)) (power ts (Some 30))) = RUnit (Err cut) /\
  fst (m_exec kn (mg 2) (MStore kb 3%N (it 90 7)) (power ts None)) = RUnit (Ok tt).
Proof.
  split; [exact tevs_reached|]. split; [exact ts_holds|]. split; [|split; vm_compute; reflexivity]. split; [apply call_okb_ok; vm_compute; reflexivity|].
  intros d E. apply quietb_ok; [cbn; lia|]. vm_compute in E. injection E as <-. vm_compute. reflexivity.
Qed.
Example c13_torn_case : Forall store_fetch tevs /\ nth 1 tevs (Fet 0) = Sto 1 10 7 None /\ nth 1 (fst (mrun false 2 tevs)) (RVal (Ok None)) = RUnit (Ok tt) /\
  Forall (spares kn 1%N) (skipn 2 tevs) /\ tm 1%N = Some (it 10 7).
Proof. split; [unfold tevs; repeat constructor|]. split; [reflexivity|]. split; [vm_compute; reflexivity|]. split; [unfold tevs; cbn [skipn]; repeat constructor|reflexivity]. Qed.
(** The forged item of c13_torn_erase_refuted is not quiet. *)
Example forged_not_quiet : quietb (mg 2) (2%N :: it 1 7 ++ [65; 130; 194; 210; 2; 0; 238; 242; 1; 77]%N) = false.
Proof. vm_compute. reflexivity. Qed.

Print Assumptions c11_torn_cut_store_partial.
Print Assumptions c11_torn_history_partial.
Print Assumptions c11_torn_one_call_partial.
Print Assumptions c13_torn_kept_partial.
Print Assumptions c13_torn_admitted_partial.
