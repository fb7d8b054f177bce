(** Claims about [erase_all].  Statements only; proofs are in EraseP.v.
    Vocabulary: [qtrace], [mtrace]: the list and function specifications, here started empty.  [blank]: a new cache object, or no cache at all.
    [erased]: only erased bytes in the flash range. *)
From Coq Require Import List NArith Arith Bool Lia.
From Verif Require Import Base Crc Flash Cache State Item Generic Queue Map Codec CodecP Client QSpec QObs QPropsP QCase MClient MSpec MObs MPropsP MCase EraseP.
Import ListNotations.

(** C32: without a power failure [erase_all] succeeds on any contents. *)
Theorem c32_succeeds {K} g (s : st K) : geom_ok g -> exists s', erase_all g (power s None) = (Ok tt, s').
Proof. exact (fun G => erase_all_total g (power s None) G eq_refl). Qed.
(** C32: after a successful [erase_all] of any flash contents, the range is erased. *)
Theorem c32_erased {K} g (s s' : st K) : geom_ok g -> (forall x, (f_mem (s_fl s) x < 256)%N) -> erase_all g s = (Ok tt, s') -> erased g (s_fl s').
Proof. exact (fun G B E => proj1 (erase_all_ok g s s' G B E)). Qed.
(** C32, queue, partial (missing: a cache that is kept, which is refuted below): after [erase_all] of any contents, with a new cache object or none, every history is one of an empty queue. *)
Theorem c32_queue_partial pf g (s s1 : st unit) c evs l s' : (forall x, (f_mem (s_fl s) x < 256)%N) -> setting pf g (f_ae (s_fl s)) (f_aw (s_fl s)) -> erase_all g (power s None) = (Ok tt, s1) ->
  blank (NP g) c -> Forall (qev_ok pf g) evs -> q_run g (set_ca s1 c) evs = (l, s') ->
  exists q, qtrace (rup g) (HL g) (page_cap g) (2 <=? NP g) pf [] evs l q /\ q_holds g s' q.
Proof. exact (q_erase_all pf g s s1 c evs l s'). Qed.
(** C32, map, partial in the same way. *)
Theorem c32_map_partial {K} (KO : keyops K) (legal : K -> Prop) pf g n (s s1 : st K) c evs l s' : key_codec KO legal -> (forall x, (f_mem (s_fl s) x < 256)%N) -> msetting pf g (f_aw (s_fl s)) ->
  erase_all g (power s None) = (Ok tt, s1) -> blank (NP g) c -> Forall (mev_ok KO legal pf g n) evs -> (pf = true -> calm (f_ae (s_fl s)) calm0 evs l) -> m_run KO g (set_ca s1 c) evs = (l, s') ->
  exists m log, mtrace (k_eqb KO) legal (item_bytes KO) (mbig g) pf (@nothing K) [] evs l m log /\ m_holds KO legal g n s' m.
Proof. exact (m_erase_all KO legal pf g n s s1 c evs l s'). Qed.

(** A range full of garbage is erased and used. *)
Definition junk : flash := mkflash (fun x => N.of_nat (x * 37 mod 251)) (fun _ => 5) [] None false 0 [].
Definition js : st unit := st_new junk cc.
Example c32_case : (forall x, (f_mem (s_fl js) x < 256)%N) /\ f_mem (s_fl js) 100 <> 255%N /\
  fst (q_run cg (set_ca (snd (erase_all cg (power js None))) cc) [ECall (QPush (it 1 30) false) None; ECall (QPush (it 2 30) false) None; ECall (QPop cb) None]) =
  [AUnit (Ok tt); AUnit (Ok tt); AItem (Ok (Some (it 1 30)))].
Proof.
  split; [|split; [discriminate|vm_compute; reflexivity]]. intros x. cbn [js st_new s_fl junk f_mem]. pose proof (Nat.mod_upper_bound (x * 37) 251 ltac:(lia)). lia.
Qed.

(** C32 is false when the storage object keeps a cache: after [erase_all] the cache still describes the old contents.
    The second push succeeds and the item is not found, although the queue was empty and nothing was removed. *)
Theorem c32_queue_cache_refuted : exists c evs1 evs2 s1, fresh_cache (NP cg) c /\ Forall (qev_ok false cg) (evs1 ++ evs2) /\
  erase_all cg (power (snd (q_run cg (st_new flash_new c) evs1)) None) = (Ok tt, s1) /\
  evs2 = [ECall (QPush (it 2 30) false) None; ECall (QPop cb) None] /\ fst (q_run cg s1 evs2) = [AUnit (Ok tt); AItem (Ok None)].
Proof.
  exists cc, [ECall (QPush (it 1 30) false) None], [ECall (QPush (it 2 30) false) None; ECall (QPop cb) None], (snd (erase_all cg (power (snd (q_run cg (st_new flash_new cc) [ECall (QPush (it 1 30) false) None])) None))).
  split; [apply cc_fresh|]. split.
  - cbn [app]. repeat (constructor; [split; [reflexivity|try exact I; apply item_okb; vm_compute; reflexivity]|]). constructor.
  - split; [|split; [reflexivity|vm_compute; reflexivity]]. destruct (c32_succeeds cg (snd (q_run cg (st_new flash_new cc) [ECall (QPush (it 1 30) false) None]))) as (s' & E); [apply cg_ok|]. now rewrite E.
Qed.
(** The same for the map: the stored value is not found after a restart. *)
Theorem c32_map_cache_refuted : exists c evs1 evs2 s1, fresh_cache (NP (mg 3)) c /\ Forall (mev_ok kn kl false (mg 3) 64) (evs1 ++ evs2) /\
  erase_all (mg 3) (power (snd (m_run kn (mg 3) (st_new flash_new c) evs1)) None) = (Ok tt, s1) /\
  evs2 = [Sto 1 10 7 None; Boot 3; Fet 1] /\ fst (m_run kn (mg 3) s1 evs2) = [RUnit (Ok tt); RVal (Ok None)].
Proof.
  exists (mc 3 2), [Sto 1 10 7 None], [Sto 1 10 7 None; Boot 3; Fet 1], (snd (erase_all (mg 3) (power (snd (m_run kn (mg 3) (st_new flash_new (mc 3 2)) [Sto 1 10 7 None])) None))).
  split; [split; [reflexivity|]; split; [apply FPCalc|]; split; [apply (FQArray 3 3 3); lia|apply (FKArray 2); lia]|]. split.
  - apply evs_okb_ok; [vm_compute; reflexivity|]. cbn. intros c [E|[E|[E|[E|[]]]]]; inversion E; auto.
  - split; [|split; [reflexivity|vm_compute; reflexivity]]. destruct (c32_succeeds (mg 3) (snd (m_run kn (mg 3) (st_new flash_new (mc 3 2)) [Sto 1 10 7 None]))) as (s' & E); [apply (mg_set false 3 0); lia|]. now rewrite E.
Qed.

Print Assumptions c32_succeeds.
Print Assumptions c32_erased.
Print Assumptions c32_queue_partial.
Print Assumptions c32_map_partial.
Print Assumptions c32_queue_cache_refuted.
Print Assumptions c32_map_cache_refuted.
