(** Claims about the map.  Statements only; proofs are in the [...P] files.
    Vocabulary: [m_reached pf g n evs l s] (MObs.v): the history [evs] on erased flash gives the answers [l] and ends in [s]; every buffer has at
    least [n] bytes and every item that can be stored fits in [n].  With [pf] any call may be cut at any byte, restricted by [calm] (MSpec.v).
    [m_holds g n s m]: fetching any key in [s] says what [m] says.  [m_does g s c a s']: call [c] answers [a].
    [mdo], [mtrace], [replay], [upd] (MSpec.v): what a function from keys to values does.
    The concrete cases (MCase.v) have three pages: [ms1] after 21 calls, three power failures and three restarts, [ms2] without power failures. *)
From Coq Require Import List NArith Arith Bool Lia.
From Verif Require Import Base Crc Flash Cache State Item Generic Map Codec CodecP Client QSpec QObs QPropsP QCase MClient MSpec MObs MPropsP MCacheP MRmCutP MCase.
Import ListNotations.

Section Props.
Context {K : Type} (KO : keyops K) (legal : K -> Prop).
Notation upd := (upd (k_eqb KO)).
Notation m_reached := (m_reached KO legal).
Notation m_holds := (m_holds KO legal).
Notation m_does := (m_does KO).
Notation mdo pf g := (mdo (k_eqb KO) legal (item_bytes KO) (mbig g) pf).
Notation mtrace pf g := (mtrace (k_eqb KO) legal (item_bytes KO) (mbig g) pf).

(** C06: without power failures, what fetching says is what the history says was stored last. *)
Theorem c06_last_value g n evs l s : m_reached false g n evs l s -> m_holds g n s (replay (k_eqb KO) (@nothing K) evs l).
Proof. exact (m_last KO legal g n evs l s). Qed.
(** C06: every history is one of a function from keys to values. *)
Theorem c06_map_is_function g n evs l s : m_reached false g n evs l s -> exists m log, mtrace false g (@nothing K) [] evs l m log /\ m_holds g n s m.
Proof. exact (m_history KO legal false g n evs l s). Qed.
(** C06: the only errors are "item too big", "storage full" and those of the serializer (with [pf], also "power lost"). *)
Theorem c06_no_other_errors pf g n evs l s : m_reached pf g n evs l s -> Forall (fine pf) l.
Proof. exact (m_fine KO legal pf g n evs l s). Qed.
(** C06: what a state holds is unambiguous. *)
Theorem c06_contents_unique pf g n evs l s m m' : m_reached pf g n evs l s -> m_holds g n s m -> m_holds g n s m' -> forall k, legal k -> m k = m' k.
Proof. exact (m_unique KO legal pf g n evs l s m m'). Qed.
Theorem c06_fetch pf g n evs l s m b k a s' : m_reached pf g n evs l s -> m_holds g n s m -> legal k -> n <= length b -> m_does g s (MFetch b k) a s' ->
  a = RVal (Ok (m k)) /\ m_holds g n s' m.
Proof. exact (m_fetch_ok KO legal pf g n evs l s m b k a s'). Qed.
(** C06, C07: what a store does, whatever it answers. *)
Theorem c06_store pf g n evs l s m b k v r s' : m_reached pf g n evs l s -> m_holds g n s m -> mcall_ok KO legal pf g n (MStore b k v) ->
  m_does g s (MStore b k v) (RUnit r) s' ->
  match r with
  | Ok _ => m_holds g n s' (upd m k (Some v)) /\ exists d, item_bytes KO (length b) k v = inl d /\ ~ mbig g d
  | Err e => m_holds g n s' m /\
      ((e = EItemTooBig /\ exists d, item_bytes KO (length b) k v = inl d /\ mbig g d) \/
       (e = EFull /\ exists d, item_bytes KO (length b) k v = inl d /\ ~ mbig g d) \/
       item_bytes KO (length b) k v = inr e)
  end.
Proof. exact (m_store_ok KO legal pf g n evs l s m b k v r s'). Qed.

(** C07 *)
Theorem c07_refused_store pf g n evs l s m b k v e s' : m_reached pf g n evs l s -> m_holds g n s m -> mcall_ok KO legal pf g n (MStore b k v) ->
  m_does g s (MStore b k v) (RUnit (Err e)) s' -> m_holds g n s' m.
Proof. intros R H C D. exact (proj1 (m_store_ok KO legal pf g n evs l s m b k v _ s' R H C D)). Qed.
Theorem c07_item_too_big pf g n evs l s m b k v r s' : m_reached pf g n evs l s -> m_holds g n s m -> mcall_ok KO legal pf g n (MStore b k v) ->
  m_does g s (MStore b k v) (RUnit r) s' -> (r = Err EItemTooBig <-> exists d, item_bytes KO (length b) k v = inl d /\ mbig g d).
Proof. exact (m_too_big KO legal pf g n evs l s m b k v r s'). Qed.

(** C09: the call itself.  With power failures in the history, a fetch, a store or a restart must have followed the last failed call. *)
Theorem c09_remove_partial pf g n evs l s m b k a s' : m_reached pf g n evs l s -> m_holds g n s m -> fresh (mode_after calm0 evs l) = true -> legal k -> n <= length b ->
  m_does g s (MRemove b k) a s' -> a = RUnit (Ok tt) /\ m_holds g n s' (upd m k None).
Proof. exact (m_remove_ok KO legal pf g n evs l s m b k a s'). Qed.
Theorem c09_remove_all_partial pf g n evs l s m b a s' : m_reached pf g n evs l s -> m_holds g n s m -> fresh (mode_after calm0 evs l) = true -> n <= length b ->
  m_does g s (MRemoveAll b) a s' -> a = RUnit (Ok tt) /\ m_holds g n s' (@nothing K).
Proof. exact (m_clear_ok KO legal pf g n evs l s m b a s'). Qed.
(** C09 for all histories without power failures. *)
Theorem c09_remove g n evs l s m b k a s' : m_reached false g n evs l s -> m_holds g n s m -> legal k -> n <= length b ->
  m_does g s (MRemove b k) a s' -> a = RUnit (Ok tt) /\ m_holds g n s' (upd m k None).
Proof. exact (m_remove_free KO legal g n evs l s m b k a s'). Qed.
Theorem c09_remove_all g n evs l s m b a s' : m_reached false g n evs l s -> m_holds g n s m -> n <= length b ->
  m_does g s (MRemoveAll b) a s' -> a = RUnit (Ok tt) /\ m_holds g n s' (@nothing K).
Proof. exact (m_clear_free KO legal g n evs l s m b a s'). Qed.
(** C09: a removed key stays away until it is stored again, and a stored value stays until the key is stored again or removed. *)
Theorem c09_stays_removed_partial pf g n evs1 evs2 l1 l2 s m c k p : m_reached pf g n (evs1 ++ MCall c p :: evs2) (l1 ++ RUnit (Ok tt) :: l2) s ->
  length l1 = length (m_calls evs1) -> (exists b, c = MRemove b k \/ c = MRemoveAll b) -> legal k -> Forall (stores_not KO k) evs2 -> m_holds g n s m -> m k = None.
Proof. exact (m_gone KO legal pf g n evs1 evs2 l1 l2 s m c k p). Qed.

(** C10.  With power failures in the history, either erasing a page is atomic, or a store or a removal must have been completed since the last failed call. *)
Theorem c10_iteration_partial pf g n evs l s m b bs a s' : m_reached pf g n evs l s -> m_holds g n s m ->
  fresh (mode_after calm0 evs l) = true -> f_ae (s_fl s) = true \/ whole (mode_after calm0 evs l) = true -> n <= length b -> Forall (fun x => n <= length x) bs -> m_does g s (MIter b bs) a s' ->
  m_holds g n s' m /\
  exists ps, a = RList (Ok (firstn (length bs) (map Some ps ++ [None]))) /\ incl ps (stored evs l) /\ forall k, legal k -> lastv (k_eqb KO) k ps = m k.
Proof. exact (m_iter_ok KO legal pf g n evs l s m b bs a s'). Qed.

(** C10 for all histories without power failures. *)
Theorem c10_iteration g n evs l s m b bs a s' : m_reached false g n evs l s -> m_holds g n s m ->
  n <= length b -> Forall (fun x => n <= length x) bs -> m_does g s (MIter b bs) a s' ->
  m_holds g n s' m /\
  exists ps, a = RList (Ok (firstn (length bs) (map Some ps ++ [None]))) /\ incl ps (stored evs l) /\ forall k, legal k -> lastv (k_eqb KO) k ps = m k.
Proof. exact (m_iter_free KO legal g n evs l s m b bs a s'). Qed.

(** C11: a store that may be cut; [ca] is the cache of the restarted program. *)
Theorem c11_cut_store_partial pf g n evs l s m b k v p a s' ca : m_reached pf g n evs l s -> m_holds g n s m -> mcall_ok KO legal pf g n (MStore b k v) ->
  (pf = false -> p = None) -> covered (f_ae (s_fl s)) (mode_after calm0 evs l) (MStore b k v) p -> fresh_cache (NP g) ca ->
  m_exec KO g (MStore b k v) (power s p) = (a, s') ->
  (a = RUnit (Ok tt) /\ m_holds g n (set_ca s' ca) (upd m k (Some v)) /\ m_holds g n s' (upd m k (Some v))) \/
  (exists e, a = RUnit (Err e) /\ e <> cut /\ m_holds g n (set_ca s' ca) m /\ m_holds g n s' m) \/
  (a = RUnit (Err cut) /\ exists m', (m' = m \/ m' = upd m k (Some v)) /\ m_holds g n (set_ca s' ca) m' /\ m_holds g n s' m').
Proof. exact (m_cut_store KO legal pf g n evs l s m b k v p a s' ca). Qed.
(** C11: every history, with power failures. *)
Theorem c11_every_history_partial g n evs l s : m_reached true g n evs l s -> exists m log, mtrace true g (@nothing K) [] evs l m log /\ m_holds g n s m.
Proof. exact (m_history KO legal true g n evs l s). Qed.
(** C11: any one more call. *)
Theorem c11_one_call_partial pf g n evs l s m c p a s' ca : m_reached pf g n evs l s -> m_holds g n s m -> mcall_ok KO legal pf g n c -> (pf = false -> p = None) ->
  covered (f_ae (s_fl s)) (mode_after calm0 evs l) c p -> fresh_cache (NP g) ca -> m_exec KO g c (power s p) = (a, s') ->
  exists m' log log', incl log (stored evs l) /\ mdo pf g m log c a m' log' /\ m_holds g n s' m' /\ m_holds g n (set_ca s' ca) m'.
Proof. exact (m_step KO legal pf g n evs l s m c p a s' ca). Qed.

(** C12: after any admitted history, whether or not an earlier cut store has been completed.  Missing: a removal straight after a failed call with the
    same cache object (c18_map_refuted), and histories that are not admitted, such as those that go on after a removal cut on top of an unfinished store
    (c12_stable_refuted). *)
Theorem c12_cut_remove_partial pf g n evs l s m b k p a s' ca : m_reached pf g n evs l s -> m_holds g n s m -> legal k -> n <= length b -> (pf = false -> p = None) ->
  fresh (mode_after calm0 evs l) = true -> fresh_cache (NP g) ca -> m_exec KO g (MRemove b k) (power s p) = (a, s') ->
  (a = RUnit (Ok tt) /\ m_holds g n (set_ca s' ca) (upd m k None) /\ m_holds g n s' (upd m k None)) \/
  (a = RUnit (Err cut) /\ exists m', (m' = m \/ m' = upd m k None) /\ m_holds g n (set_ca s' ca) m' /\ m_holds g n s' m').
Proof. exact (m_cut_remove_any KO legal pf g n evs l s m b k p a s' ca). Qed.
Theorem c12_cut_remove_all_partial pf g n evs l s m b p a s' ca : m_reached pf g n evs l s -> m_holds g n s m -> n <= length b -> (pf = false -> p = None) ->
  fresh (mode_after calm0 evs l) = true -> fresh_cache (NP g) ca -> m_exec KO g (MRemoveAll b) (power s p) = (a, s') ->
  (a = RUnit (Ok tt) /\ m_holds g n (set_ca s' ca) (@nothing K)) \/
  (a = RUnit (Err cut) /\ exists m', (forall k, legal k -> m' k = m k \/ m' k = None) /\ m_holds g n (set_ca s' ca) m' /\ m_holds g n s' m').
Proof. exact (m_cut_clear_any KO legal pf g n evs l s m b p a s' ca). Qed.

(** C13: a completed store is kept through any later power failures that [m_reached] admits. *)
Theorem c13_completed_store_kept_partial pf g n evs1 evs2 l1 l2 s m b k v p : m_reached pf g n (evs1 ++ MCall (MStore b k v) p :: evs2) (l1 ++ RUnit (Ok tt) :: l2) s ->
  length l1 = length (m_calls evs1) -> legal k -> Forall (spares KO k) evs2 -> m_holds g n s m -> m k = Some v.
Proof. exact (m_kept KO legal pf g n evs1 evs2 l1 l2 s m b k v p). Qed.
(** C13: on a flash with atomic erases all histories of stores, fetches and restarts are admitted, with a power failure at any byte of every call. *)
Theorem c13_any_failures_admitted_partial (evs : list (mev K)) l : Forall store_fetch evs -> calm true calm0 evs l.
Proof. exact (calm_auto evs calm0 l). Qed.

(** C14 *)
Theorem c14_map_wear g n evs l s : m_reached false g n evs l s ->
  (exists k, f_er (s_fl s) = rev (map (fun i => (paddr g (i mod NP g), pend g (i mod NP g))) (seq 0 k))) /\
  forall p p', p < NP g -> p' < NP g -> erase_count g (s_fl s) p <= erase_count g (s_fl s) p' + 1.
Proof. exact (m_wear KO legal g n evs l s). Qed.
(** C16 *)
Theorem c16_map_writes g n evs l s : m_reached false g n evs l s -> forall x, START g <= x < FEND g ->
  f_wc (s_fl s) x <= 2 /\
  (1 < f_wc (s_fl s) x -> exists h, h <= x < h + HL g /\ removed_header (s_fl s) h) /\
  (Forall mkeeps evs -> f_wc (s_fl s) x <= 1).
Proof. exact (m_writes KO legal g n evs l s). Qed.
(** C17: with power failures the histories must be covered, on both caches.  (Without, all are.)  The caches may be renewed at different times. *)
Theorem c17_map_caches_partial pf g n f c1 c2 evs1 evs2 l1 l2 s1 s2 : key_codec KO legal -> erased g f -> f_fuel f = None -> msetting pf g (f_aw f) ->
  fresh_cache (NP g) c1 -> fresh_cache (NP g) c2 -> Forall (mev_ok KO legal pf g n) evs1 -> Forall (mev_ok KO legal pf g n) evs2 -> m_calls evs1 = m_calls evs2 ->
  m_run KO g (st_new f c1) evs1 = (l1, s1) -> m_run KO g (st_new f c2) evs2 = (l2, s2) ->
  (pf = true -> calm (f_ae f) calm0 evs1 l1 /\ calm (f_ae f) calm0 evs2 l2) ->
  l1 = l2 /\ f_mem (s_fl s1) = f_mem (s_fl s2) /\ f_wc (s_fl s1) = f_wc (s_fl s2) /\ f_er (s_fl s1) = f_er (s_fl s2).
Proof. exact (m_caches_cut KO legal pf g n f c1 c2 evs1 evs2 l1 l2 s1 s2). Qed.
(** C17 for runs without power failures. *)
Theorem c17_map_no_failures g n f c1 c2 evs1 evs2 l1 l2 s1 s2 : key_codec KO legal -> erased g f -> f_fuel f = None -> msetting false g (f_aw f) ->
  fresh_cache (NP g) c1 -> fresh_cache (NP g) c2 -> Forall (mev_ok KO legal false g n) evs1 -> Forall (mev_ok KO legal false g n) evs2 -> m_calls evs1 = m_calls evs2 ->
  m_run KO g (st_new f c1) evs1 = (l1, s1) -> m_run KO g (st_new f c2) evs2 = (l2, s2) ->
  l1 = l2 /\ f_mem (s_fl s1) = f_mem (s_fl s2) /\ f_wc (s_fl s1) = f_wc (s_fl s2) /\ f_er (s_fl s1) = f_er (s_fl s2).
Proof. exact (m_caches KO legal g n f c1 c2 evs1 evs2 l1 l2 s1 s2). Qed.
(** C18: after any history, with failed calls, a new cache makes no difference to what follows, if the first calls that follow are stores or fetches. *)
Theorem c18_map_failed_call_partial pf g n evs l s ca evs2 l1 l2 s1 s2 : m_reached pf g n evs l s -> fresh_cache (NP g) ca -> Forall (mev_ok KO legal pf g n) evs2 ->
  easy (mode_after calm0 evs l) evs2 -> m_run KO g s evs2 = (l1, s1) -> m_run KO g (set_ca s ca) evs2 = (l2, s2) -> l1 = l2.
Proof. exact (m_recache KO legal pf g n evs l s ca evs2 l1 l2 s1 s2). Qed.
(** C18 with more power failures in what follows, and restarts at different times: the same answers and the same flash. *)
Theorem c18_map_later_failures_partial pf g n evs l s ca evs1 evs2 l1 l2 s1 s2 : m_reached pf g n evs l s -> fresh_cache (NP g) ca ->
  Forall (mev_ok KO legal pf g n) evs1 -> Forall (mev_ok KO legal pf g n) evs2 -> m_calls evs1 = m_calls evs2 ->
  m_run KO g s evs1 = (l1, s1) -> m_run KO g (set_ca s ca) evs2 = (l2, s2) ->
  calm (f_ae (s_fl s)) (mode_after calm0 evs l) evs1 l1 -> calm (f_ae (s_fl s)) (mode_after calm0 (evs ++ [MBoot ca]) l) evs2 l2 ->
  l1 = l2 /\ f_mem (s_fl s1) = f_mem (s_fl s2) /\ f_wc (s_fl s1) = f_wc (s_fl s2) /\ f_er (s_fl s1) = f_er (s_fl s2).
Proof. exact (m_recache_cut KO legal pf g n evs l s ca evs1 evs2 l1 l2 s1 s2). Qed.
End Props.

(** Concrete cases. *)
Example c06_case : m_reached kn kl false (mg 3) 64 mevs2 (fst (mrun false 3 mevs2)) ms2 /\ m_holds kn kl (mg 3) 64 ms2 mm2 /\
  map (replay (k_eqb kn) (@nothing N) mevs2 (fst (mrun false 3 mevs2))) [1; 2; 4; 5]%N = [Some (it 80 7); None; Some (it 50 20); Some (it 70 15)].
Proof. split; [exact ms2_reached|]. split; [exact ms2_holds|]. vm_compute. reflexivity. Qed.
Example c07_case : fst (m_exec kn (mg 3) (MStore kb 6%N (it 91 15)) (power ms2 None)) = RUnit (Err EFull) /\
  fst (m_exec kn (mg 3) (MStore kb 6%N (it 91 60)) (power ms2 None)) = RUnit (Err EItemTooBig) /\
  mcall_ok kn kl false (mg 3) 64 (MStore kb 6%N (it 91 15)) /\ mcall_ok kn kl false (mg 3) 64 (MStore kb 6%N (it 91 60)).
Proof. split; [vm_compute; reflexivity|]. split; [vm_compute; reflexivity|]. split; apply call_okb_ok; vm_compute; reflexivity. Qed.
Example c09_case : fst (m_exec kn (mg 3) (MRemove kb 4%N) (power ms2 None)) = RUnit (Ok tt) /\ fst (m_exec kn (mg 3) (MRemoveAll kb) (power ms1 None)) = RUnit (Ok tt) /\
  mode_after calm0 mevs1 (fst (mrun false 3 mevs1)) = calm0.
Proof. split; [vm_compute; reflexivity|]. split; vm_compute; reflexivity. Qed.
Example c10_case : fst (m_exec kn (mg 3) (MIter kb (repeat kb 9)) (power ms1 None)) =
  RList (Ok [Some (3%N, it 40 7); Some (5%N, it 71 15); None]).
Proof. vm_compute. reflexivity. Qed.
Example c11_case : m_reached kn kl true (mg 3) 64 mevs1 (fst (mrun false 3 mevs1)) ms1 /\ m_holds kn kl (mg 3) 64 ms1 mm1 /\
  covered false calm0 (MStore kb 7%N (it 90 7)) (Some 10) /\ mcall_ok kn kl true (mg 3) 64 (MStore kb 7%N (it 90 7)) /\
  fst (m_exec kn (mg 3) (MStore kb 7%N (it 90 7)) (power ms1 (Some 10))) = RUnit (Err cut).
Proof.
  split; [exact ms1_reached|]. split; [exact ms1_holds|]. split; [right; now right|]. split; [apply call_okb_ok; vm_compute; reflexivity|]. vm_compute. reflexivity.
Qed.
Example c12_case : fst (m_exec kn (mg 3) (MRemove kb 3%N) (power ms1 (Some 5))) = RUnit (Err cut) /\
  fst (m_exec kn (mg 3) (MRemoveAll kb) (power ms1 (Some 10))) = RUnit (Err cut).
Proof. split; vm_compute; reflexivity. Qed.
(** The removal comes after a store that was cut in the middle of the migration of a page. *)
Definition evs12 : list (mev N) := [Sto 3 10 7 None; Sto 1 20 7 None; Sto 1 30 7 None; Sto 2 40 7 (Some 45); Boot 2].
Example c12_unfinished_case : m_reached kn kl true (mg 2) 64 evs12 (fst (mrun false 2 evs12)) (snd (mrun false 2 evs12)) /\ mode_after calm0 evs12 (fst (mrun false 2 evs12)) = mkmode false true false /\ fst (m_exec kn (mg 2) (MRemove kb 3%N) (power (snd (mrun false 2 evs12)) (Some 3))) = RUnit (Err cut).
Proof. split; [unfold evs12; reach|]. split; vm_compute; reflexivity. Qed.
(** Four power failures, one on top of the other, in the migration of a page. *)
Example c13_case : m_reached kn kl true (mg 3) 64 mevs3 (fst (mrun true 3 mevs3)) ms3 /\ Forall store_fetch mevs3 /\
  skipn 6 (fst (mrun true 3 mevs3)) = [RUnit (Err cut); RUnit (Err cut); RUnit (Err cut); RUnit (Err cut);
    RVal (Ok (Some (it 20 15))); RVal (Ok (Some (it 40 7))); RVal (Ok (Some (it 60 7)))].
Proof. split; [exact ms3_reached|]. split; [repeat constructor|]. vm_compute. reflexivity. Qed.
Example c14_map_case : firstn 4 (f_er (s_fl ms2)) = [(128, 192); (64, 128); (0, 64); (128, 192)].
Proof. vm_compute. reflexivity. Qed.
Example c16_map_case : filter (fun x => f_wc (s_fl (snd (m_exec kn (mg 3) (MRemove kb 4%N) (power ms2 None)))) x =? 2) (seq 0 192) = seq 8 8.
Proof. vm_compute. reflexivity. Qed.
Example c17_map_case : fresh_cache 3 (mc 3 2) /\ fresh_cache 3 (@cache_none N) /\ m_calls mevs2 = m_calls (map (fun x => MCall (fst x) (snd x)) (m_calls mevs2)) /\
  fst (mrun false 3 mevs2) = fst (m_run kn (mg 3) (st_new (mfl false) cache_none) (map (fun x => MCall (fst x) (snd x)) (m_calls mevs2))).
Proof. split; [apply mc_fresh; lia|]. split; [repeat constructor|]. split; vm_compute; reflexivity. Qed.

(** Four power failures; one storage has a cache, the other none and no restarts. *)
Example c17_map_failures_case : let evs2 := map (fun x => MCall (fst x) (snd x)) (m_calls mevs3) in
  calm true calm0 mevs3 (fst (mrun true 3 mevs3)) /\ fst (m_run kn (mg 3) (st_new (mfl true) cache_none) evs2) = fst (mrun true 3 mevs3) /\
  calm true calm0 evs2 (fst (mrun true 3 mevs3)) /\ length (filter was_cut (fst (mrun true 3 mevs3))) = 4.
Proof. vm_compute. repeat split; auto. Qed.
(** The seventh call of [mevs3] is cut; the storage goes on with its cache, or with a new one and one more restart. *)
Example c18_map_failures_case : let s := snd (mrun true 3 (firstn 7 mevs3)) in
  let e1 := skipn 8 mevs3 in let e2 := filter (fun e => match e with MCall _ _ => true | MBoot _ => false end) e1 in
  last (fst (mrun true 3 (firstn 7 mevs3))) (RUnit (Ok tt)) = RUnit (Err cut) /\ fst (m_run kn (mg 3) s e2) = fst (m_run kn (mg 3) (set_ca s (mc 3 2)) e1) /\
  length (filter was_cut (fst (m_run kn (mg 3) s e2))) = 3 /\ m_calls e1 = m_calls e2 /\
  calm true (mode_after calm0 (firstn 7 mevs3) (fst (mrun true 3 (firstn 7 mevs3)))) e2 (fst (m_run kn (mg 3) s e2)).
Proof. vm_compute. repeat split; auto. Qed.

(** Refutations.  All are histories of at most ten calls on the mock flash. *)
(** C18 as stated is false for the map: after a failed store, [remove_item] trusts the dirty cache; a completed store is lost. *)
Definition wit18 : list (mev N) := [Sto 1 11 7 (Some 11); Rmv 4 None; Sto 3 13 15 (Some 3); Sto 4 14 7 None].
Theorem c18_map_refuted : exists p f c evs l s, erased (mg p) f /\ fresh_cache p c /\ Forall (mev_ok kn kl true (mg p) 64) evs /\
  m_run kn (mg p) (st_new f c) evs = (l, s) /\ last evs (Fet 0) = Sto 4 14 7 None /\ last l (RUnit (Err cut)) = RUnit (Ok tt) /\
  fst (m_exec kn (mg p) (MFetch kb 4%N) (power s None)) = RVal (Ok None).
Proof.
  exists 3, (mfl false), (mc 3 4), wit18. eexists; eexists. split; [split; intros; cbn; try reflexivity; auto|]. split; [apply mc_fresh; lia|].
  split; [apply evs_okb_ok; [vm_compute; reflexivity|cbn; intuition discriminate]|]. split; [apply surjective_pairing|]. split; [reflexivity|].
  split; vm_compute; reflexivity.
Qed.
(** C17 as stated is false for the map when power failures are followed by removals: with a cache the value is lost, without one it is there. *)
Theorem c17_map_refuted : exists p f c1 c2 evs l1 l2 s1 s2, erased (mg p) f /\ fresh_cache p c1 /\ fresh_cache p c2 /\ Forall (mev_ok kn kl true (mg p) 64) evs /\
  m_run kn (mg p) (st_new f c1) evs = (l1, s1) /\ m_run kn (mg p) (st_new f c2) evs = (l2, s2) /\
  last l1 (RUnit (Err cut)) = RVal (Ok None) /\ last l2 (RUnit (Err cut)) = RVal (Ok (Some (it 14 7))).
Proof.
  exists 3, (mfl false), (mc 3 4), cache_none, (wit18 ++ [Fet 4]). do 4 eexists. split; [split; intros; cbn; try reflexivity; auto|]. split; [apply mc_fresh; lia|].
  split; [repeat constructor|]. split; [apply evs_okb_ok; [vm_compute; reflexivity|cbn; intuition discriminate]|]. split; [apply surjective_pairing|]. split; [apply surjective_pairing|].
  split; vm_compute; reflexivity.
Qed.
(** C10 as stated is false after a power failure: a page that is half erased makes [fetch_all_items] report corruption. *)
Definition wit10 : list (mev N) := [Sto 4 11 15 None; Sto 3 12 7 None; Sto 2 13 7 None; Sto 4 14 7 None; Sto 2 15 15 (Some 83); Boot 3].
Theorem c10_after_failure_refuted : exists p evs, m_reached kn kl true (mg p) 64 evs (fst (mrun false p evs)) (snd (mrun false p evs)) /\
  fst (m_exec kn (mg p) (MIter kb (repeat kb 8)) (power (snd (mrun false p evs)) None)) = RList (Err ECorrupted).
Proof. exists 3, wit10. split; [reach|]. vm_compute. reflexivity. Qed.
(** The same history on a flash with atomic erases meets the hypotheses of c10_iteration_partial right after the failure, with a new cache. *)
Example c10_atomic_case : m_reached kn kl true (mg 3) 64 wit10 (fst (mrun true 3 wit10)) (snd (mrun true 3 wit10)) /\ f_ae (s_fl (snd (mrun true 3 wit10))) = true /\
  fresh (mode_after calm0 wit10 (fst (mrun true 3 wit10))) = true /\ whole (mode_after calm0 wit10 (fst (mrun true 3 wit10))) = false /\
  nth 4 (fst (mrun true 3 wit10)) (RUnit (Ok tt)) = RUnit (Err cut) /\
  fst (m_exec kn (mg 3) (MIter kb (repeat kb 8)) (power (snd (mrun true 3 wit10)) None)) =
    RList (Ok [Some (4%N, it 11 15); Some (3%N, it 12 7); Some (2%N, it 13 7); Some (4%N, it 14 7); Some (3%N, it 12 7); None]).
Proof. split; [reach|]. split; [vm_compute; reflexivity|]. split; [vm_compute; reflexivity|]. split; [vm_compute; reflexivity|]. split; vm_compute; reflexivity. Qed.
(** C09 (and C13 with removals) as stated is false with torn erases: a removed key comes back when a later repair is cut. *)
Definition wit09 : list (mev N) :=
  [Sto 3 10 7 None; Sto 1 20 7 None; Sto 1 30 7 None; Sto 2 40 7 (Some 45); Boot 2; Sto 2 50 7 (Some 8); Boot 2; Rmv 3 None; Fet 3; Sto 2 60 7 (Some 8); Boot 2].
Theorem c09_torn_erase_refuted : exists p f c evs l s, erased (mg p) f /\ fresh_cache p c /\ Forall (mev_ok kn kl true (mg p) 64) evs /\
  m_run kn (mg p) (st_new f c) evs = (l, s) /\
  skipn 5 l = [RUnit (Ok tt); RVal (Ok None); RUnit (Err cut)] /\ skipn 7 evs = [Rmv 3 None; Fet 3; Sto 2 60 7 (Some 8); Boot 2] /\
  fst (m_exec kn (mg p) (MFetch kb 3%N) (power s None)) = RVal (Ok (Some (it 10 7))).
Proof.
  exists 2, (mfl false), (mc 2 2), wit09. eexists; eexists. split; [split; intros; cbn; try reflexivity; auto|]. split; [apply mc_fresh; lia|].
  split; [apply evs_okb_ok; [vm_compute; reflexivity|]|].
  { let c := fresh in let H := fresh in intros c H; repeat (destruct H as [H|H]; [first [discriminate H|injection H as <-; reflexivity]|]); destruct H. }
  split; [apply surjective_pairing|]. split; [vm_compute; reflexivity|]. split; vm_compute; reflexivity.
Qed.
(** C11 and C13 as stated are false with torn erases, even without removals: when the erase of a half-filled page is cut inside the first item header, the words of the item's
    data are read as headers.  Here a stored value contains the bytes of an item, and the completed store of key 1 is hidden by them. *)
Definition forged : list N := [65; 130; 194; 210; 2; 0; 238; 242; 1; 77]%N.
Definition wit13 : list (mev N) :=
  [MCall (MStore kb 2%N (it 1 7 ++ forged)) None; Sto 1 10 7 None; Sto 3 20 7 (Some 48); Boot 2; Fet 1; Sto 3 20 7 (Some 14); Boot 2; Fet 1; Sto 3 20 7 (Some 8); Boot 2].
Theorem c13_torn_erase_refuted : exists p f c evs l s, erased (mg p) f /\ fresh_cache p c /\ Forall (mev_ok kn kl true (mg p) 64) evs /\ Forall store_fetch evs /\
  m_run kn (mg p) (st_new f c) evs = (l, s) /\
  nth 1 evs (Fet 0) = Sto 1 10 7 None /\ nth 1 l (RVal (Ok None)) = RUnit (Ok tt) /\ Forall (spares kn 1%N) (skipn 2 evs) /\
  fst (m_exec kn (mg p) (MFetch kb 1%N) (power s None)) = RVal (Ok (Some [77%N])).
Proof.
  exists 2, (mfl false), (mc 2 2), wit13. eexists; eexists. split; [split; intros; cbn; try reflexivity; auto|]. split; [apply mc_fresh; lia|].
  split; [apply evs_okb_ok; [vm_compute; reflexivity|]|].
  { let c := fresh in let H := fresh in intros c H; repeat (destruct H as [H|H]; [first [discriminate H|injection H as <-; reflexivity]|]); destruct H. }
  split; [unfold wit13; repeat constructor|]. split; [apply surjective_pairing|]. split; [reflexivity|]. split; [vm_compute; reflexivity|].
  split; [unfold wit13; cbn [skipn]; repeat constructor|]. vm_compute; reflexivity.
Qed.
(** A stronger reading of C12 is false: a removal cut while an earlier store is unfinished leaves the old value, which then goes away when another
    key is stored. *)
Definition wit12 : list (mev N) :=
  [Sto 3 10 7 None; Sto 1 20 7 None; Sto 1 30 7 None; Sto 2 40 7 (Some 45); Boot 2; Rmv 3 (Some 3); Boot 2; Fet 3; Sto 2 50 7 None; Fet 3].
Theorem c12_stable_refuted : exists p, Forall (mev_ok kn kl true (mg p) 64) wit12 /\
  skipn 4 (fst (mrun false p wit12)) = [RUnit (Err cut); RVal (Ok (Some (it 10 7))); RUnit (Ok tt); RVal (Ok None)].
Proof.
  exists 2. split; [|vm_compute; reflexivity]. apply evs_okb_ok; [vm_compute; reflexivity|].
  let c := fresh in let H := fresh in intros c H; repeat (destruct H as [H|H]; [first [discriminate H|injection H as <-; reflexivity]|]); destruct H.
Qed.

Print Assumptions c06_last_value.
Print Assumptions c06_no_other_errors.
Print Assumptions c07_refused_store.
Print Assumptions c09_stays_removed_partial.
Print Assumptions c10_iteration_partial.
Print Assumptions c11_one_call_partial.
Print Assumptions c12_cut_remove_partial.
Print Assumptions c13_completed_store_kept_partial.
Print Assumptions c14_map_wear.
Print Assumptions c16_map_writes.
Print Assumptions c17_map_caches_partial.
Print Assumptions c18_map_failed_call_partial.
Print Assumptions c13_torn_erase_refuted.
Print Assumptions c09_torn_erase_refuted.
Print Assumptions c10_after_failure_refuted.
Print Assumptions c12_stable_refuted.
Print Assumptions c18_map_refuted.
Print Assumptions c17_map_no_failures.
Print Assumptions c18_map_later_failures_partial.
Print Assumptions c17_map_refuted.
Print Assumptions c09_remove.
Print Assumptions c09_remove_all.
Print Assumptions c10_iteration.
