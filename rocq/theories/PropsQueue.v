(** Claims about the flash queue.  Statements only; proofs are in the [...P] files.
    Vocabulary: [q_reached pf g evs l s] (QObs.v): the history [evs] on erased flash gives the answers [l] and ends in [s]; with [pf] it may contain
    power failures at any byte.  [q_holds g s q]: iterating over the queue in [s] yields exactly [q].  [q_does g s c a s']: call [c] answers [a].
    [qdo], [qtrace] (QSpec.v): what a list does.  The concrete case [st1] (QCase.v) has three pages, fifteen calls, two power failures and a restart. *)
From Coq Require Import List NArith Arith Bool Lia.
From Verif Require Import Base Crc Flash Cache State Item Generic Queue Client QSpec QObs QPropsP QCase CapSpec QSpaceP.
Import ListNotations.

(** C01: every history without power failures is one of a list, and the final state holds that list. *)
Theorem c01_queue_is_fifo g evs l s : q_reached false g evs l s ->
  exists q, qtrace (rup g) (HL g) (page_cap g) (2 <=? NP g) false [] evs l q /\ q_holds g s q.
Proof. exact (q_history false g evs l s). Qed.
(** C01: what a state holds is unambiguous. *)
Theorem c01_contents_unique pf g evs l s q q' : q_reached pf g evs l s -> q_holds g s q -> q_holds g s q' -> q = q'.
Proof. exact (q_holds_unique pf g evs l s q q'). Qed.
(** C01: pop with a page-sized buffer. *)
Theorem c01_pop pf g evs l s q b a s' : q_reached pf g evs l s -> q_holds g s q -> length b = ES g -> q_does g s (QPop b) a s' ->
  a = AItem (Ok (hd_error q)) /\ q_holds g s' (tl q).
Proof. exact (q_pop_ok pf g evs l s q b a s'). Qed.
Theorem c01_peek pf g evs l s q b a s' : q_reached pf g evs l s -> q_holds g s q -> length b = ES g -> q_does g s (QPeek b) a s' ->
  a = AItem (Ok (hd_error q)) /\ q_holds g s' q.
Proof. exact (q_peek_ok pf g evs l s q b a s'). Qed.
Theorem c01_push pf g evs l s q d s' : q_reached pf g evs l s -> q_holds g s q -> item_ok pf d ->
  q_does g s (QPush d false) (AUnit (Ok tt)) s' -> q_holds g s' (q ++ [d]).
Proof. exact (q_append pf g evs l s q d s'). Qed.
Example c01_case : q_reached true cg evs1 (fst (q_run cg st0 evs1)) st1 /\ q_holds cg st1 q1 /\ length q1 = 4 /\ item_ok true (it 9 20) /\
  fst (q_exec cg (QPush (it 9 20) false) (power st1 None)) = AUnit (Ok tt).
Proof. split; [exact st1_reached|]. split; [exact st1_holds|]. split; [reflexivity|]. split; [apply item_okb; vm_compute; reflexivity|]. vm_compute. reflexivity. Qed.
Example c01_case_no_failures : q_reached false cg evs2 (fst (q_run cg st0 evs2)) st2 /\ q_holds cg st2 [it 3 40; it 4 33; it 5 40].
Proof. exact (conj st2_reached st2_holds). Qed.

(** C02 *)
Theorem c02_refused_push pf g evs l s q d ow e s' : q_reached pf g evs l s -> q_holds g s q -> item_ok pf d ->
  q_does g s (QPush d ow) (AUnit (Err e)) s' -> q_holds g s' q /\ (e = EItemTooBig \/ e = EFull /\ ow = false).
Proof. exact (q_refused pf g evs l s q d ow e s'). Qed.
Theorem c02_item_too_big pf g evs l s d ow r s' : q_reached pf g evs l s -> item_ok pf d ->
  q_does g s (QPush d ow) (AUnit r) s' -> (r = Err EItemTooBig <-> too_long g d).
Proof. exact (q_too_big pf g evs l s d ow r s'). Qed.
Example c02_case : fst (q_exec cg (QPush (it 9 80) false) (power st1 None)) = AUnit (Err EFull) /\ item_ok true (it 9 80) /\
  fst (q_exec cg (QPush (it 9 105) true) (power st1 None)) = AUnit (Err EItemTooBig) /\ item_ok true (it 9 105).
Proof. split; [vm_compute; reflexivity|]. split; [apply item_okb; vm_compute; reflexivity|]. split; [vm_compute; reflexivity|]. apply item_okb; vm_compute; reflexivity. Qed.

(** C03 *)
Theorem c03_overwrite_drops_oldest pf g evs l s q d r s' : q_reached pf g evs l s -> q_holds g s q -> item_ok pf d ->
  q_does g s (QPush d true) (AUnit r) s' ->
  (r = Err EItemTooBig /\ too_long g d /\ q_holds g s' q) \/
  (r = Ok tt /\ exists dr q1, q = dr ++ q1 /\ wt (rup g) (HL g) dr <= page_cap g /\ q_holds g s' (q1 ++ [d])).
Proof. exact (q_over pf g evs l s q d r s'). Qed.
(** C03: whenever a push succeeds without overwriting, allowing overwriting changes nothing. *)
Theorem c03_overwrite_only_if_needed pf g evs l s d s1 a s2 : q_reached pf g evs l s -> item_ok pf d ->
  q_does g s (QPush d false) (AUnit (Ok tt)) s1 -> q_does g s (QPush d true) a s2 -> a = AUnit (Ok tt) /\ s_fl s2 = s_fl s1.
Proof. exact (q_over_same pf g evs l s d s1 a s2). Qed.
Example c03_case : fst (q_exec cg (QPush (it 9 80) true) (power st1 None)) = AUnit (Ok tt).
Proof. vm_compute. reflexivity. Qed.

(** C04: iterating and removing any selection of the entries. *)
Theorem c04_iterate_and_remove pf g evs l s q b sel a s' : q_reached pf g evs l s -> q_holds g s q -> length b = ES g -> length sel = length q ->
  q_does g s (QIter (map (fun x => (b, x)) sel)) a s' ->
  a = AIter (Ok (map (fun d => Ok (Some d)) q)) /\ q_holds g s' (map fst (filter (fun x => negb (snd x)) (combine q sel))).
Proof. exact (q_select pf g evs l s q b sel a s'). Qed.
Example c04_case : fst (q_exec cg (QIter (map (fun x => (cb, x)) [true; false; true; false])) (power st1 None)) = AIter (Ok (map (fun d => Ok (Some d)) q1)) /\
  q_holds cg (snd (q_exec cg (QIter (map (fun x => (cb, x)) [true; false; true; false])) (power st1 None))) [it 5 40; it 8 40].
Proof.
  split; [vm_compute; reflexivity|]. eapply (q_select true cg evs1 _ st1 q1 cb [true; false; true; false] _ _ st1_reached st1_holds); auto. unfold q_does. apply surjective_pairing.
Qed.

(** C05: histories with any number of power failures. *)
Theorem c05_every_history g evs l s : q_reached true g evs l s ->
  exists q, qtrace (rup g) (HL g) (page_cap g) (2 <=? NP g) true [] evs l q /\ q_holds g s q.
Proof. exact (q_history true g evs l s). Qed.
(** C05: one more call, cut or not: the queue afterwards, with the old cache or a new one. *)
Theorem c05_one_call pf g evs l s q c p a s' ca : q_reached pf g evs l s -> q_holds g s q -> callable pf c -> (pf = false -> p = None) ->
  fresh_cache (NP g) ca -> q_exec g c (power s p) = (a, s') ->
  exists q', qdo (rup g) (HL g) (page_cap g) (2 <=? NP g) pf q c a q' /\ q_holds g s' q' /\ q_holds g (set_ca s' ca) q'.
Proof. exact (q_cut pf g evs l s q c p a s' ca). Qed.
Theorem c05_cut_push pf g evs l s q d p a s' ca : q_reached pf g evs l s -> q_holds g s q -> item_ok pf d -> (pf = false -> p = None) ->
  fresh_cache (NP g) ca -> q_exec g (QPush d false) (power s p) = (a, s') ->
  (a = AUnit (Ok tt) /\ q_holds g (set_ca s' ca) (q ++ [d])) \/
  ((a = AUnit (Err EFull) \/ a = AUnit (Err EItemTooBig)) /\ q_holds g (set_ca s' ca) q) \/
  (a = AUnit (Err cut) /\ (q_holds g (set_ca s' ca) q \/ q_holds g (set_ca s' ca) (q ++ [d]))).
Proof. exact (q_cut_push pf g evs l s q d p a s' ca). Qed.
Theorem c05_cut_pop pf g evs l s q b p a s' ca : q_reached pf g evs l s -> q_holds g s q -> (pf = false -> p = None) ->
  fresh_cache (NP g) ca -> length b = ES g -> q_exec g (QPop b) (power s p) = (a, s') ->
  (a = AItem (Ok (hd_error q)) /\ q_holds g (set_ca s' ca) (tl q)) \/
  (a = AItem (Err cut) /\ (q_holds g (set_ca s' ca) q \/ q_holds g (set_ca s' ca) (tl q))).
Proof. exact (q_cut_pop pf g evs l s q b p a s' ca). Qed.
(** The concrete history: an overwriting push is cut during the page erase, the next one inside the item. *)
Example c05_case : q_reached true cg evs1 (fst (q_run cg st0 evs1)) st1 /\
  firstn 10 (skipn 6 (fst (q_run cg st0 evs1))) =
    [AUnit (Err EFull); AUnit (Err cut); AUnit (Err cut); AUnit (Ok tt); AItem (Ok (Some (it 3 40))); AItem (Ok (Some (it 4 33)))] /\
  fst (q_exec cg (QPush (it 9 20) false) (power st1 (Some 30))) = AUnit (Err cut) /\ fst (q_exec cg (QPop cb) (power st1 (Some 3))) = AItem (Err cut).
Proof. split; [exact st1_reached|]. split; [vm_compute; reflexivity|]. split; vm_compute; reflexivity. Qed.

(** C14: pages are erased strictly in turn. *)
Theorem c14_queue_wear g evs l s : q_reached false g evs l s ->
  (exists k, f_er (s_fl s) = rev (map (fun i => (paddr g (i mod NP g), pend g (i mod NP g))) (seq 0 k))) /\
  forall p p', p < NP g -> p' < NP g -> erase_count g (s_fl s) p <= erase_count g (s_fl s) p' + 1.
Proof. exact (q_wear g evs l s). Qed.
Example c14_case : f_er (s_fl st2) = [(256, 384); (128, 256); (0, 128)].
Proof. vm_compute. reflexivity. Qed.

(** C16: without power failures a byte is programmed at most twice between erases, and twice only in the header of a removed item. *)
Theorem c16_queue_writes g evs l s : q_reached false g evs l s -> forall x, START g <= x < FEND g ->
  f_wc (s_fl s) x <= 2 /\
  (1 < f_wc (s_fl s) x -> exists h, h <= x < h + HL g /\ removed_header (s_fl s) h) /\
  (Forall keeps evs -> f_wc (s_fl s) x <= 1).
Proof. exact (q_writes g evs l s). Qed.
Example c16_case : map (f_wc (s_fl st2)) [0; 8; 15; 16; 107] = [1; 2; 2; 1; 1].
Proof. vm_compute. reflexivity. Qed.

(** C17, C18: two runs of the same calls on the same flash, with any caches and with restarts at any places (also right after
    a failed call), give the same answers and the same flash. *)
Theorem c17_queue_caches pf g f c1 c2 evs1 evs2 l1 l2 s1 s2 : erased g f -> f_fuel f = None -> setting pf g (f_ae f) (f_aw f) ->
  fresh_cache (NP g) c1 -> fresh_cache (NP g) c2 -> Forall (qev_ok pf g) evs1 -> Forall (qev_ok pf g) evs2 -> q_calls evs1 = q_calls evs2 ->
  q_run g (st_new f c1) evs1 = (l1, s1) -> q_run g (st_new f c2) evs2 = (l2, s2) -> l1 = l2 /\ s_fl s1 = s_fl s2.
Proof. exact (q_caches pf g f c1 c2 evs1 evs2 l1 l2 s1 s2). Qed.
Example c17_case : fresh_cache (NP cg) cc /\ fresh_cache (NP cg) (@cache_none unit) /\ q_calls evs1 = q_calls (map (fun x => ECall (fst x) (snd x)) (q_calls evs1)) /\
  fst (q_run cg st0 evs1) = fst (q_run cg (st_new flash_new cache_none) (map (fun x => ECall (fst x) (snd x)) (q_calls evs1))).
Proof. split; [exact cc_fresh|]. split; [repeat constructor|]. split; vm_compute; reflexivity. Qed.

(** C18: after any history, with failed calls, a new cache makes no difference to what follows. *)
Theorem c18_queue_failed_call pf g evs l s ca evs2 l1 l2 s1 s2 : q_reached pf g evs l s -> fresh_cache (NP g) ca -> Forall (qev_ok pf g) evs2 ->
  q_run g s evs2 = (l1, s1) -> q_run g (set_ca s ca) evs2 = (l2, s2) -> l1 = l2 /\ s_fl s1 = s_fl s2.
Proof. exact (q_recache pf g evs l s ca evs2 l1 l2 s1 s2). Qed.
Example c18_case : c_dirty (s_ca (snd (q_exec cg (QPush (it 9 20) false) (power st1 (Some 30))))) = true.
Proof. vm_compute. reflexivity. Qed.

(** C26: what [find_max_fit] reports decides about the next push, except that the push may still be refused as too big.
    Missing from the full claim: see [c26_full_refuted]. *)
Theorem c26_max_fit_partial pf g evs l s m s1 d r s2 : q_reached pf g evs l s -> item_ok pf d ->
  q_does g s QMaxFit (AMax (Ok m)) s1 -> q_does g s1 (QPush d false) (AUnit r) s2 ->
  (r = Ok tt <-> (exists n, m = Some n /\ length d <= n) /\ ~ too_long g d).
Proof. exact (q_fit pf g evs l s m s1 d r s2). Qed.
Example c26_case : fst (q_exec cg QMaxFit (power st1 None)) = AMax (Ok (Some 56)).
Proof. vm_compute. reflexivity. Qed.
(** C26 is false: the reported size forgets the item header when the next page is free. *)
Theorem c26_full_refuted : exists g evs l s n d r, q_reached false g evs l s /\ item_ok false d /\
  fst (q_exec g QMaxFit (power s None)) = AMax (Ok (Some n)) /\
  fst (q_exec g (QPush d false) (power (snd (q_exec g QMaxFit (power s None))) None)) = AUnit r /\ length d <= n /\ r = Err EItemTooBig.
Proof.
  exists cg, evs2, (fst (q_run cg st0 evs2)), st2, 112, (it 0 112), (Err EItemTooBig). split; [exact st2_reached|]. split; [apply item_okb; vm_compute; reflexivity|].
  split; [vm_compute; reflexivity|]. split; [vm_compute; reflexivity|]. split; [vm_compute; lia|reflexivity].
Qed.

(** C27 *)
Theorem c27_space_left pf g evs l s n s1 : q_reached pf g evs l s -> q_does g s QSpace (ANum (Ok n)) s1 ->
  n <= NP g * page_cap g /\
  forall d s2, item_ok pf d -> q_does g s1 (QPush d false) (AUnit (Ok tt)) s2 -> HL g + rup g (length d) <= n.
Proof. exact (q_space pf g evs l s n s1). Qed.
Theorem c27_space_left_new g f c a s1 : erased g f -> f_fuel f = None -> fresh_cache (NP g) c -> geom_ok g ->
  q_does g (st_new f c) QSpace a s1 -> a = ANum (Ok (NP g * page_cap g)).
Proof. exact (q_space_new g f c a s1). Qed.
Theorem c27_space_left_total pf g evs l s a s1 : q_reached pf g evs l s -> q_does g s QSpace a s1 -> exists n, a = ANum (Ok n).
Proof. exact (q_space_total pf g evs l s a s1). Qed.
(** C27: what is reported free and what the items take never exceed the capacity. *)
Theorem c27_free_and_held pf g evs l s q n s1 : q_reached pf g evs l s -> q_holds g s q -> q_does g s QSpace (ANum (Ok n)) s1 ->
  n + list_sum (map (item_room g) q) <= NP g * page_cap g.
Proof. exact (q_space_held pf g evs l s q n s1). Qed.
(** C27: looking at items and removing them never lowers it. *)
Theorem c27_never_lowered_by_reading pf g evs l s n s1 c a s2 n2 s3 : q_reached pf g evs l s -> match c with QPop _ | QPeek _ | QIter _ => True | _ => False end ->
  q_does g s QSpace (ANum (Ok n)) s1 -> q_does g s1 c a s2 -> q_does g s2 QSpace (ANum (Ok n2)) s3 -> n <= n2.
Proof. exact (q_space_out pf g evs l s n s1 c a s2 n2 s3). Qed.
(** C27: without power failures an empty queue reports at least all pages but one. *)
Theorem c27_empty_queue g evs l s n s1 : q_reached false g evs l s -> q_holds g s [] -> q_does g s QSpace (ANum (Ok n)) s1 ->
  (NP g - 1) * page_cap g <= n.
Proof. exact (q_space_empty g evs l s n s1). Qed.
Definition evs3 : list qev := evs2 ++ map (fun c => ECall c None) [QPop cb; QIter (repeat (cb, true) 5)].
Definition st3 : st unit := snd (q_run cg st0 evs3).
Example c27_case_empty : q_reached false cg evs3 (fst (q_run cg st0 evs3)) st3 /\ q_holds cg st3 [] /\ fst (q_exec cg QSpace (power st3 None)) = ANum (Ok 288) /\
  NP cg * page_cap cg = 336 /\ list_sum (map (item_room cg) [it 3 40; it 4 33; it 5 40]) = 144.
Proof.
  assert (R : q_reached false cg evs3 (fst (q_run cg st0 evs3)) st3).
  { exists flash_new, cc. split; [apply fl_erased|]. split; [reflexivity|]. split; [reflexivity|]. split; [apply cc_fresh|]. split; [split; [apply cg_ok|discriminate]|]. split.
    - unfold evs3, evs2. cbn [map app]. repeat (constructor; [split; [reflexivity|]; try exact I; apply item_okb; vm_compute; reflexivity|]). constructor.
    - unfold st3. fold st0. now destruct (q_run cg st0 evs3). }
  split; [exact R|]. split; [eapply (q_shows false cg evs3 _ st3 cb [] R); [reflexivity|vm_compute; reflexivity]|]. split; [vm_compute; reflexivity|]. split; vm_compute; reflexivity.
Qed.
Example c27_case : fst (q_exec cg QSpace (power st1 None)) = ANum (Ok 64) /\ fst (q_exec cg QSpace (power st2 None)) = ANum (Ok 176).
Proof. split; vm_compute; reflexivity. Qed.

Print Assumptions c01_queue_is_fifo.
Print Assumptions c02_refused_push.
Print Assumptions c04_iterate_and_remove.
Print Assumptions c05_every_history.
Print Assumptions c14_queue_wear.
Print Assumptions c16_queue_writes.
Print Assumptions c17_queue_caches.
Print Assumptions c26_max_fit_partial.
Print Assumptions c27_space_left.
Print Assumptions c27_free_and_held.
Print Assumptions c27_never_lowered_by_reading.
Print Assumptions c27_empty_queue.
