(** The calls of the library as programs for any reader: each is put together from steps on cache, buffer and iterators, writes, erases, and the three ways in
    which the library reads (page states, headers, items).  Whatever holds for the steps and is kept by sequencing holds for all calls. *)
From Coq Require Import List NArith Arith Bool Lia.
From Verif Require Import Base Crc Flash Cache State Item Generic Queue Map Codec Client MClient TMap.
Import ListNotations.

Definition with_log (f : flash) (l : list (nat * nat)) : flash := mkflash (f_mem f) (f_wc f) (f_er f) (f_fuel f) (f_ae f) (f_aw f) l.
Section Prog.
Context {K : Type} (g : geom).
(** What is known about the flash: perhaps a header and where it is. *)
Definition fact : Type := option (hdr * nat).
(** Parts that leave the flash as it is, apart from the ghost log. *)
Definition still {A} (m : M K A) : Prop := forall s, exists l, s_fl (snd (m s)) = with_log (s_fl s) l.
(** Steps that do not concern the flash. *)
Definition dropped : err := EStorage SDropped.
Definition local {A} (m : M K A) : Prop := forall s, fst (m s) <> Err dropped /\ forall f, m (set_fl s f) = (fst (m s), set_fl (snd (m s)) f).

(** [lo]: errors of the device may be ignored by parts that only read (so do the iterator of the map and the repair of pages, the latter as if the page were good). *)
Inductive progb (lo : bool) : forall A, fact -> (reader -> M K A) -> (A -> fact) -> Prop :=
| P_local A F m : local m -> progb lo A F (fun _ => m) (fun _ => F)
| P_fail A F e F1 : e <> dropped -> progb lo A F (fun _ => fail e) F1
| P_ret A F a F1 : F1 a = F \/ F1 a = None -> progb lo A F (fun _ => ret a) F1
| P_write F a bs : progb lo unit F (fun _ => fl_write g a bs) (fun _ => None)
| P_erase F a b : progb lo unit F (fun _ => fl_erase g a b) (fun _ => None)
| P_state F p : progb lo pstate F (fun R => page_state g p) (fun _ => F)
| P_hdr F a e : progb lo (option hdr) F (fun R => read_new g a e) (fun o => match o with Some h => Some (h, a) | None => None end)
| P_item h a e : progb lo maybe_item (Some (h, a)) (fun R => read_item g h a e) (fun _ => None)
| P_bind A B F m F1 k F2 : progb lo A F m F1 -> (forall a, progb lo B (F1 a) (fun R => k R a) F2) -> progb lo B F (fun R => bind (m R) (k R)) F2
(* errors of the device are passed on, except those of parts that only read *)
| P_catch A B F m F1 k F2 : progb lo A F m F1 -> (forall r, r <> Err dropped -> progb lo B (match r with Ok a => F1 a | Err _ => None end) (fun R => k R r) F2) ->
    lo = true /\ still (m steady) \/ (forall R e, k R (Err (EStorage e)) = fail (EStorage e)) -> progb lo B F (fun R => bind (attempt (m R)) (k R)) F2
| P_shrug B F p k F2 : (forall r, r <> Err dropped -> progb lo B None (fun R => k R r) F2) ->
    (forall R e r, r <> Err ECorrupted -> k R (Err (EStorage e)) = k R r) -> progb lo B F (fun R => bind (attempt (page_state g p)) (k R)) F2
| P_weak A F m F1 : progb lo A F m F1 -> progb lo A F m (fun _ => None)
| P_forget A F m F1 : progb lo A None m F1 -> progb lo A F m F1.
Arguments progb lo {A}.
Context {lo : bool}.
Notation prog := (progb lo).

Ltac loc := let s := fresh in intros s; split; [discriminate|intros ?; destruct s; reflexivity].
Lemma l_ret A (a : A) : local (ret a). Proof. loc. Qed.
Lemma l_fail A e : e <> dropped -> local (@fail K A e). Proof. intros NE s. split; [intros [= E]; auto|intros f; destruct s; reflexivity]. Qed.
Lemma l_get_buf : local get_buf. Proof. loc. Qed.
Lemma l_put_buf b : local (put_buf b). Proof. loc. Qed.
Lemma l_get_qi : local get_qi. Proof. loc. Qed.
Lemma l_put_qi b : local (put_qi b). Proof. loc. Qed.
Lemma l_get_mi : local get_mi. Proof. loc. Qed.
Lemma l_put_mi b : local (put_mi b). Proof. loc. Qed.
Lemma l_unmark : local c_unmark. Proof. loc. Qed.
Lemma l_inval : local c_inval. Proof. loc. Qed.
Lemma l_after_erased p : local (c_after_erased p). Proof. loc. Qed.
Lemma l_after_written p : local (c_after_written p). Proof. loc. Qed.
Lemma l_item_written a b : local (c_item_written g a b). Proof. loc. Qed.
Lemma l_item_erased a b : local (c_item_erased g a b). Proof. loc. Qed.
Lemma l_key_loc q k : local (c_key_loc q k). Proof. loc. Qed.
Lemma l_key_erased q k : local (c_key_erased q k). Proof. loc. Qed.
Lemma l_check_dirty : local c_check_dirty.
Proof. intros s. split; [unfold c_check_dirty, c_is_dirty, bind; destruct (c_dirty (s_ca s)); discriminate|]. intros f. destruct s as [fl c b q i]. unfold c_check_dirty, c_is_dirty, bind, c_inval, ret, set_fl, set_ca. cbn. destruct (c_dirty c); reflexivity. Qed.
Lemma l_get_ps p : local (c_get_ps p).
Proof. intros s. split; [unfold c_get_ps; destruct (ps_get (c_ps (s_ca s)) p); discriminate|]. intros f. destruct s as [fl c b q i]. unfold c_get_ps, set_fl. cbn. destruct (ps_get (c_ps c) p); reflexivity. Qed.
Lemma l_notice_ps p x d : local (c_notice_ps p x d).
Proof. intros s. split; [unfold c_notice_ps; destruct (ps_notice (c_ps (s_ca s)) p x); discriminate|]. intros f. destruct s as [fl c b q i]. unfold c_notice_ps, set_fl, set_ca. cbn. destruct (ps_notice (c_ps c) p x); reflexivity. Qed.
Lemma l_notice_key q k a d : local (c_notice_key q k a d).
Proof. intros s. split; [unfold c_notice_key; destruct (kp_notice q (c_kp (s_ca s)) k a); discriminate|]. intros f. destruct s as [fl c b qi i]. unfold c_notice_key, set_fl, set_ca. cbn. destruct (kp_notice q (c_kp c) k a); reflexivity. Qed.

Notation free m := (prog None m (fun _ => None)) (only parsing).
Lemma p_local {A} (m : M K A) : local m -> free (fun _ => m). Proof. apply P_local. Qed.
Lemma p_bind {A B} m F1 (k : reader -> A -> M K B) : prog None m F1 -> (forall a, prog (F1 a) (fun R => k R a) (fun _ => None)) -> free (fun R => bind (m R) (k R)).
Proof. apply P_bind. Qed.

Ltac lc := first [apply l_ret|apply l_fail; first [discriminate|congruence]|apply l_get_buf|apply l_put_buf|apply l_get_qi|apply l_put_qi|apply l_get_mi|apply l_put_mi|apply l_unmark|apply l_inval|apply l_after_erased|apply l_after_written|
  apply l_item_written|apply l_item_erased|apply l_key_loc|apply l_key_erased|apply l_check_dirty|apply l_get_ps|apply l_notice_ps|apply l_notice_key].
(* one step; sub-programs proved before are given by the hint database *)
Create HintDb prg.
Ltac leaf := first [solve [eauto 2 with prg]|apply P_local; lc|apply P_write|apply P_erase|apply P_state
  |apply P_forget; first [solve [eauto 2 with prg]|apply P_local; lc|apply P_write|apply P_erase|apply P_state]
  |apply P_forget; eapply P_weak; apply P_hdr].
Ltac pg1 := cbv zeta; lazymatch goal with
  | |- prog _ (fun R => bind (read_new _ _ _) _) _ => eapply P_bind; [apply P_hdr|let h := fresh "h" in intros [h|]; cbv beta iota]
  | |- prog _ (fun R => read_item _ _ _ _) _ => apply P_item
  | |- prog _ (fun R => bind (attempt _) _) _ => eapply P_catch; [leaf|let r := fresh "r" in let n := fresh "NR" in intros r n; cbv beta|first [right; reflexivity|left; split; [reflexivity|solve [eauto 2 with prg]]]]
  | |- prog _ (fun R => bind _ _) _ => eapply P_bind; [|let a := fresh "a" in intros a; cbv beta]
  | |- prog _ (fun R => match ?x with _ => _ end) _ => destruct x
  | |- prog _ _ _ => first [leaf|eapply P_weak; leaf]
  end.
Ltac pg := repeat pg1.

Lemma still_read a n : still (fl_read g a n).
Proof. intros s. unfold fl_read, on_read, steady. destruct (dev_read g (s_fl s) a n); cbn [snd]; [exists (f_bad (s_fl s)); destruct (s_fl s); reflexivity|eexists; reflexivity]. Qed.
Lemma still_bind {A B} (m : M K A) (k : A -> M K B) : still m -> (forall a, still (k a)) -> still (bind m k).
Proof.
  intros H1 H2 s. specialize (H1 s). unfold bind. destruct (m s) as [[a|e] s1]; cbn [snd] in *; auto. destruct H1 as (l1 & E1), (H2 a s1) as (l2 & E2). exists l2. rewrite E2, E1. reflexivity.
Qed.
Lemma still_local {A} (m : M K A) : local m -> still m.
Proof. intros L s. destruct (L s) as (_ & L'). specialize (L' (s_fl s)). replace (set_fl s (s_fl s)) with s in L' by (destruct s; reflexivity). rewrite L'. exists (f_bad (s_fl s)). destruct s as [[] ? ? ? ?]; reflexivity. Qed.
Lemma still_page_state p : still (page_state g p).
Proof.
  unfold page_state. apply still_bind; [apply still_read|intros b1]. apply still_bind; [apply still_read|intros b2]. destruct (marked b1), (marked b2); apply still_local; first [apply l_ret|apply l_fail; discriminate].
Qed.
Lemma still_page_state_c p : still (page_state_c g p).
Proof.
  unfold page_state_c. apply still_bind; [apply still_local, l_get_ps|intros [x|]]; [apply still_local, l_ret|]. apply still_bind; [apply still_page_state|intros x].
  apply still_bind; [apply still_local, l_notice_ps|intros _]. apply still_local, l_ret.
Qed.
Hint Resolve still_page_state still_page_state_c : prg.
Definition found (t : option hdr * nat * nat) : fact := match t with (Some h, a, _) => Some (h, a) | _ => None end.
Lemma p_page_state_c p : free (fun R => page_state_c g p). Proof. unfold page_state_c. pg. Qed.
Hint Resolve p_page_state_c : prg.
Lemma p_open_page p : free (fun R => open_page g p). Proof. unfold open_page. pg. Qed.
Hint Resolve p_open_page : prg.
Lemma p_partial_close p : free (fun R => partial_close g p). Proof. unfold partial_close. pg. Qed.
Hint Resolve p_partial_close : prg.
Lemma p_close_page p : free (fun R => close_page g p). Proof. unfold close_page. pg. Qed.
Hint Resolve p_close_page : prg.
Lemma p_find_first_in l s : free (fun R => find_first_in g l s). Proof. induction l; cbn [find_first_in]; pg. Qed.
Lemma p_find_first a s : free (fun R => find_first g a s). Proof. apply p_find_first_in. Qed.
Lemma p_find_last_in l s : forall o, free (fun R => find_last_in g l s o). Proof. induction l; intros o; cbn [find_last_in]; pg; apply IHl. Qed.
Lemma p_find_last a s : free (fun R => find_last g a s). Proof. apply p_find_last_in. Qed.
Hint Resolve p_find_first p_find_last : prg.
Lemma p_general_repair_in l : free (fun R => general_repair_in g l).
Proof.
  induction l; cbn [general_repair_in]; [pg|]. apply (P_shrug lo unit None _ (fun R r => bind (match r with Err ECorrupted => open_page g a | _ => ret tt end) (fun _ => general_repair_in g l))).
  - intros r NR. pg.
  - intros R e [x|[]] NR; try reflexivity. now destruct NR.
Qed.
Lemma p_general_repair : free (fun R => general_repair g). Proof. apply p_general_repair_in. Qed.
Hint Resolve p_general_repair : prg.

Lemma p_traverse n skip e : forall cur, prog None (fun R => traverse g n skip cur e) found.
Proof.
  induction n as [|n IH]; intros cur; cbn [traverse]; [apply P_fail; discriminate|].
  eapply P_catch; [apply P_hdr| |right; reflexivity]. intros [[h|]|[]] NR; cbv beta iota; try (apply P_fail; first [discriminate|congruence]); [destruct (skip h)|..]; try (apply P_forget; apply IH); apply P_ret; auto.
Qed.
Lemma p_traverse' n skip cur e : free (fun R => traverse g n skip cur e). Proof. eapply P_weak. apply p_traverse. Qed.
Hint Resolve p_traverse' : prg.
Lemma p_item_next n e : forall cur, free (fun R => item_next g n cur e).
Proof.
  induction n as [|n IH]; intros cur; cbn [item_next]; [pg|]. eapply P_bind; [apply p_traverse|]. intros [[[h|] a] nx]; cbn [found]; pg; apply IH.
Qed.
Hint Resolve p_item_next : prg.
Lemma p_hdr_write h a : free (fun R => hdr_write g h a). Proof. unfold hdr_write. pg. Qed.
Hint Resolve p_hdr_write : prg.
Lemma p_erase_data h a : free (fun R => erase_data g h a). Proof. unfold erase_data. pg. Qed.
Lemma p_write_raw h d a : free (fun R => write_raw g h d a). Proof. unfold write_raw. pg. Qed.
Lemma p_write_new a d : free (fun R => write_new g a d). Proof. apply p_write_raw. Qed.
Hint Resolve p_erase_data p_write_raw p_write_new : prg.
Lemma p_find_free a e n : free (fun R => find_free g a e n). Proof. unfold find_free. pg. Qed.
Lemma p_is_page_empty p s : free (fun R => is_page_empty g p s). Proof. unfold is_page_empty. pg. Qed.
Hint Resolve p_find_free p_is_page_empty : prg.
Lemma p_auto_repair {A} (f : reader -> M K A) r : free f -> free r -> free (fun R => auto_repair (R := R) (f R) (r R)).
Proof.
  intros Hf Hr. unfold auto_repair. eapply P_catch; [exact Hf| |right; reflexivity]. intros [a|[]] NR; cbv beta iota; try (apply P_fail; first [discriminate|congruence]); [apply P_ret; auto|]. eapply P_bind; [exact Hr|]. intros u. exact Hf.
Qed.
End Prog.
Arguments progb {K} g lo {A}.
Notation prog g := (progb g true).
Notation free g m := (progb g _ None m (fun _ => None)) (only parsing).
Create HintDb prg.
Global Hint Resolve still_page_state still_page_state_c p_page_state_c p_open_page p_partial_close p_close_page p_find_first p_find_last p_general_repair p_traverse' p_item_next p_hdr_write p_erase_data p_write_raw p_write_new p_find_free p_is_page_empty : prg.
Ltac lc := first [apply l_ret|apply l_fail; first [discriminate|congruence]|apply l_get_buf|apply l_put_buf|apply l_get_qi|apply l_put_qi|apply l_get_mi|apply l_put_mi|apply l_unmark|apply l_inval|apply l_after_erased|apply l_after_written|
  apply l_item_written|apply l_item_erased|apply l_key_loc|apply l_key_erased|apply l_check_dirty|apply l_get_ps|apply l_notice_ps|apply l_notice_key].
Ltac leaf := first [solve [eauto 2 with prg]|apply P_local; lc|apply P_write|apply P_erase|apply P_state
  |apply P_forget; first [solve [eauto 2 with prg]|apply P_local; lc|apply P_write|apply P_erase|apply P_state]
  |apply P_forget; eapply P_weak; apply P_hdr].
Ltac pg1 := cbv zeta; lazymatch goal with
  | |- progb _ _ _ (fun R => bind (read_new _ _ _) _) _ => eapply P_bind; [apply P_hdr|let h := fresh "h" in intros [h|]; cbv beta iota]
  | |- progb _ _ _ (fun R => read_item _ _ _ _) _ => apply P_item
  | |- progb _ _ _ (fun R => bind (attempt _) _) _ => eapply P_catch; [leaf|let r := fresh "r" in let n := fresh "NR" in intros r n; cbv beta|first [right; reflexivity|left; split; [reflexivity|solve [eauto 2 with prg]]]]
  | |- progb _ _ _ (fun R => bind (traverse _ _ _ _ _) _) _ => eapply P_bind; [apply p_traverse|let h := fresh "h" in intros [[[h|] ?] ?]; cbn [found]; cbv beta iota]
  | |- progb _ _ _ (fun R => bind _ _) _ => eapply P_bind; [|let a := fresh "a" in intros a; cbv beta]
  | |- progb _ _ _ (fun R => match ?x with _ => _ end) _ => destruct x
  | |- progb _ _ _ _ _ => first [leaf|eapply P_weak; leaf]
  end.
Ltac pg := repeat pg1.

Section QProg.
Context (g : geom) {lo : bool}.
Notation freeq m := (@progb unit g lo _ None m (fun _ => None)) (only parsing).
Lemma p_find_youngest : freeq (fun R => find_youngest g). Proof. unfold find_youngest. pg. Qed.
Hint Resolve p_find_youngest : prg.
Lemma p_find_oldest : freeq (fun R => find_oldest g). Proof. unfold find_oldest. pg. Qed.
Hint Resolve p_find_oldest : prg.
Lemma p_q_repair : freeq (fun R => q_repair g). Proof. unfold q_repair. pg. Qed.
Hint Resolve p_q_repair : prg.
Lemma p_push_inner d ow : freeq (fun R => push_inner g d ow). Proof. unfold push_inner. pg. Qed.
Lemma p_push d ow : freeq (fun R => q_push g d ow). Proof. apply p_auto_repair; [apply p_push_inner|apply p_q_repair]. Qed.
Lemma p_find_start : freeq (fun R => find_start g). Proof. unfold find_start. pg. Qed.
Lemma p_q_iter : freeq (fun R => q_iter g). Proof. unfold q_iter. eapply P_bind; [apply p_auto_repair; [apply p_find_start|apply p_q_repair]|]. intros a. pg. Qed.
Hint Resolve p_q_iter p_push : prg.
Lemma p_next_loop n : freeq (fun R => next_loop g n).
Proof. induction n; cbn [next_loop]; pg. Qed.
Lemma p_q_next : freeq (fun R => q_next g).
Proof.
  unfold q_next. pg1; [pg|]. pg1; [pg|]. eapply P_bind; [apply p_auto_repair; [|apply p_q_repair]|].
  - unfold next_inner. eapply P_bind; [|intros ?; apply p_next_loop]. pg.
  - intros [[h a']|]; pg.
Qed.
Hint Resolve p_q_next : prg.
Lemma p_entry_pop h a : freeq (fun R => q_entry_pop g h a). Proof. unfold q_entry_pop. pg. Qed.
Hint Resolve p_entry_pop : prg.
Lemma p_entry_data h : freeq (fun R => entry_data h). Proof. unfold entry_data. pg. Qed.
Hint Resolve p_entry_data : prg.
Lemma p_q_peek b : freeq (fun R => q_peek g b). Proof. unfold q_peek. pg. Qed.
Lemma p_q_pop b : freeq (fun R => q_pop g b). Proof. unfold q_pop. pg. Qed.
Lemma p_free_addr p : freeq (fun R => free_addr g p). Proof. unfold free_addr. pg. Qed.
Hint Resolve p_free_addr : prg.
Lemma p_max_fit : freeq (fun R => q_max_fit g). Proof. apply p_auto_repair; [|apply p_q_repair]. unfold max_fit_inner. pg. Qed.
Lemma p_space_loop l : forall n, freeq (fun R => space_loop g l n). Proof. induction l; intros n; cbn [space_loop]; pg; apply IHl. Qed.
Hint Resolve p_space_loop : prg.
Lemma p_space_left : freeq (fun R => q_space_left g). Proof. apply p_auto_repair; [|apply p_q_repair]. unfold space_left_inner. pg. Qed.
Lemma p_q_step b : freeq (fun R => q_step g b). Proof. unfold q_step. pg. Qed.
Hint Resolve p_q_step : prg.
Lemma p_q_script l : freeq (fun R => q_script g l). Proof. induction l as [|[b p] l IH]; cbn [q_script]; pg. Qed.
Hint Resolve p_q_script : prg.
Lemma p_q_iterate l : freeq (fun R => q_iterate g l). Proof. unfold q_iterate. pg. Qed.
End QProg.

Section MProg.
Context {K : Type} (KO : keyops K) (g : geom) {lo : bool}.
Notation freem m := (@progb K g lo _ None m (fun _ => None)) (only parsing).
Lemma p_ser_lift {A} (r : A + sererr) : freem (fun _ => ser_lift r). Proof. unfold ser_lift. pg. Qed.
Hint Resolve p_ser_lift : prg.
Lemma p_scan_page n k e : forall cur o, freem (fun R => scan_page KO g n k cur e o). Proof. induction n; intros cur o; cbn [scan_page]; pg; apply IHn. Qed.
Hint Resolve p_scan_page : prg.
Lemma p_fetch_pages n k : forall p, freem (fun R => fetch_pages KO g n k p). Proof. induction n; intros p; cbn [fetch_pages]; pg; apply IHn. Qed.
Hint Resolve p_fetch_pages : prg.
Lemma p_fetch_cached k : freem (fun R => fetch_cached KO g k). Proof. unfold fetch_cached. pg. Qed.
Lemma p_last_used : freem (fun R => last_used g). Proof. unfold last_used. pg. Qed.
Hint Resolve p_fetch_cached p_last_used : prg.
Lemma p_fetch_loc k : freem (fun R => fetch_loc KO g k). Proof. unfold fetch_loc. pg. Qed.
Hint Resolve p_fetch_loc : prg.
Lemma p_migrate_loop n e : forall cur wa, freem (fun R => migrate_loop KO g n cur e wa). Proof. induction n; intros cur wa; cbn [migrate_loop]; pg; apply IHn. Qed.
Hint Resolve p_migrate_loop : prg.
Lemma p_migrate a b : freem (fun R => migrate KO g a b). Proof. unfold migrate. pg. Qed.
Hint Resolve p_migrate : prg.
Lemma p_m_repair : freem (fun R => m_repair KO g). Proof. unfold m_repair. pg. Qed.
Lemma p_fetch b k : freem (fun R => m_fetch KO g b k).
Proof. unfold m_fetch. pg1; [pg|]. eapply P_bind; [apply p_auto_repair; [apply p_fetch_loc|apply p_m_repair]|]. intros r. pg. Qed.
Lemma p_ser_item k v : freem (fun R => ser_item KO k v). Proof. unfold ser_item. pg. Qed.
Hint Resolve p_ser_item p_fetch : prg.
Lemma p_store_loop n k v : freem (fun R => store_loop KO g n k v). Proof. induction n; cbn [store_loop]; pg. Qed.
Hint Resolve p_store_loop : prg.
Lemma p_store b k v : freem (fun R => m_store KO g b k v).
Proof. unfold m_store. pg1; [pg|]. apply p_auto_repair; [|apply p_m_repair]. unfold store_inner. pg. Qed.
Lemma p_remove_items n sk e : forall cur, freem (fun R => remove_items KO g n sk cur e). Proof. induction n; intros cur; cbn [remove_items]; pg; apply IHn. Qed.
Hint Resolve p_remove_items : prg.
Lemma p_remove_pages l sk : freem (fun R => remove_pages KO g l sk). Proof. induction l; cbn [remove_pages]; pg. Qed.
Hint Resolve p_remove_pages : prg.
Lemma p_remove_inner sk : freem (fun R => remove_inner KO g sk). Proof. unfold remove_inner. pg. Qed.
Lemma p_remove b k : freem (fun R => m_remove KO g b k). Proof. unfold m_remove. pg1; [pg|]. apply p_auto_repair; [apply p_remove_inner|apply p_m_repair]. Qed.
Lemma p_remove_all b : freem (fun R => m_remove_all KO g b). Proof. unfold m_remove_all. pg1; [pg|]. apply p_auto_repair; [apply p_remove_inner|apply p_m_repair]. Qed.
Lemma p_first_page : freem (fun R => first_page_expr g). Proof. unfold first_page_expr. pg. Qed.
Hint Resolve p_first_page p_m_repair : prg.
Lemma p_m_iter b : freem (fun R => m_iter KO g b). Proof. unfold m_iter. pg. Qed.
Lemma p_mi_item_next n : freem (fun R => mi_item_next g n). Proof. induction n; cbn [mi_item_next]; pg. Qed.
Hint Resolve p_m_iter p_mi_item_next : prg.
Lemma p_t_ser {T} (V : valops T) k v : freem (fun R => t_ser KO V k v). Proof. unfold t_ser. pg. Qed.
Hint Resolve p_t_ser : prg.
Lemma p_store_with ser n k : freem (fun _ => ser) -> freem (fun R => store_with KO g ser n k). Proof. intros Hs. induction n; cbn [store_with]; pg. Qed.
Lemma p_t_store {T} (V : valops T) b k v : freem (fun R => t_store KO g V b k v).
Proof. unfold t_store. pg1; [pg|]. apply p_auto_repair; [|apply p_m_repair]. pg1; [pg|]. apply p_store_with. apply p_t_ser. Qed.
Lemma p_t_fetch {T} (V : valops T) b k : freem (fun R => t_fetch KO g V b k). Proof. unfold t_fetch. pg. Qed.
End MProg.
Section MProgI.
Context {K : Type} (KO : keyops K) (g : geom).
Hint Resolve p_m_iter p_mi_item_next p_ser_lift : prg.
Notation freet m := (@progb K g true _ None m (fun _ => None)) (only parsing).
Lemma p_mi_next_page n : freet (fun R => mi_next_page g n). Proof. induction n; cbn [mi_next_page]; pg. Qed.
Hint Resolve p_m_iter p_mi_item_next p_mi_next_page : prg.
Lemma p_mi_loop n : freet (fun R => mi_loop g n). Proof. induction n; cbn [mi_loop]; pg. Qed.
Hint Resolve p_mi_loop : prg.
Lemma p_m_iter_next b : freet (fun R => m_iter_next KO g b). Proof. unfold m_iter_next. pg. Qed.
Hint Resolve p_m_iter_next : prg.
Lemma p_m_script l : freet (fun R => m_script KO g l). Proof. induction l; cbn [m_script]; pg. Qed.
Hint Resolve p_m_script : prg.
Lemma p_m_iterate b l : freet (fun R => m_iterate KO g b l). Proof. unfold m_iterate. pg. Qed.
End MProgI.

(** Induction, where ignoring errors of the device is allowed. *)
Lemma prog_ind1 {K} (g : geom) (P : forall A, fact -> (reader -> M K A) -> (A -> fact) -> Prop) :
  (forall A F (m : M K A), local m -> P A F (fun _ => m) (fun _ => F)) ->
  (forall A F e F1, e <> dropped -> P A F (fun _ => fail e) F1) ->
  (forall A F a F1, F1 a = F \/ F1 a = None -> P A F (fun _ => ret a) F1) ->
  (forall F a bs, P unit F (fun _ => fl_write g a bs) (fun _ => None)) ->
  (forall F a b, P unit F (fun _ => fl_erase g a b) (fun _ => None)) ->
  (forall F p, P pstate F (fun R => page_state g p) (fun _ => F)) ->
  (forall F a e, P (option hdr) F (fun R => read_new g a e) (fun o => match o with Some h => Some (h, a) | None => None end)) ->
  (forall h a e, P maybe_item (Some (h, a)) (fun R => read_item g h a e) (fun _ => None)) ->
  (forall A B F m F1 (k : reader -> A -> M K B) F2 (H : prog g F m F1) (IHprog : P A F m F1) (H0 : forall a, prog g (F1 a) (fun R => k R a) F2) (H1 : forall a, P B (F1 a) (fun R => k R a) F2), P B F (fun R => bind (m R) (k R)) F2) ->
  (forall A B F m F1 (k : reader -> res A -> M K B) F2 (H : prog g F m F1) (IHprog : P A F m F1) (H0 : forall r, r <> Err dropped -> prog g (match r with Ok a => F1 a | Err _ => None end) (fun R => k R r) F2)
    (H1 : forall r, r <> Err dropped -> P B (match r with Ok a => F1 a | Err _ => None end) (fun R => k R r) F2)
    (H2 : still (m steady) \/ (forall R e, k R (Err (EStorage e)) = fail (EStorage e))), P B F (fun R => bind (attempt (m R)) (k R)) F2) ->
  (forall A F m F1 (H : prog g F m F1) (IHprog : P A F m F1), P A F m (fun _ => None)) ->
  (forall A F m F1 (H : prog g None m F1) (IHprog : P A None m F1), P A F m F1) ->
  forall A F m F1, @progb K g true A F m F1 -> P A F m F1.
Proof.
  intros C1 C2 C3 C4 C5 C6 C7 C8 C9 C10 C11 C12. induction 1; eauto.
  - apply C10 with (F1 := F1); auto. destruct H2 as [(_ & H2)|H2]; auto.
  - apply C10 with (F1 := fun _ => None).
    + apply P_forget, P_state.
    + eapply C12; [apply P_state|apply C6].
    + intros [x|e] NR; auto.
    + intros [x|e] NR; auto.
    + left. apply still_page_state.
Qed.

(** On the mock flash no call is dropped. *)
Section NoDrop.
Context {K : Type} (g : geom).
Definition ends {A} (m : M K A) : Prop := forall s, fst (m s) <> Err dropped.
Lemma ends_bind {A B} (m : M K A) (k : A -> M K B) : ends m -> (forall a, ends (k a)) -> ends (bind m k).
Proof. intros H1 H2 s. specialize (H1 s). unfold bind. destruct (m s) as [[a|e] s1]; cbn [fst] in *; [apply H2|congruence]. Qed.
Lemma ends_read a n : ends (fl_read g a n).
Proof. intros s. unfold fl_read, on_read, steady, dev_read, chk. destruct (_ || _); [discriminate|]. destruct (_ || _); discriminate. Qed.
Lemma ends_ret {A} (a : A) : ends (ret a). Proof. intros s. discriminate. Qed.
Lemma ends_fail {A} e : e <> dropped -> ends (@fail K A e). Proof. intros H s [= E]. auto. Qed.
Lemma ends_hdr n a : ends (read_hdr g n a).
Proof.
  induction n; cbn [read_hdr]; (apply ends_bind; [apply ends_read|intros b]); destruct (all_ff b); try apply ends_ret; destruct (lcrc_ok b); try apply ends_ret; try (apply ends_fail; discriminate); auto.
Qed.
Ltac en := repeat first [apply ends_ret|apply ends_fail; discriminate|apply ends_read|apply ends_hdr|apply ends_bind; [|intros]|match goal with |- ends (match ?x with _ => _ end) => destruct x end|intros ? [=]].
Lemma ends_state p : ends (page_state g p). Proof. unfold page_state. en. Qed.
Lemma ends_new a e : ends (read_new g a e). Proof. unfold read_new. en. Qed.
Lemma ends_item h a e : ends (read_item g h a e). Proof. unfold read_item. cbv zeta. en. Qed.
Lemma prog_ends {A} F (m : reader -> M K A) F1 : prog g F m F1 -> ends (m steady).
Proof.
  revert A F m F1. apply prog_ind1; intros; auto using ends_state, ends_new, ends_item, ends_ret, ends_fail.
  - intros s. apply H.
  - intros s. unfold fl_write, dev_write, chk. destruct (_ || _); [discriminate|]. destruct (_ || _); [discriminate|]. destruct (spend _ _) as [[? ?] []]; discriminate.
  - intros s. unfold fl_erase, dev_erase, chk. destruct (_ || _); [discriminate|]. destruct (_ || _); [discriminate|]. destruct (spend _ _) as [[? ?] []]; discriminate.
  - apply ends_bind; auto.
  - intros s. unfold bind, attempt. cbn [on_result steady]. unfold hand_on. specialize (IHprog s). destruct (m steady s) as [r s1]. cbn [fst] in IHprog. now apply H1.
Qed.
End NoDrop.
