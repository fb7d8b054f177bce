(** Proofs for Cost.v: with the key cache, fetches of a working set that fits read one item each, apart from the first fetch of each key. *)
From Coq Require Import List NArith ZArith Arith Bool Lia ZifyBool ZifyNat ZifyN.
From Verif Require Import Base BaseP Crc CrcP Flash Cache State Item Generic Map Codec CodecP GeomP ScanP WpP ItemP CalcP PageP WorldP LayP QPushP QRepP QStepP KeyP MLogP MFetchP MMigP MStoreP MCallP MRemP MRmvP MIterP Client MClient MExecP MSpec MHistP MObs MPropsP MWearP MAmoP FormatSpec FormatP Reads ProgP ReadsP Cost.
Import ListNotations.
Local Opaque crc16 acrc crc32.

(** * Parts that leave the key cache alone *)
Section Keep.
Context {K : Type} (KO : keyops K) (g : geom).
Definition keep {A} (c : M K A) : Prop := forall s, c_kp (s_ca (snd (c s))) = c_kp (s_ca s) /\ (c_dirty (s_ca s) = false -> c_dirty (s_ca (snd (c s))) = false).
Lemma keep_ret {A} (a : A) : keep (ret a). Proof. intros s. auto. Qed.
Lemma keep_fail {A} e : keep (@fail K A e). Proof. intros s. auto. Qed.
Lemma keep_bind {A B} (c : M K A) (f : A -> M K B) : keep c -> (forall a, keep (f a)) -> keep (bind c f).
Proof.
  intros H1 H2 s. unfold bind. specialize (H1 s). destruct (c s) as [[a|e] s1]; cbn [snd] in *; [|exact H1].
  destruct H1 as [A1 B1], (H2 a s1) as [A2 B2]. split; [congruence|auto].
Qed.
Lemma keep_read a n : keep (fl_read g a n).
Proof. intros s. unfold fl_read. cbn [on_read steady]. destruct (dev_read g (s_fl s) a n); cbn [snd set_fl s_ca]; auto. Qed.
Lemma keep_get : keep get_buf. Proof. intros s. auto. Qed.
Lemma keep_put b : keep (put_buf b). Proof. intros s. cbn. auto. Qed.
Lemma keep_unmark : keep c_unmark. Proof. intros s. cbn. auto. Qed.
Lemma keep_get_ps p : keep (c_get_ps p). Proof. intros s. unfold c_get_ps. destruct (ps_get (c_ps (s_ca s)) p); cbn; auto. Qed.
Lemma keep_notice_ps p x : keep (c_notice_ps p x false).
Proof. intros s. unfold c_notice_ps. destruct (ps_notice (c_ps (s_ca s)) p x); cbn; auto. Qed.
Lemma keep_lift {A} (r : A + sererr) : keep (ser_lift r). Proof. destruct r; cbn [ser_lift]; [apply keep_ret|apply keep_fail]. Qed.
Lemma keep_read_hdr n : forall a, keep (read_hdr g n a).
Proof.
  induction n as [|n IH]; intros a; cbn [read_hdr]; (apply keep_bind; [apply keep_read|]); intros b; destruct (all_ff b); try apply keep_ret; destruct (lcrc_ok b); try apply keep_ret; [apply keep_fail|apply IH].
Qed.
Lemma keep_read_new a e : keep (read_new g a e).
Proof.
  unfold read_new. destruct (beyond e (a + HL g)); [apply keep_ret|]. apply keep_bind; [apply keep_read_hdr|]. intros [b|]; [|apply keep_ret].
  cbv zeta. destruct (beyond e _); [apply keep_fail|apply keep_ret].
Qed.
Lemma keep_read_data n : forall h c da rl, keep (read_data g n h c da rl).
Proof.
  induction n as [|n IH]; intros h c da rl; cbn [read_data]; (apply keep_bind; [destruct (rl =? 0); [apply keep_ret|apply keep_bind; [apply keep_read|]; intros d; apply keep_bind; [apply keep_get|]; intros b; apply keep_put]|]);
    intros _; (apply keep_bind; [apply keep_get|]); intros b; destruct (acrc _ =? c)%N; try apply keep_ret; apply IH.
Qed.
Lemma keep_read_item h a e : keep (read_item g h a e).
Proof.
  unfold read_item. destruct (h_crc h); [|apply keep_ret]. cbv zeta. destruct (beyond e _); [apply keep_ret|]. apply keep_bind; [apply keep_get|]. intros b.
  destruct (length b <? _); [apply keep_fail|apply keep_read_data].
Qed.
Lemma keep_attempt {A} (c : M K A) : keep c -> keep (attempt c).
Proof. intros H s. unfold attempt. cbn [on_result steady]. unfold hand_on. specialize (H s). destruct (c s). exact H. Qed.
Lemma keep_traverse sk : forall fuel cur e, keep (traverse g fuel sk cur e).
Proof.
  induction fuel as [|fuel IH]; intros cur e; cbn [traverse]; [apply keep_fail|]. apply keep_bind; [apply keep_attempt, keep_read_new|].
  intros [[h|]|x]; [destruct (sk h); [apply IH|apply keep_ret]|apply keep_ret|]. destruct x; try apply keep_fail. apply IH.
Qed.
Lemma keep_item_next : forall fuel cur e, keep (item_next g fuel cur e).
Proof.
  induction fuel as [|fuel IH]; intros cur e; cbn [item_next]; [apply keep_fail|]. apply keep_bind; [apply keep_traverse|]. intros [[[h|] a] nx]; [|apply keep_ret].
  apply keep_bind; [apply keep_read_item|]. intros []; try apply IH. apply keep_ret.
Qed.
Lemma keep_scan k e : forall fuel cur fo, keep (scan_page KO g fuel k cur e fo).
Proof.
  induction fuel as [|fuel IH]; intros cur fo; cbn [scan_page]; [apply keep_fail|]. apply keep_bind; [apply keep_item_next|]. intros [[[h a]|] nx]; [|apply keep_ret].
  apply keep_bind; [apply keep_get|]. intros b. apply keep_bind; [apply keep_lift|]. intros kl. apply IH.
Qed.
Lemma keep_ps p : keep (page_state_c g p).
Proof.
  unfold page_state_c. apply keep_bind; [apply keep_get_ps|]. intros [x|]; [apply keep_ret|]. apply keep_bind.
  - unfold page_state. apply keep_bind; [apply keep_read|]. intros b1. apply keep_bind; [apply keep_read|]. intros b2. destruct (marked b1), (marked b2); auto using keep_ret, @keep_fail.
  - intros x. apply keep_bind; [apply keep_notice_ps|]. intros _. apply keep_ret.
Qed.
Lemma keep_ff x : forall l, keep (find_first_in g l x).
Proof. induction l as [|p l IH]; cbn [find_first_in]; [apply keep_ret|]. apply keep_bind; [apply keep_ps|]. intros y. destruct (pstate_eqb x y); [apply keep_ret|exact IH]. Qed.
Lemma keep_last_used : keep (last_used g).
Proof.
  unfold last_used, find_first. apply keep_bind; [apply keep_ff|]. intros [p|]; [apply keep_ret|]. apply keep_bind; [apply keep_ff|]. intros [p|]; [|apply keep_fail].
  cbv zeta. apply keep_bind; [apply keep_ps|]. intros x. destruct (pstate_eqb x Closed); [apply keep_ret|]. apply keep_bind; [apply keep_unmark|]. intros _. apply keep_ret.
Qed.
(** The search notes what it finds. *)
Lemma search_notes k : forall fuel p s a kl s', fetch_pages KO g fuel k p s = (Ok (Some (a, kl)), s') ->
  kp_notice (k_eqb KO) (c_kp (s_ca s)) k a = Some (c_kp (s_ca s')) /\ (c_dirty (s_ca s) = false -> c_dirty (s_ca s') = false).
Proof.
  induction fuel as [|fuel IH]; intros p s a kl s' E; cbn [fetch_pages] in E; [discriminate|]. unfold bind at 1 in E.
  pose proof (keep_scan k (dend g p) (tfuel (dstart g p) (dend g p)) (dstart g p) None s) as [K1 D1].
  destruct (scan_page KO g (tfuel (dstart g p) (dend g p)) k (dstart g p) (dend g p) None s) as [[[[a1 kl1]|]|e] s1]; cbn [snd] in *; [| |discriminate].
  - unfold bind, c_notice_key, ret in E. cbv zeta in E. rewrite K1 in E. destruct (kp_notice (k_eqb KO) (c_kp (s_ca s)) k a1) as [kp|] eqn:EK; [|discriminate].
    injection E as <- <- <-. cbn [s_ca set_ca c_kp c_dirty]. auto.
  - cbv zeta in E. unfold bind at 1 in E. pose proof (keep_ps (prev_page g p) s1) as [K2 D2]. destruct (page_state_c g (prev_page g p) s1) as [[x|e] s2]; cbn [snd] in *; [|discriminate].
    destruct (negb (pstate_eqb x Closed)); [discriminate|]. destruct (IH _ _ _ _ _ E) as [K3 D3]. rewrite K2, K1 in K3. auto.
Qed.
(** A search after a miss. *)
Lemma miss_notes k s h a okl s' : c_dirty (s_ca s) = false -> kp_get (k_eqb KO) (c_kp (s_ca s)) k = None -> fetch_loc KO g k s = (Ok (Some (h, a, okl)), s') ->
  kp_notice (k_eqb KO) (c_kp (s_ca s)) k a = Some (c_kp (s_ca s')) /\ c_dirty (s_ca s') = false.
Proof.
  intros D N E. unfold fetch_loc in E. unfold bind at 1 in E. unfold c_check_dirty, c_is_dirty in E. unfold bind at 1 in E. rewrite D in E. cbn [ret] in E.
  unfold bind at 1 in E. unfold fetch_cached, c_key_loc in E. unfold bind at 1 in E. rewrite N in E. cbn [ret] in E.
  unfold bind at 1 in E. pose proof (keep_last_used s) as [K1 D1]. destruct (last_used g s) as [[[p|]|e] s1]; cbn [snd] in *; [|cbn [ret fail] in E; discriminate E|cbn [ret fail] in E; discriminate E].
  unfold bind at 1 in E. destruct (fetch_pages KO g (S (NP g)) k p s1) as [[[[a1 kl]|]|e] s2] eqn:ES; [|cbn [ret fail] in E; discriminate E|cbn [ret fail] in E; discriminate E].
  destruct (search_notes _ _ _ _ _ _ _ ES) as [K2 D2]. unfold bind at 1 in E. cbn [c_unmark] in E.
  unfold bind at 1 in E. match type of E with context [read_new g a1 None ?x] => set (s3 := x) in * end.
  pose proof (keep_read_new a1 None s3) as [K3 D3]. destruct (read_new g a1 None s3) as [[[h1|]|e] s4]; cbn [snd] in *; [|cbn [ret fail] in E; discriminate E|cbn [ret fail] in E; discriminate E].
  unfold bind at 1 in E. pose proof (keep_read_item h1 a1 None s4) as [K4 D4]. destruct (read_item g h1 a1 None s4) as [[[]|e] s5]; cbn [snd] in *; try discriminate.
  injection E as <- <- <- <-. rewrite K1 in K2. split; [|apply D4, D3; reflexivity]. rewrite K4, K3. exact K2.
Qed.
End Keep.

(** * What reading one item costs *)
Section Cost.
Context {K : Type} (g : geom) (gok : geom_ok g).
Lemma cost_hdr (s s1 s2 : st K) a e h : f_mem (s_fl s2) = f_mem (s_fl s) -> read_new g a e s = (Ok (Some h), s1) ->
  h = hdr_of (rd (f_mem (s_fl s)) a (HL g)) /\ read_new (R := counted) g a e s2 = (Ok (Some h), set_fl s2 (refuse (s_fl s2) a (HL g))).
Proof.
  intros EM E. unfold read_new in *. destruct (beyond e (a + HL g)); [discriminate|]. unfold bind at 1 in E. unfold bind at 1. cbn [read_hdr] in *. unfold bind at 1 in E. unfold bind at 1.
  unfold fl_read in *. cbn [on_read steady counted garbled] in *. unfold dev_read in *. rewrite EM. destruct (chk g (RS g) a (HL g)) eqn:ECK; [discriminate|]. rewrite bytes_eq.
  destruct (all_ff (rd (f_mem (s_fl s)) a (HL g))) eqn:EF; [discriminate|]. destruct (lcrc_ok (rd (f_mem (s_fl s)) a (HL g))) eqn:EC.
  - cbn [ret] in *. cbv zeta in *. destruct (beyond e (next_addr g a (hdr_of (rd (f_mem (s_fl s)) a (HL g))))); [discriminate|]. cbn [ret] in *. injection E as <- <-. auto.
  - unfold bind in E. cbn [on_read steady] in E. unfold dev_read in E. rewrite ?ECK in E. rewrite EF, EC in E. discriminate.
Qed.
Lemma cost_data (s s1 s2 : st K) h a e : f_mem (s_fl s2) = f_mem (s_fl s) -> s_buf s2 = s_buf s -> read_item g h a e s = (Ok (MPresent h), s1) ->
  exists b, read_item (R := counted) g h a e s2 = (Ok (MPresent h), set_buf (if rup g (h_len h) =? 0 then s2 else set_fl s2 (refuse (s_fl s2) (a + HL g) (rup g (h_len h)))) b).
Proof.
  intros EM EB E. unfold read_item in *. destruct (h_crc h) as [c|]; [|discriminate]. cbv zeta in *. destruct (beyond e _); [discriminate|]. unfold bind at 1 in E. unfold bind at 1. unfold get_buf in *. rewrite EB.
  destruct (length (s_buf s) <? rup g (h_len h)) eqn:EL; [discriminate|]. cbn [read_data] in *. pose proof (rup_ge g gok (h_len h)) as RG. unfold bind in *. unfold get_buf in *.
  destruct (rup g (h_len h) =? 0) eqn:ER.
  - cbn [ret] in *. rewrite EB. destruct (acrc (firstn (h_len h) (s_buf s)) =? c)%N eqn:EC.
    + exists (s_buf s2). cbn [ret]. f_equal. now destruct s2.
    + rewrite EC in E. discriminate.
  - unfold fl_read in *. cbn [on_read steady counted garbled] in *. unfold dev_read in *. rewrite EM. destruct (chk g (RS g) (a + HL g) (rup g (h_len h))) eqn:ECK; [discriminate|]. rewrite bytes_eq.
    cbn [set_fl s_buf put_buf set_buf] in *. rewrite EB. set (d := rd (f_mem (s_fl s)) (a + HL g) (rup g (h_len h))) in *.
    assert (LD : length d = rup g (h_len h)) by apply rd_length.
    destruct (acrc (firstn (h_len h) (put_front d (s_buf s))) =? c)%N eqn:EC.
    + exists (put_front d (s_buf s)). reflexivity.
    + exfalso. cbn [s_fl s_buf] in E. rewrite ?ECK in E. fold d in E. cbn [s_buf] in E.
      cbn [set_buf s_buf s_fl] in E. fold d in E. rewrite put_front2 in E by reflexivity. rewrite EC in E. discriminate.
Qed.
End Cost.

Lemma nodup_l {A} (l l' : list A) : NoDup (l ++ l') -> NoDup l.
Proof. induction l as [|x l IH]; intros H; [constructor|]. inversion H; subst. constructor; auto. intros X. apply H2. apply in_or_app. now left. Qed.
Lemma exact_harmless g : harmless g (fun _ => bytes).
Proof. intros t m a n. now left. Qed.
Lemma emptied {K} (keqb : K -> K -> bool) (l : list (option (K * nat))) k : kp_get keqb (KPArray (map (fun _ => None) l)) k = None.
Proof. cbn [kp_get]. enough (H : forall i, kp_find keqb (map (fun _ => @None (K * nat)) l) k i = None) by now rewrite H. induction l; intros i; cbn; auto. Qed.
Lemma recall_none {K} (keqb : K -> K -> bool) k es : recall keqb k es = None -> forget keqb k es = es /\ Forall (fun e => keqb k (fst e) = false) es.
Proof.
  unfold recall, forget. induction es as [|e es IH]; cbn; auto. destruct (keqb k (fst e)) eqn:E; [discriminate|]. intros H. destruct (IH H) as [-> F]. cbn. auto.
Qed.
(** * One fetch *)
Section Fetch.
Context {K : Type} (KO : keyops K) (g : geom).
Lemma fetch_state {R : reader} (HR : forall A (c : M K A), attempt c = hand_on c) b k r (s s1 : st K) : fetch_loc KO g k (set_buf s b) = (Ok r, s1) -> snd (m_fetch KO g b k s) = s1.
Proof.
  intros E. unfold m_fetch. unfold bind at 1. cbn [put_buf]. unfold bind at 1. unfold auto_repair. unfold bind at 1. rewrite HR. unfold hand_on. rewrite E. cbn [ret].
  destruct r as [[[h a] okl]|]; [|reflexivity]. unfold bind at 1. cbn [get_buf]. cbv zeta. destruct (length (s_buf s1) <? h_len h); [reflexivity|]. unfold bind.
  destruct okl as [kl|]; cbn [ret ser_lift].
  - destruct (h_len h <? kl); reflexivity.
  - destruct (k_len KO (firstn (h_len h) (s_buf s1))) as [kl|e]; cbn [ser_lift ret fail]; [|reflexivity]. destruct (h_len h <? kl); reflexivity.
Qed.
Definition tidy (c : cache K) : cache K := if c_dirty c then cache_inval c else c.
Lemma check_tidy (s : st K) : c_check_dirty s = (Ok tt, set_ca s (tidy (s_ca s))).
Proof. unfold c_check_dirty, c_is_dirty, bind, tidy. destruct (c_dirty (s_ca s)); cbn; [reflexivity|]. now destruct s. Qed.
Lemma tidy_clean c : c_dirty (tidy c) = false.
Proof. unfold tidy. destruct (c_dirty c) eqn:E; auto. Qed.
Lemma loc_tidy k (s : st K) : fetch_loc KO g k s = fetch_loc KO g k (set_ca s (tidy (s_ca s))).
Proof.
  unfold fetch_loc. unfold bind at 1. rewrite check_tidy. symmetry. unfold bind at 1. rewrite check_tidy. cbn [set_ca s_ca].
  assert (T : tidy (tidy (s_ca s)) = tidy (s_ca s)) by (unfold tidy at 1; now rewrite tidy_clean). rewrite T. reflexivity.
Qed.
End Fetch.

Section Phase.
Context (g : geom) (gok : geom_ok g) (ws ae : bool) (aw : nat) (np2 : 2 <= NP g).
Context {K : Type} (KO : keyops K) (legal : K -> Prop) (KC : key_codec KO legal) (B : lim).
Notation mlay := (mlay g ws ae aw KO legal).
Notation mgood := (mgood g ws aw KO legal B).
Notation mw := (mw g ws ae aw KO legal B).
Notation smw := (smw g ws ae aw KO legal B).
Notation mok := (mok g ws aw KO legal B).
Notation ents := (ents g).
Notation newest := (newest KO).
Notation value := (value KO).
Notation st := (st K).

Lemma loc_hit Y pg f0 L (s : st) k a : mw Y pg f0 L s -> mok Y -> legal k -> c_dirty (s_ca s) = false -> kp_get (k_eqb KO) (c_kp (s_ca s)) k = Some a ->
  exists d buf, newest k (ents Y) = Some (a, d) /\ a <> 0 /\ read_new g a (Some (dend g (pindex g a))) s = (Ok (Some (ihdr d)), s) /\
    read_item g (ihdr d) a (Some (dend g (pindex g a))) s = (Ok (MPresent (ihdr d)), set_buf s buf) /\
    fetch_loc KO g k s = (Ok (Some (ihdr d, a, None)), set_buf s buf).
Proof.
  intros MW OK LK D EK. destruct (kcoh_get KO legal KC _ _ _ _ (proj1 (proj2 (proj2 MW))) LK EK) as (d & N).
  destruct (read_newest g gok ws ae aw KO legal B Y pg f0 L s k a d MW OK N) as (A & _ & _ & R). destruct (R _ (or_introl eq_refl)) as (R1 & buf & LB & FN & LD & R2).
  exists d, buf. split; auto. split; auto. split; auto. split; auto. unfold fetch_loc. unfold bind at 1. rewrite check_tidy. replace (tidy (s_ca s)) with (s_ca s) by (unfold tidy; now rewrite D).
  replace (set_ca s (s_ca s)) with s by now destruct s. unfold bind at 1. unfold fetch_cached, c_key_loc. unfold bind at 1. rewrite EK. cbv zeta.
  unfold bind at 1. rewrite R1. unfold bind at 1. rewrite R2. reflexivity.
Qed.
Lemma start_mw cl Y (s : st) b : mlay cl Y s -> B <= length b -> exists pg, smw Y pg (set_buf (power s None) b) /\
  mw Y pg (s_fl (power s None)) [] (set_ca (set_buf (power s None) b) (tidy (s_ca s))).
Proof.
  intros (pg & LY & SW & KW & KD & CL) LB. exists pg.
  assert (SWP : sworld g ws ae aw pg (power s None)). { destruct SW as ((A1 & B1 & C1 & D1 & E1) & F1). split; [|exact F1]. split; [exact A1|]. split; [exact B1|]. split; [exact C1|]. split; [exact D1|auto]. }
  assert (SM : smw Y pg (set_buf (power s None) b)). { split; [exact LY|]. split; [exact SWP|]. split; [exact KW|]. split; [exact KD|exact LB]. }
  split; auto.
  assert (H : wp c_check_dirty (fun _ s' => mw Y pg (s_fl (power s None)) [] s') (fun _ _ => False) (set_buf (power s None) b)).
  { eapply (wp_check_smw g ws ae aw KO legal B Y pg); eauto. }
  unfold wp in H. rewrite check_tidy in H. exact H.
Qed.
Lemma fetch_step cl Y (s : st) b k a' s' : mlay cl Y s -> mgood Y -> y_bad Y = 0 -> legal k -> B <= length b -> value k (content Y) <> None ->
  m_exec KO g (MFetch b k) (power s None) = (a', s') ->
  a' = RVal (Ok (value k (content Y))) /\ mlay true Y s' /\ f_mem (s_fl s') = f_mem (s_fl s) /\ c_dirty (s_ca s') = false /\
  match kp_get (k_eqb KO) (c_kp (tidy (s_ca s))) k with
  | Some _ => c_kp (s_ca s') = c_kp (tidy (s_ca s))
  | None => exists a, a <> 0 /\ kp_notice (k_eqb KO) (c_kp (tidy (s_ca s))) k a = Some (c_kp (s_ca s'))
  end.
Proof.
  intros ML MG YB LK LB VN E. destruct (start_mw cl Y s b ML LB) as (pg & SM & MW). cbn [m_exec] in E. unfold mans1 in E.
  pose proof (wp_m_fetch g gok ws ae aw np2 KO legal KC B Y pg b k (power s None) LK SM MG) as H. unfold wp in H.
  destruct (m_fetch KO g b k (power s None)) as [[x|e] s1] eqn:EF; cbn [fst snd] in E; injection E as <- <-.
  2:{ destruct H as (_ & X & _). lia. }
  destruct H as (-> & Y' & L' & H & [[-> ->]|[X _]]); [|lia]. apply mend_mlay in H. destruct H as (ML' & _ & RUN). cbn [run] in RUN. injection RUN as RUN.
  split; auto. split; auto. split; [rewrite <- RUN; reflexivity|].
  pose proof MG as (MI & MO & _).
  pose proof (wp_fetch_loc g gok ws ae aw KO legal KC B Y pg (s_fl (power s None)) [] k (set_buf (power s None) b) (fun r s2 => fres g KO k Y r s2) (fun _ _ => False)
    (or_intror (conj SM (conj eq_refl eq_refl))) MO MI LK (fun s2 r _ _ _ F => F) (fun s2 X _ _ _ => ltac:(lia))) as H. unfold wp in H.
  rewrite loc_tidy in H. change (s_ca (set_buf (power s None) b)) with (s_ca s) in H. set (st0 := set_ca (set_buf (power s None) b) (tidy (s_ca s))) in *.
  destruct (fetch_loc KO g k st0) as [[r|e] s2] eqn:EL; [|contradiction].
  assert (ES : s1 = s2). { replace s1 with (snd (m_fetch KO g b k (power s None))) by now rewrite EF. eapply fetch_state; [reflexivity|]. rewrite loc_tidy. exact EL. } subst s2.
  destruct (kp_get (k_eqb KO) (c_kp (tidy (s_ca s))) k) as [a|] eqn:EK.
  - destruct (loc_hit Y pg _ _ st0 k a MW MO LK (tidy_clean _) EK) as (d & buf & _ & _ & _ & _ & X). rewrite X in EL. injection EL as <- <-. split; [apply tidy_clean|reflexivity].
  - unfold fres in H. unfold MLogP.value in VN. rewrite <- (ents_data g), <- newest_lastd in VN. destruct (newest k (ents Y)) as [[a d]|] eqn:EN; [|now destruct VN].
    destruct H as (okl & -> & _). destruct (miss_notes KO g k st0 _ _ _ _ (tidy_clean _) EK EL) as [P1 P2]. split; auto. exists a. split; auto.
    destruct (read_newest g gok ws ae aw KO legal B Y pg _ _ st0 k a d MW MO EN) as (A & _). exact A.
Qed.
(** What a fetch of a key in the cache reads. *)
Lemma fetch_cost cl Y (s s2 : st) b k a : mlay cl Y s -> mgood Y -> legal k -> B <= length b -> rel s s2 ->
  kp_get (k_eqb KO) (c_kp (tidy (s_ca s))) k = Some a -> c_dirty (s_ca s) = false ->
  exists len, num (f_mem (s_fl s)) (a + 4) 2 = N.of_nat len /\
    f_bad (s_fl (snd (m_exec (R := counted) KO g (MFetch b k) (power s2 None)))) =
    ((if words g len =? 0 then [] else [(a + words g 8, words g len)]) ++ [(a, words g 8)]) ++ f_bad (s_fl s2).
Proof.
  intros ML MG LK LB (IM & lg & ->) EK D. destruct (start_mw cl Y s b ML LB) as (pg & SM & MW). pose proof MG as (MI & MO & _).
  set (st0 := set_ca (set_buf (power s None) b) (tidy (s_ca s))) in *.
  destruct (loc_hit Y pg _ _ st0 k a MW MO LK (tidy_clean _) EK) as (d & buf & _ & _ & R1 & R2 & _).
  set (s2 := set_fl s (with_log (s_fl s) lg)) in *. set (t0 := set_buf (power s2 None) b).
  destruct (cost_hdr g st0 _ t0 a _ _ eq_refl R1) as [HD C1].
  destruct (cost_data g gok st0 _ (set_fl t0 (refuse (s_fl t0) a (HL g))) _ a _ eq_refl eq_refl R2) as [b2 C2].
  exists (h_len (ihdr d)). split.
  { rewrite num_eq, (f_len g gok), HD. cbn [hdr_of h_len]. rewrite N2Nat.id. reflexivity. }
  rewrite !(words_eq g gok). change (rup g 8) with (HL g). cbn [m_exec]. unfold mans1. cbn [snd].
  erewrite (fetch_state KO g (R := counted) (fun _ _ => eq_refl)).
  2:{ unfold fetch_loc. unfold bind at 1. rewrite check_tidy. assert (T : set_ca (set_buf (power s2 None) b) (tidy (s_ca (set_buf (power s2 None) b))) = t0).
      { change (s_ca (set_buf (power s2 None) b)) with (s_ca s). unfold tidy. rewrite D. unfold t0, s2. now destruct s. }
      rewrite T. unfold bind at 1. unfold fetch_cached, c_key_loc. unfold bind at 1. change (s_ca t0) with (s_ca s). unfold tidy in EK. rewrite D in EK. rewrite EK. cbv zeta.
      unfold bind at 1. rewrite C1. unfold bind at 1. rewrite C2. cbn [ret]. reflexivity. }
  cbn [set_buf s_fl]. destruct (rup g (h_len (ihdr d)) =? 0); reflexivity.
Qed.

(** Fetches of keys of a working set, one after the other; [I] are the entries noted so far. *)
Lemma phase Y b W : mgood Y -> y_bad Y = 0 -> B <= length b -> Forall legal W -> (forall k, In k W -> value k (content Y) <> None) ->
  forall ks cl (s s2 : st) l I rest, mlay cl Y s -> rel s s2 -> c_kp (tidy (s_ca s)) = KPArray l -> length W <= length l -> incl ks W ->
  kp_is legal l (I ++ rest) -> incl (map fst I) W ->
  map fst (fst (fetches KO g b ks s2)) = map (fun k => RVal (Ok (value k (content Y)))) ks /\
  exists misses, length misses + length I <= length W /\
    forall i a rs, nth_error (fst (fetches KO g b ks s2)) i = Some (a, rs) -> In i misses \/ one_item g (f_mem (s_fl s)) rs.
Proof.
  intros MG YB LB LW PW. induction ks as [|k ks IH]; intros cl s s2 l I rest ML RL EK LL IN KI IW.
  - split; [reflexivity|]. exists []. split.
    + destruct KI as (m & _ & ND & _). rewrite map_app in ND. apply nodup_l in ND. pose proof (NoDup_incl_length ND IW) as X. rewrite map_length in X. exact X.
    + intros i a rs X. destruct i; discriminate.
  - assert (KW : In k W) by (apply IN; now left). assert (LK : legal k) by (rewrite Forall_forall in LW; now apply LW).
    cbn [fetches]. pose proof (fetch_step cl Y s b k) as FS.
    pose proof (m_exec_sim g gok (fun _ => bytes) (exact_harmless g) KO (MFetch b k) _ _ (rel_power s s2 None RL)) as [E1 R1]. fold counted in E1, R1.
    destruct (m_exec KO g (MFetch b k) (power s None)) as [a' s'] eqn:ES. specialize (FS a' s' ML MG YB LK LB (PW k KW) eq_refl). destruct FS as (-> & ML' & EM & DC & KP).
    pose proof (fetch_cost cl Y s s2 b k) as FC.
    destruct (m_exec (R := counted) KO g (MFetch b k) (power s2 None)) as [a2 s2'] eqn:ES2. cbn [fst snd] in E1, R1, FC. subst a2.
    assert (T : tidy (s_ca s') = s_ca s') by (unfold tidy; now rewrite DC).
    rewrite EK in KP. rewrite (kp_get_is (k_eqb KO) legal (kc_eqb KO legal KC) l _ k KI LK) in KP. destruct (recall (k_eqb KO) k (I ++ rest)) as [a|] eqn:ER.
    + destruct (IH true s' s2' l I rest ML' R1 ltac:(now rewrite T) LL (fun x H => IN x (or_intror H)) KI IW) as (A1 & mi & A2 & A3).
      destruct (fetches KO g b ks s2') as [l2 s3]. cbn [fst map] in *. split; [now rewrite A1|]. exists (map S mi). split; [now rewrite map_length|].
      intros [|i] x rs H; cbn [nth_error] in H.
      * injection H as <- <-. right.
        assert (D : c_dirty (s_ca s) = false).
        { destruct (c_dirty (s_ca s)) eqn:D; auto. exfalso. unfold tidy in EK. rewrite D in EK. cbn [cache_inval c_kp] in EK. destruct (c_kp (s_ca s)) as [|l0]; cbn [kp_inval] in EK; [discriminate|].
          injection EK as <-. rewrite <- (kp_get_is (k_eqb KO) legal (kc_eqb KO legal KC) _ _ k KI LK), emptied in ER. discriminate. }
        destruct (FC a ML MG LK LB RL) as (len & NL & EB); auto. { rewrite EK, (kp_get_is (k_eqb KO) legal (kc_eqb KO legal KC) l _ k KI LK). exact ER. }
        exists a, len. split; auto. unfold reads_between. rewrite EB, app_length, Nat.add_sub. apply firstn_mid.
      * destruct (A3 i x rs H) as [X|X]; [left; now apply in_map|right; now rewrite <- EM].
    + destruct KP as (a & AZ & KP). destruct (recall_none _ _ _ ER) as [FG FF].
      assert (NE : l <> []). { intros ->. destruct W; [destruct KW|cbn in LL; lia]. }
      destruct (kp_notice_is (k_eqb KO) legal (kc_eqb KO legal KC) l _ k a KI LK AZ NE) as (l' & N1 & N2 & N3). rewrite KP in N1. injection N1 as N1. rewrite FG in N3.
      assert (KN : ~ In k (map fst I)).
      { intros X. apply in_map_iff in X. destruct X as (e & X1 & X2). rewrite Forall_forall in FF. specialize (FF e (in_or_app _ _ _ (or_introl X2))).
        rewrite (proj2 (kc_eqb KO legal KC k (fst e) LK ltac:(now rewrite X1)) (eq_sym X1)) in FF. discriminate. }
      assert (ND : NoDup (map fst ((k, a) :: I))). { cbn [map fst]. constructor; auto. destruct KI as (m & _ & ND & _). rewrite map_app in ND. now apply nodup_l in ND. }
      assert (IW' : incl (map fst ((k, a) :: I)) W). { intros x [<-|X]; auto. }
      pose proof (NoDup_incl_length ND IW') as LI. rewrite map_length in LI.
      change ((k, a) :: I ++ rest) with (((k, a) :: I) ++ rest) in N3. rewrite firstn_app, firstn_all2 in N3 by lia.
      destruct (IH true s' s2' l' ((k, a) :: I) (firstn (length l - length ((k, a) :: I)) rest) ML' R1) as (A1 & mi & A2 & A3); auto; try lia.
      { now rewrite T. }
      { intros x H. apply IN. now right. }
      destruct (fetches KO g b ks s2') as [l2 s3]. cbn [fst map] in *. split; [now rewrite A1|]. exists (0 :: map S mi). split; [cbn [length] in *; rewrite map_length; lia|].
      intros [|i] x rs H; cbn [nth_error] in H; [left; now left|]. destruct (A3 i x rs H) as [X|X]; [left; right; now apply in_map|right; now rewrite <- EM].
Qed.
End Phase.

(** * After a completed store the key is in the cache *)
Section Stored.
Context {K : Type} (KO : keyops K) (g : geom).
Definition keepk {A} (c : M K A) : Prop := forall s, c_kp (s_ca (snd (c s))) = c_kp (s_ca s).
Lemma keepk_bind {A B} (c : M K A) (f : A -> M K B) : keepk c -> (forall a, keepk (f a)) -> keepk (bind c f).
Proof. intros H1 H2 s. unfold bind. specialize (H1 s). destruct (c s) as [[a|e] s1]; cbn [snd] in *; [|exact H1]. now rewrite H2. Qed.
Lemma keepk_write a bs : keepk (fl_write g a bs).
Proof. intros s. unfold fl_write. destruct (dev_write g (s_fl s) a bs) as [[e|] f]; reflexivity. Qed.
Lemma keepk_if {A} (b : bool) (c1 c2 : M K A) : keepk c1 -> keepk c2 -> keepk (if b then c1 else c2).
Proof. now destruct b. Qed.
Lemma keepk_write_new a d : keepk (write_new g a d).
Proof.
  unfold write_new, write_raw, hdr_write. apply keepk_bind; [intros s; reflexivity|]. intros _. apply keepk_bind; [apply keepk_write|]. intros _. cbv zeta.
  apply keepk_if; [intros s; reflexivity|]. apply keepk_bind; [apply keepk_if; [intros s; reflexivity|apply keepk_write]|]. intros _.
  apply keepk_if; [intros s; reflexivity|]. apply keepk_if; [intros s; reflexivity|apply keepk_write].
Qed.
Lemma find_bound (keqb : K -> K -> bool) k : forall l i j a, kp_find keqb l k i = Some (j, a) -> i <= j < i + length l.
Proof.
  induction l as [|[[k' a']|] l IH]; intros i j a H; cbn [kp_find length] in *; [discriminate| |].
  - destruct (keqb k k'); [injection H as <- <-; lia|]. apply IH in H. lia.
  - apply IH in H. lia.
Qed.
Lemma set_nth {A} (y : A) : forall l i, i < length l -> nth_error (list_set l i y) i = Some y.
Proof. induction l as [|x l IH]; intros [|i] H; cbn in *; try lia; auto. apply IH. lia. Qed.
Lemma noted (keqb : K -> K -> bool) l k a c : kp_notice keqb (KPArray l) k a = Some c -> keqb k k = true -> kp_get keqb c k = Some a.
Proof.
  intros H E. unfold kp_notice in H. destruct (a =? 0); [discriminate|].
  assert (FR : forall i, i < length l -> kp_get keqb (KPArray (move_to_front (list_set l i (Some (k, a))) i)) k = Some a).
  { intros i Hi. unfold move_to_front. rewrite set_nth by auto. cbn [kp_get kp_find]. now rewrite E. }
  destruct (kp_find keqb l k 0) as [[i x]|] eqn:EF.
  - injection H as <-. apply find_bound in EF. apply FR. lia.
  - destruct (length l =? 0) eqn:EL; [discriminate|]. injection H as <-. apply FR. lia.
Qed.
Lemma store_loop_notes k v : forall r s s', store_loop KO g r k v s = (Ok tt, s') ->
  exists kp a, kp_notice (k_eqb KO) kp k a = Some (c_kp (s_ca s')) /\ c_dirty (s_ca s') = false.
Proof.
  induction r as [|r IH]; intros s s' E; cbn [store_loop] in E; [discriminate|]. unfold bind at 1 in E. destruct (find_first g 0 PartialOpen s) as [[lp|e] s1]; [|discriminate].
  unfold bind at 1 in E. match type of E with match ?c s1 with _ => _ end = _ => destruct (c s1) as [[nxt|e] s2] eqn:EN end; [|discriminate].
  destruct nxt as [[np|]|].
  - unfold bind at 1 in E. destruct (page_state_c g np s2) as [[x|e] s3]; [|discriminate]. destruct (negb (pstate_eqb x Open)); [discriminate|]. unfold bind at 1 in E.
    destruct (partial_close g np s3) as [[y|e] s4]; [|discriminate]. cbv zeta in E. unfold bind at 1 in E. destruct (page_state_c g (next_page g np) s4) as [[z|e] s5]; [|discriminate].
    unfold bind at 1 in E. match type of E with match ?c s5 with _ => _ end = _ => destruct (c s5) as [[w|e] s6] end; [|discriminate]. exact (IH _ _ E).
  - unfold bind at 1 in E. destruct (find_first g 0 Open s2) as [[[p|]|e] s3]; [|discriminate|discriminate]. unfold bind at 1 in E. destruct (partial_close g p s3) as [[y|e] s4]; [|discriminate]. exact (IH _ _ E).
  - cbn [ret] in E. injection E as <-. destruct lp as [p|]; [|discriminate]. unfold bind at 1 in EN. destruct (page_state_c g (next_page g p) s1) as [[x|e] s3]; [|discriminate].
    destruct (negb (pstate_eqb x Open)); [discriminate|]. unfold bind at 1 in EN. destruct (ser_item KO k v s3) as [[n|e] s4]; [|discriminate]. destruct (too_big g n); [discriminate|].
    unfold bind at 1 in EN. destruct (find_free g (dstart g p) (dend g p) n s4) as [[[a|]|e] s5]; [| |discriminate].
    + unfold bind at 1 in EN. unfold c_notice_key in EN. cbv zeta in EN. destruct (kp_notice (k_eqb KO) (c_kp (s_ca s5)) k a) as [kp|] eqn:EK; [|discriminate].
      exists (c_kp (s_ca s5)), a. rewrite EK. unfold bind at 1 in EN. cbn [get_buf] in EN. unfold bind at 1 in EN.
      match type of EN with context [write_new g a ?d ?x] => pose proof (keepk_write_new a d x) as KW; destruct (write_new g a d x) as [[w|e] s7] end; [|discriminate].
      cbn [snd s_ca set_ca c_kp] in KW. cbv [bind c_unmark ret] in EN. injection EN as <-. cbn [s_ca set_ca set_dirty c_kp c_dirty]. rewrite KW. auto.
    + unfold bind at 1 in EN. destruct (close_page g p s5) as [[w|e] s6]; discriminate.
Qed.
Lemma store_notes b k v s s' : m_store KO g b k v s = (Ok tt, s') ->
  exists kp a, kp_notice (k_eqb KO) kp k a = Some (c_kp (s_ca s')) /\ c_dirty (s_ca s') = false.
Proof.
  intros E. assert (SI : exists s1, store_inner KO g k v s1 = (Ok tt, s')).
  { unfold m_store in E. unfold bind at 1 in E. cbn [put_buf] in E. unfold auto_repair in E. unfold bind at 1 in E. unfold attempt in E. cbn [on_result steady] in E. unfold hand_on in E.
    destruct (store_inner KO g k v (set_buf s b)) as [[[]|e] s1] eqn:ES.
    - cbn [ret] in E. injection E as <-. eauto.
    - destruct e; try discriminate. unfold bind at 1 in E. destruct (m_repair KO g s1) as [[[]|e] s2]; [|discriminate]. eauto. }
  destruct SI as (s1 & SI). unfold store_inner in SI. unfold bind at 1 in SI. rewrite check_tidy in SI. exact (store_loop_notes _ _ _ _ _ SI).
Qed.
End Stored.

Section Costs.
Context {K : Type} (KO : keyops K) (legal : K -> Prop).
Lemma m_costs pf g n evs l s m b ks W en : m_reached KO legal pf g n evs l s -> m_holds KO legal g n s m -> f_ae (s_fl s) = true \/ whole (mode_after calm0 evs l) = true -> n <= length b ->
  c_kp (s_ca s) = KPArray en -> Forall legal W -> (forall k, In k W -> m k <> None) -> length W <= length en -> incl ks W ->
  map fst (fst (fetches KO g b ks s)) = map (fun k => RVal (Ok (m k))) ks /\
  exists misses, length misses <= length W /\
    forall i a rs, nth_error (fst (fetches KO g b ks s)) i = Some (a, rs) -> In i misses \/ one_item g (f_mem (s_fl s)) rs.
Proof.
  intros R H WH LB EN LW PW LL IN. destruct (reached_reach _ _ _ _ _ _ _ _ R) as (m0 & log & ae & aw & RC). destruct RC as [KC ST AE MS TR _]. pose proof ST as (gok & np2 & _).
  pose proof (holds_unique KO legal g n s m m0 H (mst_holds KO legal KC g gok _ _ _ np2 _ _ _ _ _ MS)) as EM. rewrite AE in WH.
  destruct MS as (Y & ML & MG & _ & WB & VE).
  assert (YB : y_bad Y = 0). { destruct WH as [X|X]; [eapply mlay_whole; eauto|auto]. }
  assert (VW : forall k, In k W -> m k = value KO k (content Y)). { intros k X. rewrite Forall_forall in LW. rewrite EM by auto. apply VE. auto. }
  assert (IM : is_mem (f_mem (s_fl s))). { destruct ML as (pg & _ & ((A1 & _) & _) & _). exact A1. }
  assert (KT : exists l0 es, c_kp (tidy (s_ca s)) = KPArray l0 /\ length l0 = length en /\ kp_is legal l0 es).
  { unfold tidy. destruct (c_dirty (s_ca s)) eqn:D.
    - exists (map (fun _ => None) en), []. cbn [cache_inval c_kp]. rewrite EN. split; [reflexivity|]. split; [apply map_length|]. exists (length en). split; [|split; constructor]. unfold entries. cbn [map app]. clear. induction en; cbn; auto. now f_equal.
    - destruct ML as (pg & _ & _ & _ & [X|X] & _); [congruence|]. rewrite EN in X. destruct X as (_ & es & X & _). exists en, es. auto. }
  destruct KT as (l0 & es & K1 & K2 & K3).
  destruct (phase g gok (negb pf) ae aw np2 KO legal KC (Bl KO n log) Y b W MG YB LB LW ltac:(intros k X; rewrite <- VW by auto; auto) ks _ s s l0 [] es ML (rel_start s IM) K1 ltac:(lia) IN K3 ltac:(intros ? [])) as (A1 & mi & A2 & A3).
  split.
  - rewrite A1. apply map_ext_in. intros k X. now rewrite VW by auto.
  - exists mi. split; [cbn in A2; lia|exact A3].
Qed.
Lemma m_store_cost pf g n evs l s m b k v p b2 en : m_reached KO legal pf g n (evs ++ [MCall (MStore b k v) p]) (l ++ [RUnit (Ok tt)]) s -> m_holds KO legal g n s m -> n <= length b2 ->
  c_kp (s_ca s) = KPArray en -> legal k -> exists rs, fst (fetches KO g b2 [k] s) = [(RVal (Ok (m k)), rs)] /\ one_item g (f_mem (s_fl s)) rs.
Proof.
  intros R H LB EN LK. destruct (reached_reach _ _ _ _ _ _ _ _ R) as (m0 & log & ae & aw & RC). destruct RC as [KC ST AE MS TR _]. pose proof ST as (gok & np2 & _).
  destruct R as (_ & f & c & _ & _ & _ & _ & _ & _ & _ & E). rewrite m_run_snoc in E. destruct (m_run KO g (st_new f c) evs) as [l1 s1].
  destruct MS as (Y & ML & MG & _ & WB & VE).
  assert (IM : is_mem (f_mem (s_fl s))). { destruct ML as (pg & _ & ((A1 & _) & _) & _). exact A1. }
  assert (SN : exists s0, m_store KO g b k v s0 = (Ok tt, s)).
  { exists (power s1 p). cbn [m_exec] in E. unfold mans1 in E. destruct (m_store KO g b k v (power s1 p)) as [r s2]. cbn [fst snd] in E. injection E as E1 <-. apply app_inj_tail in E1. destruct E1 as [_ E1]. injection E1 as ->. reflexivity. }
  destruct SN as (s0 & SN). destruct (store_notes KO g b k v s0 s SN) as (kp & a & NT & D). rewrite EN in NT.
  assert (EK : kp_get (k_eqb KO) (c_kp (tidy (s_ca s))) k = Some a).
  { unfold tidy. rewrite D, EN. destruct kp as [|l0]; [discriminate|]. eapply noted; [exact NT|]. now apply (kc_eqb KO legal KC). }
  destruct (fetch_cost g gok (negb pf) ae aw KO legal KC (Bl KO n log) _ Y s s b2 k a ML MG LK LB (rel_start s IM) EK D) as (len & NL & EB).
  destruct (H k b2 LK LB) as (s' & ES). unfold MObs.m_does in ES.
  pose proof (m_exec_sim g gok (fun _ => bytes) (exact_harmless g) KO (MFetch b2 k) _ _ (rel_power s s None (rel_start s IM))) as [E1 _]. fold counted in E1. rewrite ES in E1.
  cbn [fetches]. destruct (m_exec (R := counted) KO g (MFetch b2 k) (power s None)) as [a2 s2]. cbn [fst snd] in *. subst a2.
  eexists. split; [reflexivity|]. exists a, len. split; auto. unfold reads_between. rewrite EB, app_length, Nat.add_sub. apply firstn_mid.
Qed.
End Costs.
