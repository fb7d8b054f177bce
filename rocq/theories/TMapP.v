(** Stores of typed values are stores of their bytes. *)
From Coq Require Import List NArith ZArith Arith Bool Lia ZifyBool ZifyNat ZifyN.
From Verif Require Import Base BaseP Crc Flash Cache State Item Generic Map Codec CodecP Client MClient TMap.
Import ListNotations.
Local Opaque crc16 acrc crc32.

Section TMapP.
Context {K : Type} (KO : keyops K) (g : geom).
Implicit Types s : st K.

(** Computations that keep the length of the buffer. *)
Definition blk {A} (c : M K A) : Prop := forall s, length (s_buf (snd (c s))) = length (s_buf s).
Lemma blk_ret {A} (a : A) : blk (ret a). Proof. intros s. auto. Qed.
Lemma blk_fail {A} e : blk (A := A) (fail e). Proof. intros s. auto. Qed.
Lemma blk_bind {A B} (c : M K A) (f : A -> M K B) : blk c -> (forall a, blk (f a)) -> blk (bind c f).
Proof. intros H F s. unfold bind. specialize (H s). destruct (c s) as [[a|e] s1]; cbn [snd] in *; [rewrite F|]; auto. Qed.
Lemma blk_attempt {A} (c : M K A) : blk c -> blk (attempt c).
Proof. intros H s. unfold attempt, on_result, steady, hand_on. specialize (H s). destruct (c s); auto. Qed.
Lemma blk_write a bs : blk (fl_write g a bs).
Proof. intros s. unfold fl_write. destruct (dev_write _ _ _ _) as [[]]; auto. Qed.
Lemma blk_erase a b : blk (fl_erase g a b).
Proof. intros s. unfold fl_erase. destruct (dev_erase _ _ _ _) as [[]]; auto. Qed.
Lemma blk_read a n : blk (fl_read g a n).
Proof. intros s. unfold fl_read, on_read, steady. destruct (dev_read _ _ _ _); auto. Qed.
Lemma blk_getps p : blk (c_get_ps p).
Proof. intros s. unfold c_get_ps. destruct (ps_get _ _); auto. Qed.
Lemma blk_notice p x b : blk (c_notice_ps p x b).
Proof. intros s. unfold c_notice_ps. destruct (ps_notice _ _ _); auto. Qed.
Lemma blk_get {A} (f : st K -> A) : blk (fun s => (Ok (f s), s)). Proof. intros s. auto. Qed.
Lemma blk_ca {A} (f : st K -> cache K) (a : A) : blk (fun s => (Ok a, set_ca s (f s))). Proof. intros s. auto. Qed.
Lemma blk_lift {A} (r : A + sererr) : blk (ser_lift (K := K) r). Proof. destruct r; [apply blk_ret|apply blk_fail]. Qed.
Ltac bl1 := first [apply blk_ret|apply blk_fail|apply blk_write|apply blk_erase|apply blk_read|apply blk_getps|apply blk_notice|apply blk_lift|apply blk_get|apply blk_ca|assumption].
Ltac bl := repeat first [bl1|apply blk_bind; [|intros]|apply blk_attempt|match goal with |- blk (match ?x with _ => _ end) => destruct x | |- blk (if ?x then _ else _) => destruct x end].
Lemma blk_read_hdr n : forall a, blk (read_hdr g n a). Proof. induction n; intros a; cbn [read_hdr]; bl; apply IHn. Qed.
Lemma blk_read_new a e : blk (read_new g a e). Proof. unfold read_new. destruct (beyond _ _); bl. Qed.
Lemma blk_read_data n h c da rl : forall s, rl <= length (s_buf s) -> length (s_buf (snd (read_data g n h c da rl s))) = length (s_buf s).
Proof.
  induction n as [|n IH]; intros s L; cbn [read_data]; unfold bind, ret, get_buf, put_buf, fl_read, on_read, steady.
  all: destruct (rl =? 0); [destruct (acrc _ =? c)%N; cbn [snd]; auto|].
  all: destruct (dev_read g (s_fl s) da rl) as [d|e] eqn:E; cbn [snd]; auto.
  all: assert (LD : length d = rl) by (unfold dev_read in E; destruct (chk _ _ _ _); try discriminate; injection E as <-; unfold rd; now rewrite map_length, seq_length).
  all: assert (LB : length (put_front d (s_buf s)) = length (s_buf s)) by (unfold put_front; rewrite app_length, skipn_length; lia).
  all: destruct (acrc _ =? c)%N; cbn [snd set_buf s_buf]; auto. rewrite IH; cbn [set_buf s_buf]; lia.
Qed.
Lemma blk_read_item h a e : blk (read_item g h a e).
Proof.
  intros s. unfold read_item. destruct (h_crc h) as [c|]; [|reflexivity]. cbv zeta. destruct (beyond _ _); [reflexivity|]. unfold bind at 1, get_buf.
  destruct (Nat.ltb_spec (length (s_buf s)) (rup g (h_len h))); [reflexivity|]. now apply blk_read_data.
Qed.
Lemma blk_trav n skip : forall a e, blk (traverse g n skip a e).
Proof.
  induction n; intros a e; cbn [traverse]; [apply blk_fail|]. apply blk_bind; [apply blk_attempt, blk_read_new|]. intros [[h|]|[]]; bl; apply IHn.
Qed.
Lemma blk_item_next n : forall a e, blk (item_next g n a e).
Proof.
  induction n; intros a e; cbn [item_next]; [apply blk_fail|]. apply blk_bind; [apply blk_trav|]. intros [[[h|] x] nx]; [|apply blk_ret].
  apply blk_bind; [apply blk_read_item|]. intros []; try apply IHn. apply blk_ret.
Qed.
Lemma blk_psc p : blk (page_state_c g p). Proof. unfold page_state_c, page_state. bl. Qed.
Lemma blk_find_in l x : blk (find_first_in g l x). Proof. induction l; cbn [find_first_in]; bl; try apply blk_psc. Qed.
Lemma blk_find i x : blk (find_first g i x). Proof. apply blk_find_in. Qed.
Lemma blk_check : blk (@c_check_dirty K).
Proof. intros s. unfold c_check_dirty, bind, c_is_dirty, c_unmark, c_inval, ret. repeat match goal with |- context [if ?x then _ else _] => destruct x end; reflexivity. Qed.
Lemma blk_unmark : blk (@c_unmark K). Proof. intros s. reflexivity. Qed.
Lemma blk_inval : blk (@c_inval K). Proof. intros s. reflexivity. Qed.
Lemma blk_notice_key k a d : blk (c_notice_key (k_eqb KO) k a d).
Proof. intros s. unfold c_notice_key. destruct (kp_notice _ _ _ _); reflexivity. Qed.
Lemma blk_key_loc k : blk (c_key_loc (k_eqb KO) k). Proof. intros s. reflexivity. Qed.
Lemma blk_getbuf : blk (@get_buf K). Proof. intros s. reflexivity. Qed.
Ltac bs := repeat first [bl1|apply blk_unmark|apply blk_inval|apply blk_notice_key|apply blk_key_loc|apply blk_getbuf|apply blk_check|apply blk_psc|apply blk_find|apply blk_read_new|apply blk_read_item
  |apply blk_trav|apply blk_item_next|apply blk_bind; [|intros]|apply blk_attempt|match goal with |- blk (match ?x with _ => _ end) => destruct x | |- blk (if ?x then _ else _) => destruct x end].
Lemma blk_scan n : forall k a e f, blk (scan_page KO g n k a e f).
Proof. induction n; intros; cbn [scan_page]; [apply blk_fail|]. bs; apply IHn. Qed.
Lemma blk_pages n : forall k p, blk (fetch_pages KO g n k p).
Proof. induction n; intros; cbn [fetch_pages]; [apply blk_fail|]. apply blk_bind; [apply blk_scan|]. intros [[a kl]|]; cbv zeta; bs; apply IHn. Qed.
Lemma blk_fetch_loc k : blk (fetch_loc KO g k).
Proof.
  unfold fetch_loc, fetch_cached, last_used. apply blk_bind; [apply blk_check|intros _]. apply blk_bind; [bs|]. intros [[h a]|]; [apply blk_ret|].
  apply blk_bind; [bs|]. intros [p|]; [|apply blk_ret]. apply blk_bind; [apply blk_pages|]. intros [[a kl]|]; bs.
Qed.
Lemma blk_write_raw h d a : blk (write_raw g h d a).
Proof. unfold write_raw, hdr_write. apply blk_bind; [intros s; reflexivity|intros _]. bs; cbv zeta; bs. Qed.
Lemma blk_open p : blk (open_page g p). Proof. unfold open_page. bs. Qed.
Lemma blk_partial p : blk (partial_close g p). Proof. unfold partial_close. bs. Qed.
Lemma blk_close p : blk (close_page g p). Proof. unfold close_page. apply blk_bind; [apply blk_partial|intros]. bs. Qed.
Lemma blk_mloop n : forall a e w, blk (migrate_loop KO g n a e w).
Proof.
  induction n; intros; cbn [migrate_loop]; [apply blk_fail|]. apply blk_bind; [apply blk_item_next|]. intros [[[h ia]|] nx]; [|apply blk_ret]. cbv zeta.
  apply blk_bind; [apply blk_getbuf|intros]. apply blk_bind; [apply blk_lift|intros]. apply blk_bind; [apply blk_unmark|intros]. apply blk_bind; [apply blk_fetch_loc|]. intros [[[h2 fa] ?]|]; [|apply blk_fail].
  apply blk_bind; [apply blk_getbuf|intros]. destruct (_ <? _); [apply blk_fail|]. destruct (_ =? _); [|apply IHn].
  apply blk_bind; [apply blk_notice_key|intros]. apply blk_bind; [apply blk_write_raw|intros]. apply IHn.
Qed.
Lemma blk_migrate p q : blk (migrate KO g p q). Proof. apply blk_bind; [apply blk_mloop|intros; apply blk_open]. Qed.
Lemma blk_general l : blk (general_repair_in g l).
Proof. induction l; cbn [general_repair_in]; [apply blk_ret|]. apply blk_bind; [apply blk_attempt; unfold page_state; bs|]. intros r. apply blk_bind; [destruct r as [|[]]; bs; apply blk_open|intros; exact IHl]. Qed.
Lemma blk_repair : blk (m_repair KO g).
Proof.
  unfold m_repair. apply blk_bind; [apply blk_inval|intros]. apply blk_bind; [apply blk_general|intros]. apply blk_bind; [apply blk_find|]. intros [p|]; [|apply blk_ret]. cbv zeta.
  apply blk_bind; [apply blk_psc|intros x]. destruct (pstate_eqb _ _); [apply blk_ret|]. apply blk_bind; [apply blk_open|intros]. apply blk_bind; [apply blk_partial|intros]. apply blk_migrate.
Qed.
Lemma blk_free a e n : blk (find_free g a e n). Proof. unfold find_free. apply blk_bind; [apply blk_get|]. intros. apply blk_bind; [|intros]. destruct a0; bs. bs. Qed.

(** Two computations: on buffers of [n] bytes the second does the same as the first, or ends with the error [ev] of a serialization; in that case, if [X], the first
    ends in the same state with the error for a small buffer. *)
Definition rel (n : nat) (Y X : Prop) (ev : sererr) {A} (c c' : M K A) : Prop := forall s, length (s_buf s) = n ->
  c' s = c s \/ (Y /\ exists s', c' s = (Err (ESer ev), s') /\ (X -> c s = (Err (ESer SEBufferTooSmall), s'))).
Lemma rel_refl n Y X ev {A} (c : M K A) : rel n Y X ev c c. Proof. intros s _. now left. Qed.
Lemma rel_bind n Y X ev {A B} (c c' : M K A) (f f' : A -> M K B) : rel n Y X ev c c' -> blk c -> (forall a, rel n Y X ev (f a) (f' a)) -> rel n Y X ev (bind c f) (bind c' f').
Proof.
  intros H BK F s L. unfold bind. destruct (H s L) as [E|(HY & s' & E & EX)].
  - rewrite E. specialize (BK s). destruct (c s) as [[a|e] s1]; [|now left]. apply F. cbn [snd] in BK. lia.
  - right. split; auto. rewrite E. exists s'. split; auto. intros HX. now rewrite (EX HX).
Qed.
Lemma rel_step n Y X ev {A B} (c : M K A) (f f' : A -> M K B) : blk c -> (forall a, rel n Y X ev (f a) (f' a)) -> rel n Y X ev (bind c f) (bind c f').
Proof. intros. apply rel_bind; auto. apply rel_refl. Qed.
Lemma rel_auto n Y X ev {A} (c c' : M K A) rp : rel n Y X ev c c' -> blk c -> blk rp -> rel n Y X ev (auto_repair c rp) (auto_repair c' rp).
Proof.
  intros H BC BR s L. unfold auto_repair, bind, attempt, on_result, steady, hand_on. destruct (H s L) as [E|(HY & s' & E & EX)].
  - rewrite E. specialize (BC s). destruct (c s) as [[a|[]] s1]; try (now left). specialize (BR s1). cbn [snd] in *. destruct (rp s1) as [[[]|e] s2]; [|now left]. apply H. cbn [snd] in *. lia.
  - right. split; auto. rewrite E. exists s'. split; auto. intros HX. now rewrite (EX HX).
Qed.
Lemma rel_store n Y X ev ser ser' : rel n Y X ev ser ser' -> blk ser -> forall r k, rel n Y X ev (store_with KO g ser r k) (store_with KO g ser' r k).
Proof.
  intros H BS r k. induction r as [|r IH]; cbn [store_with]; [apply rel_refl|]. apply rel_step; [apply blk_find|intros lp]. apply rel_bind.
  - destruct lp as [p|]; [|apply rel_refl]. apply rel_step; [apply blk_psc|intros x]. destruct (negb _); [apply rel_refl|]. apply rel_bind; [exact H|exact BS|]. intros; apply rel_refl.
  - destruct lp as [p|]; [|apply blk_ret]. apply blk_bind; [apply blk_psc|intros x]. destruct (negb _); [apply blk_fail|]. apply blk_bind; [exact BS|intros m].
    destruct (too_big g m); [bs|]. apply blk_bind; [apply blk_free|]. intros [a|]; [|apply blk_bind; [apply blk_close|intros; apply blk_ret]].
    apply blk_bind; [apply blk_notice_key|intros]. apply blk_bind; [apply blk_getbuf|intros]. apply blk_bind; [apply blk_write_raw|intros]. bs.
  - intros [[np|]|]; [| |apply rel_refl].
    + apply rel_step; [apply blk_psc|intros x]. destruct (negb _); [apply rel_refl|]. apply rel_step; [apply blk_partial|intros _]. cbv zeta.
      apply rel_step; [apply blk_psc|intros y]. apply rel_step; [destruct (pstate_eqb _ _); [apply blk_ret|apply blk_migrate]|intros _]. exact IH.
    + apply rel_step; [apply blk_find|]. intros [p|]; [|apply rel_refl]. apply rel_step; [apply blk_partial|intros _]. exact IH.
Qed.
Lemma blk_store ser : blk ser -> forall r k, blk (store_with KO g ser r k).
Proof.
  intros BS r k. induction r as [|r IH]; cbn [store_with]; [bs|]. apply blk_bind; [apply blk_find|intros lp]. apply blk_bind.
  - destruct lp as [p|]; [|apply blk_ret]. apply blk_bind; [apply blk_psc|intros x]. destruct (negb _); [apply blk_fail|]. apply blk_bind; [exact BS|intros m].
    destruct (too_big g m); [bs|]. apply blk_bind; [apply blk_free|]. intros [a|]; [|apply blk_bind; [apply blk_close|intros; apply blk_ret]].
    apply blk_bind; [apply blk_notice_key|intros]. apply blk_bind; [apply blk_getbuf|intros]. apply blk_bind; [apply blk_write_raw|intros]. bs.
  - intros [[np|]|]; [| |apply blk_ret].
    + apply blk_bind; [apply blk_psc|intros x]. destruct (negb _); [apply blk_fail|]. apply blk_bind; [apply blk_partial|intros _]. cbv zeta.
      apply blk_bind; [apply blk_psc|intros y]. apply blk_bind; [destruct (pstate_eqb _ _); [apply blk_ret|apply blk_migrate]|intros _]. exact IH.
    + apply blk_bind; [apply blk_find|]. intros [p|]; [|apply blk_fail]. apply blk_bind; [apply blk_partial|intros _]. exact IH.
Qed.

(** The loop of Map.v is the one with the bytes as given. *)
Lemma store_loop_with v r k : forall s, store_loop KO g r k v s = store_with KO g (ser_item KO k v) r k s.
Proof.
  induction r as [|r IH]; intros s; cbn [store_loop store_with]; auto. unfold bind. destruct (find_first g 0 PartialOpen s) as [[lp|e] s1]; auto.
  match goal with |- match ?x with _ => _ end = _ => destruct x as [[[[np|]|]|e] s2]; auto end.
  - destruct (page_state_c g np s2) as [[x|e] s3]; auto. destruct (negb _); auto. destruct (partial_close g np s3) as [[y|e] s4]; auto. cbv zeta.
    destruct (page_state_c g (next_page g np) s4) as [[z|e] s5]; auto. destruct ((if pstate_eqb z Open then ret tt else migrate KO g (next_page g np) np) s5) as [[u|e] s6]; auto.
  - destruct (find_first g 0 Open s2) as [[[p|]|e] s3]; auto. destruct (partial_close g p s3) as [[y|e] s4]; auto.
Qed.
Lemma m_store_with b k v s : m_store KO g b k v s = (put_buf b ;;; auto_repair (c_check_dirty ;;; store_with KO g (ser_item KO k v) (NP g) k) (m_repair KO g))%m s.
Proof.
  unfold m_store, store_inner, bind at 1 3, put_buf. unfold auto_repair, attempt, bind. cbn [on_result steady]. unfold hand_on.
  assert (E : forall t, (match c_check_dirty t with (Ok _, s') => store_loop KO g (NP g) k v s' | (Err e, s') => (Err e, s') end) =
                        (match c_check_dirty t with (Ok _, s') => store_with KO g (ser_item KO k v) (NP g) k s' | (Err e, s') => (Err e, s') end)).
  { intros t. destruct (c_check_dirty t) as [[]]; auto. apply store_loop_with. }
  rewrite E. match goal with |- match match ?x with _ => _ end with _ => _ end = _ => destruct x as [[u|[]] s1]; auto end.
  cbv beta. destruct (m_repair KO g s1) as [[]]; auto.
Qed.
Lemma blk_ser_item k v : (forall n bs, k_ser KO k n = inl bs -> length bs <= n) -> blk (ser_item KO k v).
Proof.
  intros KC s. unfold ser_item, bind, get_buf, put_buf, ser_lift. destruct (k_ser KO k (length (s_buf s))) as [kb|e] eqn:E; [|reflexivity]. apply KC in E. cbn [ret].
  unfold ret at 1. destruct (Nat.ltb_spec (length (s_buf s)) (length kb)); [lia|].
  destruct (Nat.ltb_spec (length (s_buf s) - length kb) (length v)); cbn [snd fail ret set_buf s_buf]; unfold fail, ret; cbn [snd set_buf s_buf].
  - unfold put_front. rewrite app_length, skipn_length. lia.
  - unfold put_front. rewrite !app_length, !skipn_length. lia.
Qed.

(** Serialization of typed values. *)
Lemma ser_fits {T} (V : valops T) k v n kb vb ev : k_ser KO k n = inl kb -> length kb <= n -> v_ser V v (n - length kb) = inl vb -> length vb <= n - length kb ->
  rel n False False ev (ser_item KO k vb) (t_ser KO V k v).
Proof.
  intros EK LK EV LV s L. left. unfold ser_item, t_ser, bind, get_buf, put_buf, ser_lift, ret. rewrite L, EK. cbn [set_buf s_buf].
  destruct (Nat.ltb_spec n (length kb)); [lia|]. rewrite EV. destruct (Nat.ltb_spec (n - length kb) (length vb)); [lia|]. reflexivity.
Qed.
Lemma ser_key {T} (V : valops T) k v n e vb ev : k_ser KO k n = inr e -> rel n False False ev (ser_item KO k vb) (t_ser KO V k v).
Proof. intros EK s L. left. unfold ser_item, t_ser, bind, get_buf, put_buf, ser_lift, ret. rewrite L, EK. reflexivity. Qed.
Lemma ser_refused {T} (V : valops T) k v n kb ev : k_ser KO k n = inl kb -> length kb <= n -> v_ser V v (n - length kb) = inr ev ->
  rel n True True ev (ser_item KO k (repeat 0%N (S n))) (t_ser KO V k v).
Proof.
  intros EK LK EV s L. right. split; auto. unfold ser_item, t_ser, bind, get_buf, put_buf, ser_lift, ret. rewrite L, EK. cbn [set_buf s_buf].
  destruct (Nat.ltb_spec n (length kb)); [lia|]. rewrite EV. rewrite repeat_length. destruct (Nat.ltb_spec (n - length kb) (S n)); [|lia]. eexists. split; [reflexivity|]. auto.
Qed.
Lemma ser_refused0 {T} (V : valops T) k v n kb ev v0 : k_ser KO k n = inl kb -> length kb <= n -> v_ser V v (n - length kb) = inr ev ->
  rel n True False ev (ser_item KO k v0) (t_ser KO V k v).
Proof.
  intros EK LK EV s L. right. split; auto. unfold t_ser, bind, get_buf, put_buf, ser_lift, ret. rewrite L, EK. cbn [set_buf s_buf].
  destruct (Nat.ltb_spec n (length kb)); [lia|]. rewrite EV. eexists. split; [reflexivity|]. intros [].
Qed.
Lemma t_store_rel {T} (V : valops T) b k v vb Y X ev s : (forall n bs, k_ser KO k n = inl bs -> length bs <= n) -> rel (length b) Y X ev (ser_item KO k vb) (t_ser KO V k v) ->
  t_store KO g V b k v s = m_store KO g b k vb s \/
  (Y /\ exists s', t_store KO g V b k v s = (Err (ESer ev), s') /\ (X -> m_store KO g b k vb s = (Err (ESer SEBufferTooSmall), s'))).
Proof.
  intros KC H. rewrite m_store_with. unfold t_store, bind at 1 3 5 7, put_buf. apply (rel_auto (length b)).
  - apply rel_step; [apply blk_check|intros _]. apply rel_store; [exact H|now apply blk_ser_item].
  - apply blk_bind; [apply blk_check|intros _]. apply blk_store. now apply blk_ser_item.
  - apply blk_repair.
  - reflexivity.
Qed.

(** The bytes that take the place of a value. *)
Definition tbytes {T} (V : valops T) (n : nat) (k : K) (v : T) : list N :=
  match k_ser KO k n with
  | inl kb => match v_ser V v (n - length kb) with inl vb => vb | inr _ => repeat 0%N (S n) end
  | inr _ => []
  end.
(** Answers: the same but for the error of the serialization of the value. *)
Definition tans (a a' : mans K) : Prop := a = a' \/ exists e, a = RUnit (Err (ESer e)) /\ a' = RUnit (Err (ESer SEBufferTooSmall)).
Lemma t_store_bytes {T} (V : valops T) (lv : T -> Prop) b k v s : (forall n bs, k_ser KO k n = inl bs -> length bs <= n) -> val_codec V lv -> lv v ->
  exists r r', t_store KO g V b k v s = (r, snd (m_store KO g b k (tbytes V (length b) k v) s)) /\ fst (m_store KO g b k (tbytes V (length b) k v) s) = r' /\ tans (RUnit r) (RUnit r').
Proof.
  intros KC VC LV. unfold tbytes. destruct (k_ser KO k (length b)) as [kb|e] eqn:EK.
  - pose proof (KC _ _ EK) as LK. destruct (v_ser V v (length b - length kb)) as [vb|e] eqn:EV.
    + destruct (t_store_rel V b k v vb _ _ SECustom s KC (ser_fits V k v _ kb vb SECustom EK LK EV (vc_fit _ _ VC _ _ _ LV EV))) as [E|([] & _)]. rewrite E. destruct (m_store _ _ _ _ _ _) as [r s']. exists r, r. split; auto. split; auto. now left.
    + destruct (t_store_rel V b k v _ _ _ e s KC (ser_refused V k v _ kb e EK LK EV)) as [E|(_ & s' & E & EX)].
      * rewrite E. destruct (m_store _ _ _ _ _ _) as [r s']. exists r, r. split; auto. split; auto. now left.
      * rewrite E, (EX I). do 2 eexists. split; [reflexivity|]. split; [reflexivity|]. right. eauto.
  - destruct (t_store_rel V b k v [] _ _ SECustom s KC (ser_key V k v _ e [] SECustom EK)) as [E|([] & _)]. rewrite E. destruct (m_store _ _ _ _ _ _) as [r s']. exists r, r. split; auto. split; auto. now left.
Qed.
End TMapP.
