(** Proofs for Short.v: a call with a buffer that is too small does what the same call with a longer buffer does, up to a read at which it stops. *)
From Coq Require Import List NArith Arith Bool Lia.
From Verif Require Import Base BaseP GeomP Crc Flash Cache State Item Generic Map Codec CodecP Client MClient QSpec MSpec MObs ProgP Reads ReadsP Drops DropP Short.
Import ListNotations.
Local Opaque crc16 acrc crc32.

Section Short.
Context {K : Type} (g : geom) (gok : geom_ok g).
Implicit Types (s : st K).
(** The same state but a longer buffer. *)
Definition ext s1 s2 : Prop := exists pad, s2 = set_buf s1 (s_buf s1 ++ pad).
Lemma ext_refl s : ext s s. Proof. exists []. rewrite app_nil_r. destruct s; reflexivity. Qed.
Lemma ext_fl s1 s2 : ext s1 s2 -> s_fl s2 = s_fl s1. Proof. intros (p & ->). reflexivity. Qed.
Lemma ext_buf s1 s2 : ext s1 s2 -> exists pad, s_buf s2 = s_buf s1 ++ pad. Proof. intros (p & ->). now exists p. Qed.
Definition unfueled s : Prop := f_fuel (s_fl s) = None.
(** [m1] with the short buffer, [m2] with the long one. *)
Definition alike {A} (m1 m2 : M K A) s1 s2 : Prop := fst (m2 s2) = fst (m1 s1) /\ ext (snd (m1 s1)) (snd (m2 s2)).
Definition stops {A} (m1 m2 : M K A) s1 s2 : Prop := exists e, fst (m1 s1) = Err e /\ is_small e = true /\
  exists k, same_fl (s_fl (snd (m1 s1))) (s_fl (snd (m2 (power s2 (Some k))))) /\ spent m2 (power s2 (Some k)).
Definition rel {A} (m1 m2 : M K A) s1 s2 : Prop := alike m1 m2 s1 s2 \/ stops m1 m2 s1 s2.
Definition sh {A} (m1 m2 : M K A) : Prop := forall s1 s2, ext s1 s2 -> unfueled s1 -> rel m1 m2 s1 s2.
Definition ni {A} (m : M K A) : Prop := needs m /\ idle m.

Lemma ni_prog {A} F (m : reader -> M K A) F1 : prog g F m F1 -> ni (m steady).
Proof. intros P. split; [eapply (prog_needs g 0); eauto|eapply (prog_idle g 0); eauto]. Qed.
Lemma ni_bind {A B} (m : M K A) (k : A -> M K B) : ni m -> (forall a, ni (k a)) -> ni (bind m k).
Proof. intros [H1 H2] H3. split; [apply needs_bind|apply idle_bind]; auto; intros a; apply H3. Qed.
Lemma ni_local {A} (m : M K A) : local m -> ni m.
Proof. intros L. apply (ni_prog None (fun _ => m) (fun _ => None)). now apply P_local. Qed.

Lemma rel_stop {A} (m1 m2 : M K A) s1 s2 e s1' : ext s1 s2 -> m1 s1 = (Err e, s1') -> s_fl s1' = s_fl s1 -> is_small e = true -> idle m2 -> rel m1 m2 s1 s2.
Proof.
  intros X E F SM I. right. exists e. rewrite E. cbn [fst snd]. split; auto. split; auto. exists 0. destruct (I (power s2 (Some 0)) eq_refl) as (I1 & I2). split; auto.
  eapply same_trans; [|exact I1]. cbn [power set_fl s_fl]. rewrite F, (ext_fl _ _ X). repeat split.
Qed.
Lemma rel_bind {A B} (m1 m2 : M K A) (k1 k2 : A -> M K B) s1 s2 : unfueled s1 -> ext s1 s2 -> rel m1 m2 s1 s2 -> needs m2 -> (forall a, idle (k2 a)) ->
  (forall a s1' s2', m1 s1 = (Ok a, s1') -> ext s1' s2' -> unfueled s1' -> rel (k1 a) (k2 a) s1' s2') -> rel (bind m1 k1) (bind m2 k2) s1 s2.
Proof.
  intros U X R N I H. assert (U2 : f_fuel (s_fl s2) = None) by (rewrite (ext_fl _ _ X); exact U). destruct (N s2 U2) as (FU & c & NE).
  unfold rel, alike, stops, spent, bind in *. destruct (m1 s1) as [r1 t1] eqn:E1. cbn [fst snd] in *. destruct R as [(R1 & R2)|(e & -> & SM & k & S1 & S2)].
  - destruct (m2 s2) as [r2 t2] eqn:E2. cbn [fst snd] in *. subst r2. destruct r1 as [a|e].
    + assert (U1 : unfueled t1) by (unfold unfueled; rewrite <- (ext_fl _ _ R2); exact FU). destruct (H a t1 t2 eq_refl R2 U1) as [Y|(e & Y1 & Y2 & k & Y3 & Y4)]; [left; exact Y|].
      right. exists e. split; auto. split; auto. exists (c + k). rewrite NE. auto.
    + left. auto.
  - right. exists e. split; auto. split; auto. exists k. destruct (m2 (power s2 (Some k))) as [[a|e2] t3]; cbn [fst snd] in *.
    + destruct S2 as [S2|S2]; [discriminate|]. destruct (I a t3 S2) as (Z1 & Z2). split; auto. eapply same_trans; eauto.
    + split; auto. destruct S2 as [[= ->]|S2]; auto.
Qed.
Lemma sh_bind {A B} (m1 m2 : M K A) (k1 k2 : A -> M K B) : sh m1 m2 -> ni m2 -> (forall a, ni (k2 a)) -> (forall a, sh (k1 a) (k2 a)) -> sh (bind m1 k1) (bind m2 k2).
Proof. intros H1 N1 N2 H2 s1 s2 X U. apply rel_bind; auto; [apply N1|intros a; apply N2|]. intros a t1 t2 _ X' U'. now apply H2. Qed.
Lemma sh_get {B} (k1 k2 : list N -> M K B) : (forall b pad, sh (k1 b) (k2 (b ++ pad))) -> sh (bind get_buf k1) (bind get_buf k2).
Proof. intros H s1 s2 X U. destruct (ext_buf _ _ X) as (pad & E). assert (R := H (s_buf s1) pad s1 s2 X U). rewrite <- E in R. exact R. Qed.
Lemma sh_put b pad : sh (put_buf b) (put_buf (b ++ pad)).
Proof. intros s1 s2 (p & ->) _. left. split; [reflexivity|]. exists pad. reflexivity. Qed.
Lemma sh_fail {A} e (m2 : M K A) : is_small e = true -> idle m2 -> sh (fail e) m2.
Proof. intros SM I s1 s2 X U. now apply (rel_stop _ _ s1 s2 e s1). Qed.

(** Parts that do not touch the buffer. *)
Definition nb {A} (m : M K A) : Prop := forall s b, m (set_buf s b) = (fst (m s), set_buf (snd (m s)) b).
Lemma sh_nb {A} (m : M K A) : nb m -> sh m m.
Proof.
  intros H s1 s2 (pad & ->) U. left. unfold alike. rewrite H. cbn [fst snd]. split; auto. exists pad. f_equal. f_equal.
  pose proof (H s1 (s_buf s1)) as E. replace (set_buf s1 (s_buf s1)) with s1 in E by (destruct s1; reflexivity). rewrite E. reflexivity.
Qed.
Lemma nb_bind {A B} (m : M K A) (k : A -> M K B) : nb m -> (forall a, nb (k a)) -> nb (bind m k).
Proof. intros H1 H2 s b. unfold bind. rewrite H1. destruct (m s) as [[a|e] s1]; cbn [fst snd]; [apply H2|reflexivity]. Qed.
Lemma nb_attempt {A B} (m : M K A) (k : res A -> M K B) : nb m -> (forall a, nb (k a)) -> nb (bind (attempt m) k).
Proof. intros H1 H2 s b. unfold bind, attempt, on_result, steady, hand_on. rewrite H1. destruct (m s) as [r s1]; cbn [fst snd]. apply H2. Qed.
Lemma nb_read a n : nb (fl_read g a n). Proof. intros s b. unfold fl_read, on_read, steady. cbn [s_fl set_buf]. destruct (dev_read g (s_fl s) a n); reflexivity. Qed.
Lemma nb_write a bs : nb (fl_write g a bs). Proof. intros s b. unfold fl_write. cbn [s_fl set_buf]. destruct (dev_write g (s_fl s) a bs) as [[e|] f]; reflexivity. Qed.
Lemma nb_erase a c : nb (fl_erase g a c). Proof. intros s b. unfold fl_erase. cbn [s_fl set_buf]. destruct (dev_erase g (s_fl s) a c) as [[e|] f]; reflexivity. Qed.
Lemma nb_ret {A} (a : A) : nb (ret a). Proof. intros s b. reflexivity. Qed.
Lemma nb_fail {A} e : nb (@fail K A e). Proof. intros s b. reflexivity. Qed.
Lemma nb_get_ps p : nb (c_get_ps p). Proof. intros s b. unfold c_get_ps. cbn [s_ca set_buf]. destruct (ps_get _ _); reflexivity. Qed.
Lemma nb_notice_ps p x d : nb (c_notice_ps p x d). Proof. intros s b. unfold c_notice_ps. cbn [s_ca set_buf]. destruct (ps_notice _ _ _); reflexivity. Qed.
Lemma nb_notice_key q k a d : nb (c_notice_key q k a d). Proof. intros s b. unfold c_notice_key. cbn [s_ca set_buf]. destruct (kp_notice _ _ _ _); reflexivity. Qed.
Lemma nb_check : nb c_check_dirty. Proof. intros s b. unfold c_check_dirty, bind, c_is_dirty. cbn [s_ca set_buf]. destruct (c_dirty _); reflexivity. Qed.
Ltac nb0 := first [apply nb_read|apply nb_write|apply nb_erase|apply nb_ret|apply nb_fail|apply nb_get_ps|apply nb_notice_ps|apply nb_notice_key|apply nb_check|solve [intros ? ?; reflexivity]].
Create HintDb nbf.
Ltac nb1 := cbv zeta; lazymatch goal with
  | |- nb (bind (attempt _) _) => apply nb_attempt; [|intros ?]
  | |- nb (bind _ _) => apply nb_bind; [|intros ?]
  | |- nb (match ?x with _ => _ end) => destruct x
  | |- _ => first [solve [eauto 2 with nbf]|nb0]
  end.
Ltac nbt := repeat nb1.
Lemma nb_state p : nb (page_state g p). Proof. unfold page_state. nbt. Qed.
Hint Resolve nb_state : nbf.
Lemma nb_psc p : nb (page_state_c g p). Proof. unfold page_state_c. nbt. Qed.
Hint Resolve nb_psc : nbf.
Lemma nb_open p : nb (open_page g p). Proof. unfold open_page. nbt. Qed.
Hint Resolve nb_open : nbf.
Lemma nb_partial p : nb (partial_close g p). Proof. unfold partial_close. nbt. Qed.
Hint Resolve nb_partial : nbf.
Lemma nb_close p : nb (close_page g p). Proof. unfold close_page. nbt. Qed.
Lemma nb_ffi l x : nb (find_first_in g l x). Proof. induction l; cbn [find_first_in]; nbt. Qed.
Lemma nb_ff a x : nb (find_first g a x). Proof. apply nb_ffi. Qed.
Lemma nb_fli l x : forall o, nb (find_last_in g l x o). Proof. induction l; intros o; cbn [find_last_in]; nbt; apply IHl. Qed.
Lemma nb_flast a x : nb (find_last g a x). Proof. apply nb_fli. Qed.
Lemma nb_gri l : nb (general_repair_in g l). Proof. induction l; cbn [general_repair_in]; nbt. Qed.
Lemma nb_gr : nb (general_repair g). Proof. apply nb_gri. Qed.
Lemma nb_hdr n a : nb (read_hdr g n a). Proof. induction n; cbn [read_hdr]; nbt. Qed.
Hint Resolve nb_close nb_ff nb_flast nb_gr nb_hdr : nbf.
Lemma nb_new a e : nb (read_new g a e). Proof. unfold read_new. nbt. Qed.
Hint Resolve nb_new : nbf.
Lemma nb_trav n skip e : forall cur, nb (traverse g n skip cur e). Proof. induction n; intros cur; cbn [traverse]; nbt; apply IHn. Qed.
Hint Resolve nb_trav : nbf.
Lemma nb_hw h a : nb (hdr_write g h a). Proof. apply nb_write. Qed.
Hint Resolve nb_hw : nbf.
Lemma nb_erd h a : nb (erase_data g h a). Proof. unfold erase_data. nbt. Qed.
Lemma nb_wr h d a : nb (write_raw g h d a). Proof. unfold write_raw. nbt. Qed.
Lemma nb_wn a d : nb (write_new g a d). Proof. apply nb_wr. Qed.
Lemma nb_free a e n : nb (find_free g a e n). Proof. unfold find_free. nbt. Qed.
Lemma nb_lu : nb (last_used g). Proof. unfold last_used. nbt. Qed.
Lemma nb_fpe : nb (first_page_expr g). Proof. unfold first_page_expr. nbt. Qed.
Lemma nb_minp n : nb (mi_next_page g n). Proof. induction n; cbn [mi_next_page]; nbt. Qed.


Lemma nb_buf {A} (m : M K A) s : nb m -> s_buf (snd (m s)) = s_buf s.
Proof. intros H. pose proof (H s (s_buf s)) as E. replace (set_buf s (s_buf s)) with s in E by (destruct s; reflexivity). rewrite E. reflexivity. Qed.

(** Reading an item: the front of the buffer is overwritten. *)
Lemma front_app {A} (b pad : list A) n : n <= length b -> firstn n (b ++ pad) = firstn n b.
Proof. intros H. rewrite firstn_app. replace (n - length b) with 0 by lia. cbn [firstn]. apply app_nil_r. Qed.
Lemma put_front_app d b pad : length d <= length b -> put_front d (b ++ pad) = put_front d b ++ pad.
Proof. intros H. unfold put_front. rewrite skipn_app. replace (length d - length b) with 0 by lia. cbn [skipn]. now rewrite app_assoc. Qed.
Lemma put_front_len d (b : list N) : length d <= length b -> length (put_front d b) = length b.
Proof. intros H. unfold put_front. rewrite app_length, skipn_length. lia. Qed.
Lemma read_len a n b s s' : fl_read g a n s = (Ok b, s') -> s' = s /\ length b = n.
Proof.
  unfold fl_read, on_read, steady, dev_read. destruct (chk g (RS g) a n); [discriminate|]. intros [= <- <-]. split; auto.
  unfold rd. rewrite map_length. apply seq_length.
Qed.

Lemma ni_item h a e : ni (read_item g h a e).
Proof. destruct (rd_item (K := K) g 0 h a e) as (_ & B & S0 & _). split; [now apply needs_blind|now apply idle_still]. Qed.
Lemma one_alike rl da s1 s2 : ext s1 s2 -> rl <= length (s_buf s1) ->
  let m := if rl =? 0 then ret tt else d <- fl_read g da rl ;; b <- get_buf ;; put_buf (put_front d b) in
  alike m m s1 s2 /\ length (s_buf (snd (m s1))) = length (s_buf s1).
Proof.
  intros (pad & ->) L. cbv zeta. unfold alike. destruct (rl =? 0); [split; [split; [reflexivity|now exists pad]|reflexivity]|].
  unfold bind, get_buf, put_buf. rewrite (nb_read da rl s1 (s_buf s1 ++ pad)). destruct (fl_read g da rl s1) as [[d|e] t1] eqn:E; cbn [fst snd].
  - apply read_len in E. destruct E as [-> <-]. cbn [s_buf set_buf]. rewrite put_front_app by auto. split; [|now apply put_front_len]. split; [reflexivity|]. exists pad. reflexivity.
  - pose proof (nb_buf (fl_read g da rl) s1 (nb_read da rl)) as Q. rewrite E in Q. cbn [snd] in Q. split; [|now rewrite Q]. split; [reflexivity|]. exists pad. now rewrite Q.
Qed.
Lemma data_step rl da len c h (k : M K maybe_item) s1 s2 : ext s1 s2 -> rl <= length (s_buf s1) -> len <= rl ->
  (forall t1 t2, ext t1 t2 -> length (s_buf t1) = length (s_buf s1) -> alike k k t1 t2 /\ length (s_buf (snd (k t1))) = length (s_buf t1)) ->
  let m := (if rl =? 0 then ret tt else d <- fl_read g da rl ;; b <- get_buf ;; put_buf (put_front d b)) ;;;
    b <- get_buf ;; if (acrc (firstn len b) =? c)%N then ret (MPresent h) else k in
  alike m m s1 s2 /\ length (s_buf (snd (m s1))) = length (s_buf s1).
Proof.
  intros X L LE H. pose proof (one_alike rl da s1 s2 X L) as O. cbv zeta in *. revert O. generalize (if rl =? 0 then ret (K := K) tt else d <- fl_read g da rl ;; b <- get_buf ;; put_buf (put_front d b)). intros m ((A1 & A2) & A3).
  unfold alike, bind, get_buf in *. destruct (m s1) as [r1 t1], (m s2) as [r2 t2]; cbn [fst snd] in *; subst r2. destruct r1 as [[]|e]; [|split; [split|]; auto].
  destruct (ext_buf _ _ A2) as (pad & ->). rewrite front_app by lia. destruct (acrc (firstn len (s_buf t1)) =? c)%N; [split; [split; [reflexivity|exact A2]|exact A3]|].
  destruct (H t1 t2 A2 A3) as (H1 & H2). split; auto. congruence.
Qed.
Lemma data_alike h c da : h_len h <= rup g (h_len h) -> forall n s1 s2, ext s1 s2 -> rup g (h_len h) <= length (s_buf s1) ->
  alike (read_data g n h c da (rup g (h_len h))) (read_data g n h c da (rup g (h_len h))) s1 s2 /\ length (s_buf (snd (read_data g n h c da (rup g (h_len h)) s1))) = length (s_buf s1).
Proof.
  intros RG. induction n as [|n IH]; intros s1 s2 X L; cbn [read_data].
  - apply data_step; auto. intros t1 t2 X2 L2. split; [split; [reflexivity|exact X2]|reflexivity].
  - apply data_step; auto. intros t1 t2 X2 L2. apply IH; auto. lia.
Qed.
Lemma sh_item h a e : sh (read_item g h a e) (read_item g h a e).
Proof.
  intros s1 s2 X U. pose proof (rup_ge g gok (h_len h)) as RG. destruct (h_crc h) as [c|] eqn:C; [|left; unfold alike, read_item; rewrite C; split; [reflexivity|exact X]].
  destruct (beyond e (a + HL g + rup g (h_len h))) eqn:BE; [left; unfold alike, read_item; rewrite C; cbv zeta; rewrite BE; split; [reflexivity|exact X]|].
  destruct (length (s_buf s1) <? rup g (h_len h)) eqn:LT.
  - apply (rel_stop _ _ s1 s2 (EBufTooSmall (rup g (h_len h))) s1); auto; [|apply ni_item]. unfold read_item. rewrite C. cbv zeta. rewrite BE. unfold bind, get_buf. rewrite LT. reflexivity.
  - left. apply Nat.ltb_ge in LT. destruct (ext_buf _ _ X) as (pad & EB). unfold alike, read_item. rewrite C. cbv zeta. rewrite BE. unfold bind, get_buf. rewrite EB, app_length.
    destruct (Nat.ltb_spec (length (s_buf s1) + length pad) (rup g (h_len h))); [lia|]. destruct (Nat.ltb_spec (length (s_buf s1)) (rup g (h_len h))); [lia|]. now apply data_alike.
Qed.
Lemma item_fits h a e h' s s' : read_item g h a e s = (Ok (MPresent h'), s') -> h' = h /\ h_len h <= length (s_buf s').
Proof.
  pose proof (rup_ge g gok (h_len h)) as RG. unfold read_item. destruct (h_crc h) as [c|]; [|discriminate]. cbv zeta. destruct (beyond e _); [discriminate|]. unfold bind at 1, get_buf at 1.
  destruct (Nat.ltb_spec (length (s_buf s)) (rup g (h_len h))) as [LT|LT]; [discriminate|]. intros E. pose proof (proj2 (data_alike h c (a + HL g) RG 1 s s (ext_refl s) LT)) as L. rewrite E in L. cbn [snd] in L.
  split; [|lia]. revert E. generalize 1, (a + HL g), (rup g (h_len h)). clear. intros n da rl. revert s. induction n as [|n IH]; intros s; cbn [read_data]; unfold bind at 1;
    (match goal with |- (match ?x with _ => _ end) = _ -> _ => destruct x as [[[]|e] t]; [|discriminate] end); unfold bind, get_buf; destruct (acrc _ =? c)%N; try (intros [= <- <-]; reflexivity); try discriminate. apply IH.
Qed.

Lemma ni_read a n : ni (fl_read g a n). Proof. destruct (rd_read (K := K) g 0 a n) as (_ & B & S0 & _). split; [now apply needs_blind|now apply idle_still]. Qed.

Lemma ni_new a e : ni (read_new g a e). Proof. destruct (rd_new (K := K) g 0 a e) as (_ & B & S0 & _). split; [now apply needs_blind|now apply idle_still]. Qed.
Create HintDb nif.
Hint Resolve ni_item ni_new : nif.
Lemma ni_psc p : ni (page_state_c g p). Proof. exact (ni_prog _ _ _ (p_page_state_c g p)). Qed.
Lemma ni_open p : ni (open_page g p). Proof. exact (ni_prog _ _ _ (p_open_page g p)). Qed.
Lemma ni_partial p : ni (partial_close g p). Proof. exact (ni_prog _ _ _ (p_partial_close g p)). Qed.
Lemma ni_close p : ni (close_page g p). Proof. exact (ni_prog _ _ _ (p_close_page g p)). Qed.
Lemma ni_ff a x : ni (find_first g a x). Proof. exact (ni_prog _ _ _ (p_find_first g a x)). Qed.
Lemma ni_flast a x : ni (find_last g a x). Proof. exact (ni_prog _ _ _ (p_find_last g a x)). Qed.
Lemma ni_gr : ni (general_repair g). Proof. exact (ni_prog _ _ _ (p_general_repair g)). Qed.
Lemma ni_trav n skip cur e : ni (traverse g n skip cur e). Proof. exact (ni_prog _ _ _ (p_traverse' g n skip cur e)). Qed.
Lemma ni_next n e cur : ni (item_next g n cur e). Proof. exact (ni_prog _ _ _ (p_item_next g n e cur)). Qed.
Lemma ni_erd h a : ni (erase_data g h a). Proof. exact (ni_prog _ _ _ (p_erase_data g h a)). Qed.
Lemma ni_wr h d a : ni (write_raw g h d a). Proof. exact (ni_prog _ _ _ (p_write_raw g h d a)). Qed.
Lemma ni_wn a d : ni (write_new g a d). Proof. exact (ni_prog _ _ _ (p_write_new g a d)). Qed.
Lemma ni_free a e n : ni (find_free g a e n). Proof. exact (ni_prog _ _ _ (p_find_free g a e n)). Qed.
Lemma ni_lu : ni (last_used g). Proof. exact (ni_prog _ _ _ (p_last_used g)). Qed.
Lemma ni_fpe : ni (first_page_expr g). Proof. exact (ni_prog _ _ _ (p_first_page g)). Qed.
Lemma ni_miin n : ni (mi_item_next g n). Proof. exact (ni_prog _ _ _ (p_mi_item_next g n)). Qed.
Lemma ni_minp n : ni (mi_next_page g n). Proof. exact (ni_prog _ _ _ (p_mi_next_page g n)). Qed.
Lemma ni_mil n : ni (mi_loop g n). Proof. exact (ni_prog _ _ _ (p_mi_loop g n)). Qed.
Hint Resolve ni_psc ni_open ni_partial ni_close ni_ff ni_flast ni_gr ni_trav ni_next ni_erd ni_wr ni_wn ni_free ni_lu ni_fpe ni_miin ni_minp ni_mil : nif.

Ltac lcs := first [apply l_ret|apply l_fail; first [discriminate|congruence]|apply l_get_buf|apply l_put_buf|apply l_get_mi|apply l_put_mi|apply l_unmark|apply l_inval|apply l_key_loc|apply l_key_erased|apply l_check_dirty|apply l_notice_key].
Ltac ni1 := cbv zeta; lazymatch goal with
  | |- ni (bind _ _) => apply ni_bind; [|intros ?]
  | |- ni (match ?x with _ => _ end) => destruct x
  | |- _ => first [solve [eauto 2 with nif]|apply ni_local; lcs]
  end.
Ltac nit := repeat ni1.
Hint Resolve nb_new nb_trav nb_erd nb_wr nb_wn nb_free nb_lu nb_fpe nb_minp : nbf.
Create HintDb shf.
Hint Resolve sh_item : shf.

Context (KO : keyops K).
Lemma ni_scan n k e cur o : ni (scan_page KO g n k cur e o). Proof. exact (ni_prog _ _ _ (p_scan_page KO g n k e cur o)). Qed.
Lemma ni_fp n k p : ni (fetch_pages KO g n k p). Proof. exact (ni_prog _ _ _ (p_fetch_pages KO g n k p)). Qed.
Lemma ni_fc k : ni (fetch_cached KO g k). Proof. exact (ni_prog _ _ _ (p_fetch_cached KO g k)). Qed.
Lemma ni_fl k : ni (fetch_loc KO g k). Proof. exact (ni_prog _ _ _ (p_fetch_loc KO g k)). Qed.
Lemma ni_ml n e cur wa : ni (migrate_loop KO g n cur e wa). Proof. exact (ni_prog _ _ _ (p_migrate_loop KO g n e cur wa)). Qed.
Lemma ni_mig a b : ni (migrate KO g a b). Proof. exact (ni_prog _ _ _ (p_migrate KO g a b)). Qed.
Lemma ni_rep : ni (m_repair KO g). Proof. exact (ni_prog _ _ _ (p_m_repair KO g)). Qed.
Lemma ni_fetch b k : ni (m_fetch KO g b k). Proof. exact (ni_prog _ _ _ (p_fetch KO g b k)). Qed.
Lemma ni_ser k v : ni (ser_item KO k v). Proof. exact (ni_prog _ _ _ (p_ser_item KO g k v)). Qed.
Lemma ni_sl n k v : ni (store_loop KO g n k v). Proof. exact (ni_prog _ _ _ (p_store_loop KO g n k v)). Qed.
Lemma ni_ri n sk e cur : ni (remove_items KO g n sk cur e). Proof. exact (ni_prog _ _ _ (p_remove_items KO g n sk e cur)). Qed.
Lemma ni_rp l sk : ni (remove_pages KO g l sk). Proof. exact (ni_prog _ _ _ (p_remove_pages KO g l sk)). Qed.
Lemma ni_rin sk : ni (remove_inner KO g sk). Proof. exact (ni_prog _ _ _ (p_remove_inner KO g sk)). Qed.
Lemma ni_mit b : ni (m_iter KO g b). Proof. exact (ni_prog _ _ _ (p_m_iter KO g b)). Qed.
Lemma ni_min b : ni (m_iter_next KO g b). Proof. exact (ni_prog _ _ _ (p_m_iter_next KO g b)). Qed.
Lemma ni_msc l : ni (m_script KO g l). Proof. exact (ni_prog _ _ _ (p_m_script KO g l)). Qed.
Hint Resolve ni_scan ni_fp ni_fc ni_fl ni_ml ni_mig ni_rep ni_fetch ni_ser ni_sl ni_ri ni_rp ni_rin ni_mit ni_min ni_msc : nif.

Context (PC : prefix_codec KO) (legal : K -> Prop) (KC : key_codec KO legal).
Lemma sh_de b pad : sh (ser_lift (k_de KO b)) (ser_lift (k_de KO (b ++ pad))).
Proof.
  destruct (k_de KO b) as [x|e] eqn:E; cbn [ser_lift]; [rewrite (PC _ _ pad E); apply sh_nb, nb_ret|]. apply sh_fail; [reflexivity|]. apply (ni_prog _ (fun _ => ser_lift (k_de KO (b ++ pad))) _ (p_ser_lift g _)).
Qed.
Lemma ni_lift {A} (r : A + sererr) : ni (ser_lift r). Proof. exact (ni_prog _ (fun _ => ser_lift r) _ (p_ser_lift g r)). Qed.
Hint Resolve ni_lift : nif.
Lemma nb_lift {A} (r : A + sererr) : nb (ser_lift r). Proof. destruct r; intros ? ?; reflexivity. Qed.
Hint Resolve nb_lift : nbf.
Hint Resolve sh_de : shf.
Ltac sh1 := cbv zeta; lazymatch goal with
  | |- sh (bind get_buf _) (bind get_buf _) => apply sh_get; intros ? ?
  | |- sh (bind _ _) (bind _ _) => apply sh_bind; [|nit|intros ?; nit|intros ?]
  | |- sh (match ?x with _ => _ end) (match ?x with _ => _ end) => destruct x
  | |- _ => first [solve [eauto 2 with shf]|solve [apply sh_nb; nbt]]
  end.
Ltac sht := repeat sh1.
Lemma sh_next n e : forall cur, sh (item_next g n cur e) (item_next g n cur e). Proof. induction n; intros cur; cbn [item_next]; sht; apply IHn. Qed.
Hint Resolve sh_next : shf.
Lemma sh_scan n k e : forall cur o, sh (scan_page KO g n k cur e o) (scan_page KO g n k cur e o). Proof. induction n; intros cur o; cbn [scan_page]; sht; apply IHn. Qed.
Hint Resolve sh_scan : shf.
Lemma sh_fp n k : forall p, sh (fetch_pages KO g n k p) (fetch_pages KO g n k p). Proof. induction n; intros p; cbn [fetch_pages]; sht; apply IHn. Qed.
Hint Resolve sh_fp : shf.
Lemma sh_fc k : sh (fetch_cached KO g k) (fetch_cached KO g k). Proof. unfold fetch_cached. sht. Qed.
Hint Resolve sh_fc : shf.
Lemma sh_fl k : sh (fetch_loc KO g k) (fetch_loc KO g k). Proof. unfold fetch_loc. sht. Qed.
Hint Resolve sh_fl : shf.

Lemma bind_ok {A B} (m : M K A) (k : A -> M K B) s r s' : bind m k s = (Ok r, s') -> exists a t, m s = (Ok a, t) /\ k a t = (Ok r, s').
Proof. unfold bind. destruct (m s) as [[a|e] t]; [|discriminate]. eauto. Qed.
Ltac bo H := let a := fresh "x" in let t := fresh "t" in let E := fresh "E" in apply bind_ok in H; destruct H as (a & t & E & H).
Lemma fc_fits k s h a s' : fetch_cached KO g k s = (Ok (Some (h, a)), s') -> h_len h <= length (s_buf s').
Proof.
  unfold fetch_cached. intros H. bo H. destruct x as [l|]; [|discriminate]. bo H. destruct x as [h0|]; [|bo H; discriminate]. bo H. destruct x as [h1|h1|h1]; try (bo H; discriminate). injection H as -> -> ->. now apply item_fits in E1 as [-> ?].
Qed.
Lemma fl_fits k s h a o s' : fetch_loc KO g k s = (Ok (Some (h, a, o)), s') -> h_len h <= length (s_buf s').
Proof.
  unfold fetch_loc. intros H. bo H. bo H. destruct x0 as [[h0 a0]|]; [injection H as -> -> <- ->; now apply fc_fits in E0|]. bo H. destruct x0 as [p|]; [|discriminate]. bo H. destruct x0 as [[a0 kl]|]; [|discriminate]. bo H. bo H.
  destruct x1 as [h0|]; [|discriminate]. bo H. destruct x1 as [h1|h1|h1]; try discriminate. injection H as -> -> <- ->. now apply item_fits in E5 as [-> ?].
Qed.
Lemma rel_get {B} (k1 k2 : list N -> M K B) s1 s2 : ext s1 s2 -> (forall pad, s_buf s2 = s_buf s1 ++ pad -> rel (k1 (s_buf s1)) (k2 (s_buf s1 ++ pad)) s1 s2) -> rel (bind get_buf k1) (bind get_buf k2) s1 s2.
Proof. intros X H. destruct (ext_buf _ _ X) as (pad & E). specialize (H pad E). rewrite <- E in H. exact H. Qed.
Ltac idl := match goal with |- idle ?m => let Q := fresh in assert (Q : ni m) by nit; exact (proj2 Q) | |- needs ?m => let Q := fresh in assert (Q : ni m) by nit; exact (proj1 Q) end.
Ltac rs := match goal with |- rel ?a ?b _ _ => let Z := fresh in assert (Z : sh a b) by sht; apply Z; assumption end.
Ltac rb := apply rel_bind; [assumption|assumption|rs|idl|intros ?; idl|].
Lemma sh_ml n e : forall cur wa, sh (migrate_loop KO g n cur e wa) (migrate_loop KO g n cur e wa).
Proof.
  induction n as [|n IH]; intros cur wa; cbn [migrate_loop]; [sht|]. sh1; [sht|]. destruct a as [[[hh ia]|] nx]; [|sht]. sh1. sh1; [sht|]. cbv zeta. sh1; [sht|]. intros s1 s2 X U. rb.
  intros [[[h fa] o]|] t1 t2 E X2 U2; [|rs]. apply fl_fits in E. apply rel_get; auto. intros p _. rewrite app_length, front_app by auto.
  destruct (Nat.ltb_spec (length (s_buf t1)) (h_len h)), (Nat.ltb_spec (length (s_buf t1) + length p) (h_len h)); try lia. rs.
Qed.
Hint Resolve sh_ml : shf.
Lemma sh_mig a b : sh (migrate KO g a b) (migrate KO g a b). Proof. unfold migrate. sht. Qed.
Hint Resolve sh_mig : shf.
Lemma sh_rep : sh (m_repair KO g) (m_repair KO g). Proof. unfold m_repair. sht. Qed.
Hint Resolve sh_rep : shf.
Lemma auto_eq {A} (f : M K A) r s : auto_repair f r s = match f s with (Ok a, t) => (Ok a, t) | (Err e, t) => match e with ECorrupted => (r ;;; f) t | _ => (Err e, t) end end.
Proof. unfold auto_repair, attempt, on_result, steady, hand_on. unfold bind at 1. destruct (f s) as [[a|e] t]; [reflexivity|]. destruct e; reflexivity. Qed.
Lemma sh_auto {A} (f1 f2 : M K A) : sh f1 f2 -> ni f2 -> sh (auto_repair f1 (m_repair KO g)) (auto_repair f2 (m_repair KO g)).
Proof.
  intros H NI s1 s2 X U. assert (NR : ni (m_repair KO g ;;; f2)) by (apply ni_bind; [apply ni_rep|auto]). assert (U2 : f_fuel (s_fl s2) = None) by (rewrite (ext_fl _ _ X); exact U).
  destruct (proj1 NI s2 U2) as (FU & c & NE). unfold rel, alike, stops, spent. rewrite !auto_eq.
  destruct (H s1 s2 X U) as [(R1 & R2)|(e & R1 & R2 & k & R3 & R4)].
  - destruct (f1 s1) as [r1 t1] eqn:E1, (f2 s2) as [r2 t2] eqn:E2. cbn [fst snd] in *. subst r2. destruct r1 as [a|e]; [left; split; [reflexivity|exact R2]|].
    destruct e; try (left; split; [reflexivity|exact R2]).
    assert (U1 : unfueled t1) by (unfold unfueled; rewrite <- (ext_fl _ _ R2); exact FU).
    assert (SR : sh (m_repair KO g ;;; f1) (m_repair KO g ;;; f2)) by (apply sh_bind; auto; [apply sh_rep|apply ni_rep]).
    destruct (SR t1 t2 R2 U1) as [Y|(e & Y1 & Y2 & k & Y3 & Y4)]; [left; exact Y|]. right. exists e. split; [exact Y1|]. split; auto. exists (c + k). rewrite auto_eq, NE. auto.
  - right. exists e. destruct (f1 s1) as [r1 t1]. cbn [fst snd] in *. subst r1. split; [destruct e; try discriminate; reflexivity|]. split; auto. exists k.
    rewrite auto_eq. unfold spent in R4. replace (snd (match e with ECorrupted => (m_repair KO g ;;; f1) t1 | _ => (Err e, t1) end)) with t1 by (destruct e; try discriminate; reflexivity).
    destruct (f2 (power s2 (Some k))) as [[a|e2] t3]; cbn [fst snd] in *; [split; auto|].
    destruct R4 as [[= ->]|R4]; [split; auto|]. destruct e2; try (split; [exact R3|right; exact R4]). destruct (proj2 NR t3 R4) as (Z1 & Z2). split; auto. eapply same_trans; eauto.
Qed.
Lemma ni_auto {A} (f : M K A) : ni f -> ni (auto_repair f (m_repair KO g)).
Proof.
  intros [N I]. destruct (ni_bind _ _ ni_rep (fun _ => conj N I) : ni (m_repair KO g ;;; f)) as [NR IR]. split.
  - intros s F. destruct (N s F) as (F1 & c & E). rewrite auto_eq. destruct (f s) as [[a|e] t]; cbn [fst snd] in *.
    + split; auto. exists c. intros j. now rewrite auto_eq, E.
    + destruct e; try (split; [exact F1|exists c; intros j; now rewrite auto_eq, E]). destruct (NR t F1) as (F2 & c2 & E2). split; auto. exists (c + c2). intros j. rewrite <- Nat.add_assoc, auto_eq, E. apply E2.
  - intros s F. destruct (I s F) as (E1 & S1). unfold spent in *. rewrite auto_eq. destruct (f s) as [[a|e] t]; cbn [fst snd] in *; [auto|].
    destruct S1 as [[= ->]|S1]; [auto|]. destruct e; try (split; [exact E1|right; exact S1]). destruct (IR t S1) as (Z1 & Z2). split; auto. eapply same_trans; eauto.
Qed.
Ltac ni1 ::= cbv zeta; lazymatch goal with
  | |- ni (bind _ _) => apply ni_bind; [|intros ?]
  | |- ni (auto_repair _ _) => apply ni_auto
  | |- ni (match ?x with _ => _ end) => destruct x
  | |- _ => first [solve [eauto 2 with nif]|apply ni_local; lcs]
  end.
Hint Resolve sh_put : shf.
Lemma auto_fits k s h a o s' : auto_repair (fetch_loc KO g k) (m_repair KO g) s = (Ok (Some (h, a, o)), s') -> h_len h <= length (s_buf s').
Proof.
  rewrite auto_eq. destruct (fetch_loc KO g k s) as [[x|e] t] eqn:E; [intros [= -> ->]; eauto using fl_fits|]. destruct e; try discriminate. intros H. bo H. eauto using fl_fits.
Qed.
Lemma ni_ml_put b : ni (put_buf b). Proof. apply ni_local. lcs. Qed.
Lemma sh_fetch b pad k : sh (m_fetch KO g b k) (m_fetch KO g (b ++ pad) k).
Proof.
  unfold m_fetch. sh1; [sht|]. intros s1 s2 X U. apply rel_bind; auto; [apply sh_auto; auto; [sht|nit]|apply ni_auto; nit|intros r; idl|].
  intros [[[h fa] o]|] t1 t2 E X2 U2; [|rs]. apply auto_fits in E. apply rel_get; auto. intros p _. cbv zeta. rewrite app_length, front_app by auto.
  destruct (Nat.ltb_spec (length (s_buf t1)) (h_len h)), (Nat.ltb_spec (length (s_buf t1) + length p) (h_len h)); try lia. rb. intros kl t3 t4 _ X3 U3.
  destruct (Nat.ltb_spec (h_len h) kl); [rs|]. rewrite skipn_app. replace (kl - length (s_buf t1)) with 0 by lia. cbn [skipn]. rewrite front_app by (rewrite skipn_length; lia). rs.
Qed.
Lemma sh_ser k v : legal k -> sh (ser_item KO k v) (ser_item KO k v).
Proof.
  intros LG s1 s2 X U. destruct (k_ser KO k (length (s_buf s1))) as [kb|e] eqn:E.
  - pose proof (kc_fit KO legal KC _ _ _ LG E) as FI. destruct (length (s_buf s1) - length kb <? length v) eqn:LT.
    + apply (rel_stop _ _ s1 s2 (ESer SEBufferTooSmall) (set_buf s1 (put_front kb (s_buf s1)))); auto; [|apply ni_ser]. unfold ser_item, bind, get_buf. rewrite E. cbn [ser_lift ret put_buf]. destruct (Nat.ltb_spec (length (s_buf s1)) (length kb)); [lia|]. rewrite LT. reflexivity.
    + left. destruct X as (pad & ->). unfold alike, ser_item, bind, get_buf. cbn [s_buf set_buf]. rewrite E. rewrite (kc_mono KO legal KC _ _ _ (length (s_buf s1 ++ pad)) LG E) by (rewrite app_length; lia). cbn [ser_lift ret put_buf].
      rewrite app_length. destruct (Nat.ltb_spec (length (s_buf s1)) (length kb)); [lia|]. destruct (Nat.ltb_spec (length (s_buf s1) + length pad) (length kb)); [lia|]. rewrite LT. apply Nat.ltb_ge in LT.
      destruct (Nat.ltb_spec (length (s_buf s1) + length pad - length kb) (length v)); [lia|]. cbn [fst snd]. split; auto. exists pad. cbn [set_buf s_buf]. rewrite skipn_app. replace (length kb - length (s_buf s1)) with 0 by lia. cbn [skipn].
      rewrite (put_front_app v) by (rewrite skipn_length; lia). rewrite app_assoc. reflexivity.
  - apply (rel_stop _ _ s1 s2 (ESer e) s1); auto; [|apply ni_ser]. unfold ser_item, bind, get_buf. rewrite E. reflexivity.
Qed.
Lemma ser_fits k v s n s' : legal k -> ser_item KO k v s = (Ok n, s') -> n <= length (s_buf s').
Proof.
  intros LG. unfold ser_item, bind, get_buf, put_buf. destruct (k_ser KO k (length (s_buf s))) as [kb|e] eqn:E; cbn [ser_lift ret fail]; [|discriminate]. pose proof (kc_fit KO legal KC _ _ _ LG E) as FI. destruct (Nat.ltb_spec (length (s_buf s)) (length kb)); [discriminate|].
  destruct (Nat.ltb_spec (length (s_buf s) - length kb) (length v)) as [?|?]; [discriminate|]. unfold ret. intros [= <- <-]. cbn [set_buf s_buf]. rewrite app_length, put_front_len; rewrite skipn_length; lia.
Qed.
Lemma sh_sl k v : legal k -> forall n, sh (store_loop KO g n k v) (store_loop KO g n k v).
Proof.
  intros LG. induction n as [|n IH]; cbn [store_loop]; [sht|]. sh1; [sht|]. apply sh_bind; [|nit|intros ?; nit|intros ?; sht]. destruct a as [p|]; [|sht]. sh1; [sht|]. sh1; [sht|]. intros s1 s2 X U.
  apply rel_bind; auto; [now apply sh_ser|apply ni_ser|intros ?; idl|]. intros x t1 t2 E X2 U2. apply ser_fits in E; auto. destruct (too_big g x); [rs|]. rb. intros [ad|] t3 t4 E3 X3 U3; [|rs].
  pose proof (nb_buf _ t1 (nb_free (dstart g p) (dend g p) x)) as B3. rewrite E3 in B3. cbn [snd] in B3. rb. intros ? t5 t6 E5 X5 U5. pose proof (nb_buf _ t3 (nb_notice_key (k_eqb KO) k ad true)) as B5. rewrite E5 in B5. cbn [snd] in B5.
  apply rel_get; auto. intros pd _. rewrite front_app by congruence. rs.
Qed.
Lemma sh_store b pad k v : legal k -> sh (m_store KO g b k v) (m_store KO g (b ++ pad) k v).
Proof. intros LG. unfold m_store, store_inner. pose proof (sh_sl k v LG). sh1; [sht|]. apply sh_auto; [sht|nit]. Qed.
Lemma sh_ri n sk e : forall cur, sh (remove_items KO g n sk cur e) (remove_items KO g n sk cur e).
Proof. induction n as [|n IH]; intros cur; cbn [remove_items]; sht; apply IH. Qed.
Hint Resolve sh_ri : shf.
Lemma sh_rp l sk : sh (remove_pages KO g l sk) (remove_pages KO g l sk).
Proof. induction l; cbn [remove_pages]; sht. Qed.
Hint Resolve sh_rp : shf.
Lemma sh_rin sk : sh (remove_inner KO g sk) (remove_inner KO g sk).
Proof. unfold remove_inner. sht. Qed.
Lemma sh_remove b pad k : sh (m_remove KO g b k) (m_remove KO g (b ++ pad) k).
Proof. unfold m_remove. sh1; [sht|]. apply sh_auto; [apply sh_rin|nit]. Qed.
Lemma sh_remove_all b pad : sh (m_remove_all KO g b) (m_remove_all KO g (b ++ pad)).
Proof. unfold m_remove_all. sh1; [sht|]. apply sh_auto; [apply sh_rin|nit]. Qed.
Lemma sh_mit b pad : sh (m_iter KO g b) (m_iter KO g (b ++ pad)).
Proof. unfold m_iter. sht. Qed.
Lemma sh_miin n : sh (mi_item_next g n) (mi_item_next g n).
Proof. induction n; cbn [mi_item_next]; sht. Qed.
Hint Resolve sh_miin : shf.
Lemma sh_mil n : sh (mi_loop g n) (mi_loop g n).
Proof. induction n; cbn [mi_loop]; sht. Qed.
Hint Resolve sh_mil : shf.
Lemma miin_fits n : forall s h s', mi_item_next g n s = (Ok (Some h), s') -> h_len h <= length (s_buf s').
Proof.
  induction n as [|n IH]; intros s h s'; cbn [mi_item_next]; [discriminate|]. intros H. bo H. bo H. destruct x0 as [[oh a] nx]. bo H. destruct oh as [h0|]; [|discriminate]. bo H. destruct x1; try solve [eauto]. injection H as -> ->. now apply item_fits in E2 as [-> ?].
Qed.
Lemma mil_fits n : forall s h s', mi_loop g n s = (Ok (Some h), s') -> h_len h <= length (s_buf s').
Proof.
  induction n as [|n IH]; intros s h s'; cbn [mi_loop]; [discriminate|]. intros H. bo H. bo H. destruct x0 as [h0|]; [injection H as -> ->; eauto using miin_fits|]. bo H. destruct x0; [eauto|discriminate].
Qed.
Lemma sh_min b pad : sh (m_iter_next KO g b) (m_iter_next KO g (b ++ pad)).
Proof.
  unfold m_iter_next. sh1; [sht|]. intros s1 s2 X U. rb. intros [h|] t1 t2 E X2 U2; [|rs]. apply mil_fits in E. apply rel_get; auto. intros p _. rb. intros kl t3 t4 _ X3 U3. rewrite app_length, front_app by auto.
  destruct (Nat.ltb_spec (length (s_buf t1)) (h_len h)), (Nat.ltb_spec (length (s_buf t1) + length p) (h_len h)); try lia. rs.
Qed.
Lemma sh_mit' n b : sh (m_iter KO g b) (m_iter KO g (longer n b)). Proof. apply sh_mit. Qed.
Lemma sh_min' n b : sh (m_iter_next KO g b) (m_iter_next KO g (longer n b)). Proof. apply sh_min. Qed.
Hint Resolve sh_mit' sh_min' : shf.
Lemma sh_msc n l : sh (m_script KO g l) (m_script KO g (map (longer n) l)).
Proof. induction l as [|b l IH]; cbn [m_script map]; sht. Qed.
Hint Resolve sh_msc : shf.
Lemma sh_mi n b l : sh (m_iterate KO g b l) (m_iterate KO g (longer n b) (map (longer n) l)).
Proof. unfold m_iterate. sht. Qed.

Lemma ext_id s p : ext (power s p) (power s p). Proof. apply ext_refl. Qed.
(** Any state: the same answer and the same state but for the buffer, or the flash of the longer call cut somewhere. *)
Lemma small_any n (c : mcall K) s : (forall b k v, c = MStore b k v -> legal k) -> let r := m_exec KO g c (power s None) in let w := m_exec KO g (wide n c) (power s None) in
  (fst w = fst r /\ ext (snd r) (snd w)) \/
  (m_small (fst r) = true /\ exists k, same_fl (s_fl (snd r)) (s_fl (snd (m_exec KO g (wide n c) (power s (Some k)))))).
Proof.
  intros LG. cbv zeta.
  assert (PL : forall A (f : res A -> mans K) (m1 m2 : M K A), (forall s, m_exec KO g c s = mans1 f (m1 s)) -> (forall s, m_exec KO g (wide n c) s = mans1 f (m2 s)) -> (forall r, m_small (f r) = res_small r) -> sh m1 m2 ->
    (fst (m_exec KO g (wide n c) (power s None)) = fst (m_exec KO g c (power s None)) /\ ext (snd (m_exec KO g c (power s None))) (snd (m_exec KO g (wide n c) (power s None)))) \/
    (m_small (fst (m_exec KO g c (power s None))) = true /\ exists k, same_fl (s_fl (snd (m_exec KO g c (power s None)))) (s_fl (snd (m_exec KO g (wide n c) (power s (Some k))))))).
  { intros A f m1 m2 E1 E2 SM H. rewrite E1, E2. unfold mans1. cbn [fst snd]. rewrite SM. destruct (H (power s None) (power s None) (ext_id s None) eq_refl) as [(R1 & R2)|(e & R1 & R2 & k & R3 & _)].
    - left. rewrite R1. auto.
    - right. rewrite R1. split; auto. exists k. rewrite E2. exact R3. }
  destruct c as [b k v|b k|b k|b|b bs].
  - exact (PL _ RUnit _ _ (fun _ => eq_refl) (fun _ => eq_refl) (fun _ => eq_refl) (sh_store b _ k v (LG _ _ _ eq_refl))).
  - exact (PL _ RVal _ _ (fun _ => eq_refl) (fun _ => eq_refl) (fun _ => eq_refl) (sh_fetch b _ k)).
  - exact (PL _ RUnit _ _ (fun _ => eq_refl) (fun _ => eq_refl) (fun _ => eq_refl) (sh_remove b _ k)).
  - exact (PL _ RUnit _ _ (fun _ => eq_refl) (fun _ => eq_refl) (fun _ => eq_refl) (sh_remove_all b _)).
  - exact (PL _ RList _ _ (fun _ => eq_refl) (fun _ => eq_refl) (fun _ => eq_refl) (sh_mi n b bs)).
Qed.

(** * A store that stops before it writes its item *)
Fixpoint store_stop (r : nat) (k : K) (v : list N) : M K unit :=
  match r with
  | O => c_unmark ;;; fail EFull
  | S r' =>
      lp <- find_first g 0 PartialOpen ;;
      nxt <- match lp with
             | None => ret (Some None)
             | Some p =>
                 s <- page_state_c g (next_page g p) ;;
                 if negb (pstate_eqb s Open) then fail ECorrupted
                 else
                   n <- ser_item KO k v ;;
                   if too_big g n then c_unmark ;;; fail EItemTooBig
                   else
                     fs <- find_free g (dstart g p) (dend g p) n ;;
                     match fs with
                     | Some a => fail EPanic
                     | None =>
                         close_page g p ;;;
                         ret (Some (Some (next_page g p)))
                     end
             end ;;
      match nxt with
      | None => ret tt
      | Some (Some np) =>
          s <- page_state_c g np ;;
          if negb (pstate_eqb s Open) then fail ECorrupted
          else
            partial_close g np ;;;
            let bp := next_page g np in
            s2 <- page_state_c g bp ;;
            (if pstate_eqb s2 Open then ret tt else migrate KO g bp np) ;;;
            store_stop r' k v
      | Some None =>
          fo <- find_first g 0 Open ;;
          match fo with
          | None => fail ECorrupted
          | Some p => partial_close g p ;;; store_stop r' k v
          end
      end
  end.
Definition m_store_stop (b : list N) (k : K) (v : list N) : M K unit := put_buf b ;;; auto_repair (c_check_dirty ;;; store_stop (NP g) k v) (m_repair KO g).
Lemma ni_stop n k v : ni (store_stop n k v). Proof. induction n; cbn [store_stop]; nit. Qed.
Hint Resolve ni_stop : nif.
Definition oks {A} (r : res A) : Prop := match r with Ok _ => True | Err (ECorrupted | EBufTooSmall _ | ESer _) => False | _ => True end.
Definition okn {A} (r : res (option A)) : Prop := match r with Ok None => True | Ok _ | Err (ECorrupted | EBufTooSmall _ | ESer _) => False | _ => True end.
Definition relp {A} (P : res A -> Prop) (m1 m2 : M K A) s1 s2 : Prop := rel m1 m2 s1 s2 \/ P (fst (m1 s1)).
Lemma relp_bind {A B} (PA : res A -> Prop) (PB : res B -> Prop) (m1 m2 : M K A) (k1 k2 : A -> M K B) s1 s2 : unfueled s1 -> ext s1 s2 -> relp PA m1 m2 s1 s2 -> needs m2 -> (forall a, idle (k2 a)) ->
  (forall r t, m1 s1 = (r, t) -> PA r -> PB (fst (bind m1 k1 s1))) ->
  (forall a s1' s2', m1 s1 = (Ok a, s1') -> ext s1' s2' -> unfueled s1' -> relp PB (k1 a) (k2 a) s1' s2') -> relp PB (bind m1 k1) (bind m2 k2) s1 s2.
Proof.
  intros U X R N I HP H. destruct R as [R|R]; [|right; destruct (m1 s1) as [r t] eqn:E; eapply HP; eauto].
  assert (D : PB (fst (bind m1 k1 s1)) \/ forall a t1 t2, m1 s1 = (Ok a, t1) -> ext t1 t2 -> unfueled t1 -> m2 s2 = (Ok a, t2) -> rel (k1 a) (k2 a) t1 t2).
  { destruct (m2 s2) as [[a2|e2] t2] eqn:E2; [|right; congruence]. destruct (m1 s1) as [[a|e] t1] eqn:E1; [|right; congruence]. destruct R as [(R1 & R2)|(e & R1 & _)]; [|rewrite E1 in R1; discriminate]. rewrite E1, E2 in *. cbn [fst snd] in *. injection R1 as ->.
    assert (U1 : unfueled t1). { unfold unfueled. rewrite <- (ext_fl _ _ R2). assert (U2 : f_fuel (s_fl s2) = None) by (rewrite (ext_fl _ _ X); exact U). destruct (N s2 U2) as (FU & _). rewrite E2 in FU. exact FU. }
    destruct (H a t1 t2 eq_refl R2 U1) as [Y|Y]; [right; intros; congruence|]. left. unfold bind. rewrite E1. exact Y. }
  destruct D as [D|D]; [now right|]. left. assert (U2 : f_fuel (s_fl s2) = None) by (rewrite (ext_fl _ _ X); exact U). destruct (N s2 U2) as (FU & c & NE).
  unfold rel, alike, stops, spent, bind in *. destruct (m1 s1) as [r1 t1] eqn:E1. cbn [fst snd] in *. destruct R as [(R1 & R2)|(e & -> & SM & k & S1 & S2)].
  - destruct (m2 s2) as [r2 t2] eqn:E2. cbn [fst snd] in *. subst r2. destruct r1 as [a|e].
    + assert (U1 : unfueled t1) by (unfold unfueled; rewrite <- (ext_fl _ _ R2); exact FU). destruct (D a t1 t2 eq_refl R2 U1 eq_refl) as [Y|(e & Y1 & Y2 & k & Y3 & Y4)]; [left; exact Y|].
      right. exists e. split; auto. split; auto. exists (c + k). rewrite NE. auto.
    + left. auto.
  - right. exists e. split; auto. split; auto. exists k. destruct (m2 (power s2 (Some k))) as [[a|e2] t3]; cbn [fst snd] in *.
    + destruct S2 as [S2|S2]; [discriminate|]. destruct (I a t3 S2) as (Z1 & Z2). split; auto. eapply same_trans; eauto.
    + split; auto. destruct S2 as [[= ->]|S2]; auto.
Qed.
Lemma relp_rel {A B} (PB : res B -> Prop) (m1 m2 : M K A) (k1 k2 : A -> M K B) s1 s2 : unfueled s1 -> ext s1 s2 -> rel m1 m2 s1 s2 -> needs m2 -> (forall a, idle (k2 a)) ->
  (forall a s1' s2', m1 s1 = (Ok a, s1') -> ext s1' s2' -> unfueled s1' -> relp PB (k1 a) (k2 a) s1' s2') -> relp PB (bind m1 k1) (bind m2 k2) s1 s2.
Proof. intros U X R N I H. apply (relp_bind (fun _ => False)); auto; [now left|tauto]. Qed.
Ltac rp := apply relp_rel; [assumption|assumption|rs|idl|intros ?; idl|].
Definition nice {A} (m : M K A) : Prop := forall s, oks (fst (m s)).
Lemma nice_bind {A B} (m : M K A) (k : A -> M K B) : nice m -> (forall a, nice (k a)) -> nice (bind m k).
Proof. intros H1 H2 s. specialize (H1 s). unfold bind. destruct (m s) as [[a|e] t]; cbn [fst] in *; [apply H2|exact H1]. Qed.
Lemma nice_write a bs : nice (fl_write g a bs). Proof. intros s. unfold fl_write. destruct (dev_write g (s_fl s) a bs) as [[e|] f]; exact I. Qed.
Lemma nice_wr h d a : nice (write_raw g h d a).
Proof. unfold write_raw, hdr_write. cbv zeta. repeat first [apply nice_write|apply nice_bind; [|intros ?]|match goal with |- nice (match ?x with _ => _ end) => destruct x end|intros s; exact I]. Qed.
Lemma nice_notice q k a d : nice (c_notice_key q k a d). Proof. intros s. unfold c_notice_key. destruct (kp_notice _ _ _ _); exact I. Qed.
Lemma stop_loop k v : legal k -> forall n s1 s2, ext s1 s2 -> unfueled s1 -> relp oks (store_loop KO g n k v) (store_stop n k v) s1 s2.
Proof.
  intros LG. induction n as [|n IH]; intros s1 s2 X U; cbn [store_loop store_stop]; [left; rs|]. rp. intros lp t1 t2 _ X1 U1. apply (relp_bind okn); auto; [|idl|intros ?; idl| |].
  - destruct lp as [p|]; [|left; rs]. rp. intros x t3 t4 _ X3 U3. destruct (negb (pstate_eqb x Open)); [left; rs|]. apply relp_rel; auto; [now apply sh_ser|apply ni_ser|intros ?; idl|].
    intros m t5 t6 _ X5 U5. destruct (too_big g m); [left; rs|]. rp. intros [a|] t7 t8 _ X7 U7; [|left; rs]. right.
    assert (NC : nice (c_notice_key (k_eqb KO) k a true ;;; b <- get_buf ;; write_new g a (firstn m b))) by (apply nice_bind; [apply nice_notice|intros ?]; apply nice_bind; [intros ?; exact I|intros ?; apply nice_wr]).
    specialize (NC t7). unfold bind, get_buf in *. destruct (c_notice_key (k_eqb KO) k a true t7) as [[[]|e] t9]; cbn [fst] in *; [|destruct e; cbn in *; tauto]. destruct (write_new g a (firstn m (s_buf t9)) t9) as [[[]|e] t10]; cbn in *; auto.
  - intros r t E O. unfold bind at 1. rewrite E. destruct r as [[x|]|e]; cbn in *; try tauto.
  - intros nx t3 t4 _ X3 U3. destruct nx as [[np|]|]; [| |left; rs].
    + rp. intros x t5 t6 _ X5 U5. destruct (negb (pstate_eqb x Open)); [left; rs|]. rp. intros ? t7 t8 _ X7 U7. cbv zeta. rp. intros x2 t9 t10 _ X9 U9. rp. intros ? t11 t12 _ X11 U11. now apply IH.
    + rp. intros [p|] t5 t6 _ X5 U5; [|left; rs]. rp. intros ? t7 t8 _ X7 U7. now apply IH.
Qed.
Lemma relp_auto {A} (f1 f2 : M K A) : (forall s1 s2, ext s1 s2 -> unfueled s1 -> relp oks f1 f2 s1 s2) -> ni f2 -> forall s1 s2, ext s1 s2 -> unfueled s1 -> relp oks (auto_repair f1 (m_repair KO g)) (auto_repair f2 (m_repair KO g)) s1 s2.
Proof.
  intros H NI s1 s2 X U. assert (NR : ni (m_repair KO g ;;; f2)) by (apply ni_bind; [apply ni_rep|auto]). assert (U2 : f_fuel (s_fl s2) = None) by (rewrite (ext_fl _ _ X); exact U).
  destruct (proj1 NI s2 U2) as (FU & c & NE). unfold relp, rel, alike, stops, spent. rewrite !auto_eq.
  destruct (H s1 s2 X U) as [[(R1 & R2)|(e & R1 & R2 & k & R3 & R4)]|R].
  - destruct (f1 s1) as [r1 t1] eqn:E1, (f2 s2) as [r2 t2] eqn:E2. cbn [fst snd] in *. subst r2. destruct r1 as [a|e]; [right; exact I|].
    destruct e; try (left; left; split; [reflexivity|exact R2]).
    assert (U1 : unfueled t1) by (unfold unfueled; rewrite <- (ext_fl _ _ R2); exact FU).
    assert (SR : relp oks (m_repair KO g ;;; f1) (m_repair KO g ;;; f2) t1 t2).
    { apply relp_rel; auto; [now apply sh_rep|apply ni_rep|intros ?; apply NI]. }
    destruct SR as [[Y|(e & Y1 & Y2 & k & Y3 & Y4)]|Y]; [left; left; exact Y| |right; exact Y]. left. right. exists e. split; [exact Y1|]. split; auto. exists (c + k). rewrite auto_eq, NE. auto.
  - left. right. exists e. destruct (f1 s1) as [r1 t1]. cbn [fst snd] in *. subst r1. split; [destruct e; try discriminate; reflexivity|]. split; auto. exists k.
    rewrite auto_eq. unfold spent in R4. replace (snd (match e with ECorrupted => (m_repair KO g ;;; f1) t1 | _ => (Err e, t1) end)) with t1 by (destruct e; try discriminate; reflexivity).
    destruct (f2 (power s2 (Some k))) as [[a|e2] t3]; cbn [fst snd] in *; [split; auto|].
    destruct R4 as [[= ->]|R4]; [split; auto|]. destruct e2; try (split; [exact R3|right; exact R4]). destruct (proj2 NR t3 R4) as (Z1 & Z2). split; auto. eapply same_trans; eauto.
  - right. destruct (f1 s1) as [[a|e] t1]; [exact I|]. cbn [fst] in *. destruct e; cbn in *; tauto.
Qed.
Lemma stop_store b pad k v s : legal k -> relp oks (m_store KO g b k v) (m_store_stop (b ++ pad) k v) (power s None) (power s None).
Proof.
  intros LG. unfold m_store, m_store_stop. apply relp_rel; auto; [reflexivity|apply ext_refl|apply sh_put; [apply ext_refl|reflexivity]|idl|intros ?; idl|]. intros ? t1 t2 _ X U. apply relp_auto; auto; [|nit].
  clear s t1 t2 X U. intros s1 s2 X U. unfold store_inner. rp. intros ? t1 t2 _ X1 U1. now apply stop_loop.
Qed.
End Short.
