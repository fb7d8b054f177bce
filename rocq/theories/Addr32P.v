(** Proofs for Addr32.v. *)
From Coq Require Import List NArith ZArith Arith Bool Lia ZifyBool ZifyNat ZifyN.
From Verif Require Import Base BaseP Crc CrcP Flash Cache State Item GeomP Addr32.
Import ListNotations.
Local Opaque crc16 acrc crc32.

Section S.
Context {K : Type} (g : geom) (gok : geom_ok g) (chk : bool).
Lemma plus_ok x y : (N.of_nat x + N.of_nat y < 2 ^ 32)%N -> plus32 (K := K) chk x y = ret (x + y).
Proof. intros H. unfold plus32. cbv zeta. destruct (N.ltb_spec (N.of_nat x + N.of_nat y) (2 ^ 32)); [reflexivity|lia]. Qed.
Lemma W32 : W g <= 32. Proof. apply gok. Qed.
Lemma HL40 : HL g < 40. Proof. pose proof (rup_lt g gok 8). pose proof W32. unfold HL. lia. Qed.
Lemma W_HL : W g <= HL g. Proof. exact (HL_W g gok). Qed.
Lemma read_mem a n s r s' : fl_read (K := K) (R := steady) g a n s = (r, s') -> f_mem (s_fl s') = f_mem (s_fl s).
Proof. unfold fl_read. cbn. destruct (dev_read g (s_fl s) a n); intros H; injection H as <- <-; reflexivity. Qed.
Lemma read_bytes a n s b s' : bytes_in s -> fl_read (K := K) (R := steady) g a n s = (Ok b, s') -> Forall is_byte b.
Proof.
  intros B. unfold fl_read. cbn. unfold dev_read. destruct (Flash.chk g (RS g) a n); [discriminate|]. intros H. injection H as <- <-. apply Forall_forall. intros x I. apply in_map_iff in I. destruct I as (y & <- & _). apply B.
Qed.
Lemma hdr_mem a : forall k s r s', read_hdr (K := K) (R := steady) g k a s = (r, s') -> f_mem (s_fl s') = f_mem (s_fl s).
Proof.
  induction k as [|k IH]; intros s r s' H; cbn [read_hdr] in H; unfold bind in H; destruct (fl_read g a (HL g) s) as [[b|e] t] eqn:E; pose proof (read_mem _ _ _ _ _ E) as M.
  - destruct (all_ff b); [injection H as <- <-; auto|]. destruct (lcrc_ok b); injection H as <- <-; auto.
  - injection H as <- <-; auto.
  - destruct (all_ff b); [injection H as <- <-; auto|]. destruct (lcrc_ok b); [injection H as <- <-; auto|]. rewrite (IH _ _ _ H). auto.
  - injection H as <- <-; auto.
Qed.
Lemma hdr_bytes_in a : forall k s b s', bytes_in s -> read_hdr (K := K) (R := steady) g k a s = (Ok (Some b), s') -> Forall is_byte b.
Proof.
  induction k as [|k IH]; intros s b s' B H; cbn [read_hdr] in H; unfold bind in H; destruct (fl_read g a (HL g) s) as [[b'|e] t] eqn:E; try discriminate; pose proof (read_bytes _ _ _ _ _ B E) as Bb; pose proof (read_mem _ _ _ _ _ E) as M.
  - destruct (all_ff b'); [discriminate|]. destruct (lcrc_ok b'); [|discriminate]. injection H as <- <-. auto.
  - destruct (all_ff b'); [discriminate|]. destruct (lcrc_ok b'); [injection H as <- <-; auto|]. apply (IH t b s'); auto. unfold bytes_in. now rewrite M.
Qed.
Lemma in_first {A} (l : list A) n x : In x (firstn n l) -> In x l. Proof. intros I. rewrite <- (firstn_skipn n l). apply in_app_iff. now left. Qed.
Lemma in_skip {A} (l : list A) n x : In x (skipn n l) -> In x l. Proof. intros I. rewrite <- (firstn_skipn n l). apply in_app_iff. now right. Qed.
Lemma len_max b : Forall is_byte b -> (N.of_nat (h_len (hdr_of b)) <= 65535)%N.
Proof.
  intros B. unfold hdr_of, h_len. rewrite N2Nat.id. assert (F : Forall is_byte (len_field b)) by (rewrite Forall_forall in *; intros x I; apply B; unfold len_field in I; apply (in_skip _ 4), (in_first _ 2), I).
  pose proof (le_val_bound _ F) as L. assert (LL : length (len_field b) <= 2) by (unfold len_field; rewrite firstn_length; lia).
  assert (256 ^ N.of_nat (length (len_field b)) <= 65536)%N; [|lia]. change 65536%N with (256 ^ 2)%N. apply N.pow_le_mono_r; lia.
Qed.
Context (e : nat) (E32 : (N.of_nat e + 65566 < 2 ^ 32)%N).
Lemma next_ok a h : a + HL g <= e -> (N.of_nat (h_len h) <= 65535)%N -> next_addr32 (K := K) g chk a h = ret (next_addr g a h).
Proof.
  intros A L. unfold next_addr32, data_addr32. pose proof (rup_lt g gok (h_len h)) as RL. pose proof W32.
  rewrite plus_ok by lia. change (bind (ret (a + HL g)) (fun da => plus32 (K := K) chk da (rup g (h_len h)))) with (plus32 (K := K) chk (a + HL g) (rup g (h_len h))). rewrite plus_ok by lia. reflexivity.
Qed.
Lemma new_ok a s : bytes_in s -> a <= e -> read_new32 (K := K) (R := steady) g chk a (Some e) s = read_new (R := steady) g a (Some e) s.
Proof.
  intros B A. pose proof HL40. unfold read_new32, read_new. rewrite plus_ok by lia. unfold bind at 1. unfold ret at 1. destruct (beyond (Some e) (a + HL g)) eqn:By; [reflexivity|]. cbn in By. apply Nat.ltb_ge in By.
  unfold bind. destruct (read_hdr g 1 a s) as [[[b|]|x] t] eqn:Eh; auto. pose proof (len_max b (hdr_bytes_in a 1 s b t B Eh)) as L. rewrite next_ok by assumption. reflexivity.
Qed.
Lemma new_facts a s r s' : bytes_in s -> read_new (K := K) (R := steady) g a (Some e) s = (r, s') -> f_mem (s_fl s') = f_mem (s_fl s) /\
  match r with Ok (Some h) => a + HL g <= e /\ next_addr g a h <= e /\ (N.of_nat (h_len h) <= 65535)%N | Err ECorrupted => a + HL g <= e | _ => True end.
Proof.
  intros B H. unfold read_new in H. destruct (beyond (Some e) (a + HL g)) eqn:By; [injection H as <- <-; auto|]. cbn in By. apply Nat.ltb_ge in By.
  unfold bind in H. destruct (read_hdr g 1 a s) as [[[b|]|x] t] eqn:Eh; pose proof (hdr_mem _ _ _ _ _ Eh) as M.
  - destruct (beyond (Some e) (next_addr g a (hdr_of b))) eqn:Bn; injection H as <- <-; split; auto. cbn in Bn. apply Nat.ltb_ge in Bn. split; auto. split; auto. apply len_max. exact (hdr_bytes_in a 1 s b t B Eh).
  - injection H as <- <-. auto.
  - injection H as <- <-. split; auto. destruct x; auto.
Qed.
Lemma trav_ok skip : forall f cur s, bytes_in s -> cur <= e -> traverse32 (K := K) (R := steady) g chk f skip cur e s = traverse (R := steady) g f skip cur e s.
Proof.
  induction f as [|f IH]; intros cur s B C; [reflexivity|]. cbn [traverse32 traverse]. unfold attempt, bind at 1. symmetry. unfold bind at 1. cbn [on_result steady]. unfold hand_on. rewrite new_ok by assumption.
  destruct (read_new g cur (Some e) s) as [r t] eqn:En. destruct (new_facts _ _ _ _ B En) as (M & X). assert (Bt : bytes_in t) by (unfold bytes_in; now rewrite M).
  destruct r as [[h|]|x].
  - destruct X as (X1 & X2 & X3). rewrite next_ok by assumption. unfold bind, ret at 2. destruct (skip h); [|reflexivity]. symmetry. apply IH; auto.
  - reflexivity.
  - destruct x; try reflexivity. pose proof W32. pose proof W_HL. rewrite plus_ok by lia. unfold bind, ret. symmetry. apply IH; auto. lia.
Qed.
Lemma item_ok32 h a (s : st K) : a + HL g <= e -> (N.of_nat (h_len h) <= 65535)%N -> forall o, read_item32 (K := K) (R := steady) g chk h a o s = read_item (R := steady) g h a o s.
Proof.
  intros A L o. unfold read_item32, read_item. destruct (h_crc h) as [c|]; [|reflexivity]. cbv zeta. unfold data_addr32. pose proof (rup_lt g gok (h_len h)) as RL. pose proof W32.
  rewrite plus_ok by lia. unfold bind at 1, ret at 1. rewrite plus_ok by lia. unfold bind at 1, ret at 1. reflexivity.
Qed.
Lemma trav_facts skip : forall f cur s r s', bytes_in s -> cur <= e -> traverse (K := K) (R := steady) g f skip cur e s = (r, s') -> bytes_in s' /\
  match r with Ok (Some h, a, nx) => a + HL g <= e /\ nx <= e /\ (N.of_nat (h_len h) <= 65535)%N | _ => True end.
Proof.
  induction f as [|f IH]; intros cur s r s' B C H; [cbn in H; injection H as <- <-; auto|]. cbn [traverse] in H. unfold attempt, bind at 1 in H. cbn [on_result steady] in H. unfold hand_on in H.
  destruct (read_new g cur (Some e) s) as [r0 t] eqn:En. destruct (new_facts _ _ _ _ B En) as (M & X). assert (Bt : bytes_in t) by (unfold bytes_in; now rewrite M).
  destruct r0 as [[h|]|x].
  - destruct X as (X1 & X2 & X3). destruct (skip h); [apply (IH _ _ _ _ Bt X2 H)|]. injection H as <- <-. auto.
  - injection H as <- <-. auto.
  - destruct x; try (injection H as <- <-; auto; fail). pose proof W_HL. apply (IH (cur + W g) t r s'); auto. lia.
Qed.
Lemma data_mem h c da rl : forall k (s : st K) r s', bytes_in s -> read_data (R := steady) g k h c da rl s = (r, s') -> bytes_in s'.
Proof.
  assert (P : forall (s : st K) r s', bytes_in s -> (if rl =? 0 then ret tt else d <- fl_read (R := steady) g da rl ;; b <- get_buf ;; put_buf (put_front d b)) s = (r, s') -> bytes_in s').
  { intros s r s' B H. destruct (rl =? 0); [injection H as <- <-; auto|]. unfold bind in H. destruct (fl_read g da rl s) as [[d|x] t] eqn:E; pose proof (read_mem _ _ _ _ _ E) as M.
    - unfold get_buf, put_buf in H. injection H as <- <-. unfold bytes_in. cbn. now rewrite M.
    - injection H as <- <-. unfold bytes_in. now rewrite M. }
  induction k as [|k IH]; intros s r s' B H; cbn [read_data] in H; unfold bind at 1 in H.
  - match type of H with (let (_, _) := ?X in _) = _ => destruct X as [[u|x] t] eqn:E end; pose proof (P _ _ _ B E) as Bt; [|injection H as <- <-; auto]. unfold bind, get_buf in H. destruct (_ =? _)%N; injection H as <- <-; auto.
  - match type of H with (let (_, _) := ?X in _) = _ => destruct X as [[u|x] t] eqn:E end; pose proof (P _ _ _ B E) as Bt; [|injection H as <- <-; auto]. unfold bind, get_buf in H. destruct (_ =? _)%N; [injection H as <- <-; auto|]. exact (IH _ _ _ Bt H).
Qed.
Lemma item_mem h a o (s : st K) r s' : bytes_in s -> read_item (R := steady) g h a o s = (r, s') -> bytes_in s'.
Proof.
  intros B H. unfold read_item in H. destruct (h_crc h) as [c|]; [|injection H as <- <-; auto]. cbv zeta in H. destruct (beyond _ _); [injection H as <- <-; auto|].
  unfold bind, get_buf in H. destruct (length _ <? _); [injection H as <- <-; auto|]. exact (data_mem _ _ _ _ _ _ _ _ B H).
Qed.
Lemma next_ok32 : forall f cur (s : st K), bytes_in s -> cur <= e -> item_next32 (R := steady) g chk f cur e s = item_next (R := steady) g f cur e s.
Proof.
  induction f as [|f IH]; intros cur s B C; [reflexivity|]. cbn [item_next32 item_next]. unfold bind at 1. symmetry. unfold bind at 1. rewrite trav_ok by assumption.
  destruct (traverse g (tfuel cur e) (fun _ => false) cur e s) as [[[[[h|] a] nx]|x] t] eqn:Et; try reflexivity. destruct (trav_facts _ _ _ _ _ _ B C Et) as (Bt & X1 & X2 & X3).
  unfold bind. rewrite item_ok32 by assumption. destruct (read_item g h a (Some e) t) as [[[?|?|?]|x] u] eqn:Ei; try reflexivity; symmetry; apply IH; auto; exact (item_mem _ _ _ _ _ _ Bt Ei).
Qed.
End S.

(** At the top of the address space. *)
Section Top.
Context (B : nat).
Definition tg : geom := mkgeom 1 8 64 (64 * B) 2.
Definition tb : list N := [1; 0; 0; 0; 255; 255]%N ++ le_bytes 2 (crc16 [255; 255]%N).
Definition tcur : nat := 64 * B + 72.
Definition ts : st unit := st_new (mkflash (fun x => nth (x - tcur) tb 255%N) (fun _ => 0) [] None true 0 []) cache_none.
Lemma tg_ok : geom_ok tg.
Proof. unfold geom_ok. cbn [RS WS ES START NP tg]. change (W tg) with 8. change (HL tg) with 8. split; [lia|]. split; [lia|]. split; [now left|]. split; [reflexivity|]. split; [rewrite Nat.mul_comm; apply Nat.mod_mul; lia|]. lia. Qed.
Lemma t_bytes : bytes_in ts.
Proof.
  intros x. change (is_byte (nth (x - tcur) tb 255%N)). assert (F : Forall is_byte tb) by (repeat constructor; vm_compute; reflexivity).
  destruct (Nat.lt_ge_cases (x - tcur) (length tb)) as [L|L]; [rewrite Forall_forall in F; apply F; now apply nth_In|rewrite nth_overflow by assumption; reflexivity].
Qed.
Lemma rd_shift m a n : rd m a n = map (fun i => m (a + i)) (seq 0 n).
Proof. unfold rd. revert a. induction n as [|n IH]; intros a; [reflexivity|]. cbn [seq map]. rewrite Nat.add_0_r. f_equal. rewrite IH, <- seq_shift, map_map. apply map_ext. intros i. f_equal. lia. Qed.
Context (HB : N.of_nat B = 67108861%N).
Lemma t_read : fl_read (R := steady) tg tcur 8 ts = (Ok tb, ts).
Proof.
  unfold fl_read. cbn [on_read steady]. unfold dev_read. assert (C : chk tg (RS tg) tcur 8 = None).
  { unfold chk. change (RS tg) with 1. rewrite Nat.mod_1_r. cbn [Nat.eqb negb orb Nat.modulo Nat.divmod]. unfold FEND. cbn [START ES NP tg]. unfold tcur.
    replace (64 * B + 72 <? 64 * B) with false by lia. replace (64 * B + 64 * 2 <? 64 * B + 72 + 8) with false by lia. reflexivity. }
  rewrite C. f_equal. f_equal. rewrite rd_shift. etransitivity; [apply map_ext; intros i; change (f_mem (s_fl ts) (tcur + i)) with (nth (tcur + i - tcur) tb 255%N); rewrite (Nat.add_comm tcur i), Nat.add_sub; reflexivity|].
  vm_compute. reflexivity.
Qed.
Lemma t_hdr : read_hdr (R := steady) tg 1 tcur ts = (Ok (Some tb), ts).
Proof.
  cbn [read_hdr]. unfold bind at 1. change (HL tg) with 8. rewrite t_read. assert (A : all_ff tb = false) by (vm_compute; reflexivity). assert (L : lcrc_ok tb = true) by (vm_compute; reflexivity). rewrite A, L. reflexivity.
Qed.
Lemma t_len : N.of_nat (h_len (hdr_of tb)) = 65535%N.
Proof. unfold hdr_of, h_len. rewrite N2Nat.id. vm_compute. reflexivity. Qed.
Lemma t_rup : N.of_nat (rup tg (h_len (hdr_of tb))) = 65536%N.
Proof. unfold rup. change (W tg) with 8. pose proof t_len. rewrite Nat2N.inj_mul. assert (N.of_nat ((h_len (hdr_of tb) + 8 - 1) / 8) = 8192%N); [|lia]. rewrite Nat2N.inj_div. replace (N.of_nat (h_len (hdr_of tb) + 8 - 1)) with 65542%N by lia. reflexivity. Qed.
Lemma t_next c : next_addr32 (K := unit) tg c tcur (hdr_of tb) = if c then fail EPanic else ret (N.to_nat 65424).
Proof.
  unfold next_addr32, data_addr32. change (HL tg) with 8. rewrite plus_ok by (unfold tcur; lia). unfold bind, ret at 1. unfold plus32. cbv zeta. rewrite t_rup.
  assert (X : (N.of_nat (tcur + 8) + 65536 = 2 ^ 32 + 65424)%N) by (unfold tcur; lia). rewrite X. replace (2 ^ 32 + 65424 <? 2 ^ 32)%N with false by lia. destruct c; [reflexivity|]. replace (2 ^ 32 + 65424 - 2 ^ 32)%N with 65424%N by lia. reflexivity.
Qed.
Lemma t_e : dend tg 1 = 64 * B + 120. Proof. unfold dend, pend. cbn [START ES tg]. change (W tg) with 8. lia. Qed.
Lemma t_s : dstart tg 1 = tcur. Proof. unfold dstart, paddr, tcur. cbn [START ES tg]. change (W tg) with 8. lia. Qed.
Lemma t_new : read_new32 (R := steady) tg true tcur (Some (dend tg 1)) ts = (Err EPanic, ts) /\ read_new32 (R := steady) tg false tcur (Some (dend tg 1)) ts = (Ok (Some (hdr_of tb)), ts) /\
  read_new (R := steady) tg tcur (Some (dend tg 1)) ts = (Err ECorrupted, ts).
Proof.
  assert (X : beyond (Some (dend tg 1)) (tcur + 8) = false) by (rewrite t_e; unfold beyond, tcur; lia).
  unfold read_new32, read_new. change (HL tg) with 8. rewrite !plus_ok by (unfold tcur; lia). unfold bind, ret. rewrite X, t_hdr. rewrite !t_next. unfold fail, ret.
  assert (Y : beyond (Some (dend tg 1)) (N.to_nat 65424) = false) by (rewrite t_e; unfold beyond; lia). rewrite Y.
  assert (Z : beyond (Some (dend tg 1)) (next_addr tg tcur (hdr_of tb)) = true) by (unfold next_addr; pose proof t_rup; change (HL tg) with 8; rewrite t_e; unfold beyond, tcur; lia). rewrite Z. auto.
Qed.
Lemma t_trav f : fst (traverse32 (R := steady) tg true (S f) (fun _ => false) tcur (dend tg 1) ts) = Err EPanic /\
  fst (traverse32 (R := steady) tg false (S f) (fun _ => false) tcur (dend tg 1) ts) = Ok (Some (hdr_of tb), tcur, N.to_nat 65424).
Proof.
  destruct t_new as (A & C & _). cbn [traverse32]. unfold attempt, bind. cbn [on_result steady]. unfold hand_on. rewrite A, C. split; [reflexivity|]. rewrite t_next. reflexivity.
Qed.
End Top.
Lemma top_wraps : exists g (s : st unit) h nx, geom_ok g /\ (N.of_nat (FEND g) < 2 ^ 32)%N /\ bytes_in s /\
  (forall f, fst (traverse32 (R := steady) g true (S f) (fun _ => false) (dstart g 1) (dend g 1) s) = Err EPanic) /\
  (forall f, fst (traverse32 (R := steady) g false (S f) (fun _ => false) (dstart g 1) (dend g 1) s) = Ok (Some h, dstart g 1, nx)) /\ nx < START g.
Proof.
  pose (B := N.to_nat 67108861). assert (HB : N.of_nat B = 67108861%N) by apply N2Nat.id. clearbody B. exists (tg B), (ts B), (hdr_of tb), (N.to_nat 65424). rewrite !(t_s B) by assumption.
  split; [apply tg_ok; assumption|]. split; [unfold FEND; cbn [START ES NP tg]; lia|]. split; [apply t_bytes; assumption|]. split; [intros f; now apply t_trav|]. split; [intros f; now apply t_trav|]. cbn [START tg]. lia.
Qed.
