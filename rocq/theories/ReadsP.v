(** Proofs for Reads.v: calls on a device whose reads go wrong in harmless ways do what they do on a device whose reads are right. *)
From Coq Require Import List NArith Arith Bool Lia ZArith ZifyBool ZifyNat ZifyN.
From Verif Require Import Base Crc CrcP Flash Cache State Item Generic Queue Map Codec Client MClient TMap GeomP ScanP FormatSpec FormatP ProgP Reads.
Import ListNotations.
Local Opaque crc16 acrc crc32.

Lemma Forall_fst {A} (P : A -> Prop) n l : Forall P l -> Forall P (firstn n l).
Proof. rewrite !Forall_forall. intros H x I. apply H. rewrite <- (firstn_skipn n l). apply in_or_app. now left. Qed.
Lemma Forall_snd {A} (P : A -> Prop) n l : Forall P l -> Forall P (skipn n l).
Proof. rewrite !Forall_forall. intros H x I. apply H. rewrite <- (firstn_skipn n l). apply in_or_app. now right. Qed.
Section Sim.
Context {K : Type} (g : geom) (gok : geom_ok g) (gl : garbling) (HG : harmless g gl).
Definition rel (s s2 : st K) : Prop := is_mem (f_mem (s_fl s)) /\ exists l, s2 = set_fl s (with_log (s_fl s) l).
Definition holds (F : fact) (m : nat -> N) : Prop := match F with Some (h, a) => hdr_of (rd m a (HL g)) = h /\ lcrc_ok (rd m a (HL g)) = true | None => True end.
Definition sim {A} (F : fact) (m : reader -> M K A) (F1 : A -> fact) : Prop := forall s s2, rel s s2 -> holds F (f_mem (s_fl s)) ->
  fst (m (garbled gl) s2) = fst (m steady s) /\ rel (snd (m steady s)) (snd (m (garbled gl) s2)) /\
  forall a, fst (m steady s) = Ok a -> holds (F1 a) (f_mem (s_fl (snd (m steady s)))).

Lemma local_fl {A} (m : M K A) s : local m -> s_fl (snd (m s)) = s_fl s.
Proof. intros L. destruct (L s) as (_ & L'). clear L. rename L' into L. specialize (L (s_fl s)). replace (set_fl s (s_fl s)) with s in L by (destruct s; reflexivity). rewrite L at 1. reflexivity. Qed.

Lemma set_fl2 (s : st K) f f' : set_fl (set_fl s f) f' = set_fl s f'. Proof. reflexivity. Qed.
(* one read *)
Lemma read_noisy a n s s2 : rel s s2 ->
  match dev_read g (s_fl s) a n with
  | inl b => exists t l, fl_read (R := garbled gl) g a n s2 = (Ok (gl t (f_mem (s_fl s)) a n), set_fl s (with_log (s_fl s) l)) /\ length l = S t /\ b = rd (f_mem (s_fl s)) a n
  | inr e => exists l, fl_read (R := garbled gl) g a n s2 = (Err (EStorage e), set_fl s (with_log (s_fl s) l))
  end.
Proof.
  intros (IM & l & ->). unfold fl_read, on_read, garbled, dev_read. cbn [s_fl set_fl]. destruct (chk g (RS g) a n) as [e|].
  - exists ((a, n) :: l). reflexivity.
  - exists (length l), ((a, n) :: l). split; [reflexivity|]. split; reflexivity.
Qed.

Lemma rel_log s l : is_mem (f_mem (s_fl s)) -> rel s (set_fl s (with_log (s_fl s) l)).
Proof. intros IM. split; [exact IM|]. now exists l. Qed.
Lemma rel_err s l a n : is_mem (f_mem (s_fl s)) -> rel (set_fl s (refuse (s_fl s) a n)) (set_fl s (with_log (s_fl s) l)).
Proof. intros IM. split; [exact IM|]. now exists l. Qed.
Lemma steady_read a n s : fl_read (K := K) g a n s =
  match dev_read g (s_fl s) a n with inl b => (Ok b, s) | inr e => (Err (EStorage e), set_fl s (refuse (s_fl s) a n)) end.
Proof. reflexivity. Qed.
Lemma gl_cases t m a n : is_mem m -> gl t m a n = rd m a n \/
  length (gl t m a n) = n /\ Forall is_byte (gl t m a n) /\ (n = RS g -> marked (gl t m a n) = marked (rd m a n)) /\
  (n = HL g -> all_ff (gl t m a n) = false /\ lcrc_ok (gl t m a n) = false) /\
  (forall h c a0 , a = a0 + HL g -> rup g (h_len h) = n -> h_crc h = Some c -> hdr_of (rd m a0 (HL g)) = h -> lcrc_ok (rd m a0 (HL g)) = true ->
     acrc (firstn (h_len h) (rd m a n)) = c /\ acrc (firstn (h_len h) (gl t m a n)) <> c) /\
  forall m' a' n', gl (S t) m' a' n' = rd m' a' n'.
Proof.
  intros IM. destruct (HG t m a n) as [E|(L & B & AM & AH & AD & NX)]; [left; now rewrite E, bytes_eq|right].
  set (x := gl t m a n) in *. split; [exact L|]. split; [exact B|].
  split; [|split; [|split]].
  - intros E. unfold as_marker in AM. rewrite L in AM. specialize (AM E). rewrite mark_eq in AM. unfold marked at 1. rewrite zeros_eq. rewrite AM. now rewrite E.
  - intros E. unfold as_header in AH. rewrite (words_eq g gok), L in AH. specialize (AH E). destruct AH as (A1 & A2). split; [exact A1|].
    unfold lcrc_ok. apply N.eqb_neq. intros X. apply A2. rewrite check16_eq.
    2:{ apply Forall_fst, Forall_snd, B. }
    change (firstn 2 (skipn 4 x)) with (len_field x). rewrite X. unfold lcrc_field.
    assert (8 <= length x) by (rewrite L, E; apply (HL_8 g gok)). clear - H. clearbody x. do 8 (destruct x as [|? x]; [cbn in H; lia|]). reflexivity.
  - intros h c a0 -> RU HC HH LC. unfold as_data in AD. specialize (AD a0 (h_len h)). rewrite !(words_eq g gok), L in AD. specialize (AD eq_refl RU).
    rewrite !num_eq, !bytes_eq in AD.
    assert (C : le_val (rd m a0 4) = c).
    { rewrite (f_crc g gok). rewrite <- HH in HC. unfold hdr_of in HC. cbn [h_crc] in HC. destruct (N.eqb_spec (le_val (firstn 4 (rd m a0 (HL g)))) 0); [discriminate|]. now injection HC. }
    assert (NZ : c <> 0%N). { intros ->. rewrite <- HH in HC. unfold hdr_of in HC. cbn [h_crc] in HC. rewrite <- (f_crc g gok), C in HC. discriminate. }
    rewrite C in AD. specialize (AD NZ).
    assert (LL : le_val (rd m (a0 + 4) 2) = N.of_nat (h_len h)). { rewrite (f_len g gok). rewrite <- HH. unfold hdr_of. cbn [h_len]. now rewrite N2Nat.id. }
    specialize (AD LL). rewrite (f_lcrc g gok), (f_len g gok) in AD. rewrite check16_eq in AD by (apply Forall_fst, Forall_snd, rd_bytes, IM).
    unfold lcrc_ok in LC. apply N.eqb_eq in LC. specialize (AD (eq_sym LC)). destruct AD as (D1 & D2).
    assert (LE : h_len h <= n) by (rewrite <- RU; apply rup_ge; auto).
    rewrite check32_eq in D1 by (apply rd_bytes, IM). rewrite check32_eq in D2 by (apply Forall_fst, B). rewrite rd_firstn by exact LE. split; auto.
  - intros m' a' n'. rewrite NX. apply bytes_eq.
Qed.

Lemma sim_hdr_read a s s2 : rel s s2 ->
  fst (read_hdr (R := garbled gl) g 1 a s2) = fst (read_hdr g 1 a s) /\ rel (snd (read_hdr g 1 a s)) (snd (read_hdr (R := garbled gl) g 1 a s2)).
Proof.
  intros RL. pose proof RL as (IM & _). cbn [read_hdr]. unfold bind. rewrite steady_read. pose proof (read_noisy a (HL g) s s2 RL) as E. destruct (dev_read g (s_fl s) a (HL g)) as [b|e] eqn:DR.
  2:{ destruct E as (l & ->). cbn [fst snd]. split; auto. now apply rel_err. }
  destruct E as (t & l & -> & LL & ->). set (m := f_mem (s_fl s)) in *. cbv iota.
  assert (RL2 : rel s (set_fl s (with_log (s_fl s) l))) by now apply rel_log.
  pose proof (read_noisy a (HL g) s _ RL2) as E2. rewrite DR in E2. destruct E2 as (t2 & l2 & E2 & LL2 & _). fold m in E2.
  assert (T2 : t2 = S t).
  { revert E2 LL2. unfold fl_read, on_read, garbled. cbn [s_fl set_fl with_log]. unfold dev_read in DR |- *. destruct (chk g (RS g) a (HL g)); [discriminate|]. cbn [f_bad]. intros E2 L2.
    assert (l2 = (a, HL g) :: l). { apply (f_equal snd) in E2. cbn in E2. apply (f_equal s_fl) in E2. cbn in E2. now injection E2. }
    subst l2. cbn in L2. lia. }
  subst t2.
  destruct (gl_cases t m a (HL g) IM) as [E|(L & B & _ & AH & _ & NX)].
  - rewrite E. destruct (all_ff (rd m a (HL g))) eqn:AF; [cbn; split; auto|]. destruct (lcrc_ok (rd m a (HL g))) eqn:LC; [cbn; split; auto|].
    rewrite E2, steady_read, DR. fold m. rewrite AF, LC.
    destruct (gl_cases (S t) m a (HL g) IM) as [E3|(L3 & B3 & _ & AH3 & _)].
    + rewrite E3, AF, LC. cbn. split; auto. now apply rel_log.
    + destruct (AH3 eq_refl) as (-> & ->). cbn. split; auto. now apply rel_log.
  - destruct (AH eq_refl) as (-> & ->). rewrite E2, NX. destruct (all_ff (rd m a (HL g))) eqn:AF; [cbn; split; auto; now apply rel_log|]. destruct (lcrc_ok (rd m a (HL g))) eqn:LC; [cbn; split; auto; now apply rel_log|].
    rewrite steady_read, DR. fold m. rewrite AF, LC. cbn. split; auto. now apply rel_log.
Qed.

(* two reads of the same bytes in a row *)
Lemma two_reads a n s s2 : rel s s2 ->
  match dev_read g (s_fl s) a n with
  | inl b => exists t l l2, fl_read (R := garbled gl) g a n s2 = (Ok (gl t (f_mem (s_fl s)) a n), set_fl s (with_log (s_fl s) l)) /\ b = rd (f_mem (s_fl s)) a n /\
      forall x, fl_read (R := garbled gl) g a n (set_buf (set_fl s (with_log (s_fl s) l)) x) = (Ok (gl (S t) (f_mem (s_fl s)) a n), set_buf (set_fl s (with_log (s_fl s) l2)) x)
  | inr e => exists l, fl_read (R := garbled gl) g a n s2 = (Err (EStorage e), set_fl s (with_log (s_fl s) l))
  end.
Proof.
  intros (IM & l & ->). unfold fl_read, on_read, garbled, dev_read. cbn [s_fl set_fl]. unfold with_log at 1. cbn [f_mem]. destruct (chk g (RS g) a n) as [e|] eqn:C.
  - exists ((a, n) :: l). reflexivity.
  - exists (length l), ((a, n) :: l), ((a, n) :: (a, n) :: l). split; [reflexivity|]. split; [reflexivity|]. intros x. cbn [s_fl set_fl set_buf]. reflexivity.
Qed.

Lemma sim_read_new F a e : sim F (fun R => read_new g a e) (fun o => match o with Some h => Some (h, a) | None => None end).
Proof.
  intros s s2 RL _. unfold read_new. destruct (beyond e (a + HL g)); [cbn; split; auto; split; auto; intros o [= <-]; exact I|]. unfold bind.
  destruct (sim_hdr_read a s s2 RL) as (E1 & E2).
  assert (P : forall b, fst (read_hdr g 1 a s) = Ok (Some b) -> b = rd (f_mem (s_fl (snd (read_hdr g 1 a s)))) a (HL g) /\ lcrc_ok b = true).
  { intros b. cbn [read_hdr]. unfold bind. rewrite steady_read. destruct (dev_read g (s_fl s) a (HL g)) as [b'|e'] eqn:DR; [|discriminate].
    assert (BB : b' = rd (f_mem (s_fl s)) a (HL g)) by (unfold dev_read in DR; destruct (chk _ _ _ _); [discriminate|now injection DR]).
    destruct (all_ff b'); [discriminate|]. destruct (lcrc_ok b') eqn:LC; [cbn; intros [= <-]; auto|]. rewrite steady_read, DR. destruct (all_ff b'); [discriminate|]. rewrite LC. discriminate. }
  destruct (read_hdr g 1 a s) as [[o|x] s1]; destruct (read_hdr (R := garbled gl) g 1 a s2) as [r2 s3]; cbn [fst snd] in E1, E2, P; subst r2; [|cbn; split; auto; split; auto; discriminate].
  destruct o as [b|]; [|cbn; split; auto; split; auto; intros o [= <-]; exact I]. destruct (P b eq_refl) as (Hb & LC). destruct (beyond e (next_addr g a (hdr_of b))); cbn; (split; [reflexivity|]; split; [exact E2|]); intros o [= <-].
  cbn. rewrite <- Hb. auto.
Qed.
Lemma put_front2 (x d b : list N) : length x = length d -> put_front d (put_front x b) = put_front d b.
Proof. intros E. unfold put_front. f_equal. rewrite <- E. rewrite skipn_app. rewrite skipn_all2 by lia. rewrite Nat.sub_diag. reflexivity. Qed.
Lemma firstn_front n (d b : list N) : n <= length d -> firstn n (put_front d b) = firstn n d.
Proof. intros L. unfold put_front. rewrite firstn_app. replace (n - length d) with 0 by lia. cbn. apply app_nil_r. Qed.
Lemma rel_buf s s2 b : rel s s2 -> rel (set_buf s b) (set_buf s2 b).
Proof. intros (IM & l & ->). split; [exact IM|]. exists l. reflexivity. Qed.
Lemma sim_read_item h a e : sim (Some (h, a)) (fun R => read_item g h a e) (fun _ => None).
Proof.
  intros s s2 RL (HH & LC). pose proof RL as (IM & l0 & S2). unfold read_item. destruct (h_crc h) as [c|] eqn:HC; [|cbn; split; auto; split; auto; intros ? _; exact I].
  destruct (beyond e (a + HL g + rup g (h_len h))); [cbn; split; auto; split; auto; intros ? _; exact I|].
  unfold bind, get_buf. cbv iota. assert (B2 : s_buf s2 = s_buf s) by (subst s2; reflexivity). rewrite B2.
  destruct (length (s_buf s) <? rup g (h_len h)) eqn:BL; [cbn; split; auto; split; auto; intros ? _; exact I|]. apply Nat.ltb_ge in BL.
  set (n := rup g (h_len h)) in *. assert (LN : h_len h <= n) by (apply rup_ge; auto).
  cut (fst (read_data (R := garbled gl) g 1 h c (a + HL g) n s2) = fst (read_data g 1 h c (a + HL g) n s) /\ rel (snd (read_data g 1 h c (a + HL g) n s)) (snd (read_data (R := garbled gl) g 1 h c (a + HL g) n s2))).
  { intros (X & Y). split; auto. split; auto. intros ? _. exact I. }
  cbn [read_data]. destruct (n =? 0) eqn:N0.
  { unfold bind, ret, get_buf. rewrite B2. destruct (_ =? c)%N; cbn; auto. rewrite B2. destruct (_ =? c)%N; cbn; auto. }
  unfold bind, get_buf, put_buf. rewrite !steady_read. pose proof (two_reads (a + HL g) n s s2 RL) as E. destruct (dev_read g (s_fl s) (a + HL g) n) as [b|x] eqn:DR.
  2:{ destruct E as (l & ->). cbn. split; auto. now apply rel_err. }
  destruct E as (t & l & l2 & E1 & -> & E2). rewrite E1. set (m := f_mem (s_fl s)) in *. set (d := rd m (a + HL g) n) in *. cbn [s_buf set_fl].
  assert (LD : length d = n) by (unfold d, rd; now rewrite map_length, seq_length).
  destruct (gl_cases t m (a + HL g) n IM) as [E|(L & B & _ & _ & AD & NX)].
  - rewrite E. fold d. cbn [s_buf set_buf]. rewrite !firstn_front by lia. destruct (N.eqb_spec (acrc (firstn (h_len h) d)) c) as [EQ|NE]; [cbn; split; auto; apply rel_buf; now apply rel_log|].
    rewrite E2. cbn [s_buf set_buf set_fl].
    rewrite steady_read. cbn [s_fl set_buf]. rewrite DR. fold m. cbn [s_buf set_buf]. fold d.
    destruct (gl_cases (S t) m (a + HL g) n IM) as [E3|(L3 & B3 & _ & _ & AD3 & _)].
    + rewrite E3. fold d. rewrite !firstn_front by lia. destruct (N.eqb_spec (acrc (firstn (h_len h) d)) c); [contradiction|]. cbn. split; auto. split; [exact IM|exists l2; rewrite ?put_front2 by lia; reflexivity].
    + exfalso. destruct (AD3 h c a eq_refl eq_refl HC HH LC) as (A1 & _). fold d in A1. contradiction.
  - destruct (AD h c a eq_refl eq_refl HC HH LC) as (A1 & A2). fold d in A1. cbn [s_buf set_buf]. rewrite !firstn_front by lia. apply N.eqb_eq in A1. rewrite A1. apply N.eqb_neq in A2. rewrite A2.
    rewrite E2, NX. fold d. cbn [s_buf set_buf set_fl]. rewrite put_front2 by lia. rewrite !firstn_front by lia. rewrite A1. cbn. split; auto. split; [exact IM|exists l2; rewrite ?put_front2 by lia; reflexivity].
Qed.
Lemma mark_read a s s2 : rel s s2 ->
  match dev_read g (s_fl s) a (RS g) with
  | inl b => exists x l, fl_read (R := garbled gl) g a (RS g) s2 = (Ok x, set_fl s (with_log (s_fl s) l)) /\ marked x = marked b
  | inr e => exists l, fl_read (R := garbled gl) g a (RS g) s2 = (Err (EStorage e), set_fl s (with_log (s_fl s) l))
  end.
Proof.
  intros RL. pose proof RL as (IM & _). pose proof (read_noisy a (RS g) s s2 RL) as E. destruct (dev_read g (s_fl s) a (RS g)) as [b|e]; auto. destruct E as (t & l & E & _ & ->). exists (gl t (f_mem (s_fl s)) a (RS g)), l. split; auto.
  destruct (gl_cases t (f_mem (s_fl s)) a (RS g) IM) as [->|(_ & _ & AM & _)]; auto.
Qed.
Lemma sim_page_state F p : sim F (fun R => page_state g p) (fun _ => F).
Proof.
  intros s s2 RL HF. pose proof RL as (IM & _). unfold page_state, bind. rewrite steady_read. pose proof (mark_read (paddr g p) s s2 RL) as E. destruct (dev_read g (s_fl s) (paddr g p) (RS g)) as [b|e].
  2:{ destruct E as (l & ->). cbn. split; auto. split; [now apply rel_err|discriminate]. }
  destruct E as (x & l & -> & E1). rewrite steady_read. pose proof (mark_read (paddr g p + (ES g - RS g)) s _ (rel_log s l IM)) as E. destruct (dev_read g (s_fl s) (paddr g p + (ES g - RS g)) (RS g)) as [b2|e].
  2:{ destruct E as (l2 & ->). cbn. split; auto. split; [now apply rel_err|discriminate]. }
  destruct E as (x2 & l2 & -> & E2). rewrite E1, E2. destruct (marked b), (marked b2); cbn; (split; [reflexivity|]; split; [now apply rel_log|]); auto; discriminate.
Qed.
Lemma sim_write F a bs : sim F (fun _ => fl_write g a bs) (fun _ => None).
Proof.
  intros s s2 (IM & l & ->) _. unfold fl_write, dev_write. cbn [s_fl set_fl]. unfold with_log at 1 2. cbn [f_fuel f_aw]. destruct (chk g (WS g) a (length bs)).
  - cbn. split; auto. split; [|discriminate]. split; [exact IM|]. eexists. reflexivity.
  - unfold with_log. cbn [f_fuel f_aw f_mem f_wc f_er f_ae f_bad]. destruct (spend (f_fuel (s_fl s)) (length bs)) as [[k fu] cr]. destruct cr; cbn; (split; [reflexivity|]; split; [split; [apply mem_and_mem, IM|eexists; reflexivity]|]); auto.
Qed.
Lemma sim_erase F a b : sim F (fun _ => fl_erase g a b) (fun _ => None).
Proof.
  intros s s2 (IM & l & ->) _. unfold fl_erase, dev_erase. cbn [s_fl set_fl]. unfold with_log at 1 2. cbn [f_fuel f_ae]. destruct (chk g (ES g) a (b - a)).
  - cbn. split; auto. split; [|discriminate]. split; [exact IM|]. eexists. reflexivity.
  - unfold with_log. cbn [f_fuel f_aw f_mem f_wc f_er f_ae f_bad]. destruct (spend (f_fuel (s_fl s)) (b - a)) as [[k fu] cr]. destruct cr; cbn; (split; [reflexivity|]; split; [split; [apply mem_ff_mem, IM|eexists; reflexivity]|]); auto.
Qed.
Lemma prog_sim A F m F1 : @progb K g true A F m F1 -> sim F m F1.
Proof.
  revert A F m F1. apply prog_ind1; intros.
  - intros s s2 (IM & l & ->) HF. rewrite (proj2 (H s)). cbn. pose proof (local_fl m s H) as E. split; auto. split; [|intros a _; now rewrite E]. split; [now rewrite E|]. exists l. now rewrite E.
  - intros s s2 RL _. cbn. split; auto. split; auto. discriminate.
  - intros s s2 RL HF. cbn. split; auto. split; auto. intros a' [= <-]. destruct H as [E|E]; rewrite E; [exact HF|exact I].
  - apply sim_write.
  - apply sim_erase.
  - apply sim_page_state.
  - apply sim_read_new.
  - apply sim_read_item.
  - intros s s2 RL HF. unfold bind. destruct (IHprog s s2 RL HF) as (E1 & R1 & HP). destruct (m (garbled gl) s2) as [r2 s2'], (m steady s) as [r1 s1']. cbn [fst snd] in *. subst r2. destruct r1 as [a|e].
    + apply (H1 a); auto.
    + cbn. split; auto. split; auto. discriminate.
  - intros s s2 RL HF. unfold bind, attempt. cbn [on_result steady garbled]. unfold hand_on. destruct (IHprog s s2 RL HF) as (E1 & R1 & HP).
    destruct (m (garbled gl) s2) as [r2 s2'], (m steady s) as [r1 s1'] eqn:EM. cbn [fst snd] in *. subst r2. apply (H1 r1); auto; [|destruct r1; [now apply HP|exact I]]. pose proof (prog_ends g F m F1 H s) as NE. now rewrite EM in NE.
  - intros s s2 RL HF. destruct (IHprog s s2 RL HF) as (E1 & R1 & _). split; auto. split; auto. intros ? _. exact I.
  - intros s s2 RL HF. apply IHprog; auto. exact I.
Qed.
End Sim.

Section Runs.
Context (g : geom) (gok : geom_ok g) (gl : garbling) (HG : harmless g gl).
Lemma sim_run {K A} (m : reader -> M K A) s s2 : @progb K g true A None m (fun _ => None) -> rel s s2 -> fst (m (garbled gl) s2) = fst (m steady s) /\ rel (snd (m steady s)) (snd (m (garbled gl) s2)).
Proof. intros P RL. destruct (prog_sim g gok gl HG A None m _ P s s2 RL I) as (E & R & _). auto. Qed.
Lemma rel_power {K} (s s2 : st K) p : rel s s2 -> rel (power s p) (power s2 p).
Proof. intros (IM & l & ->). split; [exact IM|]. exists l. reflexivity. Qed.
Lemma rel_boot {K} (s s2 : st K) c : rel s s2 -> rel (set_ca s c) (set_ca s2 c).
Proof. intros (IM & l & ->). split; [exact IM|]. exists l. reflexivity. Qed.
Lemma q_exec_sim c s s2 : rel s s2 -> fst (q_exec (R := garbled gl) g c s2) = fst (q_exec g c s) /\ rel (snd (q_exec g c s)) (snd (q_exec (R := garbled gl) g c s2)).
Proof.
  intros RL. destruct c; cbn [q_exec]; unfold ans1; cbn [fst snd].
  - destruct (sim_run _ s s2 (p_push g d ow) RL) as (-> & ?). auto.
  - destruct (sim_run _ s s2 (p_q_pop g b) RL) as (-> & ?). auto.
  - destruct (sim_run _ s s2 (p_q_peek g b) RL) as (-> & ?). auto.
  - destruct (sim_run _ s s2 (p_q_iterate g sc) RL) as (-> & ?). auto.
  - destruct (sim_run _ s s2 (p_max_fit g) RL) as (-> & ?). auto.
  - destruct (sim_run _ s s2 (p_space_left g) RL) as (-> & ?). auto.
Qed.
Lemma q_run_sim evs : forall s s2, rel s s2 -> fst (q_run (R := garbled gl) g s2 evs) = fst (q_run g s evs) /\ rel (snd (q_run g s evs)) (snd (q_run (R := garbled gl) g s2 evs)).
Proof.
  induction evs as [|[c p|c] evs IH]; intros s s2 RL; cbn [q_run].
  - auto.
  - destruct (q_exec_sim c _ _ (rel_power s s2 p RL)) as (E & R2). destruct (q_exec g c (power s p)) as [a1 s1], (q_exec (R := garbled gl) g c (power s2 p)) as [a2 s3]. cbn [fst snd] in *. subst a2.
    destruct (IH s1 s3 R2) as (E2 & R3). destruct (q_run g s1 evs), (q_run (R := garbled gl) g s3 evs). cbn [fst snd] in *. subst. auto.
  - apply IH. now apply rel_boot.
Qed.
Section MRun.
Context {K : Type} (KO : keyops K).
Lemma m_exec_sim c s s2 : rel s s2 -> fst (m_exec (R := garbled gl) KO g c s2) = fst (m_exec KO g c s) /\ rel (snd (m_exec KO g c s)) (snd (m_exec (R := garbled gl) KO g c s2)).
Proof.
  intros RL. destruct c; cbn [m_exec]; unfold mans1; cbn [fst snd].
  - destruct (sim_run _ s s2 (p_store KO g b k v) RL) as (-> & ?). auto.
  - destruct (sim_run _ s s2 (p_fetch KO g b k) RL) as (-> & ?). auto.
  - destruct (sim_run _ s s2 (p_remove KO g b k) RL) as (-> & ?). auto.
  - destruct (sim_run _ s s2 (p_remove_all KO g b) RL) as (-> & ?). auto.
  - destruct (sim_run _ s s2 (p_m_iterate KO g b bs) RL) as (-> & ?). auto.
Qed.
Lemma m_run_sim evs : forall s s2, rel s s2 -> fst (m_run (R := garbled gl) KO g s2 evs) = fst (m_run KO g s evs) /\ rel (snd (m_run KO g s evs)) (snd (m_run (R := garbled gl) KO g s2 evs)).
Proof.
  induction evs as [|[c p|c] evs IH]; intros s s2 RL; cbn [m_run].
  - auto.
  - destruct (m_exec_sim c _ _ (rel_power s s2 p RL)) as (E & R2). destruct (m_exec KO g c (power s p)) as [a1 s1], (m_exec (R := garbled gl) KO g c (power s2 p)) as [a2 s3]. cbn [fst snd] in *. subst a2.
    destruct (IH s1 s3 R2) as (E2 & R3). destruct (m_run KO g s1 evs), (m_run (R := garbled gl) KO g s3 evs). cbn [fst snd] in *. subst. auto.
  - apply IH. now apply rel_boot.
Qed.
End MRun.
End Runs.
Lemma rel_same {K} (s s2 : st K) : rel s s2 -> same_but_log s s2.
Proof. intros (_ & l & ->). now exists l. Qed.
Lemma rel_start {K} (s : st K) : (forall x, is_byte (f_mem (s_fl s) x)) -> rel s s.
Proof. intros H. split; [exact H|]. exists (f_bad (s_fl s)). destruct s as [[? ? ? ? ? ? ?] ? ? ? ?]. reflexivity. Qed.
Lemma q_reads g gl s evs : geom_ok g -> (forall x, is_byte (f_mem (s_fl s) x)) -> harmless g gl ->
  fst (q_run (R := garbled gl) g s evs) = fst (q_run g s evs) /\ same_but_log (snd (q_run g s evs)) (snd (q_run (R := garbled gl) g s evs)).
Proof. intros G B H. destruct (q_run_sim g G gl H evs s s (rel_start s B)) as (E & R). split; [exact E|now apply rel_same]. Qed.
Lemma m_reads {K} (KO : keyops K) g gl s evs : geom_ok g -> (forall x, is_byte (f_mem (s_fl s) x)) -> harmless g gl ->
  fst (m_run (R := garbled gl) KO g s evs) = fst (m_run KO g s evs) /\ same_but_log (snd (m_run KO g s evs)) (snd (m_run (R := garbled gl) KO g s evs)).
Proof. intros G B H. destruct (m_run_sim g G gl H KO evs s s (rel_start s B)) as (E & R). split; [exact E|now apply rel_same]. Qed.
Lemma t_run_sim {K} (KO : keyops K) g gl evs : geom_ok g -> harmless g gl -> forall s s2, rel s s2 ->
  fst (t_run (R := garbled gl) KO g s2 evs) = fst (t_run KO g s evs) /\ rel (snd (t_run KO g s evs)) (snd (t_run (R := garbled gl) KO g s2 evs)).
Proof.
  intros G H. induction evs as [|[T V b k v p|[c p|c]] evs IH]; intros s s2 RL; cbn [t_run].
  - auto.
  - unfold mans1. destruct (sim_run g G gl H _ _ _ (p_t_store KO g V b k v) (rel_power s s2 p RL)) as (E & R2). destruct (t_store KO g V b k v (power s p)) as [a1 s1], (t_store (R := garbled gl) KO g V b k v (power s2 p)) as [a2 s3].
    cbn [fst snd] in *. subst a2. destruct (IH s1 s3 R2) as (E2 & R3). destruct (t_run KO g s1 evs), (t_run (R := garbled gl) KO g s3 evs). cbn [fst snd] in *. subst. auto.
  - destruct (m_exec_sim g G gl H KO c _ _ (rel_power s s2 p RL)) as (E & R2). destruct (m_exec KO g c (power s p)) as [a1 s1], (m_exec (R := garbled gl) KO g c (power s2 p)) as [a2 s3]. cbn [fst snd] in *. subst a2.
    destruct (IH s1 s3 R2) as (E2 & R3). destruct (t_run KO g s1 evs), (t_run (R := garbled gl) KO g s3 evs). cbn [fst snd] in *. subst. auto.
  - apply IH. now apply rel_boot.
Qed.
Lemma t_reads {K} (KO : keyops K) g gl s evs : geom_ok g -> (forall x, is_byte (f_mem (s_fl s) x)) -> harmless g gl ->
  fst (t_run (R := garbled gl) KO g s evs) = fst (t_run KO g s evs) /\ same_but_log (snd (t_run KO g s evs)) (snd (t_run (R := garbled gl) KO g s evs)).
Proof. intros G B H. destruct (t_run_sim KO g gl evs G H s s (rel_start s B)) as (E & R). split; [exact E|now apply rel_same]. Qed.
