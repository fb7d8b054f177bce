(** From the invariants of SafeQP.v and SafeMP.v to the claims about arbitrary flash contents. *)
From Coq Require Import List NArith ZArith Arith Bool Lia ZifyBool ZifyNat ZifyN.
From Verif Require Import Base BaseP Crc CrcP Flash Cache State Item Generic Queue Map Client MClient GeomP ScanP ItemP WorldP WpP NoiseP SafeP SafeQP SafeMP SafeSpec EraseP.
Import ListNotations.
Local Opaque crc16 acrc crc32.

Lemma tame_no e : tame e -> ~ crash e.
Proof. unfold crash. intros H X. destruct X as [->|[->|[->|[->| ->]]]]; exact H. Qed.
Lemma fine_errs {A} (r : res A) : fine r -> Forall (fun e => ~ crash e) (err_of r).
Proof. destruct r; cbn; auto using tame_no. Qed.
Lemma fine_ans_errs a : fine_ans a -> Forall (fun e => ~ crash e) (q_errs a).
Proof.
  destruct a as [r|r|r|r|r]; cbn [fine_ans q_errs]; auto using (@fine_errs unit), (@fine_errs (option (list N))), (@fine_errs (option nat)), (@fine_errs nat).
  intros (A & B). apply Forall_app. split; [now apply fine_errs|]. destruct r as [l|]; [|constructor]. induction B; cbn [flat_map]; [constructor|]. apply Forall_app. split; auto. now apply fine_errs.
Qed.
Lemma sane_new {K} g f (c : cache K) (J : qiter -> miter -> Prop) : fresh_cache (NP g) c -> J (mkqi (NAddr 0) Unpopped 0) (mkmi 0 0 0 0) -> sane g f J (st_new f c).
Proof. intros F H. split; [split; [reflexivity|split; [intros x _; reflexivity|auto]]|]. split; [now apply fresh_sane|exact H]. Qed.
Lemma sane_used {K} g f J (s : st K) : sane g f J s -> well_used g f (s_fl s).
Proof. intros ((A & B & _) & _). split; auto. Qed.

Section Q.
Context (g : geom) (gok : geom_ok g) (f : flash) (c : cache unit) (Fc : fresh_cache (NP g) c) (evs : list qev) (Fe : forall c', In (EBoot c') evs -> fresh_cache (NP g) c').
Lemma q_any : Forall (fun a => Forall (fun e => ~ crash e) (q_errs a)) (fst (q_run g (st_new f c) evs)) /\ sane g f (anyJ) (snd (q_run g (st_new f c) evs)).
Proof.
  destruct (q_run_safe g gok f evs (st_new f c)) as (A & B); [apply sane_new; [exact Fc|exact I]|exact Fe|]. split; auto. eapply Forall_impl; [|exact A]. apply fine_ans_errs.
Qed.
Lemma walk_safe : forall l s, sane g f (qiok g) s -> Forall fine (fst (q_walk g s l)) /\ sane g f (qiok g) (snd (q_walk g s l)).
Proof.
  induction l as [|[[b pop] p] l IH]; intros s Sn; cbn [q_walk]; [cbn [fst snd]; auto|].
  assert (X : safe g f (qiok g) (put_buf b ;;; q_step g pop) (fun _ _ => True) (power s p)).
  { apply safe_seq; [now apply safe_put_buf|]. intros _ s1 S1. now apply safe_q_step. }
  unfold safe, wp in X. destruct ((put_buf b ;;; q_step g pop) (power s p)) as [r s1]. assert (Y : fine r /\ sane g f (qiok g) s1) by (destruct r; cbn; tauto). destruct Y as (Y1 & Y2).
  destruct (IH s1 Y2) as (Z1 & Z2). destruct (q_walk g s1 l) as [rs s2]. cbn [fst snd] in *. auto.
Qed.
Lemma q_iter_sane s p s1 : sane g f anyJ s -> q_iter g (power s p) = (Ok tt, s1) -> sane g f (qiok g) s1.
Proof.
  intros Sn E. assert (X : safe g f anyJ (q_iter g ;;; (fun s => (Ok tt, s))) (fun _ s' => sane g f (qiok g) s') (power s p)).
  { apply safe_iter; auto. intros s2 S2. split; [split; auto|rst]. }
  unfold safe, wp, bind in X. rewrite E in X. tauto.
Qed.
End Q.

Section Mp.
Context {K : Type} (KO : keyops K) (kfit : forall k n bs, k_ser KO k n = inl bs -> length bs <= n) (g : geom) (gok : geom_ok g).
Lemma item_stored m p a h : p < NP g -> item_at g m p a h -> stored g m p a (rd m (a + HL g) (h_len h)).
Proof.
  intros P ((A & B & C) & H & E). destruct (hdr_at_ok g _ _ _ _ H) as (L & EH & LC). unfold next_addr in L. exists (rd m a (HL g)). rewrite rd_length. unfold al in A. repeat split; auto; try congruence.
Qed.
Lemma short_short m : short KO g m -> short_item KO g m.
Proof.
  intros (p & a & h & P & IT & b & kl & E & L & D). exists p, a, (rd m (a + HL g) (h_len h)), kl. split; [now apply item_stored|]. rewrite rd_length. split; auto.
  destruct D as [(k & D)|D].
  - right. exists (skipn (h_len h) b), k. rewrite <- E, firstn_skipn. exact D.
  - left. now rewrite <- E.
Qed.
Lemma merr_errs (a : mans K) e : In e (m_errs a) -> merr a = Some e.
Proof. destruct a as [[?|?]|[?|?]|[?|?]]; cbn; intros []; subst; easy. Qed.
Lemma tame_mans (a : mans K) : (forall e, merr a = Some e -> tame e) -> Forall (fun e => ~ crash e) (m_errs a).
Proof. intros H. apply Forall_forall. intros e I. apply tame_no, H. now apply merr_errs. Qed.

Context (f : flash) (c : cache K) (Fc : fresh_cache (NP g) c).
Lemma m_any evs : (forall c', In (MBoot c') evs -> fresh_cache (NP g) c') ->
  sane g f anyM (snd (m_run KO g (st_new f c) evs)) /\
  Forall (fun a => Forall (fun e => ~ crash e \/ e = EPanic) (m_errs a)) (fst (m_run KO g (st_new f c) evs)) /\
  ((forall n, ~ short_item KO g (f_mem (s_fl (snd (m_run KO g (st_new f c) (firstn n evs)))))) -> Forall (fun a => Forall (fun e => ~ crash e) (m_errs a)) (fst (m_run KO g (st_new f c) evs))).
Proof.
  intros Fe. destruct (m_run_safe KO kfit g gok f evs (st_new f c)) as (A & B & C); [apply sane_new; [exact Fc|exact I]|exact Fe|]. split; auto. split.
  - eapply Forall_impl; [|exact B]. cbv beta. intros a H. apply Forall_forall. intros e IN. destruct (H e (merr_errs a e IN)) as [X|X]; auto. left. now apply tame_no.
  - intros NS. eapply Forall_impl; [|apply C; intros n X; apply (NS n); now apply short_short]. apply tame_mans.
Qed.
Lemma m_last evs cl p a s' : (forall c', In (MBoot c') evs -> fresh_cache (NP g) c') -> m_exec KO g cl (power (snd (m_run KO g (st_new f c) evs)) p) = (a, s') ->
  (In EPanic (m_errs a) -> decodes cl /\ short_item KO g (f_mem (s_fl s'))) /\ Forall (fun e => ~ crash e \/ e = EPanic) (m_errs a).
Proof.
  intros Fe E. destruct (m_any evs Fe) as (A & _). assert (S1 : sane g f anyM (power (snd (m_run KO g (st_new f c) evs)) p)) by exact A.
  destruct (m_exec_safe KO kfit g gok f cl _ S1) as (B & _). rewrite E in B. cbn [fst snd] in B. split.
  - intros IN. split.
    + destruct cl; try exact I; exfalso; match type of E with m_exec _ _ ?x _ = _ => assert (ND : ~ decodes x) by (intros []) end;
        pose proof (m_exec_safe2 KO kfit g gok f _ _ S1 ND EPanic) as T; rewrite E in T; cbn [fst] in T; apply T; now apply merr_errs.
    + destruct (B EPanic (merr_errs a _ IN)) as [X|(_ & X)]; [destruct X|]. now apply short_short.
  - apply Forall_forall. intros e IN. destruct (B e (merr_errs a e IN)) as [X|(X & _)]; auto. left. now apply tame_no.
Qed.
Lemma m_walk_safe : forall l s, sane g f (miok g) s -> sane g f (miok g) (snd (m_walk KO g s l)) /\ Forall (fun r => Forall (fun e => ~ crash e \/ e = EPanic) (err_of r)) (fst (m_walk KO g s l)).
Proof.
  induction l as [|[b p] l IH]; intros s Sn; cbn [m_walk]; [cbn [fst snd]; auto|].
  pose proof (mild_iter_next KO kfit g gok f b (power s p) Sn) as (X & _). unfold wp in X. destruct (m_iter_next KO g b (power s p)) as [r s1].
  assert (Y : Forall (fun e => ~ crash e \/ e = EPanic) (err_of r) /\ sane g f (miok g) s1).
  { destruct r as [v|e]; cbn [err_of]; [split; [constructor|apply X]|]. destruct X as (X & Y). split; auto. constructor; auto. destruct X as [X|(X & _)]; auto. left. now apply tame_no. }
  destruct Y as (Y1 & Y2). destruct (IH s1 Y2) as (Z1 & Z2). destruct (m_walk KO g s1 l) as [rs s2]. cbn [fst snd] in *. auto.
Qed.
Lemma m_iter_sane s p b s1 : sane g f anyM s -> m_iter KO g b (power s p) = (Ok tt, s1) -> sane g f (miok g) s1.
Proof. intros Sn E. pose proof (safe_m_iter KO kfit g gok f b (power s p) Sn) as X. unfold safe, wp in X. rewrite E in X. tauto. Qed.
End Mp.

Lemma erase_all_used {K} g (s : st K) : geom_ok g -> well_used g (s_fl s) (s_fl (snd (erase_all g s))).
Proof.
  intros G. unfold erase_all, fl_erase, dev_erase. rewrite (chk_all g G). destruct (spend (f_fuel (s_fl s)) (FEND g - START g)) as [[k fu] cr] eqn:SP.
  assert (L : k <= FEND g - START g). { unfold spend in SP. destruct (f_fuel (s_fl s)); [destruct (Nat.leb_spec (FEND g - START g) n) in SP|]; injection SP; intros; lia. }
  assert (X : forall j, j <= k -> forall x, x < START g \/ FEND g <= x -> mem_ff (f_mem (s_fl s)) (START g) j x = f_mem (s_fl s) x).
  { intros j Hj x Hx. apply mem_ff_out. unfold FEND in *. lia. }
  destruct cr; cbn [snd s_fl set_fl]; (split; [reflexivity|]); cbn [f_mem]; apply X; [|auto]. destruct (true && f_ae (s_fl s)); lia.
Qed.
(** The log of refused accesses has an entry for every access that is not in order. *)
Lemma grow {A} (x : A) l : x :: l <> l. Proof. intros H. apply (f_equal (@length A)) in H. cbn in H. lia. Qed.
Lemma chk_order g al a n : chk g al a n = None -> in_order g al a n.
Proof.
  unfold chk. destruct (Nat.eqb_spec (a mod al) 0), (Nat.eqb_spec n 0), (Nat.eqb_spec (n mod al) 0); cbn [negb orb]; try easy. destruct (Nat.ltb_spec a (START g)), (Nat.ltb_spec (FEND g) (a + n)); cbn [orb]; try easy.
  intros _. unfold in_order. repeat split; auto; lia.
Qed.
Lemma read_logged {K} g a n (s : st K) : f_bad (s_fl (snd (fl_read g a n s))) = f_bad (s_fl s) -> in_order g (RS g) a n.
Proof. unfold fl_read, on_read, steady, dev_read. destruct (chk _ _ _ _) eqn:E; [|intros _; now apply chk_order]. cbn. intros H. now apply grow in H. Qed.
Lemma write_logged {K} g a bs (s : st K) : f_bad (s_fl (snd (fl_write g a bs s))) = f_bad (s_fl s) -> in_order g (WS g) a (length bs).
Proof. unfold fl_write, dev_write. destruct (chk _ _ _ _) eqn:E; [|intros _; now apply chk_order]. cbn. intros H. now apply grow in H. Qed.
Lemma erase_logged {K} g a b (s : st K) : f_bad (s_fl (snd (fl_erase g a b s))) = f_bad (s_fl s) -> in_order g (ES g) a (b - a).
Proof. unfold fl_erase, dev_erase. destruct (chk _ _ _ _) eqn:E; [|intros _; now apply chk_order]. cbn. intros H. now apply grow in H. Qed.
