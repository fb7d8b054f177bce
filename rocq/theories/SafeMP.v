(** The map on arbitrary flash contents. *)
From Coq Require Import List NArith ZArith Arith Bool Lia ZifyBool ZifyNat ZifyN.
From Verif Require Import Base BaseP Crc CrcP Flash Cache State Item Generic Queue Map Client MClient CalcP GeomP ScanP ItemP WorldP WpP NoiseP SafeP SafeQP.
Import ListNotations.
Local Opaque crc16 acrc crc32.

Section KeyIn.
Context {K : Type} (eqb : K -> K -> bool).
Lemma in_list_set {A} (l : list A) i x y : In y (list_set l i x) -> y = x \/ In y l.
Proof. revert i. induction l as [|h l IH]; intros [|i]; cbn; intros H; auto; destruct H as [H|H]; auto. destruct (IH i H); auto. Qed.
Lemma in_front {A} (l : list A) i y : In y (move_to_front l i) -> In y l.
Proof.
  unfold move_to_front. destruct (nth_error l i) eqn:E; auto. intros [<-|H]; [eapply nth_error_In; eauto|]. apply in_app_iff in H. destruct H as [H|H].
  - rewrite <- (firstn_skipn i l). apply in_app_iff. auto.
  - rewrite <- (firstn_skipn (S i) l). apply in_app_iff. auto.
Qed.
Lemma in_back {A} (l : list A) i y : In y (move_to_back l i) -> In y l.
Proof.
  unfold move_to_back. destruct (nth_error l i) eqn:E; auto. intros H. apply in_app_iff in H. destruct H as [H|H]; [rewrite <- (firstn_skipn i l); apply in_app_iff; auto|].
  apply in_app_iff in H. destruct H as [H|[<-|[]]]; [rewrite <- (firstn_skipn (S i) l); apply in_app_iff; auto|eapply nth_error_In; eauto].
Qed.
Lemma front_ne {A} (l : list A) i : l <> [] -> move_to_front l i <> []. Proof. unfold move_to_front. destruct (nth_error l i); easy. Qed.
Lemma back_ne {A} (l : list A) i : l <> [] -> move_to_back l i <> [].
Proof. unfold move_to_back. destruct (nth_error l i); auto. intros _ H. apply app_eq_nil in H. destruct H as (_ & H). now apply app_eq_nil in H. Qed.
Lemma set_ne {A} (l : list A) i x : l <> [] -> list_set l i x <> []. Proof. destruct l, i; easy. Qed.
Lemma kp_find_in : forall (l : list (option (K * nat))) k i j a, kp_find eqb l k i = Some (j, a) -> exists k', In (Some (k', a)) l.
Proof.
  induction l as [|[[k' b]|] l IH]; intros k i j a; cbn; [easy| |].
  - destruct (eqb k k'); [intros [= <- <-]; eauto|]. intros H. destruct (IH _ _ _ _ H). eauto.
  - intros H. destruct (IH _ _ _ _ H). eauto.
Qed.
End KeyIn.

Section SafeM.
Context {K : Type} (KO : keyops K) (kfit : forall k n bs, k_ser KO k n = inl bs -> length bs <= n).
Context (g : geom) (gok : geom_ok g) (F0 : flash).
Notation NP := (NP g).
Notation HL := (HL g).
Notation dstart := (dstart g).
Notation dend := (dend g).
Notation inp := (inp g).
Notation rup := (rup g).
Implicit Types s : st K.
Notation T := (fun _ _ => True).

Section Any.
Context (J : qiter -> miter -> Prop).
Notation sane := (sane g F0 J).
Notation safe := (safe g F0 J).

Lemma safe_lift {A} (r : A + sererr) (Q : A -> st K -> Prop) s : sane s -> (forall a, r = inl a -> Q a s) -> safe (ser_lift r) Q s.
Proof. intros S H. destruct r; cbn [ser_lift]; [apply safe_ret; auto|apply safe_fail; auto; exact I]. Qed.

(** Same flash, iterators and buffer size. *)
Definition fb s s' : Prop := s_fl s' = s_fl s /\ s_qi s' = s_qi s /\ s_mi s' = s_mi s /\ length (s_buf s') = length (s_buf s).
Lemma fb_refl s : fb s s. Proof. repeat split. Qed.
Lemma fb_trans s1 s2 s3 : fb s1 s2 -> fb s2 s3 -> fb s1 s3. Proof. intros (A & B & C & D) (A' & B' & C' & D'). repeat split; congruence. Qed.
Lemma sb_fb s s' : sb s s' -> fb s s'. Proof. intros (b & L & ->). repeat split. exact L. Qed.
Lemma fr_fb s s' : fr s s' -> fb s s'. Proof. intros (A & B & C & D). repeat split; auto. now rewrite B. Qed.
Lemma fb_ca s c : fb s (set_ca s c). Proof. repeat split. Qed.
Lemma safe_unmark_fb s : sane s -> safe c_unmark (fun _ s' => fb s s' /\ s_buf s' = s_buf s) s. Proof. intros S. apply safe_unmark; auto. intros; split; [apply fb_ca|reflexivity]. Qed.

(** ** Key pointers *)
Lemma safe_notice_key k p a d s : sane s -> p < NP -> inp p a -> safe (c_notice_key (k_eqb KO) k a d) (fun _ s' => fb s s' /\ s_buf s' = s_buf s /\ c_ps (s_ca s') = c_ps (s_ca s)) s.
Proof.
  intros S P I0. pose proof (sane_c g F0 J _ S) as (A & B & C). 
  assert (X : exists kp, kp_notice (k_eqb KO) (c_kp (s_ca s)) k a = Some kp /\ kp_sane g kp).
  { destruct (c_kp (s_ca s)) as [|l]; cbn [kp_notice]; [eauto|]. destruct C as (C & D). pose proof (inp_pos g gok _ _ I0). destruct (Nat.eqb_spec a 0); [lia|].
    assert (Y : forall i, kp_sane g (KPArray (move_to_front (list_set l i (Some (k, a))) i))).
    { intros i. split; [apply front_ne, set_ne, C|]. intros k' a' H'. apply in_front, in_list_set in H'. destruct H' as [[= -> ->]|H']; eauto. }
    destruct (kp_find _ l k 0) as [[i ?]|]; [eauto|]. destruct (Nat.eqb_spec (length l) 0) as [E|E]; [destruct l; easy|eauto]. }
  destruct X as (kp & E & X). split; [unfold wp, c_notice_key; rewrite E|intros m2 N; exists m2; unfold c_notice_key; cbn [s_ca wm set_fl]; rewrite E; split; [reflexivity|exact N]]. split; [apply sane_ca; auto; split; [exact A|split; [exact B|exact X]]|]. repeat split.
Qed.
Lemma safe_key_erased k s : sane s -> safe (c_key_erased (k_eqb KO) k) T s.
Proof.
  intros S. pose proof (sane_c g F0 J _ S) as (A & B & C). split; [|rst]. unfold wp, c_key_erased. split; [|auto]. apply sane_ca; auto. split; [exact A|split; [exact B|]]. cbn [c_kp].
  destruct (c_kp (s_ca s)) as [|l]; auto. cbn [kp_erased]. destruct (kp_find _ l k 0) as [[i ?]|]; auto. destruct C as (C & D). split; [apply back_ne, set_ne, C|].
  intros k' a' H'. apply in_back, in_list_set in H'. destruct H' as [H'|H']; [easy|eauto].
Qed.

(** ** fetch *)
(** An item decoded from a buffer that starts with its bytes. *)
Definition decoded s p a kl : Prop := exists h b k', item_at g (f_mem (s_fl s)) p a h /\ firstn (h_len h) b = rd (f_mem (s_fl s)) (a + HL) (h_len h) /\ k_de KO b = inl (k', kl).
Definition found_ok s p (r : option (nat * nat)) : Prop := forall a kl, r = Some (a, kl) -> decoded s p a kl.
Lemma safe_scan p k : p < NP -> forall fuel cur found s, sane s -> inp p cur -> S (dend p - cur) <= fuel -> found_ok s p found ->
  safe (scan_page KO g fuel k cur (dend p) found) (fun r s' => sb s s' /\ found_ok s' p r) s.
Proof.
  intros P. induction fuel as [|f IH]; intros cur found s Sn I0 F FO; [lia|]. cbn [scan_page].
  eapply safe_bind; [apply (safe_item_next g gok F0 J p cur s P I0 Sn)|]. cbv beta. intros [[[h a]|] nx] s1 S1 (SB & H).
  - destruct H as (L & IT & -> & I2 & LT & IB). eapply safe_eq; [reflexivity|rst|]. cbv beta.
    eapply safe_bind; [apply (safe_lift _ (fun kl s' => s' = s1 /\ k_de KO (s_buf s1) = inl kl)); auto|]. cbv beta. intros [k' kl] s2 S2 (-> & DE). cbn [fst snd].
    assert (FE : s_fl s1 = s_fl s) by now apply sb_fl. rewrite <- FE in IT.
    eapply safe_mono; [apply (IH (next_addr g a h) _ s1 S1 I2)|].
    + destruct I0, I2. lia.
    + destruct (k_eqb KO k' k).
      * intros a' kl' [= <- <-]. exists h, (s_buf s1), k'. split; auto. split; auto. apply IB.
      * intros a' kl' E. unfold decoded. rewrite FE. now apply FO.
    + cbv beta. intros r s3 _ (F3 & R). split; auto. eapply sb_trans; [exact SB|exact F3].
  - apply safe_ret; auto. split; auto. intros a kl E. unfold decoded. rewrite (sb_fl _ _ SB). now apply FO.
Qed.
Lemma prev_lt p : p < NP -> prev_page g p < NP. Proof. apply prev_page_lt. Qed.
(** [back j p q]: going back [j] pages from [p] leads to [q]. *)
Fixpoint back (j p q : nat) : Prop := match j with O => p = q | S i => back i (prev_page g p) q end.
Definition hit s (r : option (nat * nat)) : Prop := forall a kl, r = Some (a, kl) -> exists p, p < NP /\ decoded s p a kl.
Lemma safe_fetch_pages k q : q < NP -> forall fuel j p s, sane s -> p < NP -> firm g s q -> back j p q -> 1 <= j -> j <= fuel ->
  safe (fetch_pages KO g fuel k p) (fun r s' => fb s s' /\ hit s' r) s.
Proof.
  intros Q. induction fuel as [|f IH]; intros j p s Sn P FI BK J1 JF; [lia|]. cbn [fetch_pages].
  eapply safe_bind; [apply (safe_scan p k P _ (dstart p) None s Sn); [apply inp_dstart; exact gok|unfold tfuel; lia|easy]|].
  cbv beta. intros [[a kl]|] s1 S1 (SB & FO); pose proof (sb_fb _ _ SB) as F1; pose proof (sb_ca _ _ SB) as CA.
  - destruct (FO a kl eq_refl) as (h & b & k' & IT & D1 & D2). eapply safe_bind; [apply (safe_notice_key k p a false s1 S1 P); apply IT|]. cbv beta. intros _ s2 S2 (F2 & _).
    apply safe_ret; auto. split; [eapply fb_trans; eauto|]. intros a' kl' [= <- <-]. exists p. split; auto. exists h, b, k'. destruct F2 as (F2 & _). now rewrite F2.
  - cbv zeta. pose proof (prev_lt p P) as PP. eapply safe_bind; [apply (safe_psc g gok F0 J _ s1 S1 PP)|]. cbv beta. intros x s2 S2 (F2 & _ & KEEP & NC & _).
    assert (FI1 : firm g s1 q). { destruct FI as (y & Y1 & Y2). exists y. split; auto. unfold seen, anc in *. destruct F1 as (F1 & _). rewrite CA, F1. exact Y2. }
    destruct x; cbn [pstate_eqb negb].
    + destruct j as [|j]; [lia|]. cbn [back] in BK. destruct j as [|j].
      * cbn [back] in BK. rewrite BK in NC. exfalso. now apply NC.
      * eapply safe_mono; [apply (IH (S j) (prev_page g p) s2 S2 PP); auto; lia|]. cbv beta. intros r s3 _ (F3 & H). split; auto. eapply fb_trans; [exact F1|]. eapply fb_trans; [apply fr_fb; exact F2|exact F3].
    + eapply safe_bind; [apply (safe_unmark_fb s2 S2)|]. cbv beta. intros _ s3 S3 (F3 & _). apply safe_ret; auto. split; [|easy]. eapply fb_trans; [exact F1|]. eapply fb_trans; [apply fr_fb; exact F2|exact F3].
    + eapply safe_bind; [apply (safe_unmark_fb s2 S2)|]. cbv beta. intros _ s3 S3 (F3 & _). apply safe_ret; auto. split; [|easy]. eapply fb_trans; [exact F1|]. eapply fb_trans; [apply fr_fb; exact F2|exact F3].
Qed.

Lemma back_add : forall i j p q r, back i p q -> back j q r -> back (i + j) p r.
Proof. induction i as [|i IH]; cbn [back Nat.add]; intros j p q r H1 H2; [now subst|]. eapply IH; eauto. Qed.
Lemma back_down p i : i <= p -> back i p (p - i).
Proof. revert p. induction i as [|i IH]; intros p H; cbn [back]; [lia|]. destruct p as [|p]; [lia|]. cbn [prev_page]. replace (S p - S i) with (p - i) by lia. apply IH. lia. Qed.
Lemma back_round p : p < NP -> back NP p p.
Proof.
  intros P. replace NP with (p + (1 + (NP - 1 - p))) by lia. eapply back_add; [apply (back_down p p); lia|]. rewrite Nat.sub_diag. eapply back_add; [reflexivity|]. cbn [prev_page].
  replace p with (NP - 1 - (NP - 1 - p)) at 2 by lia. apply back_down. lia.
Qed.
Lemma safe_last_used s : sane s -> safe (last_used g) (fun r s' => fr s s' /\ forall p, r = Some p -> p < NP /\ exists q j, q < NP /\ firm g s' q /\ back j p q /\ 1 <= j /\ j <= NP) s.
Proof.
  intros Sn. unfold last_used. eapply safe_bind; [apply (safe_find g gok F0 J 0 PartialOpen s Sn)|]. cbv beta. intros [p|] s1 S1 (F1 & H1).
  - apply safe_ret; auto. split; auto. intros p' [= <-]. destruct H1 as (P & SE). split; auto. exists p, NP. split; auto. split; [exists PartialOpen; easy|]. split; [now apply back_round|lia].
  - eapply safe_bind; [apply (safe_find g gok F0 J 0 Open s1 S1)|]. cbv beta. intros [p|] s2 S2 (F2 & H2); [|apply safe_fail; auto; exact I]. destruct H2 as (P & SE). cbv zeta.
    pose proof (prev_lt p P) as PP. eapply safe_bind; [apply (safe_psc g gok F0 J _ s2 S2 PP)|]. cbv beta. intros x s3 S3 (F3 & _ & KEEP & NC & _).
    assert (FI : firm g s2 p) by (exists Open; easy). assert (F03 : fr s s3) by (eapply fr_trans; [exact F1|eapply fr_trans; eauto]).
    assert (NO : x <> Closed -> safe (c_unmark ;;; ret (@None nat)) (fun r s' => fr s s' /\ forall p, r = Some p -> p < NP /\ exists q j, q < NP /\ firm g s' q /\ back j p q /\ 1 <= j /\ j <= NP) s3).
    { intros _. eapply safe_bind; [apply (safe_unmark g F0 J (fun _ s' => fr s s') s3 S3); intros c _ _; eapply fr_trans; [exact F03|apply fr_ca]|]. cbv beta. intros _ s4 S4 F4. apply safe_ret; auto. split; auto. easy. }
    destruct x; cbn [pstate_eqb]; try (apply NO; easy). apply safe_ret; auto. split; auto. intros p' [= <-]. split; auto.
    pose proof (back_round p P) as BR. destruct NP as [|n] eqn:EN; [lia|]. cbn [back] in BR. destruct n as [|n].
    + cbn [back] in BR. exfalso. apply NC; auto. rewrite BR. exact FI.
    + exists p, (S n). split; auto. split; [apply KEEP; auto|]. split; auto. lia.
Qed.

(** [present s h a]: a present item whose data is in the buffer. *)
Definition present s h a : Prop := exists p, p < NP /\ item_at g (f_mem (s_fl s)) p a h /\ in_buf g s h a.
Lemma present_len s h a : present s h a -> h_len h <= length (s_buf s).
Proof. intros (p & _ & _ & L & _). pose proof (rup_ge g gok (h_len h)). lia. Qed.
Lemma present_frame s s' h a : s_fl s' = s_fl s -> s_buf s' = s_buf s -> present s h a -> present s' h a.
Proof. intros E1 E2 (p & P & A & B). exists p. unfold in_buf in *. rewrite E1, E2. auto. Qed.
Definition located s (r : hdr * nat * option nat) : Prop :=
  match r with (h, a, okl) => present s h a /\ forall kl, okl = Some kl -> exists p, p < NP /\ decoded s p a kl end.

Lemma safe_fetch_cached k s : sane s -> safe (fetch_cached KO g k) (fun r s' => fb s s' /\ forall h a, r = Some (h, a) -> present s' h a) s.
Proof.
  intros Sn. unfold fetch_cached. eapply safe_eq; [reflexivity|rst|]. cbv beta. pose proof (sane_c g F0 J _ Sn) as (_ & _ & C).
  destruct (kp_get (k_eqb KO) (c_kp (s_ca s)) k) as [a|] eqn:KG; [|apply safe_ret; auto; split; [apply fb_refl|easy]].
  assert (X : exists p, p < NP /\ inp p a). { destruct (c_kp (s_ca s)) as [|l]; [easy|]. cbn [kp_get] in KG. destruct (kp_find _ l k 0) as [[j a']|] eqn:KF; [|easy]. injection KG as <-. destruct (kp_find_in _ _ _ _ _ _ KF) as (k' & IN). destruct C as (_ & C). eauto. }
  destruct X as (p & P & I0). cbv zeta. rewrite (inp_pindex g gok p a I0).
  assert (BAD : forall s', sane s' -> fb s s' -> safe (c_inval ;;; ret None) (fun (r : option (hdr * nat)) s' => fb s s' /\ forall h a, r = Some (h, a) -> present s' h a) s').
  { intros s' S' F'. eapply safe_bind; [apply (safe_inval g F0 J (fun _ s2 => fb s s2) s' S'); intros c; eapply fb_trans; [exact F'|apply fb_ca]|]. cbv beta. intros _ s2 S2 F2. apply safe_ret; auto. easy. }
  pose proof (read_new_eq g gok (dend p) a s) as RN. pose proof I0 as (AL & _). specialize (RN AL (inp_START g p a I0) (dend_FEND g p P)).
  destruct (hdr_at g (f_mem (s_fl s)) (dend p) a) as [| |h] eqn:HA.
  - eapply safe_eq; [exact RN|now apply (rok_read_new g gok p)|]. cbv beta iota. apply BAD; auto. apply fb_refl.
  - eapply safe_err; [exact RN|now apply (rok_read_new g gok p)|exact I|exact Sn].
  - eapply safe_eq; [exact RN|now apply (rok_read_new g gok p)|]. cbv beta iota. destruct (read_item_any g gok h p a (Some (dend p)) s P I0 HA) as (s1 & SB & [R|(mi & R & M)]); [now intros x [=]| |].
    + eapply safe_err; [exact R|apply (rok_read_item g gok h p); auto; now intros x [=]|exact I|now apply (sb_sane g F0 J s)].
    + eapply safe_eq; [exact R|apply (rok_read_item g gok h p); auto; now intros x [=]|]. cbv beta. assert (S1 : sane s1) by now apply (sb_sane g F0 J s). destruct mi as [h'|h'|h']; try (apply BAD; auto; now apply sb_fb).
      destruct M as (-> & IB). apply safe_ret; auto. split; [now apply sb_fb|]. intros h' a' [= <- <-]. exists p. split; auto. split; auto. split; auto. rewrite (sb_fl _ _ SB). split; auto. destruct IB as (_ & _ & IB). now rewrite (sb_fl _ _ SB) in IB.
Qed.
Lemma read_new_none p a h s : p < NP -> inp p a -> hdr_at g (f_mem (s_fl s)) (dend p) a = HOk h -> read_new g a None s = (Ok (Some h), s).
Proof.
  intros P I0. pose proof (inp_START g p a I0) as ST. pose proof (dend_FEND g p P) as FE. destruct I0 as (A & B & C). unfold hdr_at, read_new. cbn [beyond].
  destruct (Nat.ltb_spec (dend p) (a + HL)) as [H|H]; [easy|]. cbn zeta. unfold bind. rewrite (read_hdr_eq g gok) by (auto; lia). cbn zeta.
  destruct (all_ff _); [easy|]. destruct (lcrc_ok _); [|easy]. cbn [negb]. destruct (dend p <? _); [easy|]. now intros [= <-].
Qed.
Lemma rok_read_none p a h s : p < NP -> inp p a -> hdr_at g (f_mem (s_fl s)) (dend p) a = HOk h -> rok g (read_new g a None) s.
Proof.
  intros P I0 H m2 N. exists m2. rewrite (read_new_none p a h s P I0 H), (read_new_none p a h (wm s m2) P I0); [auto|]. cbn [s_fl wm set_fl f_mem]. now rewrite (hdr_noise g _ _ p a N P I0).
Qed.
Lemma safe_fetch_loc k s : sane s -> safe (fetch_loc KO g k) (fun r s' => fb s s' /\ forall x, r = Some x -> located s' x) s.
Proof.
  intros Sn. unfold fetch_loc. eapply safe_bind; [apply (safe_check g F0 J (fun _ s' => fr s s') s Sn); auto|]. cbv beta. intros _ s1 S1 F1. apply fr_fb in F1.
  eapply safe_bind; [apply (safe_fetch_cached k s1 S1)|]. cbv beta. intros [[h a]|] s2 S2 (F2 & H2).
  - apply safe_ret; auto. split; [eapply fb_trans; eauto|]. intros x [= <-]. split; [now apply H2|easy].
  - clear H2. eapply safe_bind; [apply (safe_last_used s2 S2)|]. cbv beta. intros [p|] s3 S3 (F3 & H3); apply fr_fb in F3.
    2: { apply safe_ret; auto. split; [|easy]. eapply fb_trans; [exact F1|]. eapply fb_trans; eauto. }
    destruct (H3 p eq_refl) as (P & q & j & Q & FI & BK & J1 & J2). eapply safe_bind; [apply (safe_fetch_pages k q Q (S NP) j p s3 S3 P FI BK J1); lia|]. cbv beta. intros [[a kl]|] s4 S4 (F4 & H4).
    2: { apply safe_ret; auto. split; [|easy]. eapply fb_trans; [exact F1|]. eapply fb_trans; [exact F2|]. eapply fb_trans; eauto. }
    destruct (H4 a kl eq_refl) as (p' & P' & DE). eapply safe_bind; [apply (safe_unmark_fb s4 S4)|]. cbv beta. intros _ s5 S5 (F5 & _).
    assert (DE5 : decoded s5 p' a kl) by (unfold decoded in *; destruct F5 as (F5 & _); now rewrite F5). clear DE. destruct DE5 as (h & b & k' & IT & D1 & D2). pose proof IT as (I0 & HA & HC).
    eapply safe_eq; [apply (read_new_none p' a h s5 P' I0 HA)|apply (rok_read_none p' a h s5 P' I0 HA)|]. cbv beta iota. destruct (read_item_any g gok h p' a None s5 P' I0 HA) as (s6 & SB & [R|(mi & R & M)]); [easy| |].
    + eapply safe_err; [exact R|apply (rok_read_item g gok h p' a None s5 P' I0 HA); easy|exact I|now apply (sb_sane g F0 J s5)].
    + eapply safe_eq; [exact R|apply (rok_read_item g gok h p' a None s5 P' I0 HA); easy|]. cbv beta. assert (S6 : sane s6) by now apply (sb_sane g F0 J s5). destruct mi as [h'|h'|h'].
      * apply safe_fail; auto. exact I.
      * destruct M as (-> & M). congruence.
      * destruct M as (-> & IB). apply safe_ret; auto. split.
        { eapply fb_trans; [exact F1|]. eapply fb_trans; [exact F2|]. eapply fb_trans; [exact F3|]. eapply fb_trans; [exact F4|]. eapply fb_trans; [exact F5|now apply sb_fb]. }
        intros x [= <-]. assert (FE := sb_fl _ _ SB). split; [exists p'; split; auto; split; auto; rewrite FE; auto|].
        intros kl' [= <-]. exists p'. split; auto. exists h, b, k'. rewrite FE. auto.
Qed.

(** ** Migration and repair *)
Lemma dend_size p q : dend p + dstart q = dend q + dstart p.
Proof. pose proof (dend_lt g gok p). pose proof (dend_lt g gok q). pose proof (pend_eq g p). pose proof (pend_eq g q). unfold Flash.dstart. lia. Qed.
Lemma item_same m p q a h h' : item_at g m p a h -> item_at g m q a h' -> p = q /\ h = h'.
Proof. intros (I1 & H1 & _) (I2 & H2 & _). assert (p = q) as <- by (eapply inp_inj; eauto). split; auto. congruence. Qed.
Lemma safe_migrate_loop src tgt : src < NP -> tgt < NP -> forall fuel cur wa s, sane s -> inp src cur -> inp tgt wa -> wa - dstart tgt <= cur - dstart src -> S (dend src - cur) <= fuel ->
  safe (migrate_loop KO g fuel cur (dend src) wa) T s.
Proof.
  intros PS PT. induction fuel as [|f IH]; intros cur wa s Sn I0 IW OFF F; [lia|]. cbn [migrate_loop].
  eapply safe_bind; [apply (safe_item_next g gok F0 J src cur s PS I0 Sn)|]. cbv beta. intros [[[h0 ia]|] nx] s1 S1 (SB & H); [|apply safe_ret; auto].
  destruct H as (L & IT & -> & I2 & LT & IB). rewrite <- (sb_fl _ _ SB) in IT. eapply safe_eq; [reflexivity|rst|]. cbv beta.
  eapply safe_bind; [apply (safe_lift _ (fun _ s' => s' = s1)); auto|]. cbv beta. intros [k kl] s2 S2 ->. cbv zeta. cbn [fst].
  eapply safe_bind; [apply (safe_unmark_fb s1 S1)|]. cbv beta. intros _ s3 S3 (F3 & _). eapply safe_bind; [apply (safe_fetch_loc k s3 S3)|]. cbv beta. intros [[[h fa] okl]|] s4 S4 (F4 & H4); [|apply safe_fail; auto; exact I].
  destruct (H4 _ eq_refl) as (PR & _). pose proof (present_len _ _ _ PR) as PL. eapply safe_eq; [reflexivity|rst|]. cbv beta. destruct (Nat.ltb_spec (length (s_buf s4)) (h_len h)); [lia|].
  assert (E4 : s_fl s4 = s_fl s1) by (destruct F3 as (? & _), F4 as (? & _); congruence). destruct I0 as (IA & IB1 & IB2). destruct IW as (WA & WB1 & WB2). pose proof I2 as (_ & I21 & I22).
  destruct (Nat.eqb_spec fa ia) as [->|NE].
  - destruct PR as (p & P & IT' & _). rewrite E4 in IT'. destruct (item_same _ _ _ _ _ _ IT IT') as (<- & <-).
    assert (IN : inp tgt (next_addr g wa h0)). { unfold next_addr in *. split; [auto with al|]. pose proof (dend_size src tgt). lia. }
    eapply safe_bind; [apply (safe_notice_key k tgt wa true s4 S4 PT); split; auto|]. cbv beta. intros _ s5 S5 (F5 & EB & _).
    apply safe_seq; [eapply safe_mono; [apply (safe_write_raw g gok F0 J tgt h0 _ wa s5 S5 PT); [split; auto|exact IN|rewrite firstn_length; lia]|auto]|]. intros _ s6 S6.
    apply IH; auto; [|lia]. destruct IN as (_ & IN1 & IN2). unfold next_addr in *. lia.
  - apply IH; auto; [split; auto|lia|lia].
Qed.
Lemma safe_migrate src tgt s : sane s -> src < NP -> tgt < NP -> safe (migrate KO g src tgt) T s.
Proof.
  intros Sn PS PT. unfold migrate. apply safe_seq; [apply (safe_migrate_loop src tgt PS PT); auto; try (apply inp_dstart; exact gok); unfold tfuel; lia|]. intros _ s1 S1. now apply safe_open_t.
Qed.
Lemma safe_m_repair s : sane s -> safe (m_repair KO g) T s.
Proof.
  intros Sn. unfold m_repair. apply safe_seq; [apply safe_inval; auto|]. intros _ s1 S1. apply safe_seq; [eapply safe_mono; [apply (safe_general g gok F0 J s1 S1)|auto]|]. intros _ s2 S2.
  eapply safe_bind; [apply (safe_find g gok F0 J 0 PartialOpen s2 S2)|]. cbv beta. intros [p|] s3 S3 (_ & H3); [|apply safe_ret; auto]. destruct H3 as (P & _). cbv zeta.
  pose proof (next_lt g gok p) as NX. eapply safe_bind; [apply (safe_psc g gok F0 J _ s3 S3 NX)|]. cbv beta. intros x s4 S4 _. destruct (pstate_eqb x Open); [apply safe_ret; auto|].
  apply safe_seq; [now apply safe_open_t|]. intros _ s5 S5. apply safe_seq; [now apply safe_partial_t|]. intros _ s6 S6. now apply safe_migrate.
Qed.
Lemma safe_m_auto {A} (f : M K A) (Q : A -> st K -> Prop) s : (forall s, sane s -> safe f Q s) -> sane s -> safe (auto_repair f (m_repair KO g)) Q s.
Proof. intros H S. apply safe_auto; auto. apply safe_m_repair. Qed.
Lemma safe_mput b s : sane s -> safe (put_buf b) T s. Proof. intros H. split; [split; [exact H|auto]|rst]. Qed.

(** ** store *)
Lemma safe_ser_item k v s : sane s -> safe (ser_item KO k v) (fun n s' => s_fl s' = s_fl s /\ s_ca s' = s_ca s /\ n <= length (s_buf s')) s.
Proof.
  intros Sn. unfold ser_item. eapply safe_eq; [reflexivity|rst|]. cbv beta. eapply safe_bind; [apply (safe_lift _ (fun kb s' => s' = s /\ k_ser KO k (length (s_buf s)) = inl kb)); auto|]. cbv beta.
  intros kb s1 S1 (-> & KS). pose proof (kfit _ _ _ KS) as KL. eapply safe_eq; [reflexivity|rst|]. cbv beta. destruct (Nat.ltb_spec (length (s_buf s)) (length kb)); [lia|].
  destruct (Nat.ltb_spec (length (s_buf s) - length kb) (length v)) as [L|L]; [apply safe_fail; auto; exact I|]. eapply safe_eq; [reflexivity|rst|]. cbv beta. apply safe_ret; auto.
  split; [reflexivity|]. split; [reflexivity|]. cbn [s_buf set_buf]. rewrite app_length. unfold put_front. rewrite app_length. lia.
Qed.
Lemma anc_ca n s s' p : s_ca s' = s_ca s -> anc n s p -> anc n s' p. Proof. unfold anc. now intros ->. Qed.
Lemma safe_store_loop k v : forall r s, sane s -> safe (store_loop KO g r k v) T s.
Proof.
  induction r as [|r IH]; intros s Sn; cbn [store_loop]; [apply safe_seq; [now apply safe_unmark_t|]; intros; apply safe_fail; auto; exact I|].
  eapply safe_bind; [apply (safe_find g gok F0 J 0 PartialOpen s Sn)|]. cbv beta. intros lp s1 S1 (_ & H1).
  eapply (safe_bind g F0 J _ _ (fun r _ => forall np, r = Some (Some np) -> np < NP)).
  - destruct lp as [p|]; [|apply safe_ret; easy]. destruct H1 as (P & SE). apply seen_anc in SE. pose proof (next_lt g gok p) as NX.
    eapply safe_bind; [apply (safe_psc g gok F0 J _ s1 S1 NX)|]. cbv beta. intros x s2 S2 (_ & _ & _ & _ & TWO & _). destruct x; cbn [pstate_eqb negb]; try (apply safe_fail; auto; exact I).
    specialize (TWO eq_refl p P eq_refl SE). eapply safe_bind; [apply (safe_ser_item k v s2 S2)|]. cbv beta. intros n s3 S3 (_ & CA & NL). apply (anc_ca _ _ _ _ CA) in TWO.
    destruct (too_big g n) eqn:TB; [apply safe_seq; [now apply safe_unmark_t|]; intros; apply safe_fail; auto; exact I|].
    eapply safe_bind; [apply (safe_free g gok F0 J p n s3 S3 P)|]. cbv beta. intros [a|] s4 S4 (-> & FA).
    + destruct FA as (IA & LA). eapply safe_bind; [apply (safe_notice_key k p a true s3 S3 P IA)|]. cbv beta. intros _ s5 S5 (_ & EB & _). eapply safe_eq; [reflexivity|rst|]. cbv beta. rewrite EB.
      assert (LN : length (firstn n (s_buf s3)) = n) by (rewrite firstn_length; lia).
      apply safe_seq; [apply (safe_write_new g gok F0 J p); auto; rewrite LN; auto|]. intros _ s6 S6. apply safe_seq; [now apply safe_unmark_t|]. intros; apply safe_ret; easy.
    + apply safe_seq; [eapply safe_mono; [apply (safe_close g gok F0 J p s3 S3 P TWO)|auto]|]. intros _ s5 S5. apply safe_ret; auto. now intros np [= <-].
  - cbv beta. intros [[np|]|] s2 S2 H2.
    + specialize (H2 np eq_refl). eapply safe_bind; [apply (safe_psc g gok F0 J np s2 S2 H2)|]. cbv beta. intros x s3 S3 _. destruct x; cbn [pstate_eqb negb]; try (apply safe_fail; auto; exact I).
      apply safe_seq; [now apply safe_partial_t|]. intros _ s4 S4. cbv zeta. pose proof (next_lt g gok np) as NX. eapply safe_bind; [apply (safe_psc g gok F0 J _ s4 S4 NX)|]. cbv beta. intros y s5 S5 _.
      apply safe_seq; [destruct (pstate_eqb y Open); [apply safe_ret; auto|now apply safe_migrate]|]. intros; now apply IH.
    + eapply safe_bind; [apply (safe_find g gok F0 J 0 Open s2 S2)|]. cbv beta. intros [p|] s3 S3 (_ & H3); [|apply safe_fail; auto; exact I].
      apply safe_seq; [apply safe_partial_t; tauto|]. intros; now apply IH.
    + apply safe_ret; auto.
Qed.
Lemma safe_store b k v s : sane s -> safe (m_store KO g b k v) T s.
Proof.
  intros Sn. unfold m_store. apply safe_seq; [now apply safe_mput|]. intros _ s1 S1. apply safe_m_auto; auto. intros s2 S2. unfold store_inner. apply safe_seq; [now apply safe_check_t|]. intros; now apply safe_store_loop.
Qed.

(** ** remove *)
Lemma safe_remove_items sk p : p < NP -> forall fuel cur s, sane s -> inp p cur -> S (dend p - cur) <= fuel -> safe (remove_items KO g fuel sk cur (dend p)) T s.
Proof.
  intros P. induction fuel as [|f IH]; intros cur s Sn I0 F; [lia|]. cbn [remove_items]. destruct (trav_page g gok (fun _ => false) p cur s P I0) as (oh & fa & nx & E & I1 & L & H).
  eapply safe_eq; [exact E|now apply rok_trav|]. cbv beta iota. destruct oh as [h|]; [|apply safe_ret; auto]. destruct H as (H & _ & -> & I2 & LT). pose proof I0 as (_ & _ & I01). pose proof I2 as (_ & _ & I21).
  destruct (read_item_any g gok h p fa (Some (dend p)) s P I1 H) as (s1 & SB & [R|(mi & R & M)]); [now intros x [=]| |].
  - eapply safe_err; [exact R|apply (rok_read_item g gok h p); auto; now intros x [=]|exact I|now apply (sb_sane g F0 J s)].
  - eapply safe_eq; [exact R|apply (rok_read_item g gok h p); auto; now intros x [=]|]. cbv beta. assert (S1 : sane s1) by now apply (sb_sane g F0 J s). destruct mi as [h'|h'|h']; try (apply IH; auto; lia).
    destruct M as (-> & _). apply safe_seq; [destruct sk; [eapply safe_eq; [reflexivity|rst|]; cbv beta; apply safe_seq; [now apply safe_lift|]; intros; now apply safe_ret|now apply safe_ret]|]. intros m s2 S2.
    apply safe_seq; [destruct m; [eapply safe_mono; [apply (safe_erase_data g gok F0 J p h fa s2 S2 P I1 I2)|auto]|now apply safe_ret]|]. intros _ s3 S3. apply IH; auto. lia.
Qed.
Lemma safe_remove_pages sk : forall l s, sane s -> Forall (fun p => p < NP) l -> safe (remove_pages KO g l sk) T s.
Proof.
  induction l as [|p l IH]; intros s Sn F; cbn [remove_pages]; [now apply safe_ret|]. inversion F as [|? ? P F']; subst.
  eapply safe_bind; [apply (safe_psc g gok F0 J p s Sn P)|]. cbv beta. intros x s1 S1 _. apply safe_seq; [|intros; now apply IH].
  destruct (pstate_eqb x Open); [now apply safe_ret|]. apply safe_remove_items; auto; [apply inp_dstart; exact gok|unfold tfuel; lia].
Qed.
Lemma safe_remove_inner sk s : sane s -> safe (remove_inner KO g sk) T s.
Proof.
  intros Sn. unfold remove_inner. apply safe_seq; [destruct sk; [now apply safe_key_erased|apply safe_inval; auto]|]. intros _ s1 S1.
  eapply safe_bind; [apply (safe_find g gok F0 J 0 PartialOpen s1 S1)|]. cbv beta. intros lp s2 S2 _. apply safe_seq.
  - destruct lp; [now apply safe_ret|]. apply safe_seq; [eapply safe_mono; [apply (safe_findl g gok F0 J 0 Closed s2 S2)|auto]|]. intros; now apply safe_ret.
  - intros lu s3 S3. apply safe_seq; [apply safe_remove_pages; auto; apply get_pages_lt; exact gok|]. intros; now apply safe_unmark_t.
Qed.
Lemma safe_remove b k s : sane s -> safe (m_remove KO g b k) T s.
Proof. intros Sn. unfold m_remove. apply safe_seq; [now apply safe_mput|]. intros _ s1 S1. apply safe_m_auto; auto. apply safe_remove_inner. Qed.
Lemma safe_remove_all b s : sane s -> safe (m_remove_all KO g b) T s.
Proof. intros Sn. unfold m_remove_all. apply safe_seq; [now apply safe_mput|]. intros _ s1 S1. apply safe_m_auto; auto. apply safe_remove_inner. Qed.

(** ** fetch_all_items *)
Lemma safe_first_page s : sane s -> safe (first_page_expr g) (fun r _ => forall p, r = Some p -> p < NP) s.
Proof.
  intros Sn. unfold first_page_expr. pose proof (NP_pos g gok) as NPP. eapply safe_bind; [apply (safe_find g gok F0 J 0 PartialOpen s Sn)|]. cbv beta. intros [p|] s1 S1 _.
  - apply safe_ret; auto. intros q [= <-]. apply (next_lt g gok).
  - eapply safe_bind; [apply (safe_find g gok F0 J 0 Open s1 S1)|]. cbv beta. intros [p|] s2 S2 (_ & H2); [|apply safe_ret; easy]. destruct H2 as (P & _).
    eapply safe_bind; [apply (safe_psc g gok F0 J _ s2 S2 (prev_lt p P))|]. cbv beta. intros x s3 S3 _. destruct (pstate_eqb x Closed); [apply safe_ret; auto; now intros q [= <-]|].
    apply safe_seq; [now apply safe_unmark_t|]. intros; apply safe_ret; auto. now intros q [= <-].
Qed.
End Any.

(** ** The iterator *)
Definition miok (_ : qiter) (mi : miter) : Prop := mi_first mi < NP /\ mi_page mi < NP /\ exists p, p < NP /\ mi_end mi = dend p /\ inp p (mi_cur mi).
Definition anyM (_ : qiter) (_ : miter) : Prop := True.
Notation sane0 := (sane g F0 anyM).
Notation safe0 := (safe g F0 anyM).
Notation sanem := (sane g F0 miok).
Notation safem := (safe g F0 miok).
Lemma sanem_0 s : sanem s -> sane0 s. Proof. intros (A & B & _). repeat split; auto; apply A || apply B. Qed.
Lemma sanem_mi s mi : sanem s -> miok (s_qi s) mi -> sanem (set_mi s mi). Proof. intros (A & B & _) C. split; [exact A|split; [exact B|exact C]]. Qed.
Lemma safe_m_iter b s : sane0 s -> safe0 (m_iter KO g b) (fun _ s' => sanem s') s.
Proof.
  intros Sn. unfold m_iter. apply safe_seq; [now apply safe_mput|]. intros _ s1 S1. eapply safe_bind; [apply (safe_first_page anyM s1 S1)|]. cbv beta. intros r s2 S2 H2.
  eapply (safe_bind g F0 anyM _ _ (fun p _ => p < NP)).
  - destruct r as [p|]; [apply safe_ret; auto|]. apply safe_seq; [now apply safe_m_repair|]. intros _ s3 S3. eapply safe_bind; [apply (safe_first_page anyM s3 S3)|]. cbv beta. intros [p|] s4 S4 H4; [apply safe_ret; auto|apply safe_fail; auto; exact I].
  - cbv beta. intros p s3 S3 P. split; [|rst]. unfold wp, put_mi. split; [exact S3|]. destruct S3 as (A & B & _). split; [exact A|]. split; [exact B|]. cbn. split; auto. split; auto. exists p. split; auto. split; auto. now apply inp_dstart.
Qed.
Lemma safe_mi_item_next : forall fuel s, sanem s -> S (mi_end (s_mi s) - mi_cur (s_mi s)) <= fuel ->
  safem (mi_item_next g fuel) (fun r s' => mi_first (s_mi s') = mi_first (s_mi s) /\ mi_page (s_mi s') = mi_page (s_mi s) /\ forall h, r = Some h -> exists a, present s' h a) s.
Proof.
  induction fuel as [|f IH]; intros s Sn F; [lia|]. cbn [mi_item_next]. eapply safe_eq; [reflexivity|rst|]. cbv beta. pose proof Sn as (_ & _ & M1 & M2 & p & P & EE & I0). rewrite EE in *.
  destruct (trav_page g gok (fun _ => false) p (mi_cur (s_mi s)) s P I0) as (oh & fa & nx & E & I1 & L & H). eapply safe_eq; [exact E|now apply rok_trav|]. cbv beta iota. eapply safe_eq; [reflexivity|rst|]. cbv beta.
  set (s1 := set_mi s (mkmi (mi_first (s_mi s)) (mi_page (s_mi s)) nx (dend p))).
  assert (IN : inp p nx) by (destruct oh; [apply H|subst nx; exact I1]). assert (S1 : sanem s1). { apply sanem_mi; auto. split; auto. split; auto. exists p. cbn. auto. }
  destruct oh as [h|]; [|apply safe_ret; auto; split; [reflexivity|split; [reflexivity|easy]]]. destruct H as (H & _ & -> & I2 & LT).
  change (f_mem (s_fl s)) with (f_mem (s_fl s1)) in H. pose proof I2 as (_ & _ & I21).
  destruct (read_item_any g gok h p fa (Some (dend p)) s1 P I1 H) as (s2 & SB & [R|(mi & R & M)]); [now intros x [=]| |].
  - eapply safe_err; [exact R|apply (rok_read_item g gok h p); auto; now intros x [=]|exact I|now apply (sb_sane g F0 miok s1)].
  - eapply safe_eq; [exact R|apply (rok_read_item g gok h p); auto; now intros x [=]|]. cbv beta. assert (S2 : sanem s2) by now apply (sb_sane g F0 miok s1). assert (EM : s_mi s2 = s_mi s1) by now apply sb_mi.
    assert (REC : safem (mi_item_next g f) (fun r s' => mi_first (s_mi s') = mi_first (s_mi s) /\ mi_page (s_mi s') = mi_page (s_mi s) /\ forall h, r = Some h -> exists a, present s' h a) s2).
    { eapply safe_mono; [apply (IH s2 S2); rewrite EM; cbn; lia|]. cbv beta. rewrite EM. cbn [s_mi s1 set_mi mi_first mi_page]. auto. }
    destruct mi as [h'|h'|h']; auto. destruct M as (-> & IB). apply safe_ret; auto. rewrite EM. split; [reflexivity|]. split; [reflexivity|]. intros h' [= <-]. exists fa, p. split; auto. split; auto. rewrite (sb_fl _ _ SB). split; auto. split; auto.
    destruct IB as (_ & _ & IB). now rewrite (sb_fl _ _ SB) in IB.
Qed.
Lemma psc_mi p s : p < NP -> s_mi (snd (page_state_c g p s)) = s_mi s.
Proof.
  intros P. unfold page_state_c, bind, c_get_ps. destruct (ps_get _ p) as [[x|]|]; try reflexivity. rewrite (page_state_eq g gok p s P). destruct (mstate _ _ p) as [x|]; [|reflexivity].
  unfold c_notice_ps. destruct (ps_notice _ p x); reflexivity.
Qed.
Lemma attempt_mi {A B} (c : M K A) (f : res A -> M K B) Q s : s_mi (snd (c s)) = s_mi s -> safem c T s ->
  (forall a s', sanem s' -> s_mi s' = s_mi s -> safem (f (Ok a)) Q s') -> (forall e s', sanem s' -> s_mi s' = s_mi s -> safem (f (Err e)) Q s') -> safem (bind (attempt c) f) Q s.
Proof.
  intros E (X & R) H1 H2. split.
  - unfold wp, bind, attempt, on_result, steady, hand_on in *. destruct (c s) as [[a|e] s']; cbn [snd] in E; [apply H1; tauto|apply H2; tauto].
  - apply rok_attempt; auto. intros r s' C. unfold wp in X. rewrite C in *. cbn [snd] in E. destruct r; [apply H1; tauto|apply H2; tauto].
Qed.
Definition left_pages (mi : miter) : nat := NP - pos NP (mi_first mi) (mi_page mi).
Lemma safe_mi_next_page : forall fuel s, sanem s -> left_pages (s_mi s) <= fuel -> safem (mi_next_page g fuel) (fun r s' => r = true -> left_pages (s_mi s') < left_pages (s_mi s)) s.
Proof.
  induction fuel as [|f IH]; intros s Sn F; pose proof Sn as (_ & _ & M1 & M2 & p & P & EE & I0); pose proof (pos_NP g _ _ M1 M2) as PL; [unfold left_pages in F; lia|]. cbn [mi_next_page].
  eapply safe_eq; [reflexivity|rst|]. cbv beta zeta. pose proof (next_lt g gok (mi_page (s_mi s))) as NX. eapply safe_eq; [reflexivity|rst|]. cbv beta.
  destruct (Nat.eqb_spec (next_page g (mi_page (s_mi s))) (mi_first (s_mi s))) as [Q|Q]; [apply safe_ret; [apply sanem_mi; auto; split; auto; split; auto; exists p; cbn; auto|easy]|].
  pose proof (pos_next g _ _ M1 M2 Q) as PN. pose proof (pos_NP g _ _ M1 NX) as PL2.
  match goal with |- safem _ _ ?x => set (s1 := x) end. assert (S1 : sanem s1) by (apply sanem_mi; auto; split; auto; split; auto; exists p; cbn; auto).
  assert (REC : forall s', sanem s' -> s_mi s' = s_mi s1 -> safem (mi_next_page g f) (fun r s' => r = true -> left_pages (s_mi s') < left_pages (s_mi s)) s').
  { intros s' S' E'. eapply safe_mono; [apply (IH s' S')|]; rewrite E'; unfold left_pages in *; cbn [s1 s_mi set_mi mi_first mi_page]; rewrite PN in *; [lia|]. cbv beta. intros r s2 _ H E. specialize (H E). lia. }
  eapply (attempt_mi _ _ _ s1); [now apply psc_mi|eapply safe_mono; [apply (safe_psc g gok F0 miok _ s1 S1 NX)|auto]| |].
  - intros x s2 S2 E2. assert (TAKE : safem (put_mi (mkmi (mi_first (s_mi s)) (next_page g (mi_page (s_mi s))) (dstart (next_page g (mi_page (s_mi s)))) (dend (next_page g (mi_page (s_mi s))))) ;;; ret true) (fun r s' => r = true -> left_pages (s_mi s') < left_pages (s_mi s)) s2).
    { eapply safe_eq; [reflexivity|rst|]. cbv beta. apply safe_ret; [apply sanem_mi; auto; split; auto; split; auto; exists (next_page g (mi_page (s_mi s))); split; auto; split; auto; now apply inp_dstart|]. intros _. unfold left_pages in *. cbn [s_mi set_mi mi_first mi_page]. rewrite PN in *. lia. }
    destruct x; auto.
  - intros e s2 S2 E2. now apply REC.
Qed.
Lemma safe_mi_loop : forall fuel s, sanem s -> S (left_pages (s_mi s)) <= fuel -> safem (mi_loop g fuel) (fun r s' => forall h, r = Some h -> exists a, present s' h a) s.
Proof.
  induction fuel as [|f IH]; intros s Sn F; [lia|]. cbn [mi_loop]. eapply safe_eq; [reflexivity|rst|]. cbv beta. eapply safe_bind; [apply (safe_mi_item_next _ s Sn); unfold tfuel; lia|]. cbv beta.
  intros [h|] s1 S1 (E1 & E2 & H); [apply safe_ret; auto|]. clear H. eapply safe_bind; [apply (safe_mi_next_page _ s1 S1)|].
  - unfold left_pages. lia.
  - cbv beta. intros [|] s2 S2 H; [|apply safe_ret; easy]. apply IH; auto. specialize (H eq_refl). unfold left_pages in *. rewrite E1, E2 in H. lia.
Qed.

(** * The calls *)
(** An item on flash that is shorter than the key that its bytes decode to. *)
Definition short (m : nat -> N) : Prop := exists p a h, p < NP /\ item_at g m p a h /\ exists b kl, firstn (h_len h) b = rd m (a + HL) (h_len h) /\ h_len h < kl /\
  ((exists k, k_de KO b = inl (k, kl)) \/ k_len KO (firstn (h_len h) b) = inl kl).
Definition okerr (e : err) s : Prop := tame e \/ (e = EPanic /\ short (f_mem (s_fl s))).
Definition mild {A} J (c : M K A) (Q : A -> st K -> Prop) s : Prop := wp c (fun a s' => sane g F0 J s' /\ Q a s') (fun e s' => okerr e s' /\ sane g F0 J s') s /\ rok g c s.
Lemma safe_mild {A} J (c : M K A) Q s : safe g F0 J c Q s -> mild J c Q s.
Proof. intros (H & R). split; auto. eapply wp_mono; [exact H|auto|]. cbv beta. intros e s' (X & Y). split; auto. now left. Qed.
Lemma mild_bind {A B} J (c : M K A) (f : A -> M K B) (P : A -> st K -> Prop) Q s : mild J c P s -> (forall a s', sane g F0 J s' -> P a s' -> mild J (f a) Q s') -> mild J (bind c f) Q s.
Proof.
  intros (H1 & R) H2. split.
  - apply wp_bind. eapply wp_mono; [exact H1| |auto]. cbv beta. intros a s' (X & Y). now apply H2.
  - apply rok_bind; auto. intros a s' E. unfold wp in H1. rewrite E in H1. now apply H2.
Qed.
Lemma mild_fail {A} J e (Q : A -> st K -> Prop) s : sane g F0 J s -> okerr e s -> mild J (fail e) Q s. Proof. intros S H. split; [split; auto|apply rok_fail]. Qed.
Lemma mild_any {A} (c : M K A) Q s : mild miok c Q s -> mild anyM c Q s.
Proof. intros (H & R). split; auto. eapply wp_mono; [exact H| |]; cbv beta; [intros a s' (X & Y)|intros e s' (X & Y)]; split; auto; now apply sanem_0. Qed.

Lemma mild_fetch b k s : sane0 s -> mild anyM (m_fetch KO g b k) T s.
Proof.
  intros Sn. unfold m_fetch. apply (mild_bind anyM _ _ T); [now apply safe_mild, safe_mput|]. intros _ s1 S1 _.
  apply (mild_bind anyM _ _ (fun r s' => forall x, r = Some x -> located s' x)).
  - apply safe_mild. apply safe_m_auto; auto. intros s2 S2. eapply safe_mono; [apply (safe_fetch_loc anyM k s2 S2)|]. cbv beta. tauto.
  - cbv beta. intros [[[h a] okl]|] s2 S2 H2; [|apply safe_mild, safe_ret; auto]. destruct (H2 _ eq_refl) as (PR & DK). clear H2. pose proof (present_len _ _ _ PR) as PL. destruct PR as (p & P & IT & _ & D1 & _).
    apply (mild_bind anyM _ _ (fun b s' => s' = s2 /\ b = s_buf s2)); [apply safe_mild; split; [unfold wp, get_buf; auto|rst]|]. cbv beta zeta. intros b2 s3 S3 (-> & ->). destruct (Nat.ltb_spec (length (s_buf s2)) (h_len h)); [lia|].
    apply (mild_bind anyM _ _ (fun kl s' => s' = s2 /\ (h_len h < kl -> short (f_mem (s_fl s2))))).
    + destruct okl as [kl|].
      * apply safe_mild, safe_ret; auto. split; auto. intros LT. destruct (DK kl eq_refl) as (p' & P' & h' & b' & k' & IT' & D1' & D2'). destruct (item_same _ _ _ _ _ _ IT IT') as (<- & <-).
        exists p, a, h. split; auto. split; auto. exists b', kl. split; auto. split; auto. left. eauto.
      * apply safe_mild. apply safe_lift; auto. intros kl E. split; auto. intros LT. exists p, a, h. split; auto. split; auto. exists (s_buf s2), kl. auto.
    + cbv beta. intros kl s4 S4 (-> & SH). destruct (Nat.ltb_spec (h_len h) kl) as [LT|LT]; [|apply safe_mild, safe_ret; auto]. apply mild_fail; auto. right; auto.
Qed.
Lemma mild_iter_next b s : sanem s -> mild miok (m_iter_next KO g b) T s.
Proof.
  intros Sn. unfold m_iter_next. apply (mild_bind miok _ _ T); [now apply safe_mild, safe_mput|]. intros _ s1 S1 _.
  apply (mild_bind miok _ _ (fun r s' => forall h, r = Some h -> exists a, present s' h a)).
  - apply safe_mild. apply safe_mi_loop; auto. unfold left_pages. lia.
  - cbv beta. intros [h|] s2 S2 H2; [|apply safe_mild, safe_ret; auto]. destruct (H2 h eq_refl) as (a & PR). clear H2. pose proof (present_len _ _ _ PR) as PL. destruct PR as (p & P & IT & _ & D1 & _).
    apply (mild_bind miok _ _ (fun b s' => s' = s2 /\ b = s_buf s2)); [apply safe_mild; split; [unfold wp, get_buf; auto|rst]|]. cbv beta zeta. intros b2 s3 S3 (-> & ->).
    apply (mild_bind miok _ _ (fun kl s' => s' = s2 /\ k_de KO (s_buf s2) = inl kl)); [apply safe_mild; apply safe_lift; auto|]. cbv beta. intros [k' kl] s4 S4 (-> & DE). cbn [fst snd].
    destruct (Nat.ltb_spec (length (s_buf s2)) (h_len h)); [lia|]. cbn [orb]. destruct (Nat.ltb_spec (h_len h) kl) as [LT|LT]; [|apply safe_mild, safe_ret; auto].
    apply mild_fail; auto. right; split; auto. exists p, a, h. split; auto. split; auto. exists (s_buf s2), kl. split; auto. split; auto. left. eauto.
Qed.
Lemma mild_script : forall bs s, sanem s -> mild miok (m_script KO g bs) T s.
Proof.
  induction bs as [|b bs IH]; intros s Sn; cbn [m_script]; [apply safe_mild, safe_ret; auto|]. apply (mild_bind miok _ _ T); [now apply mild_iter_next|]. intros [x|] s1 S1 _; [|apply safe_mild, safe_ret; auto].
  apply (mild_bind miok _ _ T); [now apply IH|]. intros; apply safe_mild, safe_ret; auto.
Qed.
Lemma mild_iterate b bs s : sane0 s -> mild anyM (m_iterate KO g b bs) T s.
Proof.
  intros Sn. unfold m_iterate. apply (mild_bind anyM _ _ (fun _ s' => sanem s')); [now apply safe_mild, safe_m_iter|]. cbv beta. intros _ s1 _ S1. apply mild_any. now apply mild_script.
Qed.

Definition merr (a : mans K) : option err :=
  match a with RUnit (Err e) | RVal (Err e) | RList (Err e) => Some e | _ => None end.
Lemma mild_out {A} (c : M K A) (Q : A -> st K -> Prop) s : mild anyM c Q s -> (forall e, fst (c s) = Err e -> okerr e (snd (c s))) /\ sane0 (snd (c s)).
Proof. unfold mild, wp. destruct (c s) as [[a|e] s']; cbn; intros ((A1 & A2) & _); split; auto; [easy|]. now intros e' [= <-]. Qed.
Lemma m_exec_safe c s : sane0 s -> (forall e, merr (fst (m_exec KO g c s)) = Some e -> okerr e (snd (m_exec KO g c s))) /\ sane0 (snd (m_exec KO g c s)).
Proof.
  intros Sn. destruct c as [b k v|b k|b k|b|b bs]; cbn [m_exec mans1 fst snd merr].
  - destruct (mild_out _ _ _ (safe_mild _ _ _ _ (safe_store anyM b k v s Sn))) as (A & B). split; auto. intros e. destruct (fst _) eqn:E; [easy|]. intros [= <-]. now apply A.
  - destruct (mild_out _ _ _ (mild_fetch b k s Sn)) as (A & B). split; auto. intros e. destruct (fst _) eqn:E; [easy|]. intros [= <-]. now apply A.
  - destruct (mild_out _ _ _ (safe_mild _ _ _ _ (safe_remove anyM b k s Sn))) as (A & B). split; auto. intros e. destruct (fst _) eqn:E; [easy|]. intros [= <-]. now apply A.
  - destruct (mild_out _ _ _ (safe_mild _ _ _ _ (safe_remove_all anyM b s Sn))) as (A & B). split; auto. intros e. destruct (fst _) eqn:E; [easy|]. intros [= <-]. now apply A.
  - destruct (mild_out _ _ _ (mild_iterate b bs s Sn)) as (A & B). split; auto. intros e. destruct (fst _) eqn:E; [easy|]. intros [= <-]. now apply A.
Qed.
(** Calls other than fetching and iterating never panic. *)
Definition decodes (c : mcall K) : Prop := match c with MFetch _ _ | MIter _ _ => True | _ => False end.
Lemma m_exec_safe2 c s : sane0 s -> ~ decodes c -> forall e, merr (fst (m_exec KO g c s)) = Some e -> tame e.
Proof.
  intros Sn D. assert (X : forall {A} (x : M K A) Q, safe0 x Q s -> forall e, fst (x s) = Err e -> tame e).
  { intros A x Q H e E. unfold SafeP.safe, wp in H. destruct (x s) as [[?|?] ?]; cbn in E; [easy|]. injection E as <-. tauto. }
  destruct c as [b k v|b k|b k|b|b bs]; cbn [m_exec mans1 fst snd merr decodes] in *; try easy; intros e.
  - pose proof (X _ _ _ (safe_store anyM b k v s Sn)) as Y. destruct (fst _); [easy|]. intros [= <-]. now apply Y.
  - pose proof (X _ _ _ (safe_remove anyM b k s Sn)) as Y. destruct (fst _); [easy|]. intros [= <-]. now apply Y.
  - pose proof (X _ _ _ (safe_remove_all anyM b s Sn)) as Y. destruct (fst _); [easy|]. intros [= <-]. now apply Y.
Qed.
Lemma m_run_safe : forall evs s, sane0 s -> (forall c, In (MBoot c) evs -> fresh_cache NP c) ->
  sane0 (snd (m_run KO g s evs)) /\ Forall (fun a => forall e, merr a = Some e -> tame e \/ e = EPanic) (fst (m_run KO g s evs)) /\
  ((forall n, ~ short (f_mem (s_fl (snd (m_run KO g s (firstn n evs)))))) -> Forall (fun a => forall e, merr a = Some e -> tame e) (fst (m_run KO g s evs))).
Proof.
  induction evs as [|ev evs IH]; intros s S F; cbn [m_run]; [cbn [fst snd]; auto|]. destruct ev as [c p|c].
  - destruct (m_exec_safe c (power s p) S) as (A & B). destruct (m_exec KO g c (power s p)) as [a s'] eqn:E. cbn [fst snd] in A, B. destruct (IH s' B) as (C & D & G); [intros; apply F; now right|].
    destruct (m_run KO g s' evs) as [l s2] eqn:E2. cbn [fst snd] in *. split; auto. split.
    + constructor; auto. intros e H. destruct (A e H) as [X|(X & _)]; auto.
    + intros NS. constructor.
      * intros e H. destruct (A e H) as [X|(_ & X)]; auto. exfalso. apply (NS 1). cbn [firstn m_run]. rewrite E. exact X.
      * apply G. intros n. specialize (NS (Datatypes.S n)). cbn [firstn m_run] in NS. rewrite E in NS. destruct (m_run KO g s' (firstn n evs)). exact NS.
  - destruct (IH (set_ca s c)) as (C & D & G); [|intros; apply F; now right|]. 2: { split; auto. split; auto. intros NS. apply G. intros n. apply (NS (Datatypes.S n)). }
    destruct S as (S1 & _ & S3). split; [exact S1|]. split; [|exact S3]. apply fresh_sane, F. now left.
Qed.

(** * Noise *)
Lemma m_exec_rok c s m2 : sane0 s -> noise g (f_mem (s_fl s)) m2 ->
  exists m3, m_exec KO g c (wm s m2) = (fst (m_exec KO g c s), wm (snd (m_exec KO g c s)) m3) /\ noise g (f_mem (s_fl (snd (m_exec KO g c s)))) m3.
Proof.
  intros S N. assert (X : forall A (c : M K A) f Q, mild anyM c Q s -> exists m3, mans1 f (c (wm s m2)) = (fst (mans1 f (c s)), wm (snd (mans1 f (c s))) m3) /\ noise g (f_mem (s_fl (snd (mans1 f (c s))))) m3).
  { intros A c0 f Q (_ & R). destruct (R m2 N) as (m3 & E & N3). exists m3. unfold mans1. rewrite E. auto. }
  destruct c as [b k v|b k|b k|b|b bs]; cbn [m_exec].
  - eapply X. apply safe_mild, (safe_store anyM b k v s S).
  - eapply X. apply (mild_fetch b k s S).
  - eapply X. apply safe_mild, (safe_remove anyM b k s S).
  - eapply X. apply safe_mild, (safe_remove_all anyM b s S).
  - eapply X. apply (mild_iterate b bs s S).
Qed.
Lemma m_run_rok : forall evs s m2, sane0 s -> (forall c, In (MBoot c) evs -> fresh_cache NP c) -> noise g (f_mem (s_fl s)) m2 ->
  exists m3, m_run KO g (wm s m2) evs = (fst (m_run KO g s evs), wm (snd (m_run KO g s evs)) m3) /\ noise g (f_mem (s_fl (snd (m_run KO g s evs)))) m3.
Proof.
  induction evs as [|ev evs IH]; intros s m2 S F N; cbn [m_run]; [exists m2; auto|]. destruct ev as [c p|c].
  - assert (SP : sane0 (power s p)) by exact S. destruct (m_exec_safe c (power s p) SP) as (_ & B). destruct (m_exec_rok c (power s p) m2 SP N) as (m3 & E & N3).
    change (power (wm s m2) p) with (wm (power s p) m2). rewrite E. destruct (m_exec KO g c (power s p)) as [a s']. cbn [fst snd] in *.
    destruct (IH s' m3 B) as (m4 & E4 & N4); [intros; apply F; now right|auto|]. rewrite E4. destruct (m_run KO g s' evs) as [l s2]. exists m4. auto.
  - change (set_ca (wm s m2) c) with (wm (set_ca s c) m2). apply IH; [|intros; apply F; now right|exact N]. destruct S as (S1 & _ & S3). split; [exact S1|]. split; [|exact S3]. apply fresh_sane, F. now left.
Qed.
End SafeM.
