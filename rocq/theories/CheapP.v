(** Proofs for Cheap.v: pushes. *)
From Coq Require Import List NArith ZArith Arith Bool Lia ZifyBool ZifyNat ZifyN.
From Verif Require Import Base BaseP Crc CrcP Flash Cache State Item Generic Queue GeomP ScanP WpP ItemP CalcP PageP WorldP LayP QPushP QRepP QStepP QCallP Client QSpec QHistP QObs QPropsP FormatSpec FormatP QMiscP SafeP SafeQP SafeRunP Reads ReadsP Cost CostP Work WorkP Cheap.
Import ListNotations.
Local Opaque crc16 acrc crc32.

Section C.
Context (g : geom) (gok : geom_ok g).
Notation NP := (NP g). Notation W := (W g).
Notation st := (st unit).
Lemma pages0 : get_pages g 0 = seq 0 NP.
Proof. unfold get_pages. rewrite <- (map_id (seq 0 NP)) at 2. apply map_ext_in. intros i HI. apply in_seq in HI. rewrite Nat.add_0_r. apply Nat.mod_small. lia. Qed.
(** * What the caches know after a completed push *)
Definition wl (s : st) : nat := match c_pp (s_ca s) with PPNone => 0 | PPArray _ wr => length wr end.
Definition pl (s : st) : option nat := match c_ps (s_ca s) with PSArray l => Some (length l) | _ => None end.
Definition v (s : st) (i : nat) : option pstate := match c_ps (s_ca s) with PSArray l => lookup l i | _ => None end.
Definition pw (s : st) (i : nat) : option nat := pp_written (c_pp (s_ca s)) i.
Context (m n : nat) (Mn : NP <= m) (Nn : NP <= n).
Definition J (s : st) : Prop := wl s = m /\ pl s = Some n.
Definition JI (s : st) : Prop := J s /\ ipp g s.
Definition keeps_ca {A} (c : M unit A) : Prop := forall s, s_ca (snd (c s)) = s_ca s.
Lemma kc_wp {A} (c : M unit A) s : keeps_ca c -> wp c (fun _ s' => s_ca s' = s_ca s) (fun _ s' => s_ca s' = s_ca s) s.
Proof. intros H. unfold wp. specialize (H s). destruct (c s) as [[a|e] s']; exact H. Qed.
Lemma kc_bind {A B} (c : M unit A) (f : A -> M unit B) : keeps_ca c -> (forall a, keeps_ca (f a)) -> keeps_ca (bind c f).
Proof. intros H1 H2 s. unfold bind. specialize (H1 s). destruct (c s) as [[a|e] s']; cbn [snd] in *; [|exact H1]. now rewrite H2. Qed.
Lemma kc_try {A B} (c : M unit A) (f : res A -> M unit B) : keeps_ca c -> (forall a, keeps_ca (f a)) -> keeps_ca (bind (attempt c) f).
Proof. intros H1 H2. apply kc_bind; [|exact H2]. intros s. unfold attempt. cbn [on_result steady]. unfold hand_on. specialize (H1 s). destruct (c s). exact H1. Qed.
Lemma kc_ret {A} (a : A) : keeps_ca (ret a). Proof. intros s. reflexivity. Qed.
Lemma kc_fail {A} e : keeps_ca (@fail unit A e). Proof. intros s. reflexivity. Qed.
Lemma kc_read a k : keeps_ca (fl_read g a k).
Proof. intros s. unfold fl_read. cbn [on_read steady]. destruct (dev_read g (s_fl s) a k); reflexivity. Qed.
Lemma kc_write a b : keeps_ca (fl_write g a b).
Proof. intros s. unfold fl_write. destruct (dev_write g (s_fl s) a b) as [[x|] f]; reflexivity. Qed.
Lemma kc_erase a b : keeps_ca (fl_erase g a b).
Proof. intros s. unfold fl_erase. destruct (dev_erase g (s_fl s) a b) as [[x|] f]; reflexivity. Qed.
Lemma kc_read_hdr a : forall k, keeps_ca (read_hdr g k a).
Proof. induction k; cbn [read_hdr]; (apply kc_bind; [apply kc_read|intros b]); destruct (all_ff b); [apply kc_ret| |apply kc_ret|]; (destruct (lcrc_ok b); [apply kc_ret|]); [apply kc_fail|apply IHk]. Qed.
Lemma kc_read_new a e : keeps_ca (read_new g a e).
Proof. unfold read_new. destruct (beyond _ _); [apply kc_ret|]. apply kc_bind; [apply kc_read_hdr|]. intros [b|]; [|apply kc_ret]. cbv zeta. destruct (beyond _ _); [apply kc_fail|apply kc_ret]. Qed.
Lemma kc_trav skip e : forall fuel cur, keeps_ca (traverse g fuel skip cur e).
Proof.
  induction fuel as [|fuel IH]; intros cur; cbn [traverse]; [apply kc_fail|]. apply kc_try; [apply kc_read_new|]. intros [[h|]|x]; [destruct (skip h); [apply IH|apply kc_ret]|apply kc_ret|destruct x; first [apply kc_fail|apply IH]].
Qed.
Lemma J_ca s s' : s_ca s' = s_ca s -> J s -> J s'. Proof. unfold J, wl, pl. now intros ->. Qed.
Lemma JI_ca s s' : s_ca s' = s_ca s -> JI s -> JI s'. Proof. intros E (A & B). split; [now apply (J_ca s)|]. unfold ipp in *. now rewrite E. Qed.
Lemma v_ca s s' : s_ca s' = s_ca s -> v s' = v s. Proof. unfold v. now intros ->. Qed.
Lemma pw_ca s s' : s_ca s' = s_ca s -> pw s' = pw s. Proof. unfold pw. now intros ->. Qed.

Lemma pp_state_sane c p x : pp_sane g c -> pp_sane g (pp_page_state c p x).
Proof.
  intros H. destruct c as [|er wr]; [exact H|]. destruct x; try exact H. cbn [pp_page_state]. intros q a Q. destruct (H q a Q) as [H1 H2]. split; intros L; apply lookup_set in L; destruct L as [(_ & L)|L]; auto; discriminate.
Qed.
Lemma lset_len {A} (l : list A) i x : length (list_set l i x) = length l.
Proof. revert i. induction l; intros [|i]; cbn; auto. Qed.
Lemma lookup_lset {A} (l : list (option A)) i j x : i < length l -> lookup (list_set l i (Some x)) j = if j =? i then Some x else lookup l j.
Proof. intros L. unfold lookup. rewrite nth_error_list_set. apply Nat.ltb_lt in L. rewrite L, andb_true_r. destruct (j =? i); reflexivity. Qed.

Lemma k_notice p x d s : JI s -> p < NP -> wp (c_notice_ps p x d) (fun _ s' => JI s' /\ (forall i, v s' i = if i =? p then Some x else v s i)) (fun _ => J) s.
Proof.
  intros ((WL & PL) & IP) P. unfold wp, c_notice_ps. cbv zeta. unfold pl in PL. destruct (c_ps (s_ca s)) as [|l|] eqn:E; [discriminate|injection PL as PL|discriminate].
  cbn [ps_notice]. assert (L : p <? length l = true) by (apply Nat.ltb_lt; lia). rewrite L. split.
  - split; [split|].
    + unfold wl in *. cbn [set_ca s_ca c_pp]. destruct (c_pp (s_ca s)) as [|er wr]; [exact WL|]. destruct x; cbn [pp_page_state]; try exact WL. now rewrite lset_len.
    + unfold pl. cbn [set_ca s_ca c_ps]. now rewrite lset_len, PL.
    + unfold ipp. cbn [set_ca s_ca c_pp]. now apply pp_state_sane.
  - intros i. unfold v. rewrite E. cbn [set_ca s_ca c_ps]. rewrite lookup_lset by lia. reflexivity.
Qed.
Definition mono (s s' : st) : Prop := forall i y, v s i = Some y -> v s' i = Some y.
Lemma k_psc p s : JI s -> p < NP -> wp (page_state_c g p) (fun x s' => JI s' /\ v s' p = Some x /\ mono s s') (fun _ => J) s.
Proof.
  intros JS P. unfold page_state_c. apply wp_bind. unfold wp at 1, c_get_ps. destruct JS as ((WL & PL) & IP) eqn:EJ. clear EJ. unfold pl in PL. destruct (c_ps (s_ca s)) as [|l|] eqn:E; [discriminate|injection PL as PL|discriminate].
  cbn [ps_get]. destruct (nth_error l p) as [[x|]|] eqn:EN.
  - apply wp_ret. split; [exact JS|]. split; [unfold v; rewrite E; unfold lookup; now rewrite EN|intros i y H; exact H].
  - apply wp_bind. eapply wp_mono; [apply (kc_wp (page_state g p))| |].
    + apply kc_bind; [apply kc_read|intros b1]. apply kc_bind; [apply kc_read|intros b2]. destruct (marked b1), (marked b2); first [apply kc_ret|apply kc_fail].
    + intros x s1 CA. cbv beta in CA. apply wp_bind. eapply wp_mono; [apply (k_notice p x false s1 (JI_ca _ _ CA JS) P)| |auto]. intros [] s2 (J2 & V2). apply wp_ret. split; [exact J2|]. split; [now rewrite V2, Nat.eqb_refl|].
      intros i y H. rewrite V2. destruct (Nat.eqb_spec i p) as [->|NE]; [|now rewrite (v_ca _ _ CA)]. unfold v in H. rewrite E in H. unfold lookup in H. rewrite EN in H. discriminate.
    + intros e s1 CA. exact (J_ca _ _ CA (proj1 JS)).
  - apply nth_error_None in EN. lia.
Qed.
Definition isnt (x : pstate) (s : st) (i : nat) : Prop := exists y, v s i = Some y /\ y <> x.
Lemma isnt_mono x s s' i : mono s s' -> isnt x s i -> isnt x s' i. Proof. intros M (y & H & NE). exists y. auto. Qed.
Lemma mono_trans s1 s2 s3 : mono s1 s2 -> mono s2 s3 -> mono s1 s3. Proof. intros A B i y H. auto. Qed.
Lemma k_ff x : forall l s, JI s -> Forall (fun p => p < NP) l -> wp (find_first_in g l x) (fun o s' => JI s' /\ mono s s' /\
  match o with Some p => exists l1 l2, l = l1 ++ p :: l2 /\ v s' p = Some x /\ Forall (isnt x s') l1 | None => Forall (isnt x s') l end) (fun _ => J) s.
Proof.
  induction l as [|p l IH]; intros s JS FL; cbn [find_first_in]; [apply wp_ret; split; [exact JS|]; split; [intros i y H; exact H|constructor]|]. inversion FL as [|? ? LP FL']; subst.
  apply wp_bind. eapply wp_mono; [apply (k_psc p s JS LP)| |auto]. intros y s1 (J1 & V1 & M1). destruct (pstate_eqb x y) eqn:EQ.
  - apply wp_ret. split; [exact J1|]. split; [exact M1|]. exists [], l. split; [reflexivity|]. split; [|constructor]. assert (x = y) by (destruct x, y; try discriminate; reflexivity). now subst.
  - assert (NE : y <> x) by (intros ->; destruct x; discriminate). eapply wp_mono; [apply (IH s1 J1 FL')| |auto]. intros o s2 (J2 & M2 & H). split; [exact J2|]. split; [exact (mono_trans _ _ _ M1 M2)|].
    assert (I2 : isnt x s2 p) by (exists y; auto). destruct o as [q|]; [|now constructor]. destruct H as (l1 & l2 & -> & V2 & F2). exists (p :: l1), l2. split; [reflexivity|]. split; [exact V2|now constructor].
Qed.
Definition K1 (p : nat) (s : st) : Prop := p < NP /\ (forall i, i < p -> isnt PartialOpen s i) /\ exists y, v s p = Some y /\ y <> Closed.
Definition K2 (p : nat) (s : st) : Prop := p < NP /\ (forall i, i < p -> isnt PartialOpen s i) /\ v s p = Some PartialOpen.
Lemma NP0 : 0 < NP. Proof. pose proof (NP_pos g gok). lia. Qed.
Lemma k_youngest s : JI s -> wp (find_youngest g) (fun p s' => JI s' /\ K1 p s') (fun _ => J) s.
Proof.
  pose proof NP0 as N0. intros JS. unfold find_youngest, find_first. apply wp_bind. eapply wp_mono; [apply (k_ff PartialOpen _ s JS (get_pages_lt g gok 0))| |auto]. intros [p|] s1 (J1 & _ & H1).
  - apply wp_ret. split; [exact J1|]. destruct H1 as (l1 & l2 & E & V & F). destruct (get_pages_split g 0 l1 p l2 N0 E) as (i & LI & EP & IN). cbn [Nat.add] in *. rewrite Nat.mod_small in EP by lia. subst i.
    split; [lia|]. split; [|exists PartialOpen; split; [exact V|discriminate]]. intros j LJ. rewrite Forall_forall in F. apply F. specialize (IN j LJ). rewrite Nat.mod_small in IN by lia. exact IN.
  - assert (ALL : forall i, i < NP -> isnt PartialOpen s1 i) by (intros i LI; rewrite Forall_forall in H1; apply H1, in_get_pages; auto).
    apply wp_bind. eapply wp_mono; [apply (k_ff Closed _ s1 J1 (get_pages_lt g gok 0))| |auto]. intros fc s2 (J2 & M2 & H2). apply wp_bind.
    apply wp_mono with (Q := fun fo s3 => JI s3 /\ mono s2 s3 /\ match fo with Some p => p < NP /\ exists y, v s3 p = Some y /\ y <> Closed | None => True end) (E := fun _ => J).
    + destruct fc as [a|].
      * destruct H2 as (l1 & l2 & E & _ & _). eapply wp_mono; [apply (k_ff Open _ s2 J2 (get_pages_lt g gok a))| |auto]. intros [p|] s3 (J3 & M3 & H3); (split; [exact J3|]; split; [exact M3|]); [|exact Logic.I].
        destruct H3 as (l3 & l4 & E3 & V3 & _). split; [|exists Open; split; [exact V3|discriminate]]. pose proof (get_pages_lt g gok a) as G. rewrite Forall_forall in G. apply G. rewrite E3. apply in_or_app. right. now left.
      * apply wp_ret. split; [exact J2|]. split; [intros i y H; exact H|]. split; [exact N0|]. rewrite Forall_forall in H2. apply H2, in_get_pages; auto.
    + intros [p|] s3 (J3 & M3 & H3); [|apply wp_fail; apply J3]. apply wp_ret. split; [exact J3|]. destruct H3 as (LP & H3). split; [exact LP|]. split; [|exact H3].
      intros i LI. apply (isnt_mono _ s1); [exact (mono_trans _ _ _ M2 M3)|]. apply ALL. lia.
    + auto.
Qed.
Lemma k_write a b s : JI s -> wp (fl_write g a b) (fun _ s' => JI s' /\ v s' = v s /\ pw s' = pw s) (fun _ => J) s.
Proof. intros JS. eapply wp_mono; [apply (kc_wp _ s (kc_write a b))| |]; cbv beta; intros x s' CA; [split; [exact (JI_ca _ _ CA JS)|split; [exact (v_ca _ _ CA)|exact (pw_ca _ _ CA)]]|exact (J_ca _ _ CA (proj1 JS))]. Qed.
Lemma k_partial p s : JI s -> K1 p s -> wp (partial_close g p) (fun _ s' => JI s' /\ K2 p s') (fun _ => J) s.
Proof.
  intros JS (LP & BE & y & VP & NC). unfold partial_close. apply wp_bind. eapply wp_mono; [apply (k_psc p s JS LP)| |auto]. intros x s1 (J1 & V1 & M1). pose proof (M1 _ _ VP) as V2. rewrite V1 in V2. injection V2 as <-.
  assert (BE1 : forall i, i < p -> isnt PartialOpen s1 i) by (intros i LI; apply (isnt_mono _ s); auto). destruct (negb (pstate_eqb x Open)) eqn:EO.
  - apply wp_ret. split; [exact J1|]. split; [exact LP|]. split; [exact BE1|]. destruct x; try discriminate; [contradiction|exact V1].
  - apply wp_bind. eapply wp_mono; [apply (k_notice p PartialOpen true s1 J1 LP)| |auto]. intros [] s2 (J2 & V2). apply wp_bind. eapply wp_mono; [apply (k_write _ _ s2 J2)| |auto]. intros [] s3 (J3 & V3 & _). apply wp_ret. split; [exact J3|].
    split; [exact LP|]. rewrite V3. split; [|now rewrite V2, Nat.eqb_refl]. intros i LI. destruct (BE1 i LI) as (z & Z & NE). exists z. rewrite V3, V2. destruct (Nat.eqb_spec i p); [lia|auto].
Qed.
Lemma na_lt a h : a < next_addr g a h.
Proof. unfold next_addr. pose proof (HL_W g). pose proof (W_pos g gok). lia. Qed.
Lemma psc_known {R : reader} p x s : v s p = Some x -> page_state_c (R := R) g p s = (Ok x, s).
Proof. unfold v, page_state_c, bind, c_get_ps. destruct (c_ps (s_ca s)) as [|l|]; try discriminate. cbn [ps_get]. unfold lookup. destruct (nth_error l p) as [[y|]|]; try discriminate. now intros [= ->]. Qed.
Lemma k_close p s : JI s -> p < NP -> v s p = Some PartialOpen -> wp (close_page g p) (fun _ s' => JI s' /\ forall i, v s' i = if i =? p then Some Closed else v s i) (fun _ => J) s.
Proof.
  intros JS LP VP. unfold close_page, partial_close. apply wp_bind. apply wp_bind. eapply wp_eq; [exact (psc_known p _ s VP)|]. cbn [pstate_eqb negb]. apply wp_ret. cbn [pstate_eqb negb].
  apply wp_bind. eapply wp_mono; [apply (k_notice p Closed true s JS LP)| |auto]. intros [] s2 (J2 & V2). eapply wp_mono; [apply (k_write _ _ s2 J2)| |auto]. intros [] s3 (J3 & V3 & _). split; [exact J3|]. now rewrite V3.
Qed.
Lemma k_open p s : JI s -> p < NP -> wp (open_page g p) (fun _ s' => JI s' /\ forall i, v s' i = if i =? p then Some Open else v s i) (fun _ => J) s.
Proof.
  intros JS LP. unfold open_page. apply wp_bind. eapply wp_mono; [apply (k_notice p Open true s JS LP)| |auto]. intros [] s2 (J2 & V2). eapply wp_mono; [apply (kc_wp _ s2 (kc_erase _ _))| |]; cbv beta; intros x s3 CA; [|exact (J_ca _ _ CA (proj1 J2))].
  split; [exact (JI_ca _ _ CA J2)|]. now rewrite (v_ca _ _ CA).
Qed.
Lemma k_start p s : JI s -> p < NP -> (forall i, i < p -> isnt PartialOpen s i) -> v s p = Some Open -> wp (partial_close g p) (fun _ s' => JI s' /\ K2 p s') (fun _ => J) s.
Proof. intros JS LP BE VP. apply k_partial; [exact JS|]. split; [exact LP|]. split; [exact BE|]. exists Open. split; [exact VP|discriminate]. Qed.
Lemma k_free p k s : JI s -> p < NP -> wp (find_free g (dstart g p) (dend g p) k) (fun o s' => s_ca s' = s_ca s /\ match o with Some a => dstart g p <= a <= dend g p | None => True end) (fun _ => J) s.
Proof.
  intros JS LP. unfold find_free. cbv zeta. rewrite (pindex_dstart g gok p). apply wp_bind. eapply wp_eq; [reflexivity|]. apply wp_bind.
  apply wp_mono with (Q := fun fr s' => s_ca s' = s_ca s /\ dstart g p <= fr) (E := fun _ => J); [|intros fr s' (CA & LO)|auto].
  - destruct (pp_written (c_pp (s_ca s)) p) as [a|] eqn:EW.
    + apply wp_ret. split; [reflexivity|]. destruct JS as (_ & IP). unfold ipp in IP. destruct (c_pp (s_ca s)) as [|er wr]; [discriminate|]. destruct (IP p a LP) as (_ & H). destruct (H EW) as (_ & H2). lia.
    + apply wp_bind. eapply wp_eq; [reflexivity|]. cbv zeta. set (from := Nat.max _ (dstart g p)). assert (LF : dstart g p <= from) by (subst from; lia). clearbody from. apply wp_bind.
      assert (T : forall fuel c (s0 : st), dstart g p <= c -> wp (traverse g fuel (fun _ => true) c (dend g p)) (fun t _ => dstart g p <= snd (fst t)) (fun _ _ => True) s0).
      { induction fuel as [|fuel IH]; intros c s0 LC; cbn [traverse]; [apply wp_fail; exact Logic.I|]. apply wp_attempt. unfold wp at 1. destruct (read_new g c (Some (dend g p)) s0) as [[[h|]|e] s1].
        - apply IH. pose proof (na_lt c h). lia.
        - apply wp_ret. exact LC.
        - destruct e; try (apply wp_fail; exact Logic.I). apply IH. lia. }
      eapply wp_mono; [apply wp_and; [exact (T _ from s LF)|apply (kc_wp _ s (kc_trav (fun _ => true) (dend g p) (tfuel from (dend g p)) from))]| |]; cbv beta.
      * intros t s1 (A & B). apply wp_ret. split; [exact B|exact A].
      * intros e s1 (_ & CA). exact (J_ca _ _ CA (proj1 JS)).
  - destruct (Nat.ltb_spec (dend g p) fr); [apply wp_fail; exact (J_ca _ _ CA (proj1 JS))|]. destruct (avail g (dend g p - fr)) as [av|]; [|apply wp_ret; auto]. apply wp_ret. split; [exact CA|]. destruct (k <=? av); [lia|exact Logic.I].
Qed.
Definition warm (p : nat) (s : st) : Prop := J s /\ K2 p s /\ pw s p <> None /\ c_dirty (s_ca s) = false.
Lemma k_new p a d s : J s -> K2 p s -> dstart g p <= a <= dend g p -> wp (write_new g a d ;;; c_unmark) (fun _ => warm p) (fun _ => J) s.
Proof.
  intros JS (LP & BE & VP) LA. assert (PI : pindex g a = p). { apply (pindex_in g gok). pose proof (dend_lt g gok p). pose proof (W_pos g gok). unfold dstart in LA. lia. }
  apply wp_bind. unfold write_new, write_raw. set (h := mkhdr _ _). apply wp_bind.
  assert (X : wp (c_item_written g a (next_addr g a h)) (fun _ s' => J s' /\ v s' = v s /\ pw s' p <> None) (fun _ => J) s).
  { unfold wp, c_item_written. cbv zeta. unfold J, wl, pl, v, pw in *. cbn [set_ca s_ca c_pp c_ps]. destruct JS as (WL & PL). split; [split; [|exact PL]|].
    - destruct (c_pp (s_ca s)) as [|er wr]; [exact WL|]. cbn [pp_item_written]. destruct (lookup wr (pindex g a)) as [old|]; [destruct (_ <=? old); [exact WL|]|]; now rewrite lset_len.
    - split; [reflexivity|]. destruct (c_pp (s_ca s)) as [|er wr]; [lia|]. cbn [pp_item_written]. rewrite PI. assert (NZ : nonzero (next_addr g a h) = Some (next_addr g a h)) by (unfold nonzero; pose proof (na_lt a h); destruct (Nat.eqb_spec (next_addr g a h) 0); [lia|reflexivity]).
      destruct (lookup wr p) as [old|] eqn:EL; [destruct (_ <=? old); cbn [pp_written]; [rewrite EL; discriminate|]|cbn [pp_written]]; rewrite NZ, lookup_lset, Nat.eqb_refl by lia; discriminate. }
  eapply wp_mono; [exact X| |auto]. intros [] s1 (J1 & V1 & P1).
  assert (R : forall A (c : M unit A), keeps_ca c -> wp c (fun _ s' => s_ca s' = s_ca s1) (fun _ s' => s_ca s' = s_ca s1) s1) by (intros; now apply kc_wp).
  eapply wp_mono; [apply R| |]; [| |cbv beta; intros e s2 CA; exact (J_ca _ _ CA J1)].
  - apply kc_bind; [apply kc_write|intros ?]. destruct (_ <? _); [apply kc_fail|]. apply kc_bind; [destruct (_ =? 0); [apply kc_ret|apply kc_write]|intros ?]. destruct (_ =? 0); [apply kc_ret|]. cbv zeta. destruct (_ <? _); [apply kc_fail|apply kc_write].
  - cbv beta. intros ? s2 CA. pose proof (J_ca _ _ CA J1) as J2. pose proof (v_ca _ _ CA) as V2. pose proof (pw_ca _ _ CA) as P2. unfold wp, c_unmark. unfold warm, K2, J, wl, pl, isnt. repeat split; try assumption.
    + apply J2. + apply J2.
    + intros i LI. destruct (BE i LI) as (y & Y & NE). exists y. split; [|exact NE]. rewrite <- V1, <- V2 in Y. exact Y.
    + rewrite <- V1, <- V2 in VP. exact VP.
    + rewrite <- P2 in P1. exact P1.
Qed.
Lemma k_check s : JI s -> wp c_check_dirty (fun _ => JI) (fun _ => J) s.
Proof.
  intros ((WL & PL) & IP). unfold wp, c_check_dirty, c_is_dirty, bind. destruct (c_dirty (s_ca s)); [|repeat split; auto]. unfold c_inval. cbv beta iota. unfold JI, J, wl, pl, ipp in *. cbn [set_ca s_ca cache_inval c_ps c_pp]. repeat split.
  - destruct (c_pp (s_ca s)); [exact WL|]. cbn [pp_inval]. now rewrite map_length.
  - destruct (c_ps (s_ca s)); try discriminate. cbn [ps_inval]. now rewrite map_length.
  - destruct (c_pp (s_ca s)) as [|er wr]; [exact Logic.I|]. cbn [pp_inval]. intros p a P. rewrite !lookup_none. easy.
Qed.
Lemma k_push_inner d ow s : JI s -> wp (push_inner g d ow) (fun _ s' => exists p, warm p s') (fun _ => J) s.
Proof.
  intros JS. unfold push_inner. apply wp_bind. eapply wp_mono; [apply (k_check s JS)| |auto]. intros [] s1 J1. destruct (too_big g (length d)); [apply wp_bind; apply wp_fail; apply J1|].
  apply wp_bind. eapply wp_mono; [apply (k_youngest s1 J1)| |auto]. intros cur s2 (J2 & KY). apply wp_bind. eapply wp_mono; [apply (k_partial cur s2 J2 KY)| |auto]. intros ? s3 (J3 & (LC & BC & VC)).
  apply wp_bind. eapply wp_mono; [apply (k_free cur (length d) s3 J3 LC)| |auto]. intros na s4 (CA & NA). pose proof (JI_ca _ _ CA J3) as J4. assert (K4 : K2 cur s4) by (unfold K2, isnt; rewrite (v_ca _ _ CA); repeat split; auto).
  assert (FIN : forall p a s, JI s -> K2 p s -> dstart g p <= a <= dend g p -> wp (write_new g a d ;;; c_unmark) (fun _ s' => exists p, warm p s') (fun _ => J) s).
  { intros pp aa s0 JS0 K0 LA. eapply wp_mono; [apply (k_new pp aa d s0 (proj1 JS0) K0 LA)| |auto]. intros ? s' H. now exists pp. }
  apply wp_bind. destruct na as [ad|]; [apply wp_ret; now apply (FIN cur)|]. cbv zeta. set (nxt := next_page g cur). assert (LN : nxt < NP) by apply (next_page_lt g gok).
  assert (NX : nxt = 0 \/ nxt = S cur). { unfold nxt, next_page. destruct (Nat.eq_dec (S cur) NP) as [E|E]; [left; rewrite Nat.add_1_r, E; apply Nat.mod_same; lia|right; rewrite Nat.add_1_r; apply Nat.mod_small; lia]. }
  assert (DL : dstart g nxt <= dstart g nxt <= dend g nxt) by (pose proof (dstart_lt g gok nxt); lia).
  apply wp_bind. eapply wp_mono; [apply (k_psc nxt s4 J4 LN)| |auto]. intros x s5 (J5 & V5 & M5). destruct K4 as (_ & B4 & V4). pose proof (M5 _ _ V4) as V5c. assert (B5 : forall i, i < cur -> isnt PartialOpen s5 i) by (intros i LI; apply (isnt_mono _ s4); auto).
  assert (ROLL : forall s6, JI s6 -> (forall i, i < cur -> i <> nxt -> isnt PartialOpen s6 i) -> v s6 cur = Some PartialOpen -> nxt <> cur -> v s6 nxt = Some Open ->
    wp (close_page g cur ;;; partial_close g nxt ;;; ret (dstart g nxt)) (fun a s' => wp (write_new g a d ;;; c_unmark) (fun _ s'' => exists p, warm p s'') (fun _ => J) s') (fun _ => J) s6).
  { intros s6 J6 B6 V6 NE V6n. apply wp_bind. eapply wp_mono; [apply (k_close cur s6 J6 LC V6)| |auto]. intros [] s7 (J7 & V7). apply wp_bind. eapply wp_mono; [apply (k_start nxt s7 J7 LN)| |auto].
    - intros i LI. destruct NX as [N0|N1]; [lia|]. unfold isnt. rewrite V7. destruct (Nat.eqb_spec i cur); [exists Closed; split; [reflexivity|discriminate]|]. apply B6; lia.
    - rewrite V7. destruct (Nat.eqb_spec nxt cur); [contradiction|exact V6n].
    - intros ? s8 (J8 & K8). apply wp_ret. now apply (FIN nxt). }
  assert (REST : wp (if pstate_eqb x Closed || (nxt =? cur) then full <- (if ow then ret false else e <- is_page_empty g nxt x ;; ret (negb e)) ;;
      (if (full : bool) then c_unmark ;;; fail EFull else open_page g nxt ;;; (if nxt =? cur then ret tt else close_page g cur) ;;; partial_close g nxt ;;; ret (dstart g nxt)) else fail ECorrupted)
      (fun a s' => wp (write_new g a d ;;; c_unmark) (fun _ s'' => exists p, warm p s'') (fun _ => J) s') (fun _ => J) s5).
  { destruct (_ || _); [|apply wp_fail; apply J5]. apply wp_bind. apply wp_mono with (Q := fun _ s' => s_ca s' = s_ca s5) (E := fun _ => J); [|intros full s6 CA6|auto].
    - destruct ow; [apply wp_ret; reflexivity|]. apply wp_bind. eapply wp_mono; [apply (kc_wp (is_page_empty g nxt x) s5)| |]; [|cbv beta; intros e s6 CA6; now apply wp_ret|cbv beta; intros e s6 CA6; exact (J_ca _ _ CA6 (proj1 J5))].
      unfold is_page_empty. destruct x; [|apply kc_ret|apply kc_ret]. apply kc_bind; [intros s6; reflexivity|intros ae]. cbv zeta. apply kc_bind; [apply kc_trav|intros t]. destruct t as [[[h|] ?] ?]; apply kc_ret.
    - pose proof (JI_ca _ _ CA6 J5) as J6. pose proof (v_ca _ _ CA6) as V6. destruct full; [apply wp_bind; apply wp_fail; apply J6|]. apply wp_bind. eapply wp_mono; [apply (k_open nxt s6 J6 LN)| |auto]. intros [] s7 (J7 & V7).
      destruct (Nat.eqb_spec nxt cur) as [SI|NE].
      + apply wp_bind. apply wp_ret. apply wp_bind. eapply wp_mono; [apply (k_start nxt s7 J7 LN)| |auto].
        * intros i LI. unfold isnt. rewrite V7, V6. destruct (Nat.eqb_spec i nxt); [lia|]. apply B5. lia.
        * now rewrite V7, Nat.eqb_refl.
        * intros ? s8 (J8 & K8). apply wp_ret. now apply (FIN nxt).
      + apply ROLL; auto.
        * intros i LI NI. unfold isnt. rewrite V7, V6. destruct (Nat.eqb_spec i nxt); [contradiction|]. now apply B5.
        * rewrite V7, V6. destruct (Nat.eqb_spec cur nxt); [congruence|exact V5c].
        * now rewrite V7, Nat.eqb_refl. }
  destruct x; [exact REST|exact REST|]. destruct (Nat.eq_dec nxt cur) as [SI|NE]; [rewrite SI in V5; congruence|]. apply ROLL; auto.
Qed.
Lemma k_repair : forall l s, JI s -> Forall (fun p => p < NP) l -> wp (general_repair_in g l) (fun _ => JI) (fun _ => J) s.
Proof.
  induction l as [|p l IH]; intros s JS FL; cbn [general_repair_in]; [now apply wp_ret|]. inversion FL as [|? ? LP FL']; subst. apply wp_attempt.
  assert (X : forall (r : res pstate) s1, s_ca s1 = s_ca s -> wp ((match r with Err ECorrupted => open_page g p | _ => ret tt end) ;;; general_repair_in g l) (fun _ => JI) (fun _ => J) s1).
  { intros r s1 CA. pose proof (JI_ca _ _ CA JS) as J1. apply wp_bind. destruct r as [x|e]; [apply wp_ret; now apply IH|]. destruct e; try (apply wp_ret; now apply IH). eapply wp_mono; [apply (k_open p s1 J1 LP)| |auto]. intros [] s2 (J2 & _). now apply IH. }
  eapply wp_mono; [apply (kc_wp (page_state g p) s)| |].
  - apply kc_bind; [apply kc_read|intros b1]. apply kc_bind; [apply kc_read|intros b2]. destruct (marked b1), (marked b2); first [apply kc_ret|apply kc_fail].
  - intros x s1 CA. exact (X (Ok x) s1 CA).
  - intros e s1 CA. exact (X (Err e) s1 CA).
Qed.
Lemma k_inval s : J s -> JI (set_ca s (cache_inval (s_ca s))).
Proof.
  intros (WL & PL). unfold JI, J, wl, pl, ipp in *. cbn [set_ca s_ca cache_inval c_ps c_pp]. repeat split.
  - destruct (c_pp (s_ca s)); [exact WL|]. cbn [pp_inval]. now rewrite map_length.
  - destruct (c_ps (s_ca s)); try discriminate. cbn [ps_inval]. now rewrite map_length.
  - destruct (c_pp (s_ca s)) as [|er wr]; [exact Logic.I|]. cbn [pp_inval]. intros p a P. rewrite !lookup_none. easy.
Qed.
Lemma k_push d ow s : JI s -> wp (q_push g d ow) (fun _ s' => exists p, warm p s') (fun _ => J) s.
Proof.
  intros JS. unfold q_push. apply wp_auto_repair. eapply wp_mono; [apply (k_push_inner d ow s JS)|auto|]. intros e s1 J1. destruct e; try exact J1. unfold q_repair. apply wp_bind. unfold wp at 1, c_inval. unfold general_repair.
  eapply wp_mono; [apply (k_repair _ _ (k_inval s1 J1) (get_pages_lt g gok 0))| |auto]. intros [] s2 J2. now apply k_push_inner.
Qed.
(** * A push that needs no reads *)
Lemma ff_warm {R : reader} p s : K2 p s -> find_first (R := R) g 0 PartialOpen s = (Ok (Some p), s).
Proof.
  intros (LP & BE & VP). unfold find_first. rewrite pages0. replace (seq 0 NP) with (seq 0 p ++ p :: seq (S p) (NP - S p)) by (replace (p :: seq (S p) (NP - S p)) with (seq (0 + p) (S (NP - S p))) by reflexivity; rewrite <- seq_app; f_equal; lia).
  assert (F : Forall (isnt PartialOpen s) (seq 0 p)) by (apply Forall_forall; intros i HI; apply in_seq in HI; apply BE; lia).
  induction F as [|q l1 (y & Y & NE) F IH]; cbn [app find_first_in]; unfold bind.
  - now rewrite (psc_known p PartialOpen s VP).
  - rewrite (psc_known q y s Y). destruct y; [exact IH|contradiction|exact IH].
Qed.
Lemma push_warm {R : reader} p a av d ow s : K2 p s -> pw s p = Some a -> c_dirty (s_ca s) = false -> too_big g (length d) = false -> a <= dend g p -> avail g (dend g p - a) = Some av -> length d <= av ->
  push_inner (R := R) g d ow s = (write_new g a d ;;; c_unmark) s.
Proof.
  intros K P D TB LA AV LD. unfold push_inner. unfold bind at 1. unfold c_check_dirty, c_is_dirty, bind at 1. rewrite D. cbn [ret]. rewrite TB. unfold find_youngest. unfold bind at 1. unfold bind at 1. rewrite (ff_warm p s K). cbn [ret].
  unfold partial_close. unfold bind at 1. unfold bind at 1. rewrite (psc_known p PartialOpen s (proj2 (proj2 K))). cbn [pstate_eqb negb ret]. unfold find_free. cbv zeta. rewrite (pindex_dstart g gok p). unfold bind at 1. unfold bind at 1. unfold c_after_written. fold (pw s p). rewrite P.
  unfold bind at 1. cbn [ret]. destruct (Nat.ltb_spec (dend g p) a); [lia|]. rewrite AV. cbn [ret]. destruct (Nat.leb_spec (length d) av); [|lia]. unfold bind at 1. cbn [ret]. reflexivity.
Qed.
End C.

(** * The claim *)
Section Q.
Context (g : geom) (gok : geom_ok g).
Notation NP := (NP g).
Lemma ff_pg pg x : forall l1 p l2, st_of (pg p) = Some x -> Forall (fun q => exists y, st_of (pg q) = Some y /\ y <> x) l1 -> ff pg x (l1 ++ p :: l2) = Some (Some p).
Proof.
  intros l1 p l2 SP F. induction F as [|q l1 (y & Y & NE) F IH]; cbn [app ff].
  - rewrite SP. destruct x; reflexivity.
  - rewrite Y. replace (pstate_eqb x y) with false by (symmetry; destruct x, y; try reflexivity; contradiction). exact IH.
Qed.
Lemma write_nc a d (s : st unit) e s' : (write_new g a d ;;; c_unmark) s = (Err e, s') -> e <> ECorrupted.
Proof.
  assert (W0 : forall a b (s : st unit), wp (fl_write g a b) (fun _ _ => True) (fun e _ => e <> ECorrupted) s).
  { intros a0 b s0. unfold wp, fl_write. destruct (dev_write _ _ _ _) as [[x|] f]; [discriminate|exact Logic.I]. }
  assert (H : wp (write_new g a d ;;; c_unmark) (fun _ _ => True) (fun e _ => e <> ECorrupted) s); [|unfold wp in H; intros E; now rewrite E in H].
  apply wp_bind. unfold write_new, write_raw. apply wp_bind. unfold wp at 1, c_item_written. cbv zeta. apply wp_bind. eapply wp_mono; [apply W0| |auto]. intros ? s1 _. destruct (_ <? _); [apply wp_fail; discriminate|].
  apply wp_bind. apply wp_mono with (Q := fun _ _ => True) (E := fun e _ => e <> ECorrupted); [destruct (_ =? 0); [now apply wp_ret|apply W0]| |auto]. intros ? s2 _.
  assert (T : forall s : st unit, wp (K := unit) c_unmark (fun _ _ => True) (fun e _ => e <> ECorrupted) s) by (intros s0; exact Logic.I).
  destruct (_ =? 0); [apply wp_ret; apply T|]. cbv zeta. destruct (_ <? _); [apply wp_fail; discriminate|]. eapply wp_mono; [apply W0| |auto]. intros ? s3 _. apply T.
Qed.
Lemma auto_st (f : M unit unit) rp s r t : f s = (r, t) -> (forall e, r = Err e -> e <> ECorrupted) -> auto_repair (R := steady) f rp s = (r, t).
Proof. intros H N. unfold auto_repair, attempt, bind. cbn [on_result steady]. unfold hand_on. rewrite H. destruct r as [u|e]; [reflexivity|]. specialize (N e eq_refl). destruct e; try reflexivity. congruence. Qed.
Lemma auto_co (f : M unit unit) rp s u t : f s = (Ok u, t) -> auto_repair (R := counted) f rp s = (Ok u, t).
Proof. intros H. unfold auto_repair, attempt, bind. cbn [on_result counted garbled]. unfold hand_on. now rewrite H. Qed.
Lemma er_some ops (s : st unit) s' f : run g (s_fl s) ops = (None, f) -> f_er (s_fl s') = f_er f -> des ops <> [] -> erases_between s s' <> [].
Proof.
  intros R E NE. unfold erases_between. rewrite E, (run_er g _ _ _ R). rewrite app_length. replace (_ + _ - _) with (length (rev (map (rng g) (des ops)))) by lia. rewrite firstn_app, Nat.sub_diag, firstn_all, firstn_O, app_nil_r.
  destruct (des ops) as [|x t]; [congruence|]. cbn [map rev]. intros X. apply app_eq_nil in X. destruct X as (_ & X). discriminate.
Qed.
End Q.

Lemma cheap_push pf g evs l s d ow p s1 d2 ow2 : q_reached pf g evs l s -> page_caches g (s_ca s) -> item_ok pf d -> item_ok pf d2 -> (pf = false -> p = None) ->
  q_exec (R := steady) g (QPush d ow) (power s p) = (AUnit (Ok tt), s1) -> let n := q_exec (R := counted) g (QPush d2 ow2) (power s1 None) in
  fst n = AUnit (Ok tt) -> reads_between s1 (snd n) = [] \/ moved_on g s1 (snd n).
Proof.
  intros RE PC D1 D2 PP E1 n E2. destruct (reached_snoc pf g evs l s (QPush d ow) p _ s1 (mkcache false PSNone PPNone KPNone) RE D1 PP (conj eq_refl (conj (FPNone _) (conj (FQNone _) FKNone))) E1) as (_ & RE1).
  destruct (reached_qst _ _ _ _ _ RE1) as (ae & aw & Y & ST & QS & _). pose proof (setting_single _ _ _ _ ST) as SG. pose proof ST as [gok _]. pose proof QS as (pg & LY & QI & SW).
  (* the caches *)
  assert (WM : exists m n q, NP g <= m /\ NP g <= n /\ warm g m n q s1).
  { destruct PC as (pl0 & er & wr & P1 & P2 & L1 & _ & L2). exists (length wr), (length pl0).
    assert (IP : ipp g (power s p)). { destruct RE as (f & c & _ & _ & _ & FC & _ & EV & E). destruct (q_any g gok f c FC evs) as (_ & SN).
      - intros c' IN. rewrite Forall_forall in EV. apply (EV _ IN).
      - rewrite E in SN. destruct SN as (_ & (_ & SN & _) & _). exact SN. }
    assert (JS : JI g (length wr) (length pl0) (power s p)). { split; [|exact IP]. unfold J, wl, pl. cbn [power s_ca]. change (s_ca (power s p)) with (s_ca s). now rewrite P1, P2. }
    pose proof (k_push g gok (length wr) (length pl0) L2 L1 d ow _ JS) as K. unfold wp in K. cbn [q_exec] in E1. unfold ans1 in E1. destruct (q_push g d ow (power s p)) as [r s1']. cbn [fst snd] in E1. injection E1 as E1a E1b. subst r s1'. destruct K as (q & K). exists q. auto. }
  destruct WM as (m & nn & q & LM & LN & JS1 & (LQ & BE & VQ) & PW & DI).
  destruct SW as (FW & WF & [X|CO]); [congruence|]. destruct CO as (CS & CP). pose proof FW as (IM & PG & _).
  assert (KN : forall i y, i < NP g -> v s1 i = Some y -> st_of (pg i) = Some y).
  { intros i y LI V. unfold v in V. destruct (c_ps (s_ca s1)) as [|l0|]; try discriminate. destruct CS as (_ & CS). apply CS; auto. unfold lookup in V. destruct (nth_error l0 i) as [[z|]|]; try discriminate. congruence. }
  assert (YG : young g pg = Some q).
  { unfold young. rewrite (pages0 g). replace (seq 0 (NP g)) with (seq 0 q ++ q :: seq (S q) (NP g - S q)) by (replace (q :: seq (S q) (NP g - S q)) with (seq (0 + q) (S (NP g - S q))) by reflexivity; rewrite <- seq_app; f_equal; lia).
    rewrite ff_pg; [reflexivity|now apply KN|]. apply Forall_forall. intros i HI. apply in_seq in HI. destruct (BE i ltac:(lia)) as (y & V & NE). exists y. split; [apply KN; [lia|exact V]|exact NE]. }
  assert (QC : q = y_cur g Y). { destruct (young_ok g gok Y pg LY QI) as [X|[X _]]; rewrite X in YG; [now injection YG|discriminate]. }
  assert (IY : isyoung g (pgof g Y) = true). { unfold isyoung. rewrite <- (young_ext g gok pg (pgof g Y) (pgof_ok g gok Y pg LY)). now rewrite YG. }
  pose proof (lay_cur g gok _ _ LY QI) as LC. change ((y_f Y + y_c Y) mod NP g) with (y_cur g Y) in LC. rewrite <- QC in LC.
  destruct (pw s1 q) as [a|] eqn:PA; [|congruence]. assert (PT : ptr_wr g q (pg q) a). { unfold pw in PA. destruct (c_pp (s_ca s1)) as [|er wr]; [discriminate|]. apply (CP q LQ). exact PA. }
  destruct (y_pt Y) as [sl|] eqn:EP; [|rewrite LC in PT; destruct PT as (U & _); contradiction]. rewrite LC in PT. destruct PT as (_ & AE). cbn [slots_of] in AE.
  (* what the push does *)
  assert (RL : rel (power s1 None) (power s1 None)) by (apply rel_start; exact IM).
  assert (SIM : fst n = fst (q_exec (R := steady) g (QPush d2 ow2) (power s1 None)) /\ rel (snd (q_exec (R := steady) g (QPush d2 ow2) (power s1 None))) (snd n)) by exact (q_exec_sim g gok _ (exact_harmless g) (QPush d2 ow2) _ _ RL). destruct SIM as (EQ & RN).
  destruct (q_exec (R := steady) g (QPush d2 ow2) (power s1 None)) as [a2 s2] eqn:E3. cbn [fst snd] in EQ, RN. assert (A0 : a2 = AUnit (Ok tt)) by congruence. rewrite A0 in E3. clear A0 a2 EQ.
  destruct RN as (_ & lg & NS).
  assert (NM : f_mem (s_fl (snd n)) = f_mem (s_fl s2)) by (rewrite NS; reflexivity). assert (NE : f_er (s_fl (snd n)) = f_er (s_fl s2)) by (rewrite NS; reflexivity).
  destruct (does_ok g gok (negb pf) ae aw SG Y s1 (QPush d2 ow2) _ s2 QS (setting_call pf g ae aw (QPush d2 ow2) ST D2) E3) as (A2 & (pg2 & LY2 & QI2 & SW2) & _ & RUN).
  cbn [yact] in A2, LY2, QI2, RUN. rewrite IY in *. unfold qpush in A2, LY2, QI2, RUN. unfold ypush at 1 in A2. unfold ypush at 1 in LY2. unfold ypush at 1 in QI2. unfold ypush at 1 in RUN. unfold y_start, y_sl in *. rewrite EP in *. rewrite EP in *. cbn [negb] in *.
  destruct (too_big g (length d2)) eqn:TB; [discriminate|].
  destruct (fitsb g sl (length d2)) eqn:FB.
  - left. apply (fit_iff g gok) in FB. pose proof (cap_eq g gok q) as CE. assert (SZ : sizes g sl <= cap g) by (pose proof (HL_W g gok); pose proof (W_pos g gok); lia).
    assert (AV : avail g (dend g q - a) = Some (cap g - sizes g sl - HL g)).
    { replace (dend g q - a) with (cap g - sizes g sl) by lia. rewrite (avail_eq g gok); [|]. + destruct (Nat.leb_spec (HL g) (cap g - sizes g sl)); [reflexivity|lia]. + apply al_sub; auto; [|now apply sizes_al]. unfold cap. apply al_sub; auto with al. replace (2 * W g) with (W g + W g) by lia. auto with al. }
    pose proof (fun R => push_warm (R := R) g gok m nn LM LN q a _ d2 ow2 (power s1 None) (conj LQ (conj BE VQ)) PA DI TB ltac:(lia) AV (proj2 FB)) as PW2.
    assert (BB : f_bad (s_fl s2) = f_bad (s_fl s1)).
    { destruct RE1 as (f & c & _ & _ & _ & FC & _ & EV & E). destruct (q_any g gok f c FC (evs ++ [ECall (QPush d ow) p])) as (_ & SN).
      - intros c' IN. rewrite Forall_forall in EV. apply (EV _ IN).
      - rewrite E in SN. destruct (q_run_safe g gok f [ECall (QPush d2 ow2) None] s1 SN) as (_ & SN2); [intros c' [X|[]]; discriminate|]. cbn [q_run] in SN2. rewrite E3 in SN2. cbn [snd] in SN2. cbn [snd] in SN. destruct SN as ((-> & _) & _), SN2 as ((-> & _) & _). reflexivity. }
    assert (X : snd n = s2).
    { subst n. cbn [q_exec] in E3 |- *. unfold ans1 in E3 |- *. cbn [snd]. unfold q_push in E3 |- *. destruct ((write_new g a d2;;; c_unmark) (power s1 None)) as [[u|e] t] eqn:EW.
      - rewrite (auto_st _ _ _ _ _ (PW2 steady)) in E3 by (intros e; discriminate). rewrite (auto_co _ _ _ u t (PW2 counted)). cbn [fst snd] in *. congruence.
      - rewrite (auto_st _ _ _ _ _ (PW2 steady)) in E3; [discriminate|]. intros e0 [= <-]. exact (write_nc g a d2 _ _ _ EW). }
    rewrite X. unfold reads_between. now rewrite BB, Nat.sub_diag.
  - right. assert (ERA : forall ops, run g (s_fl (power s1 None)) ops = (None, s_fl s2) -> des ops <> [] -> moved_on g s1 (snd n)).
    { intros ops RU ND. left. exact (er_some g ops (power s1 None) (snd n) _ RU NE ND). }
    destruct (1 <=? y_k Y) eqn:YK.
    + right. exists q. split; [exact LQ|]. cbn [snd] in LY2. unfold y_roll, y_sl in LY2. rewrite EP in LY2. pose proof (lay_at_cl (NP g) _ _ _ _ _ _ _ _ LY2) as CL. change ((y_f Y + length (y_cl Y)) mod NP g) with (y_cur g Y) in CL. rewrite <- QC in CL.
      destruct SW2 as ((IM2 & PG2 & _) & _). split.
      * pose proof (PG q LQ) as H. rewrite LC in H. apply (page_read g gok (negb pf) (s_fl s1) q (PPart sl) IM Logic.I H).
      * rewrite NM. pose proof (PG2 q LQ) as H. rewrite CL in H. apply (page_read g gok (negb pf) (s_fl s2) q (PClosed sl) IM2 Logic.I H).
    + destruct (y_bad Y =? 1) eqn:YB.
      * destruct (ypush g true (yrep Y) d2 ow2) as [[r2 L2] Y2]. cbn [fst snd] in RUN. apply (ERA _ RUN). unfold rops. rewrite YB. discriminate.
      * destruct (y_cl Y) as [|o cl]; [destruct ow2; [|discriminate]|destruct (ow2 || emptyish o); [|discriminate]]; cbn [fst snd] in RUN; apply (ERA _ RUN); discriminate.
Qed.
