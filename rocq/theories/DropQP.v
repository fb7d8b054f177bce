(** The cache after a queue call that was dropped at a read: it is marked dirty, or right. *)
From Coq Require Import List NArith ZArith Arith Bool Lia.
From Verif Require Import Base BaseP Crc CrcP Flash Cache State Item Generic Queue GeomP ScanP WpP ItemP CalcP PageP WorldP LayP QPushP QRepP QIterP QNextP QStepP QMiscP QCallP Client QSpec QObs QHistP QPropsP ProgP Reads ReadsP Drops DropP.
Import ListNotations.
Local Opaque crc16 acrc crc32.

Section J.
Context (g : geom) (gok : geom_ok g) (ae : bool) (aw : nat) (T : nat).
Notation NP := (NP g).
Notation st := (st unit).
Notation M := (M unit).
Implicit Types (s : st) (pg : nat -> page).
Notation fworld := (fworld g false ae aw).
Notation D := (dropping T).
Notation wfc := (wfc (K := unit) g).
Context (pg0 : nat -> page) (f0 : flash) (FW0 : fworld pg0 f0) (RG0 : ring_ex g pg0).

(** Marked dirty; or right whatever pages there are; or right for the pages at the start, which are still there. *)
Definition jc s : Prop := c_dirty (s_ca s) = true \/ (forall pg, fworld pg (s_fl s) -> ring_ex g pg -> coh g pg (s_ca s)) \/ (same_fl f0 (s_fl s) /\ coh g pg0 (s_ca s)).
Definition J s : Prop := wfc (s_ca s) /\ jc s.
Definition je (e : err) s : Prop := wfc (s_ca s) /\ (e = dropped -> J s).
Definition dt s : Prop := wfc (s_ca s) /\ c_dirty (s_ca s) = true.
Lemma dt_J s : dt s -> J s. Proof. intros (A & B). split; auto. now left. Qed.
Lemma J_je e s : J s -> je e s. Proof. intros H. split; [apply H|auto]. Qed.
Definition cf {A} (m : M A) : Prop := forall s, J s -> wp m (fun _ s' => J s') je s.
Definition ct {A} (m : M A) : Prop := forall s, J s -> wp m (fun _ s' => wfc (s_ca s')) je s.
Definition cd {A} (m : M A) : Prop := forall s, dt s -> wp m (fun _ s' => dt s') je s.
Definition cn {A} (m : M A) : Prop := forall s, wfc (s_ca s) -> wp m (fun _ s' => wfc (s_ca s')) (fun e s' => wfc (s_ca s') /\ e <> dropped) s.
Lemma cf_ct {A} (m : M A) : cf m -> ct m.
Proof. intros H s Js. eapply wp_mono; [now apply H| |]; cbv beta; [intros a s1 X; apply X|auto]. Qed.
Lemma cf_bind {A B} (m : M A) (k : A -> M B) : cf m -> (forall a, cf (k a)) -> cf (bind m k).
Proof. intros H1 H2 s Js. apply wp_bind. eapply wp_mono; [now apply H1| |]; cbv beta; [intros a s1 X; now apply H2|auto]. Qed.
Lemma ct_bind {A B} (m : M A) (k : A -> M B) : cf m -> (forall a, ct (k a)) -> ct (bind m k).
Proof. intros H1 H2 s Js. apply wp_bind. eapply wp_mono; [now apply H1| |]; cbv beta; [intros a s1 X; now apply H2|auto]. Qed.
Lemma ct_then {A B} (m : M A) (k : A -> M B) : ct m -> (forall a, cn (k a)) -> ct (bind m k).
Proof.
  intros H1 H2 s Js. apply wp_bind. eapply wp_mono; [now apply H1| |]; cbv beta; auto. intros a s' X. eapply wp_mono; [now apply H2| |]; cbv beta; auto. intros e s2 (Y1 & Y2). split; auto. intros Z; now destruct Y2.
Qed.
Lemma cn_bind {A B} (m : M A) (k : A -> M B) : cn m -> (forall a, cn (k a)) -> cn (bind m k).
Proof. intros H1 H2 s Js. apply wp_bind. eapply wp_mono; [now apply H1| |]; cbv beta; [intros a s1 X; now apply H2|auto]. Qed.
Lemma cd_bind {A B} (m : M A) (k : A -> M B) : cd m -> (forall a, cd (k a)) -> cd (bind m k).
Proof. intros H1 H2 s Js. apply wp_bind. eapply wp_mono; [now apply H1| |]; cbv beta; [intros a s1 X; now apply H2|auto]. Qed.

(** Parts that leave the cache alone and only read. *)
Definition calm {A} (m : M A) : Prop := forall s, s_ca (snd (m s)) = s_ca s /\ exists l, s_fl (snd (m s)) = with_log (s_fl s) l.
Lemma fworld_same pg f f2 : same_fl f f2 -> fworld pg f -> fworld pg f2.
Proof.
  intros (E1 & E2 & E3 & E4) (A1 & A2 & (A3 & A6) & A4 & A5). split; [intros x; rewrite E1; apply A1|]. split; [|split; [split; [congruence|exact A6]|split; [congruence|discriminate]]].
  intros p Hp. eapply page_is_ext; [exact gok| |apply A2, Hp]. intros y _. now rewrite E1, E2.
Qed.
Lemma J_log s s' l : s_ca s' = s_ca s -> s_fl s' = with_log (s_fl s) l -> J s -> J s'.
Proof.
  intros E1 E2 (A & B). split; [now rewrite E1|]. unfold jc in *. rewrite E1, E2. destruct B as [B|[B|(B1 & B2)]]; [now left|right; left|right; right].
  - intros pg F. apply B. eapply fworld_same; [|exact F]. repeat split.
  - split; auto.
Qed.
Lemma calm_cf {A} (m : M A) : calm m -> cf m.
Proof. intros H s Js. unfold wp. destruct (H s) as (E & l & E2). destruct (m s) as [[a|e] s']; cbn [snd] in *; [|apply J_je]; eapply J_log; eauto. Qed.
Lemma calm_bind {A B} (m : M A) (k : A -> M B) : calm m -> (forall a, calm (k a)) -> calm (bind m k).
Proof.
  intros H1 H2 s. destruct (H1 s) as (E & l & E2). unfold bind. destruct (m s) as [[a|e] s1]; cbn [snd] in *; [|eauto]. destruct (H2 a s1) as (E3 & l2 & E4). split; [congruence|]. exists l2. rewrite E4, E2. reflexivity.
Qed.
Lemma calm_attempt {A} (m : M A) : calm m -> calm (attempt (R := D) m).
Proof. intros H s. destruct (H s) as (E & l & E2). unfold attempt. cbn [on_result dropping]. destruct (m s) as [r s1]. cbn [snd] in *. destruct r as [|[[]| | | | | | | |]]; cbn [snd]; eauto. Qed.
Ltac cm0 := intros s; split; [reflexivity|exists (f_bad (s_fl s)); cbn; now rewrite log_id].
Lemma calm_ret {A} (a : A) : calm (ret a). Proof. cm0. Qed.
Lemma calm_fail {A} e : calm (@fail unit A e). Proof. cm0. Qed.
Lemma calm_get_buf : calm get_buf. Proof. cm0. Qed.
Lemma calm_put_buf b : calm (put_buf b). Proof. cm0. Qed.
Lemma calm_get_qi : calm get_qi. Proof. cm0. Qed.
Lemma calm_put_qi b : calm (put_qi b). Proof. cm0. Qed.
Lemma calm_ae p : calm (c_after_erased p). Proof. cm0. Qed.
Lemma calm_aw p : calm (c_after_written p). Proof. cm0. Qed.
Lemma calm_read a n : calm (fl_read (R := D) g a n).
Proof.
  intros s. unfold fl_read. cbn [on_read dropping]. destruct (dev_read g (s_fl s) a n); [destruct (_ <? T)|]; cbn [snd]; (split; [reflexivity|]); eexists; try reflexivity. cbn. symmetry. apply log_id.
Qed.
Create HintDb cm.
Hint Resolve calm_ret calm_fail calm_get_buf calm_put_buf calm_get_qi calm_put_qi calm_ae calm_aw calm_read : cm.
Ltac cm := cbv zeta; repeat first [solve [auto with cm]|apply calm_attempt|apply calm_bind; [|intros]|match goal with |- calm (match ?x with _ => _ end) => destruct x end; cbv zeta].
Lemma calm_state p : calm (page_state (R := D) g p). Proof. unfold page_state. cm. Qed.
Lemma calm_hdr n a : calm (read_hdr (R := D) g n a). Proof. induction n; cbn [read_hdr]; cm. Qed.
Hint Resolve calm_state calm_hdr : cm.
Lemma calm_new a e : calm (read_new (R := D) g a e). Proof. unfold read_new. cm. Qed.
Lemma calm_data n h c a x : calm (read_data (R := D) g n h c a x). Proof. induction n; cbn [read_data]; cm. Qed.
Hint Resolve calm_new calm_data : cm.
Lemma calm_item h a e : calm (read_item (R := D) g h a e). Proof. unfold read_item. cm. Qed.
Lemma calm_trav n sk e : forall a, calm (traverse (R := D) g n sk a e). Proof. induction n; intros a; cbn [traverse]; cm. Qed.
Hint Resolve calm_item calm_trav : cm.
Lemma calm_empty p x : calm (is_page_empty (R := D) g p x). Proof. unfold is_page_empty. cm. Qed.
Lemma calm_free a e n : calm (find_free (R := D) g a e n). Proof. unfold find_free. cm. Qed.
Lemma calm_fa p : calm (free_addr (R := D) g p). Proof. unfold free_addr. cm. Qed.
Lemma calm_entry h : calm (entry_data h). Proof. unfold entry_data. cm. Qed.
Hint Resolve calm_empty calm_free calm_fa calm_entry : cm.

(** Page states: what is noticed is right. *)
Lemma notice_wf c p x c' : ps_notice c p x = Some c' -> wfps g c -> wfps g c'.
Proof.
  destruct c as [|l|k]; cbn [ps_notice]; [now intros [= <-]| |].
  - destruct (p <? length l); [|discriminate]. intros [= <-]. cbn. now rewrite list_set_length.
  - destruct (calc_notice k p x) as [k'|] eqn:E; [|discriminate]. intros [= <-]. cbn. intros H. rewrite <- H. revert E. unfold calc_notice.
    repeat match goal with |- (match ?y with _ => _ end) = _ -> _ => destruct y end; intros [= <-]; reflexivity.
Qed.
Lemma cf_psc p : cf (page_state_c (R := D) g p).
Proof.
  intros s Js. unfold wp, page_state_c, bind, c_get_ps. destruct (ps_get (c_ps (s_ca s)) p) as [[x|]|] eqn:EG; [exact Js| |apply J_je, Js].
  destruct (rd_state (K := unit) g T p) as (_ & _ & _ & H). specialize (H s (f_bad (s_fl s))). rewrite logged_id in H. destruct H as [(l' & H)|(H & _)].
  2:{ destruct (calm_state p s) as (E1 & l & E2). destruct (page_state (R := D) g p s) as [r s1]. cbn [fst snd] in *. subst r. apply J_je. eapply J_log; eauto. }
  destruct (page_state (R := D) g p s) as [r s1] eqn:ED. assert (ES : page_state (R := steady) g p s = (r, s) \/ exists e, r = Err e).
  { destruct r as [x|e]; [left|right; eauto]. injection H as H1 H2. revert H1. unfold page_state, bind, fl_read. cbn [on_read steady]. repeat (destruct (dev_read g _ _ _); [|discriminate]). repeat destruct (marked _); cbn; intros [= <-]; reflexivity. }
  destruct (calm_state p s) as (E1 & l & E2). rewrite ED in E1, E2. cbn [snd] in E1, E2. pose proof (J_log s s1 l E1 E2 Js) as J1. destruct ES as [ES|(e & ->)]; [|apply J_je, J1].
  destruct r as [x|e]; [|apply J_je, J1]. unfold c_notice_ps. cbv zeta. rewrite E1. destruct (ps_notice (c_ps (s_ca s)) p x) as [ps'|] eqn:EN.
  2:{ split; [apply Js|discriminate]. }
  assert (Hp : p < NP).
  { revert ES. unfold page_state, bind, fl_read at 1. cbn [on_read steady]. unfold dev_read, chk. destruct (_ || _ || _); [discriminate|]. destruct (Nat.ltb_spec (paddr g p) (START g)); [discriminate|]. cbn [orb]. destruct (Nat.ltb_spec (FEND g) (paddr g p + RS g)) as [|X]; [discriminate|]. intros _.
    pose proof (RS_pos g gok). unfold FEND, paddr in X. destruct (Nat.lt_ge_cases p NP) as [L|L]; auto. apply (Nat.mul_le_mono_l _ _ (ES g)) in L. lia. }
  assert (C : forall pg, fworld pg (s_fl s) -> ring_ex g pg -> coh g pg (s_ca s) -> coh g pg (mkcache (c_dirty (s_ca s)) ps' (pp_page_state (c_pp (s_ca s)) p x) (c_kp (s_ca s)))).
  { intros pg F RX C. assert (WD : WorldP.world g false ae aw pg (s_fl s) [] s) by (split; [reflexivity|split; auto]).
    pose proof (wp_psc g gok false ae aw p pg (s_fl s) [] (fun _ s' => coh g pg (s_ca s')) (fun _ _ => True) s WD Hp RX) as X. unfold wp, page_state_c, bind, c_get_ps in X. rewrite EG, ES in X. unfold c_notice_ps in X. cbv zeta in X. rewrite EN in X.
    apply X; auto. intros s' y _ W' _ _ _. apply W'. }
  split; [cbn; eapply notice_wf; eauto; apply Js|]. destruct Js as (_ & [Js|[Js|(J2 & J3)]]); [left; exact Js|right; left|right; right].
  - intros pg F RX. cbn in F |- *. rewrite E2 in F. assert (F' : fworld pg (s_fl s)) by (eapply fworld_same; [|exact F]; repeat split). auto.
  - cbn. rewrite E2. split; [exact J2|]. apply C; auto. eapply fworld_same; eauto.
Qed.
Lemma ct_unmark : ct c_unmark. Proof. intros s (A & _). exact A. Qed.
Lemma w_inval s : wfc (s_ca s) -> J (set_ca s (cache_inval (s_ca s))).
Proof. intros A. split; [now apply wfc_inval|]. right; left. intros pg _ _. now apply coh_inval. Qed.
Lemma cf_check : cf c_check_dirty.
Proof. intros s Js. unfold wp, c_check_dirty, c_is_dirty, bind, c_inval, ret. destruct (c_dirty (s_ca s)); cbn; auto. apply w_inval, Js. Qed.
Lemma wp_notice p x s : J s -> wp (c_notice_ps p x true) (fun _ s' => dt s') je s.
Proof.
  intros (A & B). unfold wp, c_notice_ps. cbv zeta. destruct (ps_notice (c_ps (s_ca s)) p x) eqn:E.
  - split; [|reflexivity]. cbn. eapply notice_wf; eauto.
  - apply J_je, dt_J. split; [exact A|reflexivity].
Qed.
Lemma cd_write a bs : cd (fl_write g a bs).
Proof.
  intros s (A & B). unfold wp, fl_write. destruct (dev_write g (s_fl s) a bs) as [[e|] f]; [apply J_je, dt_J|]; split; auto.
Qed.
Lemma cd_erase a b : cd (fl_erase g a b).
Proof.
  intros s (A & B). unfold wp, fl_erase. destruct (dev_erase g (s_fl s) a b) as [[e|] f]; [apply J_je, dt_J|]; split; auto.
Qed.
Lemma cd_ret {A} (a : A) : cd (ret a). Proof. intros s H. exact H. Qed.
Lemma cd_fail {A} e : cd (@fail unit A e). Proof. intros s H. apply J_je, dt_J, H. Qed.
Lemma notice_then {B} p x (k : unit -> M B) : (forall u, cd (k u)) -> cf (bind (c_notice_ps p x true) k).
Proof.
  intros H s Js. apply wp_bind. eapply wp_mono; [now apply wp_notice| |]; cbv beta; auto. intros u s' X. eapply wp_mono; [now apply H| |]; cbv beta; auto. intros; now apply dt_J.
Qed.
Lemma cf_open p : cf (open_page g p). Proof. apply notice_then. intros _. apply cd_erase. Qed.
Lemma cf_quit {A} e : e <> dropped -> cf (bind c_unmark (fun _ => fail e) : M A).
Proof. intros N s Js. split; [apply Js|]. intros Z. now destruct N. Qed.
Lemma ct_quit {A} (a : A) : ct (bind c_unmark (fun _ => ret a)).
Proof. intros s Js. apply Js. Qed.
Hint Resolve cf_psc cf_open cf_check cf_ct ct_unmark : cm.
Ltac cf := cbv zeta; repeat first [solve [auto with cm]|apply cf_quit; discriminate|apply cf_ct, cf_quit; discriminate|apply ct_quit|solve [apply calm_cf; cm]|apply notice_then; intros; repeat first [apply cd_write|apply cd_ret|apply cd_bind; [|intros]]
  |lazymatch goal with |- cf (bind _ _) => apply cf_bind; [|intros] | |- ct (bind _ _) => apply ct_bind; [|intros] | |- ct (ret _) => apply cf_ct | |- ct (fail _) => apply cf_ct
   | |- cf (match ?x with _ => _ end) => destruct x | |- ct (match ?x with _ => _ end) => destruct x end; cbv zeta].
Lemma cf_pclose p : cf (partial_close (R := D) g p). Proof. unfold partial_close. cf. Qed.
Hint Resolve cf_pclose : cm.
Lemma cf_close p : cf (close_page (R := D) g p). Proof. unfold close_page. cf. Qed.
Hint Resolve cf_close : cm.
Lemma cf_ff l x : cf (find_first_in (R := D) g l x). Proof. induction l; cbn [find_first_in]; cf. Qed.
Lemma cf_fl l x : forall o, cf (find_last_in (R := D) g l x o). Proof. induction l; intros o; cbn [find_last_in]; cf; apply IHl. Qed.
Lemma cf_first a x : cf (find_first (R := D) g a x). Proof. apply cf_ff. Qed.
Lemma cf_last a x : cf (find_last (R := D) g a x). Proof. apply cf_fl. Qed.
Hint Resolve cf_first cf_last : cm.
Lemma cf_youngest : cf (find_youngest (R := D) g). Proof. unfold find_youngest. cf. Qed.
Hint Resolve cf_youngest : cm.
Lemma cf_oldest : cf (find_oldest (R := D) g). Proof. unfold find_oldest. cf. Qed.
Hint Resolve cf_oldest : cm.
Lemma cf_attempt_calm {A B} (m : M A) (k : res A -> M B) : calm m -> (forall r, cf (k r)) -> cf (bind (attempt (R := D) m) k).
Proof. intros H1 H2. apply cf_bind; [apply calm_cf, calm_attempt, H1|exact H2]. Qed.
Lemma cf_repair_in l : cf (general_repair_in (R := D) g l).
Proof. induction l; cbn [general_repair_in]; [cf|]. apply cf_attempt_calm; [cm|]. intros r. apply cf_bind; [|intros _; exact IHl]. destruct r as [|[]]; cf. Qed.
Lemma w_repair s : wfc (s_ca s) -> wp (q_repair (R := D) g) (fun _ s' => J s') je s.
Proof. intros A. unfold q_repair. apply wp_bind. unfold wp at 1, c_inval. apply cf_repair_in. now apply w_inval. Qed.
(* a call that is repaired and run again *)
Lemma ct_auto {A} (f : M A) : ct f -> ct (auto_repair (R := D) f (q_repair (R := D) g)).
Proof.
  intros H s Js. unfold auto_repair, bind, attempt, wp. cbn [on_result dropping]. specialize (H s Js) as H1. unfold wp in H1. destruct (f s) as [[a|e] s1]; [exact H1|].
  assert (X : e <> ECorrupted -> je e s1) by (intros _; exact H1).
  destruct e as [[]| | | | | | | |]; cbn [on_result dropping fail ret]; try (apply X; discriminate).
  destruct H1 as (W1 & _). pose proof (w_repair s1 W1) as H2. unfold wp in H2. destruct (q_repair (R := D) g s1) as [[u|e2] s2]; [|exact H2]. specialize (H s2 H2). unfold wp in H. exact H.
Qed.
Lemma cf_auto {A} (f : M A) : cf f -> cf (auto_repair (R := D) f (q_repair (R := D) g)).
Proof.
  intros H s Js. unfold auto_repair, bind, attempt, wp. cbn [on_result dropping]. specialize (H s Js) as H1. unfold wp in H1. destruct (f s) as [[a|e] s1]; [exact H1|].
  assert (X : e <> ECorrupted -> je e s1) by (intros _; exact H1).
  destruct e as [[]| | | | | | | |]; cbn [on_result dropping fail ret]; try (apply X; discriminate).
  destruct H1 as (W1 & _). pose proof (w_repair s1 W1) as H2. unfold wp in H2. destruct (q_repair (R := D) g s1) as [[u|e2] s2]; [|exact H2]. specialize (H s2 H2). unfold wp in H. exact H.
Qed.
Lemma hdr_write_cd h a : cd (hdr_write g h a). Proof. unfold hdr_write. apply cd_write. Qed.
Lemma cf_write_raw h d a : cf (write_raw g h d a).
Proof.
  intros s Js. unfold write_raw. apply wp_bind. unfold wp at 1, c_item_written. cbv zeta. set (s1 := set_ca s _). assert (D1 : dt s1) by (split; [apply Js|reflexivity]).
  match goal with |- wp ?m _ _ _ => assert (X : cd m) end.
  { apply cd_bind; [apply hdr_write_cd|]. intros _. cbv zeta. destruct (_ <? _); [apply cd_fail|]. apply cd_bind; [destruct (_ =? 0); [apply cd_ret|apply cd_write]|]. intros _. destruct (_ =? 0); [apply cd_ret|]. destruct (32 <? _); [apply cd_fail|apply cd_write]. }
  eapply wp_mono; [apply X, D1| |]; cbv beta; auto. intros; now apply dt_J.
Qed.
Lemma cf_write_new a d : cf (write_new g a d). Proof. apply cf_write_raw. Qed.
Hint Resolve cf_write_new : cm.
Lemma ct_push d ow : ct (q_push (R := D) g d ow).
Proof. apply ct_auto. unfold push_inner. cf. Qed.
Lemma cf_iter : cf (q_iter (R := D) g).
Proof. unfold q_iter. apply cf_bind; [apply cf_auto; unfold find_start; cf|]. intros a. cf. Qed.
Lemma cn_ret {A} (a : A) : cn (ret a). Proof. intros s H. exact H. Qed.
Lemma cn_fail {A} e : e <> dropped -> cn (@fail unit A e). Proof. intros E s H. split; auto. Qed.
Lemma cn_qi : cn get_qi. Proof. intros s H. exact H. Qed.
Lemma cn_pqi q : cn (put_qi q). Proof. intros s H. exact H. Qed.
Lemma cn_buf : cn get_buf. Proof. intros s H. exact H. Qed.
Lemma cn_unmark : cn c_unmark. Proof. intros s H. exact H. Qed.
Lemma cn_erased a x : cn (c_item_erased g a x). Proof. intros s H. exact H. Qed.
Lemma cn_write a bs : cn (fl_write g a bs).
Proof.
  intros s H. unfold wp, fl_write, dev_write. destruct (chk g (WS g) a (length bs)) as [e|] eqn:C.
  - split; auto. unfold chk in C. destruct (_ || _ || _); [now injection C as <-|]. destruct (_ || _); [now injection C as <-|discriminate].
  - destruct (spend _ _) as [[k fu] cr]. destruct cr; cbn; auto. split; auto. discriminate.
Qed.
Lemma cn_ed h : cn (entry_data h). Proof. unfold entry_data. apply cn_bind; [apply cn_buf|intros]. apply cn_ret. Qed.
Lemma cn_pop h a : cn (q_entry_pop g h a).
Proof.
  unfold q_entry_pop. apply cn_bind; [apply cn_qi|intros q]. apply cn_bind; [destruct (qi_prev q); (apply cn_ret || apply cn_pqi)|intros _]. apply cn_bind; [|intros _; apply cn_unmark].
  unfold erase_data. cbv zeta. apply cn_bind; [apply cn_erased|intros _]. unfold hdr_write. apply cn_write.
Qed.
Lemma ct_loop n : ct (next_loop (R := D) g n).
Proof.
  induction n as [|n IH]; cbn [next_loop]; [cf|]. apply ct_bind; [cf|]. intros qi.
  set (rest := fun pa : option (nat * nat) => _). assert (RS : forall pa, ct (rest (Some pa))).
  { intros [p a]. unfold rest. cbv zeta. apply ct_bind; [cf|]. intros [[[h|] fa] x].
    - apply ct_bind; [cf|intros mi]. apply ct_bind; [cf|intros q]. destruct mi; cf; (apply IH || idtac).
    - apply ct_bind; [cf|intros q]. apply ct_bind; [cf|intros _]. apply IH. }
  assert (RN : rest None = ret None) by reflexivity. clearbody rest. destruct (qi_next qi) as [a|prev].
  { intros s Js. exact (RS _ s Js). }
  intros s Js. apply wp_bind. cbv zeta. apply wp_bind. eapply wp_mono; [apply cf_psc, Js| |]; cbv beta; auto. intros x s1 J1. destruct (_ || _).
  { unfold wp, bind, c_unmark. cbv beta iota. unfold ret at 1. rewrite RN. apply J1. }
  assert (O : cf (match qi_prev qi with AllPopped => open_page g prev | _ => ret tt end)) by (destruct (qi_prev qi); cf).
  apply wp_bind. eapply wp_mono; [apply O, J1| |]; cbv beta; auto. intros _ s2 J2. apply wp_bind. eapply wp_mono; [apply (calm_cf _ (calm_put_qi _)), J2| |]; cbv beta; auto. intros _ s3 J3. now apply RS.
Qed.
Lemma ct_next : ct (q_next (R := D) g).
Proof.
  unfold q_next. apply ct_bind; [cf|intros qi]. apply ct_bind; [cf|intros _]. apply ct_then; [apply ct_auto; unfold next_inner; apply ct_bind; [cf|intros _; apply ct_loop]|].
  intros [[h a]|]; [|apply cn_ret]. apply cn_bind; [apply cn_buf|intros b]. destruct (_ <? _); [apply cn_fail; discriminate|apply cn_ret].
Qed.
Lemma ct_step pop : ct (q_step (R := D) g pop).
Proof.
  unfold q_step. apply ct_then; [apply ct_next|]. intros [[h a]|]; [|apply cn_ret]. apply cn_bind; [destruct pop; [apply cn_pop|apply cn_ret]|intros _]. apply cn_bind; [apply cn_ed|intros; apply cn_ret].
Qed.
Lemma ct_peek b : ct (q_peek (R := D) g b).
Proof.
  unfold q_peek. apply ct_bind; [cf|intros _]. apply ct_bind; [apply cf_iter|intros _]. apply ct_then; [apply ct_next|]. intros [[h a]|]; [|apply cn_ret]. apply cn_bind; [apply cn_ed|intros; apply cn_ret].
Qed.
Lemma ct_pop b : ct (q_pop (R := D) g b).
Proof.
  unfold q_pop. apply ct_bind; [cf|intros _]. apply ct_bind; [apply cf_iter|intros _]. apply ct_then; [apply ct_next|]. intros [[h a]|]; [|apply cn_ret]. apply cn_bind; [apply cn_pop|intros _]. apply cn_bind; [apply cn_ed|intros; apply cn_ret].
Qed.
Lemma ct_max : ct (q_max_fit (R := D) g).
Proof. apply ct_auto. unfold max_fit_inner. do 4 (apply ct_bind; [cf|intros]). destruct a2; [cf|]. apply ct_bind; [cf|intros]. apply ct_then; [cf|intros]. destruct (_ <? _); [apply cn_fail; discriminate|apply cn_ret]. Qed.
Lemma cf_space l : forall t, cf (space_loop (R := D) g l t).
Proof. induction l; intros t; cbn [space_loop]; cf; apply IHl. Qed.
Lemma ct_space : ct (q_space_left (R := D) g).
Proof. apply ct_auto. unfold space_left_inner. apply ct_bind; [cf|intros _]. apply ct_bind; [apply cf_space|intros]. cf. Qed.
End J.

Section Call.
Context (g : geom) (gok : geom_ok g) (ae : bool) (aw : nat) (T : nat) (SG : single_ok g false ae).
Notation W := (W g).
Notation HL := (HL g).
Notation rup := (rup g).
Notation NP := (NP g).
Notation st := (st unit).
Implicit Types (s : st) (pg : nat -> page) (Y : lay).
Notation world := (world g false ae aw).
Notation sworld := (sworld g false ae aw).
Notation fworld := (fworld g false ae aw).
Notation crashed := (crashed g false ae aw).
Notation qst := (qst g false ae aw).
Notation D := (dropping T).
Notation qdo := (qdo rup HL (cap g) (2 <=? NP) true).
Notation isteps := (isteps rup HL (cap g) true).
Notation istep := (istep rup HL (cap g) true).

Lemma sworld_log pg s l : sworld pg s -> sworld pg (logged s l).
Proof. intros (A & B). split; [|exact B]. eapply fworld_same; [exact gok| |exact A]. repeat split. Qed.
Lemma qst_log Y s l : qst Y s -> qst Y (logged s l).
Proof. intros (pg & A & B & C). exists pg. split; [exact A|]. split; [exact B|]. now apply sworld_log. Qed.
Lemma sworld_J pg s : sworld pg s -> J g ae aw pg (s_fl s) s.
Proof. intros (F & WF & C). split; auto. destruct C as [C|C]; [now left|]. right; right. split; auto. apply same_refl. Qed.

(** A part of a call that was dropped, given what the part cut off at some point leaves. *)
Lemma dropped_at {A} (m : reader -> M unit A) pg s l r s' :
  drops T m -> (forall f0, fworld pg f0 -> ring_ex g pg -> ct g ae aw pg f0 (m D)) ->
  sworld pg s -> ring_ex g pg -> f_fuel (s_fl s) = None -> m D (logged s l) = (r, s') ->
  (exists l', r = fst (m steady s) /\ s' = logged (snd (m steady s)) l') \/
  (r = Err dropped /\ exists k, (forall pg', ring_ex g pg' -> fworld pg' (s_fl (snd (m steady (power s (Some k))))) -> sworld pg' s' \/ sworld pg s')).
Proof.
  intros DR CT SW RX FU E. destruct (DR s l FU) as [(l' & H)|(H & k & SF & _)].
  - left. exists l'. rewrite E in H. injection H as -> ->. auto.
  - right. rewrite E in H, SF. cbn [fst snd] in H, SF. split; auto. exists k. intros pg' RX' F'. pose proof (sworld_log pg s l SW) as SW1. pose proof (CT _ (proj1 SW1) RX _ (sworld_J pg _ SW1)) as C. unfold wp in C. rewrite E, H in C. destruct C as (_ & C). specialize (C eq_refl).
    apply (fworld_same g gok ae aw pg' _ _ (same_sym _ _ SF)) in F'. destruct C as (WF & [C|[C|(C1 & C2)]]).
    + left. split; auto.
    + left. split; auto.
    + right. split; auto. eapply fworld_same; [exact gok|exact C1|apply SW1].
Qed.

Lemma script_drop sc : forall Y pg s l j ap c bf rm r s', layok NP Y pg -> qinv Y -> y_bad Y = 0 -> sworld pg s -> f_fuel (s_fl s) = None -> cur g Y pg (s_qi s) j ap c bf rm ->
  q_script (R := D) g sc (logged s l) = (r, s') -> r = Err dropped ->
  exists sc1 sc2 rs Yc, sc = sc1 ++ sc2 /\ isteps bf rm sc1 rs (content Yc) /\ qst Yc s'.
Proof.
  induction sc as [|[b pop] sc IH]; intros Y pg s l j ap c bf rm r s' LY QI BZ SW FU CU E ER; subst r; cbn [q_script] in E; [discriminate|].
  unfold bind at 1 in E. unfold put_buf in E. cbv iota in E. change (set_buf (logged s l) b) with (logged (set_buf s b) l) in E.
  set (s1 := set_buf s b) in *. assert (SW1 : sworld pg s1) by exact SW. assert (FU1 : f_fuel (s_fl s1) = None) by exact FU. assert (CU1 : cur g Y pg (s_qi s1) j ap c bf rm) by exact CU.
  assert (LB : length (s_buf s1) = length b) by reflexivity. clearbody s1.
  unfold bind at 1 in E. unfold attempt in E. cbn [on_result dropping] in E. destruct (q_step (R := D) g pop (logged s1 l)) as [r1 s2] eqn:ES.
  destruct (dropped_at (fun R => q_step g pop) pg s1 l r1 s2 (prog_drops g T _ _ _ (p_q_step g pop)) (fun f0 F0 R0 => ct_step g gok ae aw T pg f0 F0 R0 pop) SW1 (ring_of g gok Y pg LY) FU1 ES) as [(l' & E1 & E2)|(E1 & k & H)].
  - pose proof (wp_q_step g gok false ae aw (length b) pop Y pg s1 j ap c bf rm LY QI BZ SW1 CU1 LB _ eq_refl) as WS. unfold wp in WS.
    destruct (ystep g (length b) pop Y j ap c) as [[r0 ops] [[[Y1 j1] ap1] c1]] eqn:EY. cbn [fst snd] in WS.
    destruct (q_step g pop s1) as [r2 s3] eqn:ES2. cbn [fst snd] in E1, E2. subst r1 s2.
    assert (X : exists pg1 bf1 rm1, layok NP Y1 pg1 /\ qinv Y1 /\ y_bad Y1 = 0 /\ world pg1 (s_fl s1) ops s3 /\ cur g Y1 pg1 (s_qi s3) j1 ap1 c1 bf1 rm1 /\ istep bf rm (b, pop) r2 bf1 rm1).
    { assert (Y2 : sout g false ae aw (s_fl s1) (length b) pop Y bf rm (r0, ops, (Y1, j1, ap1, c1)) r2 s3).
      { destruct r2 as [a|e]; [exact WS|]. destruct WS as [WS|WS]; [exact WS|exfalso]. destruct WS as (_ & Yc & pg' & _ & _ & _ & _ & CR). destruct CR as (R & _). eapply run_none; eauto. }
      destruct Y2 as (_ & pg1 & bf1 & rm1 & A1 & A2 & A3 & A4 & _ & A5 & A6 & _). exists pg1, bf1, rm1. repeat (split; auto). apply (lstep_istep g false (yall clean Y)); [intros [=]|exact A6]. }
    destruct X as (pg1 & bf1 & rm1 & A1 & A2 & A3 & A4 & A5 & A6).
    assert (FU3 : f_fuel (s_fl s3) = None).
    { destruct (prog_needs g T _ _ _ (p_q_step g pop) s1 FU1) as (Z & _). rewrite ES2 in Z. exact Z. }
    assert (G : forall rest sx, (exists l2, q_script (R := D) g sc (logged s3 l2) = (Err dropped, sx)) -> r2 = rest -> exists sc1 sc2 rs Yc, (b, pop) :: sc = sc1 ++ sc2 /\ isteps bf rm sc1 rs (content Yc) /\ qst Yc sx).
    { intros rest sx (l2 & Z) <-. destruct (IH Y1 pg1 s3 l2 j1 ap1 c1 bf1 rm1 _ sx A1 A2 A3 (world_sworld _ _ _ _ _ _ _ _ A4) FU3 A5 Z eq_refl) as (sc1 & sc2 & rs & Yc & -> & I1 & I2).
      exists ((b, pop) :: sc1), sc2, (r2 :: rs), Yc. split; auto. split; auto. econstructor; eauto. }
    assert (NE : r2 <> Err dropped) by (intros ->; inversion A6).
    assert (GO : q_script (R := D) g sc (logged s3 l') = (Err dropped, s') \/ exists e, r2 = Err e /\ (forall n, e <> EBufTooSmall n)).
    { destruct r2 as [a|e].
      - left. cbn in E. unfold bind in E. destruct (q_script (R := D) g sc (logged s3 l')) as [[x|e] s4]; [discriminate|]. cbn in E. congruence.
      - destruct e as [[]| | | | | | | |]; try (right; eexists; split; [reflexivity|discriminate]). left. cbn in E. unfold bind in E. destruct (q_script (R := D) g sc (logged s3 l')) as [[x|e] s4]; [discriminate|]. cbn in E. congruence. }
    destruct GO as [GO|(e & -> & GO)]; [eapply G; eauto|]. exfalso. inversion A6; subst. now apply (GO n).
  - subst r1. cbn in E. injection E as <-. set (sk := power s1 (Some k)) in *.
    assert (SWk : sworld pg sk) by (apply sworld_power; auto; discriminate).
    pose proof (wp_q_step g gok false ae aw (length b) pop Y pg sk j ap c bf rm LY QI BZ SWk CU1 LB _ eq_refl) as WS. unfold wp in WS.
    destruct (ystep g (length b) pop Y j ap c) as [[r0 ops] [[[Y1 j1] ap1] c1]] eqn:EY. cbn [fst snd] in WS. destruct (q_step g pop sk) as [r2 s3] eqn:ES2. cbn [snd] in H.
    assert (STAY : sworld pg s2 -> exists sc1 sc2 rs Yc, (b, pop) :: sc = sc1 ++ sc2 /\ isteps bf rm sc1 rs (content Yc) /\ qst Yc s2).
    { intros S2. exists [], ((b, pop) :: sc), [], Y. split; auto. split; [rewrite (cur_content _ _ _ _ _ _ _ _ _ CU); constructor|]. exists pg. auto. }
    assert (X : sout g false ae aw (s_fl sk) (length b) pop Y bf rm (r0, ops, (Y1, j1, ap1, c1)) r2 s3 \/ exists e, r2 = Err e /\ scrash g false ae aw (s_fl sk) (length b) pop Y bf rm ops e s3).
    { destruct r2 as [a|e]; [now left|]. destruct WS as [WS|WS]; [now left|right; eauto]. }
    destruct X as [X|(e & -> & X)].
    + destruct X as (_ & pg1 & bf1 & rm1 & A1 & A2 & A3 & A4 & _ & A5 & A6 & _). destruct (H pg1 (ring_of g gok _ _ A1) (proj1 (proj2 A4))) as [S2|S2]; auto.
      exists [(b, pop)], sc, [r2], Y1. split; auto. split; [|exists pg1; auto]. rewrite (cur_content _ _ _ _ _ _ _ _ _ A5). econstructor; [|constructor]. apply (lstep_istep g false (yall clean Y)); [intros [=]|exact A6].
    + destruct X as (-> & Yc & pg' & CT & _ & LYc & QIc & CR). destruct (H pg' (ring_of g gok _ _ LYc) (proj1 (proj2 CR))) as [S2|S2]; auto. destruct CT as [CT|(-> & d & t & -> & LBd & CT)].
      * exists [], ((b, pop) :: sc), [], Yc. split; auto. split; [rewrite CT; constructor|]. exists pg'. auto.
      * exists [(b, true)], sc, [Ok (Some d)], Yc. split; auto. split; [rewrite CT; econstructor; [eapply IItemPop; eauto|constructor]|]. exists pg'. auto.
Qed.

Lemma gone_iff {A} (r : res A) : is_gone r = true <-> r = Err dropped.
Proof. unfold dropped. destruct r as [a|[[]| | | | | | | |]]; cbn; split; congruence. Qed.
Lemma cut_same c q : exists a, qdo q c a q.
Proof.
  destruct c as [d ow|b|b|sc| |]; eexists.
  - eapply (DPushCut _ _ _ _ _ _ d ow [] q q); auto; [cbn; lia|now left].
  - apply (DPopCut _ _ _ _ _ _ b q); auto. now left.
  - now apply DPeekCut.
  - apply (DIterCut _ _ _ _ _ _ [] sc [] q); auto. apply (INil rup HL (cap g) true [] q).
  - now apply DMaxFitCut.
  - now apply DSpaceCut.
Qed.
(** One call that is not a walk. *)
Lemma plain_drop {A} (f : res A -> qans) c (m : reader -> M unit A) (EX : forall R s, q_exec (R := R) g c s = ans1 f (m R s)) Y pg s l r s' :
  drops T m -> (forall f0, fworld pg f0 -> ring_ex g pg -> ct g ae aw pg f0 (m D)) -> call_ok g false aw c ->
  layok NP Y pg -> qinv Y -> sworld pg s -> f_fuel (s_fl s) = None -> m D (logged s l) = (r, s') ->
  (exists l', r = fst (m steady s) /\ s' = logged (snd (m steady s)) l') \/ (r = Err dropped /\ exists a Y', qdo (content Y) c a (content Y') /\ qst Y' s').
Proof.
  intros DR CT CO LY QI SW FU E. destruct (dropped_at m pg s l r s' DR CT SW (ring_of g gok Y pg LY) FU E) as [X|(E1 & k & H)]; [now left|right]. split; auto.
  destruct (m steady (power s (Some k))) as [r2 s2] eqn:E2. cbn [snd] in H. assert (E3 : q_exec g c (power s (Some k)) = (f r2, s2)) by (rewrite EX; unfold ans1; now rewrite E2).
  assert (SWk : sworld pg (power s (Some k))) by (apply sworld_power; auto; discriminate).
  pose proof (call_spec g gok false ae aw c Y pg _ _ _ LY QI SWk SG CO E3) as C. assert (STAY : sworld pg s' -> exists a Y', qdo (content Y) c a (content Y') /\ qst Y' s').
  { intros S1. destruct (cut_same c (content Y)) as (a & Z). exists a, Y. split; auto. exists pg. auto. }
  destruct C as [(_ & pg' & L1 & Q1 & W1 & Z)|(_ & Yc & pg' & L1 & Q1 & C1 & Z)].
  - destruct (H pg' (ring_of g gok _ _ L1) (proj1 (proj2 W1))) as [S1|S1]; auto. exists (f r2), (snd (yact g c Y)). split; auto. exists pg'. auto.
  - destruct (H pg' (ring_of g gok _ _ L1) (proj1 (proj2 C1))) as [S1|S1]; auto. exists (f r2), Yc. split; auto. exists pg'. auto.
Qed.
Lemma iter_drop sc Y pg s l r s' : layok NP Y pg -> qinv Y -> sworld pg s -> f_fuel (s_fl s) = None -> q_iterate (R := D) g sc (logged s l) = (r, s') -> r = Err dropped ->
  exists a Y', qdo (content Y) (QIter sc) a (content Y') /\ qst Y' s'.
Proof.
  intros LY QI SW FU E ->. unfold q_iterate, bind in E. destruct (q_iter (R := D) g (logged s l)) as [r1 s1] eqn:E1.
  assert (STAY : forall Y', content Y' = content Y -> qst Y' s1 -> exists a Y', qdo (content Y) (QIter sc) a (content Y') /\ qst Y' s1).
  { intros Y' CC Q. destruct (cut_same (QIter sc) (content Y)) as (a & Z). exists a, Y'. rewrite CC. auto. }
  destruct (dropped_at (fun R => q_iter g) pg s l r1 s1 (prog_drops g T _ _ _ (p_q_iter g)) (fun f0 F0 R0 => cf_ct g ae aw pg f0 _ (cf_iter g gok ae aw T pg f0 F0 R0)) SW (ring_of g gok Y pg LY) FU E1) as [(l' & X1 & X2)|(X1 & k & H)].
  - pose proof (wp_q_iter g gok false ae aw Y pg s LY QI SW) as WI. unfold wp in WI. destruct (q_iter g s) as [r2 s2] eqn:E2. cbn [fst snd] in X1, X2. subst r1 s1.
    destruct r2 as [u|e].
    + destruct WI as (pg1 & LY1 & W1 & _ & pre & rest & IT & EP & EM). pose proof (iter_cur g Y pg1 s2 pre rest IT EP EM) as CU.
      assert (FU2 : f_fuel (s_fl s2) = None) by (destruct (prog_needs g T _ _ _ (p_q_iter g) s FU) as (Z & _); rewrite E2 in Z; exact Z).
      destruct (script_drop sc (yrep Y) pg1 s2 l' 0 true (ycur Y) [] (content Y) _ s' LY1 (yrep_qinv _ QI) eq_refl (world_sworld _ _ _ _ _ _ _ _ W1) FU2 CU E eq_refl) as (sc1 & sc2 & rs & Yc & -> & I1 & I2).
      exists (AIter (Err cut)), Yc. split; auto. eapply DIterCut; eauto.
    + exfalso. destruct WI as (_ & Yc & pg' & _ & _ & _ & _ & CR). destruct CR as (R & _). eapply run_none; eauto.
  - subst r1. injection E as <-. set (sk := power s (Some k)) in *. assert (SWk : sworld pg sk) by (apply sworld_power; auto; discriminate).
    pose proof (wp_q_iter g gok false ae aw Y pg sk LY QI SWk) as WI. unfold wp in WI. destruct (q_iter g sk) as [r2 s2] eqn:E2. cbn [snd] in H. destruct r2 as [u|e].
    + destruct WI as (pg1 & LY1 & W1 & _). destruct (H pg1 (ring_of g gok _ _ LY1) (proj1 (proj2 W1))) as [S1|S1].
      * apply (STAY (yrep Y)); auto. exists pg1. auto using yrep_qinv.
      * apply (STAY Y); auto. exists pg. auto.
    + destruct WI as (-> & Yc & pg' & CT & _ & LYc & QIc & CR). destruct (H pg' (ring_of g gok _ _ LYc) (proj1 (proj2 CR))) as [S1|S1].
      * apply (STAY Yc); auto. exists pg'. auto.
      * apply (STAY Y); auto. exists pg. auto.
Qed.
Lemma call_drop c Y s a s' : qst Y s -> call_ok g false aw c -> q_exec (R := D) g c (power s None) = (a, s') ->
  (q_gone a = true /\ exists a' Y', qdo (content Y) c a' (content Y') /\ qst Y' s') \/ (q_gone a = false /\ exists Y', qdo (content Y) c a (content Y') /\ qst Y' s').
Proof.
  intros QS CO E. pose proof QS as (pg & LY & QI & SW). set (s0 := power s None) in *. assert (SW0 : sworld pg s0) by (apply sworld_power; auto).
  assert (FU : f_fuel (s_fl s0) = None) by reflexivity.
  assert (PL : forall A (f : res A -> qans) (m : reader -> M unit A), (forall R s, q_exec (R := R) g c s = ans1 f (m R s)) -> drops T m -> ends (m steady) -> (forall r, q_gone (f r) = is_gone r) -> (forall f0, fworld pg f0 -> ring_ex g pg -> ct g ae aw pg f0 (m D)) ->
    (q_gone a = true /\ exists a' Y', qdo (content Y) c a' (content Y') /\ qst Y' s') \/ (q_gone a = false /\ exists Y', qdo (content Y) c a (content Y') /\ qst Y' s')).
  { intros A f m EX DR EN GN CT. destruct (m D s0) as [r s1] eqn:E1. rewrite EX in E. unfold ans1 in E. rewrite E1 in E. cbn [fst snd] in E. injection E as <- <-. rewrite GN.
    destruct (plain_drop f c m EX Y pg s0 (f_bad (s_fl s0)) r s1 DR CT CO LY QI SW0 FU) as [(l' & X1 & X2)|(X1 & X2)]; [now rewrite logged_id| |left; split; [now apply gone_iff|exact X2]].
    right. split. { destruct (is_gone r) eqn:G; auto. apply gone_iff in G. destruct (EN s0). now rewrite <- X1, G. }
    destruct (does_ok g gok false ae aw SG Y s c (f r) (snd (m steady s0)) QS CO) as (_ & Q1 & Z & _); [unfold q_does; rewrite EX; unfold ans1; now rewrite X1|]. exists (snd (yact g c Y)). split; auto. rewrite X2. now apply qst_log. }
  destruct c as [d ow|b|b|sc| |].
  - eapply (PL _ AUnit (fun R => q_push g d ow)); auto; [exact (prog_drops g T _ _ _ (p_push g d ow))|exact (prog_ends g _ _ _ (p_push g d ow))|intros; now apply ct_push].
  - eapply (PL _ AItem (fun R => q_pop g b)); auto; [exact (prog_drops g T _ _ _ (p_q_pop g b))|exact (prog_ends g _ _ _ (p_q_pop g b))|intros; now apply ct_pop].
  - eapply (PL _ AItem (fun R => q_peek g b)); auto; [exact (prog_drops g T _ _ _ (p_q_peek g b))|exact (prog_ends g _ _ _ (p_q_peek g b))|intros; now apply ct_peek].
  - clear PL. cbn [q_exec] in E. unfold ans1 in E. destruct (q_iterate (R := D) g sc s0) as [r s1] eqn:E1. cbn [fst snd] in E. injection E as <- <-. cbn [q_gone].
    destruct (is_gone r) eqn:G; [left|right]; (split; [reflexivity|]).
    + apply gone_iff in G. apply (iter_drop sc Y pg s0 (f_bad (s_fl s0)) r s1); auto.
    + destruct (prog_drops g T _ _ _ (p_q_iterate g sc) s0 (f_bad (s_fl s0)) FU) as [(l' & X)|(X & _)]; rewrite logged_id, E1 in X; [|cbn [fst] in X; subst r; discriminate].
      injection X as X1 X2. destruct (does_ok g gok false ae aw SG Y s (QIter sc) (AIter r) (snd (q_iterate g sc s0)) QS CO) as (_ & Q1 & Z & _); [unfold q_does; cbn [q_exec]; unfold ans1; now rewrite X1|].
      exists (snd (yact g (QIter sc) Y)). split; auto. rewrite X2. now apply qst_log.
  - eapply (PL _ AMax (fun R => q_max_fit g)); auto; [exact (prog_drops g T _ _ _ (p_max_fit g))|exact (prog_ends g _ _ _ (p_max_fit g))|intros; now apply ct_max].
  - eapply (PL _ ANum (fun R => q_space_left g)); auto; [exact (prog_drops g T _ _ _ (p_space_left g))|exact (prog_ends g _ _ _ (p_space_left g))|intros; now apply ct_space].
Qed.
End Call.

Section Hist.
Context (g : geom) (ae : bool) (aw : nat) (ST : setting true g ae aw).
Notation qst := (qst g false ae aw).
Theorem dhist_ok evs : forall Y s l s', qst Y s -> Forall (qdev_ok g) evs -> q_drun g s evs = (l, s') ->
  exists Y', qst Y' s' /\ qdtrace (rup g) (HL g) (cap g) (2 <=? NP g) (content Y) evs l (content Y').
Proof.
  pose proof (setting_single _ _ _ _ ST) as SG. pose proof ST as [gok _]. cbn [negb] in SG.
  induction evs as [|[[c p|c]|c t|c] evs IH]; intros Y s l s' QS EV E; cbn [q_drun] in E; [injection E as <- <-; exists Y; split; [auto|constructor]|..]; inversion EV as [|? ? EO EV']; subst.
  - destruct (q_exec g c (power s p)) as [a s1] eqn:E1. destruct (q_drun g s1 evs) as [l2 s2] eqn:E2. injection E as <- <-.
    destruct (hist_ok g gok false ae aw SG [ECall c p] Y s [a] s1 QS) as (Y1 & Q1 & T1).
    { constructor; [|constructor]. apply (setting_ev true g ae aw _ ST EO). }
    { cbn [q_run]. now rewrite E1. }
    inversion T1 as [|? ? ? ? ? ? ? ? Z ZZ|]; subst. inversion ZZ; subst. destruct (IH Y1 s1 l2 s2 Q1 EV' E2) as (Y' & Q' & T'). exists Y'. split; auto. econstructor; eauto.
  - destruct QS as (pg & LY & QI & SW). destruct (IH Y (set_ca s c) l s') as (Y' & Q' & T'); auto. { exists pg. split; auto. split; auto. apply sworld_boot; auto. } exists Y'. split; auto. now constructor.
  - destruct (q_exec (R := drop_at s t) g c (power s None)) as [a s1] eqn:E1. destruct (q_drun g s1 evs) as [l2 s2] eqn:E2. injection E as <- <-.
    pose proof (setting_call true g ae aw c ST EO) as CO. destruct (call_drop g gok ae aw _ SG c Y s a s1 QS CO E1) as [(G & a' & Y1 & Z & Q1)|(G & Y1 & Z & Q1)]; rewrite G.
    + destruct (IH Y1 s1 l2 s2 Q1 EV' E2) as (Y' & Q' & T'). exists Y'. split; auto. eapply DTDrop; eauto.
    + destruct (IH Y1 s1 l2 s2 Q1 EV' E2) as (Y' & Q' & T'). exists Y'. split; auto. eapply DTDone; eauto.
  - destruct (q_exec g c (power s None)) as [a s1] eqn:E1. destruct (q_drun g (mark s1) evs) as [l2 s2] eqn:E2. injection E as <- <-.
    pose proof (setting_call true g ae aw c ST EO) as CO. destruct (does_ok g gok false ae aw SG Y s c a s1 QS CO E1) as (_ & (pg & L1 & I1 & (F1 & W1 & _)) & Z & _).
    destruct (IH (snd (yact g c Y)) (mark s1) l2 s2) as (Y' & Q' & T'); auto. { exists pg. split; auto. split; auto. split; auto. } exists Y'. split; auto. eapply DTLate; eauto.
Qed.
End Hist.
Theorem drop_queue g f c evs l s : erased g f -> f_fuel f = None -> fresh_cache (NP g) c -> setting true g (f_ae f) (f_aw f) -> Forall (qdev_ok g) evs ->
  q_drun g (st_new f c) evs = (l, s) -> exists q, qdtrace (rup g) (HL g) (page_cap g) (2 <=? NP g) [] evs l q /\ q_holds g s q.
Proof.
  intros ER FU FC ST EV E. pose proof (setting_single _ _ _ _ ST) as SG. pose proof ST as [gok _]. cbn [negb] in SG.
  pose proof (qst_new g gok false (f_ae f) (f_aw f) f c ER eq_refl eq_refl (fun _ => FU) FC) as Q0.
  destruct (dhist_ok g _ _ ST evs _ _ _ _ Q0 EV E) as (Y & QS & T). exists (content Y). split; [exact T|]. eapply holds_of; eauto.
Qed.
