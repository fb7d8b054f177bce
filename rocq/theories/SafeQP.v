(** The queue on arbitrary flash contents. *)
From Coq Require Import List NArith ZArith Arith Bool Lia ZifyBool ZifyNat ZifyN.
From Verif Require Import Base BaseP Crc CrcP Flash Cache State Item Generic Queue Client CalcP GeomP ScanP ItemP WorldP WpP NoiseP SafeP.
Import ListNotations.
Local Opaque crc16 acrc crc32.

Section SafeQ.
Context (g : geom) (gok : geom_ok g) (F0 : flash).
Notation NP := (NP g).
Notation ES := (ES g).
Notation dstart := (dstart g).
Notation dend := (dend g).
Notation inp := (inp g).
Implicit Types s : st unit.

Section Any.
Context (J : qiter -> miter -> Prop).
Notation sane := (sane g F0 J).
Notation safe := (safe g F0 J).

(** Scans that find nothing. *)
Lemma scan_nopart : forall l s (A : list nat), sane s -> Forall (fun p => p < NP) l -> Forall (fun p => p < NP) A -> Forall (nonpart g s) A ->
  safe (find_first_in g l PartialOpen) (fun r s' => r = None -> Forall (nonpart g s') (l ++ A)) s.
Proof.
  induction l as [|p l IH]; intros s A S F FA NA; cbn [find_first_in]; [apply safe_ret; auto|]. inversion F as [|? ? P F']; subst.
  eapply safe_bind; [apply (safe_psc2 g gok F0 J p s S P)|]. cbv beta. intros x s1 S1 (X & _). destruct x; cbn [pstate_eqb].
  - destruct (X ltac:(easy)) as (X1 & X2). eapply safe_mono; [apply (IH s1 (p :: A) S1 F')|].
    + constructor; auto.
    + constructor; auto. rewrite Forall_forall in *. auto.
    + cbv beta. intros r s2 S2 H E. specialize (H E). rewrite Forall_app in *. destruct H as (H1 & H2). inversion H2; subst. split; [constructor; auto|auto].
  - apply safe_ret; auto. easy.
  - destruct (X ltac:(easy)) as (X1 & X2). eapply safe_mono; [apply (IH s1 (p :: A) S1 F')|].
    + constructor; auto.
    + constructor; auto. rewrite Forall_forall in *. auto.
    + cbv beta. intros r s2 S2 H E. specialize (H E). rewrite Forall_app in *. destruct H as (H1 & H2). inversion H2; subst. split; [constructor; auto|auto].
Qed.
Lemma scan_noclosed q : q < NP -> forall l s, sane s -> Forall (fun p => p < NP) l -> Forall (nonpart g s) l -> firm g s q ->
  safe (find_first_in g l Closed) (fun r s' => r = None -> firm g s' q) s.
Proof.
  intros Q. induction l as [|p l IH]; intros s S F NA FI; cbn [find_first_in]; [apply safe_ret; auto|]. inversion F as [|? ? P F']; subst. inversion NA as [|? ? NP1 NA']; subst.
  eapply safe_bind; [apply (safe_psc2 g gok F0 J p s S P)|]. cbv beta. intros x s1 S1 (X & Y & Z). destruct x; cbn [pstate_eqb].
  - apply safe_ret; auto. easy.
  - exfalso. now apply Y.
  - destruct (X ltac:(easy)) as (X1 & X2). apply IH; auto. rewrite Forall_forall in *. auto.
Qed.
Lemma pages_zero : exists l, get_pages g 0 = 0 :: l.
Proof. unfold get_pages. pose proof (NP_pos g gok). destruct NP as [|n] eqn:E; [lia|]. cbn [seq map]. rewrite Nat.add_0_r, Nat.mod_0_l by lia. eauto. Qed.
Lemma safe_young s : sane s -> safe (find_youngest g) (fun p s' => p < NP /\ fr s s' /\ firm g s' p) s.
Proof.
  intros S. unfold find_youngest. pose proof (get_pages_lt g gok 0) as GL.
  eapply safe_bind; [apply safe_and; [apply (safe_find g gok F0 J 0 PartialOpen s S)|apply (scan_nopart (get_pages g 0) s [] S GL); constructor]|]. cbv beta.
  intros [p|] s1 S1 ((F1 & H1) & NPART); [apply safe_ret; auto; destruct H1; split; auto; split; auto; exists PartialOpen; easy|].
  specialize (NPART eq_refl). rewrite app_nil_r in NPART. clear H1. destruct pages_zero as (l & EL). pose proof (NP_pos g gok) as NPP.
  eapply (safe_bind g F0 J _ _ (fun r s' => fr s s' /\ (r = None -> firm g s' 0))).
  { apply safe_and; [eapply safe_mono; [apply (safe_find g gok F0 J 0 Closed s1 S1)|]; cbv beta; intros r s2 _ (H & _); eapply fr_trans; eauto|].
    unfold find_first. rewrite EL in *. cbn [find_first_in]. inversion NPART as [|? ? N1 N2]; subst. inversion GL; subst.
    eapply safe_bind; [apply safe_and; [apply (safe_psc g gok F0 J 0 s1 S1 NPP)|apply (safe_psc2 g gok F0 J 0 s1 S1 NPP)]|]. cbv beta.
    intros x s2 S2 ((_ & SE & _) & X & Y & _). destruct x; cbn [pstate_eqb]; [apply safe_ret; easy|exfalso; now apply Y|].
    destruct (X ltac:(easy)) as (X1 & X2). apply scan_noclosed; auto; [rewrite Forall_forall in *; auto|exists Open; easy]. }
  cbv beta. intros fc s2 S2 (F2 & H2).
  eapply (safe_bind g F0 J _ _ (fun r s' => fr s s' /\ forall p, r = Some p -> p < NP /\ firm g s' p)).
  - destruct fc as [a|].
    + eapply safe_mono; [apply (safe_find g gok F0 J a Open s2 S2)|]. cbv beta. intros r s3 S3 (F3 & H3). split; [eapply fr_trans; eauto|]. intros p ->. destruct H3. split; auto. exists Open. easy.
    + apply safe_ret; auto. split; auto. intros p [= <-]. auto.
  - cbv beta. intros [p|] s3 S3 (F3 & H3); [apply safe_ret; auto; destruct (H3 p eq_refl); auto|apply safe_fail; auto; exact I].
Qed.
Lemma safe_oldest s : sane s -> safe (find_oldest g) (fun p s' => p < NP /\ fr s s') s.
Proof.
  intros S. unfold find_oldest. eapply safe_bind; [apply (safe_young s S)|]. cbv beta. intros y s1 S1 (Y & F1 & _).
  eapply safe_bind; [apply (safe_find g gok F0 J y Closed s1 S1)|]. cbv beta. intros o s2 S2 (F2 & H2). apply safe_ret; auto. split; [destruct o; tauto|eapply fr_trans; eauto].
Qed.
Lemma safe_q_repair s : sane s -> safe (q_repair g) (fun _ s' => fm s s') s.
Proof.
  intros S. unfold q_repair. eapply safe_bind; [apply (safe_inval g F0 J (fun _ s' => fm s s') s S); intros; repeat split|]. cbv beta. intros _ s1 S1 F1.
  eapply safe_mono; [apply (safe_general g gok F0 J s1 S1)|]. cbv beta. intros _ s2 _ F2. eapply fm_trans; eauto.
Qed.
Lemma safe_q_auto {A} (f : M unit A) (Q : A -> st unit -> Prop) s : (forall s, sane s -> safe f Q s) -> sane s -> safe (auto_repair f (q_repair g)) Q s.
Proof.
  intros H S. apply safe_auto; auto. intros s' S'. eapply safe_mono; [apply (safe_q_repair s' S')|]. auto.
Qed.
Notation T := (fun _ _ => True).
Lemma safe_push d ow s : sane s -> safe (q_push g d ow) T s.
Proof.
  intros S0. apply safe_q_auto; auto. clear s S0. intros s S. unfold push_inner. apply safe_seq; [now apply safe_check_t|]. intros _ s1 S1.
  destruct (too_big g (length d)) eqn:TB; [apply safe_seq; [now apply safe_unmark_t|]; intros; apply safe_fail; auto; exact I|].
  eapply safe_bind; [apply (safe_young s1 S1)|]. cbv beta. intros cur s2 S2 (C & _ & FI).
  eapply safe_bind; [apply (safe_partial_firm g gok F0 J cur s2 S2 C FI)|]. cbv beta. intros _ s3 S3 A1.
  eapply safe_bind; [apply (safe_free g gok F0 J cur (length d) s3 S3 C)|]. cbv beta. intros na s4 S4 (-> & FA).
  eapply (safe_bind g F0 J _ _ (fun a s' => exists p, p < NP /\ inp p a /\ a + HL g + rup g (length d) <= dend p)).
  2: { cbv beta. intros a s5 S5 (p & P & I & L). apply safe_seq; [now apply (safe_write_new g gok F0 J p)|]. intros; now apply safe_unmark_t. }
  destruct na as [a|]; [apply safe_ret; auto; exists cur; tauto|]. cbv zeta.
  pose proof (next_lt g gok cur) as NX. eapply safe_bind; [apply safe_and; [apply (safe_psc g gok F0 J (next_page g cur) s3 S3 NX)|apply (safe_psc_anc g gok F0 J (next_page g cur) cur s3 S3 NX C A1)]|]. cbv beta.
  intros y s5 S5 ((F5 & SE & _ & _ & TWO & _) & A1').
  assert (FIN : forall s, sane s -> safe (partial_close g (next_page g cur) ;;; ret (dstart (next_page g cur))) (fun a s' => exists p, p < NP /\ inp p a /\ a + HL g + rup g (length d) <= dend p) s).
  { intros s' S'. apply safe_seq; [now apply safe_partial_t|]. intros _ s6 S6. apply safe_ret; auto. exists (next_page g cur). split; auto. split; [apply inp_dstart; exact gok|now apply too_big_page]. }
  assert (OPN : y <> Open -> y = Closed \/ next_page g cur = cur -> safe (if pstate_eqb y Closed || (next_page g cur =? cur) then
                   full <- (if ow then ret false else e <- is_page_empty g (next_page g cur) y ;; ret (negb e)) ;;
                   if (full : bool) then c_unmark ;;; fail EFull
                   else open_page g (next_page g cur) ;;; (if next_page g cur =? cur then ret tt else close_page g cur) ;;; partial_close g (next_page g cur) ;;; ret (dstart (next_page g cur))
                 else fail ECorrupted) (fun a s' => exists p, p < NP /\ inp p a /\ a + HL g + rup g (length d) <= dend p) s5).
  { intros NO YC. replace (pstate_eqb y Closed || (next_page g cur =? cur)) with true.
    2: { symmetry. apply orb_true_iff. destruct YC as [->|X]; [left; reflexivity|right; now apply Nat.eqb_eq]. }
    eapply (safe_bind g F0 J _ _ (fun _ s' => s' = s5)).
    { destruct ow; [apply safe_ret; auto|]. eapply safe_bind; [apply (safe_empty g gok F0 J _ y s5 S5 NX)|]. cbv beta. intros e s6 S6 ->. apply safe_ret; auto. }
    cbv beta. intros full s6 S6 ->. destruct full; [apply safe_seq; [now apply safe_unmark_t|]; intros; apply safe_fail; auto; exact I|].
    eapply safe_bind; [apply (safe_open g gok F0 J _ s5 S5 NX)|]. cbv beta. intros _ s7 S7 (_ & A7).
    apply safe_seq; [|intros _ s8 S8; now apply FIN].
    destruct (Nat.eqb_spec (next_page g cur) cur) as [X|X]; [apply safe_ret; auto|].
    eapply safe_mono; [apply (safe_close g gok F0 J cur s7 S7 C)|auto]. apply A7; auto. apply A1'. destruct YC; [|easy]. congruence. }
  destruct y.
  - apply OPN; [easy|auto].
  - destruct (Nat.eq_dec (next_page g cur) cur) as [X|X]; [apply OPN; [easy|auto]|]. apply Nat.eqb_neq in X. rewrite X. cbn [pstate_eqb orb]. apply safe_fail; [auto|exact I].
  - eapply safe_bind; [apply (safe_close g gok F0 J cur s5 S5 C); apply TWO; auto|]. cbv beta. intros _ s6 S6 _. now apply FIN.
Qed.

(** ** find_max_fit and space_left *)
Lemma safe_free_addr p s : sane s -> p < NP -> safe (free_addr g p) (fun a s' => s' = s /\ inp p a) s.
Proof.
  intros S P. unfold free_addr. eapply safe_eq; [reflexivity|rst|]. cbv beta. destruct (pp_written (c_pp (s_ca s)) p) as [a|] eqn:E; [apply safe_ret; auto; split; auto; now apply (pp_wr g F0 J s)|].
  eapply safe_eq; [reflexivity|rst|]. cbv beta zeta. set (from := match pp_erased (c_pp (s_ca s)) p with Some x => x | None => dstart p end).
  assert (I : inp p from) by (unfold from; destruct (pp_erased _ p) eqn:E2; [now apply (pp_er g F0 J s)|now apply inp_dstart]).
  destruct (trav_page g gok (fun _ => true) p from s P I) as (oh & fa & nx & E2 & I2 & _). eapply safe_eq; [exact E2|now apply rok_trav|]. apply safe_ret; auto.
Qed.
Lemma safe_max_fit s : sane s -> safe (q_max_fit g) T s.
Proof.
  intros S0. apply safe_q_auto; auto. clear s S0. intros s S. unfold max_fit_inner. apply safe_seq; [now apply safe_check_t|]. intros _ s1 S1.
  eapply safe_bind; [apply (safe_young s1 S1)|]. cbv beta zeta. intros cur s2 S2 (C & _). pose proof (next_lt g gok cur) as NX.
  eapply safe_bind; [apply (safe_psc g gok F0 J _ s2 S2 NX)|]. cbv beta. intros x s3 S3 _.
  apply safe_seq; [destruct x; [eapply safe_mono; [apply (safe_empty g gok F0 J _ Closed s3 S3 NX)|auto]|apply safe_fail; auto; exact I|apply safe_ret; auto]|].
  intros whole s4 S4. destruct whole; [apply safe_seq; [now apply safe_unmark_t|]; intros; apply safe_ret; auto|].
  eapply safe_bind; [apply (safe_free_addr cur s4 S4 C)|]. cbv beta. intros a s5 S5 (_ & I1). apply safe_seq; [now apply safe_unmark_t|]. intros _ s6 S6.
  destruct I1 as (_ & _ & L). destruct (Nat.ltb_spec (dend cur) a); [lia|]. apply safe_ret; auto.
Qed.
Lemma safe_space_loop : forall l n s, sane s -> Forall (fun p => p < NP) l -> safe (space_loop g l n) T s.
Proof.
  induction l as [|p l IH]; intros n s S F; cbn [space_loop]; [apply safe_ret; auto|]. inversion F as [|? ? P F']; subst.
  eapply safe_bind; [apply (safe_psc g gok F0 J p s S P)|]. cbv beta. intros x s1 S1 _. eapply safe_bind; [apply (safe_empty g gok F0 J p x s1 S1 P)|]. cbv beta. intros e s2 S2 ->.
  destruct (pstate_eqb x Closed && negb e); [now apply IH|]. destruct e; [now apply IH|].
  eapply safe_bind; [apply (safe_free_addr p s1 S1 P)|]. cbv beta. intros a s3 S3 (-> & _ & _ & L). destruct (Nat.ltb_spec (dend p) a); [lia|].
  apply safe_seq; [destruct (avail g (dend p - a)); [apply safe_ret; auto|eapply safe_mono; [apply (safe_empty g gok F0 J p Closed s1 S1 P)|auto]]|].
  intros e2 s4 S4. destruct e2; now apply IH.
Qed.
Lemma safe_space s : sane s -> safe (q_space_left g) T s.
Proof.
  intros S0. apply safe_q_auto; auto. clear s S0. intros s S. unfold space_left_inner. apply safe_seq; [now apply safe_check_t|]. intros _ s1 S1.
  apply safe_seq; [apply safe_space_loop; auto; apply get_pages_lt; exact gok|]. intros n s2 S2. apply safe_seq; [now apply safe_unmark_t|]. intros; apply safe_ret; auto.
Qed.

(** ** iter *)
Lemma safe_start s : sane s -> safe (find_start g) (fun a s' => exists p, p < NP /\ inp p a) s.
Proof.
  intros S. unfold find_start. apply safe_seq; [now apply safe_check_t|]. intros _ s1 S1. eapply safe_bind; [apply (safe_oldest s1 S1)|]. cbv beta. intros o s2 S2 (O & _).
  eapply safe_eq; [reflexivity|rst|]. cbv beta. apply safe_ret; auto. exists o. split; auto. destruct (pp_erased (c_pp (s_ca s2)) o) eqn:E; [now apply (pp_er g F0 J s2)|now apply inp_dstart].
Qed.
End Any.

(** * The iterator *)
Definition qiok (qi : qiter) (_ : miter) : Prop :=
  qi_oldest qi < NP /\ match qi_next qi with NAddr a => exists p, p < NP /\ inp p a | NPageAfter p => p < NP end.
Definition anyJ (_ : qiter) (_ : miter) : Prop := True.
Notation saneq := (sane g F0 qiok).
Notation safeq := (safe g F0 qiok).
Notation sane0 := (sane g F0 anyJ).
Notation safe0 := (safe g F0 anyJ).
Notation T := (fun _ _ => True).

Lemma saneq_0 s : saneq s -> sane0 s. Proof. intros (A & B & _). repeat split; auto; apply A || apply B. Qed.
Lemma safeq_0 {A} (c : M unit A) Q s : safeq c Q s -> safe0 c Q s.
Proof. intros (H & R). split; auto. eapply wp_mono; [exact H| |]; cbv beta; [intros a s' (X & Y)|intros e s' (X & Y)]; split; auto; now apply saneq_0. Qed.
(** Starting an iteration establishes the invariant of the iterator. *)
Lemma safe_iter {B} (k : M unit B) Q s : sane0 s -> (forall s', saneq s' -> safeq k Q s') -> safe0 (q_iter g ;;; k) Q s.
Proof.
  intros S H. unfold q_iter. eapply (safe_bind g F0 anyJ _ _ (fun _ s' => saneq s')).
  - eapply safe_bind; [apply (safe_q_auto anyJ); [|exact S]; intros s' S'; apply (safe_start anyJ s' S')|]. cbv beta. intros a s1 S1 (p & P & I1).
    split; [|rst]. unfold wp, put_qi. split; [exact S1|]. destruct S1 as (A1 & B1 & _). split; [exact A1|]. split; [exact B1|]. unfold qiok. cbn [s_qi set_qi qi_oldest qi_next]. split; [rewrite (inp_pindex g gok p a I1); exact P|exists p; auto].
  - cbv beta. intros _ s1 _ S1. apply safeq_0. now apply H.
Qed.

Definition mu (qi : qiter) : nat :=
  match qi_next qi with
  | NAddr a => (NP - pos NP (qi_oldest qi) (pindex g a)) * S ES - (a - paddr g (pindex g a))
  | NPageAfter p => (NP - pos NP (qi_oldest qi) p) * S ES - ES
  end.
Lemma mu_fuel qi : mu qi < qfuel g.
Proof. unfold mu, qfuel. destruct (qi_next qi); set (x := pos _ _ _); assert ((NP - x) * S ES <= NP * S ES) by (apply Nat.mul_le_mono_r; lia); lia. Qed.
Lemma inp_off p a : inp p a -> a - paddr g p < ES.
Proof. intros (_ & A & B). pose proof (dend_pend g gok p). pose proof (pend_eq g p). unfold Flash.dstart in A. pose proof (ES_pos g gok). lia. Qed.
Lemma pos_NP o p : o < NP -> p < NP -> pos NP o p < NP. Proof. intros. unfold pos. destruct (Nat.leb_spec o p); lia. Qed.
Lemma pos_next o p : o < NP -> p < NP -> next_page g p <> o -> pos NP o (next_page g p) = S (pos NP o p).
Proof.
  intros O P N. unfold next_page in *. destruct (Nat.eq_dec (p + 1) NP) as [E|E].
  - rewrite E, Nat.mod_same in * by lia. unfold pos. destruct (Nat.leb_spec o 0), (Nat.leb_spec o p); lia.
  - rewrite Nat.mod_small in * by lia. unfold pos. destruct (Nat.leb_spec o (p + 1)), (Nat.leb_spec o p); lia.
Qed.
Definition entry_ok s h a : Prop := exists p, p < NP /\ inp p a /\ inp p (next_addr g a h) /\ h_len h <= length (s_buf s).

Lemma saneq_qi s q : saneq s -> qiok q (s_mi s) -> saneq (set_qi s q). Proof. intros (A & B & _) C. split; [exact A|split; [exact B|exact C]]. Qed.

(** What one turn does after the page and address are known. *)
Lemma scan_turn p a f s : saneq s -> p < NP -> inp p a -> qi_next (s_qi s) = NAddr a ->
  (forall s', saneq s' -> mu (s_qi s') < mu (s_qi s) -> safeq (next_loop g f) (fun r s' => match r with Some (h, a) => entry_ok s' h a | None => True end) s') ->
  safeq (t <- traverse g (tfuel a (dend p)) is_erased_hdr a (dend p) ;;
          match t with
          | (Some h, fa, _) =>
              mi <- read_item g h fa (Some (dend p)) ;;
              qi <- get_qi ;;
              match mi with
              | MCorrupted h =>
                  let nx := next_addr g fa h in
                  put_qi (mkqi (if dend p <=? nx then NPageAfter p else NAddr nx) (qi_prev qi) (qi_oldest qi)) ;;;
                  next_loop g f
              | MErased _ => fail ELogicBug
              | MPresent h =>
                  let nx := next_addr g fa h in
                  put_qi (mkqi (if dend p <=? nx then NPageAfter p else NAddr nx)
                               (match qi_prev qi with AllPopped => AllButCurrentPopped | x => x end)
                               (qi_oldest qi)) ;;;
                  c_unmark ;;;
                  ret (Some (h, fa))
              end
          | (None, _, _) =>
              qi <- get_qi ;;
              put_qi (mkqi (NPageAfter p) (qi_prev qi) (qi_oldest qi)) ;;;
              next_loop g f
          end) (fun r s' => match r with Some (h, a) => entry_ok s' h a | None => True end) s.
Proof.
  intros Sn P I0 EN REC. pose proof Sn as (_ & _ & QO & _). destruct (trav_page g gok is_erased_hdr p a s P I0) as (oh & fa & nx & E & I1 & L & H). eapply safe_eq; [exact E|now apply rok_trav|]. cbv beta iota.
  pose proof (pos_NP (qi_oldest (s_qi s)) p QO P) as PL. pose proof (inp_off p a I0) as OFF.
  assert (MU : mu (s_qi s) = (NP - pos NP (qi_oldest (s_qi s)) p) * S ES - (a - paddr g p)) by (unfold mu; now rewrite EN, (inp_pindex g gok p a I0)).
  assert (BIG : S ES <= (NP - pos NP (qi_oldest (s_qi s)) p) * S ES) by (rewrite <- (Nat.mul_1_l (S ES)) at 1; apply Nat.mul_le_mono_r; lia).
  assert (AFTER : forall pv, mu (mkqi (NPageAfter p) pv (qi_oldest (s_qi s))) < mu (s_qi s)) by (intros pv; rewrite MU; unfold mu; cbn [qi_next qi_oldest]; lia).
  destruct oh as [h|].
  - destruct H as (H & SK & -> & I2 & LT). 
    destruct (read_item_any g gok h p fa (Some (dend p)) s P I1 H) as (s1 & SB & [R|(mi & R & M)]); [now intros x [=]| |].
    + eapply safe_err; [exact R|apply (rok_read_item g gok h p); auto; now intros x [=]|exact I|now apply (sb_sane g F0 qiok s)].
    + eapply safe_eq; [exact R|apply (rok_read_item g gok h p); auto; now intros x [=]|]. cbv beta. assert (S1 : saneq s1) by now apply (sb_sane g F0 qiok s). eapply safe_eq; [reflexivity|rst|]. cbv beta. rewrite (sb_qi _ _ SB).
      set (q' := if dend p <=? next_addr g fa h then NPageAfter p else NAddr (next_addr g fa h)).
      assert (QK : forall pv mi', qiok (mkqi q' pv (qi_oldest (s_qi s))) mi').
      { intros pv mi'. split; [exact QO|]. cbn [qi_next]. unfold q'. destruct (dend p <=? _); eauto. }
      assert (LESS : forall pv, mu (mkqi q' pv (qi_oldest (s_qi s))) < mu (s_qi s)).
      { intros pv. unfold q'. destruct (dend p <=? _); [apply AFTER|]. rewrite MU. unfold mu. cbn [qi_next qi_oldest]. rewrite (inp_pindex g gok p _ I2).
        pose proof (inp_off p _ I2). destruct I0 as (_ & IA & _). unfold Flash.dstart in IA. pose proof (W_pos g gok). lia. }
      destruct mi as [h'|h'|h'].
      * subst h'. eapply safe_eq; [reflexivity|rst|]. cbv beta zeta. apply REC; [now apply saneq_qi|]. cbn [s_qi set_qi]. apply LESS.
      * destruct M as (-> & M). exfalso. unfold is_erased_hdr in SK. now rewrite M in SK.
      * destruct M as (-> & M). eapply safe_eq; [reflexivity|rst|]. cbv beta zeta.
        match goal with |- safeq _ _ ?st => set (s2 := st) end. assert (S2 : saneq s2) by now apply saneq_qi.
        assert (EK : entry_ok s2 h fa). { exists p. split; auto. split; auto. split; auto. destruct M as (M & _). pose proof (rup_ge g gok (h_len h)). cbn. lia. }
        eapply (safe_bind g F0 qiok _ _ (fun _ s' => s_buf s' = s_buf s2)); [apply safe_unmark; auto|]. cbv beta. intros _ s3 S3 EB. apply safe_ret; auto.
        destruct EK as (p' & Z). exists p'. now rewrite EB.
  - eapply safe_eq; [reflexivity|rst|]. cbv beta. eapply safe_eq; [reflexivity|rst|]. cbv beta. apply REC; [apply saneq_qi; auto; split; auto|]. cbn [s_qi set_qi]. apply AFTER.
Qed.

Lemma safe_next_loop : forall fuel s, saneq s -> mu (s_qi s) < fuel -> safeq (next_loop g fuel) (fun r s' => match r with Some (h, a) => entry_ok s' h a | None => True end) s.
Proof.
  induction fuel as [|f IH]; intros s Sn F; [lia|]. cbn [next_loop]. eapply safe_eq; [reflexivity|rst|]. cbv beta. pose proof Sn as (_ & _ & QO & QN).
  destruct (qi_next (s_qi s)) as [a|prev] eqn:EN.
  - destruct QN as (p & P & I0). eapply safe_eq; [reflexivity|rst|]. cbv beta iota. rewrite (inp_pindex g gok p a I0). apply (scan_turn p a f s); auto. intros s' S' L. apply IH; auto. lia.
  - pose proof (next_lt g gok prev) as NX.
    eapply (safe_bind g F0 qiok _ _ (fun r s' => match r with Some (p, a) => p = next_page g prev /\ a = dstart p /\ next_page g prev <> qi_oldest (s_qi s) /\ qi_next (s_qi s') = NAddr a /\ qi_oldest (s_qi s') = qi_oldest (s_qi s) | None => True end)).
    + cbv zeta. eapply safe_bind; [apply (safe_psc g gok F0 qiok _ s Sn NX)|]. cbv beta. intros x s1 S1 (FR & _). destruct (Nat.eqb_spec (next_page g prev) (qi_oldest (s_qi s))) as [Q|Q].
      * rewrite orb_true_r. apply safe_seq; [now apply safe_unmark_t|]. intros; apply safe_ret; auto.
      * rewrite orb_false_r. destruct (is_open x); [apply safe_seq; [now apply safe_unmark_t|]; intros; apply safe_ret; auto|].
        apply safe_seq; [destruct (qi_prev (s_qi s)); [now apply safe_open_t|apply safe_ret; auto|apply safe_ret; auto]|]. intros _ s2 S2.
        apply (safe_bind g F0 qiok _ _ (fun _ s' => s_qi s' = mkqi (NAddr (dstart (next_page g prev))) (qi_prev (s_qi s)) (qi_oldest (s_qi s)))).
        { split; [|rst]. unfold wp, put_qi. split; [|reflexivity]. apply saneq_qi; auto. split; [exact QO|]. cbn. exists (next_page g prev). split; auto. now apply inp_dstart. }
        cbv beta. intros _ s3 S3 E3. apply safe_ret; auto. rewrite E3. auto.
    + cbv beta. intros [[p a]|] s1 S1 H; [|apply safe_ret; auto]. destruct H as (-> & -> & NQ & EQ & EO). cbv zeta.
      apply (scan_turn (next_page g prev) (dstart (next_page g prev)) f s1); auto; [now apply inp_dstart|]. intros s' S' L. apply IH; auto.
      enough (mu (s_qi s1) <= mu (s_qi s)) by lia. unfold mu. rewrite EN, EQ, EO, (inp_pindex g gok _ _ (inp_dstart g gok (next_page g prev))).
      pose proof (pos_NP _ _ QO NX) as PN. rewrite (pos_next _ prev QO QN NQ) in *. set (ps := pos NP (qi_oldest (s_qi s)) prev) in *.
      replace (NP - ps) with (S (NP - S ps)) by lia. cbn [Nat.mul]. unfold Flash.dstart. pose proof (W_pos g gok). lia.
Qed.
Lemma safe_q_next s : saneq s -> safeq (q_next g) (fun r s' => match r with Some (h, a) => entry_ok s' h a | None => True end) s.
Proof.
  intros S. unfold q_next. eapply safe_eq; [reflexivity|rst|]. cbv beta. apply safe_seq.
  - destruct (qi_prev (s_qi s)); (split; [split; [exact S|auto]|rst]).
  - intros _ s1 S1. eapply safe_bind.
    + apply safe_q_auto; [|exact S1]. intros s2 S2. unfold next_inner. apply safe_seq; [now apply safe_check_t|]. intros _ s3 S3. apply safe_next_loop; auto. apply mu_fuel.
    + cbv beta. intros [[h a]|] s2 S2 H; [|apply safe_ret; auto]. eapply safe_eq; [reflexivity|rst|]. cbv beta. pose proof H as (p & _ & _ & _ & L). destruct (Nat.ltb_spec (length (s_buf s2)) (h_len h)); [lia|]. apply safe_ret; auto.
Qed.
Lemma safe_entry_pop h a s : saneq s -> entry_ok s h a -> safeq (q_entry_pop g h a) T s.
Proof.
  intros S (p & P & I1 & I2 & _). unfold q_entry_pop. eapply safe_eq; [reflexivity|rst|]. cbv beta. apply safe_seq.
  - destruct (qi_prev (s_qi s)); (split; [split; [exact S|auto]|rst]).
  - intros _ s1 S1. apply safe_seq; [eapply safe_mono; [apply (safe_erase_data g gok F0 qiok p h a s1 S1 P I1 I2)|auto]|]. intros; now apply safe_unmark_t.
Qed.
Lemma saneq_buf s b : saneq s -> saneq (set_buf s b). Proof. intros H. exact H. Qed.
Lemma safe_put_buf J b s : sane g F0 J s -> safe g F0 J (put_buf b) T s. Proof. intros H. split; [split; [exact H|auto]|rst]. Qed.
Lemma safe_entry J h s : sane g F0 J s -> safe g F0 J (d <- entry_data h ;; ret (Some d)) T s.
Proof. intros S. unfold entry_data. eapply safe_eq; [reflexivity|rst|]. apply safe_ret; auto. Qed.
Lemma safe_q_step pop s : saneq s -> safeq (q_step g pop) T s.
Proof.
  intros S. unfold q_step. eapply safe_bind; [apply (safe_q_next s S)|]. cbv beta. intros [[h a]|] s1 S1 H; [|apply safe_ret; auto].
  apply safe_seq; [destruct pop; [now apply safe_entry_pop|apply safe_ret; auto]|]. intros _ s2 S2. now apply safe_entry.
Qed.
Lemma safe_pop b s : sane0 s -> safe0 (q_pop g b) T s.
Proof.
  intros S. unfold q_pop. apply safe_seq; [now apply safe_put_buf|]. intros _ s1 S1. apply safe_iter; auto. intros s2 S2.
  eapply safe_bind; [apply (safe_q_next s2 S2)|]. cbv beta. intros [[h a]|] s3 S3 H; [|apply safe_ret; auto]. apply safe_seq; [now apply safe_entry_pop|]. intros _ s4 S4. now apply safe_entry.
Qed.
Lemma safe_peek b s : sane0 s -> safe0 (q_peek g b) T s.
Proof.
  intros S. unfold q_peek. apply safe_seq; [now apply safe_put_buf|]. intros _ s1 S1. apply safe_iter; auto. intros s2 S2.
  eapply safe_bind; [apply (safe_q_next s2 S2)|]. cbv beta. intros [[h a]|] s3 S3 H; [|apply safe_ret; auto]. now apply safe_entry.
Qed.
Definition fine {A} (r : res A) : Prop := match r with Ok _ => True | Err e => tame e end.
Lemma safe_script : forall sc s, saneq s -> safeq (q_script g sc) (fun rs _ => Forall fine rs) s.
Proof.
  induction sc as [|[b pop] sc IH]; intros s S; cbn [q_script]; [apply safe_ret; auto|]. apply safe_seq; [now apply safe_put_buf|]. intros _ s1 S1.
  eapply safe_attempt; [apply (safe_q_step pop s1 S1)| |].
  - intros a s2 S2 _. eapply safe_bind; [apply (IH s2 S2)|]. cbv beta. intros rs s3 S3 H. apply safe_ret; auto. constructor; [exact I|auto].
  - intros e s2 S2 TE. destruct e; try (apply safe_fail; auto; fail). eapply safe_bind; [apply (IH s2 S2)|]. cbv beta. intros rs s3 S3 H. apply safe_ret; auto.
Qed.

(** Answers without panics, endless loops or refused accesses. *)
Definition fine_ans (a : qans) : Prop :=
  match a with
  | AUnit r => fine r | AItem r => fine r | AMax r => fine r | ANum r => fine r
  | AIter r => fine r /\ match r with Ok l => Forall fine l | Err _ => True end
  end.
Lemma safe0_out {A} (c : M unit A) (Q : A -> st unit -> Prop) s : safe0 c Q s -> fine (fst (c s)) /\ sane0 (snd (c s)) /\ forall a, fst (c s) = Ok a -> Q a (snd (c s)).
Proof. unfold SafeP.safe, wp. destruct (c s) as [[a|e] s']; cbn; intros ((A1 & A2) & _); repeat split; auto; try apply A1; try apply A2; congruence. Qed.
Lemma q_exec_safe c s : sane0 s -> fine_ans (fst (q_exec g c s)) /\ sane0 (snd (q_exec g c s)).
Proof.
  intros S. destruct c as [d ow|b|b|sc| |]; cbn [q_exec ans1 fst snd fine_ans].
  - destruct (safe0_out _ _ _ (safe_push anyJ d ow s S)) as (A & B & _). auto.
  - destruct (safe0_out _ _ _ (safe_pop b s S)) as (A & B & _). auto.
  - destruct (safe0_out _ _ _ (safe_peek b s S)) as (A & B & _). auto.
  - assert (X : safe0 (q_iterate g sc) (fun rs _ => Forall fine rs) s) by (unfold q_iterate; apply safe_iter; auto; intros s' S'; now apply safe_script).
    destruct (safe0_out _ _ _ X) as (A & B & C). split; auto. split; auto. destruct (fst (q_iterate g sc s)) eqn:E; auto.
  - destruct (safe0_out _ _ _ (safe_max_fit anyJ s S)) as (A & B & _). auto.
  - destruct (safe0_out _ _ _ (safe_space anyJ s S)) as (A & B & _). auto.
Qed.
Lemma fresh_sane {K} (c : cache K) : fresh_cache NP c -> csane g c.
Proof.
  intros (_ & A & B & C). split; [|split].
  - destruct A; cbn; auto; [now rewrite repeat_length|]. split; [reflexivity|easy].
  - destruct B as [|n m L1 L2]; [exact I|]. intros p a P. assert (X : forall j, lookup (repeat (@None nat) j) p = None).
    { intros j. unfold lookup. destruct (nth_error (repeat None j) p) as [o|] eqn:E; auto. apply nth_error_In, repeat_spec in E. now subst. }
    rewrite !X. easy.
  - destruct C as [|n L]; [exact I|]. split; [destruct n; [lia|easy]|]. intros k a H. apply repeat_spec in H. easy.
Qed.
Lemma power_sane J (s : st unit) p : sane g F0 J s -> sane g F0 J (power s p). Proof. intros H. exact H. Qed.
Lemma q_run_safe : forall evs s, sane0 s -> (forall c, In (EBoot c) evs -> fresh_cache NP c) -> Forall fine_ans (fst (q_run g s evs)) /\ sane0 (snd (q_run g s evs)).
Proof.
  induction evs as [|ev evs IH]; intros s S F; cbn [q_run]; [cbn [fst snd]; auto|]. destruct ev as [c p|c].
  - destruct (q_exec_safe c (power s p) (power_sane _ s p S)) as (A & B). destruct (q_exec g c (power s p)) as [a s'] eqn:E. cbn in A, B. destruct (IH s' B) as (C & D); [intros; apply F; now right|].
    destruct (q_run g s' evs) as [l s2] eqn:E2. cbn in *. auto.
  - apply IH; [|intros; apply F; now right]. destruct S as (S1 & _ & S3). split; [exact S1|]. split; [|exact S3]. apply fresh_sane, F. now left.
Qed.

(** * Noise *)
Lemma q_exec_rok c s m2 : sane0 s -> noise g (f_mem (s_fl s)) m2 ->
  exists m3, q_exec g c (wm s m2) = (fst (q_exec g c s), wm (snd (q_exec g c s)) m3) /\ noise g (f_mem (s_fl (snd (q_exec g c s)))) m3.
Proof.
  intros S N. assert (X : forall A (c : M unit A) f Q, safe0 c Q s -> exists m3, ans1 f (c (wm s m2)) = (fst (ans1 f (c s)), wm (snd (ans1 f (c s))) m3) /\ noise g (f_mem (s_fl (snd (ans1 f (c s))))) m3).
  { intros A c0 f Q (_ & R). destruct (R m2 N) as (m3 & E & N3). exists m3. unfold ans1. rewrite E. auto. }
  destruct c as [d ow|b|b|sc| |]; cbn [q_exec].
  - eapply X. apply (safe_push anyJ d ow s S).
  - eapply X. apply (safe_pop b s S).
  - eapply X. apply (safe_peek b s S).
  - apply (X _ _ _ (fun rs _ => Forall fine rs)). unfold q_iterate. apply safe_iter; auto. intros s' S'. now apply safe_script.
  - eapply X. apply (safe_max_fit anyJ s S).
  - eapply X. apply (safe_space anyJ s S).
Qed.
Lemma q_run_rok : forall evs s m2, sane0 s -> (forall c, In (EBoot c) evs -> fresh_cache NP c) -> noise g (f_mem (s_fl s)) m2 ->
  exists m3, q_run g (wm s m2) evs = (fst (q_run g s evs), wm (snd (q_run g s evs)) m3) /\ noise g (f_mem (s_fl (snd (q_run g s evs)))) m3.
Proof.
  induction evs as [|ev evs IH]; intros s m2 S F N; cbn [q_run]; [exists m2; auto|]. destruct ev as [c p|c].
  - pose proof (power_sane _ s p S) as SP. destruct (q_exec_safe c (power s p) SP) as (_ & B). destruct (q_exec_rok c (power s p) m2 SP N) as (m3 & E & N3).
    change (power (wm s m2) p) with (wm (power s p) m2). rewrite E. destruct (q_exec g c (power s p)) as [a s']. cbn [fst snd] in *.
    destruct (IH s' m3 B) as (m4 & E4 & N4); [intros; apply F; now right|auto|]. rewrite E4. destruct (q_run g s' evs) as [l s2]. exists m4. auto.
  - change (set_ca (wm s m2) c) with (wm (set_ca s c) m2). apply IH; [|intros; apply F; now right|exact N]. destruct S as (S1 & _ & S3). split; [exact S1|]. split; [|exact S3]. apply fresh_sane, F. now left.
Qed.
End SafeQ.
