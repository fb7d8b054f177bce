(** The queue's space queries on layouts. *)
From Coq Require Import List NArith ZArith Arith Bool Lia ZifyBool ZifyNat ZifyN.
From Verif Require Import Base BaseP Crc CrcP Flash Cache State Item Generic Queue GeomP ScanP WpP ItemP CalcP PageP WorldP LayP QPushP QRepP QIterP QNextP QStepP.
Import ListNotations.
Local Opaque crc16 acrc crc32.

Section Misc.
Context (g : geom) (gok : geom_ok g) (ws ae : bool) (aw : nat).
Notation W := (W g).
Notation HL := (HL g).
Notation rup := (rup g).
Notation NP := (NP g).
Notation st := (st unit).
Implicit Types (s : st) (pg : nat -> page) (Y : lay).
Notation world := (world g ws ae aw).
Notation crashed := (crashed g ws ae aw).
Notation sworld := (sworld g ws ae aw).
Notation ncrash := (ncrash g ws ae aw).

Lemma free_addr_used pg f0 L s p : world pg f0 L s -> p < NP -> used (pg p) ->
  free_addr g p s = (Ok (dstart g p + sizes g (slots_of (pg p))), s).
Proof.
  intros (_ & FW & C & CQ) Hp U. pose proof (used_body g ws ae aw pg (s_fl s) p FW Hp U) as B.
  assert (TRAV : forall pre rest, slots_of (pg p) = pre ++ rest ->
     traverse g (tfuel (dstart g p + sizes g pre) (dend g p)) (fun _ => true) (dstart g p + sizes g pre) (dend g p) s =
     (Ok (None, dstart g p + sizes g (slots_of (pg p)), dstart g p + sizes g (slots_of (pg p))), s)).
  { intros pre rest E1. eapply (find_end g gok ws p s); eauto. apply forallb_forall. intros x _. unfold skipped. destruct (shdr x); auto. }
  unfold free_addr. unfold bind at 1, c_after_written. cbv beta iota.
  destruct (pp_written (c_pp (s_ca s)) p) as [a|] eqn:EW.
  - unfold coh_pp in CQ. destruct (c_pp (s_ca s)) as [|er wr]; [discriminate|]. destruct (CQ p Hp) as [_ C2]. destruct (C2 a EW) as [_ ->]. reflexivity.
  - unfold bind at 1, c_after_erased. cbv beta iota zeta.
    destruct (from_er g pg s p (conj C CQ) Hp U) as (pre & rest & E1 & _ & ->). unfold bind at 1. rewrite (TRAV pre rest E1). reflexivity.
Qed.

Lemma free_addr_open pg f0 L s p : world pg f0 L s -> p < NP -> pg p = POpen -> free_addr g p s = (Ok (dstart g p), s).
Proof.
  intros (_ & FW & C & CQ) Hp U.
  assert (EW : pp_written (c_pp (s_ca s)) p = None /\ pp_erased (c_pp (s_ca s)) p = None).
  { unfold coh_pp in CQ. destruct (c_pp (s_ca s)) as [|er wr]; [auto|]. destruct (CQ p Hp) as [C1 C2]. cbn [pp_written pp_erased]. split.
    - destruct (lookup wr p) as [a|] eqn:E; auto. destruct (C2 a eq_refl) as [X _]. rewrite U in X. destruct X.
    - destruct (lookup er p) as [a|] eqn:E; auto. destruct (C1 a eq_refl) as [X _]. rewrite U in X. destruct X. }
  destruct EW as [E1 E2]. unfold free_addr. unfold bind at 1, c_after_written. rewrite E1. cbv beta iota.
  unfold bind at 1, c_after_erased. rewrite E2. cbv beta iota zeta. unfold bind.
  assert (BL : page_is g ws (s_fl s) p POpen) by (rewrite <- U; apply FW; auto). cbn in BL.
  pose proof (dstart_lt g gok p). pose proof (dend_lt g gok p). pose proof (pend_FEND g p Hp). pose proof (START_paddr g p).
  rewrite (traverse_eq g gok (dend g p) (fun _ => true) s [] _ (dstart g p) (dstart g p) (None, dstart g p, dstart g p)); auto; auto with al; try reflexivity.
  - lia.
  - unfold dstart in *. lia.
  - unfold stop_at. rewrite ff_end; auto. intros x Hx. apply BL. unfold dstart in *. lia.
  - unfold tfuel. cbn. lia.
Qed.

(** What [max_fit_inner] answers. *)
Definition availb (n : nat) : option nat := if HL <=? n then Some (n - HL) else None.
Definition mfit pg : res (option nat) :=
  match young g pg with
  | None => Err ECorrupted
  | Some cur =>
      match st_of (pg (next_page g cur)) with
      | None | Some PartialOpen => Err ECorrupted
      | Some x =>
          if (match x with Closed => emptyish (slots_of (pg (next_page g cur))) | _ => true end) then Ok (Some (ES g - 2 * W))
          else Ok (availb (cap g - sizes g (slots_of (pg cur))))
      end
  end.

Lemma page_sizes pg f0 L s p : world pg f0 L s -> p < NP -> sizes g (slots_of (pg p)) <= cap g.
Proof.
  intros Wd Hp. destruct (pg p) as [sl|sl| | |X|X sl] eqn:E; try (change (slots_of _) with (@nil slot); change (sizes g []) with 0; lia).
  all: assert (U : readable (pg p)) by (rewrite E; exact I); pose proof (readable_body g ws ae aw pg (s_fl s) p (proj1 (proj2 Wd)) Hp U) as B;
    pose proof (jbody_seg g gok _ _ _ B) as (_ & S & _); rewrite E in S; exact S.
Qed.

Lemma lay_cur Y pg : layok NP Y pg -> qinv Y -> pg ((y_f Y + y_c Y) mod NP) = match y_pt Y with Some sl => PPart sl | None => POpen end.
Proof.
  intros LY (Q1 & _). destruct Y as [f cl pt k bad]. unfold y_c. cbn [y_f y_cl y_pt y_k y_bad] in *. destruct pt as [sl|].
  - eapply lay_at_part; eauto.
  - pose proof (lay_at_open NP (npos g gok) f cl None k bad pg 0 LY ltac:(specialize (Q1 eq_refl); lia)) as H. cbn [ptl length] in H. now rewrite !Nat.add_0_r in H.
Qed.

Lemma wp_max_fit_inner Y pg f0 L s (Q : option nat -> st -> Prop) (E : err -> st -> Prop) :
  sworld pg s -> layok NP Y pg -> qinv Y -> f0 = s_fl s -> L = [] ->
  (forall s' r, mfit pg = Ok r -> world pg f0 L s' -> Q r s') ->
  (forall s' e, mfit pg = Err e -> world pg f0 L s' -> E e s') ->
  wp (max_fit_inner g) Q E s.
Proof.
  intros SW LY QI -> -> HQ HE. pose proof (ring_of g gok Y pg LY) as RX. unfold max_fit_inner, mfit in *. apply wp_bind. apply (wp_check_dirty g ws ae aw pg); [exact SW|].
  intros s1 W1 _ _ _ _ _. apply wp_bind. apply (wp_young g gok ws ae aw pg (s_fl s) []); auto.
  2:{ intros s2 Y2 W2 _. rewrite Y2 in HE. apply HE; auto. }
  intros s2 cur Y2 W2 _. rewrite Y2 in HQ, HE. cbv zeta. apply wp_bind.
  assert (Hn : next_page g cur < NP) by (apply (next_page_lt g gok)).
  apply (wp_psc g gok ws ae aw (next_page g cur) pg (s_fl s) []); auto.
  2:{ intros X. rewrite X in HE. apply HE; auto. }
  intros s3 x Hx W3 _ _ _. rewrite Hx in HQ, HE.
  assert (Hc : cur < NP).
  { destruct (young_ok g gok Y pg LY QI) as [X|[X _]]; rewrite X in Y2; [injection Y2 as <-; apply mod_lt; auto|discriminate]. }
  assert (PC : pg cur = match y_pt Y with Some sl => PPart sl | None => POpen end).
  { destruct (young_ok g gok Y pg LY QI) as [X|[X _]]; rewrite X in Y2; [injection Y2 as <-; apply lay_cur; auto|discriminate]. }
  assert (TAIL : wp (a <- free_addr g cur ;; c_unmark ;;; (if dend g cur <? a then fail EPanic else ret (avail g (dend g cur - a))))
     (fun r s' => r = availb (cap g - sizes g (slots_of (pg cur))) /\ world pg (s_fl s) [] s') (fun _ _ => False) s3).
  { assert (FA : free_addr g cur s3 = (Ok (dstart g cur + sizes g (slots_of (pg cur))), s3)).
    { destruct (y_pt Y) as [sl|].
      - eapply free_addr_used; eauto. rewrite PC. exact I.
      - rewrite (free_addr_open pg (s_fl s) [] s3 cur W3 Hc PC). rewrite PC. change (sizes g (slots_of POpen)) with 0. now rewrite Nat.add_0_r. }
    eapply wp_ok; [exact FA|]. cbv beta. apply wp_unmark. pose proof (page_sizes pg _ _ _ cur W3 Hc) as SZ. pose proof (cap_eq g gok cur) as CE. pose proof (dstart_lt g gok cur).
    destruct (Nat.ltb_spec (dend g cur) (dstart g cur + sizes g (slots_of (pg cur)))); [lia|]. apply wp_ret. split; [|now apply world_unmark].
    rewrite (avail_eq g gok) by (apply (al_sub g gok); auto with al; apply (al_add g gok); auto with al; now apply sizes_al).
    unfold availb. replace (dend g cur - (dstart g cur + sizes g (slots_of (pg cur)))) with (cap g - sizes g (slots_of (pg cur))) by lia. reflexivity. }
  apply wp_bind. destruct x.
  - eapply wp_eq. { eapply (is_page_empty_closed g gok ws ae aw pg _ _ s3); eauto. revert Hx. clear. destruct (pg _); cbn; auto; discriminate. }
    destruct (emptyish _).
    + apply wp_unmark. apply wp_ret. apply HQ; auto using world_unmark.
    + eapply wp_mono; [exact TAIL| |]; cbv beta; [intros a s' [-> W']; apply HQ; auto|intros e s' []].
  - apply wp_fail. apply HE; auto.
  - apply wp_ret. apply wp_unmark. apply wp_ret. apply HQ; auto using world_unmark.
Qed.

(** What [space_left_inner] answers. *)
Definition spc (x : page) : nat :=
  match x with
  | POpen => cap g
  | PClosed sl => if emptyish sl then cap g else 0
  | PPart sl => if HL <=? cap g - sizes g sl then cap g - sizes g sl else if emptyish sl then cap g else cap g - sizes g sl
  | PBad | PStale _ | PJunk _ _ => 0
  end.
Definition spaces pg (l : list nat) : nat := list_sum (map (fun p => spc (pg p)) l).

Lemma wp_space_loop pg f0 L (Q : nat -> st -> Prop) (E : err -> st -> Prop) : ring_ex g pg -> (forall p, p < NP -> nojunk (pg p)) ->
  forall l n s, (forall p, In p l -> p < NP) -> world pg f0 L s ->
  ((forall p, In p l -> st_of (pg p) <> None) -> forall s', world pg f0 L s' -> Q (n + spaces pg l) s') ->
  (forall p s', In p l -> st_of (pg p) = None -> world pg f0 L s' -> E ECorrupted s') ->
  wp (space_loop g l n) Q E s.
Proof.
  intros RX NJ. induction l as [|p l IH]; intros n s HL' Wd HQ HE.
  { cbn [space_loop]. apply wp_ret. specialize (HQ ltac:(intros p []) s Wd). unfold spaces in HQ. cbn in HQ. now rewrite Nat.add_0_r in HQ. }
  cbn [space_loop]. assert (Hp : p < NP) by (apply HL'; left; auto).
  apply wp_bind. apply (wp_psc g gok ws ae aw p pg f0 L); auto.
  2:{ intros X. eapply HE; eauto. left; auto. }
  intros s1 x Hx W1 _ _ _. pose proof (page_sizes pg _ _ _ p W1 Hp) as SZ. pose proof (cap_eq g gok p) as CE. pose proof (dstart_lt g gok p) as DS.
  assert (REC : forall k s', k = spc (pg p) -> world pg f0 L s' -> wp (space_loop g l (n + k)) Q E s').
  { intros k s' -> W'. apply IH; auto.
    - intros q Hq. apply HL'. right; auto.
    - intros A s2 W2. assert (EQ : n + spc (pg p) + spaces pg l = n + spaces pg (p :: l)). { unfold spaces. cbn [map]. change (list_sum (?a :: ?t)) with (a + list_sum t). lia. }
      rewrite EQ. apply HQ; auto. intros q [<-|Hq]; auto. rewrite Hx. discriminate.
    - intros q s2 Hq. apply HE. right; auto. }
  specialize (NJ p Hp). destruct (pg p) as [sl|sl| | |X|X sl] eqn:EC; cbn [st_of] in Hx; try discriminate; try contradiction; injection Hx as <-.
  - (* closed *) pose proof (is_page_empty_closed g gok ws ae aw pg _ _ s1 p W1 Hp ltac:(rewrite EC; exact I)) as PE. rewrite EC in PE. cbn [slots_of] in PE.
    eapply wp_ok; [exact PE|]. cbv beta. cbn [pstate_eqb andb]. cbn [spc] in REC. destruct (emptyish sl); cbn [negb].
    + apply REC; auto. lia.
    + replace n with (n + 0) by lia. apply REC; auto.
  - (* partially open *) cbn [is_page_empty]. apply wp_bind. apply wp_ret. cbn [pstate_eqb andb].
    pose proof (free_addr_used pg f0 L s1 p W1 Hp ltac:(rewrite EC; exact I)) as FA. rewrite EC in FA. cbn [slots_of] in *.
    eapply wp_ok; [exact FA|]. cbv beta. destruct (Nat.ltb_spec (dend g p) (dstart g p + sizes g sl)); [lia|].
    replace (dend g p - (dstart g p + sizes g sl)) with (cap g - sizes g sl) by lia.
    rewrite (avail_eq g gok). 2:{ apply (al_sub g gok). - replace (cap g) with (dend g p - dstart g p) by lia. apply (al_sub g gok); auto with al. - now apply sizes_al. }
    cbn [spc] in REC. apply wp_bind. destruct (Nat.leb_spec HL (cap g - sizes g sl)) as [C|C].
    + apply wp_ret. apply REC; auto.
    + pose proof (is_page_empty_closed g gok ws ae aw pg _ _ s1 p W1 Hp ltac:(rewrite EC; exact I)) as PE. rewrite EC in PE. cbn [slots_of] in PE.
      eapply wp_eq; [exact PE|]. destruct (emptyish sl); apply REC; auto; lia.
  - (* open *) cbn [is_page_empty]. apply wp_bind. apply wp_ret. cbn [pstate_eqb andb negb]. apply REC; auto. cbn [spc]. lia.
Qed.

Definition nobad pg : bool := forallb (fun p => match st_of (pg p) with None => false | _ => true end) (get_pages g 0).
Definition yspc pg : res nat := if nobad pg then Ok (spaces pg (get_pages g 0)) else Err ECorrupted.

Lemma wp_space_left_inner Y pg f0 L s (Q : nat -> st -> Prop) (E : err -> st -> Prop) :
  sworld pg s -> layok NP Y pg -> f0 = s_fl s -> L = [] ->
  (forall s' r, yspc pg = Ok r -> world pg f0 L s' -> Q r s') ->
  (forall s' e, yspc pg = Err e -> world pg f0 L s' -> E e s') ->
  wp (space_left_inner g) Q E s.
Proof.
  intros SW LY -> -> HQ HE. pose proof (ring_of g gok Y pg LY) as RX. unfold space_left_inner, yspc in *. apply wp_bind. apply (wp_check_dirty g ws ae aw pg); [exact SW|].
  intros s1 W1 _ _ _ _ _. apply wp_bind. apply (wp_space_loop pg (s_fl s) []); auto.
  - intros p Hp. exact (lay_nojunk NP Y pg p (npos g gok) LY Hp).
  - apply Forall_forall. apply (get_pages_lt g gok).
  - intros A s2 W2. apply wp_unmark. apply wp_ret. apply HQ; auto using world_unmark. assert (nobad pg = true) as ->; auto.
    unfold nobad. apply forallb_forall. intros p Hp. specialize (A p Hp). destruct (st_of (pg p)); auto.
  - intros p s2 Hp A W2. apply HE; auto. destruct (nobad pg) eqn:NB; auto. unfold nobad in NB. rewrite forallb_forall in NB. specialize (NB p Hp). rewrite A in NB. discriminate.
Qed.

(** A read-only query under automatic repair. *)
Definition yquery {A} (q : (nat -> page) -> res A) pg pg' Y : res A * list dop * lay :=
  match q pg with
  | Err ECorrupted => (q pg', rops g Y, yrep Y)
  | r => (r, [], Y)
  end.
Definition qout {A} (q : (nat -> page) -> res A) pg Y (f0 : flash) (r : res A) s : Prop :=
  (r = q pg /\ r <> Err ECorrupted /\ layok NP Y pg /\ world pg f0 [] s) \/
  (q pg = Err ECorrupted /\ exists pg', layok NP (yrep Y) pg' /\ r = q pg' /\ world pg' f0 (rops g Y) s).

Lemma wp_query {A} (q : (nat -> page) -> res A) (m : M unit A) Y pg s :
  (forall Y pg f0 L s (Q : A -> st -> Prop) (E : err -> st -> Prop), sworld pg s -> layok NP Y pg -> qinv Y -> f0 = s_fl s -> L = [] ->
    (forall s' r, q pg = Ok r -> world pg f0 L s' -> Q r s') -> (forall s' e, q pg = Err e -> world pg f0 L s' -> E e s') -> wp m Q E s) ->
  layok NP Y pg -> qinv Y -> sworld pg s ->
  wp (auto_repair m (q_repair g)) (fun r s' => qout q pg Y (s_fl s) (Ok r) s')
    (fun e s' => qout q pg Y (s_fl s) (Err e) s' \/ q pg = Err ECorrupted /\ ncrash Y e (s_fl s) (rops g Y) s') s.
Proof.
  intros H LY QI SW. apply wp_auto_repair. eapply (H Y pg); eauto.
  - intros s' r R W'. left. split; auto. split; [congruence|]. auto.
  - intros s' e R W'. assert (X : e <> ECorrupted -> qout q pg Y (s_fl s) (Err e) s' \/ q pg = Err ECorrupted /\ ncrash Y e (s_fl s) (rops g Y) s').
    { intros NE. left. left. split; auto. split; [congruence|]. auto. }
    destruct e; try (apply X; discriminate).
    apply (wp_q_repair g gok ws ae aw Y pg (s_fl s) []); auto.
    + intros s2 pg2 LY2 W2 _ _ _. rewrite app_nil_l in W2.
      assert (RW : run g (s_fl s) (rops g Y) = (None, s_fl s2)) by apply W2.
      eapply (H (yrep Y) pg2 (s_fl s2) []); eauto using yrep_qinv, world_sworld.
      * intros s3 r R3 W3. right. split; auto. exists pg2. split; auto. split; auto. rewrite <- (app_nil_r (rops g Y)). eapply world_cons; eauto.
      * intros s3 e R3 W3. left. right. split; auto. exists pg2. split; auto. split; auto. rewrite <- (app_nil_r (rops g Y)). eapply world_cons; eauto.
    + intros s2 pg2 Yc YC LYc CR. rewrite app_nil_l in CR. right. split; auto. split; auto. exists Yc, pg2.
      split. { destruct YC as [->| ->]; auto using yrep_content. } split. { intros B HB. destruct YC as [->| ->]; auto. }
      split; auto. split; auto. destruct YC as [->| ->]; auto using yrep_qinv.
Qed.
Lemma wp_q_max_fit Y pg s : layok NP Y pg -> qinv Y -> sworld pg s ->
  wp (q_max_fit g) (fun r s' => qout mfit pg Y (s_fl s) (Ok r) s')
    (fun e s' => qout mfit pg Y (s_fl s) (Err e) s' \/ mfit pg = Err ECorrupted /\ ncrash Y e (s_fl s) (rops g Y) s') s.
Proof. intros. apply wp_query; auto. intros. eapply (wp_max_fit_inner Y0 pg0); eauto. Qed.
Lemma wp_q_space_left Y pg s : layok NP Y pg -> qinv Y -> sworld pg s ->
  wp (q_space_left g) (fun r s' => qout yspc pg Y (s_fl s) (Ok r) s')
    (fun e s' => qout yspc pg Y (s_fl s) (Err e) s' \/ yspc pg = Err ECorrupted /\ ncrash Y e (s_fl s) (rops g Y) s') s.
Proof. intros. apply wp_query; auto. intros. eapply (wp_space_left_inner Y0 pg0); eauto. Qed.
End Misc.
