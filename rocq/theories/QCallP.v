(** Whole queue calls on layouts: one outcome per layout, agreeing with the specification. *)
From Coq Require Import List NArith ZArith Arith Bool Lia ZifyBool ZifyNat ZifyN.
From Verif Require Import Base BaseP Crc CrcP Flash Cache State Item Generic Queue GeomP ScanP WpP ItemP CalcP PageP WorldP LayP QPushP QRepP QIterP QNextP QStepP QMiscP Client QSpec.
Import ListNotations.
Local Opaque crc16 acrc crc32.

Section Call.
Context (g : geom) (gok : geom_ok g) (ws ae : bool) (aw : nat).
Notation W := (W g).
Notation HL := (HL g).
Notation rup := (rup g).
Notation NP := (NP g).
Notation st := (st unit).
Implicit Types (s : st) (pg : nat -> page) (Y : lay).
Notation world := (world g ws ae aw).
Notation crashed := (crashed g ws ae aw).
Notation sworld := (sworld g ws ae aw).
Notation wt := (wt rup HL).

(** The pages of a layout. *)
Definition pgof Y : nat -> page := fun p => nth (pos NP (y_f Y) p) (pages Y) POpen.
Lemma pgof_ok Y pg : layok NP Y pg -> forall p, p < NP -> pg p = pgof Y p.
Proof. intros [L _] p Hp. apply lay0_pos; auto. apply npos; auto. Qed.

Lemma gp_lt a p : In p (get_pages g a) -> p < NP.
Proof. revert p. apply Forall_forall. apply (get_pages_lt g gok). Qed.
Lemma ff_ext pg pg' x l : (forall p, In p l -> pg p = pg' p) -> ff pg x l = ff pg' x l.
Proof.
  induction l as [|a l IH]; cbn [ff]; auto. intros H. rewrite <- (H a) by now left. rewrite IH; auto. intros; apply H; now right.
Qed.
Lemma young_ext pg pg' : (forall p, p < NP -> pg p = pg' p) -> young g pg = young g pg'.
Proof.
  intros H. assert (X : forall y a, ff pg y (get_pages g a) = ff pg' y (get_pages g a)).
  { intros y a. apply ff_ext. intros p Hp. apply H. eapply gp_lt; eauto. }
  unfold young. rewrite !X. destruct (ff pg' PartialOpen _) as [[?|]|]; auto. destruct (ff pg' Closed _) as [[a|]|]; auto. now rewrite X.
Qed.
Lemma ff_in pg x l p : ff pg x l = Some (Some p) -> In p l.
Proof. pose proof (ff_cases pg x l) as H. intros E. rewrite E in H. destruct H as (l1 & l2 & -> & _). apply in_app_iff. right. now left. Qed.
Lemma young_lt pg p : young g pg = Some p -> p < NP.
Proof.
  assert (X : forall y a q, ff pg y (get_pages g a) = Some (Some q) -> q < NP) by (intros y a q E; apply ff_in in E; now apply gp_lt in E).
  unfold young. destruct (ff pg PartialOpen _) as [[?|]|] eqn:E1; try discriminate; [intros [= <-]; eauto|].
  destruct (ff pg Closed _) as [[a|]|] eqn:E2; try discriminate; [|intros [= <-]; apply (npos g gok)].
  destruct (ff pg Open _) as [[?|]|] eqn:E3; try discriminate. intros [= <-]; eauto.
Qed.
Lemma isyoung_ext pg pg' : (forall p, p < NP -> pg p = pg' p) -> isyoung g pg = isyoung g pg'.
Proof. intros H. unfold isyoung. now rewrite (young_ext _ _ H). Qed.
Lemma mfit_ext pg pg' : (forall p, p < NP -> pg p = pg' p) -> mfit g pg = mfit g pg'.
Proof.
  intros H. unfold mfit. rewrite <- (young_ext _ _ H). destruct (young g pg) as [c|] eqn:E; auto. apply young_lt in E.
  rewrite <- !H; auto. apply (next_page_lt g gok).
Qed.
Lemma yspc_ext pg pg' : (forall p, p < NP -> pg p = pg' p) -> yspc g pg = yspc g pg'.
Proof.
  intros H. unfold yspc, nobad, spaces.
  assert (X : forall l, (forall p, In p l -> p < NP) -> forallb (fun p => match st_of (pg p) with None => false | _ => true end) l = forallb (fun p => match st_of (pg' p) with None => false | _ => true end) l /\
     map (fun p => spc g (pg p)) l = map (fun p => spc g (pg' p)) l).
  { induction l as [|a l IH]; auto. intros A. destruct IH as [I1 I2]; [intros; apply A; now right|]. cbn [forallb map]. rewrite I1, I2, H by (apply A; now left). auto. }
  destruct (X (get_pages g 0)) as [-> ->]; auto. apply gp_lt.
Qed.

(** Page contents fit in a page. *)
Definition ycap Y : Prop := Forall (fun sl => sizes g sl <= cap g) (uslots Y).
Lemma in_used Y pg sl : layok NP Y pg -> In sl (uslots Y) -> exists p, p < NP /\ used (pg p) /\ slots_of (pg p) = sl.
Proof.
  intros [L _] I. apply (In_nth _ _ []) in I. destruct I as (j & J & E). rewrite uslots_len in J. destruct L as (Hf & LL & H). rewrite pages_len in LL.
  exists ((y_f Y + j) mod NP). split; [now apply mod_lt|]. rewrite H by lia. unfold pages, y_c, y_b, uslots in *. destruct Y as [f cl pt k bad]. cbn [y_f y_cl y_pt y_k y_bad] in *.
  destruct (Nat.lt_ge_cases j (length cl)) as [C|C].
  - rewrite app_nth1 by (now rewrite map_length). rewrite app_nth1 in E by auto. rewrite (nth_indep _ POpen (PClosed [])) by (now rewrite map_length).
    rewrite map_nth, E. split; cbn; auto.
  - rewrite app_nth2 by (now rewrite map_length). rewrite app_nth2 in E by auto. rewrite map_length.
    destruct pt; cbn [ptl length] in *; [|lia]. replace (j - length cl) with 0 in * by lia. cbn in E |- *. auto.
Qed.
Lemma ycap_of Y pg f0 L s : layok NP Y pg -> world pg f0 L s -> ycap Y.
Proof.
  intros LY Wd. apply Forall_forall. intros sl I. destruct (in_used Y pg sl LY I) as (p & Hp & _ & <-). eapply page_sizes; eauto.
Qed.
Lemma ycap_sw Y pg s : layok NP Y pg -> sworld pg s -> ycap Y.
Proof.
  intros LY (FW & _). apply Forall_forall. intros sl I. destruct (in_used Y pg sl LY I) as (p & Hp & U & <-).
  pose proof (used_body g ws ae aw pg (s_fl s) p FW Hp U) as B. now pose proof (body_seg g gok ws _ _ _ B) as (_ & S & _).
Qed.
Lemma clean_sw Y pg s : ws = true -> layok NP Y pg -> sworld pg s -> yall clean Y.
Proof.
  intros HW LY (FW & _). apply Forall_forall. intros sl I. destruct (in_used Y pg sl LY I) as (p & Hp & U & <-).
  pose proof (used_body g ws ae aw pg (s_fl s) p FW Hp U) as B. destruct B as (b & _ & _ & _ & B). apply (B HW).
Qed.
Lemma wt_app a b : wt (a ++ b) = wt a + wt b.
Proof. unfold QSpec.wt. rewrite map_app, list_sum_app. reflexivity. Qed.
Lemma wt_live sl : wt (live_of sl) <= sizes g sl.
Proof.
  induction sl as [|x sl IH]; [reflexivity|]. rewrite sizes_cons. change (live_of (x :: sl)) with ((match x with SLive d => [d] | _ => [] end) ++ live_of sl).
  rewrite wt_app. destruct x as [d|n|n c|]; try (change (wt []) with 0; lia). change (wt [d]) with (HL + rup (length d) + 0). change (ssize g (SLive d)) with (HL + rup (length d)). lia.
Qed.

(** Push. *)
Notation big := (big HL (cap g)).
Lemma big_ok d : too_big g (length d) = true <-> big d.
Proof. unfold too_big, QSpec.big, mx, max_item, cap. rewrite orb_true_iff. rewrite N.ltb_lt, Nat.ltb_lt. replace (ES g - W * 2) with (ES g - 2 * W) by lia. tauto. Qed.

Lemma ypush_spec yg Y d ow pg : layok NP Y pg -> qinv Y -> ycap Y -> too_big g (length d) = false ->
  let '(r, L, Y') := ypush g yg Y d ow in
  match r with
  | Ok _ => exists dr q1, content Y = dr ++ q1 /\ content Y' = q1 ++ [d] /\ (ow = false -> dr = []) /\ wt dr <= cap g
  | Err EFull => ow = false /\ content Y' = content Y /\ (yall clean Y -> 2 <= NP -> content Y <> [])
  | Err ECorrupted => content Y' = content Y /\ (yg = true -> y_bad Y = 1)
  | _ => False
  end.
Proof.
  intros LY QI YC TB. destruct Y as [f cl pt k bad]. pose proof (lay_len _ _ _ _ _ _ _ LY) as (Hf & TOT & BAD).
  destruct (too_big_fits g gok d TB) as [FI0 DL]. destruct QI as (Q1 & Q2 & Q3). cbn [y_pt y_k] in Q1.
  unfold ycap in YC. unfold ypush. rewrite TB. destruct yg; cbn [negb]; [|split; auto; discriminate].
  assert (OK : forall q1 q2 : list (list N), q1 = q2 -> exists dr q, q1 = dr ++ q /\ q2 ++ [d] = q ++ [d] /\ (ow = false -> dr = []) /\ wt dr <= cap g).
  { intros q1 q2 ->. exists [], q2. repeat split; auto. unfold QSpec.wt. cbn. lia. }
  destruct pt as [sl|]; cbn [y_start y_pt y_cl y_f y_k y_bad y_sl].
  - destruct (fitsb g sl (length d)).
    { unfold y_put. cbn [y_start y_pt y_cl y_f y_k y_bad y_sl]. rewrite !content_app, live_app. cbn [live_of flat_map app]. rewrite app_assoc. now apply OK. }
    destruct (Nat.leb_spec 1 k) as [K|K].
    { unfold y_roll. cbn [y_start y_pt y_cl y_f y_k y_bad y_sl]. rewrite !content_app, flat_map_app. cbn [live_of flat_map app]. rewrite app_nil_r. now apply OK. }
    destruct (Nat.eqb_spec bad 1) as [->|NB]; [split; auto|]. destruct cl as [|o cl].
    + destruct ow.
      * exists (live_of sl), []. rewrite !content_app. cbn [live_of flat_map app]. rewrite app_nil_r. repeat split; auto; [discriminate|].
        etransitivity; [apply wt_live|]. cbn in YC. now inversion YC.
      * split; auto. split; auto. intros _ N2. cbn [length ptl] in TOT. lia.
    + destruct (ow || emptyish o) eqn:OE.
      * unfold y_roll, y_drop. cbn [y_start y_pt y_cl y_f y_k y_bad y_sl tl]. rewrite !content_app, flat_map_app. cbn [live_of flat_map app]. rewrite app_nil_r.
        exists (live_of o), (flat_map live_of cl ++ live_of sl). rewrite !app_assoc. repeat split; auto.
        -- intros ->. cbn in OE. now apply emptyish_live.
        -- etransitivity; [apply wt_live|]. cbn in YC. now inversion YC.
      * apply orb_false_iff in OE. destruct OE as [-> OE]. split; auto. split; auto. intros CL _ X. rewrite content_app in X. cbn [flat_map] in X.
        apply app_eq_nil in X. destruct X as [X _]. apply app_eq_nil in X. destruct X as [X _].
        unfold yall, uslots in CL. cbn [y_cl y_pt app] in CL. inversion CL as [|? ? CO _]; subst. clear - CO OE X.
        induction o as [|x o IH]; [discriminate|]. inversion CO as [|? ? C1 C2]; subst. unfold emptyish in *. cbn [forallb] in OE.
        destruct x; cbn in C1; try contradiction; [discriminate|]. apply IH; auto.
  - rewrite FI0. unfold y_put. cbn [y_start y_pt y_cl y_f y_k y_bad y_sl]. rewrite !content_app. cbn [live_of flat_map app]. rewrite app_nil_r. now apply OK.
Qed.

Lemma qpush_spec Y d ow pg : layok NP Y pg -> qinv Y -> ycap Y ->
  let '(r, L, Y') := qpush g (isyoung g pg) Y d ow in
  match r with
  | Ok _ => ~ big d /\ exists dr q1, content Y = dr ++ q1 /\ content Y' = q1 ++ [d] /\ (ow = false -> dr = []) /\ wt dr <= cap g
  | Err EFull => ~ big d /\ ow = false /\ content Y' = content Y /\ (yall clean Y -> 2 <= NP -> content Y <> [])
  | Err EItemTooBig => big d /\ content Y' = content Y
  | _ => False
  end.
Proof.
  intros LY QI YC. unfold qpush. destruct (too_big g (length d)) eqn:TB.
  { unfold ypush at 1. rewrite TB. split; auto. now apply big_ok. }
  assert (NB : ~ big d) by (rewrite <- big_ok, TB; discriminate).
  pose proof (ypush_spec (isyoung g pg) Y d ow pg LY QI YC TB) as P.
  destruct (ypush g (isyoung g pg) Y d ow) as [[r L] Y1] eqn:E. destruct r as [u|e]; [auto|]. destruct e; auto; try contradiction.
  (* a repair and another attempt *)
  assert (P1 : exists pg1, layok NP Y1 pg1 /\ qinv Y1 /\ ycap Y1 /\ content Y1 = content Y /\ (yall clean Y -> yall clean Y1)).
  { destruct P as [P _]. revert E. unfold ypush. rewrite TB. destruct (negb _); [intros [= <- <-]; exists pg; auto|].
    destruct (fitsb _ _ _) eqn:FI; [discriminate|]. destruct (1 <=? _); [discriminate|]. destruct (_ =? 1) eqn:BO.
    - intros [= <- <-]. destruct Y as [f cl pt k bad]. cbn [y_start y_pt] in *. destruct pt; [exists pg; auto|].
      cbn [y_sl y_start y_pt y_cl y_f y_k y_bad] in FI. rewrite (proj1 (too_big_fits g gok d TB)) in FI. discriminate.
    - destruct (y_cl _); destruct ow; cbn [orb]; try discriminate. destruct (emptyish _); discriminate. }
  destruct P1 as (pg1 & LY1 & QI1 & YC1 & CC & CL).
  assert (LR : exists pg2, layok NP (yrep Y1) pg2).
  { exists (pgof (yrep Y1)). destruct LY1 as [(A1 & A2 & A3) A4]. split; [|cbn; lia]. split; [exact A1|]. rewrite pages_len in A2.
    split. { rewrite pages_len. cbn [yrep y_k y_bad]. unfold y_c, y_b in *. cbn [y_cl y_pt yrep]. lia. }
    intros i Hi. unfold pgof. rewrite pos_mod; auto. apply (npos g gok). }
  destruct LR as (pg2 & LY2). assert (YC2 : ycap (yrep Y1)) by exact YC1.
  pose proof (ypush_spec true (yrep Y1) d ow pg2 LY2 (yrep_qinv _ QI1) YC2 TB) as P2.
  destruct (ypush g true (yrep Y1) d ow) as [[r2 L2] Y2]. rewrite yrep_content, CC in P2.
  destruct r2 as [u|e]; [auto|]. destruct e; auto; try contradiction.
  - destruct P2 as (A & B & C). repeat split; auto.
  - destruct P2 as [_ P2]. specialize (P2 eq_refl). discriminate.
Qed.

(** Iteration. *)
Fixpoint yscript (sc : list (list N * bool)) Y (j : nat) (ap : bool) (c : list slot) : list (res (option (list N))) * list dop * lay :=
  match sc with
  | [] => ([], [], Y)
  | (b, pop) :: t =>
      let '(r, ops, (Y', j', ap', c')) := ystep g (length b) pop Y j ap c in
      let '(rs, ops', Y2) := yscript t Y' j' ap' c' in (r :: rs, ops ++ ops', Y2)
  end.

Notation istep := (istep rup HL (cap g) (negb ws)).
Notation isteps := (isteps rup HL (cap g) (negb ws)).

Lemma lstep_istep (cl : Prop) b pop bf rm r bf' rm' : (ws = true -> cl) -> lstep g cl (length b) pop bf rm r bf' rm' -> istep bf rm (b, pop) r bf' rm'.
Proof.
  intros CL H. destruct r as [[d|]|e]; cbn [lstep] in H.
  - destruct H as (-> & -> & H). destruct pop; [eapply IItemPop|eapply IItem]; eauto.
  - destruct H as (-> & -> & ->). now apply IEnd.
  - destruct H as (-> & -> & n & -> & H1 & H2 & H3). apply IShort. split; auto. split; auto. intros X. apply H3, CL. now destruct ws.
Qed.

Definition iscrash (f0 : flash) bf rm sc (L : list dop) (e : err) s : Prop :=
  e = cut /\ ws = false /\ exists sc1 sc2 rs Yc pg', sc = sc1 ++ sc2 /\ isteps bf rm sc1 rs (content Yc) /\ layok NP Yc pg' /\ qinv Yc /\ crashed pg' f0 L s.

Lemma wp_q_script sc : forall Y pg s f0 L j ap c bf rm,
  layok NP Y pg -> qinv Y -> y_bad Y = 0 -> world pg f0 L s -> cur g Y pg (s_qi s) j ap c bf rm ->
  forall rs ops Y', yscript sc Y j ap c = (rs, ops, Y') ->
  wp (q_script g sc) (fun r s' => r = rs /\ isteps bf rm sc rs (content Y') /\ exists pg', layok NP Y' pg' /\ qinv Y' /\ world pg' f0 (L ++ ops) s')
     (fun e s' => iscrash f0 bf rm sc (L ++ ops) e s') s.
Proof.
  induction sc as [|[b pop] sc IH]; intros Y pg s f0 L j ap c bf rm LY QI BZ Wd CU rs ops Y' EY.
  { cbn in EY. injection EY as <- <- <-. cbn [q_script]. apply wp_ret. split; auto. rewrite app_nil_r. split; [|exists pg; auto].
    rewrite (cur_content _ _ _ _ _ _ _ _ _ CU). constructor. }
  cbn [yscript] in EY. destruct (ystep g (length b) pop Y j ap c) as [[r ops1] [[[Y1 j1] ap1] c1]] eqn:ES.
  destruct (yscript sc Y1 j1 ap1 c1) as [[rs2 ops2] Y2] eqn:EY2. injection EY as <- <- <-.
  cbn [q_script]. apply wp_put_buf. apply wp_attempt.
  assert (SW : sworld pg (set_buf s b)) by (eapply world_sworld; exact Wd).
  assert (CL : ws = true -> yall clean Y) by (intros HW; eapply clean_sw; eauto).
  assert (RF : run g f0 L = (None, s_fl s)) by apply Wd.
  eapply wp_mono; [apply (wp_q_step g gok ws ae aw (length b) pop Y pg (set_buf s b) j ap c bf rm LY QI BZ SW CU eq_refl _ eq_refl)| |]; rewrite ES; cbv beta.
  - intros a s1 (E & pg1 & bf1 & rm1 & LY1 & QI1 & BZ1 & W1 & _ & CU1 & LS & _). subst r. apply wp_bind. change (s_fl (set_buf s b)) with (s_fl s) in W1.
    pose proof (world_cons g ws ae aw _ _ _ _ _ _ RF W1) as W1'. apply (lstep_istep _ _ _ _ _ _ _ _ CL) in LS.
    eapply wp_mono; [apply (IH Y1 pg1 s1 f0 (L ++ ops1) j1 ap1 c1 bf1 rm1 LY1 QI1 BZ1 W1' CU1 _ _ _ EY2)| |]; cbv beta.
    + intros rr s2 (-> & IS & pg2 & A). apply wp_ret. split; auto. rewrite app_assoc. split; [|exists pg2; exact A]. econstructor; eauto.
    + intros e s2 (-> & HW & sc1 & sc2 & rs & Yc & pg' & -> & IS & A). split; auto. split; auto. rewrite app_assoc.
      exists ((b, pop) :: sc1), sc2, (Ok a :: rs), Yc, pg'. split; auto. split; [|exact A]. econstructor; eauto.
  - intros e s1 [H|H].
    + destruct H as (E & pg1 & bf1 & rm1 & LY1 & QI1 & BZ1 & W1 & _ & CU1 & LS & _). subst r. change (s_fl (set_buf s b)) with (s_fl s) in W1.
      pose proof (world_cons g ws ae aw _ _ _ _ _ _ RF W1) as W1'. apply (lstep_istep _ _ _ _ _ _ _ _ CL) in LS.
      assert (exists n, e = EBufTooSmall n) as (n & ->) by (inversion LS; eauto). apply wp_bind.
      eapply wp_mono; [apply (IH Y1 pg1 s1 f0 (L ++ ops1) j1 ap1 c1 bf1 rm1 LY1 QI1 BZ1 W1' CU1 _ _ _ EY2)| |]; cbv beta.
      * intros rr s2 (-> & IS & pg2 & A). apply wp_ret. split; auto. rewrite app_assoc. split; [|exists pg2; exact A]. econstructor; eauto.
      * intros e s2 (-> & HW & sc1 & sc2 & rs & Yc & pg' & -> & IS & A). split; auto. split; auto. rewrite app_assoc.
        exists ((b, pop) :: sc1), sc2, (Err (EBufTooSmall n) :: rs), Yc, pg'. split; auto. split; [|exact A]. econstructor; eauto.
    + destruct H as (-> & Yc & pg' & CT & _ & LYc & QIc & CR). apply wp_fail. cbn [fst snd] in CR. change (s_fl (set_buf s b)) with (s_fl s) in CR.
      assert (HW : ws = false) by apply CR. split; auto. split; auto.
      pose proof (crashed_cons g ws ae aw _ _ _ _ _ _ RF CR) as CR'. apply (crashed_app _ _ _ _ _ _ _ ops2) in CR'. rewrite <- app_assoc in CR'.
      destruct CT as [CT|(-> & d & t & -> & LB & CT)].
      * exists [], ((b, pop) :: sc), [], Yc, pg'. split; auto. split; auto. rewrite CT. constructor.
      * exists [(b, true)], sc, [Ok (Some d)], Yc, pg'. split; auto. split; auto. rewrite CT. econstructor; [eapply IItemPop; eauto|constructor].
Qed.

(** One outcome per call. *)
Definition yq {A} (q : (nat -> page) -> res A) Y : res A * list dop * lay :=
  match q (pgof Y) with
  | Err ECorrupted => (q (pgof (yrep Y)), rops g Y, yrep Y)
  | r => (r, [], Y)
  end.
Definition ycur Y : list slot := strip (nth 0 (uslots Y) []).
Definition yone (b : list N) pop Y : res (option (list N)) * list dop * lay :=
  let '(r, ops, (Y', _, _, _)) := ystep g (length b) pop (yrep Y) 0 true (ycur Y) in (r, rops g Y ++ ops, Y').
Definition yact (c : qcall) Y : qans * list dop * lay :=
  match c with
  | QPush d ow => let '(r, ops, Y') := qpush g (isyoung g (pgof Y)) Y d ow in (AUnit r, ops, Y')
  | QPop b => let '(r, ops, Y') := yone b true Y in (AItem r, ops, Y')
  | QPeek b => let '(r, ops, Y') := yone b false Y in (AItem r, ops, Y')
  | QIter sc => let '(r, ops, Y') := yscript sc (yrep Y) 0 true (ycur Y) in (AIter (Ok r), rops g Y ++ ops, Y')
  | QMaxFit => let '(r, ops, Y') := yq (mfit g) Y in (AMax r, ops, Y')
  | QSpace => let '(r, ops, Y') := yq (yspc g) Y in (ANum r, ops, Y')
  end.
Definition acut (c : qcall) : qans :=
  match c with
  | QPush _ _ => AUnit (Err cut)
  | QPop _ | QPeek _ => AItem (Err cut)
  | QIter _ => AIter (Err cut)
  | QMaxFit => AMax (Err cut)
  | QSpace => ANum (Err cut)
  end.

Notation qdo := (qdo rup HL (cap g) (2 <=? NP) (negb ws)).
Definition call_ok (c : qcall) : Prop := match c with QPush d _ => dok d /\ tear_ok g ws aw d | _ => True end.

Definition cout (c : qcall) Y (f0 : flash) (O : qans * list dop * lay) (a : qans) s : Prop :=
  (a = fst (fst O) /\ exists pg', layok NP (snd O) pg' /\ qinv (snd O) /\ world pg' f0 (snd (fst O)) s /\ qdo (content Y) c a (content (snd O))) \/
  (a = acut c /\ exists Yc pg', layok NP Yc pg' /\ qinv Yc /\ crashed pg' f0 (snd (fst O)) s /\ qdo (content Y) c a (content Yc)).

Lemma q_peek_eq b s : q_peek g b s = (put_buf b ;;; q_iter g ;;; q_step g false) s.
Proof.
  unfold q_peek, q_step, bind, put_buf, ret. destruct (q_iter g (set_buf s b)) as [[?|?] s1]; auto. 
Qed.
Lemma q_pop_eq b s : q_pop g b s = (put_buf b ;;; q_iter g ;;; q_step g true) s.
Proof. reflexivity. Qed.

Lemma iter_cur Y pg s pre rest : itr g (yrep Y) pg (s_qi s) 0 pre rest -> qi_prev (s_qi s) = AllPopped -> emptyish pre = true ->
  cur g (yrep Y) pg (s_qi s) 0 true (ycur Y) [] (content Y).
Proof.
  intros IT EP EM. exists pre, rest. split; auto. destruct IT as (J & IE & _). split.
  { unfold ycur. change (uslots (yrep Y)) with (uslots Y) in IE. rewrite IE. symmetry. now apply strip_app. }
  split; [now rewrite EP|]. pose proof (split_content (yrep Y) 0 pre rest J IE) as SC. rewrite yrep_content in SC.
  assert (B0 : before (yrep Y) 0 pre = []). { unfold before. cbn [firstn flat_map app]. now apply emptyish_live. }
  rewrite B0 in SC. split; auto.
Qed.

Lemma one_ok b pop Y pg s : layok NP Y pg -> qinv Y -> sworld pg s ->
  wp (put_buf b ;;; q_iter g ;;; q_step g pop)
    (fun r s' => let '(r0, ops, Y') := yone b pop Y in r0 = Ok r /\ (exists bf rm, istep [] (content Y) (b, pop) r0 bf rm /\ content Y' = bf ++ rm) /\ exists pg', layok NP Y' pg' /\ qinv Y' /\ world pg' (s_fl s) ops s')
    (fun e s' => let '(r0, ops, Y') := yone b pop Y in
       (r0 = Err e /\ (exists bf rm, istep [] (content Y) (b, pop) r0 bf rm /\ content Y' = bf ++ rm) /\ exists pg', layok NP Y' pg' /\ qinv Y' /\ world pg' (s_fl s) ops s') \/
       (e = cut /\ exists Yc pg', layok NP Yc pg' /\ qinv Yc /\ crashed pg' (s_fl s) ops s' /\ (content Yc = content Y \/ pop = true /\ content Yc = tl (content Y)))) s.
Proof.
  intros LY QI SW. apply wp_put_buf. apply wp_bind.
  assert (SW0 : sworld pg (set_buf s b)) by exact SW.
  unfold yone. destruct (ystep g (length b) pop (yrep Y) 0 true (ycur Y)) as [[r ops1] [[[Y1 j1] ap1] c1]] eqn:ES.
  eapply wp_mono; [apply (wp_q_iter g gok ws ae aw Y pg _ LY QI SW0)| |]; cbv beta.
  - intros _ s1 (pg1 & LY1 & W1 & B1 & pre & rest & IT & EP & EM). change (s_fl (set_buf s b)) with (s_fl s) in W1.
    pose proof (iter_cur Y pg1 s1 pre rest IT EP EM) as CU. assert (SW1 : sworld pg1 s1) by (eapply world_sworld; exact W1).
    assert (CL : ws = true -> yall clean (yrep Y)) by (intros HW; eapply (clean_sw (yrep Y)); eauto).
    assert (RF : run g (s_fl s) (rops g Y) = (None, s_fl s1)) by apply W1.
    assert (LB : length (s_buf s1) = length b) by (rewrite B1; reflexivity).
    eapply wp_mono; [apply (wp_q_step g gok ws ae aw (length b) pop (yrep Y) pg1 s1 0 true _ _ _ LY1 (yrep_qinv _ QI) eq_refl SW1 CU LB _ eq_refl)| |]; rewrite ES; cbv beta.
    + intros a s2 (E & pg2 & bf1 & rm1 & LY2 & QI2 & BZ2 & W2 & _ & CU2 & LS & _). split; auto. split.
      { exists bf1, rm1. split; [rewrite <- E; eapply lstep_istep; eauto|]. eapply cur_content; eauto. }
      exists pg2. split; auto. split; auto. eapply world_cons; eauto.
    + intros e s2 [H|H].
      * left. destruct H as (E & pg2 & bf1 & rm1 & LY2 & QI2 & BZ2 & W2 & _ & CU2 & LS & _). split; auto. split.
        { exists bf1, rm1. split; [rewrite <- E; eapply lstep_istep; eauto|]. eapply cur_content; eauto. }
        exists pg2. split; auto. split; auto. eapply world_cons; eauto.
      * right. destruct H as (-> & Yc & pg' & CT & _ & LYc & QIc & CR). split; auto. exists Yc, pg'. split; auto. split; auto.
        split; [eapply crashed_cons; eauto|]. destruct CT as [CT|(-> & d & t & X & _ & CT)]; [left; exact CT|right; split; auto]. rewrite X. exact CT.
  - intros e s1 (-> & Yc & pg' & CT & _ & LYc & QIc & CR). right. split; auto. exists Yc, pg'. split; auto. split; auto. split; [|auto].
    now apply crashed_app.
Qed.

Lemma mfit_bad Y pg : layok NP Y pg -> qinv Y -> y_bad Y = 0 -> forall e, mfit g pg = Err e -> e = ECorrupted /\ NP = 1.
Proof.
  intros LY QI BZ e. unfold mfit. destruct (young_ok g gok Y pg LY QI) as [E|[_ X]]; [|lia]. rewrite E.
  pose proof (lay_ring NP Y pg (npos g gok) LY) as R. pose proof (npos g gok) as N.
  rewrite (nxt_mod g gok). destruct R as (Hf & TOT & HB & _ & ST).
  destruct (Nat.eq_dec (y_c Y + 1) NP) as [E1|E1].
  - replace ((y_f Y + y_c Y + 1) mod NP) with (y_f Y). 2:{ replace (y_f Y + y_c Y + 1) with (y_f Y + 1 * NP) by lia. rewrite Nat.mod_add, Nat.mod_small by lia. auto. }
    rewrite ST by auto. rewrite pos_self by auto. unfold cls. destruct (Nat.ltb_spec 0 (y_c Y)).
    + destruct (emptyish _); discriminate.
    + destruct (0 <? _); [injection 1 as <-; split; auto; lia|]. destruct (Nat.ltb_spec 0 (y_c Y + y_b Y + y_k Y)); [discriminate|lia].
  - replace (y_f Y + y_c Y + 1) with (y_f Y + (y_c Y + 1)) by lia. rewrite ST by (apply mod_lt; auto). rewrite pos_mod; auto.
    + unfold cls. destruct (Nat.ltb_spec (y_c Y + 1) (y_c Y)); [lia|]. destruct (Nat.ltb_spec (y_c Y + 1) (y_c Y + y_b Y)); [lia|].
      destruct (Nat.ltb_spec (y_c Y + 1) (y_c Y + y_b Y + y_k Y)); [discriminate|]. destruct QI as (Q1 & _). exfalso. unfold y_b in *. destruct (y_pt Y); cbn [ptl length] in *; [lia|]. specialize (Q1 eq_refl). lia.
    + pose proof QI as (Q1 & _). unfold y_b in *. destruct (y_pt Y); cbn [ptl length] in *; [lia|]. specialize (Q1 eq_refl). lia.
Qed.
Lemma yspc_bad Y pg : layok NP Y pg -> qinv Y -> y_bad Y = 0 -> forall e, yspc g pg <> Err e.
Proof.
  intros LY QI BZ e. unfold yspc. assert (nobad g pg = true) as ->; [|discriminate]. unfold nobad. apply forallb_forall. intros p Hp.
  apply gp_lt in Hp. pose proof (lay_ring NP Y pg (npos g gok) LY) as (Hf & TOT & HB & _ & ST). rewrite ST by auto. unfold cls.
  pose proof (pos_lt NP (npos g gok) (y_f Y) p Hf Hp). remember (pos NP (y_f Y) p) as i.
  destruct (Nat.ltb_spec i (y_c Y)); auto. destruct (Nat.ltb_spec i (y_c Y + y_b Y)); auto. destruct (Nat.ltb_spec i (y_c Y + y_b Y + y_k Y)); auto. lia.
Qed.

Lemma query_ok {A} (f : res A -> qans) c (q : (nat -> page) -> res A) (m : M unit A) Y pg s a s' :
  (forall pg pg', (forall p, p < NP -> pg p = pg' p) -> q pg = q pg') ->
  (forall Y pg r, layok NP Y pg -> qinv Y -> q pg = r -> r <> Err ECorrupted \/ y_bad Y = 0 -> qdo (content Y) c (f r) (content Y)) ->
  (ws = false -> qdo (content Y) c (f (Err cut)) (content Y)) -> acut c = f (Err cut) ->
  layok NP Y pg -> qinv Y ->
  wp m (fun r s' => qout g ws ae aw q pg Y (s_fl s) (Ok r) s')
    (fun e s' => qout g ws ae aw q pg Y (s_fl s) (Err e) s' \/ q pg = Err ECorrupted /\ ncrash g ws ae aw Y e (s_fl s) (rops g Y) s') s ->
  ans1 f (m s) = (a, s') -> cout c Y (s_fl s) (let '(r, ops, Y') := yq q Y in (f r, ops, Y')) a s'.
Proof.
  intros EXT SPEC CUT EC LY QI H E. unfold ans1 in E. injection E as <- <-. unfold wp in H.
  assert (PG : q pg = q (pgof Y)) by (apply EXT, pgof_ok; auto).
  assert (MAIN : forall r s', qout g ws ae aw q pg Y (s_fl s) r s' -> cout c Y (s_fl s) (let '(r, ops, Y') := yq q Y in (f r, ops, Y')) (f r) s').
  { intros r s' [(-> & NE & L1 & W1)|(CE & pg' & L1 & -> & W1)]; left; unfold yq; rewrite <- PG.
    - destruct (q pg) as [x|e] eqn:EQ; [|destruct e; try congruence]; cbn [fst snd];
       (split; [reflexivity|]; exists pg; split; auto; split; auto; split; auto; eapply SPEC; eauto).
    - rewrite CE. rewrite <- (EXT pg' (pgof (yrep Y))) by (apply pgof_ok; auto). cbn [fst snd]. split; auto. exists pg'. split; auto. split; auto using yrep_qinv. split; auto.
      rewrite <- (yrep_content Y) at 1. eapply SPEC; eauto using yrep_qinv. }
  destruct (m s) as [[x|e] s1]; cbn [fst snd].
  - now apply MAIN.
  - destruct H as [H|(CE & -> & Yc & pg' & CT & _ & LYc & QIc & CR)]; [now apply MAIN|].
    right. split; auto. exists Yc, pg'. split; auto. split; auto. split.
    + unfold yq. rewrite <- PG, CE. exact CR.
    + rewrite CT. apply CUT. apply CR.
Qed.

Theorem call_spec c Y pg s a s' : layok NP Y pg -> qinv Y -> sworld pg s -> single_ok g ws ae -> call_ok c -> q_exec g c s = (a, s') ->
  cout c Y (s_fl s) (yact c Y) a s'.
Proof.
  intros LY QI SW SG CO E. pose proof (pgof_ok Y pg LY) as PG. destruct c as [d ow|b|b|sc| |]; cbn [q_exec yact call_ok] in *.
  - unfold ans1 in E. injection E as <- <-. rewrite <- (isyoung_ext _ _ PG). destruct CO as [DO TO].
    pose proof (wp_q_push g gok ws ae aw Y pg d ow s LY QI SW DO TO SG _ eq_refl) as H. unfold wp in H.
    pose proof (qpush_spec Y d ow pg LY QI (ycap_sw _ _ _ LY SW)) as SP.
    destruct (qpush g (isyoung g pg) Y d ow) as [[r ops] Y']. cbn [fst snd] in H. unfold cout. cbn [fst snd acut].
    destruct (q_push g d ow s) as [[u|e] s1]; cbn [fst snd].
    + destruct H as (-> & pg' & H1 & H2 & H3). left. split; auto. exists pg'. repeat (split; auto). destruct u.
      destruct SP as (NB & dr & q1 & -> & -> & DE & DW). destruct ow; [now eapply DPushOver; eauto|rewrite DE by auto; now apply DPush].
    + destruct H as [(-> & pg' & H1 & H2 & H3)|(-> & Yc & pg' & [[CP _] CR] & LYc & QIc & CC)].
      * left. split; auto. exists pg'. repeat (split; auto). destruct e; try contradiction.
        -- destruct SP as (NB & -> & -> & FU). apply DPushFull; auto. intros HW N2. apply FU; [|apply Nat.leb_le; auto]. eapply clean_sw; eauto. now destruct ws.
        -- destruct SP as (NB & ->). now apply DPushBig.
      * right. split; auto. exists Yc, pg'. repeat (split; auto). assert (HW : ws = false) by apply CC.
        assert (OLD : content Yc = content Y -> qdo (content Y) (QPush d ow) (AUnit (Err cut)) (content Yc)).
        { intros ->. apply (DPushCut _ _ _ _ _ (content Y) d ow [] (content Y)); auto; try (rewrite HW; reflexivity). { unfold QSpec.wt. cbn. lia. } now left. }
        destruct CR as [->|CR]; auto. destruct SP as (NB & dr & q1 & E1 & E2 & DE & DW).
        destruct CP as [CP|CP]; auto. rewrite E2 in CP.
        apply (DPushCut _ _ _ _ _ (content Y) d ow dr q1); auto; try (rewrite HW; reflexivity). destruct CP as [->|CP]; [right; right; now left|].
        apply app_inj_tail in CP. destruct CP as [-> _]. right. now left.
  - unfold ans1 in E. injection E as <- <-. pose proof (one_ok b true Y pg s LY QI SW) as H. unfold wp in H. rewrite <- q_pop_eq in H.
    destruct (yone b true Y) as [[r ops] Y']. unfold cout. cbn [fst snd acut]. destruct (q_pop g b s) as [[x|e] s1]; cbn [fst snd].
    + destruct H as (-> & (bf & rm & IS & ->) & pg' & H1 & H2 & H3). left. split; auto. exists pg'. repeat (split; auto). now apply DPop.
    + destruct H as [(-> & (bf & rm & IS & ->) & pg' & H1 & H2 & H3)|(-> & Yc & pg' & H1 & H2 & CR & CT)].
      * left. split; auto. exists pg'. repeat (split; auto). now apply DPop.
      * right. split; auto. exists Yc, pg'. repeat (split; auto). assert (HW : ws = false) by apply CR. apply DPopCut; [now rewrite HW|].
        destruct CT as [->|[_ ->]]; [now left|right; now left].
  - unfold ans1 in E. injection E as <- <-. pose proof (one_ok b false Y pg s LY QI SW) as H. unfold wp in H. rewrite <- q_peek_eq in H.
    destruct (yone b false Y) as [[r ops] Y']. unfold cout. cbn [fst snd acut]. destruct (q_peek g b s) as [[x|e] s1]; cbn [fst snd].
    + destruct H as (-> & (bf & rm & IS & ->) & pg' & H1 & H2 & H3). left. split; auto. exists pg'. repeat (split; auto). now apply DPeek.
    + destruct H as [(-> & (bf & rm & IS & ->) & pg' & H1 & H2 & H3)|(-> & Yc & pg' & H1 & H2 & CR & CT)].
      * left. split; auto. exists pg'. repeat (split; auto). now apply DPeek.
      * right. split; auto. exists Yc, pg'. repeat (split; auto). assert (HW : ws = false) by apply CR. destruct CT as [->|[X _]]; [|discriminate]. apply DPeekCut. now rewrite HW.
  - unfold ans1 in E. injection E as <- <-.
    destruct (yscript sc (yrep Y) 0 true (ycur Y)) as [[rs ops] Y'] eqn:ES. unfold cout. cbn [fst snd acut].
    assert (H : wp (q_iterate g sc) (fun r s' => r = rs /\ isteps [] (content Y) sc rs (content Y') /\ exists pg', layok NP Y' pg' /\ qinv Y' /\ world pg' (s_fl s) (rops g Y ++ ops) s')
       (fun e s' => iscrash (s_fl s) [] (content Y) sc (rops g Y ++ ops) e s') s).
    { unfold q_iterate. apply wp_bind. eapply wp_mono; [apply (wp_q_iter g gok ws ae aw Y pg s LY QI SW)| |]; cbv beta.
      - intros _ s1 (pg1 & LY1 & W1 & _ & pre & rest & IT & EP & EM). pose proof (iter_cur Y pg1 s1 pre rest IT EP EM) as CU.
        apply (wp_q_script sc (yrep Y) pg1 s1 (s_fl s) (rops g Y) 0 true (ycur Y)); auto using yrep_qinv.
      - intros e s1 (-> & Yc & pg' & CT & _ & LYc & QIc & CR). split; auto. assert (HW : ws = false) by apply CR. split; auto.
        exists [], sc, [], Yc, pg'. split; auto. split. { rewrite CT. constructor. } split; auto. split; auto. now apply crashed_app. }
    unfold wp in H. destruct (q_iterate g sc s) as [[x|e] s1]; cbn [fst snd].
    + destruct H as (-> & IS & pg' & H1 & H2 & H3). left. split; auto. exists pg'. repeat (split; auto). now apply DIter.
    + destruct H as (-> & HW & sc1 & sc2 & rs1 & Yc & pg' & -> & IS & H1 & H2 & CR). right. split; auto. exists Yc, pg'. repeat (split; auto).
      eapply DIterCut; eauto. now rewrite HW.
  - eapply (query_ok AMax QMaxFit (mfit g) (q_max_fit g) Y pg s a s'); auto using mfit_ext.
    + intros Y0 pg0 r L0 Q0 <- H. destruct (mfit g pg0) as [x|e] eqn:EM; [constructor|]. destruct H as [H|H].
      * revert EM H. unfold mfit. destruct (young g pg0) as [c|]; [|congruence]. destruct (st_of _) as [[]|]; try congruence. destruct (emptyish _); congruence.
      * destruct (mfit_bad Y0 pg0 L0 Q0 H e EM) as [-> N1]. apply DMaxFit1. rewrite N1. reflexivity.
    + intros HW. apply DMaxFitCut. now rewrite HW.
    + now apply wp_q_max_fit.
  - eapply (query_ok ANum QSpace (yspc g) (q_space_left g) Y pg s a s'); auto using yspc_ext.
    + intros Y0 pg0 r L0 Q0 <- H. destruct (yspc g pg0) as [x|e] eqn:EM; [constructor|]. destruct H as [H|H].
      * revert EM H. unfold yspc. destruct (nobad g pg0); congruence.
      * now apply (yspc_bad Y0 pg0 L0 Q0 H) in EM.
    + intros HW. apply DSpaceCut. now rewrite HW.
    + now apply wp_q_space_left.
Qed.
End Call.
