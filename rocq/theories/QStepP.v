(** One step of an iteration (advance, perhaps remove), pop and peek, on layouts. *)
From Coq Require Import List NArith ZArith Arith Bool Lia ZifyBool ZifyNat ZifyN.
From Verif Require Import Base BaseP Crc CrcP Flash Cache State Item Generic Queue GeomP ScanP WpP ItemP CalcP PageP WorldP LayP QPushP QRepP QIterP QNextP Client.
Import ListNotations.
Local Opaque crc16 acrc crc32.

(** Replace the slots of the [j]-th used page. *)
Definition yset (Y : lay) (j : nat) (sl : list slot) : lay :=
  if j <? y_c Y then mklay (y_f Y) (list_set (y_cl Y) j sl) (y_pt Y) (y_k Y) (y_bad Y)
  else mklay (y_f Y) (y_cl Y) (Some sl) (y_k Y) (y_bad Y).

Lemma list_set_split {A} (l : list A) j x : j < length l -> list_set l j x = firstn j l ++ x :: skipn (S j) l.
Proof. revert j. induction l as [|a l IH]; intros j H; cbn in H; [lia|]. destruct j; cbn; auto. rewrite IH by lia. reflexivity. Qed.
Lemma split_nth {A} (l : list A) j d : j < length l -> l = firstn j l ++ nth j l d :: skipn (S j) l.
Proof. intros H. rewrite <- (firstn_skipn j l) at 1. f_equal. now apply skipn_nth. Qed.

Lemma yset_uslots Y j sl : j < y_c Y + y_b Y -> uslots (yset Y j sl) = list_set (uslots Y) j sl.
Proof.
  destruct Y as [f cl pt k bad]. unfold yset, uslots, y_c, y_b. cbn [y_f y_cl y_pt y_k y_bad]. intros H.
  destruct (Nat.ltb_spec j (length cl)) as [C|C].
  - cbn [y_f y_cl y_pt y_k y_bad]. rewrite !list_set_split by (rewrite ?app_length; lia). rewrite firstn_app, skipn_app, <- app_assoc.
    replace (j - length cl) with 0 by lia. replace (S j - length cl) with 0 by lia. cbn [firstn skipn app]. now rewrite app_nil_r.
  - destruct pt; cbn [ptl length] in *; [|lia]. assert (j = length cl) as -> by lia. cbn [y_cl y_pt ptl]. rewrite list_set_app. reflexivity.
Qed.
Lemma yset_c Y j sl : y_c (yset Y j sl) = y_c Y.
Proof. unfold yset. destruct (_ <? _); unfold y_c; cbn; auto. apply list_set_length. Qed.
Lemma yset_b Y j sl : j < y_c Y + y_b Y -> y_b (yset Y j sl) = y_b Y.
Proof. unfold yset. intros H. destruct (Nat.ltb_spec j (y_c Y)); unfold y_b in *; cbn; auto. destruct (y_pt Y); cbn in *; lia. Qed.
Lemma yset_f Y j sl : y_f (yset Y j sl) = y_f Y. Proof. unfold yset. destruct (_ <? _); auto. Qed.
Lemma yset_k Y j sl : y_k (yset Y j sl) = y_k Y. Proof. unfold yset. destruct (_ <? _); auto. Qed.
Lemma yset_bad Y j sl : y_bad (yset Y j sl) = y_bad Y. Proof. unfold yset. destruct (_ <? _); auto. Qed.
Lemma yset_qinv Y j sl : j < y_c Y + y_b Y -> qinv Y -> qinv (yset Y j sl).
Proof.
  intros H (Q1 & Q2 & Q3). unfold qinv. rewrite yset_c, yset_b, yset_f, yset_k, yset_bad by auto. split; auto.
  unfold yset. destruct (_ <? _); cbn; auto. discriminate.
Qed.
Lemma yset_before Y j sl pre : j < y_c Y + y_b Y -> before (yset Y j sl) j pre = before Y j pre.
Proof.
  intros H. unfold before. rewrite yset_uslots, list_set_split by (rewrite ?uslots_len; auto). f_equal. f_equal.
  rewrite firstn_app, firstn_firstn, Nat.min_id. assert (L : length (firstn j (uslots Y)) = j) by (apply firstn_length_le; rewrite uslots_len; lia).
  rewrite L, Nat.sub_diag. cbn. now rewrite app_nil_r.
Qed.
Lemma yset_later Y j sl : j < y_c Y + y_b Y -> later (yset Y j sl) j = later Y j.
Proof.
  intros H. unfold later. rewrite yset_uslots, list_set_split by (rewrite ?uslots_len; auto).
  assert (L : length (firstn j (uslots Y)) = j) by (apply firstn_length_le; rewrite uslots_len; lia).
  rewrite skipn_app, L. rewrite skipn_all2 by lia. replace (S j - j) with 1 by lia. reflexivity.
Qed.
Lemma yset_nth Y j sl : j < y_c Y + y_b Y -> nth j (uslots (yset Y j sl)) [] = sl.
Proof.
  intros H. rewrite yset_uslots by auto. rewrite nth_list_set, Nat.eqb_refl. rewrite uslots_len.
  assert (j <? y_c Y + y_b Y = true) as -> by now apply Nat.ltb_lt. reflexivity.
Qed.
Definition yall (P : slot -> Prop) (Y : lay) : Prop := Forall (Forall P) (uslots Y).
Lemma yset_all P Y j sl : j < y_c Y + y_b Y -> yall P Y -> Forall P sl -> yall P (yset Y j sl).
Proof.
  intros H A B. unfold yall in *. rewrite yset_uslots, list_set_split by (rewrite ?uslots_len; auto).
  rewrite (split_nth (uslots Y) j []) in A by (rewrite uslots_len; auto). apply Forall_app in A. destruct A as [A1 A2]. apply Forall_app. split; auto.
  inversion A2; subst. constructor; auto.
Qed.
Lemma yall_nth P Y j : yall P Y -> Forall P (nth j (uslots Y) []).
Proof.
  intros A. destruct (Nat.lt_ge_cases j (length (uslots Y))) as [H|H].
  - eapply Forall_forall in A; [exact A|]. now apply nth_In.
  - rewrite nth_overflow by auto. constructor.
Qed.

Lemma lay_set n Y pg j sl : 1 <= n -> layok n Y pg -> j < y_c Y + y_b Y ->
  layok n (yset Y j sl) (upd pg ((y_f Y + j) mod n) (with_slots (pg ((y_f Y + j) mod n)) sl)).
Proof.
  intros N LY H. destruct Y as [f cl pt k bad]. unfold yset, y_c, y_b in *. cbn [y_f y_cl y_pt y_k y_bad] in *.
  destruct (Nat.ltb_spec j (length cl)) as [C|C].
  - rewrite list_set_split by auto. rewrite (split_nth cl j []) in LY by auto.
    assert (L : length (firstn j cl) = j) by (apply firstn_length_le; lia).
    pose proof (lay_at_cl n f (firstn j cl) (nth j cl []) (skipn (S j) cl) pt k bad pg LY) as PJ. rewrite L in PJ. rewrite PJ. cbn [with_slots].
    destruct LY as [L0 B]. split; auto. unfold pages in *. cbn [y_f y_cl y_pt y_k y_bad] in *. rewrite !map_app in *. cbn [map] in *. rewrite <- !app_assoc in *. cbn [app] in *.
    replace j with (length (map PClosed (firstn j cl))) at 3 by (rewrite map_length; auto). eapply lay0_upd_app; eauto.
  - destruct pt as [sl0|]; cbn [ptl length] in *; [|lia]. assert (j = length cl) as -> by lia.
    rewrite (lay_at_part n f cl sl0 k bad pg LY). cbn [with_slots]. eapply lay_part; eauto.
Qed.

(** Leading slots without an item do not matter to the iterator. *)
Fixpoint strip (l : list slot) : list slot :=
  match l with [] => [] | x :: t => if skipped is_erased_hdr x then strip t else l end.
Lemma strip_split l : exists a, l = a ++ strip l /\ emptyish a = true.
Proof.
  induction l as [|x l IH]; [now exists []|]. cbn [strip]. destruct (skipped is_erased_hdr x) eqn:E; [|now exists []].
  destruct IH as (a & IH & Ea). exists (x :: a). cbn [app]. rewrite <- IH. split; auto. unfold emptyish in *. cbn [forallb]. now rewrite E, Ea.
Qed.
Lemma strip_app a l : emptyish a = true -> strip (a ++ l) = strip l.
Proof.
  induction a as [|x a IH]; auto. unfold emptyish. cbn [forallb app strip]. intros H. apply andb_true_iff in H. destruct H as [H1 H2]. rewrite H1. auto.
Qed.
Lemma strip_hd x l : skipped is_erased_hdr x = false -> strip (x :: l) = x :: l.
Proof. intros H. cbn. now rewrite H. Qed.

Section Step.
Context (g : geom) (gok : geom_ok g) (ws ae : bool) (aw : nat).
Notation W := (W g).
Notation HL := (HL g).
Notation rup := (rup g).
Notation NP := (NP g).
Notation st := (st unit).
Implicit Types (s : st) (pg : nat -> page) (Y : lay).
Notation world := (world g ws ae aw).
Notation crashed := (crashed g ws ae aw).
Notation sworld := (sworld g ws ae aw).
Notation itr := (itr g).
Notation nout := (nout g ws ae aw).
Notation ncrash := (ncrash g ws ae aw).
Notation nspec := (nspec g).
Notation ydrops := (ydrops g).
Notation search := (search g).
Notation q_step := (q_step g).

Lemma search_strip B l : search B l = search B (strip l).
Proof. destruct (strip_split l) as (a & E & Ea). rewrite E at 1. now apply search_skip. Qed.
Lemma search_small B l n rs : search B l = NSmall n rs -> B < n /\ exists x t, rs = x :: t /\ skipped is_erased_hdr x = false /\
  (exists a, l = a ++ rs) /\ ssize g x = HL + n /\ (clean x -> exists d, x = SLive d /\ n = rup (length d)).
Proof.
  induction l as [|x l IH]; cbn [QIterP.search]; [discriminate|].
  assert (R : search B l = NSmall n rs -> B < n /\ exists x0 t, rs = x0 :: t /\ skipped is_erased_hdr x0 = false /\
     (exists a, x :: l = a ++ rs) /\ ssize g x0 = HL + n /\ (clean x0 -> exists d, x0 = SLive d /\ n = rup (length d))).
  { intros H. destruct (IH H) as (A & x0 & t & B1 & B2 & (a & B3) & B4 & B5). split; auto. exists x0, t. repeat (split; auto). exists (x :: a). cbn. now rewrite B3. }
  destruct x as [d|k|k c|]; auto.
  - destruct (Nat.leb_spec (rup (length d)) B) as [C|C]; [discriminate|]. injection 1 as <- <-. split; auto. exists (SLive d), l.
    split; [reflexivity|]. split; [reflexivity|]. split; [now exists []|]. split; [reflexivity|]. intros _. exists d. auto.
  - destruct (Nat.leb_spec (rup k) B) as [C|C]; auto. injection 1 as <- <-. split; auto. exists (SCorr k c), l.
    split; [reflexivity|]. split; [reflexivity|]. split; [now exists []|]. split; [reflexivity|]. intros [].
Qed.
Lemma search_found B l d post : search B l = NFound d post -> rup (length d) <= B.
Proof.
  induction l as [|x l IH]; cbn [QIterP.search]; [discriminate|]. destruct x as [d0|k|k c|]; auto.
  - destruct (Nat.leb_spec (rup (length d0)) B) as [C|C]; [|discriminate]. now injection 1 as <- <-.
  - destruct (Nat.leb_spec (rup k) B) as [C|C]; auto. discriminate.
Qed.
Lemma nspec_search B ap p rest later nr ops i : nspec B ap p rest later = (nr, ops, i) -> nr <> NNone ->
  exists l, search B l = nr.
Proof.
  revert p rest nr ops i. induction later as [|sl t IH]; intros p rest nr ops i; cbn [QIterP.nspec].
  - destruct (search B rest) eqn:E; injection 1 as <- <- <-; intros; eauto.
  - destruct (search B rest) eqn:E.
    + injection 1 as <- <- <-; intros; eauto.
    + destruct (nspec B ap (next_page g p) sl t) as [[r L] i0] eqn:E2. injection 1 as <- <- <-. intros. eapply IH; eauto.
    + injection 1 as <- <- <-; intros; eauto.
Qed.

Definition cur Y pg (qi : qiter) (j : nat) (ap : bool) (c : list slot) (bf rm : list (list N)) : Prop :=
  exists pre rest, itr Y pg qi j pre rest /\ strip rest = c /\ isap (qi_prev qi) = ap /\ bf = before Y j pre /\ rm = remain Y j rest.

Definition ystep (B : nat) (pop : bool) Y (j : nat) (ap : bool) (c : list slot) : res (option (list N)) * list dop * (lay * nat * bool * list slot) :=
  let '(nr, ops, i) := nspec B ap ((y_f Y + j) mod NP) c (later Y j) in
  let Y' := if ap then ydrops i Y else Y in
  let j' := if ap then 0 else j + i in
  match nr with
  | NFound d post =>
      let sl := nth j' (uslots Y') [] in
      let pre0 := firstn (length sl - S (length post)) sl in
      if pop then (Ok (Some d), ops ++ [erase_op g (dstart g ((y_f Y' + j') mod NP) + sizes g pre0) d],
                   (yset Y' j' (pre0 ++ SDead (length d) :: post), j', ap, strip post))
      else (Ok (Some d), ops, (Y', j', false, strip post))
  | NNone => (Ok None, ops, (Y', j', ap, []))
  | NSmall n rs => (Err (EBufTooSmall n), ops, (Y', j', ap, rs))
  end.

(** What a step does to the list of items: [bf] passed and kept, [rm] still ahead. *)
Definition lstep (cl : Prop) (B : nat) (pop : bool) (bf rm : list (list N)) (r : res (option (list N))) (bf' rm' : list (list N)) : Prop :=
  match r with
  | Ok (Some d) => rm = d :: rm' /\ bf' = (if pop then bf else bf ++ [d]) /\ rup (length d) <= B
  | Ok None => rm = [] /\ rm' = [] /\ bf' = bf
  | Err e => bf' = bf /\ rm' = rm /\ exists n, e = EBufTooSmall n /\ B < n /\ HL + n <= cap g /\
      (cl -> exists d t, rm = d :: t /\ n = rup (length d))
  end.

Definition sout (f0 : flash) (B : nat) (pop : bool) Y bf rm (O : res (option (list N)) * list dop * (lay * nat * bool * list slot)) (r : res (option (list N))) s : Prop :=
  let '(r0, ops, (Y', j', ap', c')) := O in
  r = r0 /\ exists pg' bf' rm', layok NP Y' pg' /\ qinv Y' /\ y_bad Y' = 0 /\ world pg' f0 ops s /\ length (s_buf s) = B /\
    cur Y' pg' (s_qi s) j' ap' c' bf' rm' /\ lstep (yall clean Y) B pop bf rm r bf' rm' /\
    (forall P : slot -> Prop, (forall n, P (SDead n)) -> yall P Y -> yall P Y').
Definition scrash (f0 : flash) (B : nat) (pop : bool) Y bf rm (ops : list dop) (e : err) s : Prop :=
  e = EStorage SShutoff /\ exists Yc pg', (content Yc = bf ++ rm \/ (pop = true /\ exists d t, rm = d :: t /\ rup (length d) <= B /\ content Yc = bf ++ t)) /\
    (forall B, ysmall g B Y -> ysmall g B Yc) /\ layok NP Yc pg' /\ qinv Yc /\ crashed pg' f0 ops s.

Lemma cur_content Y pg qi j ap c bf rm : cur Y pg qi j ap c bf rm -> content Y = bf ++ rm.
Proof. intros (pre & rest & (J & E & _) & _ & _ & -> & ->). now apply split_content. Qed.

Lemma ydrops_all P i Y : yall P Y -> yall P (ydrops i Y).
Proof.
  unfold yall, QIterP.ydrops, uslots. destruct Y as [f cl pt k bad]. cbn [y_f y_cl y_pt y_k y_bad]. rewrite !Forall_app. intros [H1 H2]. split; auto.
  rewrite Forall_forall in *. intros x Hx. apply H1. eapply in_skipn; eauto.
Qed.

Lemma wp_put_qi1 q (Q : unit -> st -> Prop) (E : err -> st -> Prop) s : Q tt (set_qi s q) -> wp (put_qi q) Q E s.
Proof. auto. Qed.

Lemma wp_q_step B pop Y pg s j ap c bf rm :
  layok NP Y pg -> qinv Y -> y_bad Y = 0 -> sworld pg s -> cur Y pg (s_qi s) j ap c bf rm -> length (s_buf s) = B ->
  forall O, O = ystep B pop Y j ap c ->
  wp (q_step pop) (fun r s' => sout (s_fl s) B pop Y bf rm O (Ok r) s')
     (fun e s' => sout (s_fl s) B pop Y bf rm O (Err e) s' \/ scrash (s_fl s) B pop Y bf rm (snd (fst O)) e s') s.
Proof.
  intros LY QI BZ SW CU LB O EO. pose proof (npos g gok) as N. pose proof (cur_content _ _ _ _ _ _ _ _ CU) as CC.
  destruct CU as (pre & rest & IT & Es & Eap & Ebf & Erm).
  unfold q_step. apply wp_bind.
  remember (nspec B ap ((y_f Y + j) mod NP) c (later Y j)) as R eqn:ER.
  assert (ER' : R = nspec B (isap (qi_prev (s_qi s))) ((y_f Y + j) mod NP) rest (later Y j)).
  { rewrite ER, Eap. apply nspec_none. rewrite <- Es. symmetry. apply search_strip. }
  eapply wp_mono; [apply (wp_q_next g gok ws ae aw Y pg s j pre rest B LY QI BZ SW IT LB R ER')| |]; cbv beta.
  - intros r s1 H. unfold ystep in EO. rewrite <- ER in EO. unfold QIterP.nout in H. rewrite isap_unabc, Eap in H. destruct R as [[nr ops] i].
    set (Y' := if ap then ydrops i Y else Y) in *. set (j' := if ap then 0 else j + i) in *.
    destruct H as (pg' & pre' & rest' & LY' & QI' & W' & IT' & LB' & CT & H). rewrite app_nil_l in W'.
    assert (BZ' : y_bad Y' = 0) by (unfold Y'; destruct ap; auto).
    assert (AL : forall P, yall P Y -> yall P Y') by (intros P; unfold Y'; destruct ap; auto using ydrops_all).
    destruct nr as [d post| |n rs].
    + destruct H as (pre0 & Ep & Erest & Er & Ed & Ld & Epv & Eb & Erm'). injection Er as ->. subst pre' rest'.
      pose proof IT' as (IJ & IE & I0 & I1 & I2 & I3 & I4). rewrite <- app_assoc in IE. cbn [app] in IE.
      assert (J2 : j' < y_c Y' + y_b Y').
      { destruct (Nat.lt_ge_cases j' (y_c Y' + y_b Y')); auto. rewrite nth_overflow in IE by (rewrite uslots_len; lia). destruct pre0; discriminate. }
      assert (FP : firstn (length (nth j' (uslots Y') []) - S (length post)) (nth j' (uslots Y') []) = pre0).
      { rewrite IE, app_length. cbn [length]. replace (length pre0 + S (length post) - S (length post)) with (length pre0 + 0) by lia. rewrite firstn_app_2. cbn. apply app_nil_r. }
      rewrite FP in EO.
      destruct (nspec_search B ap _ _ _ _ _ _ (eq_sym ER) ltac:(discriminate)) as (l0 & Sl0). apply search_found in Sl0.
      destruct pop.
      * (* remove it *)
        set (p' := (y_f Y' + j') mod NP) in *.
        assert (Hq : p' < NP) by (apply mod_lt; auto).
        destruct (it_page g gok aw Y' pg' j' (pre0 ++ [SLive d]) post LY' IJ ltac:(rewrite <- app_assoc; exact IE) QI') as [[PU PS]|(_ & RZ & _)]; [|destruct pre0; discriminate].
        fold p' in PU, PS. rewrite <- app_assoc in PS. cbn [app] in PS.
        set (pv := if ap then AllPopped else Unpopped).
        set (qi2 := mkqi (qi_next (s_qi s1)) pv (qi_oldest (s_qi s1))).
        assert (POP : wp (erase_data g (ihdr d) (dstart g p' + sizes g pre0) ;;; c_unmark)
          (fun _ s2 => wp (d0 <- entry_data (ihdr d) ;; ret (Some d0)) (fun r s' => sout (s_fl s) B true Y bf rm O (Ok r) s')
             (fun e s' => sout (s_fl s) B true Y bf rm O (Err e) s' \/ scrash (s_fl s) B true Y bf rm (snd (fst O)) e s') s2)
          (fun e s' => sout (s_fl s) B true Y bf rm O (Err e) s' \/ scrash (s_fl s) B true Y bf rm (snd (fst O)) e s') (set_qi s1 qi2)).
        { apply wp_bind. apply (wp_erase_item g gok ws ae aw p' (ihdr d) d pre0 post _ pg' (s_fl s) ops); auto.
          - intros s2 W2 FR _. apply wp_unmark1. destruct FR as (F1 & F2 & _). cbn [s_buf s_qi set_qi] in F1, F2.
            assert (BF : firstn (length d) (s_buf s2) = d) by (rewrite F1; exact Ed).
            apply wp_bind. unfold entry_data. apply wp_get_buf. apply wp_ret. apply wp_ret. change (h_len (ihdr d)) with (length d). cbn [s_buf set_ca]. subst O. cbn [sout]. rewrite BF. split; auto.
            set (Y2 := yset Y' j' (pre0 ++ SDead (length d) :: post)).
            exists (upd pg' p' (with_slots (pg' p') (pre0 ++ SDead (length d) :: post))), (before Y' j' pre0), (remain Y' j' post).
            split. { apply lay_set; auto. } split. { apply yset_qinv; auto. } split. { unfold Y2. now rewrite yset_bad. }
            split. { apply world_unmark. exact W2. } split. { cbn [s_buf set_ca]. rewrite F1. exact LB'. }
            split.
            { exists (pre0 ++ [SDead (length d)]), post. cbn [s_qi set_ca]. rewrite F2.
              assert (BE : before Y2 j' (pre0 ++ [SDead (length d)]) = before Y' j' pre0).
              { unfold Y2. rewrite yset_before by auto. unfold before. rewrite live_app. cbn [live_of flat_map app]. now rewrite app_nil_r. }
              assert (RE : remain Y2 j' post = remain Y' j' post).
              { unfold remain. fold (later Y2 j') (later Y' j'). unfold Y2. now rewrite yset_later. }
              split; [|split; auto; split; [unfold qi2, pv; destruct ap; reflexivity|split; auto]].
              assert (SZ : sizes g (pre0 ++ [SDead (length d)]) = sizes g (pre0 ++ [SLive d])) by (rewrite !sizes_app; reflexivity).
              split. { unfold Y2. rewrite yset_c, yset_b by auto. exact IJ. } split. { unfold Y2. rewrite yset_nth by auto. now rewrite <- app_assoc. }
              unfold Y2. rewrite yset_f. rewrite SZ. unfold qi2. cbn [qi_next qi_prev qi_oldest]. split; [exact I0|].
              split; [|split; [|split; [exact I3|]]].
              - intros X. unfold pv in X. destruct ap; [|discriminate]. split; auto. rewrite live_app. cbn [live_of flat_map app]. rewrite app_nil_r.
                destruct I2 as (_ & p1 & x1 & X1 & X2). { rewrite Epv. destruct (qi_prev (s_qi s)); try discriminate. reflexivity. }
                apply app_inj_tail in X1. destruct X1 as [-> _]. exact X2.
              - unfold pv. destruct ap; discriminate.
              - destruct I4 as [I4|I4]; auto. right. unfold upd. destruct (Nat.eqb_spec (qi_oldest (s_qi s1)) p') as [Eq|]; auto. rewrite Eq in I4. rewrite I4 in PU. contradiction. }
            split. { cbn [lstep]. split; [congruence|]. split; auto. congruence. }
            intros P HP HY. unfold Y2. apply yset_all; auto. apply AL in HY. apply (yall_nth _ _ j') in HY. rewrite IE in HY.
            apply Forall_app in HY. destruct HY as [H1 H2]. apply Forall_app. split; auto. inversion H2; subst. constructor; auto.
          - intros s2 y Hy CR. right. split; auto. exists (yset Y' j' (pre0 ++ y :: post)), (upd pg' p' (with_slots (pg' p') (pre0 ++ y :: post))).
            assert (CS : content (yset Y' j' (pre0 ++ y :: post)) = before Y' j' pre0 ++ live_of [y] ++ remain Y' j' post).
            { rewrite (split_content _ j' pre0 (y :: post)).
              - rewrite yset_before by auto. f_equal. unfold remain. fold (later (yset Y' j' (pre0 ++ y :: post)) j') (later Y' j'). rewrite yset_later by auto.
                change (y :: post) with ([y] ++ post). now rewrite live_app, <- app_assoc.
              - rewrite yset_c, yset_b by auto. exact IJ.
              - now rewrite yset_nth. }
            split. { rewrite CS, Eb, <- Ebf. destruct Hy as [->|[->|[c0 ->]]]; cbn [live_of flat_map app].
              - left. congruence.
              - right. split; auto. exists d, (remain Y' j' post). split; [congruence|]. split; [congruence|]. auto.
              - right. split; auto. exists d, (remain Y' j' post). split; [congruence|]. split; [congruence|]. auto. }
            split. { intros B0 HB. change (yall (fits_buf g B0) (yset Y' j' (pre0 ++ y :: post))). apply yset_all; auto. apply AL in HB.
              apply (yall_nth _ _ j') in HB. rewrite IE in HB. apply Forall_app in HB. destruct HB as [H1 H2]. apply Forall_app. split; auto. inversion H2; subst. constructor; auto.
              destruct Hy as [->|[->|[c0 ->]]]; auto. exact I. }
            split. { apply lay_set; auto. } split. { apply yset_qinv; auto. } subst O. exact CR. }
        apply wp_bind. unfold q_entry_pop. apply wp_get_qi. apply wp_bind.
        unfold qi2, pv in POP. rewrite Epv in *. destruct (qi_prev (s_qi s)) eqn:EPV; cbn [unabc after_next isap] in *; subst ap.
        -- apply wp_put_qi1. exact POP.
        -- apply wp_ret. replace s1 with (set_qi s1 (mkqi (qi_next (s_qi s1)) Unpopped (qi_oldest (s_qi s1)))); [exact POP|]. rewrite <- Epv. destruct s1 as [? ? ? [? ? ?] ?]. reflexivity.
        -- apply wp_ret. replace s1 with (set_qi s1 (mkqi (qi_next (s_qi s1)) Unpopped (qi_oldest (s_qi s1)))); [exact POP|]. rewrite <- Epv. destruct s1 as [? ? ? [? ? ?] ?]. reflexivity.
      * apply wp_bind. apply wp_ret. apply wp_bind. unfold entry_data. apply wp_get_buf. apply wp_ret. apply wp_ret. subst O. unfold sout. change (h_len (ihdr d)) with (length d). rewrite Ed. split; auto.
        exists pg', (before Y' j' (pre0 ++ [SLive d])), (remain Y' j' post). split; auto. split; auto. split; auto. split; auto. split; auto.
        split. { exists (pre0 ++ [SLive d]), post. split; auto. split; auto. split; auto. rewrite Epv. destruct (qi_prev (s_qi s)); reflexivity. }
        split; auto. cbn [lstep]. split; [congruence|]. split; auto. rewrite Ebf, <- Eb. unfold before. rewrite live_app, app_assoc. reflexivity.
    + destruct H as (Er & -> & Epv & Eb & Er1 & Er2). injection Er as ->. apply wp_ret. subst O. cbn [sout]. split; auto.
      exists pg', (before Y' j' pre'), (remain Y' j' []). split; auto. split; auto. split; auto. split; auto. split; auto.
      split. { exists pre', []. split; auto. split; auto. split; auto. rewrite Epv, isap_unabc. auto. }
      split; auto. cbn [lstep]. split; [congruence|]. split; auto. congruence.
    + destruct H as (Er & _). discriminate.
  - intros e s1 [H|H].
    + left. unfold ystep in EO. rewrite <- ER in EO. unfold QIterP.nout in H. rewrite isap_unabc, Eap in H. destruct R as [[nr ops] i].
      set (Y' := if ap then ydrops i Y else Y) in *. set (j' := if ap then 0 else j + i) in *.
      destruct H as (pg' & pre' & rest' & LY' & QI' & W' & IT' & LB' & CT & H). rewrite app_nil_l in W'.
      assert (BZ' : y_bad Y' = 0) by (unfold Y'; destruct ap; auto).
      assert (AL : forall P, yall P Y -> yall P Y') by (intros P; unfold Y'; destruct ap; auto using ydrops_all).
      destruct nr as [d post| |n rs].
      * destruct H as (pre0 & _ & _ & Er & _). discriminate.
      * destruct H as (Er & _). discriminate.
      * destruct H as (Er & Epv & Eb & Er' & l & El & Em). injection Er as ->.
        destruct (nspec_search B ap _ _ _ _ _ _ (eq_sym ER) ltac:(discriminate)) as (l0 & Sl0). apply search_small in Sl0.
        destruct Sl0 as (BN & x & t & Ers & Sx & _ & SZ & CL). pose proof IT' as (IJ & IE & _).
        subst O. cbn [sout]. split; auto.
        exists pg', (before Y' j' pre'), (remain Y' j' rest'). split; auto. split; auto. split; auto. split; auto. split; auto.
        split. { exists pre', rest'. split; auto. split. { rewrite El, strip_app by auto. rewrite Ers. now apply strip_hd. } split; auto. rewrite Epv, isap_unabc. auto. }
        split; auto. cbn [lstep]. split; [congruence|]. split; [congruence|]. exists n. split; auto. split; auto. split.
        -- (* it lies in the page *)
           destruct (it_page g gok aw Y' pg' j' pre' rest' LY' IJ IE QI') as [[PU PS]|(_ & _ & RZ & _)]; [|rewrite El, Ers in RZ; destruct l; discriminate].
           assert (Hq : (y_f Y' + j') mod NP < NP) by (apply mod_lt; auto).
           pose proof (used_body g ws ae aw pg' (s_fl s1) _ (proj1 (proj2 W')) Hq PU) as BD. rewrite PS in BD.
           pose proof (body_seg g gok ws (s_fl s1) _ _ BD) as (_ & SZ' & _). rewrite El, Ers, !sizes_app, sizes_cons, SZ in SZ'. lia.
        -- intros CY. apply AL in CY. apply (yall_nth _ _ j') in CY. rewrite IE, El, Ers in CY. apply Forall_app in CY. destruct CY as [_ CY]. apply Forall_app in CY. destruct CY as [_ CY].
           inversion CY; subst x0 l1. destruct (CL H1) as (d & -> & Hn). exists d. rewrite Erm, <- Er', El, Ers. unfold remain. rewrite live_app, (emptyish_live l Em). cbn [live_of flat_map app]. eexists. split; [reflexivity|auto].
    + right. destruct H as (He & Yc & pg' & C1 & C2 & C3 & C4 & C5). split; auto. exists Yc, pg'. split. { left. congruence. } split; auto. split; auto. split; auto.
      assert (exists L2, snd (fst O) = nops R ++ L2) as (L2 & ->); [|now apply crashed_app].
      rewrite EO. unfold ystep. rewrite <- ER. destruct R as [[nr ops] i]. unfold nops. cbn [fst snd].
      destruct nr; [destruct pop| |]; cbn [fst snd]; try (exists []; now rewrite app_nil_r). eexists. reflexivity.
Qed.
End Step.
