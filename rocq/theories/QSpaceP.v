(** What [space_left] says about the contents of a queue. *)
From Coq Require Import List NArith ZArith Arith Bool Lia ZifyBool ZifyNat ZifyN Permutation.
From Verif Require Import Base BaseP Crc CrcP Flash Cache State Item Generic Queue GeomP ScanP WpP ItemP CalcP PageP WorldP LayP QPushP QRepP QIterP QNextP QStepP QMiscP QCallP Client QSpec QObs QHistP QPropsP CapSpec QCapP.
Import ListNotations.
Local Opaque crc16 acrc crc32.

Lemma map_nodup {A B} (f : A -> B) l : NoDup l -> (forall x y, In x l -> In y l -> f x = f y -> x = y) -> NoDup (map f l).
Proof.
  induction 1 as [|a l NI ND IH]; intros INJ; cbn; constructor.
  - intros I. apply in_map_iff in I. destruct I as (y & E & I). apply NI. rewrite <- (INJ y a); auto; [now right|now left].
  - apply IH. intros; apply INJ; auto; now right.
Qed.
Section QSpace.
Context (g : geom) (gok : geom_ok g).
Notation HL := (HL g).
Notation rup := (rup g).
Notation NP := (NP g).
Implicit Types (Y : lay) (pg : nat -> page).
Notation room1 := (item_room g).

Lemma pages_perm f : f < NP -> Permutation (get_pages g f) (get_pages g 0).
Proof.
  intros Hf. pose proof (npos g gok) as NPOS. assert (ND : forall a, a < NP -> NoDup (get_pages g a)).
  { intros a Ha. unfold get_pages. apply map_nodup; [apply seq_NoDup|]. intros x y Hx Hy E. apply in_seq in Hx, Hy.
    rewrite (Nat.add_comm x), (Nat.add_comm y) in E. apply (f_equal (pos NP a)) in E. rewrite !(pos_mod NP NPOS) in E by lia. exact E. }
  apply NoDup_Permutation_bis; auto.
  - unfold get_pages. rewrite !map_length. lia.
  - intros p I. apply in_map_iff. exists p. assert (p < NP) by (eapply gp_lt; eauto). rewrite Nat.add_0_r, Nat.mod_small by auto. split; auto. apply in_seq. lia.
Qed.
Lemma sum_perm l l' : Permutation l l' -> list_sum l = list_sum l'.
Proof. unfold list_sum. induction 1; cbn in *; lia. Qed.
Lemma spaces_pages Y pg : layok NP Y pg -> spaces g pg (get_pages g 0) = list_sum (map (spc g) (pages Y)).
Proof.
  intros LY. pose proof LY as [(Hf & LL & HP) B]. unfold spaces. rewrite <- (sum_perm _ _ (Permutation_map _ (pages_perm (y_f Y) Hf))). f_equal.
  unfold get_pages. rewrite map_map. transitivity (map (spc g) (map (fun x => pg ((x + y_f Y) mod NP)) (seq 0 NP))); [now rewrite map_map|]. f_equal. apply (nth_ext _ _ POpen POpen); [rewrite map_length, seq_length; auto|].
  rewrite map_length, seq_length. intros i Hi. rewrite (nth_indep _ POpen (pg ((0 + y_f Y) mod NP))) by now rewrite map_length, seq_length.
  rewrite (map_nth (fun x => pg ((x + y_f Y) mod NP)) (seq 0 NP) 0 i), seq_nth by auto. cbn. rewrite Nat.add_comm. apply HP. lia.
Qed.

Lemma live_sizes_le sl : list_sum (map room1 (live_of sl)) <= sizes g sl.
Proof.
  unfold sizes. induction sl as [|x sl IH]; [cbn; lia|]. unfold live_of in *. cbn [flat_map]. rewrite map_app, list_sum_app. cbn [map list_sum fold_right].
  change (list_sum (?a :: ?b)) with (a + list_sum b). destruct x; cbn [map list_sum fold_right]; unfold item_room, ssize in *; cbn [list_sum fold_right] in *; unfold list_sum in *; cbn in *; lia.
Qed.
Lemma emptyish_live sl : emptyish sl = true -> live_of sl = [].
Proof. induction sl as [|x sl IH]; auto. cbn. intros H. apply andb_true_iff in H. destruct H as [H1 H2]. unfold live_of in *. rewrite IH by auto. destruct x; auto; discriminate. Qed.
Lemma spc_live x : sizes g (slots_of x) <= cap g -> spc g x + list_sum (map room1 (live_of (slots_of x))) <= cap g.
Proof.
  intros H. pose proof (live_sizes_le (slots_of x)) as L. destruct x as [sl|sl| | |X|X sl]; cbn [spc slots_of] in *; try (cbn; lia).
  - destruct (emptyish sl) eqn:E; [|lia]. rewrite (emptyish_live _ E). cbn. lia.
  - destruct (Nat.leb_spec HL (cap g - sizes g sl)); [lia|]. destruct (emptyish sl) eqn:E; [|lia]. rewrite (emptyish_live _ E). cbn. lia.
Qed.
Lemma content_pages Y : content Y = flat_map (fun x => live_of (slots_of x)) (pages Y).
Proof.
  unfold content, pages, uslots. rewrite !flat_map_app. rewrite !flat_map_concat_map, !map_map.
  assert (X : forall n, concat (map (fun x => live_of (slots_of x)) (repeat POpen n)) = [] /\ concat (map (fun x => live_of (slots_of x)) (repeat PBad n)) = []).
  { induction n; cbn; auto. } rewrite (proj1 (X _)), (proj2 (X _)), !app_nil_r. reflexivity.
Qed.
Lemma space_content ws ae aw Y pg (s : st unit) n : layok NP Y pg -> sworld g ws ae aw pg s -> yspc g pg = Ok n -> n + list_sum (map room1 (content Y)) <= NP * cap g.
Proof.
  intros LY SW S. unfold yspc in S. destruct (nobad g pg); [|discriminate]. injection S as <-. rewrite (spaces_pages Y pg LY), content_pages.
  pose proof LY as [(Hf & LL & HP) B]. replace (NP * cap g) with (length (pages Y) * cap g) by now rewrite LL.
  assert (A : Forall (fun x => sizes g (slots_of x) <= cap g) (pages Y)).
  { apply Forall_forall. intros x I. apply (In_nth _ _ POpen) in I. destruct I as (i & Hi & <-). rewrite LL in Hi. rewrite <- HP by auto.
    set (p := (y_f Y + i) mod NP). assert (Hp : p < NP) by (apply mod_lt; auto).
    pose proof (lay_nojunk NP Y pg p ltac:(lia) LY Hp) as NJ.
    destruct (pg p) as [sl|sl| | |X|X sl] eqn:E; try contradiction; try (change (sizes g (slots_of _)) with 0; lia).
    all: assert (U : used (pg p)) by (rewrite E; exact I); pose proof (used_body g ws ae aw pg (s_fl s) p (proj1 SW) Hp U) as BB;
      pose proof (body_seg g gok ws _ _ _ BB) as (_ & SS & _); rewrite E in SS; exact SS. }
  clear -A. induction A as [|x l H _ IH]; cbn [map flat_map length]; [cbn; lia|]. rewrite map_app, list_sum_app. pose proof (spc_live x H).
  change (list_sum (?a :: ?b)) with (a + list_sum b). lia.
Qed.

(** Taking items out never lowers it. *)
Definition sp Y : nat := list_sum (map (spc g) (pages Y)).
Lemma sp_eq Y : sp Y = list_sum (map (fun sl => spc g (PClosed sl)) (y_cl Y)) + list_sum (map (fun sl => spc g (PPart sl)) (ptl (y_pt Y))) + y_k Y * cap g.
Proof.
  unfold sp, pages. rewrite !map_app, !list_sum_app, !map_map. rewrite <- !Nat.add_assoc. f_equal. f_equal.
  assert (X : forall n, list_sum (map (spc g) (repeat POpen n)) = n * cap g /\ list_sum (map (spc g) (repeat PBad n)) = 0).
  { induction n as [|n [I1 I2]]; [auto|]. unfold list_sum in *. cbn [repeat map fold_right]. rewrite I1, I2. cbn [spc]. lia. }
  rewrite (proj1 (X _)), (proj2 (X _)). lia.
Qed.
Lemma sp_drops i Y : i <= y_c Y -> sp Y <= sp (ydrops g i Y).
Proof.
  intros Hi. rewrite !sp_eq. unfold ydrops, y_c in *. cbn [y_cl y_pt y_k]. rewrite <- (firstn_skipn i (y_cl Y)) at 1. rewrite map_app, list_sum_app.
  assert (list_sum (map (fun sl => spc g (PClosed sl)) (firstn i (y_cl Y))) <= i * cap g); [|lia].
  rewrite <- (firstn_length_le (y_cl Y) Hi) at 2. generalize (firstn i (y_cl Y)). induction l as [|x l IH]; [cbn; lia|]. cbn [map length].
  change (list_sum (?a :: ?b)) with (a + list_sum b). pose proof (spc_le g (PClosed x)). lia.
Qed.
Lemma spc_kill a d b : spc g (PClosed (a ++ SLive d :: b)) <= spc g (PClosed (a ++ SDead (length d) :: b)) /\ spc g (PPart (a ++ SLive d :: b)) <= spc g (PPart (a ++ SDead (length d) :: b)).
Proof.
  cbn [spc]. rewrite sizes_live_dead. rewrite !emptyish_app. cbn [emptyish forallb skipped]. rewrite !andb_false_r. split; [lia|].
  destruct (Nat.leb_spec HL (cap g - sizes g (a ++ SLive d :: b))); [lia|]. destruct (_ && _); lia.
Qed.
Lemma sum_set {A} (f : A -> nat) x d : forall l j, j < length l -> f (nth j l d) <= f x -> list_sum (map f l) <= list_sum (map f (list_set l j x)).
Proof.
  induction l as [|y l IH]; intros [|j] Hj H; cbn [length] in Hj; try lia; cbn [list_set map nth] in *; change (list_sum (?a :: ?b)) with (a + list_sum b); [lia|].
  specialize (IH j ltac:(lia) H). lia.
Qed.

Definition at_ Y (j : nat) (c : list slot) : Prop := exists pre rest, nth j (uslots Y) [] = pre ++ rest /\ strip rest = c.
Lemma at_nil Y j : at_ Y j [].
Proof. exists (nth j (uslots Y) []), []. split; auto. now rewrite app_nil_r. Qed.
Lemma search_found1 B d post : forall l, search g B l = NFound d post -> exists pre, l = pre ++ SLive d :: post.
Proof.
  induction l as [|x l IH]; intros E; cbn [search] in E; [discriminate|]. destruct x as [d1|n|n c|].
  - destruct (rup (length d1) <=? B); [|discriminate]. injection E as -> ->. now exists [].
  - destruct (IH E) as (pre & ->). now exists (SDead n :: pre).
  - destruct (rup n <=? B); [|discriminate]. destruct (IH E) as (pre & ->). now exists (SCorr n c :: pre).
  - destruct (IH E) as (pre & ->). now exists (SBad :: pre).
Qed.
Lemma nspec_at B ap : forall later rest p nr ops i, nspec g B ap p rest later = (nr, ops, i) -> i <= length later /\ search g B (nth i (rest :: later) []) = nr.
Proof.
  induction later as [|sl t IH]; intros rest p nr ops i E; cbn [nspec] in E.
  - destruct (search g B rest) eqn:ES; injection E as <- <- <-; auto.
  - destruct (search g B rest) eqn:ES; [injection E as <- <- <-; split; [lia|auto]| |injection E as <- <- <-; split; [lia|auto]].
    destruct (nspec g B ap (next_page g p) sl t) as [[r L] i0] eqn:E2. injection E as <- _ <-. destruct (IH _ _ _ _ _ E2). split; [cbn; lia|]. exact H0.
Qed.
Lemma uslots_drops i Y : i <= y_c Y -> uslots (ydrops g i Y) = skipn i (uslots Y).
Proof. intros H. unfold uslots, ydrops, y_c in *. cbn [y_cl y_pt]. rewrite skipn_app. replace (i - length (y_cl Y)) with 0 by lia. reflexivity. Qed.
Lemma nth_skip {A} (l : list A) d : forall i k, nth k (skipn i l) d = nth (i + k) l d.
Proof. induction l as [|x l IH]; intros [|i] k; cbn; auto. now destruct k. Qed.
Lemma yset_nth Y j sl : j < length (uslots Y) -> nth j (uslots (yset Y j sl)) [] = sl.
Proof.
  intros H. unfold yset. rewrite uslots_len in H. pose proof (y_b_le Y). destruct (Nat.ltb_spec j (y_c Y)); unfold uslots, y_c in *; cbn [y_cl y_pt].
  - rewrite app_nth1 by (rewrite list_set_split by auto; rewrite app_length, firstn_length; cbn [length]; rewrite skipn_length; lia).
    rewrite list_set_split by auto. rewrite app_nth2; rewrite firstn_length; [|lia]. replace (j - Nat.min j (length (y_cl Y))) with 0 by lia. reflexivity.
  - rewrite app_nth2 by lia. replace (j - length (y_cl Y)) with 0 by lia. reflexivity.
Qed.
Lemma sp_set Y j a d b : j < length (uslots Y) -> nth j (uslots Y) [] = a ++ SLive d :: b -> sp Y <= sp (yset Y j (a ++ SDead (length d) :: b)).
Proof.
  intros H N. destruct (spc_kill a d b) as [K1 K2]. rewrite !sp_eq. unfold yset. rewrite uslots_len in H. pose proof (y_b_le Y). unfold uslots, y_c, y_b in *.
  destruct (Nat.ltb_spec j (length (y_cl Y))); cbn [y_cl y_pt y_k].
  - rewrite app_nth1 in N by auto. pose proof (sum_set (fun sl => spc g (PClosed sl)) (a ++ SDead (length d) :: b) [] (y_cl Y) j H1) as S. cbv beta in S. rewrite N in S. specialize (S K1). lia.
  - rewrite app_nth2 in N by auto. destruct (y_pt Y) as [sl|]; cbn [ptl length] in *; [|lia]. replace (j - length (y_cl Y)) with 0 in N by lia. cbn [nth] in N. subst sl.
    cbn [map]. change (list_sum (?a :: ?b)) with (a + list_sum b). lia.
Qed.
Definition kill Y Y' : Prop := exists j a d b, j < length (uslots Y) /\ nth j (uslots Y) [] = a ++ SLive d :: b /\ Y' = yset Y j (a ++ SDead (length d) :: b).
Lemma nspec_des B ap : forall later rest p nr ops i, nspec g B ap p rest later = (nr, ops, i) -> length (des ops) = (if ap then i else 0) /\ Forall (fun o => match o with DE _ => True | _ => False end) ops.
Proof.
  induction later as [|sl t IH]; intros rest p nr ops i E; cbn [nspec] in E.
  - destruct (search g B rest); injection E as <- <- <-; split; auto; now destruct ap.
  - destruct (search g B rest); [injection E as <- <- <-; split; auto; now destruct ap| |injection E as <- <- <-; split; auto; now destruct ap].
    destruct (nspec g B ap (next_page g p) sl t) as [[r L] i0] eqn:E2. injection E as <- <- <-. destruct (IH _ _ _ _ _ E2) as [I1 I2]. destruct ap; cbn [app]; [|auto].
    split; [|constructor; auto]. change (length (p :: des L) = S i0). cbn [length]. lia.
Qed.
Lemma step_shape B pop Y j ap c : (ap = true -> j = 0) -> at_ Y j c ->
  let '(_, ops, (Y', j', ap', c')) := ystep g B pop Y j ap c in
  exists i, (ap = true -> i <= y_c Y) /\ (let Yd := if ap then ydrops g i Y else Y in Y' = Yd \/ pop = true /\ kill Yd Y') /\ length (des ops) = (if ap then i else 0) /\
    (pop = false -> Forall (fun o => match o with DE _ => True | _ => False end) ops) /\ (ap' = true -> j' = 0) /\ at_ Y' j' c'.
Proof.
  intros J (pre & rest & N & ST). unfold ystep. destruct (nspec g B ap ((y_f Y + j) mod NP) c (later Y j)) as [[nr ops] i] eqn:E.
  destruct (nspec_at _ _ _ _ _ _ _ _ E) as [LI SE]. destruct (nspec_des _ _ _ _ _ _ _ _ E) as [LD FD]. unfold later in LI, SE. rewrite skipn_length in LI. pose proof (uslots_len Y) as LU. pose proof (y_b_le Y).
  set (Y' := if ap then ydrops g i Y else Y). set (j' := if ap then 0 else j + i).
  assert (S1 : ap = true -> i <= y_c Y) by (intros X; specialize (J X); lia).
  assert (J1 : ap = true -> j' = 0) by (unfold j'; intros ->; auto).
  assert (N1 : nth j' (uslots Y') [] = nth (j + i) (uslots Y) []).
  { unfold Y', j'. destruct ap; auto. rewrite (J eq_refl). rewrite uslots_drops by auto. rewrite nth_skip. f_equal. lia. }
  assert (N2 : exists a, nth j' (uslots Y') [] = a ++ nth i (c :: skipn (S j) (uslots Y)) []).
  { rewrite N1. destruct i as [|i].
    - rewrite Nat.add_0_r, N. cbn [nth]. destruct (strip_split rest) as (x & EX & _). rewrite ST in EX. exists (pre ++ x). rewrite EX at 1. now rewrite app_assoc.
    - exists []. cbn [nth app]. rewrite nth_skip. f_equal. lia. }
  destruct N2 as (a & N2). destruct nr as [d post| |n rs]; cbn [fst snd].
  - destruct (search_found1 _ _ _ _ SE) as (b & EB). rewrite EB in N2.
    assert (LJ : j' < length (uslots Y')). { destruct (Nat.lt_ge_cases j' (length (uslots Y'))); auto. rewrite nth_overflow in N2 by auto. destruct a; [destruct b|]; discriminate. }
    destruct pop; exists i.
    + rewrite N2, app_assoc. replace (length ((a ++ b) ++ SLive d :: post) - S (length post)) with (length (a ++ b)) by (rewrite !app_length; cbn; lia).
      rewrite firstn_app, Nat.sub_diag, firstn_all. cbn [firstn]. rewrite app_nil_r. rewrite app_assoc in N2. split; auto. split; [|split; [|split; [discriminate|split; auto]]].
      * right. split; auto. exists j', (a ++ b), d, post. auto.
      * rewrite des_app. cbn. rewrite app_nil_r. exact LD.
      * exists ((a ++ b) ++ [SDead (length d)]), post. split; auto. rewrite yset_nth by auto. now rewrite <- !app_assoc.
    + split; auto. split; auto. split; auto. split; auto. split; [discriminate|]. exists (a ++ b ++ [SLive d]), post. split; auto. rewrite N2, <- !app_assoc. reflexivity.
  - exists i. split; auto. split; auto. split; auto. split; auto. split; auto. apply at_nil.
  - exists i. destruct (search_small g _ _ _ _ SE) as (_ & x & t & -> & SK & (b & EB) & _). split; auto. split; auto. split; auto. split; auto. split; auto. exists (a ++ b), (x :: t). rewrite N2, EB, app_assoc. split; auto. now apply strip_hd.
Qed.
Lemma step_sp B pop Y j ap c : (ap = true -> j = 0) -> at_ Y j c ->
  let '(_, _, (Y', j', ap', c')) := ystep g B pop Y j ap c in sp Y <= sp Y' /\ (ap' = true -> j' = 0) /\ at_ Y' j' c'.
Proof.
  intros J A. pose proof (step_shape B pop Y j ap c J A) as P. destruct (ystep g B pop Y j ap c) as [[r ops] [[[Y' j'] ap'] c']].
  destruct P as (i & I1 & I2 & _ & _ & I3 & I4). split; auto. cbv zeta in I2.
  assert (S1 : sp Y <= sp (if ap then ydrops g i Y else Y)) by (destruct ap; auto using sp_drops).
  destruct I2 as [->|(_ & k & a & d & b & K1 & K2 & ->)]; auto. etransitivity; [exact S1|]. now apply sp_set.
Qed.
Lemma script_sp sc : forall Y j ap c, (ap = true -> j = 0) -> at_ Y j c -> sp Y <= sp (snd (yscript g sc Y j ap c)).
Proof.
  induction sc as [|[b pop] sc IH]; intros Y j ap c J A; cbn [yscript]; [cbn; lia|]. pose proof (step_sp (length b) pop Y j ap c J A) as P.
  destruct (ystep g (length b) pop Y j ap c) as [[r ops] [[[Y' j'] ap'] c']]. destruct P as (P1 & P2 & P3). specialize (IH Y' j' ap' c' P2 P3).
  destruct (yscript g sc Y' j' ap' c') as [[rs ops'] Y2]. cbn [snd] in *. lia.
Qed.
Lemma at_cur Y : at_ Y 0 (ycur Y).
Proof. exists [], (nth 0 (uslots Y) []). split; auto. Qed.
End QSpace.

Lemma pos_gt0 g : geom_ok g -> forall Y pg, layok (NP g) Y pg -> layok (NP g) Y (pgof g Y).
Proof.
  intros gok Y pg LY. pose proof (pgof_ok g gok Y pg LY) as P. destruct LY as [(A & B & C) D]. split; auto. split; auto. split; auto.
  intros i Hi. rewrite <- P by (apply mod_lt; auto). auto.
Qed.
(** The answer in terms of the layout. *)
Lemma yspc_sp g Y pg n : geom_ok g -> layok (NP g) Y pg -> yspc g (pgof g Y) = Ok n -> n = sp g Y.
Proof. intros gok LY E. unfold yspc in E. destruct (nobad g _); [|discriminate]. injection E as <-. apply (spaces_pages g gok). eapply pos_gt0; eauto. Qed.
Lemma sp_rep g Y : sp g Y <= sp g (yrep Y).
Proof. rewrite !sp_eq. unfold yrep. cbn [y_cl y_pt y_k]. lia. Qed.

(** A call of [space_left] in a reachable state. *)
Lemma space_call pf g ae aw Y s n s1 : setting pf g ae aw -> qst g (negb pf) ae aw Y s -> q_does g s QSpace (ANum (Ok n)) s1 ->
  exists Y1, qst g (negb pf) ae aw Y1 s1 /\ content Y1 = content Y /\ yspc g (pgof g Y1) = Ok n /\ n = sp g Y1 /\ sp g Y <= n.
Proof.
  intros ST QS E1. pose proof (setting_single _ _ _ _ ST) as SG. pose proof ST as [gok _].
  destruct (does_ok g gok _ ae aw SG Y s QSpace _ _ QS Logic.I E1) as (A1 & QS1 & _). pose proof QS as (pg & LY & QI & SW). cbn [yact] in *.
  pose proof (yq_same g (yspc g) Y pg LY n) as M. unfold yq in *. pose proof (sp_rep g Y) as SR. destruct (yspc g (pgof g Y)) as [x|e] eqn:E; cbn [fst snd] in *.
  - injection A1 as <-. exists Y. split; auto. split; auto. split; auto. rewrite (yspc_sp g Y pg n gok LY E). auto.
  - destruct e; cbn [fst snd] in *; try (injection A1; intros; discriminate). injection A1 as A1. exists (yrep Y). pose proof QS1 as (pg1 & LY1 & _).
    split; auto. split; [apply yrep_content|]. split; auto. rewrite (yspc_sp g (yrep Y) pg1 n gok LY1) by auto. auto.
Qed.

Lemma q_space_held pf g evs l s q n s1 : q_reached pf g evs l s -> q_holds g s q -> q_does g s QSpace (ANum (Ok n)) s1 ->
  n + list_sum (map (item_room g) q) <= NP g * page_cap g.
Proof.
  intros R H E1. destruct (reached_qst _ _ _ _ _ R) as (ae & aw & Y & ST & QS & _). pose proof (setting_single _ _ _ _ ST) as SG. pose proof ST as [gok _].
  rewrite (holds_eq g gok _ _ _ SG Y s q QS H). destruct (space_call _ _ _ _ _ _ _ _ ST QS E1) as (Y1 & (pg1 & LY1 & _ & SW1) & <- & E & _).
  rewrite <- (yspc_ext g gok _ _ (pgof_ok g gok Y1 pg1 LY1)) in E. rewrite cap_is. eapply space_content; eauto.
Qed.

Lemma q_space_out pf g evs l s n s1 c a s2 n2 s3 : q_reached pf g evs l s -> match c with QPop _ | QPeek _ | QIter _ => True | _ => False end ->
  q_does g s QSpace (ANum (Ok n)) s1 -> q_does g s1 c a s2 -> q_does g s2 QSpace (ANum (Ok n2)) s3 -> n <= n2.
Proof.
  intros R CC E1 E2 E3. destruct (reached_qst _ _ _ _ _ R) as (ae & aw & Y & ST & QS & _). pose proof (setting_single _ _ _ _ ST) as SG. pose proof ST as [gok _].
  destruct (space_call _ _ _ _ _ _ _ _ ST QS E1) as (Y1 & QS1 & _ & _ & -> & _).
  assert (CA : callable pf c) by (destruct c; try contradiction; exact I).
  destruct (does_ok g gok _ ae aw SG Y1 s1 _ _ s2 QS1 (setting_call _ _ _ _ c ST CA) E2) as (_ & QS2 & _).
  destruct (space_call _ _ _ _ _ _ _ _ ST QS2 E3) as (_ & _ & _ & _ & _ & LE). etransitivity; [|exact LE]. etransitivity; [apply sp_rep|].
  clear - CC gok. destruct c as [? ?|b|b|sc| |]; try contradiction; cbn [yact].
  - unfold yone. pose proof (step_sp g (length b) true (yrep Y1) 0 true (ycur Y1) (fun _ => eq_refl) (at_cur (yrep Y1))) as P.
    destruct (ystep g (length b) true (yrep Y1) 0 true (ycur Y1)) as [[r ops] [[[Y' j'] ap'] c']]. exact (proj1 P).
  - unfold yone. pose proof (step_sp g (length b) false (yrep Y1) 0 true (ycur Y1) (fun _ => eq_refl) (at_cur (yrep Y1))) as P.
    destruct (ystep g (length b) false (yrep Y1) 0 true (ycur Y1)) as [[r ops] [[[Y' j'] ap'] c']]. exact (proj1 P).
  - pose proof (script_sp g sc (yrep Y1) 0 true (ycur Y1) (fun _ => eq_refl) (at_cur (yrep Y1))) as P.
  destruct (yscript g sc (yrep Y1) 0 true (ycur Y1)) as [[rs ops] Y']. exact P.
Qed.

Lemma emptyish_clean sl : Forall clean sl -> live_of sl = [] -> emptyish sl = true.
Proof.
  induction 1 as [|x l C _ IH]; auto. unfold live_of in *. cbn [flat_map]. intros H. apply app_eq_nil in H. destruct H as [H1 H2]. cbn [emptyish forallb].
  apply andb_true_iff. split; [|auto]. destruct x; auto; try discriminate; contradiction.
Qed.
Lemma q_space_empty g evs l s n s1 : q_reached false g evs l s -> q_holds g s [] -> q_does g s QSpace (ANum (Ok n)) s1 ->
  (NP g - 1) * page_cap g <= n.
Proof.
  intros R H E1. destruct (reached_qst _ _ _ _ _ R) as (ae & aw & Y & ST & QS & _). pose proof (setting_single _ _ _ _ ST) as SG. pose proof ST as [gok _].
  pose proof (holds_eq g gok _ _ _ SG Y s [] QS H) as CY. destruct (space_call _ _ _ _ _ _ _ _ ST QS E1) as (Y1 & (pg1 & LY1 & QI1 & SW1) & C1 & E & -> & _).
  rewrite <- CY in C1. pose proof (clean_sw g gok true ae aw Y1 pg1 s1 eq_refl LY1 SW1) as CL.
  rewrite <- (yspc_ext g gok _ _ (pgof_ok g gok Y1 pg1 LY1)) in E. unfold yspc in E. destruct (nobad g pg1) eqn:NB; [|discriminate].
  assert (BZ : y_bad Y1 = 0).
  { destruct LY1 as [(Hf & LL & HP) B]. destruct (y_bad Y1) as [|[|]] eqn:EB; auto; [|lia]. exfalso.
    assert (P0 : nth (NP g - 1) (pages Y1) POpen = PBad).
    { rewrite <- LL. unfold pages. rewrite EB. cbn [repeat]. rewrite !app_assoc. rewrite app_nth2; rewrite app_length; cbn [length]; [|lia].
      replace (_ - _) with 0 by lia. reflexivity. }
    rewrite <- HP in P0 by lia. unfold nobad in NB. rewrite forallb_forall in NB. specialize (NB ((y_f Y1 + (NP g - 1)) mod NP g)). rewrite P0 in NB. cbn in NB.
    discriminate NB. apply in_map_iff. exists ((y_f Y1 + (NP g - 1)) mod NP g). assert (M : (y_f Y1 + (NP g - 1)) mod NP g < NP g) by (apply mod_lt; auto).
    rewrite Nat.add_0_r, Nat.mod_small by auto. split; auto. apply in_seq. lia. }
  destruct (lay_ring (NP g) Y1 pg1 (npos g gok) LY1) as (_ & TOT & HB & _). rewrite sp_eq, cap_is.
  assert (X : list_sum (map (fun sl => spc g (PClosed sl)) (y_cl Y1)) = y_c Y1 * cap g).
  { assert (EM : Forall (fun sl => emptyish sl = true) (y_cl Y1)).
    { apply Forall_forall. intros sl I. apply emptyish_clean.
      - unfold yall in CL. rewrite Forall_forall in CL. apply CL. unfold uslots. apply in_or_app. now left.
      - unfold content, uslots in C1. destruct (live_of sl) as [|d t] eqn:EL; auto. exfalso.
        assert (X : In d (flat_map live_of (y_cl Y1 ++ ptl (y_pt Y1)))); [|rewrite C1 in X; destruct X]. apply in_flat_map. exists sl. split; [apply in_or_app; now left|]. rewrite EL. now left. }
    unfold y_c. clear -EM. induction EM as [|x l H _ IH]; auto. cbn [map length]. change (list_sum (?a :: ?b)) with (a + list_sum b). rewrite IH. cbn [spc]. rewrite H. lia. }
  rewrite X. nia.
Qed.
