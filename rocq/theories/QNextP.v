(** The queue iterator's calls, pop and peek, on layouts. *)
From Coq Require Import List NArith ZArith Arith Bool Lia ZifyBool ZifyNat ZifyN.
From Verif Require Import Base BaseP Crc CrcP Flash Cache State Item Generic Queue GeomP ScanP WpP ItemP CalcP PageP WorldP LayP QPushP QRepP QIterP.
Import ListNotations.
Local Opaque crc16 acrc crc32.

Section Next.
Context (g : geom) (gok : geom_ok g) (ws ae : bool) (aw : nat).
Notation W := (W g).
Notation HL := (HL g).
Notation rup := (rup g).
Notation NP := (NP g).
Notation st := (st unit).
Implicit Types (s : st) (pg : nat -> page) (Y : lay).
Notation world := (world g ws ae aw).
Notation crashed := (crashed g ws ae aw).
Notation sworld := (sworld g ws ae aw).
Notation itr := (itr g).
Notation nout := (nout g ws ae aw).
Notation ncrash := (ncrash g ws ae aw).
Notation nspec := (nspec g).
Notation ydrops := (ydrops g).
Notation search := (search g).

Lemma sizes_len l : length l <= sizes g l.
Proof. induction l as [|x l IH]; [cbn; lia|]. rewrite sizes_cons. pose proof (ssize_pos g gok x). cbn [length]. lia. Qed.

(** The loop bound suffices. *)
Lemma page_len Y pg f j : layok NP Y pg -> fworld g ws ae aw pg f -> j < y_c Y + y_b Y -> length (nth j (uslots Y) []) < ES g.
Proof.
  intros [(Hf & LL & HP) _] FW J. rewrite pages_len in LL. destruct (nth_uslots Y j J) as (U & E & _).
  assert (Hq : (y_f Y + j) mod NP < NP) by (apply mod_lt; auto). rewrite <- HP in U, E by lia.
  pose proof (used_body g ws ae aw pg f _ FW Hq U) as BD. rewrite E in BD.
  pose proof (body_seg g gok ws f _ _ BD) as (_ & SZ & _). pose proof (sizes_len (nth j (uslots Y) [])).
  pose proof (cap_eq g gok 0). pose proof (dend_lt g gok 0). pose proof (W_pos g gok). pose proof (pend_eq g 0). unfold dstart in *. lia.
Qed.
Lemma sum_le k (l : list (list slot)) : (forall x, In x l -> length x < k) -> list_sum (map (fun sl => S (length sl)) l) <= length l * k.
Proof.
  induction l as [|a l IH]; intros H; [cbn; lia|]. cbn [map list_sum length]. change (list_sum (?x :: ?t)) with (x + list_sum t).
  specialize (IH (fun x h => H x (or_intror h))). specialize (H a (or_introl eq_refl)). lia.
Qed.
Lemma mea_ok Y pg f qi j pre rest : layok NP Y pg -> fworld g ws ae aw pg f -> itr Y pg qi j pre rest -> mea qi rest (later Y j) <= qfuel g.
Proof.
  intros LY FW (IJ & IE & _). pose proof (npos g gok) as N. pose proof (ES_big g gok) as EB.
  assert (LR : length rest + 1 <= ES g).
  { destruct (Nat.lt_ge_cases j (y_c Y + y_b Y)) as [J|J].
    - pose proof (page_len Y pg f j LY FW J). rewrite IE, app_length in H. lia.
    - rewrite nth_overflow in IE by (rewrite uslots_len; lia). symmetry in IE. apply app_eq_nil in IE. destruct IE as [_ ->]. pose proof (ES_pos g gok). change (length (@nil slot)) with 0. lia. }
  assert (SUM : list_sum (map (fun sl => S (length sl)) (later Y j)) <= length (later Y j) * ES g).
  { apply sum_le. intros x Hx. apply In_nth with (d := []) in Hx. destruct Hx as (i & Hi & <-). unfold later in *. rewrite skipn_length, uslots_len in Hi.
    rewrite nth_skipn_add. eapply page_len; eauto. lia. }
  assert (LL : length (later Y j) <= NP - 1).
  { unfold later. rewrite skipn_length, uslots_len. destruct LY as [(_ & LL & _) _]. rewrite pages_len in LL. lia. }
  unfold mea, qfuel. destruct (qi_next qi); nia.
Qed.

Definition unabc (p : prevst) : prevst := match p with AllButCurrentPopped => Unpopped | x => x end.
Lemma isap_unabc p : isap (unabc p) = isap p. Proof. destruct p; reflexivity. Qed.

Lemma wp_q_next Y pg s j pre rest B :
  layok NP Y pg -> qinv Y -> y_bad Y = 0 -> sworld pg s -> itr Y pg (s_qi s) j pre rest -> length (s_buf s) = B ->
  forall R, R = nspec B (isap (qi_prev (s_qi s))) ((y_f Y + j) mod NP) rest (later Y j) ->
  wp (q_next g) (fun r s' => nout Y j pre rest (unabc (qi_prev (s_qi s))) B R (s_fl s) [] (Ok r) s')
     (fun e s' => nout Y j pre rest (unabc (qi_prev (s_qi s))) B R (s_fl s) [] (Err e) s' \/ ncrash Y e (s_fl s) (nops R) s') s.
Proof.
  intros LY QI BZ SW IT LB R ER. unfold q_next. apply wp_get_qi. apply wp_bind.
  set (pv := unabc (qi_prev (s_qi s))). set (s1 := set_qi s (mkqi (qi_next (s_qi s)) pv (qi_oldest (s_qi s)))).
  assert (IT1 : itr Y pg (s_qi s1) j pre rest).
  { destruct IT as (A & B0 & C & D & E & F). cbn [s1 s_qi set_qi]. split; auto. split; auto. cbn [qi_next qi_prev qi_oldest]. split; auto. unfold pv.
    split; [|split; auto]; intros X; [apply D|exfalso]; destruct (qi_prev (s_qi s)); try discriminate; auto. }
  assert (MAIN : wp (r <- auto_repair (next_inner g) (q_repair g) ;;
     match r with None => ret None | Some (h, a) => b <- get_buf ;; if length b <? h_len h then fail ELogicBug else ret (Some (h, a)) end)
     (fun r s' => nout Y j pre rest pv B R (s_fl s) [] (Ok r) s')
     (fun e s' => nout Y j pre rest pv B R (s_fl s) [] (Err e) s' \/ ncrash Y e (s_fl s) (nops R) s') s1).
  { apply wp_bind. apply wp_auto_repair. unfold next_inner. apply wp_bind. apply (wp_check_dirty g ws ae aw pg); [exact SW|].
    intros s2 W2 B2 Q2 _ F2 _. change (s_fl s1) with (s_fl s) in *. rewrite <- Q2 in IT1.
    eapply wp_mono; [apply (wp_next_loop g gok ws ae aw (qfuel g) Y pg s2 (s_fl s) [] j pre rest B pv LY QI BZ W2 IT1) with (R := R)| |].
    - rewrite B2. exact LB.
    - rewrite Q2. reflexivity.
    - unfold pv. destruct (qi_prev (s_qi s)); discriminate.
    - eapply mea_ok; eauto. apply W2.
    - unfold pv. rewrite isap_unabc. exact ER.
    - cbv beta. intros r s3 H. destruct r as [[h a]|]; [|apply wp_ret; exact H].
      unfold wp, bind, get_buf. assert (length (s_buf s3) <? h_len h = false) as ->; [|exact H].
      unfold QIterP.nout in H. destruct R as [[nr ops] i]. destruct H as (pg' & pre' & rest' & _ & _ & _ & _ & LB3 & _ & H).
      apply Nat.ltb_ge. destruct nr.
      + destruct H as (pre0 & _ & _ & H & _ & H2 & _). assert (h = ihdr d) by congruence. subst h. change (h_len (ihdr d)) with (length d). lia.
      + destruct H as [H _]. discriminate.
      + destruct H as [H _]. discriminate.
    - cbv beta. intros e s3 H. rewrite app_nil_l in H. destruct e; auto. exfalso.
      destruct H as [H|[H _]]; [|discriminate].
      unfold QIterP.nout in H. destruct R as [[nr ops] i]. destruct H as (pg' & pre' & rest' & _ & _ & _ & _ & LB3 & _ & H).
      destruct nr.
      + destruct H as (pre0 & _ & _ & H & _). discriminate.
      + destruct H as [H _]. discriminate.
      + destruct H as [H _]. discriminate. }
  unfold pv, s1 in *. destruct (qi_prev (s_qi s)) eqn:EP; cbn [unabc] in *.
  - apply wp_ret. replace s with (set_qi s (mkqi (qi_next (s_qi s)) AllPopped (qi_oldest (s_qi s)))) at 1; [exact MAIN|]. rewrite <- EP. destruct s as [? ? ? [? ? ?] ?]. reflexivity.
  - exact MAIN.
  - apply wp_ret. replace s with (set_qi s (mkqi (qi_next (s_qi s)) Unpopped (qi_oldest (s_qi s)))) at 1; [exact MAIN|]. rewrite <- EP. destruct s as [? ? ? [? ? ?] ?]. reflexivity.
Qed.

Lemma dead_emptyish l : Forall dead l -> emptyish l = true.
Proof. induction 1 as [|x l H _ IH]; auto. unfold emptyish in *. cbn [forallb]. rewrite IH, andb_true_r. destruct x; cbn in H; try contradiction. reflexivity. Qed.

Lemma wp_find_start Y pg s (Q : nat -> st -> Prop) (E : err -> st -> Prop) :
  layok NP Y pg -> qinv Y -> sworld pg s ->
  (forall s' a pre rest, y_bad Y = 0 -> world pg (s_fl s) [] s' -> s_buf s' = s_buf s ->
     nth 0 (uslots Y) [] = pre ++ rest -> emptyish pre = true -> a = dstart g (y_f Y) + sizes g pre -> Q a s') ->
  (forall s', y_bad Y = 1 -> world pg (s_fl s) [] s' -> s_buf s' = s_buf s -> E ECorrupted s') ->
  wp (find_start g) Q E s.
Proof.
  intros LY QI SW HQ HE. pose proof (npos g gok) as N. unfold find_start. apply wp_bind. apply (wp_check_dirty g ws ae aw pg); [exact SW|].
  intros s1 W1 B1 _ _ _ _. apply wp_bind. pose proof (oldest_ok g gok Y pg LY QI) as OK.
  apply (wp_oldest g gok ws ae aw pg (s_fl s) []); auto.
  - eapply ring_of; eauto.
  - intros s2 p Hp W2 FR. rewrite OK in Hp. destruct (Nat.eqb_spec (y_bad Y) 0) as [BZ|]; [|discriminate]. injection Hp as <-.
    assert (Hf : y_f Y < NP) by apply LY.
    unfold wp, bind, c_after_erased, ret.
    assert (IJ : 0 < Nat.max 1 (y_c Y + y_b Y)) by lia.
    assert (B2 : s_buf s2 = s_buf s) by (destruct FR as (X & _); congruence).
    destruct (it_page g gok aw Y pg 0 [] (nth 0 (uslots Y) []) LY IJ eq_refl QI) as [[PU PS]|(PO & _ & RZ & _ & UZ)].
    + rewrite Nat.add_0_r, Nat.mod_small in PU, PS by auto.
      destruct (from_er g pg s2 (y_f Y) (proj2 (proj2 W2)) Hf PU) as (pre & rest & E1 & E2 & E3).
      eapply (HQ s2 _ pre rest); auto using dead_emptyish. rewrite <- E1, PS. reflexivity.
    + rewrite Nat.add_0_r, Nat.mod_small in PO by auto.
      apply (HQ s2 _ [] []); auto. change (sizes g []) with 0. rewrite Nat.add_0_r.
      destruct W2 as (_ & _ & _ & CQ). destruct (pp_erased (c_pp (s_ca s2)) (y_f Y)) as [a|] eqn:EA; auto. exfalso.
      unfold coh_pp in CQ. destruct (c_pp (s_ca s2)) as [|er wr]; [discriminate|]. destruct (CQ _ Hf) as [C1 _]. destruct (C1 a EA) as [C2 _]. rewrite PO in C2. exact C2.
  - intros s2 Hp W2 FR. rewrite OK in Hp. destruct (Nat.eqb_spec (y_bad Y) 0) as [BZ|BZ]; [discriminate|].
    apply HE; auto. { destruct LY as [_ B]. lia. } destruct FR as (X & _). congruence.
Qed.

Lemma wp_q_iter Y pg s :
  layok NP Y pg -> qinv Y -> sworld pg s ->
  wp (q_iter g) (fun _ s' => exists pg', layok NP (yrep Y) pg' /\ world pg' (s_fl s) (rops g Y) s' /\ s_buf s' = s_buf s /\
       exists pre rest, itr (yrep Y) pg' (s_qi s') 0 pre rest /\ qi_prev (s_qi s') = AllPopped /\ emptyish pre = true)
     (fun e s' => ncrash Y e (s_fl s) (rops g Y) s') s.
Proof.
  intros LY QI SW. pose proof (npos g gok) as N. unfold q_iter. apply wp_bind. apply wp_auto_repair.
  assert (FIN : forall Y pg s' a pre rest, layok NP Y pg -> nth 0 (uslots Y) [] = pre ++ rest -> emptyish pre = true -> a = dstart g (y_f Y) + sizes g pre ->
    sizes g pre <= cap g -> itr Y pg (s_qi (set_qi s' (mkqi (NAddr a) AllPopped (pindex g a)))) 0 pre rest).
  { intros Y0 pg0 s' a pre rest L0 E1 E2 E3 SZ. assert (Hf : y_f Y0 < NP) by apply L0.
    assert (PI : pindex g a = y_f Y0).
    { apply (pindex_in g gok). pose proof (dend_lt g gok (y_f Y0)). pose proof (cap_eq g gok (y_f Y0)). pose proof (W_pos g gok). pose proof (dstart_lt g gok (y_f Y0)). unfold dstart in *. lia. }
    split; [lia|]. split; auto. cbn [s_qi set_qi qi_next qi_prev qi_oldest]. rewrite PI. rewrite Nat.add_0_r, Nat.mod_small by auto.
    split; [left; congruence|]. split. { intros _. split; auto. now apply emptyish_live. } split; [discriminate|]. auto. }
  assert (SZ : forall Y pg s' L f0 pre rest, layok NP Y pg -> qinv Y -> world pg f0 L s' -> nth 0 (uslots Y) [] = pre ++ rest -> sizes g pre <= cap g).
  { intros Y0 pg0 s' L f0 pre rest L0 Q0 W0 E. destruct (it_page g gok aw Y0 pg0 0 pre rest L0 ltac:(lia) E Q0) as [[PU PS]|(_ & -> & _)]; [|change (sizes g []) with 0; lia].
    assert (Hq : (y_f Y0 + 0) mod NP < NP) by (apply mod_lt; auto).
    pose proof (used_body g ws ae aw pg0 (s_fl s') _ (proj1 (proj2 W0)) Hq PU) as BD. rewrite PS in BD.
    pose proof (body_seg g gok ws (s_fl s') _ _ BD) as (_ & SZ & _). rewrite sizes_app in SZ. lia. }
  apply (wp_find_start Y pg); auto.
  - intros s' a pre rest BZ W1 B1 E1 E2 E3. unfold wp, put_qi. exists pg. rewrite (yrep_id Y BZ). unfold rops. rewrite BZ. cbn [Nat.eqb].
    split; auto. split; auto. split; auto. exists pre, rest. split; [|split; [reflexivity|auto]]. eapply FIN; eauto.
  - intros s' BO W1 B1. cbv beta iota. apply (wp_q_repair g gok ws ae aw Y pg (s_fl s) []); auto.
    + intros s2 pg2 LY2 W2 B2 _ _. rewrite app_nil_l in W2.
      apply (wp_find_start (yrep Y) pg2); auto using yrep_qinv. { eapply world_sworld; eauto. }
      * intros s3 a pre rest _ W3 B3 E1 E2 E3. unfold wp, put_qi. exists pg2.
        split; auto. split. { rewrite <- (app_nil_r (rops g Y)). eapply world_cons; eauto. apply W2. } split. { cbn. congruence. } exists pre, rest.
        split; [|split; [reflexivity|auto]]. eapply FIN; eauto.
      * intros s3 BX. discriminate.
    + intros s2 pg2 Yc YC LYc CR. rewrite app_nil_l in CR. split; auto. exists Yc, pg2.
      split. { destruct YC as [->| ->]; auto using yrep_content. } split. { intros B H. destruct YC as [->| ->]; auto. }
      split; auto. split; auto. destruct YC as [->| ->]; auto using yrep_qinv.
Qed.
End Next.
