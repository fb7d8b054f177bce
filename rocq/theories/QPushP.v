(** The queue's push on layouts. *)
From Coq Require Import List NArith ZArith Arith Bool Lia ZifyBool ZifyNat ZifyN.
From Verif Require Import Base BaseP Crc CrcP Flash Cache State Item Generic Queue GeomP ScanP WpP ItemP CalcP PageP WorldP LayP.
Import ListNotations.
Local Opaque crc16 acrc crc32.

(** Items held by slots and layouts, oldest first. *)
Definition live_of (sl : list slot) : list (list N) := flat_map (fun x => match x with SLive d => [d] | _ => [] end) sl.
Definition content (Y : lay) : list (list N) := flat_map live_of (uslots Y).

Lemma live_app a b : live_of (a ++ b) = live_of a ++ live_of b.
Proof. apply flat_map_app. Qed.
Lemma content_app f cl pt k bad : content (mklay f cl pt k bad) = flat_map live_of cl ++ live_of (match pt with Some sl => sl | None => [] end).
Proof. unfold content, uslots. cbn. rewrite flat_map_app. f_equal. destruct pt; cbn; auto. now rewrite app_nil_r. Qed.

Section Trans.
Context (n : nat) (npos : 1 <= n).
Implicit Types (Y : lay) (pg : nat -> page).

Lemma lay_same Y pg p : layok n Y pg -> forall x, x = pg p -> layok n Y (upd pg p x).
Proof.
  intros [L B] x ->. split; auto. eapply lay0_ext; [|exact L]. intros q _. unfold upd. destruct (Nat.eqb_spec q p); subst; auto.
Qed.
Lemma lay_start f cl k bad pg : layok n (mklay f cl None (S k) bad) pg ->
  layok n (mklay f cl (Some []) k bad) (upd pg ((f + length cl) mod n) (PPart [])).
Proof.
  intros [L B]. split; auto. unfold pages in *. cbn in *.
  replace (length cl) with (length (map PClosed cl)) by apply map_length. eapply lay0_upd_app; eauto.
Qed.
Lemma lay_part f cl sl sl' k bad pg : layok n (mklay f cl (Some sl) k bad) pg ->
  layok n (mklay f cl (Some sl') k bad) (upd pg ((f + length cl) mod n) (PPart sl')).
Proof.
  intros [L B]. split; auto. unfold pages in *. cbn in *.
  replace (length cl) with (length (map PClosed cl)) by apply map_length. eapply lay0_upd_app; eauto.
Qed.
Lemma lay_close f cl sl k bad pg : layok n (mklay f cl (Some sl) k bad) pg ->
  layok n (mklay f (cl ++ [sl]) None k bad) (upd pg ((f + length cl) mod n) (PClosed sl)).
Proof.
  intros [L B]. split; auto. unfold pages in *. cbn in *.
  replace (length cl) with (length (map PClosed cl)) by apply map_length. rewrite map_app, <- app_assoc. cbn. eapply lay0_upd_app; eauto.
Qed.
Lemma lay_erase0 f o cl pt k pg x : layok n (mklay f (o :: cl) pt k 0) pg ->
  lay0 n ((f + 1) mod n) (map PClosed cl ++ map PPart (ptl pt) ++ repeat POpen k ++ [x]) (upd pg f x).
Proof.
  intros [L B]. unfold pages in *. cbn in *. rewrite app_nil_r in L.
  replace (map PClosed cl ++ map PPart (ptl pt) ++ repeat POpen k ++ [x]) with
    ((map PClosed cl ++ map PPart (ptl pt) ++ repeat POpen k) ++ [x]) by now rewrite <- !app_assoc.
  apply lay0_rot; auto. pose proof (lay0_upd_app n f [] _ _ x pg npos L) as H. cbn in H.
  rewrite Nat.add_0_r, Nat.mod_small in H by apply L. exact H.
Qed.
Lemma lay_erase f o cl pt k pg : layok n (mklay f (o :: cl) pt k 0) pg ->
  layok n (mklay ((f + 1) mod n) cl pt (S k) 0) (upd pg f POpen).
Proof.
  intros H. split; [|cbn; lia]. pose proof (lay_erase0 f o cl pt k pg POpen H) as E. unfold pages. cbn [y_f y_cl y_pt y_k y_bad].
  cbn [repeat]. rewrite app_nil_r. replace (POpen :: repeat POpen k) with (repeat POpen k ++ [POpen]); auto.
  clear. induction k; cbn; auto. now rewrite IHk.
Qed.
Lemma lay_tear f o cl pt k pg : layok n (mklay f (o :: cl) pt k 0) pg ->
  layok n (mklay ((f + 1) mod n) cl pt k 1) (upd pg f PBad).
Proof. intros H. split; [|cbn; lia]. exact (lay_erase0 f o cl pt k pg PBad H). Qed.
Lemma lay_repair f cl pt k bad pg pg' : layok n (mklay f cl pt k bad) pg -> (forall p, p < n -> pg' p = rep (pg p)) ->
  layok n (mklay f cl pt (k + bad) 0) pg'.
Proof.
  intros [(Hf & L & H) B] R. split; [|cbn; lia]. split; auto. unfold pages in *. cbn [y_f y_cl y_pt y_k y_bad] in *. cbn [repeat] in *.
  split. { rewrite !app_length, !map_length, !repeat_length in *. cbn. lia. }
  intros i Hi. rewrite R by (apply Nat.mod_upper_bound; lia). rewrite H by auto.
  rewrite app_nil_r, repeat_app. transitivity (nth i (map rep (map PClosed cl ++ map PPart (ptl pt) ++ repeat POpen k ++ repeat PBad bad)) POpen).
  { rewrite <- (map_nth rep). reflexivity. }
  f_equal. rewrite !map_app, !map_map. cbn [rep]. f_equal. f_equal. f_equal; [clear; induction k; cbn; congruence|].
  clear. induction bad; cbn; congruence.
Qed.
Lemma lay_len f cl pt k bad pg : layok n (mklay f cl pt k bad) pg -> f < n /\ length cl + length (ptl pt) + k + bad = n /\ bad <= 1.
Proof. intros [(A & B & _) C]. rewrite pages_len in B. auto. Qed.

Lemma lay_at_part f cl sl k bad pg : layok n (mklay f cl (Some sl) k bad) pg -> pg ((f + length cl) mod n) = PPart sl.
Proof.
  intros [L _]. unfold pages in L. cbn in L. apply lay0_at in L. now rewrite map_length in L.
Qed.
Lemma lay_at_cl f c1 o c2 pt k bad pg : layok n (mklay f (c1 ++ o :: c2) pt k bad) pg -> pg ((f + length c1) mod n) = PClosed o.
Proof.
  intros [L _]. unfold pages in L. cbn in L. rewrite map_app in L. cbn in L. rewrite <- app_assoc in L. apply lay0_at in L. now rewrite map_length in L.
Qed.
Lemma lay_at_open f cl pt k bad pg i : layok n (mklay f cl pt k bad) pg -> i < k -> pg ((f + (length cl + length (ptl pt) + i)) mod n) = POpen.
Proof.
  intros H Hi. pose proof (lay_len _ _ _ _ _ _ H) as (A & B & _). destruct H as [(_ & _ & H) _]. rewrite H by lia.
  unfold pages. cbn. rewrite app_nth2 by (rewrite map_length; lia). rewrite map_length, app_nth2 by (rewrite map_length; lia).
  rewrite map_length, app_nth1 by (rewrite repeat_length; lia). rewrite nth_repeat'. destruct (_ <? _); auto.
Qed.
Lemma lay_at_bad f cl pt k pg : layok n (mklay f cl pt k 1) pg -> pg ((f + (n - 1)) mod n) = PBad.
Proof.
  intros H. pose proof (lay_len _ _ _ _ _ _ H) as (A & B & _). destruct H as [(_ & _ & H) _]. rewrite H by lia.
  unfold pages. cbn. rewrite !app_assoc. rewrite app_nth2; rewrite !app_length, !map_length, repeat_length; [|lia].
  replace (n - 1 - _) with 0 by lia. reflexivity.
Qed.
End Trans.

Section Push.
Context (g : geom) (gok : geom_ok g) (ws ae : bool) (aw : nat).
Notation W := (W g).
Notation HL := (HL g).
Notation rup := (rup g).
Notation NP := (NP g).
Notation st := (st unit).
Implicit Types (s : st) (pg : nat -> page) (Y : lay).
Notation world := (world g ws ae aw).
Notation crashed := (crashed g ws ae aw).
Notation sworld := (sworld g ws ae aw).

Lemma npos : 1 <= NP. Proof. pose proof (NP_pos g gok). lia. Qed.

(** What a power failure may leave is described by a set of layouts. *)
Definition okout {A} (O : res A * list dop * lay) (f0 : flash) (a : A) s : Prop :=
  let '(r, L, Y') := O in
  r = Ok a /\ exists pg', layok NP Y' pg' /\ qinv Y' /\ world pg' f0 L s.
Definition crout (L : list dop) (C : lay -> Prop) (f0 : flash) (e : err) s : Prop :=
  e = EStorage SShutoff /\ exists Yc pg', C Yc /\ layok NP Yc pg' /\ qinv Yc /\ crashed pg' f0 L s.
Definition erout {A} (O : res A * list dop * lay) (f0 : flash) (e : err) s : Prop :=
  let '(r, L, Y') := O in
  r = Err e /\ exists pg', layok NP Y' pg' /\ qinv Y' /\ world pg' f0 L s.

Definition y_cur Y : nat := (y_f Y + y_c Y) mod NP.
Definition y_sl Y : list slot := match y_pt Y with Some sl => sl | None => [] end.
Definition y_start Y : lay :=
  match y_pt Y with Some _ => Y | None => mklay (y_f Y) (y_cl Y) (Some []) (y_k Y - 1) (y_bad Y) end.
Definition y_put Y d : lay := mklay (y_f Y) (y_cl Y) (Some (y_sl Y ++ [SLive d])) (y_k Y) (y_bad Y).
Definition y_roll Y d : lay := mklay (y_f Y) (y_cl Y ++ [y_sl Y]) (Some [SLive d]) (y_k Y - 1) (y_bad Y).
Definition y_drop Y : lay := mklay ((y_f Y + 1) mod NP) (tl (y_cl Y)) (y_pt Y) (S (y_k Y)) (y_bad Y).

Definition ypush (yg : bool) Y (d : list N) (ow : bool) : res unit * list dop * lay :=
  if too_big g (length d) then (Err EItemTooBig, [], Y)
  else if negb yg then (Err ECorrupted, [], Y)
  else
    let cur := y_cur Y in
    let nxt := next_page g cur in
    let Y1 := y_start Y in
    let L1 := match y_pt Y with None => [DW (paddr g cur) (zeros g)] | Some _ => [] end in
    let sl := y_sl Y1 in
    if fitsb g sl (length d) then (Ok tt, L1 ++ item_ops g (dstart g cur + sizes g sl) d, y_put Y1 d)
    else if 1 <=? y_k Y1 then
      (Ok tt, [DW (dend g cur) (zeros g); DW (paddr g nxt) (zeros g)] ++ item_ops g (dstart g nxt) d, y_roll Y1 d)
    else if y_bad Y1 =? 1 then (Err ECorrupted, [], Y1)
    else
      match y_cl Y1 with
      | o :: _ =>
          if ow || emptyish o then
            (Ok tt, [DE nxt; DW (dend g cur) (zeros g); DW (paddr g nxt) (zeros g)] ++ item_ops g (dstart g nxt) d, y_roll (y_drop Y1) d)
          else (Err EFull, [], Y1)
      | [] =>
          if ow then (Ok tt, [DE cur; DW (paddr g cur) (zeros g)] ++ item_ops g (dstart g cur) d,
                      mklay 0 [] (Some [SLive d]) 0 0)
          else (Err EFull, [], Y1)
      end.

Definition isyoung pg : bool := match young g pg with Some _ => true | None => false end.

Definition ysmall (B : nat) Y : Prop := Forall (Forall (fits_buf g B)) (uslots Y).

(** Layouts a cut push may leave: old contents, perhaps without the oldest page, perhaps with the new item. *)
Definition cpush Y (d : list N) (Y' : lay) (Yc : lay) : Prop :=
  (content Yc = content Y \/ content Yc = content Y' \/ content Y' = content Yc ++ [d]) /\
  forall B, ysmall B Y -> rup (length d) <= B -> ysmall B Yc.

Definition dok (d : list N) : Prop := Forall is_byte d.
Definition tear_ok (d : list N) : Prop := ws = true \/ torn_safe d /\ (8 <= W \/ HL <= aw).

Lemma mod_lt x : x mod NP < NP. Proof. pose proof npos. apply Nat.mod_upper_bound. lia. Qed.
Lemma nxt_mod x : next_page g (x mod NP) = (x + 1) mod NP.
Proof. pose proof npos. unfold next_page. rewrite Nat.add_mod_idemp_l by lia. reflexivity. Qed.

Lemma ring_of Y pg : layok NP Y pg -> ring_ex g pg.
Proof. intros H. exists (y_f Y), (y_c Y), (y_b Y), (y_k Y), (y_bad Y). apply lay_ring; auto. apply npos. Qed.

Lemma small_app B f cl pt k bad : ysmall B (mklay f cl pt k bad) <-> Forall (Forall (fits_buf g B)) cl /\ Forall (fits_buf g B) (match pt with Some sl => sl | None => [] end).
Proof.
  unfold ysmall, uslots. cbn. rewrite Forall_app. destruct pt; cbn; split; intros [A C]; split; auto; try now inversion C.
Qed.

Lemma too_big_fits (d : list N) : too_big g (length d) = false -> fitsb g [] (length d) = true /\ (N.of_nat (length d) <= 65535)%N.
Proof.
  unfold too_big, max_item. intros H. unfold fitsb, cap. change (sizes g []) with 0.
  pose proof (rup_min g gok (length d) (ES g - 2 * W - HL)) as R. pose proof (ES_big g gok).
  assert (al g (ES g - 2 * W - HL)) by (apply al_sub; auto with al; apply al_sub; auto with al; replace (2 * W) with (W + W) by lia; auto with al).
  apply orb_false_iff in H. destruct H as [X1 X2]. split; [|lia].
  apply Nat.leb_le. specialize (R ltac:(assumption)). lia.
Qed.

Lemma wp_young pg f0 L (Q : nat -> st -> Prop) (E : err -> st -> Prop) s :
  world pg f0 L s -> ring_ex g pg ->
  (forall s' p, young g pg = Some p -> world pg f0 L s' -> fr s s' -> Q p s') ->
  (forall s', young g pg = None -> world pg f0 L s' -> fr s s' -> E ECorrupted s') ->
  wp (find_youngest g) Q E s.
Proof.
  intros Wd RE HQ HE. unfold find_youngest, young in *. apply wp_bind. eapply wp_find_first; eauto.
  2:{ intros s' F W1 Fr. rewrite F in *. apply HE; auto. }
  intros s1 r F W1 Fr1 _ _ _. rewrite F in *. destruct r as [p|]; [apply wp_ret; auto|].
  apply wp_bind. eapply wp_find_first; eauto.
  2:{ intros s' F2 W2 Fr2. rewrite F2 in *. apply HE; auto. eapply fr_trans; eauto. }
  intros s2 r F2 W2 Fr2 _ _ _. rewrite F2 in *. pose proof (fr_trans _ _ _ Fr1 Fr2) as Fr12. apply wp_bind. destruct r as [a|].
  - eapply wp_find_first; eauto.
    + intros s3 r F3 W3 Fr3 _ _ _. rewrite F3 in *. pose proof (fr_trans _ _ _ Fr12 Fr3). destruct r; [apply wp_ret|apply wp_fail]; auto.
    + intros s3 F3 W3 Fr3. rewrite F3 in *. apply HE; auto. eapply fr_trans; eauto.
  - apply wp_ret. apply wp_ret. auto.
Qed.
Lemma wp_oldest pg f0 L (Q : nat -> st -> Prop) (E : err -> st -> Prop) s :
  world pg f0 L s -> ring_ex g pg ->
  (forall s' p, oldest g pg = Some p -> world pg f0 L s' -> fr s s' -> Q p s') ->
  (forall s', oldest g pg = None -> world pg f0 L s' -> fr s s' -> E ECorrupted s') ->
  wp (find_oldest g) Q E s.
Proof.
  intros Wd RE HQ HE. unfold find_oldest, oldest in *. apply wp_bind. eapply wp_young; eauto.
  2:{ intros s' F W1 Fr. rewrite F in *. apply HE; auto. }
  intros s1 y F W1 Fr1. rewrite F in *. apply wp_bind. eapply wp_find_first; eauto.
  2:{ intros s' F2 W2 Fr2. rewrite F2 in *. apply HE; auto. eapply fr_trans; eauto. }
  intros s2 r F2 W2 Fr2 _ _ _. rewrite F2 in *. pose proof (fr_trans _ _ _ Fr1 Fr2). apply wp_ret. destruct r; auto.
Qed.

Lemma wp_unmark {B} (f : unit -> M unit B) (Q : B -> st -> Prop) E s :
  wp (f tt) Q E (set_ca s (set_dirty (s_ca s) false)) -> wp (bind c_unmark f) Q E s.
Proof. auto. Qed.
Lemma wp_unmark1 (Q : unit -> st -> Prop) E s : Q tt (set_ca s (set_dirty (s_ca s) false)) -> wp c_unmark Q E s.
Proof. auto. Qed.
Lemma world_unmark pg f0 L s : world pg f0 L s -> world pg f0 L (set_ca s (set_dirty (s_ca s) false)).
Proof. intros (A & B & C). split; [exact A|]. split; [exact B|]. exact C. Qed.

(** Writing the new item into the partially open page. *)
Lemma wp_push_put Y pg f0 L d sl s (Q : unit -> st -> Prop) (E : err -> st -> Prop) :
  layok NP Y pg -> qinv Y -> y_pt Y = Some sl -> world pg f0 L s -> dok d -> (N.of_nat (length d) <= 65535)%N ->
  fitsb g sl (length d) = true -> tear_ok d ->
  (forall s' pg', layok NP (y_put Y d) pg' -> qinv (y_put Y d) -> world pg' f0 (L ++ item_ops g (dstart g (y_cur Y) + sizes g sl) d) s' -> Q tt s') ->
  (forall s' pg' Yc, cpush Y d (y_put Y d) Yc -> layok NP Yc pg' -> qinv Yc ->
     crashed pg' f0 (L ++ item_ops g (dstart g (y_cur Y) + sizes g sl) d) s' -> E (EStorage SShutoff) s') ->
  wp (write_new g (dstart g (y_cur Y) + sizes g sl) d ;;; c_unmark) Q E s.
Proof.
  intros LY QI EP Wd DO DL FI TO HQ HE. destruct Y as [f cl pt k bad]. cbn [y_pt] in EP. subst pt.
  unfold y_cur, y_put, y_c, y_sl in *. cbn [y_f y_cl y_pt y_k y_bad] in *.
  assert (QI' : forall sl', qinv (mklay f cl (Some sl') k bad)).
  { intros sl'. destruct QI as (A & B & C). unfold qinv, y_c, y_b in *. cbn in *. split; [discriminate|]. split; [lia|lia]. }
  apply wp_bind. unfold wp at 1. rewrite write_new_raw by auto. set (c := write_raw _ _ _ _).
  change (wp c (fun _ s' => wp c_unmark Q E s') E s). unfold c.
  apply (wp_write_item g gok ws ae aw ((f + length cl) mod NP) d sl _ pg f0 L); auto.
  - apply mod_lt.
  - eapply lay_at_part; eauto.
  - split; auto.
  - intros s' W' Fr' _. apply wp_unmark1. eapply HQ; [|apply QI'|].
    + eapply lay_part; [apply npos|exact LY].
    + apply world_unmark. exact W'.
  - intros s' tl TI CR. apply (HE s' _ (mklay f cl (Some (sl ++ tl)) k bad)) in CR; [exact CR| | |apply QI'].
    + split.
      * rewrite !content_app, !live_app. destruct TI as [->|[[-> _]|[->| ->]]]; cbn [live_of flat_map]; rewrite ?app_nil_r; auto.
      * intros B SB RB. rewrite small_app in *. destruct SB as [S1 S2]. split; auto. apply Forall_app. split; auto.
        destruct TI as [->|[[-> _]|[->| ->]]]; repeat constructor; auto.
    + eapply lay_part; [apply npos|exact LY].
Qed.

Lemma crashed_pre pg f0 L1 L s : crashed pg f0 L1 s -> (exists L2, L = L1 ++ L2) -> crashed pg f0 L s.
Proof. intros C (L2 & ->). now apply crashed_app. Qed.
Lemma wp_bind_inv {A B} (c : M unit A) (f : A -> M unit B) (Q : B -> st -> Prop) E s :
  wp (bind c f) Q E s -> wp c (fun a s' => wp (f a) Q E s') E s.
Proof. unfold wp, bind. destruct (c s) as [[a|e] s']; auto. Qed.
Definition single_ok : Prop := ws = true \/ ae = true \/ 2 <= NP.

Lemma cpush_refl Y d Y' Yc : content Yc = content Y -> (forall B, ysmall B Y -> ysmall B Yc) -> cpush Y d Y' Yc.
Proof. intros A B. split; auto. Qed.

Lemma wp_roll f cl sl k bad pg f0 L d cur nxt s (Q : unit -> st -> Prop) (E : err -> st -> Prop) :
  let Y := mklay f cl (Some sl) (S k) bad in
  let L' := L ++ [DW (dend g cur) (zeros g); DW (paddr g nxt) (zeros g)] ++ item_ops g (dstart g nxt) d in
  cur = y_cur Y -> nxt = next_page g cur -> layok NP Y pg -> qinv Y -> world pg f0 L s ->
  kn s cur PartialOpen -> kn s nxt Open -> dok d -> (N.of_nat (length d) <= 65535)%N -> fitsb g [] (length d) = true -> tear_ok d ->
  (forall s' pg', layok NP (y_roll Y d) pg' -> qinv (y_roll Y d) -> world pg' f0 L' s' -> Q tt s') ->
  (forall s' pg' Yc, content Yc = content Y \/ content Yc = content (y_roll Y d) ->
     (forall B, ysmall B Y -> rup (length d) <= B -> ysmall B Yc) -> layok NP Yc pg' -> qinv Yc ->
     crashed pg' f0 L' s' -> E (EStorage SShutoff) s') ->
  wp (a <- (close_page g cur ;;; partial_close g nxt ;;; ret (dstart g nxt)) ;; write_new g a d ;;; c_unmark) Q E s.
Proof.
  intros Y L' Ecur Enxt LY QI Wd K1 K2 DO DL FI0 TO HQ HE. pose proof npos as NPOS.
  pose proof (lay_len _ _ _ _ _ _ _ LY) as (Hf & TOT & BAD). cbn [ptl length] in TOT.
  assert (Hcur : cur < NP) by (rewrite Ecur; apply mod_lt).
  assert (Hnxt : nxt < NP) by (rewrite Enxt; apply (next_page_lt g gok)).
  assert (EN : nxt = (f + length (cl ++ [sl])) mod NP).
  { rewrite Enxt, Ecur. unfold y_cur, y_c. cbn. rewrite nxt_mod, app_length. cbn. f_equal. lia. }
  assert (PC : pos NP f cur = length cl). { rewrite Ecur. unfold y_cur, y_c. cbn. apply pos_mod; auto. lia. }
  assert (PG : pg cur = PPart sl) by (rewrite Ecur; exact (lay_at_part _ _ _ _ _ _ _ LY)).
  pose proof QI as (Q1 & Q2 & Q3). unfold y_b, y_c in Q2, Q3. cbn [y_f y_cl y_pt y_k y_bad ptl length Y] in Q1, Q2, Q3.
  set (Y2 := mklay f (cl ++ [sl]) None (S k) bad).
  set (Y3 := mklay f (cl ++ [sl]) (Some []) k bad).
  assert (QI2 : qinv Y2). { unfold qinv, y_b, y_c, Y2. cbn. rewrite app_length. cbn. split; [intros; try discriminate; lia|]. split; intros; lia. }
  assert (QI3 : qinv Y3). { unfold qinv, y_b, y_c, Y3. cbn. rewrite app_length. cbn. split; [intros; try discriminate; lia|]. split; intros; lia. }
  assert (C2 : content Y2 = content Y). { unfold Y2, Y. rewrite !content_app, flat_map_app. cbn. now rewrite !app_nil_r. }
  assert (C3 : content Y3 = content Y). { unfold Y3, Y. rewrite !content_app, flat_map_app. cbn. now rewrite !app_nil_r. }
  assert (S2 : forall B, ysmall B Y -> ysmall B Y2). { intros B H. unfold Y, Y2 in *. rewrite small_app in *. destruct H. split; auto. apply Forall_app. auto. }
  assert (S3 : forall B, ysmall B Y -> ysmall B Y3). { intros B H. unfold Y, Y3 in *. rewrite small_app in *. destruct H. split; auto. apply Forall_app. auto. }
  apply wp_bind. apply wp_bind.
  pose proof (lay_ring NP _ pg NPOS LY) as R. unfold y_c, y_b in R. cbn [y_f y_cl y_pt y_k y_bad ptl length] in R.
  apply (wp_close_page g gok ws ae aw cur f (length cl) k bad sl pg f0 L);
    [exact Wd|exact R|exact Hcur|exact PC|exact PG|exact K1|rewrite <- Enxt; exact K2| |].
  2:{ intros s1 x X CR. assert (CR' : crashed (upd pg cur x) f0 L' s1).
      { eapply crashed_pre; [exact CR|]. exists ([DW (paddr g nxt) (zeros g)] ++ item_ops g (dstart g nxt) d). unfold L'. rewrite <- app_assoc. reflexivity. }
      destruct X as [->| ->].
      - eapply (HE s1 _ Y); [auto|auto| |exact QI|exact CR']. apply lay_same; auto.
      - eapply (HE s1 _ Y2); [auto|auto| |exact QI2|exact CR']. rewrite Ecur. apply lay_close; auto. }
  intros s1 W1 _. assert (LY2 : layok NP Y2 (upd pg cur (PClosed sl))) by (rewrite Ecur; apply lay_close; auto).
  assert (PN : upd pg cur (PClosed sl) nxt = POpen).
  { pose proof (lay_at_open NP NPOS f (cl ++ [sl]) None (S k) bad _ 0 LY2 ltac:(lia)) as X. cbn [ptl length] in X. rewrite !Nat.add_0_r in X. rewrite EN. exact X. }
  apply wp_bind. pose proof (lay_ring NP _ _ NPOS LY2) as R2. unfold y_c, y_b in R2. cbn [y_f y_cl y_pt y_k y_bad ptl length Y2] in R2.
  apply (wp_partial_close_open g gok ws ae aw nxt f (length (cl ++ [sl])) k bad (upd pg cur (PClosed sl)) f0 (L ++ [DW (dend g cur) (zeros g)]));
    [exact W1|exact R2|left; rewrite app_length; cbn; lia|exact Hnxt|rewrite EN; apply pos_mod; auto; rewrite app_length; cbn; lia|exact PN| |].
  2:{ intros s2 x X CR. assert (CR' : crashed (upd (upd pg cur (PClosed sl)) nxt x) f0 L' s2).
      { eapply crashed_pre; [exact CR|]. exists (item_ops g (dstart g nxt) d). unfold L'. rewrite <- !app_assoc. reflexivity. }
      destruct X as [->| ->].
      - eapply (HE s2 _ Y2); [auto|auto| |exact QI2|exact CR']. apply lay_same; auto.
      - eapply (HE s2 _ Y3); [auto|auto| |exact QI3|exact CR']. rewrite EN. apply lay_start; auto. }
  intros s2 W2 _ _. apply wp_ret.
  assert (LY3 : layok NP Y3 (upd (upd pg cur (PClosed sl)) nxt (PPart []))) by (rewrite EN; apply lay_start; auto).
  assert (DS : dstart g nxt = dstart g (y_cur Y3) + sizes g []).
  { change (sizes g []) with 0. rewrite Nat.add_0_r. f_equal. exact EN. }
  assert (EL : (L ++ [DW (dend g cur) (zeros g)]) ++ [DW (paddr g nxt) (zeros g)] ++ item_ops g (dstart g nxt) d = L').
  { unfold L'. rewrite <- app_assoc. reflexivity. }
  assert (ER : y_put Y3 d = y_roll Y d).
  { unfold Y3, Y, y_put, y_roll, y_sl. cbn. f_equal. lia. }
  rewrite DS at 1. apply (wp_push_put _ _ f0 _ d [] _ _ _ LY3 QI3 eq_refl W2); auto.
  - intros s3 pg3 L3 Q3' W3. rewrite ER in *. rewrite <- DS, <- app_assoc, EL in W3. eauto.
  - intros s3 pg3 Yc [CP CB] L3 Q3' CR. rewrite ER in *. rewrite <- DS, <- app_assoc, EL in CR. eapply HE; [| |exact L3|exact Q3'|exact CR].
    + rewrite C3 in CP. destruct CP as [CP|[CP|CP]]; auto. left. 
      assert (X : content (y_roll Y d) = content Y ++ [d]).
      { unfold Y, y_roll, y_sl. cbn [y_cl y_pt y_f y_k y_bad]. rewrite !content_app, flat_map_app. cbn. now rewrite app_nil_r, <- app_assoc. }
      rewrite X in CP. apply app_inj_tail in CP. symmetry. apply CP.
    + auto.
Qed.

Ltac wp_bind_inv' := match goal with |- wp _ (fun a s' => wp (write_new ?g a ?d ;;; c_unmark) ?Q ?E s') _ ?s => apply (wp_bind_inv _ (fun a => write_new g a d ;;; c_unmark) Q E s) end.

Lemma wp_push_inner Y pg d ow s :
  layok NP Y pg -> qinv Y -> sworld pg s -> dok d -> tear_ok d -> single_ok ->
  forall O, O = ypush (isyoung pg) Y d ow ->
  wp (push_inner g d ow) (okout O (s_fl s))
     (fun e s' => erout O (s_fl s) e s' \/ crout (snd (fst O)) (cpush Y d (snd O)) (s_fl s) e s') s.
Proof.
  intros LY QI SW DO TO SG O EO. pose proof npos as NPOS.
  unfold push_inner. apply wp_bind. apply (wp_check_dirty g ws ae aw pg); auto.
  intros s1 Wd _ _ _ FL _. set (f0 := s_fl s) in *. clearbody f0. clear SW FL s.
  unfold ypush in EO. destruct (too_big g (length d)) eqn:TB.
  { apply wp_unmark. apply wp_fail. left. rewrite EO. split; [reflexivity|]. exists pg. split; [auto|split; [auto|apply world_unmark; auto]]. }
  destruct (too_big_fits d TB) as [FI0 DL].
  apply wp_bind. apply (wp_young pg f0 []); auto. { eapply ring_of; eauto. }
  2:{ intros s2 YN W2 _. left. rewrite EO. unfold isyoung. rewrite YN. split; [reflexivity|]. exists pg. auto. }
  intros s2 cur YS W2 _. assert (EY : isyoung pg = true) by (unfold isyoung; now rewrite YS). rewrite EY in EO. cbn [negb] in EO.
  destruct (young_ok g gok Y pg LY QI) as [YE|[YE _]]; [|congruence]. rewrite YS in YE. injection YE as EC.
  fold (y_cur Y) in EC. subst cur. clear YS EY s1 Wd.
  destruct Y as [f cl pt k bad]. pose proof (lay_len _ _ _ _ _ _ _ LY) as (Hf & TOT & BAD).
  pose proof QI as (Q1 & Q2 & Q3). unfold y_b, y_c in Q2, Q3. cbn [y_f y_cl y_pt y_k y_bad] in Q1, Q2, Q3.
  remember (y_cur (mklay f cl pt k bad)) as cur eqn:Ecur. assert (Hcur : cur < NP) by (rewrite Ecur; apply mod_lt).
  assert (PC : pos NP f cur = length cl). { rewrite Ecur. unfold y_cur, y_c. cbn. apply pos_mod; auto. destruct pt; cbn in TOT; [lia|]. specialize (Q1 eq_refl). lia. }
  destruct pt as [sl|].
  - (* the page is already in use *)
    assert (PG : pg cur = PPart sl) by (rewrite Ecur; exact (lay_at_part _ _ _ _ _ _ _ LY)).
    apply wp_bind. apply (wp_partial_close_other g gok ws ae aw cur pg f0 []); auto. { eapply ring_of; eauto. } { rewrite PG. discriminate. }
    2:{ rewrite PG. discriminate. }
    intros s3 x Sx W3 _ (OB & _) _. rewrite PG in Sx. injection Sx as <-. specialize (OB eq_refl).
    apply (wp_ok _ _ _ _ _ _ _ (find_free_eq g gok ws ae aw pg f0 [] s3 cur (length d) W3 Hcur ltac:(rewrite PG; exact I))).
    rewrite PG. cbn [slots_of]. cbn [y_start y_pt y_sl] in EO. cbn [y_pt y_sl y_start] in *.
    destruct (fitsb g sl (length d)) eqn:FI.
    { apply (wp_ok (ret _) _ _ _ s3 _ s3 eq_refl). subst cur. eapply wp_push_put; eauto; try reflexivity.
      - intros s' pg' L' Q' W'. rewrite EO. split; [reflexivity|]. exists pg'. cbn [app] in *. auto.
      - intros s' pg' Yc CP L' Q' W'. right. rewrite EO. cbn [fst snd]. split; auto. exists Yc, pg'. cbn [app] in *. auto. }
    cbn [y_k y_bad y_cl] in EO.
    cbv zeta. remember (next_page g cur) as nxt eqn:Enxt. assert (Hnxt : nxt < NP) by (rewrite Enxt; apply (next_page_lt g gok)).
    assert (EN : nxt = (f + (length cl + 1)) mod NP).
    { rewrite Enxt, Ecur. unfold y_cur, y_c. cbn. rewrite nxt_mod. f_equal. lia. }
    apply wp_bind. apply wp_bind.
    destruct k as [|k].
    + (* no erased page ahead *)
      cbn [Nat.leb] in EO. destruct bad as [|bad].
      * cbn [Nat.eqb] in EO. assert (EF : nxt = f).
        { rewrite EN. cbn in TOT. replace (f + (length cl + 1)) with (f + 1 * NP) by lia. rewrite Nat.mod_add by lia. now apply Nat.mod_small. }
        destruct cl as [|o cl].
        -- (* one page *)
           cbn in TOT. assert (f = 0) by lia. subst f. assert (C0 : cur = 0) by lia. clear EN PC Ecur Enxt. subst cur nxt.
           apply (wp_psc g gok ws ae aw 0 pg f0 []); auto. { eapply ring_of; eauto. }
           2:{ rewrite PG. discriminate. }
           intros s4 x Sx W4 _ (_ & OB2) _. rewrite PG in Sx. injection Sx as <-.
           destruct (OB2 0 Hcur OB) as [KN _].
           rewrite Nat.eqb_refl. cbn [pstate_eqb orb]. apply wp_bind. destruct ow.
           ++ apply wp_ret. cbn [negb].
              destruct (notice_T5 g gok pg (c_ps (s_ca s4)) 0 0 0 0) as (ps' & N1 & N2 & _); auto.
              { apply W4. } { pose proof (lay_ring NP _ pg NPOS LY) as R. exact R. } { rewrite PG. reflexivity. }
              apply wp_bind. apply (wp_open_page g gok ws ae aw 0 ps' pg f0 []); auto.
              { destruct SG as [SG|[SG|SG]]; [now left|right; now left|lia]. }
              2:{ intros s5 x TP CR. right. rewrite EO. cbn [fst snd]. split; [reflexivity|]. unfold torn_page in TP. rewrite PG in TP. destruct TP as [->|[]].
                  eexists _, _. split; [|split; [|split; [|eapply crashed_pre; [exact CR|eexists; reflexivity]]]]; [|apply (lay_same NP _ pg 0 LY); auto|exact QI].
                  apply cpush_refl; auto. }
              intros s5 W5 _ PS5. apply (wp_ok (ret tt) _ _ _ s5 tt s5 eq_refl). apply wp_bind.
              assert (LY5 : layok NP (mklay 0 [] None 1 0) (upd pg 0 POpen)).
              { split; [|cbn; lia]. split; [exact Hf|]. split; [cbn; lia|]. intros i Hi. replace i with 0 by lia. cbn.
                rewrite Nat.mod_0_l by lia. reflexivity. }
              assert (QI5 : qinv (mklay 0 [] None 1 0)) by (repeat split; cbn; auto; lia).
              apply (wp_partial_close_open g gok ws ae aw 0 0 0 0 0 (upd pg 0 POpen) f0 [DE 0]);
                [exact W5|exact (lay_ring NP _ _ NPOS LY5)|auto|auto|reflexivity|now rewrite upd_same| |].
              2:{ intros s6 x XX CR. right. rewrite EO. cbn [fst snd]. split; [reflexivity|]. eexists (match x with POpen => mklay 0 [] None 1 0 | _ => mklay 0 [] (Some []) 0 0 end), _.
                  split; [|split; [|split; [|eapply crashed_pre; [exact CR|eexists; reflexivity]]]].
                  - destruct XX as [->| ->]; (split; [right; right; reflexivity|]); intros B _ _; unfold ysmall, uslots; cbn; auto.
                  - destruct XX as [->| ->]; [apply lay_same; auto; now rewrite upd_same|].
                    pose proof (lay_start NP NPOS 0 [] 0 0 _ LY5) as L6. cbn [length] in L6. replace ((0 + 0) mod NP) with 0 in L6; auto.
                    rewrite Nat.mod_0_l by lia. auto.
                  - destruct XX as [->| ->]; auto. repeat split; cbn; auto; try lia; discriminate. }
              intros s6 W6 _ _. apply wp_ret.
              pose proof (lay_start NP NPOS 0 [] 0 0 _ LY5) as L6. cbn [length] in L6.
              replace ((0 + 0) mod NP) with 0 in L6 by (rewrite Nat.mod_0_l by lia; auto).
              assert (QI6 : qinv (mklay 0 [] (Some []) 0 0)) by (repeat split; cbn; auto; try lia; discriminate).
              replace (dstart g 0) with (dstart g (y_cur (mklay 0 [] (Some []) 0 0)) + sizes g []).
              2:{ change (sizes g []) with 0. unfold y_cur, y_c. cbn [y_f y_cl length]. rewrite Nat.mod_0_l by lia. rewrite Nat.add_0_r. reflexivity. }
              assert (DS : dstart g (y_cur (mklay 0 [] (Some []) 0 0)) + sizes g [] = dstart g 0).
              { change (sizes g []) with 0. unfold y_cur, y_c. cbn [y_f y_cl length]. rewrite Nat.mod_0_l by lia. rewrite Nat.add_0_r. reflexivity. }
              apply (wp_push_put _ _ f0 ([DE 0] ++ [DW (paddr g 0) (zeros g)]) d [] _ _ _ L6 QI6 eq_refl); auto.
              ** intros s7 pg7 L7 Q7 W7. rewrite EO. split; [reflexivity|]. exists pg7. rewrite DS in W7. auto.
              ** intros s7 pg7 Yc CP L7 Q7 CR. right. rewrite EO. cbn [fst snd]. split; auto. exists Yc, pg7. rewrite DS in CR. split; auto.
                 destruct CP as [CP CB]. split.
                 --- destruct CP as [CP|[CP|CP]]; [|right; left; exact CP|right; right; exact CP]. right. right. rewrite CP. reflexivity.
                 --- intros B _ RB. apply CB; auto. unfold ysmall, uslots. cbn. auto.
           ++ unfold is_page_empty. apply wp_bind. apply wp_ret. apply wp_ret. cbn [negb].
              apply wp_unmark. apply wp_fail. left. rewrite EO. split; [reflexivity|]. exists pg. split; [auto|split; [auto|apply world_unmark; auto]].
        -- (* the oldest page comes next *)
           assert (PF : pg nxt = PClosed o).
           { rewrite EF. pose proof (lay_at_cl NP f [] o cl (Some sl) 0 0 pg LY) as X. cbn in X. rewrite Nat.add_0_r, Nat.mod_small in X by auto. exact X. }
           assert (NC : nxt <> cur) by (intros X; rewrite X, PG in PF; discriminate).
           apply (wp_psc g gok ws ae aw nxt pg f0 []); auto. { eapply ring_of; eauto. } 2:{ rewrite PF. discriminate. }
           intros s4 x Sx W4 _ (_ & OB2) _. rewrite PF in Sx. injection Sx as <-. destruct (OB2 cur Hcur OB) as [KN _].
           assert (nxt =? cur = false) as EQ by now apply Nat.eqb_neq. rewrite EQ. cbn [pstate_eqb orb].
           apply wp_bind.
           assert (FULL : (if ow then ret false else e <- is_page_empty g nxt Closed ;; ret (negb e)) s4 = (Ok (negb (ow || emptyish o)), s4)).
           { destruct ow; auto. unfold bind. rewrite (is_page_empty_closed g gok ws ae aw pg f0 [] s4 nxt W4 Hnxt) by (rewrite PF; exact I).
             rewrite PF. reflexivity. }
           eapply wp_eq; [exact FULL|]. destruct (ow || emptyish o) eqn:OWE.
           2:{ cbn [negb]. apply wp_unmark. apply wp_fail. left. rewrite EO. split; [reflexivity|]. exists pg. split; [auto|split; [auto|apply world_unmark; auto]]. }
           cbn [negb]. pose proof (lay_ring NP _ pg NPOS LY) as R. unfold y_c, y_b in R. cbn [y_f y_cl y_pt y_k y_bad ptl length] in R.
           destruct (notice_T3 g gok pg (c_ps (s_ca s4)) f (length cl) 1 0) as (ps' & N1 & N2 & N3); [apply W4|exact R|].
           rewrite <- EF in N1, N2, N3. apply wp_bind. apply (wp_open_page g gok ws ae aw nxt ps' pg f0 []); auto.
           { right. right. rewrite PF. exact I. }
           2:{ intros s5 x TP CR. right. rewrite EO. cbn [fst snd]. split; [reflexivity|]. unfold torn_page in TP. rewrite PF in TP.
               assert (SM : forall B k' b', ysmall B (mklay f (o :: cl) (Some sl) 0 0) -> ysmall B (mklay ((f + 1) mod NP) cl (Some sl) k' b')).
               { intros B k' b' H. rewrite small_app in *. destruct H as [H1 H2]. inversion H1; subst. auto. }
               assert (CT : forall k' b', content (y_roll (y_drop (mklay f (o :: cl) (Some sl) 0 0)) d) = content (mklay ((f + 1) mod NP) cl (Some sl) k' b') ++ [d]).
               { intros k' b'. unfold y_roll, y_drop, y_sl. cbn [snd fst y_cl y_pt y_f y_k y_bad tl]. rewrite !content_app, flat_map_app. cbn. now rewrite ?app_nil_r, <- ?app_assoc. }
               destruct TP as [->|[->| ->]].
               - eexists _, _. split; [|split; [|split; [|eapply crashed_pre; [exact CR|eexists; reflexivity]]]]; [|apply (lay_same NP _ pg nxt LY); auto|exact QI].
                 apply cpush_refl; auto.
               - eexists (mklay ((f + 1) mod NP) cl (Some sl) 0 1), _. split; [|split; [|split; [|eapply crashed_pre; [exact CR|eexists; reflexivity]]]].
                 + split; [right; right; apply CT|]. auto.
                 + rewrite EF. eapply lay_tear; eauto.
                 + repeat split; cbn; try discriminate; try lia.
               - eexists (mklay ((f + 1) mod NP) cl (Some sl) 1 0), _. split; [|split; [|split; [|eapply crashed_pre; [exact CR|eexists; reflexivity]]]].
                 + split; [right; right; apply CT|]. auto.
                 + rewrite EF. eapply lay_erase; eauto.
                 + repeat split; cbn; try discriminate; try lia. }
           intros s5 W5 _ PS5. wp_bind_inv'.
           assert (LY5 : layok NP (mklay ((f + 1) mod NP) cl (Some sl) 1 0) (upd pg nxt POpen)) by (rewrite EF; eapply lay_erase; eauto).
           destruct (N3 cur Hcur KN) as [K5 K5'].
           assert (EC5 : cur = y_cur (mklay ((f + 1) mod NP) cl (Some sl) 1 0)).
           { rewrite Ecur. unfold y_cur, y_c. cbn [y_f y_cl length]. rewrite Nat.add_mod_idemp_l by lia. f_equal. lia. }
           cbn beta iota.
           apply (wp_roll ((f + 1) mod NP) cl sl 0 0 (upd pg nxt POpen) f0 ([] ++ [DE nxt]) d cur nxt s5); auto.
           { repeat split; cbn; try discriminate; try lia. }
           { unfold kn. now rewrite PS5. } { unfold kn. now rewrite PS5. }
           ++ intros s' pg' L' Q' W'. rewrite EO. split; [reflexivity|]. exists pg'. auto.
           ++ intros s' pg' Yc CP CB L' Q' CR. right. rewrite EO. cbn [fst snd]. split; [reflexivity|]. exists Yc, pg'.
              assert (SM : forall B, ysmall B (mklay f (o :: cl) (Some sl) 0 0) -> ysmall B (mklay ((f + 1) mod NP) cl (Some sl) 1 0)).
              { intros B H. rewrite small_app in *. destruct H as [H1 H2]. inversion H1; subst. auto. }
              split; [|split; [exact L'|split; [exact Q'|exact CR]]]. split; [|auto].
              destruct CP as [CP|CP]; [right; right|right; left; exact CP]. rewrite CP.
              unfold y_roll, y_drop, y_sl. cbn [snd fst y_cl y_pt y_f y_k y_bad tl]. rewrite !content_app, flat_map_app. cbn. now rewrite ?app_nil_r, <- ?app_assoc.
      * assert (bad = 0) by lia. subst bad. cbn [Nat.eqb] in EO. cbn [ptl length] in TOT.
        assert (PF : pg nxt = PBad).
        { rewrite EN. replace (length cl + 1) with (NP - 1) by lia. eapply lay_at_bad; eauto. }
        apply (wp_psc g gok ws ae aw nxt pg f0 []); auto. { eapply ring_of; eauto. } { rewrite PF. discriminate. }
        intros _. left. rewrite EO. split; [reflexivity|]. exists pg. auto.
    + (* an erased page ahead *)
      cbn [Nat.leb] in EO.
      assert (PF : pg nxt = POpen).
      { rewrite EN. pose proof (lay_at_open NP NPOS f cl (Some sl) (S k) bad pg 0 LY ltac:(lia)) as X. cbn [ptl length] in X. rewrite Nat.add_0_r in X. exact X. }
      apply (wp_psc g gok ws ae aw nxt pg f0 []); auto. { eapply ring_of; eauto. } 2:{ rewrite PF. discriminate. }
      intros s4 x Sx W4 _ (_ & OB2) _. rewrite PF in Sx. injection Sx as <-. destruct (OB2 cur Hcur OB) as [KN KN2].
      wp_bind_inv'. apply (wp_roll f cl sl k bad pg f0 [] d cur nxt s4); auto.
      * intros s' pg' L' Q' W'. rewrite EO. split; [reflexivity|]. exists pg'. auto.
      * intros s' pg' Yc CP CB L' Q' CR. right. rewrite EO. cbn [fst snd]. split; [reflexivity|]. exists Yc, pg'.
        split; [|split; [exact L'|split; [exact Q'|exact CR]]]. split; [tauto|auto].
  - (* the first use of an erased page *)
    specialize (Q1 eq_refl). destruct k as [|k]; [lia|]. cbn [ptl length] in *.
    assert (PG : pg cur = POpen).
    { pose proof (lay_at_open NP NPOS f cl None (S k) bad pg 0 LY ltac:(lia)) as X. cbn [ptl length] in X. rewrite !Nat.add_0_r in X. rewrite Ecur. exact X. }
    pose proof (lay_ring NP _ pg NPOS LY) as R. unfold y_c, y_b in R. cbn [y_f y_cl y_pt y_k y_bad ptl length] in R.
    assert (T1 : 1 <= length cl \/ cur = 0 /\ bad = 0).
    { destruct (Nat.eq_dec (length cl) 0) as [Z|Z]; [right|left; lia]. rewrite Q3 in * by lia. split; [|lia].
      rewrite Ecur. unfold y_cur, y_c. cbn [y_f y_cl]. rewrite Z. apply Nat.mod_0_l. lia. }
    cbn [y_start y_pt y_cl y_f y_k y_bad y_sl] in EO. rewrite FI0 in EO.
    assert (LS : layok NP (mklay f cl (Some []) k bad) (upd pg cur (PPart []))) by (rewrite Ecur; apply lay_start; auto).
    assert (QS : qinv (mklay f cl (Some []) k bad)).
    { unfold qinv, y_c, y_b. cbn. split; [discriminate|]. split; lia. }
    assert (CS : content (mklay f cl (Some []) k bad) = content (mklay f cl None (S k) bad)) by now rewrite !content_app.
    assert (SS : forall B, ysmall B (mklay f cl None (S k) bad) -> ysmall B (mklay f cl (Some []) k bad)) by (intros B; rewrite !small_app; auto).
    replace (S k - 1) with k in EO by lia.
    apply wp_bind. apply (wp_partial_close_open g gok ws ae aw cur f (length cl) k bad pg f0 []); [exact W2|exact R|exact T1|exact Hcur|exact PC|exact PG| |].
    2:{ intros s3 x X CR. right. rewrite EO. cbn [fst snd]. split; [reflexivity|].
        destruct X as [->| ->].
        - eexists _, _. split; [|split; [|split; [|eapply crashed_pre; [exact CR|eexists; reflexivity]]]]; [|apply (lay_same NP _ pg cur LY); auto|exact QI].
          apply cpush_refl; auto.
        - eexists _, _. split; [|split; [exact LS|split; [exact QS|eapply crashed_pre; [exact CR|eexists; reflexivity]]]].
          apply cpush_refl; auto. }
    intros s3 W3 _ _. set (pg1 := upd pg cur (PPart [])) in *. assert (PG1 : pg1 cur = PPart []) by apply upd_same.
    apply (wp_ok _ _ _ _ _ _ _ (find_free_eq g gok ws ae aw pg1 f0 _ s3 cur (length d) W3 Hcur ltac:(rewrite PG1; exact I))).
    rewrite PG1. cbn [slots_of]. rewrite FI0. apply (wp_ok (ret _) _ _ _ s3 _ s3 eq_refl).
    assert (EC1 : cur = y_cur (mklay f cl (Some []) k bad)) by (rewrite Ecur; reflexivity).
    rewrite EC1 at 1. apply (wp_push_put _ pg1 f0 ([] ++ [DW (paddr g cur) (zeros g)]) d [] _ _ _ LS QS eq_refl); auto; rewrite <- EC1.
    + intros s' pg' L' Q' W'. rewrite EO. split; [reflexivity|]. exists pg'. auto.
    + intros s' pg' Yc [CP CB] L' Q' CR. right. rewrite EO. cbn [fst snd]. split; [reflexivity|]. exists Yc, pg'.
      split; [|split; [exact L'|split; [exact Q'|exact CR]]]. split; [rewrite CS in CP; tauto|auto].
Qed.
End Push.
