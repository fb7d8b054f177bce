(** The queue iterator on layouts. *)
From Coq Require Import List NArith ZArith Arith Bool Lia ZifyBool ZifyNat ZifyN.
From Verif Require Import Base BaseP Crc CrcP Flash Cache State Item Generic Queue GeomP ScanP WpP ItemP CalcP PageP WorldP LayP QPushP QRepP.
Import ListNotations.
Local Opaque crc16 acrc crc32.

Section Iter.
Context (g : geom) (gok : geom_ok g) (ws ae : bool) (aw : nat).
Notation W := (W g).
Notation HL := (HL g).
Notation rup := (rup g).
Notation NP := (NP g).
Notation st := (st unit).
Implicit Types (s : st) (pg : nat -> page) (Y : lay).
Notation world := (world g ws ae aw).
Notation crashed := (crashed g ws ae aw).
Notation sworld := (sworld g ws ae aw).

(** Where an iterator stands: page number [j] of the used pages, with [pre] behind and [rest] ahead. *)
Definition itr Y pg (qi : qiter) (j : nat) (pre rest : list slot) : Prop :=
  j < Nat.max 1 (y_c Y + y_b Y) /\ nth j (uslots Y) [] = pre ++ rest /\
  (qi_next qi = NAddr (dstart g ((y_f Y + j) mod NP) + sizes g pre) \/
   (qi_next qi = NPageAfter ((y_f Y + j) mod NP) /\ rest = [])) /\
  (qi_prev qi = AllPopped -> j = 0 /\ live_of pre = []) /\
  (qi_prev qi = AllButCurrentPopped -> j = 0 /\ exists pre0 x, pre = pre0 ++ [x] /\ live_of pre0 = []) /\
  qi_oldest qi < NP /\ (qi_oldest qi = y_f Y \/ pg (qi_oldest qi) = POpen).

Definition before Y j pre : list (list N) := flat_map live_of (firstn j (uslots Y)) ++ live_of pre.
Definition remain Y j rest : list (list N) := live_of rest ++ flat_map live_of (skipn (S j) (uslots Y)).

Lemma split_content Y j pre rest : j < Nat.max 1 (y_c Y + y_b Y) -> nth j (uslots Y) [] = pre ++ rest -> content Y = before Y j pre ++ remain Y j rest.
Proof.
  intros J E. unfold content, before, remain. rewrite <- uslots_len in J. destruct (uslots Y) as [|u us] eqn:EU.
  - cbn in J. replace j with 0 in * by lia. cbn in E. symmetry in E. apply app_eq_nil in E. destruct E as [-> ->]. reflexivity.
  - rewrite <- EU in *. rewrite <- (firstn_skipn j (uslots Y)) at 1. rewrite flat_map_app, <- app_assoc. f_equal.
    assert (LJ : j < length (uslots Y)) by (rewrite EU in *; cbn in *; lia).
    assert (SK : skipn j (uslots Y) = nth j (uslots Y) [] :: skipn (S j) (uslots Y)).
    { clear -LJ. revert j LJ. induction (uslots Y) as [|a l IH]; intros j L; [cbn in L; lia|]. destruct j; cbn; auto. apply IH. cbn in L. lia. }
    rewrite SK, E. cbn [flat_map]. rewrite live_app, <- app_assoc. reflexivity.
Qed.

(** What the next call finds. *)
Inductive nres := NFound (d : list N) (post : list slot) | NNone | NSmall (n : nat) (rest : list slot).
Fixpoint search (B : nat) (rest : list slot) : nres :=
  match rest with
  | [] => NNone
  | x :: t =>
      match x with
      | SDead _ | SBad => search B t
      | SCorr n _ => if rup n <=? B then search B t else NSmall (rup n) rest
      | SLive d => if rup (length d) <=? B then NFound d t else NSmall (rup (length d)) rest
      end
  end.
(** [later] are the slots of the pages after page [p]; the result also says how many pages were passed. *)
Fixpoint nspec (B : nat) (ap : bool) (p : nat) (rest : list slot) (later : list (list slot)) : nres * list dop * nat :=
  match search B rest with
  | NNone =>
      match later with
      | [] => (NNone, [], 0)
      | sl :: t => let '(r, L, i) := nspec B ap (next_page g p) sl t in (r, (if ap then [DE p] else []) ++ L, S i)
      end
  | x => (x, [], 0)
  end.

Definition ydrops (i : nat) Y : lay := mklay ((y_f Y + i) mod NP) (skipn i (y_cl Y)) (y_pt Y) (y_k Y + i) (y_bad Y).

Definition isap (p : prevst) : bool := match p with AllPopped => true | _ => false end.
Definition after_next (p : prevst) : prevst := match p with AllPopped => AllButCurrentPopped | x => x end.

(** Outcome of the iterator's search. *)
Definition nout Y j pre rest (prev : prevst) (B : nat) (R : nres * list dop * nat) (f0 : flash) (L : list dop)
    (r : res (option (hdr * nat))) s : Prop :=
  let '(nr, ops, i) := R in
  let Y' := if isap prev then ydrops i Y else Y in
  let j' := if isap prev then 0 else j + i in
  exists pg' pre' rest', layok NP Y' pg' /\ qinv Y' /\ world pg' f0 (L ++ ops) s /\
    itr Y' pg' (s_qi s) j' pre' rest' /\ length (s_buf s) = B /\ content Y' = content Y /\
    match nr with
    | NFound d post => exists pre0, pre' = pre0 ++ [SLive d] /\ rest' = post /\
        r = Ok (Some (ihdr d, dstart g ((y_f Y' + j') mod NP) + sizes g pre0)) /\
        firstn (length d) (s_buf s) = d /\ length d <= B /\ qi_prev (s_qi s) = after_next prev /\
        before Y' j' pre0 = before Y j pre /\ remain Y j rest = d :: remain Y' j' rest'
    | NNone => r = Ok None /\ rest' = [] /\ qi_prev (s_qi s) = prev /\ before Y' j' pre' = before Y j pre /\ remain Y j rest = [] /\ remain Y' j' rest' = []
    | NSmall n rs => r = Err (EBufTooSmall n) /\ qi_prev (s_qi s) = prev /\ before Y' j' pre' = before Y j pre /\
        remain Y' j' rest' = remain Y j rest /\ exists l, rest' = l ++ rs /\ emptyish l = true
    end.

Definition mea (qi : qiter) (rest : list slot) (later : list (list slot)) : nat :=
  (match qi_next qi with NAddr _ => length rest + 2 | NPageAfter _ => 1 end) + list_sum (map (fun sl => S (length sl)) later).

Lemma search_skip B l r : emptyish l = true -> search B (l ++ r) = search B r.
Proof.
  induction l as [|x l IH]; cbn [app search]; auto. unfold emptyish. cbn [forallb]. intros H. apply andb_true_iff in H. destruct H as [H1 H2].
  specialize (IH H2). destruct x; auto; discriminate.
Qed.
Lemma emptyish_live l : emptyish l = true -> live_of l = [].
Proof.
  induction l as [|x l IH]; auto. unfold emptyish. cbn [forallb]. intros H. apply andb_true_iff in H. destruct H as [H1 H2].
  specialize (IH H2). unfold live_of in *. cbn [flat_map]. rewrite IH. destruct x; auto; discriminate.
Qed.
Lemma nspec_none B ap p rest rest' later : search B rest = search B rest' ->
  nspec B ap p rest later = nspec B ap p rest' later.
Proof. intros H. destruct later; cbn [nspec]; now rewrite H. Qed.
Lemma sizes_0 l : sizes g l = 0 -> l = [].
Proof. destruct l as [|x l]; auto. rewrite sizes_cons. pose proof (ssize_pos g gok x). lia. Qed.

(** Moving the split point over slots without live items. *)
Lemma nout_shift Y j pre l rest prev B R f0 L r s : live_of l = [] ->
  nout Y j (pre ++ l) rest prev B R f0 L r s -> nout Y j pre (l ++ rest) prev B R f0 L r s.
Proof.
  intros E. assert (E1 : before Y j (pre ++ l) = before Y j pre). { unfold before. now rewrite live_app, E, app_nil_r. }
  assert (E2 : remain Y j (l ++ rest) = remain Y j rest). { unfold remain. now rewrite live_app, E. }
  unfold nout. rewrite E1, E2. auto.
Qed.

(** The part of the loop after the page was chosen. *)
Definition scan_body (f p a : nat) : M unit (option (hdr * nat)) :=
  let e := dend g p in
  t <- traverse g (tfuel a e) is_erased_hdr a e ;;
  match t with
  | (Some h, fa, _) =>
      mi <- read_item g h fa (Some e) ;;
      qi <- get_qi ;;
      match mi with
      | MCorrupted h =>
          let nx := next_addr g fa h in
          put_qi (mkqi (if e <=? nx then NPageAfter p else NAddr nx) (qi_prev qi) (qi_oldest qi)) ;;;
          next_loop g f
      | MErased _ => fail ELogicBug
      | MPresent h =>
          let nx := next_addr g fa h in
          put_qi (mkqi (if e <=? nx then NPageAfter p else NAddr nx)
                       (match qi_prev qi with AllPopped => AllButCurrentPopped | x => x end)
                       (qi_oldest qi)) ;;;
          c_unmark ;;;
          ret (Some (h, fa))
      end
  | (None, _, _) =>
      qi <- get_qi ;;
      put_qi (mkqi (NPageAfter p) (qi_prev qi) (qi_oldest qi)) ;;;
      next_loop g f
  end.
Lemma next_loop_S f : next_loop g (S f) =
  (qi <- get_qi ;;
   pa <- match qi_next qi with
         | NPageAfter prev =>
             let nxt := next_page g prev in
             s <- page_state_c g nxt ;;
             if is_open s || (nxt =? qi_oldest qi) then c_unmark ;;; ret None
             else
               (match qi_prev qi with AllPopped => open_page g prev | _ => ret tt end) ;;;
               put_qi (mkqi (NAddr (dstart g nxt)) (qi_prev qi) (qi_oldest qi)) ;;;
               ret (Some (nxt, dstart g nxt))
         | NAddr a => ret (Some (pindex g a, a))
         end ;;
   match pa with
   | None => ret None
   | Some (p, a) => scan_body f p a
   end).
Proof. reflexivity. Qed.

Definition ncrash Y (e : err) (f0 : flash) (L : list dop) s : Prop :=
  e = EStorage SShutoff /\ exists Yc pg', content Yc = content Y /\ (forall B, ysmall g B Y -> ysmall g B Yc) /\
    layok NP Yc pg' /\ qinv Yc /\ crashed pg' f0 L s.

Definition later Y j : list (list slot) := skipn (S j) (uslots Y).
Definition nops (R : nres * list dop * nat) : list dop := snd (fst R).

Definition nloop_ok (fuel : nat) : Prop := forall Y pg s f0 L j pre rest B prev,
  layok NP Y pg -> qinv Y -> y_bad Y = 0 -> world pg f0 L s -> itr Y pg (s_qi s) j pre rest -> length (s_buf s) = B ->
  qi_prev (s_qi s) = prev -> prev <> AllButCurrentPopped -> mea (s_qi s) rest (later Y j) <= fuel ->
  forall R, R = nspec B (isap prev) ((y_f Y + j) mod NP) rest (later Y j) ->
  wp (next_loop g fuel) (fun r s' => nout Y j pre rest prev B R f0 L (Ok r) s')
     (fun e s' => nout Y j pre rest prev B R f0 L (Err e) s' \/ ncrash Y e f0 (L ++ nops R) s') s.

(** The page an iterator stands on. *)
Lemma it_page Y pg j pre rest : layok NP Y pg -> j < Nat.max 1 (y_c Y + y_b Y) -> nth j (uslots Y) [] = pre ++ rest -> qinv Y ->
  (used (pg ((y_f Y + j) mod NP)) /\ slots_of (pg ((y_f Y + j) mod NP)) = pre ++ rest) \/
  (pg ((y_f Y + j) mod NP) = POpen /\ pre = [] /\ rest = [] /\ j = 0 /\ uslots Y = []).
Proof.
  intros [L _] J E QI. pose proof (npos g gok) as N. destruct L as (Hf & LL & H). rewrite pages_len in LL.
  destruct (Nat.eq_dec (y_c Y + y_b Y) 0) as [Z|Z].
  - right. pose proof (uslots_len Y) as U. rewrite Z in U. destruct (uslots Y); [|discriminate].
    assert (j = 0) by lia. subst j. cbn in E. symmetry in E. apply app_eq_nil in E. destruct E as [-> ->].
    rewrite H by lia. split; [|auto]. unfold pages. destruct QI as (Q1 & Q2 & _).
    unfold y_c, y_b in *. destruct (y_cl Y); [|cbn in Z; lia]. destruct (y_pt Y); [cbn in Z; lia|]. specialize (Q1 eq_refl). cbn. destruct (y_k Y); [lia|]. reflexivity.
  - left. rewrite H by lia. destruct (nth_uslots Y j ltac:(lia)) as (A & B & _). rewrite B, E. auto.
Qed.

Lemma ydrops_0 Y pg prev j : layok NP Y pg -> (isap prev = true -> j = 0) ->
  (if isap prev then ydrops 0 Y else Y) = Y /\ (if isap prev then 0 else j + 0) = j.
Proof.
  intros LY HJ. destruct (isap prev); [|now rewrite Nat.add_0_r]. rewrite HJ by auto. split; auto.
  unfold ydrops. destruct Y; cbn in *. rewrite !Nat.add_0_r. f_equal. apply Nat.mod_small. apply LY.
Qed.

Lemma wp_scan f : nloop_ok f -> forall Y pg s f0 L j pre rest B prev p a,
  layok NP Y pg -> qinv Y -> y_bad Y = 0 -> world pg f0 L s -> itr Y pg (s_qi s) j pre rest -> length (s_buf s) = B ->
  qi_prev (s_qi s) = prev -> prev <> AllButCurrentPopped ->
  length rest + 1 + list_sum (map (fun sl => S (length sl)) (later Y j)) <= f ->
  p = (y_f Y + j) mod NP -> a = dstart g p + sizes g pre ->
  forall R, R = nspec B (isap prev) p rest (later Y j) ->
  wp (scan_body f p a) (fun r s' => nout Y j pre rest prev B R f0 L (Ok r) s')
     (fun e s' => nout Y j pre rest prev B R f0 L (Err e) s' \/ ncrash Y e f0 (L ++ nops R) s') s.
Proof.
  intros IH Y pg s f0 L j pre rest B prev p a LY QI BZ Wd IT LB EP NP' ME Ep Ea R ER. pose proof (npos g gok) as N.
  pose proof IT as (IJ & IE & _ & I1 & I2 & I3 & I4). assert (Hp : p < NP) by (subst p; apply mod_lt; auto).
  assert (NEXT : forall qi' s' l r, rest = l ++ r -> live_of l = [] -> search B rest = search B r ->
    qi' = mkqi (qi_next qi') (qi_prev (s_qi s)) (qi_oldest (s_qi s)) ->
    (qi_next qi' = NAddr (dstart g p + sizes g (pre ++ l)) /\ length r < length rest \/ (qi_next qi' = NPageAfter p /\ r = [])) ->
    world pg f0 L s' -> s_qi s' = qi' -> length (s_buf s') = B ->
    wp (next_loop g f) (fun r s' => nout Y j pre rest prev B R f0 L (Ok r) s')
     (fun e s' => nout Y j pre rest prev B R f0 L (Err e) s' \/ ncrash Y e f0 (L ++ nops R) s') s').
  { intros qi' s' l r Er El Es Eq Hn W' Eqi LB'. subst rest.
    eapply wp_mono; [eapply (IH Y pg s' f0 L j (pre ++ l) r B prev LY QI BZ W'); [|exact LB'| |exact NP'| |reflexivity]| |].
    - rewrite Eqi. split; [exact IJ|]. split; [rewrite <- app_assoc; exact IE|]. split.
      { destruct Hn as [[Hn _]|Hn]; rewrite <- Ep; auto. }
      rewrite Eq. cbn [qi_prev qi_oldest]. split; [|split; [|auto]].
      + intros X. destruct (I1 X) as [X1 X2]. split; auto. now rewrite live_app, X2, El.
      + intros X. congruence.
    - rewrite Eqi, Eq. exact EP.
    - rewrite Eqi. unfold mea. rewrite app_length in ME. destruct Hn as [[-> X]|[-> ->]]; [rewrite app_length in X|]; lia.
    - cbv beta. intros r0 s'' H. rewrite <- Ep in H. rewrite <- (nspec_none B (isap prev) p (l ++ r) r _ Es) in H. rewrite <- ER in H. now apply nout_shift.
    - cbv beta. intros e s''. rewrite <- Ep. rewrite <- (nspec_none B (isap prev) p (l ++ r) r _ Es). rewrite <- ER.
      intros [H|H]; [left; now apply nout_shift|right; auto]. }
  unfold scan_body. cbv zeta.
  destruct (it_page Y pg j pre rest LY IJ IE QI) as [[PU PS]|(PO & -> & -> & -> & UZ)].
  2:{ (* nothing was ever written *)
      assert (TR : traverse g (tfuel a (dend g p)) is_erased_hdr a (dend g p) s = (Ok (None, a, a), s)).
      { rewrite <- Ep in PO. assert (BL : page_is g ws (s_fl s) p POpen) by (rewrite <- PO; apply Wd; auto). cbn in BL.
        pose proof (dstart_lt g gok p). pose proof (dend_lt g gok p). change (sizes g []) with 0 in Ea. rewrite Nat.add_0_r in Ea.
        apply (traverse_eq g gok (dend g p) is_erased_hdr s [] _ a a); auto; subst a; auto with al; try reflexivity.
        - pose proof (pend_FEND g p Hp). lia.
        - pose proof (START_paddr g p). unfold dstart in *. lia.
        - unfold stop_at. rewrite ff_end; auto. intros x Hx. apply BL. unfold dstart in *. lia.
        - unfold tfuel. cbn. lia. }
      eapply wp_ok; [exact TR|]. cbv beta iota. apply wp_get_qi. apply wp_put_qi.
      eapply (NEXT _ _ [] []); try reflexivity; auto. }
  rewrite <- Ep in PU, PS.
  assert (BD : body g ws (s_fl s) p (pre ++ rest)). { rewrite <- PS. eapply used_body; eauto. apply Wd. }
  pose proof (body_seg g gok ws (s_fl s) p _ BD) as (_ & SZ & _).
  destruct (first_nonempty rest) as [EM|(l & x & r & Er & El & Ex)].
  - eapply wp_ok. { rewrite Ea. eapply (find_end g gok ws p s (pre ++ rest) pre rest); eauto. }
    cbv beta iota. apply wp_get_qi. apply wp_put_qi.
    eapply (NEXT _ _ rest []); try reflexivity; auto.
    + now rewrite app_nil_r.
    + now apply emptyish_live.
    + rewrite <- (app_nil_r rest) at 1. now apply search_skip.
  - destruct (skipped_hdr x Ex) as (h & Hh).
    eapply wp_ok. { rewrite Ea. eapply (trav_first g gok ws p s (pre ++ rest) pre rest); eauto. }
    cbv beta iota.
    set (fa := dstart g p + sizes g (pre ++ l)).
    assert (NX : next_addr g fa h = dstart g p + sizes g (pre ++ l ++ [x])).
    { unfold next_addr, fa. rewrite !sizes_app. rewrite (sizes_cons g x []). change (sizes g []) with 0. unfold ssize. rewrite Hh. lia. }
    assert (SA : slot_at g (f_mem (s_fl s)) (dend g p) fa x /\ fa + ssize g x <= dend g p /\ (dend g p <= next_addr g fa h -> r = [])).
    { subst rest. destruct BD as (b & SG & _). replace (pre ++ l ++ x :: r) with ((pre ++ l) ++ x :: r) in * by now rewrite <- app_assoc.
      apply seg_app in SG. destruct SG as (c & SG1 & SG2). pose proof (seg_end g _ _ _ _ _ SG1) as EC. cbn [seg] in SG2. destruct SG2 as [SG2 _].
      fold fa in EC. subst c. split; auto. split; [eapply slot_at_le; eauto|]. rewrite NX. intros LE. apply sizes_0.
      pose proof (cap_eq g gok p). rewrite !sizes_app, sizes_cons in *. change (sizes g []) with 0 in LE. rewrite Nat.add_0_r in LE. lia. }
    destruct SA as (SA & SLE & SEND). pose proof (dstart_lt g gok p) as D1. pose proof (dend_lt g gok p) as D2. pose proof (pend_FEND g p Hp) as D3. pose proof (START_paddr g p) as D4.
    assert (AF : al g fa) by (unfold fa; apply al_add; auto with al; apply sizes_al; auto).
    assert (SF : START g <= fa) by (unfold fa, dstart in *; lia).
    assert (LX : live_of l = []) by now apply emptyish_live.
    assert (SR : search B rest = search B (x :: r)) by (rewrite Er; now apply search_skip).
    assert (FB : fits_buf g (length (s_buf s)) x \/ exists n, rup (h_len h) = n /\ ~ n <= length (s_buf s) /\ search B (x :: r) = NSmall n (x :: r)).
    { rewrite LB. destruct x as [d0|n0|n0 c0|]; cbn in Hh; try discriminate; injection Hh as <-; cbn [fits_buf h_len search].
      - destruct (Nat.leb_spec (rup (length d0)) B) as [C|C]; [left; exact C|]. right. exists (rup (length d0)). split; [reflexivity|]. split; [lia|reflexivity].
      - destruct (Nat.leb_spec (rup n0) B) as [C|C]; [left; exact C|]. right. exists (rup n0). split; [reflexivity|]. split; [lia|reflexivity]. }
    destruct FB as [FB|(n & En & NB & SN)].
    2:{ (* the buffer is too small *)
      assert (RI : read_item g h fa (Some (dend g p)) s = (Err (EBufTooSmall n), s)).
      { unfold read_item. destruct (h_crc h) as [c|] eqn:EC.
        - unfold beyond. assert (dend g p <? fa + HL + rup (h_len h) = false) as ->.
          { apply Nat.ltb_ge. unfold ssize in SLE. rewrite Hh in SLE. lia. }
          unfold bind, get_buf. rewrite En. assert (length (s_buf s) <? n = true) as -> by (apply Nat.ltb_lt; lia). reflexivity.
        - destruct x; cbn in Hh, Ex; try discriminate; injection Hh as <-; discriminate. }
      eapply wp_err; [exact RI|]. left.
      assert (RE : R = (NSmall n (x :: r), [], 0)).
      { rewrite ER. destruct (later Y j); cbn [nspec]; rewrite SR, SN; reflexivity. }
      rewrite RE. unfold nout. rewrite app_nil_r. exists pg, pre, rest.
      destruct (ydrops_0 Y pg prev j) as [-> ->]; [exact LY|intros AP; apply I1; rewrite EP; destruct prev; auto; discriminate|].
      split; [exact LY|]. split; [exact QI|]. split; [exact Wd|]. split; [exact IT|]. split; [exact LB|]. split; [reflexivity|].
      split; [reflexivity|]. split; [exact EP|]. split; [reflexivity|]. split; [reflexivity|]. exists l. split; auto. }
    assert (RI := read_item_slot g gok (dend g p) fa s x h ltac:(lia) AF SF SA Hh FB).
    set (s1 := set_buf s (put_front (rd (f_mem (s_fl s)) (fa + HL) (rup (h_len h))) (s_buf s))).
    assert (RI' : read_item g h fa (Some (dend g p)) s = (Ok (item_of x h), s1)).
    { rewrite RI. f_equal. destruct x; auto. cbn in Hh, Ex. injection Hh as <-. discriminate. }
    assert (LB1 : length (s_buf s1) = B).
    { rewrite <- LB. apply put_front_length. rewrite rd_length. destruct x; cbn in Hh, FB, Ex; try discriminate; injection Hh as <-; cbn [h_len] in *; auto; discriminate. }
    eapply wp_ok; [exact RI'|]. cbv beta. apply wp_get_qi. change (s_qi s1) with (s_qi s).
    destruct x as [d|n|n c|]; cbn [item_of].
    2:{ cbn in Hh, Ex. discriminate. }
    3:{ cbn in Hh. discriminate. }
    2:{ (* a corrupted item is passed over *)
      cbv zeta. apply wp_put_qi. rewrite NX in *. eapply (NEXT _ _ (l ++ [SCorr n c]) r); try reflexivity; auto.
      - rewrite Er, <- app_assoc. reflexivity.
      - rewrite live_app, LX. reflexivity.
      - rewrite SR. cbn [search]. cbn [fits_buf] in FB. rewrite LB in FB. assert (rup n <=? B = true) as -> by now apply Nat.leb_le. reflexivity.
      - cbn [qi_next]. destruct (Nat.leb_spec (dend g p) (dstart g p + sizes g (pre ++ l ++ [SCorr n c]))) as [C|C]; [right; auto|left].
        split; auto. rewrite Er, app_length. cbn. lia. }
    (* found *)
    cbv zeta. apply wp_put_qi. apply wp_unmark. apply wp_ret.
    cbn [fits_buf] in FB. rewrite LB in FB.
    assert (RE : R = (NFound d r, [], 0)).
    { rewrite ER. assert (SN : search B rest = NFound d r). { rewrite SR. cbn [search]. assert (rup (length d) <=? B = true) as -> by now apply Nat.leb_le. reflexivity. }
      destruct (later Y j); cbn [nspec]; rewrite SN; reflexivity. }
    rewrite RE. unfold nout. rewrite app_nil_r. exists pg, (pre ++ l ++ [SLive d]), r.
    destruct (ydrops_0 Y pg prev j) as [-> ->]; [exact LY|intros AP; apply I1; rewrite EP; destruct prev; auto; discriminate|].
    injection Hh as <-.
    split; [exact LY|]. split; [exact QI|]. split. { apply world_unmark. exact Wd. }
    split. { split; [exact IJ|]. split. { rewrite IE, Er, <- !app_assoc. reflexivity. }
      split. { cbn [s_qi set_ca set_qi qi_next]. rewrite NX in *. rewrite <- Ep.
        destruct (Nat.leb_spec (dend g p) (dstart g p + sizes g (pre ++ l ++ [SLive d]))) as [C|C]; [right; auto|left; auto]. }
      cbn [s_qi set_ca set_qi qi_prev qi_oldest]. split; [|split; [|auto]].
      - intros X. destruct (qi_prev (s_qi s)); discriminate.
      - intros X. destruct (qi_prev (s_qi s)) eqn:EQ; try discriminate; [|congruence].
        destruct I1 as [X1 X2]; auto. split; auto. exists (pre ++ l), (SLive d). split; [now rewrite app_assoc|]. now rewrite live_app, X2, LX. }
    split; [exact LB1|]. split; [reflexivity|]. exists (pre ++ l). split; [now rewrite app_assoc|]. split; [reflexivity|].
    split. { rewrite <- Ep. reflexivity. }
    assert (RD : rd (f_mem (s_fl s)) (fa + HL) (length d) = d) by (destruct SA as [_ SA]; apply SA).
    split. { cbn [s_buf set_ca set_qi]. unfold s1. cbn [s_buf set_buf h_len ihdr]. apply buf_live; auto. lia. }
    split. { pose proof (rup_ge g gok (length d)). lia. }
    split. { cbn [s_qi set_ca set_qi qi_prev]. rewrite EP. destruct prev; reflexivity. }
    split. { unfold before. now rewrite live_app, LX, app_nil_r. }
    unfold remain. rewrite Er, live_app, LX. reflexivity.
Qed.

Lemma skipn_nth {A} (d : A) j l : j < length l -> skipn j l = nth j l d :: skipn (S j) l.
Proof. revert j. induction l as [|a l IH]; intros j L; [cbn in L; lia|]. destruct j; cbn; auto. apply IH. cbn in L. lia. Qed.
Lemma ydrops_S i Y : ydrops i (ydrops 1 Y) = ydrops (S i) Y.
Proof.
  unfold ydrops. cbn [y_f y_cl y_pt y_k y_bad]. pose proof (npos g gok). f_equal.
  - rewrite Nat.add_mod_idemp_l by lia. f_equal. lia.
  - destruct (y_cl Y); [now rewrite !skipn_nil|]. reflexivity.
  - lia.
Qed.
Lemma in_skipn {A} i (l : list A) x : In x (skipn i l) -> In x l.
Proof. intros H. rewrite <- (firstn_skipn i l). apply in_or_app. auto. Qed.
Lemma ydrops_small B i Y : ysmall g B Y -> ysmall g B (ydrops i Y).
Proof.
  unfold ydrops. destruct Y as [yf ycl ypt yk yb]. rewrite !small_app. cbn [y_f y_cl y_pt y_k y_bad]. intros [H1 H2]. split; auto.
  rewrite Forall_forall in *. intros x Hx. apply H1. eapply in_skipn; eauto.
Qed.

Lemma wp_next_loop : forall fuel, nloop_ok fuel.
Proof.
  induction fuel as [|f IH].
  { intros Y pg s f0 L j pre rest B prev _ _ _ _ _ _ _ _ ME. exfalso. unfold mea in ME. destruct (qi_next (s_qi s)); lia. }
  intros Y pg s f0 L j pre rest B prev LY QI BZ Wd IT LB EP NP' ME R ER. pose proof (npos g gok) as N.
  pose proof IT as (IJ & IE & I0 & I1 & I2 & I3 & I4).
  remember ((y_f Y + j) mod NP) as p eqn:Ep. assert (Hp : p < NP) by (rewrite Ep; apply mod_lt; auto).
  rewrite next_loop_S. apply wp_get_qi. unfold mea in ME. destruct I0 as [I0|[I0 RN]]; rewrite I0 in *.
  { (* within a page *)
    assert (SZ : sizes g pre <= cap g).
    { destruct (it_page Y pg j pre rest LY IJ IE QI) as [[PU PS]|(_ & -> & _)]; [|change (sizes g []) with 0; lia].
      rewrite <- Ep in PU, PS. assert (BD : body g ws (s_fl s) p (pre ++ rest)). { rewrite <- PS. eapply used_body; eauto. apply Wd. }
      pose proof (body_seg g gok ws (s_fl s) p _ BD) as (_ & SZ & _). rewrite sizes_app in SZ. lia. }
    apply wp_bind. apply wp_ret. rewrite (pindex_in g gok p).
    2:{ pose proof (dend_lt g gok p). pose proof (cap_eq g gok p). pose proof (W_pos g gok). pose proof (dstart_lt g gok p). unfold dstart in *. lia. }
    eapply (wp_scan f IH Y pg s f0 L j pre rest B prev p _ LY QI BZ Wd IT LB EP NP'); auto. lia. }
  subst rest. rewrite app_nil_r in IE.
  pose proof LY as [(Hf & LL & HP) BAD]. rewrite pages_len in LL.
  assert (RX : ring_ex g pg). { eapply ring_of; eauto. }
  remember (next_page g p) as nx eqn:Enx. assert (Hnx : nx < NP) by (rewrite Enx; apply (next_page_lt g gok)).
  assert (EN : nx = (y_f Y + S j) mod NP). { rewrite Enx, Ep, nxt_mod by auto. f_equal. lia. }
  assert (YB := y_b_le Y).
  apply wp_bind. cbv zeta. apply wp_bind.
  destruct (Nat.lt_ge_cases (S j) (y_c Y + y_b Y)) as [MORE|LAST].
  2:{ (* the end *)
    assert (LT : later Y j = []). { unfold later. apply skipn_all2. rewrite uslots_len. lia. }
    rewrite LT in ER. cbn [nspec search] in ER.
    assert (END : is_open (match st_of (pg nx) with Some x => x | None => Closed end) || (nx =? qi_oldest (s_qi s)) = true).
    { destruct (Nat.eq_dec (S j) NP) as [Eq|Nq].
      - assert (nx = y_f Y) as Ef. { rewrite EN, Eq. replace (y_f Y + NP) with (y_f Y + 1 * NP) by lia. rewrite Nat.mod_add by lia. apply Nat.mod_small; auto. }
        destruct (Nat.eq_dec (y_c Y + y_b Y) 0) as [Z|Z].
        + assert (O : pg nx = POpen).
          { assert (NP = 1) by lia. assert (j = 0) by lia. subst j. destruct (it_page Y pg 0 pre [] LY IJ ltac:(now rewrite app_nil_r) QI) as [[PU PS]|(PO & _)].
            - exfalso. rewrite <- Ep in PU. assert (p = nx) by lia. destruct QI as (Q1 & _). unfold y_c, y_b in *.
              destruct (y_cl Y) eqn:C1; [|cbn in Z; lia]. destruct (y_pt Y) eqn:C2; [cbn in Z; lia|].
              assert (Z1 := HP 0 ltac:(lia)). unfold pages in Z1. rewrite C1, C2 in Z1. cbn in Z1. destruct (y_k Y); [specialize (Q1 eq_refl); lia|].
              cbn in Z1. rewrite Nat.add_0_r in Z1. rewrite Nat.mod_small in Z1 by auto. rewrite <- Ef, <- H0 in Z1. rewrite Z1 in PU. exact PU.
            - rewrite <- Ep in PO. assert (p = nx) by lia. congruence. }
          rewrite O. reflexivity.
        + apply orb_true_iff. right. apply Nat.eqb_eq. destruct I4 as [I4|I4]; [congruence|]. exfalso.
          pose (i := pos NP (y_f Y) (qi_oldest (s_qi s))). assert (Hi : i < NP) by (apply pos_lt; auto). assert (Ei : (y_f Y + i) mod NP = qi_oldest (s_qi s)) by (apply mod_pos; auto).
          rewrite <- Ei, HP in I4 by auto. destruct (nth_uslots Y i ltac:(lia)) as (U & _). rewrite I4 in U. exact U.
      - assert (O : pg nx = POpen); [|rewrite O; reflexivity].
        rewrite EN. destruct Y as [yf ycl ypt yk ybad]. unfold y_c, y_b in *. cbn [y_f y_cl y_pt y_k y_bad] in *.
        replace (S j) with (length ycl + length (ptl ypt) + (S j - (length ycl + length (ptl ypt)))) by lia. eapply lay_at_open; eauto. lia. }
    apply (wp_psc g gok ws ae aw nx pg f0 L); auto.
    - intros s' x Hx W' FR _ Efl. rewrite Hx in END. rewrite END. apply wp_unmark. apply wp_ret. apply wp_ret.
      rewrite ER. unfold nout. rewrite app_nil_r. exists pg, pre, [].
      destruct (ydrops_0 Y pg prev j) as [-> ->]; [exact LY|intros AP; apply I1; rewrite EP; destruct prev; auto; discriminate|].
      destruct FR as (F1 & F2 & _).
      split; [exact LY|]. split; [exact QI|]. split; [now apply world_unmark|]. cbn [s_qi s_buf set_ca]. rewrite F2, F1. split; [exact IT|]. split; [exact LB|].
      split; [reflexivity|]. split; [reflexivity|]. split; [reflexivity|]. split; [exact EP|]. split; [reflexivity|].
      assert (remain Y j [] = []); auto. unfold remain. fold (later Y j). rewrite LT. reflexivity.
    - intros Hx. exfalso. pose proof (is_bad g gok Y pg LY QI nx Hnx Hx). lia. }
  (* one more page *)
  assert (Lj : S j < length (uslots Y)) by (rewrite uslots_len; lia).
  assert (LT : later Y j = nth (S j) (uslots Y) [] :: later Y (S j)). { unfold later. now apply skipn_nth. }
  assert (PN : used (pg nx)). { rewrite EN, HP by lia. destruct (nth_uslots Y (S j) MORE) as (U & _). exact U. }
  assert (NO : (nx =? qi_oldest (s_qi s)) = false).
  { apply Nat.eqb_neq. intros Eo. destruct I4 as [I4|I4]; [|rewrite <- Eo in I4; rewrite I4 in PN; exact PN].
    rewrite I4, EN in Eo. assert (POS := pos_mod NP N (y_f Y) (S j) Hf ltac:(lia)). rewrite Eo, pos_self in POS by auto. discriminate. }
  apply (wp_psc g gok ws ae aw nx pg f0 L); auto.
  2:{ intros Hx. exfalso. revert Hx PN. clear. destruct (pg nx); cbn; auto; discriminate. }
  intros s' x Hx W' FR OBS Efl.
  assert (is_open x = false) as ->. { revert Hx PN. clear. destruct (pg nx); cbn; intros H1 H2; injection H1 as <- || discriminate; auto; contradiction. }
  rewrite NO. cbn [orb]. rewrite EP. destruct FR as (F1 & F2 & F3).
  rewrite LT in ER. cbn [nspec search] in ER. rewrite <- Enx in ER.
  destruct (nspec B (isap prev) nx (nth (S j) (uslots Y) []) (later Y (S j))) as [[nr ops] i] eqn:ES.
  assert (EP' : qi_prev (s_qi s') = prev) by (rewrite F2; exact EP).
  assert (LM : list_sum (map (fun sl => S (length sl)) (later Y j)) = S (length (nth (S j) (uslots Y) [])) + list_sum (map (fun sl => S (length sl)) (later Y (S j)))).
  { rewrite LT. reflexivity. }
  destruct prev; cbn [isap] in *; [|contradiction NP'; reflexivity|].
  - (* the page behind was emptied: erase it *)
    destruct (I1 EP) as [J0 LP]. subst j. rewrite Nat.add_0_r, Nat.mod_small in Ep by auto.
    destruct Y as [yf [|o cl] ypt yk ybad]; unfold y_c, y_b in *; cbn [y_f y_cl y_pt y_k y_bad uslots] in *.
    { exfalso. cbn [length] in MORE. destruct ypt; cbn [ptl length] in MORE; lia. }
    rename yk into k. cbn [length] in MORE. subst ybad p.
    assert (PF : pg yf = PClosed o). { pose proof (lay_at_cl NP yf [] o cl ypt k 0 pg LY) as X. cbn in X. now rewrite Nat.add_0_r, Nat.mod_small in X by auto. }
    pose proof (lay_ring NP _ pg N LY) as RG. unfold y_c, y_b in RG. cbn [y_f y_cl y_pt y_k y_bad length] in RG.
    destruct W' as (WR & WF & WC & WQ).
    destruct (notice_T3 g gok pg (c_ps (s_ca s')) yf (length cl) _ _ WC RG) as (ps' & N1 & N2 & _).
    set (Y1 := ydrops 1 (mklay yf (o :: cl) ypt k 0)).
    assert (EY1 : Y1 = mklay ((yf + 1) mod NP) cl ypt (S k) 0). { unfold Y1, ydrops. cbn [y_f y_cl y_pt y_k y_bad skipn]. f_equal. lia. }
    change (nth 0 (uslots _) []) with o in IE. subst pre.
    assert (CY : content Y1 = content (mklay yf (o :: cl) ypt k 0)). { rewrite EY1, !content_app. cbn [flat_map]. now rewrite LP. }
    assert (QY : qinv Y1). { rewrite EY1. destruct QI as (Q1 & Q2 & Q3). unfold qinv, y_b, y_c. cbn [y_f y_cl y_pt y_k y_bad]. split; [intros; lia|]. split; intros; lia. }
    assert (LY1 : layok NP Y1 (upd pg yf POpen)). { rewrite EY1. eapply lay_erase; eauto. }
    apply wp_bind. apply (wp_open_page g gok ws ae aw yf ps' pg f0 L); auto.
    { split; [exact WR|]. split; [exact WF|]. split; [exact WC|exact WQ]. }
    { right. rewrite PF. right. exact I. }
    + intros s1 W1 (G1 & G2 & _) _. apply wp_put_qi. apply wp_ret.
      set (s2 := set_qi s1 _).
      assert (SC : wp (scan_body f nx (dstart g nx))
         (fun r s' => nout Y1 0 [] (nth 0 (uslots Y1) []) AllPopped B (nr, ops, i) f0 (L ++ [DE yf]) (Ok r) s')
         (fun e s' => nout Y1 0 [] (nth 0 (uslots Y1) []) AllPopped B (nr, ops, i) f0 (L ++ [DE yf]) (Err e) s' \/ ncrash Y1 e f0 ((L ++ [DE yf]) ++ ops) s') s2).
      { eapply (wp_scan f IH Y1 (upd pg yf POpen) s2 f0 (L ++ [DE yf]) 0 [] _ B AllPopped); auto.
        - assert (EY2 : (y_f Y1 + 0) mod NP = nx). { rewrite EY1. cbn [y_f]. rewrite Nat.add_0_r, Nat.mod_mod by lia. symmetry. exact EN. }
          split. { rewrite EY1. unfold y_c, y_b. cbn [y_f y_cl y_pt y_k y_bad]. lia. }
          split; [reflexivity|]. split. { left. rewrite EY2. change (sizes g []) with 0. now rewrite Nat.add_0_r. }
          cbn [s2 s_qi set_qi qi_prev qi_oldest qi_next]. split; [intros _; split; [reflexivity|reflexivity]|]. split; [discriminate|]. split; [exact I3|].
          right. unfold upd. destruct (Nat.eqb_spec (qi_oldest (s_qi s)) yf); auto. destruct I4 as [I4|I4]; [contradiction|auto].
        - cbn. rewrite G1, F1. exact LB.
        - rewrite EY1. unfold later in *. cbn [uslots y_cl y_pt skipn app] in *. change (nth 1 (o :: cl ++ ptl ypt) []) with (nth 0 (cl ++ ptl ypt) []) in LM. lia.
        - rewrite EY1. cbn [y_f]. rewrite Nat.add_0_r, Nat.mod_mod by lia. exact EN. }
      assert (TR : forall r s', nout Y1 0 [] (nth 0 (uslots Y1) []) AllPopped B (nr, ops, i) f0 (L ++ [DE yf]) r s' ->
        nout (mklay yf (o :: cl) ypt k 0) 0 o [] AllPopped B R f0 L r s').
      { intros r s''. rewrite ER. unfold nout. cbn [isap].
        assert (E1 : before Y1 0 [] = before (mklay yf (o :: cl) ypt k 0) 0 o). { unfold before. cbn [firstn flat_map app]. now rewrite LP. }
        assert (E2 : remain Y1 0 (nth 0 (uslots Y1) []) = remain (mklay yf (o :: cl) ypt k 0) 0 []).
        { unfold remain. rewrite EY1. cbn [uslots y_cl y_pt app skipn live_of flat_map].
          assert (1 <= length (cl ++ ptl ypt)) by (rewrite app_length; lia). destruct (cl ++ ptl ypt); [cbn in *; lia|]. reflexivity. }
        rewrite E1, E2, CY. unfold Y1. rewrite !ydrops_S, <- app_assoc. auto. }
      eapply wp_mono; [exact SC| |].
      * intros r s''. apply TR.
      * intros e s'' [H|H]; [left; now apply TR|right].
        destruct H as (H1 & Yc & pg' & H2 & H3 & H4 & H5 & H6). split; auto. exists Yc, pg'. split; [congruence|].
        split. { intros B0 HB. apply H3. unfold Y1. now apply ydrops_small. }
        split; auto. split; auto. rewrite ER. unfold nops. cbn [fst snd]. rewrite app_assoc. exact H6.
    + intros s1 x1 TP C1. right. split; auto. rewrite ER. unfold nops. cbn [fst snd app].
      assert (C1' : crashed (upd pg yf x1) f0 (L ++ DE yf :: ops) s1).
      { replace (L ++ DE yf :: ops) with ((L ++ [DE yf]) ++ ops) by now rewrite <- app_assoc. apply crashed_app; auto. }
      rewrite PF in TP. destruct TP as [->|[->| ->]].
      * exists (mklay yf (o :: cl) ypt k 0), (upd pg yf (PClosed o)). split; auto. split; auto. split; [|split; auto]. apply lay_same; auto.
      * exists (mklay ((yf + 1) mod NP) cl ypt k 1), (upd pg yf PBad). split. { rewrite <- CY, EY1, !content_app. reflexivity. }
        split. { intros B0. rewrite !small_app. intros [X1 X2]. inversion X1; auto. } split; [eapply lay_tear; eauto|]. split; auto.
        destruct QI as (Q1 & Q2 & Q3). unfold qinv, y_b, y_c. cbn [y_f y_cl y_pt y_k y_bad] in *. split; [auto|]. split; intros; lia.
      * exists Y1, (upd pg yf POpen). split; auto. split. { intros B0 HB. unfold Y1. now apply ydrops_small. } split; auto.
  - (* move on *)
    apply wp_bind. apply wp_ret. apply wp_put_qi. apply wp_ret.
    set (s2 := set_qi s' _).
    assert (SC : wp (scan_body f nx (dstart g nx))
         (fun r s' => nout Y (S j) [] (nth (S j) (uslots Y) []) Unpopped B (nr, ops, i) f0 L (Ok r) s')
         (fun e s' => nout Y (S j) [] (nth (S j) (uslots Y) []) Unpopped B (nr, ops, i) f0 L (Err e) s' \/ ncrash Y e f0 (L ++ ops) s') s2).
    { eapply (wp_scan f IH Y pg s2 f0 L (S j) [] _ B Unpopped); auto.
      - split; [lia|]. split; [reflexivity|]. split. { left. rewrite <- EN. change (sizes g []) with 0. now rewrite Nat.add_0_r. }
        cbn [s2 s_qi set_qi qi_prev qi_oldest qi_next]. split; [discriminate|]. split; [discriminate|]. auto.
      - cbn. rewrite F1. exact LB.
      - lia. }
    assert (TR : forall r s', nout Y (S j) [] (nth (S j) (uslots Y) []) Unpopped B (nr, ops, i) f0 L r s' ->
      nout Y j pre [] Unpopped B R f0 L r s').
    { intros r s''. rewrite ER. unfold nout. cbn [isap app].
      assert (E1 : before Y (S j) [] = before Y j pre).
      { unfold before. rewrite <- IE. rewrite (app_nil_r (flat_map _ _) : _ ++ live_of [] = _). clear - Lj.
        assert (forall (l : list (list slot)), S j < length l -> flat_map live_of (firstn (S j) l) = flat_map live_of (firstn j l) ++ live_of (nth j l [])) as X; [|auto].
        induction j as [|j IH]; intros [|a l] H; cbn in H; try lia.
        - cbn. now rewrite app_nil_r.
        - cbn [firstn flat_map nth]. rewrite <- app_assoc, <- IH by (cbn; lia). reflexivity. }
      assert (E2 : remain Y (S j) (nth (S j) (uslots Y) []) = remain Y j []).
      { unfold remain. fold (later Y j). rewrite LT. reflexivity. }
      rewrite E1, E2. replace (S j + i) with (j + S i) by lia. auto. }
    eapply wp_mono; [exact SC| |].
    * intros r s''. apply TR.
    * intros e s'' [H|H]; [left; now apply TR|right]. rewrite ER. exact H.
Qed.
End Iter.
