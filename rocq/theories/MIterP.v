(** Iterating over a map, on layouts. *)
From Coq Require Import List NArith ZArith Arith Bool Lia ZifyBool ZifyNat ZifyN.
From Verif Require Import Base BaseP Crc CrcP RingP Flash Cache State Item Generic Map Codec CodecP GeomP ScanP WpP ItemP CalcP PageP WorldP LayP QPushP QRepP QIterP QStepP KeyP MLogP MFetchP MMigP MStoreP MCallP MRemP.
Import ListNotations.
Local Opaque crc16 acrc crc32.

Section Itr.
Context (g : geom) (gok : geom_ok g) (ws ae : bool) (aw : nat) (np2 : 2 <= NP g).
Context {K : Type} (KO : keyops K) (legal : K -> Prop) (KC : key_codec KO legal) (B : lim).
Notation W := (W g).
Notation HL := (HL g).
Notation rup := (rup g).
Notation NP := (NP g).
Notation st := (st K).
Implicit Types (s : st) (pg : nat -> page) (Y : lay).
Notation world := (world g ws ae aw).
Notation crashed := (crashed g ws ae aw).
Notation sworld := (sworld g ws ae aw).
Notation newest := (newest KO).
Notation lastd := (lastd KO).
Notation ents := (ents g).
Notation good := (good KO legal).
Notation tearok := (tearok g ws aw B).
Notation mok := (mok g ws aw KO legal B).
Notation mw := (mw g ws ae aw KO legal B).
Notation mgood := (mgood g ws aw KO legal B).
Notation same := (same KO legal).
Notation kcoh := (kcoh KO legal).
Notation ymig := (ymig g KO).
Notation migops := (migops g KO).
Notation y_cur := (y_cur g).

Notation yst := (yst g KO).
Notation yrp := (yrp g KO).
Notation yadv := (yadv g KO).
Notation smw := (smw g ws ae aw KO legal B).
Notation mcrash := (mcrash g ws ae aw KO legal B).
Notation newok := (newok g ws aw B).
Notation after := (after KO legal).
Notation cst := (cst KO legal).


Notation mt := (mt KO).
Notation erf := (erf KO).
Notation rmsl := (rmsl KO).
Notation yrm := (yrm KO).
Notation rmops := (rmops g KO).
Notation rmops_sl := (rmops_sl g KO).
Notation cutsl := (cutsl KO).
Notation mend := (mend g ws ae aw KO legal B).
Notation mcut := (mcut g ws ae aw KO legal B).


Lemma mw_mi Y pg f0 L s m : mw Y pg f0 L s -> mw Y pg f0 L (set_mi s m).
Proof. auto. Qed.
Lemma set_mi_mi s m : s_mi (set_mi s m) = m. Proof. reflexivity. Qed.
Lemma wp_get_mi {A} (f : miter -> M K A) (Q : A -> st -> Prop) (E : err -> st -> Prop) s : wp (f (s_mi s)) Q E s -> wp (bind get_mi f) Q E s.
Proof. auto. Qed.
Lemma wp_put_mi {A} m (f : unit -> M K A) (Q : A -> st -> Prop) (E : err -> st -> Prop) s : wp (f tt) Q E (set_mi s m) -> wp (bind (put_mi m) f) Q E s.
Proof. auto. Qed.

(** * The next item of one page *)
Definition lead (rest : list slot) : option (list slot * list N * list slot) -> Prop := fun o =>
  match o with
  | Some (l, d, r) => rest = l ++ SLive d :: r /\ live_of l = []
  | None => live_of rest = []
  end.
Lemma wp_mi_item Y pg f0 L p sl fi mp : used (pg p) -> slots_of (pg p) = sl -> p < NP -> Forall (fits_buf g B) sl ->
  forall fuel pre rest s (Q : option hdr -> st -> Prop) (E : err -> st -> Prop),
  sl = pre ++ rest -> length rest < fuel -> mw Y pg f0 L s -> s_mi s = mkmi fi mp (dstart g p + sizes g pre) (dend g p) ->
  (forall s' o, lead rest o -> mw Y pg f0 L s' -> length (s_buf s') = length (s_buf s) -> s_qi s' = s_qi s ->
    match o with
    | Some (l, d, r) => s_mi s' = mkmi fi mp (dstart g p + sizes g (pre ++ l ++ [SLive d])) (dend g p) -> firstn (length d) (s_buf s') = d -> Q (Some (ihdr d)) s'
    | None => s_mi s' = mkmi fi mp (dstart g p + sizes g sl) (dend g p) -> Q None s'
    end) ->
  wp (mi_item_next g fuel) Q E s.
Proof.
  intros US SO Hp FB. induction fuel as [|fuel IH]; intros pre rest s Q E SP FU M MI HQ; [lia|]. cbn [mi_item_next]. apply wp_get_mi. rewrite MI. cbn [mi_cur mi_end mi_first mi_page].
  pose proof M as (LY & Wd & KH & LB). destruct Wd as (RW & FW & CO). pose proof (used_body g ws ae aw pg _ p FW Hp US) as BD. rewrite SO in BD.
  destruct (trav_hdr g gok ws np2 p s sl pre rest BD Hp SP) as [TN TS].
  destruct (first_hdr rest) as [AB|(l & x & r & h & RE & AB & SH)].
  - eapply wp_ok; [exact (TN AB)|]. cbv beta iota. apply wp_put_mi. apply wp_ret.
    apply (HQ _ None); [|now apply mw_mi|reflexivity|reflexivity|reflexivity].
    cbn [lead]. clear -AB. apply bad_nolive in AB. unfold live_of. induction rest as [|x rest IH]; auto. cbn [forallb flat_map] in *. apply andb_true_iff in AB. destruct AB as [A1 A2]. rewrite IH by auto. destruct x; try discriminate; reflexivity.
  - eapply wp_ok; [exact (TS l x r h RE AB SH)|]. clear TN TS. cbv beta iota. subst rest. apply wp_put_mi.
    assert (LL : live_of l = []). { clear -AB. apply bad_nolive in AB. unfold live_of. induction l as [|x rest IH]; auto. cbn [forallb flat_map] in *. apply andb_true_iff in AB. destruct AB as [A1 A2]. rewrite IH by auto. destruct x; try discriminate; reflexivity. }
    assert (FX : fits_buf g B x) by (rewrite SP in FB; apply Forall_app in FB; destruct FB as [_ FB]; apply Forall_app in FB; destruct FB as [_ FB]; now inversion FB).
    assert (FXL : fits_buf g (length (s_buf s)) x) by (revert FX; destruct x; cbn [fits_buf]; auto; lia).
    destruct (body_seg g gok ws _ _ _ BD) as (SG & SC & HE). rewrite SP, app_assoc in SG. apply (seg_app g) in SG. destruct SG as (c & S1 & S2).
    pose proof (seg_end g _ _ _ _ _ S1) as E1. cbn [seg] in S2. destruct S2 as [S2 _]. subst c.
    pose proof (dend_lt g gok p). pose proof (pend_FEND g p Hp). pose proof (START_paddr g p).
    assert (AL : al g (dstart g p + sizes g (pre ++ l))) by (apply (al_add g gok); auto with al; now apply sizes_al).
    match goal with |- wp _ _ _ ?z => set (s1 := z) end.
    pose proof (read_item_slot g gok (dend g p) (dstart g p + sizes g (pre ++ l)) s1 x h ltac:(lia) AL ltac:(unfold dstart; lia) S2 SH FXL) as RI.
    eapply wp_ok; [exact RI|]. clear RI.
    assert (SP' : sl = (pre ++ l ++ [x]) ++ r) by (rewrite SP, <- !app_assoc; reflexivity).
    assert (FU' : length r < fuel) by (rewrite app_length in FU; cbn [length] in FU; lia).
    assert (M1 : mw Y pg f0 L s1) by (now apply mw_mi).
    destruct (is_live x) eqn:ISL.
    2:{ match goal with |- wp _ _ _ ?z => set (s2 := z) end.
        assert (exists b, length b = length (s_buf s) /\ s2 = set_buf s1 b) as (b & LBB & S2E).
        { unfold s2. assert (RUP : rup (h_len h) <= length (s_buf s) \/ exists n, x = SDead n) by (destruct x; try discriminate; cbn [shdr] in SH; injection SH as <-; cbn [fits_buf h_len] in *; eauto).
          destruct x; try discriminate; [exists (s_buf s1); split; auto; now rewrite set_buf_self|]. destruct RUP as [RUP|(n' & RUP)]; [|discriminate].
          eexists; split; [|reflexivity]. change (s_buf s1) with (s_buf s). rewrite put_front_length; rewrite ?rd_length; lia. }
        assert (wp (mi_item_next g fuel) Q E s2) as GOAL; [|destruct x; try discriminate; exact GOAL].
        assert (LX : live_of [x] = []) by (destruct x; try discriminate; reflexivity).
        eapply (IH (pre ++ l ++ [x]) r s2); [exact SP'|exact FU'|rewrite S2E; now apply mw_buf|rewrite S2E; reflexivity|].
        intros s' [[[l' d] r']|] LD M' LB' QI' HM.
        - cbn [lead] in LD. destruct LD as [-> L1]. apply (HQ s' (Some (l ++ x :: l', d, r'))); auto.
          + cbn [lead]. rewrite <- app_assoc. split; [reflexivity|]. change (x :: l') with ([x] ++ l'). rewrite !live_app, LL, LX, L1. reflexivity.
          + rewrite LB', S2E. exact LBB.
          + rewrite QI', S2E. reflexivity.
          + rewrite HM. f_equal. rewrite <- !app_assoc. reflexivity.
        - cbn [lead] in LD. apply (HQ s' None); auto.
          + cbn [lead]. change (x :: r) with ([x] ++ r). rewrite !live_app, LL, LX, LD. reflexivity.
          + rewrite LB', S2E. exact LBB.
          + rewrite QI', S2E. reflexivity. }
    destruct x as [d| | |]; try discriminate ISL. clear ISL. cbn [item_of]. cbn [shdr] in SH. injection SH as <-.
    match goal with |- wp _ _ _ (set_buf s1 ?z) => set (buf := z) end.
    destruct (buf_live g gok (f_mem (s_fl s)) (dstart g p + sizes g (pre ++ l)) d (s_buf s)) as [BF BLn]; [apply S2|exact FXL|]. change (s_buf s1) with (s_buf s) in buf. change (s_fl s1) with (s_fl s) in buf. cbn [h_len] in buf. fold buf in BF, BLn.
    apply wp_ret. apply (HQ (set_buf s1 buf) (Some (l, d, r))); auto.
    + cbn [lead]. auto.
    + apply mw_buf; auto.
Qed.
(** Nothing on an open page. *)
Lemma wp_mi_open Y pg f0 L p fi mp s (Q : option hdr -> st -> Prop) (E : err -> st -> Prop) : p < NP -> pg p = POpen -> mw Y pg f0 L s ->
  s_mi s = mkmi fi mp (dstart g p) (dend g p) -> Q None (set_mi s (mkmi fi mp (dstart g p) (dend g p))) ->
  wp (mi_item_next g (tfuel (dstart g p) (dend g p))) Q E s.
Proof.
  intros Hp PO M MI HQ. pose proof M as (LY & Wd & KH & LB). destruct (tfuel (dstart g p) (dend g p)) as [|fu] eqn:TF; [unfold tfuel in TF; discriminate|].
  cbn [mi_item_next]. apply wp_get_mi. rewrite MI. cbn [mi_cur mi_end mi_first mi_page].
  assert (TR : traverse g (tfuel (dstart g p) (dend g p)) (fun _ => false) (dstart g p) (dend g p) s = (Ok (None, dstart g p, dstart g p), s)).
  { assert (BL : page_is g ws (s_fl s) p POpen) by (rewrite <- PO; apply Wd; auto). cbn in BL.
    pose proof (dstart_lt g gok p). pose proof (dend_lt g gok p).
    apply (traverse_eq g gok (dend g p) (fun _ => false) s [] _ (dstart g p) (dstart g p)); auto; auto with al; try reflexivity.
    - pose proof (pend_FEND g p Hp). lia.
    - pose proof (START_paddr g p). unfold dstart in *. lia.
    - unfold stop_at. rewrite ff_end; auto. intros x Hx. apply BL. unfold dstart in *. lia.
    - unfold tfuel. cbn. lia. }
  eapply wp_ok; [exact TR|]. cbv beta iota. apply wp_put_mi. apply wp_ret. exact HQ.
Qed.

(** * The whole iteration *)
Definition yend Y : nat := (y_f Y + (y_c Y + y_b Y)) mod NP.
(** [rem]: what is still to come. *)
Definition ipos Y (m : miter) (rem : list (list N)) : Prop :=
  mi_first m = yend Y /\
  ((exists j pre rest, j < y_c Y + y_b Y /\ nth j (uslots Y) [] = pre ++ rest /\
      m = mkmi (yend Y) ((y_f Y + j) mod NP) (dstart g ((y_f Y + j) mod NP) + sizes g pre) (dend g ((y_f Y + j) mod NP)) /\
      rem = live_of rest ++ flat_map live_of (skipn (S j) (uslots Y))) \/
   (1 <= y_k Y /\ m = mkmi (yend Y) (yend Y) (dstart g (yend Y)) (dend g (yend Y)) /\ rem = content Y)).

Lemma mod_pos_neq Y i j : i < NP -> j < NP -> i <> j -> (y_f Y + i) mod NP <> (y_f Y + j) mod NP.
Proof. intros Hi Hj NE. destruct (Nat.lt_ge_cases i j); [now apply mod_neq|]. intros E. symmetry in E. revert E. apply mod_neq; lia. Qed.
Lemma bump Y i : next_page g ((y_f Y + i) mod NP) = (y_f Y + S i) mod NP.
Proof. rewrite (nxt_mod g gok). f_equal. lia. Qed.
Lemma st_used Y pg j : layok NP Y pg -> j < y_c Y + y_b Y -> st_of (pg ((y_f Y + j) mod NP)) = Some Closed \/ st_of (pg ((y_f Y + j) mod NP)) = Some PartialOpen.
Proof.
  intros LY Hj. pose proof (lay_total g gok Y pg LY) as (TF & TT & TB & TBD). rewrite (page_st_at g gok Y pg j LY) by lia. unfold cls.
  destruct (Nat.ltb_spec j (y_c Y)); auto. destruct (Nat.ltb_spec j (y_c Y + y_b Y)); auto. lia.
Qed.

(** Moving to the next page in use, from position [i]. *)
Lemma wp_mi_next_page Y pg f0 L : y_bad Y = 0 -> forall fuel i cu en s (Q : bool -> st -> Prop) (E : err -> st -> Prop),
  mw Y pg f0 L s -> i < NP -> NP - i < fuel -> s_mi s = mkmi (yend Y) ((y_f Y + i) mod NP) cu en ->
  (let t := if i <? y_c Y + y_b Y then S i else 0 in forall s', mw Y pg f0 L s' -> length (s_buf s') = length (s_buf s) -> s_qi s' = s_qi s ->
     (t < y_c Y + y_b Y -> s_mi s' = mkmi (yend Y) ((y_f Y + t) mod NP) (dstart g ((y_f Y + t) mod NP)) (dend g ((y_f Y + t) mod NP)) -> Q true s') /\
     (t = y_c Y + y_b Y -> Q false s')) ->
  wp (mi_next_page g fuel) Q E s.
Proof.
  intros B0. induction fuel as [|fuel IH]; intros i cu en s Q E M Hi FU MI HQ; [lia|]. cbn [mi_next_page]. apply wp_get_mi. rewrite MI. cbn [mi_page mi_first mi_cur mi_end]. rewrite bump.
  apply wp_put_mi. pose proof M as (LY & Wd & _). pose proof (lay_total g gok Y pg LY) as (TF & TT & TB & TBD). pose proof (npos g gok) as NPp. set (n := y_c Y + y_b Y) in *.
  cbv zeta in HQ. destruct (Nat.ltb_spec i n) as [C|C].
  - (* from a page in use *)
    destruct (Nat.eq_dec (S i) n) as [EN|EN].
    + replace ((y_f Y + S i) mod NP =? yend Y) with true; [|symmetry; apply Nat.eqb_eq; unfold yend; fold n; now rewrite <- EN].
      apply wp_ret. apply HQ; [now apply mw_mi|reflexivity|reflexivity|exact EN].
    + replace ((y_f Y + S i) mod NP =? yend Y) with false.
      2:{ symmetry. apply Nat.eqb_neq. unfold yend. fold n. destruct (Nat.eq_dec n NP) as [->|NE].
          - assert (EE : (y_f Y + NP) mod NP = (y_f Y + 0) mod NP). { rewrite Nat.add_0_r. replace (y_f Y + NP) with (y_f Y + 1 * NP) by lia. apply Nat.mod_add. lia. }
            rewrite EE. apply mod_pos_neq; lia.
          - apply mod_pos_neq; lia. }
      apply wp_attempt. eapply wp_psc; [exact gok|apply Wd|apply Nat.mod_upper_bound; lia|apply (ring_of g gok Y pg LY)| |].
      * intros s1 x ST W1 F1 _ _. destruct (st_used Y pg (S i) LY ltac:(fold n; lia)) as [X|X]; rewrite X in ST; injection ST as <-; apply wp_put_mi; apply wp_ret;
          (eapply HQ; [apply mw_mi; eapply mw_fr; [|exact W1|exact F1]; apply mw_mi; exact M|destruct F1 as (F1 & _); cbn [s_buf set_mi]; rewrite F1; reflexivity|destruct F1 as (_ & F1 & _); cbn [s_qi set_mi]; rewrite F1; reflexivity|lia|reflexivity]).
      * intros X. destruct (st_used Y pg (S i) LY ltac:(fold n; lia)) as [X'|X']; congruence.
  - (* from an open page *)
    destruct (Nat.eq_dec (S i) NP) as [EN|EN].
    + assert (P0 : (y_f Y + S i) mod NP = (y_f Y + 0) mod NP). { rewrite EN, Nat.add_0_r. replace (y_f Y + NP) with (y_f Y + 1 * NP) by lia. apply Nat.mod_add. lia. }
      rewrite P0. destruct (Nat.eq_dec n 0) as [N0|N0].
      * replace ((y_f Y + 0) mod NP =? yend Y) with true; [|symmetry; apply Nat.eqb_eq; unfold yend; fold n; now rewrite N0].
        apply wp_ret. apply HQ; [now apply mw_mi|reflexivity|reflexivity|auto].
      * replace ((y_f Y + 0) mod NP =? yend Y) with false.
        2:{ symmetry. apply Nat.eqb_neq. unfold yend. fold n. apply mod_pos_neq; lia. }
        apply wp_attempt. eapply wp_psc; [exact gok|apply Wd|apply Nat.mod_upper_bound; lia|apply (ring_of g gok Y pg LY)| |].
        -- intros s1 x ST W1 F1 _ _. destruct (st_used Y pg 0 LY ltac:(fold n; lia)) as [X|X]; rewrite X in ST; injection ST as <-; apply wp_put_mi; apply wp_ret;
             (eapply HQ; [apply mw_mi; eapply mw_fr; [|exact W1|exact F1]; apply mw_mi; exact M|destruct F1 as (F1 & _); cbn [s_buf set_mi]; rewrite F1; reflexivity|destruct F1 as (_ & F1 & _); cbn [s_qi set_mi]; rewrite F1; reflexivity|lia|reflexivity]).
        -- intros X. destruct (st_used Y pg 0 LY ltac:(fold n; lia)) as [X'|X']; congruence.
    + replace ((y_f Y + S i) mod NP =? yend Y) with false.
      2:{ symmetry. apply Nat.eqb_neq. unfold yend. fold n. apply mod_pos_neq; lia. }
      apply wp_attempt.
      assert (SO : st_of (pg ((y_f Y + S i) mod NP)) = Some Open).
      { rewrite (page_st_at g gok Y pg _ LY) by lia. unfold cls. destruct (Nat.ltb_spec (S i) (y_c Y)); [lia|]. fold n. destruct (Nat.ltb_spec (S i) n); [lia|]. destruct (Nat.ltb_spec (S i) (n + y_k Y)); [auto|lia]. }
      eapply wp_psc; [exact gok|apply Wd|apply Nat.mod_upper_bound; lia|apply (ring_of g gok Y pg LY)| |].
      * intros s1 x ST W1 F1 _ _. rewrite SO in ST. injection ST as <-. pose proof F1 as (FB1 & FQ1 & FM1 & _).
        eapply (IH (S i) cu en); [eapply mw_fr; [|exact W1|exact F1]; apply mw_mi; exact M|lia|lia|rewrite FM1; reflexivity|].
        cbv zeta. destruct (Nat.ltb_spec (S i) n); [lia|]. intros s2 M2 B2 Q2. apply HQ; auto; [rewrite B2, FB1; reflexivity|rewrite Q2, FQ1; reflexivity].
      * intros X. congruence.
Qed.

Lemma flat_skip (us : list (list slot)) j : j < length us -> flat_map live_of (skipn j us) = live_of (nth j us []) ++ flat_map live_of (skipn (S j) us).
Proof. revert j. induction us as [|u us IH]; intros [|j] H; cbn [length] in H; try lia; [reflexivity|]. cbn [skipn nth]. apply IH. lia. Qed.

Definition lres Y pg f0 L s (rem : list (list N)) (Q : option hdr -> st -> Prop) : Prop :=
  forall s', mw Y pg f0 L s' -> length (s_buf s') = length (s_buf s) -> s_qi s' = s_qi s ->
     match rem with
     | [] => Q None s'
     | d :: t => ipos Y (s_mi s') t -> firstn (length d) (s_buf s') = d -> Q (Some (ihdr d)) s'
     end.
Lemma lres_ext Y pg f0 L s s' rem (Q : option hdr -> st -> Prop) : length (s_buf s') = length (s_buf s) -> s_qi s' = s_qi s -> lres Y pg f0 L s rem Q -> lres Y pg f0 L s' rem Q.
Proof. intros A C H s2 M B2 Q2. apply H; auto; congruence. Qed.
Lemma wp_mi_loopA Y pg f0 L : y_bad Y = 0 -> mok Y -> forall fuel j pre rest s (Q : option hdr -> st -> Prop) (E : err -> st -> Prop),
  mw Y pg f0 L s -> j < y_c Y + y_b Y -> nth j (uslots Y) [] = pre ++ rest -> y_c Y + y_b Y - j <= fuel ->
  s_mi s = mkmi (yend Y) ((y_f Y + j) mod NP) (dstart g ((y_f Y + j) mod NP) + sizes g pre) (dend g ((y_f Y + j) mod NP)) ->
  lres Y pg f0 L s (live_of rest ++ flat_map live_of (skipn (S j) (uslots Y))) Q ->
  wp (mi_loop g fuel) Q E s.
Proof.
  intros B0 OK. induction fuel as [|fuel IH]; intros j pre rest s Q E M Hj NT FU MI HQ; [lia|]. cbn [mi_loop]. apply wp_get_mi. rewrite MI. cbn [mi_cur mi_end].
  pose proof M as (LY & Wd & _). pose proof (lay_total g gok Y pg LY) as (TF & TT & TB & TBD). pose proof (npos g gok) as NPp.
  set (p := (y_f Y + j) mod NP) in *. assert (Hp : p < NP) by (apply Nat.mod_upper_bound; lia).
  destruct (loc_page g gok Y pg LY j Hj) as [US SO]. fold p in US, SO.
  assert (IN : In (nth j (uslots Y) []) (uslots Y)) by (apply nth_In; rewrite uslots_len; auto).
  assert (FB : Forall (fits_buf g B) (nth j (uslots Y) [])) by (destruct OK as (O1 & _); rewrite Forall_forall in O1; auto).
  apply wp_bind. eapply (wp_mi_item Y pg f0 L p _ (yend Y) p US SO Hp FB _ pre rest s); [exact NT| |exact M|exact MI|].
  - destruct Wd as (RW & FW & CO). pose proof (used_body g ws ae aw pg _ p FW Hp US) as BD. rewrite SO, NT in BD. destruct (body_seg g gok ws _ _ _ BD) as (SG & _).
    apply (seg_app g) in SG. destruct SG as (c & S1 & S2). pose proof (seg_end g _ _ _ _ _ S1) as ->. eapply tfuel_len'; eauto.
  - intros s1 [[[l d] r]|] LD M1 B1 Q1.
    + cbn [lead] in LD. destruct LD as [-> LL]. intros MI1 FN1. apply wp_ret. rewrite live_app, LL in HQ. cbn [app] in HQ.
      change (live_of (SLive d :: r)) with (d :: live_of r) in HQ. cbn [app] in HQ. refine (HQ s1 M1 B1 Q1 _ FN1).
      rewrite MI1. split; [reflexivity|]. left. exists j, (pre ++ l ++ [SLive d]), r. split; [exact Hj|]. split; [rewrite NT, <- !app_assoc; reflexivity|]. split; reflexivity.
    + cbn [lead] in LD. intros MI1. rewrite LD in HQ. cbn [app] in HQ. apply wp_bind.
      eapply (wp_mi_next_page Y pg f0 L B0 _ j _ _ s1); [exact M1|lia|lia|exact MI1|]. cbv zeta. destruct (Nat.ltb_spec j (y_c Y + y_b Y)); [|lia].
      intros s2 M2 B2 Q2. split.
      * intros C MI2. eapply (IH (S j) [] (nth (S j) (uslots Y) []) s2); [exact M2|exact C|reflexivity|lia| |].
        -- rewrite MI2. change (sizes g []) with 0. rewrite Nat.add_0_r. reflexivity.
        -- rewrite (flat_skip _ (S j)) in HQ by (rewrite uslots_len; lia). eapply lres_ext; [| |exact HQ]; congruence.
      * intros C. apply wp_ret. rewrite (skipn_all2 (uslots Y)) in HQ by (rewrite uslots_len; lia). cbn [flat_map] in HQ. apply HQ; [exact M2|congruence|congruence].
Qed.
Lemma wp_mi_loop Y pg f0 L fuel s rem (Q : option hdr -> st -> Prop) (E : err -> st -> Prop) : y_bad Y = 0 -> mok Y ->
  mw Y pg f0 L s -> ipos Y (s_mi s) rem -> 1 + NP < fuel -> lres Y pg f0 L s rem Q -> wp (mi_loop g fuel) Q E s.
Proof.
  intros B0 OK M (IF & IP) FU HQ. pose proof M as (LY & Wd & _). pose proof (lay_total g gok Y pg LY) as (TF & TT & TB & TBD). pose proof (npos g gok) as NPp.
  destruct IP as [(j & pre & rest & Hj & NT & MI & ->)|(K1 & MI & ->)]; [eapply wp_mi_loopA; eauto; lia|].
  destruct fuel as [|fuel]; [lia|]. cbn [mi_loop]. apply wp_get_mi. rewrite MI. cbn [mi_cur mi_end].
  assert (Hp : yend Y < NP) by (apply Nat.mod_upper_bound; lia).
  assert (PO : pg (yend Y) = POpen).
  { assert (X : st_of (pg (yend Y)) = Some Open); [|pose proof (lay_nojunk NP Y pg (yend Y) NPp LY Hp) as NJ; destruct (pg (yend Y)); cbn in X; try contradiction; congruence]. unfold yend. rewrite (page_st_at g gok Y pg _ LY) by lia. unfold cls.
    destruct (Nat.ltb_spec (y_c Y + y_b Y) (y_c Y)); [lia|]. destruct (Nat.ltb_spec (y_c Y + y_b Y) (y_c Y + y_b Y)); [lia|]. destruct (Nat.ltb_spec (y_c Y + y_b Y) (y_c Y + y_b Y + y_k Y)); [auto|lia]. }
  apply wp_bind. eapply (wp_mi_open Y pg f0 L (yend Y)); [exact Hp|exact PO|exact M|exact MI|]. apply wp_bind.
  eapply (wp_mi_next_page Y pg f0 L B0 _ (y_c Y + y_b Y)); [apply mw_mi; exact M|lia|lia|reflexivity|]. cbv zeta. destruct (Nat.ltb_spec (y_c Y + y_b Y) (y_c Y + y_b Y)); [lia|].
  intros s2 M2 B2 Q2. cbn [s_buf s_qi set_mi] in B2, Q2. split.
  - intros C MI2. eapply (wp_mi_loopA Y pg f0 L B0 OK fuel 0 [] (nth 0 (uslots Y) []) s2); [exact M2|exact C|reflexivity|lia| |].
    + rewrite MI2. change (sizes g []) with 0. rewrite !Nat.add_0_r. reflexivity.
    + eapply lres_ext; [exact B2|exact Q2|]. unfold content in HQ. pose proof (flat_skip (uslots Y) 0) as X. cbn [skipn] in X. rewrite X in HQ by (rewrite uslots_len; lia). exact HQ.
  - intros C. apply wp_ret. unfold content in HQ. assert (UN : uslots Y = []) by (apply length_zero_iff_nil; rewrite uslots_len; lia). rewrite UN in HQ. cbn [flat_map] in HQ. apply HQ; auto.
Qed.

(** [next]. *)
Definition pair_of (d : list N) : option (K * list N) := option_map (fun k => (k, dval KO d)) (dkey KO d).
Lemma wp_m_iter_next Y pg f0 L b rem s (Q : option (K * list N) -> st -> Prop) (E : err -> st -> Prop) : y_bad Y = 0 -> mok Y ->
  mw Y pg f0 L (set_buf s b) -> ipos Y (s_mi s) rem -> Forall good rem ->
  (forall s', mw Y pg f0 L s' -> length (s_buf s') = length b -> s_qi s' = s_qi s ->
     match rem with
     | [] => Q None s'
     | d :: t => ipos Y (s_mi s') t -> Q (pair_of d) s'
     end) ->
  wp (m_iter_next KO g b) Q E s.
Proof.
  intros B0 OK M IP GD HQ. unfold m_iter_next. apply wp_bind. unfold wp at 1, put_buf. apply wp_bind.
  eapply (wp_mi_loop Y pg f0 L _ (set_buf s b) rem); [exact B0|exact OK|exact M|exact IP|lia|]. intros s1 M1 L1 Q1. cbn [s_buf s_qi set_buf] in L1, Q1. specialize (HQ s1 M1 L1 Q1).
  destruct rem as [|d t]; [apply wp_ret; exact HQ|]. intros IP1 FN1. specialize (HQ IP1). inversion GD as [|x y Gd Gs]; subst.
  unfold get_buf. eapply wp_ok; [reflexivity|]. cbv beta. destruct (good_de KO legal KC d Gd) as (k0 & LK0 & DK0 & KL0 & DE0).
  destruct (DE0 (skipn (length d) (s_buf s1))) as [DE1 _]. rewrite <- (buf_split d _ FN1) in DE1. rewrite DE1. cbn [ser_lift]. eapply wp_ok; [reflexivity|].
  cbn [fst snd ihdr h_len]. assert (LD : length d <= length (s_buf s1)). { rewrite <- FN1 at 1. rewrite firstn_length. lia. }
  destruct (Nat.ltb_spec (length (s_buf s1)) (length d)); [lia|]. destruct (Nat.ltb_spec (length d) (dklen KO d)); [lia|]. cbn [orb]. apply wp_ret.
  rewrite FN1. unfold pair_of, dval in HQ. rewrite DK0 in HQ. exact HQ.
Qed.

(** [fetch_all_items]. *)
Lemma wp_m_iter Y pg b s (Q : unit -> st -> Prop) (E : err -> st -> Prop) : y_bad Y = 0 -> minv Y ->
  mw Y pg (s_fl s) [] (set_buf s b) ->
  (forall s', mw Y pg (s_fl s) [] s' -> s_buf s' = b -> s_qi s' = s_qi s -> ipos Y (s_mi s') (content Y) -> Q tt s') ->
  wp (m_iter KO g b) Q E s.
Proof.
  intros B0 MI M HQ. unfold m_iter. apply wp_bind. unfold wp at 1, put_buf. set (s0 := set_buf s b) in *.
  pose proof M as (LY & Wd & _). pose proof (lay_total g gok Y pg LY) as (TF & TT & TB & TBD). pose proof (npos g gok) as NPp. pose proof (y_b_pt Y) as PB. destruct (MI) as (I1 & I2 & I3).
  pose proof (ring_of g gok Y pg LY) as RE.
  assert (FIN : forall s1, mw Y pg (s_fl s) [] s1 -> s_buf s1 = b -> s_qi s1 = s_qi s -> wp (put_mi (mkmi (yend Y) (yend Y) (dstart g (yend Y)) (dend g (yend Y)))) Q E s1).
  { intros s1 M1 B1 Q1. unfold wp, put_mi. apply HQ; [now apply mw_mi|exact B1|exact Q1|]. split; [reflexivity|]. destruct (Nat.eq_dec (y_k Y) 0) as [K0|K0].
    - left. exists 0, [], (nth 0 (uslots Y) []). split; [lia|]. split; [reflexivity|].
      assert (YE : yend Y = (y_f Y + 0) mod NP). { unfold yend. replace (y_c Y + y_b Y) with NP by lia. rewrite Nat.add_0_r. replace (y_f Y + NP) with (y_f Y + 1 * NP) by lia. apply Nat.mod_add. lia. }
      split; [|].
      + cbn [s_mi set_mi]. rewrite <- YE. change (sizes g []) with 0. now rewrite Nat.add_0_r.
      + unfold content. pose proof (flat_skip (uslots Y) 0) as X. cbn [skipn] in X. rewrite X by (rewrite uslots_len; lia). reflexivity.
    - right. split; [lia|]. split; reflexivity. }
  unfold first_page_expr. pose proof (ffP g gok B Y pg LY MI) as FP.
  apply wp_bind. apply wp_bind. eapply wp_find_first; [exact gok|exact Wd|exact RE| |].
  2:{ intros s1 FN W1 F1. exfalso. destruct (y_pt Y) as [sl|] eqn:PT; [|congruence]. destruct FP as [FP|[_ BD]]; [congruence|lia]. }
  intros s1 lp FN W1 F1 FL1 _ _. pose proof (mw_fr g ws ae aw KO legal B _ _ _ _ _ _ M W1 F1) as M1. pose proof F1 as (FB1 & FQ1 & _).
  destruct (y_pt Y) as [sl|] eqn:PT.
  - destruct FP as [FP|[FP _]]; [|congruence]. rewrite FP in FN. injection FN as <-. apply wp_ret. eapply wp_ok; [reflexivity|]. cbv beta.
    rewrite bump. replace ((y_f Y + S (y_c Y)) mod NP) with (yend Y); [apply FIN; auto|]. unfold yend. f_equal. lia.
  - rewrite FP in FN. injection FN as <-. destruct (I2 eq_refl) as [K1 _].
    assert (CE : (y_f Y + y_c Y) mod NP = yend Y) by (unfold yend; f_equal; lia).
    apply wp_bind. eapply wp_find_first; [exact gok|exact W1|exact RE| |].
    2:{ intros s2 X. rewrite (ffO g gok B Y pg LY MI PT) in X. discriminate. }
    intros s2 r FN W2 F2 FL2 _ _. rewrite (ffO g gok B Y pg LY MI PT) in FN. injection FN as <-. pose proof F2 as (FB2 & FQ2 & _).
    pose proof (mw_fr g ws ae aw KO legal B _ _ _ _ _ _ M1 W2 F2) as M2. apply wp_bind.
    assert (Hpp : prev_page g ((y_f Y + y_c Y) mod NP) = (y_f Y + (if y_c Y =? 0 then NP - 1 else y_c Y - 1)) mod NP).
    { destruct (Nat.eqb_spec (y_c Y) 0) as [->|C0]; [apply (prev_first g gok Y pg LY)|]. destruct (y_c Y) as [|c]; [lia|]. rewrite (prev_mod g gok Y pg LY) by lia. f_equal. lia. }
    rewrite Hpp. eapply wp_psc; [exact gok|exact W2|apply Nat.mod_upper_bound; lia|exact RE| |].
    + intros s3 x ST W3 F3 _ _. pose proof F3 as (FB3 & FQ3 & _). pose proof (mw_fr g ws ae aw KO legal B _ _ _ _ _ _ M2 W3 F3) as M3.
      assert (BE : s_buf s3 = b) by (rewrite FB3, FB2, FB1; reflexivity). assert (QE : s_qi s3 = s_qi s) by (rewrite FQ3, FQ2, FQ1; reflexivity).
      destruct (Nat.eqb_spec (y_c Y) 0) as [C0|C0].
      * rewrite (page_st_at g gok Y pg _ LY) in ST by lia. unfold cls in ST. destruct (Nat.ltb_spec (NP - 1) (y_c Y)); [lia|]. destruct (Nat.ltb_spec (NP - 1) (y_c Y + y_b Y)); [lia|].
        destruct (Nat.ltb_spec (NP - 1) (y_c Y + y_b Y + y_k Y)); [injection ST as <-|lia]. cbn [pstate_eqb]. apply wp_unmark. apply wp_ret. eapply wp_ok; [reflexivity|]. cbv beta.
        assert (YZ : yend Y = 0). { unfold yend. replace (y_f Y + (y_c Y + y_b Y)) with 0 by lia. apply Nat.mod_small. lia. }
        rewrite <- YZ. apply FIN; [apply mw_dirty; exact M3|exact BE|exact QE].
      * rewrite (page_st_at g gok Y pg _ LY) in ST by lia. unfold cls in ST. destruct (Nat.ltb_spec (y_c Y - 1) (y_c Y)); [injection ST as <-|lia]. cbn [pstate_eqb]. apply wp_ret. eapply wp_ok; [reflexivity|]. cbv beta.
        rewrite CE. apply FIN; auto.
    + intros X. apply (bad_ring g gok Y pg LY) in X; [lia|apply Nat.mod_upper_bound; lia].
Qed.
End Itr.
