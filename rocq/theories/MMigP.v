(** Migration of the items of the oldest page on layouts. *)
From Coq Require Import List NArith ZArith Arith Bool Lia ZifyBool ZifyNat ZifyN.
From Verif Require Import Base BaseP Crc CrcP Flash Cache State Item Generic Map Codec CodecP GeomP ScanP WpP ItemP CalcP PageP TornSpec TornP WorldP LayP QPushP KeyP MLogP MFetchP.
Import ListNotations.
Local Opaque crc16 acrc crc32.

(** * Operations that leave the key cache alone *)
Section Keep.
Context {K : Type}.
Implicit Types s : st K.
Definition kpk {A} (c : M K A) : Prop := forall s, c_kp (s_ca (snd (c s))) = c_kp (s_ca s) /\ s_qi (snd (c s)) = s_qi s /\ s_mi (snd (c s)) = s_mi s.
Lemma kpk_ret {A} (a : A) : kpk (ret a). Proof. intros s. auto. Qed.
Lemma kpk_fail {A} e : kpk (A := A) (fail e). Proof. intros s. auto. Qed.
Lemma kpk_bind {A B} (c : M K A) (f : A -> M K B) : kpk c -> (forall a, kpk (f a)) -> kpk (bind c f).
Proof.
  intros H H2 s. unfold bind. destruct (H s) as (P1 & P2 & P3). destruct (c s) as [[a|e] s1]; cbn [snd] in *; auto.
  destruct (H2 a s1) as (R1 & R2 & R3). rewrite R1, R2, R3. auto.
Qed.
Lemma wp_kpk {A} (c : M K A) (Q : A -> st K -> Prop) (E : err -> st K -> Prop) s : kpk c ->
  wp c (fun a s' => c_kp (s_ca s') = c_kp (s_ca s) -> Q a s') (fun e s' => c_kp (s_ca s') = c_kp (s_ca s) -> E e s') s -> wp c Q E s.
Proof. intros H. specialize (H s). unfold wp. destruct (c s) as [[a|e] s']; cbn [snd] in H; tauto. Qed.
Context (g : geom).
Lemma kpk_write a bs : kpk (fl_write g a bs).
Proof. intros s. unfold fl_write. destruct (dev_write g (s_fl s) a bs) as [[e|] f]; cbn; auto. Qed.
Lemma kpk_erase a b : kpk (fl_erase g a b).
Proof. intros s. unfold fl_erase. destruct (dev_erase g (s_fl s) a b) as [[e|] f]; cbn; auto. Qed.
Lemma kpk_read a n : kpk (fl_read g a n).
Proof. intros s. unfold fl_read, on_read, steady. destruct (dev_read g (s_fl s) a n); cbn; auto. Qed.
Lemma kpk_notice_ps p x b : kpk (c_notice_ps p x b).
Proof. intros s. unfold c_notice_ps. destruct (ps_notice _ _ _); cbn; auto. Qed.
Lemma kpk_written a b : kpk (c_item_written g a b). Proof. intros s. repeat split. Qed.
Lemma kpk_erased a b : kpk (c_item_erased g a b). Proof. intros s. repeat split. Qed.
Lemma kpk_write_raw h d a : kpk (write_raw g h d a).
Proof.
  unfold write_raw. apply kpk_bind; [apply kpk_written|intros _]. apply kpk_bind; [apply kpk_write|intros _].
  destruct (_ <? _); [apply kpk_fail|]. apply kpk_bind; [|intros _].
  - destruct (_ =? _); [apply kpk_ret|apply kpk_write].
  - destruct (_ =? _); [apply kpk_ret|]. cbv zeta. destruct (32 <? _); [apply kpk_fail|apply kpk_write].
Qed.
Lemma kpk_open p : kpk (open_page g p).
Proof. apply kpk_bind; [apply kpk_notice_ps|intros; apply kpk_erase]. Qed.
Lemma kpk_ps p : kpk (page_state g p).
Proof.
  unfold page_state. apply kpk_bind; [apply kpk_read|intros b1]. apply kpk_bind; [apply kpk_read|intros b2].
  destruct (marked b1), (marked b2); try apply kpk_ret; apply kpk_fail.
Qed.
Lemma kpk_psc p : kpk (page_state_c g p).
Proof.
  apply kpk_bind; [intros s; unfold c_get_ps; destruct (ps_get _ _); cbn; auto|intros [x|]]; [apply kpk_ret|]. apply kpk_bind.
  - apply kpk_ps.
  - intros x. apply kpk_bind; [apply kpk_notice_ps|intros; apply kpk_ret].
Qed.
Lemma kpk_partial p : kpk (partial_close g p).
Proof.
  apply kpk_bind; [apply kpk_psc|intros x]. destruct (negb _); [apply kpk_ret|]. apply kpk_bind; [apply kpk_notice_ps|intros _].
  apply kpk_bind; [apply kpk_write|intros _; apply kpk_ret].
Qed.
Lemma kpk_close p : kpk (close_page g p).
Proof.
  apply kpk_bind; [apply kpk_partial|intros x]. destruct (negb _); [apply kpk_ret|]. apply kpk_bind; [apply kpk_notice_ps|intros _; apply kpk_write].
Qed.
Lemma kpk_attempt {A} (c : M K A) : kpk c -> kpk (attempt c).
Proof. intros H s. specialize (H s). unfold attempt, on_result, steady, hand_on. destruct (c s); cbn [snd] in *; auto. Qed.
Lemma kpk_repair_in l : kpk (general_repair_in g l).
Proof.
  induction l as [|q l IH]; cbn [general_repair_in]; [apply kpk_ret|]. apply kpk_bind; [apply kpk_attempt, kpk_ps|intros r].
  apply kpk_bind; [|intros _; exact IH]. destruct r as [|[]]; try apply kpk_ret. apply kpk_open.
Qed.
End Keep.

(** * Runs of device operations *)
Section Runs.
Context (g : geom) (ws ae : bool) (aw : nat) {K : Type}.
Implicit Types s : st K.
Notation world := (world g ws ae aw).
Notation crashed := (crashed g ws ae aw).
Lemma crashed_pre pg f0 L1 L s : crashed pg f0 L1 s -> (exists L2, L = L1 ++ L2) -> crashed pg f0 L s.
Proof. intros H (L2 & ->). now apply crashed_app. Qed.
Lemma world_cons pg f0 L1 L2 f1 s : run g f0 L1 = (None, f1) -> world pg f1 L2 s -> world pg f0 (L1 ++ L2) s.
Proof. intros R (A & B0 & C). split; [|split; auto]. now rewrite (run_snoc g f0 L1 f1). Qed.
Lemma crashed_cons pg f0 L1 L2 f1 s : run g f0 L1 = (None, f1) -> crashed pg f1 L2 s -> crashed pg f0 (L1 ++ L2) s.
Proof. intros R (A & B0). split; auto. now rewrite (run_snoc g f0 L1 f1). Qed.
End Runs.

Section Mig.
Context (g : geom) (gok : geom_ok g) (ws ae : bool) (aw : nat).
Context {K : Type} (KO : keyops K) (legal : K -> Prop) (KC : key_codec KO legal) (B : lim).
Notation W := (W g).
Notation HL := (HL g).
Notation rup := (rup g).
Notation NP := (NP g).
Notation st := (st K).
Implicit Types (s : st) (pg : nat -> page) (Y : lay).
Notation world := (world g ws ae aw).
Notation crashed := (crashed g ws ae aw).
Notation sworld := (sworld g ws ae aw).
Notation newest := (newest KO).
Notation lastd := (lastd KO).
Notation ents := (ents g).
Notation good := (good KO legal).
Notation mok := (mok g ws aw KO legal B).
Notation mw := (mw g ws ae aw KO legal B).
Notation kcoh := (kcoh KO legal).
Notation fetch_loc := (fetch_loc KO g).
Notation keep := (keep KO).

(** Without an open page, the partially open page holds copies. *)
Definition mcop Y : Prop := y_k Y = 0 -> y_bad Y = 0 -> copies KO (flat_map live_of (y_cl Y)) (live_of (y_sl Y)).
Definition mgood Y : Prop := minv Y /\ mok Y /\ mcop Y.
(** The same value for every key. *)
Definition same Y Y' : Prop := forall k, legal k -> lastd k (content Y) = lastd k (content Y').
Lemma same_refl Y : same Y Y. Proof. intros k _. auto. Qed.
Lemma same_trans Y1 Y2 Y3 : same Y1 Y2 -> same Y2 Y3 -> same Y1 Y3.
Proof. intros H1 H2 k L. now rewrite H1, H2. Qed.
Lemma same_sym Y1 Y2 : same Y1 Y2 -> same Y2 Y1.
Proof. intros H1 k L. now rewrite H1. Qed.

Definition kwfs s : Prop := kwf (c_kp (s_ca s)).

(** Copying items to successive places. *)
Fixpoint mops (a : nat) (ds : list (list N)) : list dop :=
  match ds with [] => [] | d :: t => item_ops g a d ++ mops (a + ssize g (SLive d)) t end.

Lemma live_map ds : live_of (map SLive ds) = ds.
Proof. induction ds; cbn; auto. now f_equal. Qed.
Lemma sizes_live_in ds l : Forall (fun d => In (SLive d) l) ds -> True. Proof. auto. Qed.

(** What is kept needs no more space than what it is taken from. *)
Lemma keep_sizes sl later : sizes g (map SLive (keep (live_of sl) later)) <= sizes g sl.
Proof.
  induction sl as [|x sl IH]; [auto|]. unfold live_of. cbn [flat_map]. fold (live_of sl). rewrite sizes_cons.
  destruct x; cbn [app]; try lia. cbn [MLogP.keep]. destruct (existsb _ _); [lia|]. cbn [map]. rewrite sizes_cons. lia.
Qed.

Lemma mok_iff f cl sl k bad : mok (mklay f cl (Some sl) k bad) <->
  (Forall (Forall (fits_buf g B)) cl /\ Forall (fits_buf g B) sl) /\
  Forall good (flat_map live_of cl ++ live_of sl) /\ Forall (tearok g ws aw B) (flat_map live_of cl ++ live_of sl).
Proof.
  unfold MFetchP.mok. rewrite content_app. unfold uslots. cbn [y_cl y_pt ptl]. rewrite Forall_app. split.
  - intros ((A & A2) & C). inversion A2; subst. auto.
  - intros ((A & A2) & C). repeat split; auto; tauto.
Qed.

Lemma mod_far a n j : a < n -> 0 < j < n -> (a + j) mod n <> a.
Proof.
  intros H1 H2. destruct (Nat.lt_ge_cases (a + j) n) as [Q1|Q1].
  - rewrite Nat.mod_small; lia.
  - replace (a + j) with (a + j - n + 1 * n) by lia. rewrite Nat.mod_add by lia. rewrite Nat.mod_small; lia.
Qed.
(** All items are quiet. *)
Definition qtl : Prop := forall d, lim_P B d -> quiet g d.
Section Loop.
Context (f : nat) (src : list slot) (cl : list (list slot)).
Let C := flat_map live_of cl.
Let p := (f + S (length cl)) mod NP.
Definition ymid (ds : list (list N)) (tl : list slot) : lay := mklay f (src :: cl) (Some (map SLive ds ++ tl)) 0 0.

Lemma live_cons (d : list N) r : live_of (SLive d :: r) = d :: live_of r. Proof. reflexivity. Qed.

Lemma mok_mid ds tl : mok (ymid ds tl) -> forall ds' tl', incl ds' (ds ++ live_of src) -> Forall (fits_buf g B) tl' -> incl (live_of tl') (live_of src) -> mok (ymid ds' tl').
Proof.
  unfold ymid. rewrite mok_iff. intros ((A & A2) & G1 & T1) ds' tl' I F IL. rewrite mok_iff.
  assert (X : forall P : list N -> Prop, Forall P (flat_map live_of (src :: cl) ++ live_of (map SLive ds ++ tl)) ->
    Forall P (flat_map live_of (src :: cl) ++ live_of (map SLive ds' ++ tl'))).
  { intros P H. cbn [flat_map] in *. rewrite live_app, live_map in *. rewrite !Forall_app in *. destruct H as ((H1 & H2) & H3 & H4).
    repeat split; auto; apply Forall_forall.
    - intros x Hx. apply I in Hx. apply in_app_or in Hx. rewrite Forall_forall in H1, H3. destruct Hx; auto.
    - intros x Hx. apply IL in Hx. rewrite Forall_forall in H1. auto. }
  repeat split; auto. apply Forall_app. split; auto. apply Forall_forall. intros x Hx. apply in_map_iff in Hx. destruct Hx as (d & <- & Hd).
  apply I in Hd. apply in_app_or in Hd. destruct Hd as [Hd|Hd].
  - apply Forall_app in A2. destruct A2 as [A2 _]. rewrite Forall_forall in A2. apply A2. now apply in_map.
  - inversion A as [|? ? A1 _]; subst. rewrite Forall_forall in A1. apply A1. unfold live_of in Hd. apply in_flat_map in Hd.
    destruct Hd as (y & Hy & Hd). destruct y; cbn in Hd; try tauto. destruct Hd as [->|[]]. auto.
Qed.

Lemma copies_keep_pre pre rest : src = pre ++ rest -> Forall good (live_of src) -> Forall good C ->
  copies KO (live_of src ++ C) (keep (live_of pre) (live_of rest ++ C)).
Proof.
  intros E G1 G2. rewrite E, live_app, <- app_assoc. rewrite E, live_app in G1. apply Forall_app in G1.
  apply (keep_copies KO legal KC (live_of pre) (live_of rest ++ C)) with (p := []). tauto.
Qed.

Lemma ents_mid ds tl : f < NP -> ents (ymid ds tl) = ents_sl g (dstart g f) src ++ ents_pg g (S f) cl ++ ents_sl g (dstart g p) (map SLive ds ++ tl).
Proof.
  intros Hf. unfold MLogP.ents, ymid, uslots. cbn [y_f y_cl y_pt ptl]. cbn [ents_pg app]. rewrite ents_pg_app. cbn [ents_pg]. rewrite app_nil_r.
  rewrite Nat.mod_small by auto. unfold p. do 4 f_equal. f_equal. lia.
Qed.

(** The newest item of the key of an item of the source page. *)
Lemma newest_src pg f0 L s ds tl l d r k : mw (ymid ds tl) pg f0 L s -> mok (ymid ds tl) -> 1 <= length cl \/ True ->
  src = l ++ SLive d :: r -> legal k -> dkey KO d = Some k -> lastd k (ds ++ live_of tl) = None ->
  exists e, newest k (ents (ymid ds tl)) = Some e /\
    (if existsb (samek KO d) (live_of r ++ C) then fst e <> dstart g f + sizes g l else e = (dstart g f + sizes g l, d)).
Proof.
  intros M OK _ E LK DK NT. pose proof M as (LY & Wd & KH & LB). pose proof (lay_total g gok _ _ LY) as (TF & TT & _).
  cbn [ymid y_f y_c y_cl y_b y_pt y_k y_bad length ptl] in TF, TT. pose proof (npos g gok) as N1.
  assert (NT' : newest k (ents_sl g (dstart g p) (map SLive ds ++ tl)) = None).
  { apply newest_none. rewrite ents_sl_data, live_app, live_map. auto. }
  assert (HD : hask KO k d = true).
  { apply (good_hask KO legal KC); auto. destruct OK as (_ & G1 & _). rewrite Forall_forall in G1. apply G1.
    unfold content, uslots, ymid. cbn [y_cl flat_map app]. apply in_or_app. left. rewrite E. unfold live_of. apply in_flat_map. exists (SLive d). split; [apply in_elt|now left]. }
  pose proof (ents_mid ds tl TF) as EM. rewrite E in EM. rewrite ents_sl_app in EM. cbn [ents_sl] in EM.
  set (ia := dstart g f + sizes g l) in *.
  set (A0 := ents_sl g (dstart g f) l) in *. set (T := ents_sl g (dstart g p) (map SLive ds ++ tl)) in *.
  set (later := ents_sl g (ia + ssize g (SLive d)) r ++ ents_pg g (S f) cl).
  assert (LT : newest k later = None <-> existsb (samek KO d) (live_of r ++ C) = false).
  { unfold later. rewrite newest_none, map_app, ents_sl_data, ents_pg_data. symmetry. now apply samek_none. }
  assert (NW : newest k (ents (ymid ds tl)) = match newest k later with Some e => Some e | None => Some (ia, d) end).
  { transitivity (newest k (A0 ++ ((ia, d) :: (later ++ T)))).
    - f_equal. rewrite EM. unfold later. rewrite <- !app_assoc. reflexivity.
    - rewrite newest_app. cbn [MLogP.newest snd]. rewrite newest_app, NT', HD. destruct (newest k later); auto. }
  rewrite NW. destruct (newest k later) as [e|] eqn:NE.
  - exists e. split; auto. destruct (existsb _ _) eqn:EX; [|destruct LT as [_ LT]; specialize (LT eq_refl); congruence].
    apply newest_in in NE. destruct NE as [I _]. apply in_app_or in I. destruct I as [I|I].
    + apply (ents_sl_range g gok) in I. pose proof (ssize_pos g gok (SLive d)). lia.
    + apply ents_pg_in in I. destruct I as (i & l' & r' & Hi & EI & EA).
      assert (Hi' : S i < y_c (ymid ds tl) + y_b (ymid ds tl)) by (unfold y_c, y_b, ymid; cbn [y_cl y_pt ptl length]; lia).
      destruct (loc_page g gok (ymid ds tl) pg LY (S i) Hi') as [U1 S1]. cbn [ymid y_f] in U1, S1.
      assert (H0 : 0 < y_c (ymid ds tl) + y_b (ymid ds tl)) by (unfold y_c, y_b, ymid; cbn [y_cl y_pt ptl length]; lia).
      destruct (loc_page g gok (ymid ds tl) pg LY 0 H0) as [U0 S0]. cbn [ymid y_f] in U0, S0.
      rewrite Nat.add_0_r, Nat.mod_small in U0, S0 by auto.
      unfold uslots in S0, S1. cbn [ymid y_cl y_pt ptl] in S0, S1. cbn [nth app] in S0, S1. rewrite app_nth1 in S1 by lia. rewrite EI in S1. rewrite E in S0.
      pose proof OK as OK'. unfold ymid in OK'. apply mok_iff in OK'. destruct OK' as ((FB & _) & _). inversion FB as [|? ? FB1 FB2]; subst.
      assert (P1 : pindex g ia = f).
      { apply (read_at g gok ws ae aw pg f0 L s f l d r); auto. rewrite E, Forall_app in FB1. destruct FB1 as [_ FB1]. inversion FB1; subst. cbn [fits_buf] in *. lia. }
      assert (P2 : pindex g (fst e) = (f + S i) mod NP).
      { replace (S f + i) with (f + S i) in EA by lia. rewrite EA. apply (read_at g gok ws ae aw pg f0 L s ((f + S i) mod NP) l' (snd e) r'); auto.
        - apply Nat.mod_upper_bound. lia.
        - rewrite Forall_forall in FB2. specialize (FB2 (nth i cl []) (nth_In _ _ Hi)). rewrite EI, Forall_app in FB2. destruct FB2 as [_ FB3]. inversion FB3; subst. cbn [fits_buf] in *. lia. }
      intros X. rewrite X, P1 in P2. symmetry in P2. revert P2. apply mod_far; lia.
  - exists (ia, d). split; auto. destruct (existsb _ _) eqn:EX; [|auto]. destruct LT as [LT _]. specialize (LT eq_refl). congruence.
Qed.

Lemma minv_mid ds tl : minv (ymid ds tl).
Proof. unfold minv, ymid. cbn [y_f y_k y_bad y_pt]. repeat split; try discriminate; lia. Qed.

Lemma keep_step pre l d r : Forall good (live_of (pre ++ l ++ [SLive d])) -> live_of l = [] ->
  keep (live_of (pre ++ l ++ [SLive d])) (live_of r ++ C) =
  keep (live_of pre) (live_of (l ++ SLive d :: r) ++ C) ++ (if existsb (samek KO d) (live_of r ++ C) then [] else [d]).
Proof.
  intros G1 NL. rewrite !live_app, NL, !live_cons in *. cbn [app]. change (live_of []) with (@nil (list N)) in *.
  rewrite (keep_app KO legal) by (apply Forall_app in G1; tauto). cbn [app MLogP.keep]. destruct (existsb _ _); reflexivity.
Qed.

Lemma wp_migrate_loop f0 : forall fuel pre rest pg L s (Q : unit -> st -> Prop) (E : err -> st -> Prop),
  src = pre ++ rest -> length rest < fuel ->
  let ds := keep (live_of pre) (live_of rest ++ C) in
  let L' := L ++ mops (dstart g p + sizes g (map SLive ds)) (keep (live_of rest) C) in
  mw (ymid ds []) pg f0 L s -> mok (ymid ds []) -> (qtl -> hqc g (f_mem (s_fl s)) p ds) ->
  (forall s' pg', mw (ymid (keep (live_of src) C) []) pg' f0 L' s' -> mok (ymid (keep (live_of src) C) []) -> mfr s s' ->
     (qtl -> hqc g (f_mem (s_fl s')) p (keep (live_of src) C)) -> Q tt s') ->
  (forall s' pg' ds' tl, copies KO (live_of src ++ C) (ds' ++ live_of tl) -> layok NP (ymid ds' tl) pg' -> mok (ymid ds' tl) ->
     crashed pg' f0 L' s' -> kwfs s' -> (qtl -> hq g (f_mem (s_fl s')) p (map SLive ds' ++ tl)) -> E (EStorage SShutoff) s') ->
  wp (migrate_loop KO g fuel (dstart g f + sizes g pre) (dend g f) (dstart g p + sizes g (map SLive ds))) Q E s.
Proof.
  induction fuel as [|fuel IH]; intros pre rest pg L s Q E ES FU ds L' M OK HH HQ HE; [lia|]. cbn [migrate_loop].
  pose proof M as (LY & Wd & KH & LB). pose proof (lay_total g gok _ _ LY) as (TF & TT & _). cbn [ymid y_f] in TF. pose proof (npos g gok) as N1.
  assert (TT' : length cl + 2 = NP) by (revert TT; unfold y_c, y_b, ymid; cbn [y_cl y_pt ptl length y_k y_bad]; lia). clear TT.
  assert (H0 : 0 < y_c (ymid ds []) + y_b (ymid ds [])) by (unfold y_c, y_b, ymid; cbn [y_cl y_pt ptl length]; lia).
  destruct (loc_page g gok (ymid ds []) pg LY 0 H0) as [U0 S0]. cbn [ymid y_f] in U0, S0. rewrite Nat.add_0_r, Nat.mod_small in U0, S0 by auto.
  unfold uslots in S0. cbn [ymid y_cl y_pt ptl app nth] in S0.
  pose proof Wd as (_ & FW & _). pose proof (used_body g ws ae aw pg _ f FW TF U0) as BD. rewrite S0 in BD.
  pose proof OK as OK'. unfold ymid in OK'. apply mok_iff in OK'. destruct OK' as ((FB & FBT) & GD & TD). inversion FB as [|? ? FB1 FB2]; subst x l.
  cbn [flat_map] in GD, TD. rewrite !Forall_app in GD, TD. destruct GD as ((GS & GC) & GT). destruct TD as ((TS & TC) & _).
  assert (FBR : Forall (fits_buf g (length (s_buf s))) rest).
  { rewrite ES, Forall_app in FB1. destruct FB1 as [_ FB1]. eapply Forall_impl; [|exact FB1]. intros x Hx. destruct x; cbn [fits_buf] in *; auto; lia. }
  pose proof (body_seg g gok ws _ _ _ BD) as (SG & SC & HD).
  assert (FT : length rest < tfuel (dstart g f + sizes g pre) (dend g f)).
  { rewrite ES in SG. apply (seg_app g) in SG. destruct SG as (x & S1 & S2). pose proof (seg_end g _ _ _ _ _ S1) as ->. exact (tfuel_len' g gok _ _ _ _ _ S2). }
  destruct (item_next_body g gok ws f s src pre rest _ BD TF ES FBR FT) as (buf & LBf & [[NL EQ]|(l & d & r & ER & NL & FN & LD & EQ)]);
    (eapply wp_ok; [exact EQ|]); cbv beta iota.
  - apply wp_ret. assert (LR : live_of rest = []) by (apply nolive_live; auto).
    assert (EK : ds = keep (live_of src) C). { unfold ds. rewrite LR, ES, live_app, LR, app_nil_r. reflexivity. }
    unfold L' in HQ. rewrite LR in HQ. cbn [MLogP.keep mops] in HQ. rewrite app_nil_r in HQ. rewrite <- EK in HQ.
    apply (HQ _ pg); auto; [now apply mw_buf|repeat split; auto].
  - set (s1 := set_buf s buf) in *. pose proof (mw_buf g ws ae aw KO legal B _ _ _ _ _ buf M LBf) as M1. fold s1 in M1.
    assert (Hd : In d (live_of src)).
    { rewrite ES, ER. unfold live_of. apply in_flat_map. exists (SLive d). split; [|now left]. apply in_or_app. right. apply in_elt. }
    assert (Gd : good d) by (rewrite Forall_forall in GS; auto). assert (Td : tearok g ws aw B d) by (rewrite Forall_forall in TS; auto).
    destruct (good_de KO legal KC d Gd) as (k & LK & DK & KL & KD).
    unfold get_buf at 1. eapply wp_ok; [reflexivity|]. cbv beta. change (s_buf s1) with buf.
    rewrite (buf_split d buf FN) at 1. rewrite (proj1 (KD _)). cbn [ser_lift]. eapply wp_ok; [reflexivity|]. cbn [fst].
    apply wp_unmark. pose proof (mw_dirty g ws ae aw KO legal B _ _ _ _ _ false M1) as M2.
    match type of M2 with MFetchP.mw _ _ _ _ _ _ _ _ _ _ _ ?x => set (s2 := x) in * end.
    apply wp_bind. eapply (wp_fetch_loc g gok ws ae aw KO legal KC B); [left; exact M2|exact OK|apply minv_mid|exact LK| |intros ? X; discriminate X].
    intros s3 res M3 F3 FL3 FR.
    assert (ES2 : src = (pre ++ l) ++ SLive d :: r) by (rewrite ES, ER; now rewrite <- app_assoc).
    assert (NT : lastd k (ds ++ live_of []) = None).
    { change (live_of []) with (@nil (list N)). rewrite app_nil_r. apply lastd_none. intros x Hx.
      assert (FX : existsb (samek KO x) (live_of rest ++ C) = false).
      { apply (keep_fresh KO legal (live_of pre) (live_of rest) C); auto. rewrite <- live_app, <- ES. auto. }
      destruct (hask KO k x) eqn:HX; auto. exfalso.
      assert (Gx : good x). { rewrite Forall_forall in GT. apply GT. rewrite live_app, live_map. apply in_or_app. now left. }
      apply (good_hask KO legal KC) in HX; auto. rewrite <- not_true_iff_false in FX. apply FX. apply existsb_exists. exists d. split.
      - apply in_or_app. left. rewrite ER, live_app, live_cons. apply in_elt.
      - unfold samek. rewrite HX. apply (good_hask KO legal KC); auto. }
    destruct (newest_src pg f0 L s2 ds [] (pre ++ l) d r k M2 OK (or_intror I) ES2 LK DK NT) as ([fa fd] & NE & NC). cbn [fst] in NC.
    unfold fres in FR. rewrite NE in FR. destruct FR as (okl & -> & _ & FN3 & LD3). cbv beta iota.
    unfold get_buf. eapply wp_ok; [reflexivity|]. cbv beta.
    change (h_len (ihdr fd)) with (length fd). destruct (Nat.ltb_spec (length (s_buf s3)) (length fd)); [lia|].
    assert (KS : keep (live_of (pre ++ l ++ [SLive d])) (live_of r ++ C) = ds ++ (if existsb (samek KO d) (live_of r ++ C) then [] else [d])).
    { unfold ds. rewrite ER. apply keep_step; [|apply nolive_live; auto]. rewrite ES2 in GS. rewrite live_app, live_cons in GS.
      rewrite app_assoc, live_app, live_cons. apply Forall_app in GS. destruct GS as [G1 G2]. apply Forall_app. split; [exact G1|constructor; [exact Gd|constructor]]. }
    assert (ES3 : src = (pre ++ l ++ [SLive d]) ++ r) by (rewrite ES, ER; rewrite <- !app_assoc; reflexivity).
    assert (LR : length r < fuel) by (rewrite ER, app_length in FU; cbn [length] in FU; lia).
    assert (KR : keep (live_of rest) C = (if existsb (samek KO d) (live_of r ++ C) then [] else [d]) ++ keep (live_of r) C).
    { rewrite ER, live_app, (nolive_live _ NL), live_cons. cbn [app MLogP.keep]. destruct (existsb _ _); reflexivity. }
    assert (F13 : mfr s s3). { eapply mfr_trans; [|exact F3]. eapply mfr_trans; [|apply mfr_dirty]. repeat split; auto. }
    destruct (existsb (samek KO d) (live_of r ++ C)) eqn:EX.
    + rewrite app_nil_r in KS. destruct (Nat.eqb_spec fa (dstart g f + sizes g (pre ++ l))) as [X|X]; [congruence|].
      rewrite app_nil_l in KR. unfold L' in HQ, HE. rewrite KR in HQ, HE. rewrite <- KS in *.
      apply (IH (pre ++ l ++ [SLive d]) r pg L s3); auto; [rewrite FL3; exact HH|].
      intros s' pg' M' OK' F' HH'. apply (HQ s' pg'); auto. eapply mfr_trans; eassumption.
    + injection NC as -> ->. rewrite Nat.eqb_refl. rewrite FN3.
      assert (TP : pg p = PPart (map SLive ds)).
      { pose proof (lay_at_part NP f (src :: cl) (map SLive ds ++ []) 0 0 pg LY) as X. cbn [length] in X. rewrite app_nil_r in X. exact X. }
      assert (Hp : p < NP) by (apply Nat.mod_upper_bound; lia).
      set (wa := dstart g p + sizes g (map SLive ds)) in *.
      assert (SZ : sizes g (map SLive (ds ++ [d])) <= cap g).
      { rewrite <- KS. etransitivity; [apply keep_sizes|]. etransitivity; [|exact SC]. rewrite ES3, (sizes_app g (pre ++ l ++ [SLive d]) r). lia. }
      assert (FT2 : fitsb g (map SLive ds) (length d) = true).
      { unfold fitsb. apply Nat.leb_le. rewrite map_app, (sizes_app g) in SZ. cbn [map] in SZ. rewrite (sizes_cons g) in SZ. change (sizes g []) with 0 in SZ.
        unfold ssize in SZ. cbn [shdr ihdr h_len] in SZ. lia. }
      assert (WA : wa <> 0). { unfold wa. unfold dstart. pose proof (W_pos g gok). lia. }
      assert (EM1 : ents (ymid (ds ++ [d]) []) = ents (ymid ds []) ++ [(wa, d)]).
      { rewrite !ents_mid by auto. rewrite <- !app_assoc. do 2 f_equal. rewrite !app_nil_r, map_app, ents_sl_app. cbn [map ents_sl]. rewrite app_nil_r. reflexivity. }
      pose proof M3 as (_ & Wd3 & KH3 & LB3).
      assert (HKD : hask KO k d = true) by (apply (good_hask KO legal KC); auto).
      destruct (kcoh_notice KO legal KC (ents (ymid ds [])) (ents (ymid (ds ++ [d]) [])) (c_kp (s_ca s3)) k wa d KH3 LK WA) as (kp & EKP & KH').
      { rewrite EM1, newest_app. cbn [MLogP.newest snd]. now rewrite HKD. }
      { intros k' NK LK' e NE'. rewrite EM1, newest_app. cbn [MLogP.newest snd]. destruct (hask KO k' d) eqn:HK'; auto.
        exfalso. apply (good_hask KO legal KC) in HK'; auto. congruence. }
      apply wp_bind. eapply wp_note; [exact EKP|].
      pose proof (world_kp g ws ae aw pg f0 L s3 true kp Wd3) as W4. match type of W4 with WorldP.world _ _ _ _ _ _ _ ?x => set (s4 := x) in * end.
      assert (OKN : mok (ymid (ds ++ [d]) [])).
      { eapply mok_mid; [exact OK| |constructor|intros x []]. intros x Hx. apply in_app_or in Hx. apply in_or_app. destruct Hx as [Hx|[<-|[]]]; auto. }
      assert (CP : copies KO (live_of src ++ C) (ds ++ [d])).
      { rewrite <- KS. apply (copies_keep_pre (pre ++ l ++ [SLive d]) r); auto. }
      assert (LL : L' = L ++ item_ops g wa d ++ mops (wa + ssize g (SLive d)) (keep (live_of r) C)).
      { unfold L'. rewrite KR. reflexivity. }
      assert (FL4 : s_fl s4 = s_fl s) by exact FL3.
      assert (FITd : dstart g p + ssize g (SLive d) <= dend g p).
      { rewrite map_app, (sizes_app g) in SZ. cbn [map] in SZ. rewrite (sizes_cons g) in SZ. pose proof (cap_eq g gok p). lia. }
      assert (BDp : ds = [] -> body g ws (s_fl s4) p []).
      { intros E0. pose proof W4 as (_ & FW4 & _). pose proof (used_body g ws ae aw pg _ p FW4 Hp) as X. rewrite TP, E0 in X. apply X. exact I. }
      apply wp_bind. apply wp_kpk; [apply kpk_write_raw|].
      eapply (wp_write_item1 g gok ws ae aw p d (map SLive ds) wa pg f0 L); [exact W4|exact Hp|exact TP|reflexivity|exact (proj1 (proj2 Td))|exact FT2|exact (proj2 (proj2 Td))| |].
      * intros s5 W5 F5 _ PR5 KE. change (c_kp (s_ca s4)) with kp in KE.
        assert (H5 : qtl -> hqc g (f_mem (s_fl s5)) p (ds ++ [d])).
        { intros QT. specialize (HH QT). rewrite <- FL4 in HH. destruct ds as [|d0 ds0].
          - apply (hq_write g gok ws (s_fl s4) (s_fl s5) p d (length (item_bytes g d)) []); auto; [exact (proj1 (proj2 Td))|exact (QT _ (proj1 Td))|].
            rewrite firstn_all, <- (Nat.add_0_r (dstart g p)). exact PR5.
          - cbn [app]. eapply hqc_write; [exact HH|exact PR5]. }
        assert (LY5 : layok NP (ymid (ds ++ [d]) []) (upd pg p (PPart (map SLive ds ++ [SLive d])))).
        { unfold ymid. rewrite app_nil_r, map_app. cbn [map]. exact (lay_part NP (npos g gok) _ _ _ _ _ _ _ LY). }
        assert (M5 : mw (ymid (ds ++ [d]) []) (upd pg p (PPart (map SLive ds ++ [SLive d]))) f0 (L ++ item_ops g wa d) s5).
        { split; auto. split; auto. rewrite KE. split; auto. destruct F5 as (B5 & _). rewrite B5. exact LB3. }
        replace (next_addr g wa (ihdr d)) with (dstart g p + sizes g (map SLive (ds ++ [d]))).
        2:{ unfold next_addr, wa. rewrite map_app, (sizes_app g). cbn [map]. rewrite (sizes_cons g). change (sizes g []) with 0. unfold ssize. cbn [shdr ihdr h_len]. lia. }
        rewrite <- KS in *.
        assert (LL2 : L' = (L ++ item_ops g wa d) ++ mops (dstart g p + sizes g (map SLive (keep (live_of (pre ++ l ++ [SLive d])) (live_of r ++ C)))) (keep (live_of r) C)).
        { rewrite LL, <- app_assoc. do 3 f_equal. rewrite KS, map_app, (sizes_app g). cbn [map]. rewrite (sizes_cons g). change (sizes g []) with 0. unfold wa. lia. }
        rewrite LL2 in HQ, HE. eapply (IH (pre ++ l ++ [SLive d]) r); [exact ES3|exact LR|exact M5|exact OKN|exact H5| |exact HE].
        intros s' pg' M' OK' F' HH'. apply (HQ s' pg'); auto. eapply mfr_trans; [exact F13|]. eapply mfr_trans; [|exact F'].
        eapply mfr_trans; [|apply fr_mfr; exact F5]. repeat split; auto.
      * intros s5 tl j TI CR _ PR5 KE. change (c_kp (s_ca s4)) with kp in KE.
        assert (CPd : copies KO (live_of src ++ C) ds) by (apply Forall_app in CP; apply CP).
        assert (LT : live_of tl = [] \/ live_of tl = [d]) by (destruct TI as [->|[[-> _]|[->| ->]]]; auto).
        apply (HE s5 (upd pg p (PPart (map SLive ds ++ tl))) ds tl).
        { destruct LT as [-> | ->]; [now rewrite app_nil_r|auto]. }
        { unfold ymid. exact (lay_part NP (npos g gok) _ _ _ _ _ _ _ LY). }
        { eapply mok_mid; [exact OK| | |].
          - intros x Hx. apply in_or_app. now left.
          - assert (FD : rup (length d) <= B). { rewrite Forall_forall in FB1. apply (FB1 (SLive d)). rewrite ES2. apply in_elt. }
            destruct TI as [->|[[-> _]|[->| ->]]]; repeat constructor; exact FD.
          - destruct LT as [-> | ->]; intros x Hx; [destruct Hx|destruct Hx as [<-|[]]; auto]. }
        { rewrite LL. eapply crashed_pre; [exact CR|]. rewrite app_assoc. eauto. }
        { unfold kwfs. rewrite KE. eapply kcoh_wf; eauto. }
        { intros QT. specialize (HH QT). rewrite <- FL4 in HH. destruct ds as [|d0 ds0].
          - cbn [map app]. apply (hq_write g gok ws (s_fl s4) (s_fl s5) p d j tl); auto; [exact (proj1 (proj2 Td))|exact (QT _ (proj1 Td))|].
            rewrite <- (Nat.add_0_r (dstart g p)). exact PR5.
          - apply hqc_hq; [|discriminate]. rewrite <- (app_nil_r (d0 :: ds0)). cbn [app]. eapply hqc_write; [exact HH|exact PR5]. }
Qed.
End Loop.

(** * The whole migration *)
Definition ymig (f : nat) (src : list slot) (cl : list (list slot)) : lay :=
  mklay ((f + 1) mod NP) cl (Some (map SLive (keep (live_of src) (flat_map live_of cl)))) 1 0.
Definition migops (f : nat) (src : list slot) (cl : list (list slot)) : list dop :=
  mops (dstart g ((f + S (length cl)) mod NP)) (keep (live_of src) (flat_map live_of cl)) ++ [DE f].

Lemma mok_good Y : mok Y -> Forall good (content Y). Proof. intros H. apply H. Qed.
Lemma ymig_same f src cl tl k bad : Forall good (live_of src) -> live_of tl = [] -> same (mklay f (src :: cl) (Some tl) k bad) (ymig f src cl).
Proof.
  intros G1 TL k' LK. unfold ymig. rewrite !content_app, live_map, TL. cbn [flat_map]. rewrite app_nil_r. symmetry. now apply (keep_last KO legal KC).
Qed.
Lemma ymig_good f src cl tl : mok (mklay f (src :: cl) (Some tl) 0 0) -> mgood (ymig f src cl).
Proof.
  intros OK. apply mok_iff in OK. destruct OK as ((FB & _) & GD & TD). cbn [flat_map] in GD, TD. rewrite !Forall_app in GD, TD.
  inversion FB as [|? ? FB1 FB2]; subst x l. destruct GD as ((GS & GC) & _), TD as ((TS & TC) & _).
  assert (X : forall P : list N -> Prop, Forall P (live_of src) -> Forall P (keep (live_of src) (flat_map live_of cl))).
  { intros P H. apply Forall_forall. intros x Hx. apply keep_in in Hx. rewrite Forall_forall in H. auto. }
  split; [|split].
  - unfold minv, ymig. cbn [y_f y_k y_bad y_pt]. repeat split; try discriminate; lia.
  - unfold ymig. apply mok_iff. rewrite live_map, !Forall_app. repeat split; auto.
    apply Forall_forall. intros x Hx. apply in_map_iff in Hx. destruct Hx as (d & <- & Hd). apply keep_in in Hd.
    rewrite Forall_forall in FB1. apply FB1. unfold live_of in Hd. apply in_flat_map in Hd. destruct Hd as (y & Hy & Hd). destruct y; cbn in Hd; try tauto. destruct Hd as [->|[]]. auto.
  - intros X1. discriminate X1.
Qed.

(** The page being filled by a migration begins with a quiet item. *)
Definition hqY Y (m : nat -> N) : Prop := qtl -> y_k Y = 0 -> y_bad Y = 0 -> forall sl, y_pt Y = Some sl -> hq g m ((y_f Y + length (y_cl Y)) mod NP) sl.

Lemma wp_migrate f src cl pg f0 L s (Q : unit -> st -> Prop) (E : err -> st -> Prop) :
  let Y := mklay f (src :: cl) (Some []) 0 0 in
  mw Y pg f0 L s -> mok Y ->
  (forall s' pg', mw (ymig f src cl) pg' f0 (L ++ migops f src cl) s' -> mfr s s' -> Q tt s') ->
  (forall s' pg' Yc, mgood Yc -> same Y Yc -> layok NP Yc pg' -> crashed pg' f0 (L ++ migops f src cl) s' -> kwfs s' -> hqY Yc (f_mem (s_fl s')) -> E (EStorage SShutoff) s') ->
  wp (migrate KO g f ((f + S (length cl)) mod NP)) Q E s.
Proof.
  intros Y M OK HQ HE. unfold migrate. set (C := flat_map live_of cl) in *. set (p := (f + S (length cl)) mod NP) in *.
  pose proof M as (LY & Wd & KH & LB). pose proof (lay_total g gok _ _ LY) as (TF & TT & _). cbn [Y y_f] in TF.
  pose proof OK as OK'. unfold Y in OK'. apply mok_iff in OK'. destruct OK' as ((FB & _) & GD & TD). cbn [flat_map] in GD. rewrite !Forall_app in GD. destruct GD as ((GS & GC) & _). clear TD FB.
  assert (H0 : 0 < y_c Y + y_b Y) by (unfold y_c, y_b, Y; cbn [y_cl y_pt ptl length]; lia).
  destruct (loc_page g gok Y pg LY 0 H0) as [U0 S0]. cbn [Y y_f] in U0, S0. rewrite Nat.add_0_r, Nat.mod_small in U0, S0 by auto.
  unfold uslots in S0. cbn [Y y_cl y_pt ptl app nth] in S0.
  pose proof Wd as (_ & FW & _). pose proof (used_body g ws ae aw pg _ f FW TF U0) as BD. rewrite S0 in BD.
  pose proof (body_seg g gok ws _ _ _ BD) as (SG & SC & HD). pose proof (tfuel_len' g gok _ _ _ _ _ SG) as FU.
  set (Lm := mops (dstart g p) (keep (live_of src) C)).
  assert (LM : L ++ migops f src cl = (L ++ Lm) ++ [DE f]) by (unfold migops; fold C p; fold Lm; now rewrite app_assoc).
  assert (CG : forall ds tl, copies KO (live_of src ++ C) (ds ++ live_of tl) -> mok (ymid f src cl ds tl) -> mgood (ymid f src cl ds tl) /\ same Y (ymid f src cl ds tl)).
  { intros ds tl CP OK1. split; [split; [apply minv_mid|split; [exact OK1|]]|].
    - intros _ _. unfold ymid, y_sl. cbn [y_cl y_pt]. cbn [flat_map]. rewrite live_app, live_map. exact CP.
    - intros k LK. unfold Y, ymid. rewrite !content_app. cbn [flat_map]. rewrite live_app, live_map. change (live_of []) with (@nil (list N)). rewrite app_nil_r.
      symmetry. apply (copies_last KO legal KC); auto.
      apply mok_iff in OK1. destruct OK1 as (_ & GG & _). apply Forall_app in GG. destruct GG as [_ GG]. now rewrite live_app, live_map in GG. }
  apply wp_bind. rewrite <- (Nat.add_0_r (dstart g f)) at 2. rewrite <- (Nat.add_0_r (dstart g p)).
  apply (wp_migrate_loop f src cl f0 (tfuel (dstart g f) (dend g f)) [] src pg L s); auto.
  - intros _. now left.
  - intros s1 pg1 M1 OK1 F1 HH. change (sizes g (map SLive (keep (live_of []) (live_of src ++ flat_map live_of cl)))) with 0 in M1. fold C p in M1. rewrite Nat.add_0_r in M1. fold Lm in M1.
    fold C in OK1. set (ds := keep (live_of src) C) in *. pose proof M1 as (LY1 & W1 & KH1 & LB1). pose proof W1 as (_ & _ & CH1).
    pose proof (lay_ring NP _ _ (npos g gok) LY1) as RG1.
    assert (RG2 : ringst NP (fun q => st_of (pg1 q)) f (S (length cl)) 1 0 0) by exact RG1.
    destruct (notice_T3 g gok pg1 (c_ps (s_ca s1)) f (length cl) 1 0 (proj1 CH1) RG2) as (ps' & N1 & N2 & _).
    assert (PF : pg1 f = PClosed src).
    { pose proof (lay_at_cl NP f [] src cl (Some (map SLive ds ++ [])) 0 0 pg1 LY1) as X. cbn [length] in X. rewrite Nat.add_0_r, Nat.mod_small in X by auto. exact X. }
    assert (CPS : copies KO (live_of src ++ C) (ds ++ live_of [])).
    { change (live_of []) with (@nil (list N)). rewrite app_nil_r. apply (keep_copies KO legal KC (live_of src) C GS []). }
    apply wp_kpk; [apply kpk_open|]. eapply (wp_open_page1 g gok ws ae aw); [exact W1|exact TF|exact N1|exact N2|right; left; right; rewrite PF; exact I| |].
    + intros s2 W2 F2 _ _ KE. apply (HQ s2 (upd pg1 f POpen)).
      * split; [|split; [|split]].
        -- unfold ymig. pose proof (lay_erase NP (npos g gok) _ _ _ _ _ _ LY1) as X. rewrite app_nil_r in X. exact X.
        -- rewrite LM. exact W2.
        -- rewrite KE. eapply kcoh_mono; [|exact KH1]. intros k e LK NE. rewrite ents_mid in NE by auto. rewrite newest_app in NE.
           assert (EE : ents (ymig f src cl) = ents_pg g (S f) cl ++ ents_sl g (dstart g ((f + S (length cl)) mod NP)) (map SLive ds ++ [])).
           { unfold MLogP.ents, ymig, uslots. cbn [y_f y_cl y_pt ptl]. rewrite (ents_pg_mod g gok), ents_pg_app. cbn [ents_pg]. rewrite !app_nil_r. fold C. fold ds. do 4 f_equal; lia. }
           rewrite EE. destruct (newest k (ents_pg g (S f) cl ++ ents_sl g (dstart g ((f + S (length cl)) mod NP)) (map SLive ds ++ []))) eqn:NN; auto.
           exfalso. apply newest_none in NN. rewrite map_app, ents_pg_data, ents_sl_data, app_nil_r, live_map in NN. unfold ds, C in NN.
           rewrite (keep_last KO legal KC) in NN by auto. rewrite lastd_app in NN. destruct (lastd k (flat_map live_of cl)); [discriminate|].
           assert (X : newest k (ents_sl g (dstart g f) src) = None) by (apply newest_none; now rewrite ents_sl_data). congruence.
        -- destruct F2 as (B2 & _). now rewrite B2.
      * eapply mfr_trans; [exact F1|apply fr_mfr; exact F2].
    + intros s2 x [TP|(sl0 & TP & _)] _ CR FS KE; rewrite PF in TP; [|discriminate].
      assert (KW : kwfs s2) by (unfold kwfs; rewrite KE; eapply kcoh_wf; eauto).
      rewrite <- LM in CR. destruct (CG ds [] CPS OK1) as [MG1 SM1].
      assert (MG2 : mgood (ymig f src cl)) by (eapply ymig_good; exact OK).
      assert (SM2 : same Y (ymig f src cl)) by (apply ymig_same; auto).
      destruct TP as [->|[->| ->]].
      * eapply (HE s2); [exact MG1|exact SM1|apply (lay_same NP _ pg1 f LY1 (PClosed src)); auto|exact CR|exact KW|].
        intros QT _ _ sl [= <-]. apply hqc_hq; [|auto]. eapply hqc_ext; [|exact (HH QT)]. intros y Hy. apply FS. apply (pages_apart g gok p f); auto. apply mod_far; auto. revert TT. unfold y_c, y_b, Y. cbn [y_cl y_pt ptl length y_k y_bad]. lia.
      * eapply (HE s2 _ (mklay ((f + 1) mod NP) cl (Some (map SLive ds)) 0 1)); [| | |exact CR|exact KW|intros _ _ X; discriminate X].
        -- destruct MG2 as (MI & OK2 & _). split; [|split].
           ++ unfold minv. cbn [y_f y_k y_bad y_pt]. repeat split; try discriminate; lia.
           ++ exact OK2.
           ++ intros _ X; discriminate X.
        -- exact SM2.
        -- pose proof (lay_tear NP (npos g gok) _ _ _ _ _ _ LY1) as X. rewrite app_nil_r in X. exact X.
      * eapply (HE s2); [exact MG2|exact SM2| |exact CR|exact KW|intros _ X; discriminate X].
        unfold ymig. pose proof (lay_erase NP (npos g gok) _ _ _ _ _ _ LY1) as X. rewrite app_nil_r in X. exact X.
  - intros s1 pg1 ds tl CP LY1 OK1 CR KW HH. change (sizes g (map SLive (keep (live_of []) (live_of src ++ flat_map live_of cl)))) with 0 in CR. fold C p in CR. rewrite Nat.add_0_r in CR. fold Lm in CR.
    fold C in CP. destruct (CG ds tl CP OK1) as [MG SM]. eapply (HE s1); [exact MG|exact SM|exact LY1| |exact KW|intros QT _ _ sl [= <-]; exact (HH QT)].
    rewrite LM. eapply crashed_pre; [exact CR|eauto].
Qed.
End Mig.
