(** Storing into a map on layouts. *)
From Coq Require Import List NArith ZArith Arith Bool Lia ZifyBool ZifyNat ZifyN.
From Verif Require Import Base BaseP Crc CrcP Flash Cache State Item Generic Map Codec CodecP GeomP ScanP WpP ItemP CalcP PageP TornSpec TornP WorldP LayP QPushP QRepP KeyP MLogP MFetchP MMigP.
Import ListNotations.
Local Opaque crc16 acrc crc32.

Lemma run_fuel g L : forall f0 f1, run g f0 L = (None, f1) -> f_fuel f0 = None -> f_fuel f1 = None.
Proof.
  induction L as [|o L IH]; intros f0 f1; cbn [run]; [now intros [= ->]|].
  destruct (run1 g f0 o) as [[e|] f2] eqn:R; [discriminate|]. intros R2 FU. apply (IH f2); auto.
  destruct o as [a bs|p]; cbn [run1] in R; unfold dev_write, dev_erase in R; rewrite FU in R; cbn [spend] in R; destruct (chk _ _ _ _); try discriminate;
    injection R as <-; reflexivity.
Qed.

(** The page becomes open again. *)
Lemma lay_unpart n f cl sl pg : 1 <= n -> layok n (mklay f cl (Some sl) 0 0) pg ->
  layok n (mklay f cl None 1 0) (upd pg ((f + length cl) mod n) POpen).
Proof.
  intros N1 [L _]. split; [|cbn; lia]. unfold pages in *. cbn [y_f y_cl y_pt ptl map y_k y_bad repeat app] in *.
  rewrite <- (map_length PClosed cl). apply lay0_upd_app with (x := PPart sl); auto.
Qed.

Section Sto.
Context (g : geom) (gok : geom_ok g) (ws ae : bool) (aw : nat) (np2 : 2 <= NP g).
Context {K : Type} (KO : keyops K) (legal : K -> Prop) (KC : key_codec KO legal) (B : lim).
Notation W := (W g).
Notation HL := (HL g).
Notation rup := (rup g).
Notation NP := (NP g).
Notation st := (st K).
Implicit Types (s : st) (pg : nat -> page) (Y : lay).
Notation world := (world g ws ae aw).
Notation crashed := (crashed g ws ae aw).
Notation sworld := (sworld g ws ae aw).
Notation newest := (newest KO).
Notation lastd := (lastd KO).
Notation ents := (ents g).
Notation good := (good KO legal).
Notation tearok := (tearok g ws aw B).
Notation mok := (mok g ws aw KO legal B).
Notation mw := (mw g ws ae aw KO legal B).
Notation mgood := (mgood g ws aw KO legal B).
Notation same := (same KO legal).
Notation kcoh := (kcoh KO legal).
Notation ymig := (ymig g KO).
Notation migops := (migops g KO).
Notation y_cur := (y_cur g).

Definition mokl (us : list (list slot)) : Prop :=
  Forall (Forall (fits_buf g B)) us /\ Forall good (flat_map live_of us) /\ Forall tearok (flat_map live_of us).
Lemma mok_l Y : mok Y <-> mokl (uslots Y). Proof. reflexivity. Qed.
Lemma mokl_app a b : mokl (a ++ b) <-> mokl a /\ mokl b.
Proof. unfold mokl. rewrite !flat_map_app, !Forall_app. tauto. Qed.
Lemma mokl_empty : mokl [[]].
Proof. repeat split; constructor; auto. Qed.

(** * Serialization *)
Definition dser (lb : nat) (k : K) (v : list N) : list N + err :=
  match k_ser KO k lb with
  | inr e => inr (ESer e)
  | inl kb => if lb - length kb <? length v then inr (ESer SEBufferTooSmall) else inl (kb ++ v)
  end.
Lemma ser_item_eq s k v : legal k -> exists buf, length buf = length (s_buf s) /\
  match dser (length (s_buf s)) k v with
  | inr e => ser_item KO k v s = (Err e, set_buf s buf)
  | inl d => firstn (length d) buf = d /\ length d <= length buf /\ ser_item KO k v s = (Ok (length d), set_buf s buf)
  end.
Proof.
  intros LK. unfold dser, ser_item, bind, get_buf, put_buf, ser_lift. destruct (k_ser KO k (length (s_buf s))) as [kb|e] eqn:SE.
  2:{ exists (s_buf s). split; auto. destruct s; reflexivity. }
  pose proof (kc_fit KO legal KC k _ kb LK SE) as FT. cbn [ret].
  destruct (Nat.ltb_spec (length (s_buf s)) (length kb)); [lia|].
  destruct (Nat.ltb_spec (length (s_buf s) - length kb) (length v)) as [LT|LT].
  - exists (put_front kb (s_buf s)). split; [|reflexivity]. unfold put_front. rewrite app_length, skipn_length. lia.
  - exists (kb ++ put_front v (skipn (length kb) (s_buf s))). split; [unfold put_front; rewrite !app_length, !skipn_length; lia|].
    split; [|split].
    + unfold put_front. rewrite app_assoc. rewrite firstn_app, firstn_all, Nat.sub_diag. cbn [firstn]. now rewrite app_nil_r.
    + unfold put_front. rewrite !app_length, !skipn_length. lia.
    + cbn. rewrite app_length. reflexivity.
Qed.
Lemma dser_good lb k v d : legal k -> dser lb k v = inl d -> good d /\ dkey KO d = Some k /\ dval KO d = v.
Proof.
  intros LK. unfold dser. destruct (k_ser KO k lb) as [kb|] eqn:SE; [|discriminate]. destruct (_ <? _); [discriminate|]. intros [= <-].
  destruct (good_ser KO legal KC k lb kb v LK SE) as (A & B0 & C & _). auto.
Qed.

(** * The next page *)
Definition yadv (f : nat) (cl : list (list slot)) (k : nat) : list dop * lay :=
  let np := (f + length cl) mod NP in
  match k, cl with
  | O, src :: cl' => ([DW (paddr g np) (zeros g)] ++ migops f src cl', ymig f src cl')
  | _, _ => ([DW (paddr g np) (zeros g)], mklay f cl (Some []) k 0)
  end.

Notation hqY := (hqY g B).
(** [G]: what is known about the beginning of the page being filled by an earlier migration. *)
Definition mcrash (G : Prop) Y f0 L (C : lay -> Prop) (E : err -> st -> Prop) : Prop :=
  forall s' pg' Yc, C Yc -> mgood Yc -> layok NP Yc pg' -> crashed pg' f0 L s' -> kwfs s' -> (G -> hqY Yc (f_mem (s_fl s'))) -> E (EStorage SShutoff) s'.
Lemma hqY_k (G : Prop) Y m : 1 <= y_k Y + y_bad Y -> G -> hqY Y m.
Proof. intros H _ _ A C. lia. Qed.
Lemma hqY_nil (G : Prop) f cl k bad m : G -> hqY (mklay f cl (Some []) k bad) m.
Proof. intros _ _ _ _ sl [= <-]. now left. Qed.

Lemma pos_of f c : f < NP -> c < NP -> pos NP f ((f + c) mod NP) = c.
Proof. intros. apply pos_mod; auto. lia. Qed.

Lemma mw_ext Y Y' pg pg' f0 L L' s s' : layok NP Y' pg' -> world pg' f0 L' s' -> ents Y' = ents Y -> fr s s' -> mw Y pg f0 L s -> mw Y' pg' f0 L' s'.
Proof.
  intros LY Wd E (B0 & _ & _ & KE) (_ & _ & KH & LB). split; auto. split; auto. rewrite E, KE, B0. auto.
Qed.

Lemma wp_close_m (G : Prop) f cl sl k pg f0 L s (Q : unit -> st -> Prop) (E : err -> st -> Prop) :
  let Y := mklay f cl (Some sl) (S k) 0 in let Y' := mklay f (cl ++ [sl]) None (S k) 0 in
  mw Y pg f0 L s -> mgood Y -> kn s (y_cur Y) PartialOpen -> kn s (next_page g (y_cur Y)) Open ->
  (forall s' pg', mw Y' pg' f0 (L ++ [DW (dend g (y_cur Y)) (zeros g)]) s' -> mfr s s' -> Q tt s') ->
  mcrash G Y f0 (L ++ [DW (dend g (y_cur Y)) (zeros g)]) (same Y) E ->
  mgood Y' -> wp (close_page g (y_cur Y)) Q E s.
Proof.
  intros Y Y' M MG K1 K2 HQ HE MG'. pose proof M as (LY & Wd & KH & LB). pose proof (lay_total g gok _ _ LY) as (TF & TT & _).
  assert (TT' : length cl + 1 + S k = NP) by (revert TT; unfold y_c, y_b, Y; cbn [y_cl y_pt ptl length y_k y_bad]; lia).
  cbn [Y y_f] in TF. unfold QPushP.y_cur, y_c in *. cbn [Y y_f y_cl] in *. set (p := (f + length cl) mod NP) in *.
  assert (CE : same Y Y'). { intros k' _. unfold Y, Y'. rewrite !content_app, flat_map_app. cbn [flat_map]. now rewrite !app_nil_r. }
  assert (EE : ents Y' = ents Y). { unfold MLogP.ents, uslots, Y, Y'. cbn [y_f y_cl y_pt ptl]. now rewrite app_nil_r. }
  apply wp_kpk; [apply kpk_close|].
  eapply (wp_close_page g gok ws ae aw p f (length cl) k 0 sl pg f0 L); auto.
  - exact (lay_ring NP _ _ (npos g gok) LY).
  - apply Nat.mod_upper_bound. lia.
  - apply pos_of; lia.
  - exact (lay_at_part NP f cl sl (S k) 0 pg LY).
  - intros s' W' F' KE. eapply HQ; [|apply fr_mfr; exact F'].
    eapply (mw_ext Y Y'); eauto. exact (lay_close NP (npos g gok) _ _ _ _ _ _ LY).
  - intros s' x X CR KE. assert (KW : kwfs s') by (unfold kwfs; rewrite KE; eapply kcoh_wf; eauto).
    destruct X as [->| ->].
    + eapply (HE s'); [apply same_refl|exact MG| |exact CR|exact KW|apply hqY_k; cbn; lia]. apply lay_same; auto. symmetry. exact (lay_at_part NP f cl sl (S k) 0 pg LY).
    + eapply (HE s'); [exact CE|exact MG'| |exact CR|exact KW|apply hqY_k; cbn; lia]. exact (lay_close NP (npos g gok) _ _ _ _ _ _ LY).
Qed.

(** Marking an open page as in use, after the closed ones. *)
Lemma wp_start_m (G : Prop) f cl k pg f0 L s (Q : pstate -> st -> Prop) (E : err -> st -> Prop) :
  let Y := mklay f cl None (S k) 0 in let Y' := mklay f cl (Some []) k 0 in let p := (f + length cl) mod NP in
  mw Y pg f0 L s -> mgood Y ->
  (forall s' pg', mw Y' pg' f0 (L ++ [DW (paddr g p) (zeros g)]) s' -> mgood Y' -> mfr s s' -> kn s' p PartialOpen -> Q PartialOpen s') ->
  mcrash G Y f0 (L ++ [DW (paddr g p) (zeros g)]) (same Y) E ->
  wp (partial_close g p) Q E s.
Proof.
  intros Y Y' p M MG HQ HE. pose proof M as (LY & Wd & KH & LB). pose proof (lay_total g gok _ _ LY) as (TF & TT & _).
  assert (TT' : length cl + S k = NP) by (revert TT; unfold y_c, y_b, Y; cbn [y_cl y_pt ptl length y_k y_bad]; lia).
  cbn [Y y_f] in TF. assert (Hp : p < NP) by (apply Nat.mod_upper_bound; lia).
  destruct MG as (MI & OK & CP).
  assert (MG' : mgood Y').
  { destruct MI as (I1 & _ & _). split; [|split].
    - unfold minv, Y'. cbn [Y Y' y_f y_k y_bad y_pt] in *. repeat split; try discriminate; lia.
    - apply (proj2 (mok_l _)). apply (proj1 (mok_l _)) in OK. unfold uslots, Y, Y' in *. cbn [y_cl y_pt ptl] in *. rewrite app_nil_r in OK. apply mokl_app. split; auto using mokl_empty.
    - intros _ _. constructor. }
  assert (CE : same Y Y'). { intros k' _. unfold Y, Y'. rewrite !content_app. reflexivity. }
  assert (EE : ents Y' = ents Y). { unfold MLogP.ents, uslots, Y, Y'. cbn [y_f y_cl y_pt ptl]. rewrite !ents_pg_app. reflexivity. }
  assert (PO : pg p = POpen).
  { pose proof (lay_at_open NP (npos g gok) f cl None (S k) 0 pg 0 LY ltac:(lia)) as X. cbn [ptl length] in X. rewrite !Nat.add_0_r in X. exact X. }
  apply wp_kpk; [apply kpk_partial|].
  eapply (wp_partial_close_open g gok ws ae aw p f (length cl) k 0 pg f0 L); auto.
  - exact (lay_ring NP _ _ (npos g gok) LY).
  - destruct (Nat.eq_dec (length cl) 0) as [Z|Z]; [right|left; lia]. destruct MI as (I1 & _). cbn [Y y_f y_k y_bad] in I1. split; auto.
    destruct I1 as [I1|I1]; [|lia]. unfold p. rewrite I1, Z. apply Nat.mod_small. lia.
  - apply pos_of; lia.
  - intros s' W' F' KN KE. eapply HQ; [|exact MG'|apply fr_mfr; exact F'|exact KN].
    eapply (mw_ext Y Y'); eauto. exact (lay_start NP (npos g gok) _ _ _ _ _ LY).
  - intros s' x X CR KE. assert (KW : kwfs s') by (unfold kwfs; rewrite KE; eapply kcoh_wf; eauto).
    destruct X as [->| ->].
    + eapply (HE s'); [apply same_refl|split; [exact MI|split; [exact OK|exact CP]]| |exact CR|exact KW|apply hqY_k; cbn; lia]. apply lay_same; auto.
    + eapply (HE s'); [exact CE|exact MG'| |exact CR|exact KW|apply hqY_nil]. exact (lay_start NP (npos g gok) _ _ _ _ _ LY).
Qed.

Lemma next_of f c : next_page g ((f + c) mod NP) = (f + S c) mod NP.
Proof. rewrite (nxt_mod g gok). f_equal. lia. Qed.

Lemma wp_advance (G : Prop) f cl k pg f0 L s (Q : unit -> st -> Prop) (E : err -> st -> Prop) :
  let Y := mklay f cl None (S k) 0 in let np := (f + length cl) mod NP in
  mw Y pg f0 L s -> mgood Y -> cl <> [] ->
  (forall s' pg', mw (snd (yadv f cl k)) pg' f0 (L ++ fst (yadv f cl k)) s' -> mgood (snd (yadv f cl k)) -> mfr s s' -> Q tt s') ->
  mcrash G Y f0 (L ++ fst (yadv f cl k)) (same Y) E ->
  wp (s0 <- page_state_c g np ;;
      if negb (pstate_eqb s0 Open) then fail ECorrupted
      else
        partial_close g np ;;;
        let bp := next_page g np in
        s2 <- page_state_c g bp ;;
        (if pstate_eqb s2 Open then ret tt else migrate KO g bp np)) Q E s.
Proof.
  intros Y np M MG CN HQ HE. pose proof M as (LY & Wd & KH & LB). pose proof (lay_total g gok _ _ LY) as (TF & TT & _).
  assert (TT' : length cl + S k = NP) by (revert TT; unfold y_c, y_b, Y; cbn [y_cl y_pt ptl length y_k y_bad]; lia).
  cbn [Y y_f] in TF. assert (Hp : np < NP) by (apply Nat.mod_upper_bound; lia).
  pose proof (ring_of g gok Y pg LY) as RE.
  apply wp_bind. eapply wp_psc; [exact gok|exact Wd|exact Hp|exact RE| |].
  2:{ intros X. apply (bad_ring g gok Y pg LY) in X; auto. discriminate X. }
  intros s1 x ST W1 F1 _ FL1. pose proof (page_st_at g gok Y pg (length cl) LY ltac:(lia)) as X. cbn [Y y_f] in X. fold np in X. rewrite ST in X.
  unfold cls, y_c, y_b in X. cbn [Y y_cl y_pt ptl length y_k] in X.
  destruct (Nat.ltb_spec (length cl) (length cl)); [lia|]. destruct (Nat.ltb_spec (length cl) (length cl + 0)); [lia|].
  destruct (Nat.ltb_spec (length cl) (length cl + 0 + S k)); [|lia]. injection X as ->. cbn [pstate_eqb negb].
  assert (LF : exists L2, fst (yadv f cl k) = [DW (paddr g np) (zeros g)] ++ L2).
  { unfold yadv. fold np. destruct k, cl; cbn [fst]; eauto; eexists; symmetry; apply app_nil_r. }
  destruct LF as (L2 & LF).
  apply wp_bind. eapply (wp_start_m G f cl k pg f0 L s1); [eapply mw_fr; [exact M|exact W1|exact F1]|exact MG| |].
  2:{ intros s' pg' Yc C1 C2 C3 C4 C5 C6. eapply HE; eauto. rewrite LF, app_assoc. now apply crashed_app. }
  intros s2 pg2 M2 MG2 F2 KN2. cbv zeta. pose proof M2 as (LY2 & W2 & KH2 & LB2). fold np in KN2.
  set (Y2 := mklay f cl (Some []) k 0) in *. unfold np. rewrite next_of. fold np.
  assert (BP : (f + S (length cl)) mod NP < NP) by (apply Nat.mod_upper_bound; lia).
  apply wp_bind. eapply wp_psc; [exact gok|exact W2|exact BP|eapply ring_of; eauto| |].
  2:{ intros X. apply (bad_ring g gok Y2 pg2 LY2) in X; auto. discriminate X. }
  intros s3 x ST3 W3 F3 _ FL3. pose proof (mw_fr g ws ae aw KO legal B _ _ _ _ _ _ M2 W3 F3) as M3.
  assert (F03 : mfr s s3). { eapply mfr_trans; [apply fr_mfr; exact F1|]. eapply mfr_trans; [exact F2|apply fr_mfr; exact F3]. }
  destruct k as [|k].
  - (* no open page is left *)
    destruct cl as [|src cl']; [congruence|]. cbn [yadv fst snd] in HQ, HE, LF.
    assert (ZZ : (f + S (length (src :: cl'))) mod NP = f).
    { replace (f + S (length (src :: cl'))) with (f + 1 * NP) by lia. rewrite Nat.mod_add by lia. apply Nat.mod_small. auto. }
    rewrite ZZ in *. pose proof (page_st_at g gok Y2 pg2 0 LY2 ltac:(lia)) as X. cbn [Y2 y_f] in X. rewrite Nat.add_0_r, Nat.mod_small in X by auto. rewrite ST3 in X.
    injection X as ->. cbn [pstate_eqb]. unfold np. cbn [length].
    eapply (wp_migrate g gok ws ae aw KO legal KC B f src cl'); [exact M3|apply MG2| |].
    + intros s' pg' M' F'. rewrite <- app_assoc in M'. eapply HQ; [exact M'| |eapply mfr_trans; eassumption].
      eapply ymig_good; eauto. apply MG2.
    + intros s' pg' Yc C1 C2 C3 C4 C5 C6. eapply (HE s' pg' Yc); auto. 2:{ rewrite app_assoc. exact C4. }
      eapply same_trans; [|exact C2]. intros k' _. unfold Y. rewrite !content_app. reflexivity.
  - pose proof (page_st_at g gok Y2 pg2 (S (length cl)) LY2 ltac:(lia)) as X. cbn [Y2 y_f] in X. rewrite ST3 in X.
    unfold cls, y_c, y_b in X. cbn [Y2 y_cl y_pt ptl length y_k] in X.
    destruct (Nat.ltb_spec (S (length cl)) (length cl)); [lia|]. destruct (Nat.ltb_spec (S (length cl)) (length cl + 1)); [lia|].
    destruct (Nat.ltb_spec (S (length cl)) (length cl + 1 + S k)); [|lia]. injection X as ->. cbn [pstate_eqb]. apply wp_ret.
    cbn [yadv fst snd] in HQ. eapply HQ; [exact M3|exact MG2|exact F03].
Qed.

(** * The store loop *)
Fixpoint yst (r : nat) (Y : lay) (D : list N + err) : res unit * list dop * lay :=
  match r with
  | O => (Err EFull, [], Y)
  | S r' =>
      match y_pt Y with
      | None =>
          let '(x, L, Y') := yst r' (mklay (y_f Y) (y_cl Y) (Some []) (y_k Y - 1) 0) D in
          (x, [DW (paddr g (y_cur Y)) (zeros g)] ++ L, Y')
      | Some sl =>
          if y_k Y =? 0 then (Err ECorrupted, [], Y)
          else
            match D with
            | inr e => (Err e, [], Y)
            | inl d =>
                if too_big g (length d) then (Err EItemTooBig, [], Y)
                else if fitsb g sl (length d) then (Ok tt, item_ops g (dstart g (y_cur Y) + sizes g sl) d, y_put Y d)
                else
                  let '(L1, Y1) := yadv (y_f Y) (y_cl Y ++ [sl]) (y_k Y - 1) in
                  let '(x, L, Y') := yst r' Y1 D in
                  (x, ([DW (dend g (y_cur Y)) (zeros g)] ++ L1) ++ L, Y')
            end
      end
  end.

(** What is needed of the new item. *)
Definition newok (d : list N) : Prop := (too_big g (length d) = false -> lim_P B d) /\
  Forall is_byte d /\ (ws = true \/ torn_safe d /\ (8 <= W \/ HL <= aw)) /\ (too_big g (length d) = false -> rup (length d) <= B).
Definition after Y (D : list N + err) Yc : Prop := exists d, D = inl d /\ forall k, legal k -> lastd k (content Yc) = lastd k (content Y ++ [d]).
Definition cst Y (D : list N + err) Yc : Prop := same Y Yc \/ after Y D Yc.
Lemma cst_same Y Y' D Yc : same Y Y' -> cst Y' D Yc -> cst Y D Yc.
Proof.
  intros H [S|(d & E & A)]; [left; eapply same_trans; eauto|right]. exists d. split; auto. intros k LK. rewrite A, !lastd_app by auto.
  now rewrite (H k LK).
Qed.

Lemma wp_adv_k np (k : M K unit) (Q : unit -> st -> Prop) (E : err -> st -> Prop) s :
  wp (s0 <- page_state_c g np ;;
      if negb (pstate_eqb s0 Open) then fail ECorrupted
      else
        partial_close g np ;;;
        let bp := next_page g np in
        s2 <- page_state_c g bp ;;
        (if pstate_eqb s2 Open then ret tt else migrate KO g bp np)) (fun _ s' => wp k Q E s') E s ->
  wp (s0 <- page_state_c g np ;;
      if negb (pstate_eqb s0 Open) then fail ECorrupted
      else
        partial_close g np ;;;
        let bp := next_page g np in
        s2 <- page_state_c g bp ;;
        (if pstate_eqb s2 Open then ret tt else migrate KO g bp np) ;;;
        k) Q E s.
Proof.
  unfold wp, bind, fail. destruct (page_state_c g np s) as [[x|e] s1]; auto. destruct (negb _); auto. destruct (partial_close g np s1) as [[x2|e] s2]; auto.
  cbv zeta. destruct (page_state_c g (next_page g np) s2) as [[x3|e] s3]; auto. destruct (pstate_eqb x3 Open); cbn [ret]; auto.
  destruct (migrate _ _ _ _ s3) as [[x4|e] s4]; auto.
Qed.

Lemma y_cur_eq Y : y_cur Y = (y_f Y + y_c Y) mod NP. Proof. reflexivity. Qed.

Lemma write_new_eq a d : (N.of_nat (length d) <= 65535)%N -> write_new (K := K) g a d = write_raw g (ihdr d) d a.
Proof. intros H. unfold write_new, ihdr. do 2 f_equal. unfold as_u16. lia. Qed.

Lemma mgood_put Y d sl : y_pt Y = Some sl -> 1 <= y_k Y -> mgood Y -> good d -> tearok d -> rup (length d) <= B -> forall tl, tl = [] \/ tl = [SLive d] \/ (exists x, tl = [x] /\ live_of tl = [] /\ fits_buf g B x) ->
  mgood (mklay (y_f Y) (y_cl Y) (Some (sl ++ tl)) (y_k Y) (y_bad Y)).
Proof.
  intros PT K1 (MI & OK & _) Gd Td RB tl TL. split; [|split].
  - destruct MI as (I1 & I2 & I3). unfold minv. cbn [y_f y_k y_bad y_pt]. repeat split; auto; discriminate.
  - destruct Y as [f cl pt k bad]. cbn [y_f y_cl y_pt y_k y_bad] in *. subst pt. apply (mok_iff g ws aw KO legal B) in OK. apply (mok_iff g ws aw KO legal B).
    destruct OK as ((A & A2) & G1 & T1). rewrite live_app, app_assoc. rewrite !Forall_app in *.
    assert (X : Forall (fits_buf g B) tl /\ Forall good (live_of tl) /\ Forall tearok (live_of tl)).
    { destruct TL as [->|[->|(x & -> & LV & FX)]]; [repeat split; constructor| |rewrite LV; repeat split; repeat constructor; auto].
      change (live_of [SLive d]) with [d]. split; [constructor; [exact RB|constructor]|split; constructor; auto]. }
    tauto.
  - intros X. cbn [y_k] in X. lia.
Qed.

Lemma ents_put f cl sl k bad d : ents (mklay f cl (Some (sl ++ [SLive d])) k bad) =
  ents (mklay f cl (Some sl) k bad) ++ [(dstart g ((f + length cl) mod NP) + sizes g sl, d)].
Proof.
  unfold MLogP.ents, uslots. cbn [y_f y_cl y_pt ptl]. rewrite !ents_pg_app, <- app_assoc. f_equal. cbn [ents_pg]. rewrite !app_nil_r.
  rewrite ents_sl_app. reflexivity.
Qed.

Lemma yadv_same f cl k : Forall good (flat_map live_of cl) -> same (mklay f cl None (S k) 0) (snd (yadv f cl k)).
Proof.
  intros G. unfold yadv. destruct k as [|k], cl as [|src cl]; cbn [snd]; try (intros k' _; now rewrite !content_app).
  eapply same_trans; [|apply (ymig_same g KO legal KC f src cl [] 0 0); [|reflexivity]].
  - intros k' _. now rewrite !content_app.
  - cbn [flat_map] in G. now apply Forall_app in G.
Qed.

Lemma wp_store_loop (G : Prop) k v f0 : legal k -> forall r Y pg L s (Q : unit -> st -> Prop) (E : err -> st -> Prop) D,
  D = dser (length (s_buf s)) k v -> mw Y pg f0 L s -> mgood Y -> (forall d, D = inl d -> newok d) ->
  (forall s' pg' L' Y', yst r Y D = (Ok tt, L', Y') -> mw Y' pg' f0 (L ++ L') s' -> mgood Y' -> mfr s s' -> c_dirty (s_ca s') = false -> Q tt s') ->
  (forall e s' pg' L' Y', yst r Y D = (Err e, L', Y') -> mw Y' pg' f0 (L ++ L') s' -> mgood Y' -> mfr s s' -> E e s') ->
  mcrash G Y f0 (L ++ snd (fst (yst r Y D))) (cst Y D) E ->
  wp (store_loop KO g r k v) Q E s.
Proof.
  intros LK. induction r as [|r IH]; intros Y pg L s Q E D ED M MG NW HQ HE HC; cbn [store_loop].
  { apply wp_unmark. unfold wp, fail. eapply HE; [reflexivity| |exact MG|apply mfr_dirty]. rewrite app_nil_r. apply mw_dirty; exact M. }
  pose proof M as (LY & Wd & KH & LB). pose proof (lay_total g gok _ _ LY) as (TF & TT & TB & TBAD). pose proof MG as (MI & OK & CP).
  pose proof (ring_of g gok Y pg LY) as RE. pose proof (ffP g gok B Y pg LY MI) as FP. pose proof (y_b_pt Y) as PB. cbn [yst] in HQ, HE, HC.
  assert (ER : forall s' : st, mw Y pg f0 L s' -> mfr s s' -> forall e, yst (S r) Y D = (Err e, [], Y) -> E e s').
  { intros s' M' F' e X. eapply HE; [exact X| |exact MG|exact F']. rewrite app_nil_r. exact M'. }
  apply wp_bind. eapply wp_find_first; [exact gok|exact Wd|exact RE| |].
  2:{ intros s1 FN W1 F1. destruct (y_pt Y) as [sl|] eqn:PT; [|congruence]. destruct FP as [FP|[_ BD]]; [congruence|].
      apply ER; [eapply mw_fr; eauto|apply fr_mfr; exact F1|]. cbn [yst]. rewrite PT. destruct MI as (_ & _ & I3). now rewrite (I3 BD). }
  intros s1 lp FN W1 F1 FL1 _ KN1. pose proof (mw_fr g ws ae aw KO legal B _ _ _ _ _ _ M W1 F1) as M1.
  destruct (y_pt Y) as [sl|] eqn:PT.
  - (* a page is in use *)
    destruct FP as [FP|[FP _]]; [|congruence]. rewrite FP in FN. injection FN as <-. specialize (KN1 eq_refl _ eq_refl).
    change ((y_f Y + y_c Y) mod NP) with (y_cur Y) in *. set (p := y_cur Y) in *.
    assert (Hp : p < NP) by (apply Nat.mod_upper_bound; lia).
    assert (NX : next_page g p = (y_f Y + S (y_c Y)) mod NP) by (apply next_of).
    apply wp_bind. apply wp_bind. eapply wp_psc; [exact gok|exact W1|rewrite NX; apply Nat.mod_upper_bound; lia|exact RE| |].
    2:{ intros X. apply (bad_ring g gok Y pg LY) in X; [|rewrite NX; apply Nat.mod_upper_bound; lia]. apply ER; [exact M1|apply fr_mfr; exact F1|].
        cbn [yst]. rewrite PT. destruct MI as (_ & _ & I3). now rewrite (I3 X). }
    intros s2 x ST W2 F2 OB FL2. pose proof (mw_fr g ws ae aw KO legal B _ _ _ _ _ _ M1 W2 F2) as M2.
    assert (F02 : mfr s s2) by (eapply mfr_trans; apply fr_mfr; eassumption).
    destruct (Nat.eqb_spec (y_k Y) 0) as [K0|K0].
    { (* no open page *)
      assert (X : pstate_eqb x Open = false).
      { destruct (Nat.eq_dec (y_bad Y) 0) as [B0|B0].
        - assert (CC : S (y_c Y) = NP) by lia. rewrite NX, CC in ST. replace (y_f Y + NP) with (y_f Y + 1 * NP) in ST by lia. rewrite Nat.mod_add, Nat.mod_small in ST by lia.
          pose proof (page_st_at g gok Y pg 0 LY ltac:(lia)) as X. rewrite Nat.add_0_r, Nat.mod_small in X by lia. rewrite ST in X. unfold cls in X.
          destruct (Nat.ltb_spec 0 (y_c Y)); [|lia]. now injection X as ->.
        - rewrite NX, (page_st_at g gok Y pg) in ST by (auto; lia). unfold cls in ST. destruct (Nat.ltb_spec (S (y_c Y)) (y_c Y)); [lia|].
          destruct (Nat.ltb_spec (S (y_c Y)) (y_c Y + y_b Y)); [lia|]. destruct (Nat.ltb_spec (S (y_c Y)) (y_c Y + y_b Y + y_k Y)); [lia|discriminate]. }
      rewrite X. cbn [negb]. apply ER; [exact M2|exact F02|]. cbn [yst]. rewrite PT. destruct (Nat.eqb_spec (y_k Y) 0); [auto|lia]. }
    assert (B0 : y_bad Y = 0) by (destruct MI as (_ & _ & I3); lia).
    assert (XO : x = Open).
    { rewrite NX, (page_st_at g gok Y pg) in ST by (auto; lia). unfold cls in ST. destruct (Nat.ltb_spec (S (y_c Y)) (y_c Y)); [lia|].
      destruct (Nat.ltb_spec (S (y_c Y)) (y_c Y + y_b Y)); [lia|]. destruct (Nat.ltb_spec (S (y_c Y)) (y_c Y + y_b Y + y_k Y)); [congruence|lia]. }
    subst x. cbn [pstate_eqb negb]. destruct (OB) as [_ OB2]. destruct (OB2 p Hp KN1) as [KNp KNn].
    destruct (ser_item_eq s2 k v LK) as (buf & LBf & SE). assert (LL : length (s_buf s2) = length (s_buf s)) by apply F02. rewrite LL, <- ED in SE.
    set (s3 := set_buf s2 buf) in *. pose proof (mw_buf g ws ae aw KO legal B _ _ _ _ _ buf M2 LBf) as M3. fold s3 in M3.
    assert (F03 : mfr s s3) by (eapply mfr_trans; [exact F02|repeat split; auto]).
    destruct D as [d|e].
    2:{ apply wp_bind. unfold wp. rewrite SE. apply ER; [exact M3|exact F03|]. cbn [yst]. rewrite PT. destruct (Nat.eqb_spec (y_k Y) 0); [lia|auto]. }
    destruct SE as (FNd & LD & SE). eapply wp_ok; [exact SE|]. cbv beta.
    destruct (too_big g (length d)) eqn:TBG.
    { apply wp_unmark. unfold wp, fail. apply ER; [now apply mw_dirty|eapply mfr_trans; [exact F03|apply mfr_dirty]|].
      cbn [yst]. rewrite PT. destruct (Nat.eqb_spec (y_k Y) 0); [lia|]. now rewrite TBG. }
    destruct (NW d eq_refl) as (LPB & BY & TRN & RB). specialize (RB TBG). specialize (LPB TBG). destruct (too_big_fits g gok d TBG) as [FT0 L16].
    assert (Td : tearok d) by (split; [auto|split; [split; auto|auto]]).
    destruct (dser_good _ k v d LK (eq_sym ED)) as (Gd & DK & DV).
    assert (PG : pg p = PPart sl).
    { destruct Y as [yf ycl ypt yk ybad]. cbn [y_f y_cl y_pt y_k y_bad] in *. subst ypt. exact (lay_at_part NP yf ycl sl yk ybad pg LY). }
    assert (SL : slots_of (pg p) = sl) by now rewrite PG.
    pose proof M3 as (_ & W3 & KH3 & LB3).
    pose proof (find_free_eq g gok ws ae aw pg f0 L s3 p (length d) W3 Hp ltac:(now rewrite PG)) as FF. rewrite SL in FF.
    eapply wp_ok; [exact FF|]. cbv beta.
    assert (YE : Y = mklay (y_f Y) (y_cl Y) (Some sl) (y_k Y) 0) by (destruct Y as [yf ycl ypt yk ybad]; cbn [y_f y_cl y_pt y_k y_bad] in *; congruence).
    assert (YP : y_put Y d = mklay (y_f Y) (y_cl Y) (Some (sl ++ [SLive d])) (y_k Y) (y_bad Y)) by (unfold y_put, y_sl; now rewrite PT).
    destruct (fitsb g sl (length d)) eqn:FB.
    + (* written *)
      set (a := dstart g p + sizes g sl) in *.
      assert (A0 : a <> 0) by (unfold a, dstart; pose proof (W_pos g gok); lia).
      assert (EM : ents (y_put Y d) = ents Y ++ [(a, d)]).
      { rewrite YP. destruct Y as [yf ycl ypt yk ybad]. cbn [y_f y_cl y_pt y_k y_bad] in *. subst ypt. apply ents_put. }
      assert (HKD : hask KO k d = true) by (apply (good_hask KO legal KC); auto).
      destruct (kcoh_notice KO legal KC (ents Y) (ents (y_put Y d)) (c_kp (s_ca s3)) k a d KH3 LK A0) as (kp & EKP & KH').
      { rewrite EM, newest_app. cbn [MLogP.newest snd]. now rewrite HKD. }
      { intros k' NK LK' e NE'. rewrite EM, newest_app. cbn [MLogP.newest snd]. destruct (hask KO k' d) eqn:HK'; auto.
        exfalso. apply (good_hask KO legal KC) in HK'; auto. congruence. }
      apply wp_bind. eapply wp_note; [exact EKP|].
      pose proof (world_kp g ws ae aw pg f0 L s3 true kp W3) as W4. match type of W4 with WorldP.world _ _ _ _ _ _ _ ?x => set (s4 := x) in * end.
      unfold get_buf. eapply wp_ok; [reflexivity|]. cbv beta. change (s_buf s4) with buf. rewrite FNd, write_new_eq by auto.
      apply wp_bind. apply wp_kpk; [apply kpk_write_raw|].
      eapply (wp_write_item g gok ws ae aw p d sl a pg f0 L); [exact W4|exact Hp|exact PG|reflexivity|split; auto|exact FB|exact TRN| |].
      * intros s5 W5 F5 _ KE. change (c_kp (s_ca s4)) with kp in KE. apply wp_unmark. apply wp_ret. cbv beta iota. apply wp_ret.
        eapply HQ; [reflexivity| | | |reflexivity].
        -- apply mw_dirty. split; [|split; [exact W5|split; [rewrite KE; exact KH'|]]].
           ++ rewrite YP. pose proof LY as LY'. rewrite YE in LY'. rewrite B0. exact (lay_part NP (npos g gok) _ _ _ _ _ _ _ LY').
           ++ destruct F5 as (B5 & _). rewrite B5. exact LB3.
        -- rewrite YP. apply (mgood_put Y d sl PT); auto. lia.
        -- eapply mfr_trans; [|apply mfr_dirty]. eapply mfr_trans; [exact F03|]. eapply mfr_trans; [|apply fr_mfr; exact F5]. repeat split; auto.
      * intros s5 tl TI CR KE. change (c_kp (s_ca s4)) with kp in KE.
        assert (KW : kwfs s5) by (unfold kwfs; rewrite KE; eapply kcoh_wf; eauto).
        set (Yc := mklay (y_f Y) (y_cl Y) (Some (sl ++ tl)) (y_k Y) (y_bad Y)).
        assert (TL : tl = [] \/ tl = [SLive d] \/ (exists x, tl = [x] /\ live_of tl = [] /\ fits_buf g B x)).
        { destruct TI as [->|[[-> _]|[->| ->]]]; auto; right; right; eexists; repeat split; auto. }
        eapply (HC s5 _ Yc); [| | |exact CR|exact KW|apply hqY_k; cbn; lia].
        -- assert (CC : forall X, content (mklay (y_f Y) (y_cl Y) (Some (sl ++ X)) (y_k Y) (y_bad Y)) = content Y ++ live_of X).
           { intros X. rewrite content_app, live_app, app_assoc. f_equal. clear -PT. destruct Y as [yf ycl ypt yk ybad]. cbn [y_f y_cl y_pt y_k y_bad] in *. subst ypt. now rewrite content_app. }
           destruct TL as [->|[->|(x & -> & LV & _)]].
           ++ left. intros k' LK'. unfold Yc. rewrite CC. change (live_of []) with (@nil (list N)). now rewrite app_nil_r.
           ++ right. exists d. split; auto. intros k' LK'. unfold Yc. now rewrite CC.
           ++ left. intros k' LK'. unfold Yc. rewrite CC, LV. now rewrite app_nil_r.
        -- apply (mgood_put Y d sl PT); auto. lia.
        -- unfold Yc. pose proof LY as LY'. rewrite YE in LY'. rewrite B0. exact (lay_part NP (npos g gok) _ _ _ _ _ _ _ LY').
    + (* the page is full *)
      destruct (y_k Y) as [|k1] eqn:KY; [lia|]. rewrite Nat.sub_succ, Nat.sub_0_r in HQ, HE, HC.
      destruct (yadv (y_f Y) (y_cl Y ++ [sl]) k1) as [L1 Y1] eqn:YA.
      assert (MGc : mgood (mklay (y_f Y) (y_cl Y ++ [sl]) None (S k1) 0)).
      { split; [|split].
        - destruct MI as (I1 & _ & _). unfold minv. cbn [y_f y_k y_bad y_pt]. rewrite KY in I1. repeat split; try discriminate; lia.
        - apply (proj2 (mok_l _)). apply (proj1 (mok_l _)) in OK. rewrite YE in OK. unfold uslots in *. cbn [y_cl y_pt ptl] in *. now rewrite app_nil_r.
        - intros X; discriminate X. }
      assert (SMc : same Y (mklay (y_f Y) (y_cl Y ++ [sl]) None (S k1) 0)).
      { intros k' _. rewrite YE at 1. rewrite !content_app, flat_map_app. cbn [flat_map]. now rewrite !app_nil_r. }
      apply wp_bind.
      pose proof M3 as M3'. pose proof MG as MG'. rewrite YE in M3', MG'.
      assert (PQ : p = y_cur (mklay (y_f Y) (y_cl Y) (Some sl) (S k1) 0)) by reflexivity. rewrite PQ.
      apply (wp_close_m G (y_f Y) (y_cl Y) sl k1 pg f0 L s3); [exact M3'|exact MG'|exact KNp|exact KNn| | |exact MGc].
      * rewrite <- PQ. intros s4 pg4 M4 F4. apply wp_ret. cbv beta iota. apply wp_adv_k. rewrite NX.
        assert (LE : (y_f Y + S (y_c Y)) mod NP = (y_f Y + length (y_cl Y ++ [sl])) mod NP) by (f_equal; rewrite app_length; unfold y_c; cbn [length]; lia). rewrite LE.
        apply (wp_advance G (y_f Y) (y_cl Y ++ [sl]) k1 pg4 f0 (L ++ [DW (dend g p) (zeros g)]) s4); [exact M4|exact MGc|destruct (y_cl Y); discriminate| |].
        -- rewrite YA. cbn [fst snd]. intros s5 pg5 M5 MG5 F5. rewrite <- app_assoc in M5.
           assert (F05 : mfr s s5) by (eapply mfr_trans; [exact F03|]; eapply mfr_trans; eassumption).
           apply (IH Y1 pg5 (L ++ [DW (dend g p) (zeros g)] ++ L1) s5 Q E (inl d)); [| exact M5|exact MG5|exact NW| | |].
           ++ rewrite ED. f_equal. symmetry. apply F05.
           ++ intros s' pg' L' Y' YS M' G' F' DT. rewrite YS in HQ. eapply HQ; [reflexivity| |exact G'|eapply mfr_trans; eassumption|exact DT]. rewrite app_assoc. exact M'.
           ++ intros e s' pg' L' Y' YS M' G' F'. rewrite YS in HE. eapply HE; [reflexivity| |exact G'|eapply mfr_trans; eassumption]. rewrite app_assoc. exact M'.
           ++ intros s' pg' Yc C1 C2 C3 C4 C5 C6. destruct (yst r Y1 (inl d)) as [[x L'] Y'] eqn:YS. cbn [fst snd] in *. eapply (HC s' pg' Yc); auto.
              ** eapply cst_same; [|exact C1]. eapply same_trans; [exact SMc|]. pose proof (yadv_same (y_f Y) (y_cl Y ++ [sl]) k1) as YS2. rewrite YA in YS2. apply YS2. destruct MGc as (_ & (_ & GG & _) & _). rewrite content_app in GG. now apply Forall_app in GG.
              ** rewrite app_assoc. exact C4.
        -- rewrite YA. cbn [fst]. intros s' pg' Yc C1 C2 C3 C4 C5 C6. destruct (yst r Y1 (inl d)) as [[x L'] Y'] eqn:YS. cbn [fst snd] in *. eapply (HC s' pg' Yc); auto.
           ++ left. eapply same_trans; eauto.
           ++ rewrite app_assoc. apply crashed_app. rewrite <- app_assoc in C4. exact C4.
      * rewrite <- PQ. intros s' pg' Yc C1 C2 C3 C4 C5 C6. destruct (yst r Y1 (inl d)) as [[x L'] Y'] eqn:YS. cbn [fst snd] in *. eapply (HC s' pg' Yc); auto.
        -- left. rewrite YE at 1. exact C1.
        -- rewrite !app_assoc. do 2 apply crashed_app. exact C4.
  - (* no page in use *)
    rewrite FP in FN. injection FN as <-. apply wp_bind. apply wp_ret. cbv beta iota. pose proof MI as (I1 & I2 & I3). destruct (I2 PT) as [K1 B0].
    apply wp_bind. eapply wp_find_first; [exact gok|exact W1|exact RE| |].
    2:{ intros s2 X. rewrite (ffO g gok B Y pg LY MI PT) in X. discriminate. }
    intros s2 r2 FN W2 F2 FL2 _ _. rewrite (ffO g gok B Y pg LY MI PT) in FN. injection FN as <-. cbv beta iota.
    change ((y_f Y + y_c Y) mod NP) with (y_cur Y).
    assert (YE : Y = mklay (y_f Y) (y_cl Y) None (S (y_k Y - 1)) 0) by (destruct Y as [yf ycl ypt yk ybad]; cbn [y_f y_cl y_pt y_k y_bad] in *; subst ypt; f_equal; lia).
    pose proof (mw_fr g ws ae aw KO legal B _ _ _ _ _ _ M1 W2 F2) as M2. pose proof M2 as M2'. pose proof MG as MG'. rewrite YE in M2', MG'.
    assert (F02 : mfr s s2) by (eapply mfr_trans; apply fr_mfr; eassumption).
    set (Y1 := mklay (y_f Y) (y_cl Y) (Some []) (y_k Y - 1) 0) in *.
    assert (SM : same Y Y1) by (intros k' _; rewrite YE at 1; unfold Y1; now rewrite !content_app).
    apply wp_bind. change (y_cur Y) with ((y_f Y + length (y_cl Y)) mod NP).
    apply (wp_start_m G (y_f Y) (y_cl Y) (y_k Y - 1) pg f0 L s2); [exact M2'|exact MG'| |].
    + fold Y1. intros s3 pg3 M3 MG3 F3 _. assert (F03 : mfr s s3) by (eapply mfr_trans; eassumption).
      apply (IH Y1 pg3 (L ++ [DW (paddr g ((y_f Y + length (y_cl Y)) mod NP)) (zeros g)]) s3 Q E D); [|exact M3|exact MG3|exact NW| | |].
      * rewrite ED. f_equal. symmetry. apply F03.
      * intros s' pg' L' Y' YS M' G' F' DT. rewrite YS in HQ. eapply HQ; [reflexivity| |exact G'|eapply mfr_trans; eassumption|exact DT]. rewrite app_assoc. exact M'.
      * intros e s' pg' L' Y' YS M' G' F'. rewrite YS in HE. eapply HE; [reflexivity| |exact G'|eapply mfr_trans; eassumption]. rewrite app_assoc. exact M'.
      * intros s' pg' Yc C1 C2 C3 C4 C5 C6. destruct (yst r Y1 D) as [[x L'] Y'] eqn:YS. cbn [fst snd] in *. eapply (HC s' pg' Yc); auto.
        -- eapply cst_same; [|exact C1]. exact SM.
        -- rewrite app_assoc. exact C4.
    + intros s' pg' Yc C1 C2 C3 C4 C5 C6. destruct (yst r Y1 D) as [[x L'] Y'] eqn:YS. cbn [fst snd] in *. eapply (HC s' pg' Yc); auto.
      * left. rewrite YE at 1. exact C1.
      * rewrite app_assoc. apply crashed_app. exact C4.
Qed.

(** * Repair *)
Definition nomig Y : Prop := 1 <= y_k Y + y_bad Y.
Definition yrp Y : list dop * lay :=
  if y_bad Y =? 1 then (rops g Y, yrep Y)
  else
    match y_pt Y, y_k Y, y_cl Y with
    | Some _, O, src :: cl =>
        let p := (y_f Y + S (length cl)) mod NP in
        (([DE p] ++ [DW (paddr g p) (zeros g)]) ++ migops (y_f Y) src cl, ymig (y_f Y) src cl)
    | _, _, _ => ([], Y)
    end.

Definition crp Y Yc : Prop := same Y Yc /\ (y_bad Y = 1 -> Yc = Y \/ Yc = yrep Y).
Lemma wp_repair_gen (G : Prop) Y pg f0 L s (Q : unit -> st -> Prop) (E : err -> st -> Prop) : mw Y pg f0 L s -> mgood Y ->
  (forall s' pg', mw (yrep Y) pg' f0 (L ++ rops g Y) s' -> (forall es, kcoh es (c_kp (s_ca s'))) -> mgood (yrep Y) -> mfr s s' -> Q tt s') ->
  mcrash G Y f0 (L ++ rops g Y) (crp Y) E ->
  wp (c_inval ;;; general_repair g) Q E s.
Proof.
  intros M MG HQ HC. apply wp_bind. unfold wp at 1, c_inval. pose proof (mw_inval g ws ae aw KO legal B _ _ _ _ _ M) as M1. set (s1 := set_ca s _) in *.
  pose proof M1 as (LY & W1 & KH & LB).
  assert (KA : forall es, kcoh es (c_kp (s_ca s1))). { intros es. cbn. apply kwf_inval. destruct M as (_ & _ & KH0 & _). eapply kcoh_wf; eauto. }
  assert (GR : mgood (yrep Y)).
  { destruct MG as ((I1 & I2 & I3) & OK & CP). pose proof (lay_total g gok _ _ LY) as (_ & _ & _ & TB). split; [|split].
    - unfold minv, yrep. cbn [y_f y_k y_bad y_pt]. split; [|split].
      + lia.
      + intros X. destruct (I2 X). lia.
      + lia.
    - exact OK.
    - intros X Y0. unfold yrep in X. cbn [y_k] in X. apply CP; lia. }
  apply wp_kpk; [apply kpk_repair_in|].
  unfold general_repair. apply (wp_general_repair_in g gok ws ae aw (get_pages g 0) pg f0 L); auto.
  - apply get_pages_lt; auto.
  - cbn. destruct (c_ps (s_ca s)); cbn; auto. reflexivity.
  - rewrite (rep_ops_lay g gok Y pg LY). intros s' W' _ F' KE. apply (HQ s' (rep_in pg (get_pages g 0))); auto.
    + split; [|split; [exact W'|split]].
      * destruct Y as [f cl pt k bad]. eapply lay_repair; [apply npos; auto|exact LY|]. intros p Hp. rewrite rep_in_eq.
        assert (existsb (Nat.eqb p) (get_pages g 0) = true) as ->; auto. apply existsb_exists. exists p. split; [|apply Nat.eqb_refl].
        apply in_get_pages; auto. lia.
      * rewrite KE. apply KA.
      * destruct F' as (F1 & _). rewrite F1. exact LB.
    + intros es. rewrite KE. apply KA.
    + apply fr_mfr in F'. destruct F' as (A & A2 & A3). repeat split; auto.
  - rewrite (rep_ops_lay g gok Y pg LY). intros s' pg' RP NE CR KE.
    assert (KW : kwfs s') by (unfold kwfs; rewrite KE; eapply kcoh_wf; apply (KA [])).
    destruct (lay_rep_part g gok Y pg pg' LY RP) as [X|X]; [apply (HC s' pg' Y)|apply (HC s' pg' (yrep Y))]; auto; try exact MG; try (split; [intros k' _|]; auto);
      (apply hqY_k; unfold rops in NE; destruct (Nat.eqb_spec (y_bad Y) 1); [cbn; lia|congruence]).
Qed.

Lemma wp_reassoc {A} (a b : M K unit) (c : M K A) (Q : A -> st -> Prop) (E : err -> st -> Prop) s : wp (a ;;; b) (fun _ s' => wp c Q E s') E s -> wp (a ;;; b ;;; c) Q E s.
Proof. unfold wp, bind. destruct (a s) as [[x|e] s1]; auto. destruct (b s1) as [[x2|e] s2]; auto. Qed.

(** After the erase: the page is marked and filled from the oldest page again. *)
Lemma wp_m_tail f src cl pg f0 L s (Q : unit -> st -> Prop) (E : err -> st -> Prop) : mw (mklay f (src :: cl) None 1 0) pg f0 L s ->
  mgood (mklay f (src :: cl) None 1 0) ->
  let p := (f + S (length cl)) mod NP in
  (forall s' pg', mw (ymig f src cl) pg' f0 (L ++ [DW (paddr g p) (zeros g)] ++ migops f src cl) s' -> mgood (ymig f src cl) -> mfr s s' -> Q tt s') ->
  (forall s' pg' Yc, same (mklay f (src :: cl) None 1 0) Yc -> mgood Yc -> layok NP Yc pg' -> crashed pg' f0 (L ++ [DW (paddr g p) (zeros g)] ++ migops f src cl) s' ->
     kwfs s' -> hqY Yc (f_mem (s_fl s')) -> E (EStorage SShutoff) s') ->
  wp (partial_close g p ;;; migrate KO g f p) Q E s.
Proof.
  intros M MG p HQ HC. set (Y2 := mklay f (src :: cl) None 1 0) in *. set (Y3 := mklay f (src :: cl) (Some []) 0 0).
  pose proof MG as (_ & OK2 & _).
  assert (OKl : mokl (src :: cl)). { apply (proj1 (mok_l _)) in OK2. unfold uslots, Y2 in OK2. cbn [y_cl y_pt ptl] in OK2. now rewrite app_nil_r in OK2. }
  assert (OK3 : mok Y3). { apply (proj2 (mok_l _)). unfold uslots, Y3. cbn [y_cl y_pt ptl]. apply mokl_app. split; [auto|apply mokl_empty]. }
  assert (S3 : same Y2 Y3). { intros k' LK'. unfold Y2, Y3. now rewrite !content_app. }
  apply wp_bind. apply (wp_start_m True f (src :: cl) 0 pg f0 L s); [exact M|exact MG| |].
  - fold Y3. change ((f + length (src :: cl)) mod NP) with p. intros s5 pg5 M5 MG5 F5 _.
    apply (wp_migrate g gok ws ae aw KO legal KC B f src cl pg5 f0 (L ++ [DW (paddr g p) (zeros g)]) s5); [exact M5|exact OK3| |].
    + intros s6 pg6 M6 F6. rewrite <- app_assoc in M6. apply (HQ s6 pg6); auto.
      * eapply (ymig_good g); eauto.
      * eapply mfr_trans; [exact F5|exact F6].
    + intros s6 pg6 Yc C1 C2 C3 C4 C5 C6. rewrite <- app_assoc in C4. eapply (HC s6 pg6 Yc); auto. eapply same_trans; [exact S3|exact C2].
  - change ((f + length (src :: cl)) mod NP) with p. intros s5 pg5 Yc C1 C2 C3 C4 C5 C6. eapply (HC s5 pg5 Yc); auto.
    rewrite app_assoc. apply crashed_app. exact C4.
Qed.

(** What a torn erase of the half filled page may leave. *)
Definition jcrash Y f0 L (E : err -> st -> Prop) : Prop :=
  forall s' pg' src cl sl, Y = mklay (y_f Y) (src :: cl) (Some sl) 0 0 -> lay0 NP (y_f Y) (map PClosed (src :: cl) ++ [PStale sl]) pg' ->
    crashed pg' f0 L s' -> kwfs s' -> E (EStorage SShutoff) s'.

Lemma wp_m_repair (G : Prop) Y pg f0 L s (Q : unit -> st -> Prop) (E : err -> st -> Prop) : mw Y pg f0 L s -> mgood Y ->
  (ae = true \/ f_fuel f0 = None \/ nomig Y) \/ (8 <= W /\ qtl g B /\ hqY Y (f_mem (s_fl s)) /\ jcrash Y f0 (L ++ fst (yrp Y)) E) ->
  (G -> hqY Y (f_mem (s_fl s))) ->
  (forall s' pg', mw (snd (yrp Y)) pg' f0 (L ++ fst (yrp Y)) s' -> mgood (snd (yrp Y)) -> same Y (snd (yrp Y)) -> mfr s s' -> Q tt s') ->
  mcrash G Y f0 (L ++ fst (yrp Y)) (crp Y) E ->
  wp (m_repair KO g) Q E s.
Proof.
  intros M MG TE HG HQ HC. unfold m_repair. apply wp_reassoc. pose proof M as (LY & _). pose proof (lay_total g gok _ _ LY) as (TF & TT & TB & TBAD).
  pose proof (y_b_pt Y) as PB. pose proof MG as ((I1 & I2 & I3) & _ & _).
  assert (RO : fst (yrp Y) = rops g Y \/ (y_bad Y = 0 /\ rops g Y = [])).
  { unfold yrp, rops. destruct (Nat.eqb_spec (y_bad Y) 1); [left; auto|right; split; [lia|auto]]. }
  assert (CX : mcrash G Y f0 (L ++ rops g Y) (crp Y) E).
  { destruct RO as [<-|[_ R0]]; [exact HC|]. rewrite R0, app_nil_r. intros s' pg' Yc C1 C2 C3 C4 C5 C6. eapply (HC s' pg' Yc); auto. now apply crashed_app. }
  apply (wp_repair_gen G Y pg f0 L s); auto. intros s1 pg1 M1 KA MG1 F1.
  set (Y1 := yrep Y) in *. pose proof M1 as (LY1 & W1 & KH1 & LB1). pose proof MG1 as (MI1 & OK1 & CP1).
  pose proof (ring_of g gok Y1 pg1 LY1) as RE. pose proof (ffP g gok B Y1 pg1 LY1 MI1) as FP. change (y_pt Y1) with (y_pt Y) in FP.
  apply wp_bind. eapply wp_find_first; [exact gok|exact W1|exact RE| |].
  2:{ intros s2 FN. destruct (y_pt Y); [|congruence]. destruct FP as [FP|[_ FP]]; [congruence|discriminate FP]. }
  intros s2 lp FN W2 F2 FL2 _ KN2. pose proof (mw_fr g ws ae aw KO legal B _ _ _ _ _ _ M1 W2 F2) as M2.
  assert (F02 : mfr s s2) by (eapply mfr_trans; [exact F1|apply fr_mfr; exact F2]).
  destruct (y_pt Y) as [sl|] eqn:PT.
  2:{ rewrite FP in FN. injection FN as <-. apply wp_ret. destruct (I2 eq_refl) as [K1 B0].
      assert (YR : yrp Y = ([], Y)) by (unfold yrp; rewrite B0, PT; reflexivity).
      assert (Y1E : Y1 = Y) by (unfold Y1; now apply yrep_id).
      rewrite YR in HQ. cbn [fst snd] in HQ. apply (HQ s2 pg1); auto using same_refl. rewrite Y1E in M2. unfold rops in M2. rewrite B0 in M2. exact M2. }
  destruct FP as [FP|[_ FP]]; [|discriminate FP]. rewrite FP in FN. injection FN as <-. specialize (KN2 eq_refl _ eq_refl).
  change (y_f Y1) with (y_f Y) in *. change (y_c Y1) with (y_c Y) in *. rewrite next_of.
  apply wp_bind. eapply wp_psc; [exact gok|exact W2|apply Nat.mod_upper_bound; lia|exact RE| |].
  2:{ intros X. apply (bad_ring g gok Y1 pg1 LY1) in X; [|apply Nat.mod_upper_bound; lia]. discriminate X. }
  intros s3 x ST W3 F3 OB FL3. pose proof (mw_fr g ws ae aw KO legal B _ _ _ _ _ _ M2 W3 F3) as M3.
  assert (F03 : mfr s s3) by (eapply mfr_trans; [exact F02|apply fr_mfr; exact F3]).
  destruct (Nat.eq_dec (y_k Y + y_bad Y) 0) as [KZ|KZ].
  - (* an interrupted migration *)
    assert (K0 : y_k Y = 0) by lia. assert (B0 : y_bad Y = 0) by lia. assert (Y1E : Y1 = Y) by (unfold Y1; now apply yrep_id).
    assert (CC : S (y_c Y) = NP) by lia. destruct (y_cl Y) as [|src cl] eqn:CL; [unfold y_c in CC; rewrite CL in CC; cbn [length] in CC; lia|].
    assert (LC : y_c Y = S (length cl)) by (unfold y_c; now rewrite CL).
    assert (XC : x = Closed).
    { rewrite CC in ST. replace (y_f Y + NP) with (y_f Y + 1 * NP) in ST by lia. rewrite Nat.mod_add in ST by lia. rewrite <- (Nat.add_0_r (y_f Y)) in ST.
      rewrite <- Y1E in ST. pose proof (page_st_at g gok Y1 pg1 0 LY1 ltac:(lia)) as X. rewrite ST in X. rewrite Y1E in X. unfold cls in X.
      destruct (Nat.ltb_spec 0 (y_c Y)); [|lia]. now injection X. }
    subst x. cbn [pstate_eqb]. rewrite LC in *. set (p := (y_f Y + S (length cl)) mod NP) in *.
    assert (BP : (y_f Y + S (S (length cl))) mod NP = y_f Y).
    { replace (S (S (length cl))) with (1 * NP) by lia. rewrite Nat.mod_add by lia. apply Nat.mod_small. lia. }
    rewrite BP.
    assert (YE : Y = mklay (y_f Y) (src :: cl) (Some sl) 0 0) by (clear -PT CL K0 B0; destruct Y as [a1 a2 a3 a4 a5]; cbn [y_f y_cl y_pt y_k y_bad] in *; congruence).
    set (f := y_f Y) in *.
    assert (YR : yrp Y = (([DE p] ++ [DW (paddr g p) (zeros g)]) ++ migops f src cl, ymig f src cl)) by (unfold yrp; rewrite B0, PT, K0, CL; reflexivity).
    rewrite YR in HQ, HC. cbn [fst snd] in HQ, HC. rewrite Y1E in *. unfold rops in M3. rewrite B0 in M3. cbn [Nat.eqb] in M3. rewrite app_nil_r in M3.
    assert (LY1' : layok NP (mklay f (src :: cl) (Some sl) 0 0) pg1) by (rewrite <- YE; exact LY1).
    assert (PG : pg1 p = PPart sl) by exact (lay_at_part NP f (src :: cl) sl 0 0 pg1 LY1').
    assert (Hp : p < NP) by (apply Nat.mod_upper_bound; lia).
    assert (KN3 : kn s3 p PartialOpen) by (apply OB; auto).
    pose proof M3 as (_ & W3' & _ & LB3).
    destruct (notice_T5 g gok pg1 (c_ps (s_ca s3)) f (S (length cl)) 0 p) as (ps' & N1 & N2 & _).
    { destruct W3' as (_ & _ & C3 & _). exact C3. }
    { exact (lay_ring NP _ _ (npos g gok) LY1'). }
    { exact Hp. }
    { now rewrite PG. }
    { exact KN3. }
    set (Y2 := mklay f (src :: cl) None 1 0).
    assert (CPY : copies KO (flat_map live_of (src :: cl)) (live_of sl)).
    { assert (X : copies KO (flat_map live_of (y_cl Y)) (live_of (y_sl Y))) by (apply CP1; auto). rewrite CL in X. unfold y_sl in X. now rewrite PT in X. }
    assert (OKl : mokl (src :: cl)).
    { apply (proj1 (mok_l _)) in OK1. rewrite YE in OK1. unfold uslots in OK1. cbn [y_cl y_pt ptl] in OK1. now apply mokl_app in OK1. }
    assert (OK2 : mok Y2). { apply (proj2 (mok_l _)). unfold uslots, Y2. cbn [y_cl y_pt ptl]. now rewrite app_nil_r. }
    assert (MG2 : mgood Y2). { split; [|split; [exact OK2|]]. - unfold minv, Y2. cbn [y_f y_k y_bad y_pt]. repeat split; try discriminate; lia. - intros X. discriminate X. }
    assert (S2 : same Y Y2).
    { intros k' LK'. rewrite YE. unfold Y2. rewrite !content_app. change (live_of []) with (@nil (list N)). rewrite app_nil_r.
      apply (copies_last KO legal KC); auto. destruct OK1 as (_ & GG & _). rewrite YE, content_app in GG. now apply Forall_app in GG. }
    assert (SG : same Y (ymig f src cl)).
    { eapply same_trans; [exact S2|]. apply same_trans with (Y2 := mklay f (src :: cl) (Some []) 0 0); [intros k' LK'; unfold Y2; now rewrite !content_app|].
      apply (ymig_same g KO legal KC); [|reflexivity]. destruct OKl as (_ & GG & _). cbn [flat_map] in GG. now apply Forall_app in GG. }
    assert (FS : s_fl s3 = s_fl s). { destruct M as (_ & (R0 & _) & _). destruct W3' as (R3 & _). rewrite R0 in R3. now injection R3. }
    assert (HR : (8 <= W /\ qtl g B /\ hqY Y (f_mem (s_fl s)) /\ jcrash Y f0 (L ++ fst (yrp Y)) E) -> jmem g (f_mem (s_fl s3)) p sl).
    { intros (W8 & QT & HH & _). rewrite FS. apply (hq_jmem g gok ws W8).
      - destruct W3' as (_ & FW & _). pose proof (proj1 (proj2 FW) p Hp) as PI. rewrite PG in PI. rewrite <- FS. apply PI.
      - assert (X := HH QT K0 B0 sl PT). unfold p. rewrite CL in X. exact X. }
    apply wp_bind. apply wp_kpk; [apply kpk_open|].
    eapply (wp_open_page1 g gok ws ae aw p ps' pg1 f0 L); [exact W3'|exact Hp|exact N1|exact N2| | |].
    + destruct TE as [[TE|[TE|TE]]|TE]; [right; left; left; exact TE|left|unfold nomig in TE; lia|right; right; exists sl; split; [exact PG|auto]].
      eapply run_fuel; [apply W3'|exact TE].
    + intros s4 W4 F4 _ _ KE4. assert (F04 : mfr s s4) by (eapply mfr_trans; [exact F03|apply fr_mfr; exact F4]).
      assert (KA4 : forall es, kcoh es (c_kp (s_ca s4))).
      { intros es. rewrite KE4. destruct F3 as (_ & _ & _ & E3), F2 as (_ & _ & _ & E2). rewrite E3, E2. apply KA. }
      assert (M4 : mw Y2 (upd pg1 p POpen) f0 (L ++ [DE p]) s4).
      { split; [|split; [exact W4|split; [apply KA4|]]].
        - exact (lay_unpart NP f (src :: cl) sl pg1 (npos g gok) LY1').
        - destruct F4 as (B4 & _). rewrite B4. exact LB3. }
      change p with ((f + S (length cl)) mod NP). apply (wp_m_tail f src cl (upd pg1 p POpen) f0 (L ++ [DE p]) s4); [exact M4|exact MG2| |].
      * change ((f + S (length cl)) mod NP) with p. intros s6 pg6 M6 MG6 F6. rewrite <- !app_assoc in M6. rewrite <- !app_assoc in HQ. apply (HQ s6 pg6); auto.
        eapply mfr_trans; [exact F04|exact F6].
      * change ((f + S (length cl)) mod NP) with p. intros s6 pg6 Yc C1 C2 C3 C4 C5 C6. rewrite <- !app_assoc in C4. rewrite <- !app_assoc in HC. eapply (HC s6 pg6 Yc); auto.
        split; [eapply same_trans; [exact S2|exact C1]|lia].
    + intros s4 x TP SO CR _ KE4. assert (KW : kwfs s4). { unfold kwfs. rewrite KE4. destruct M3 as (_ & _ & KH3 & _). eapply kcoh_wf; eauto. }
      assert (CR' : crashed (upd pg1 p x) f0 (L ++ ([DE p] ++ [DW (paddr g p) (zeros g)]) ++ migops f src cl) s4) by (rewrite <- !app_assoc, app_assoc; apply crashed_app; exact CR).
      destruct TP as [[->|TP]|(sl' & P' & -> & NT & FN)].
      * rewrite PG in CR', SO. eapply (HC s4 _ Y); [split; [apply same_refl|auto]|exact MG| |exact CR'|exact KW|].
        -- apply lay_same; auto.
        -- intros GG QT _ _ sl' PT'. rewrite PT in PT'. injection PT' as <-. specialize (HG GG QT K0 B0 sl PT). rewrite CL in HG. rewrite CL. change (hq g (f_mem (s_fl s)) p sl) in HG. change (hq g (f_mem (s_fl s4)) p sl).
           eapply hq_ext; [|exact HG]. rewrite <- FS. apply (SO sl eq_refl).
      * rewrite PG in TP; contradiction.
      * rewrite PG in P'. injection P' as <-. destruct TE as [[TE|[TE|TE]]|(_ & _ & _ & TE)].
        -- destruct NT. left. exact TE.
        -- destruct FN. eapply run_fuel; [apply W3'|exact TE].
        -- unfold nomig in TE; lia.
        -- rewrite YR in TE. cbn [fst] in TE. eapply (TE s4 _ src cl sl); [exact YE| |exact CR'|exact KW].
           destruct LY1' as [LL _]. unfold pages in LL. cbn [y_f y_cl y_pt ptl map y_k y_bad repeat app] in LL.
           unfold p. change (S (length cl)) with (length (src :: cl)). rewrite <- (map_length PClosed (src :: cl)). apply lay0_upd_app with (x := PPart sl); auto. apply npos; auto.
  - (* an open page follows *)
    assert (XO : x = Open).
    { change (y_f Y) with (y_f Y1) in ST. change (y_c Y) with (y_c Y1) in ST. rewrite (page_st_at g gok Y1 pg1) in ST by (auto; unfold y_c in *; change (y_cl Y1) with (y_cl Y); lia).
      unfold cls in ST. change (y_k Y1) with (y_k Y + y_bad Y) in ST. change (y_b Y1) with (y_b Y) in ST.
      destruct (Nat.ltb_spec (S (y_c Y1)) (y_c Y1)); [lia|].
      destruct (Nat.ltb_spec (S (y_c Y1)) (y_c Y1 + y_b Y)); [lia|]. destruct (Nat.ltb_spec (S (y_c Y1)) (y_c Y1 + y_b Y + (y_k Y + y_bad Y))); [congruence|lia]. }
    subst x. cbn [pstate_eqb]. apply wp_ret.
    assert (YR : yrp Y = (rops g Y, Y1)).
    { unfold yrp, rops, Y1. destruct (Nat.eqb_spec (y_bad Y) 1); auto. assert (B0 : y_bad Y = 0) by lia. rewrite PT, yrep_id by auto. destruct (y_k Y); [lia|auto]. }
    rewrite YR in HQ. cbn [fst snd] in HQ. apply (HQ s3 pg1); auto. intros k' _. auto.
Qed.
End Sto.
