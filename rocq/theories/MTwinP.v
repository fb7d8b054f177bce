(** Map calls do the same to the flash whatever the cache: the exact condition under which a fetch repairs. *)
From Coq Require Import List NArith ZArith Arith Bool Lia ZifyBool ZifyNat ZifyN.
From Verif Require Import Base BaseP Crc CrcP Flash Cache State Item Generic Map Codec CodecP GeomP ScanP WpP ItemP CalcP PageP WorldP LayP QPushP QRepP QStepP QCallP KeyP MLogP MFetchP MMigP MStoreP MCallP MRemP MRmvP MIterP Client QSpec MClient MSpec MExecP MHistP.
Import ListNotations.
Local Opaque crc16 acrc crc32.

Lemma wp_and {K A} (c : M K A) (Q1 Q2 : A -> st K -> Prop) (E1 E2 : err -> st K -> Prop) s :
  wp c Q1 E1 s -> wp c Q2 E2 s -> wp c (fun a s' => Q1 a s' /\ Q2 a s') (fun e s' => E1 e s' /\ E2 e s') s.
Proof. unfold wp. destruct (c s) as [[a|e] s']; auto. Qed.

Section Twin.
Context (g : geom) (gok : geom_ok g) (ws ae : bool) (aw : nat) (np2 : 2 <= NP g).
Context {K : Type} (KO : keyops K) (legal : K -> Prop) (KC : key_codec KO legal) (B : lim).
Notation NP := (NP g).
Notation st := (st K).
Implicit Types (s : st) (pg : nat -> page) (Y : lay).
Notation world := (world g ws ae aw).
Notation crashed := (crashed g ws ae aw).
Notation sworld := (sworld g ws ae aw).
Notation newest := (newest KO).
Notation lastd := (lastd KO).
Notation ents := (ents g).
Notation good := (good KO legal).
Notation mok := (mok g ws aw KO legal B).
Notation mw := (mw g ws ae aw KO legal B).
Notation mgood := (mgood g ws aw KO legal B).
Notation kcoh := (kcoh KO legal).
Notation smw := (smw g ws ae aw KO legal B).
Notation mend := (mend g ws ae aw KO legal B).
Notation mcut := (mcut g ws ae aw KO legal B).
Notation mstart := (mstart g ws ae aw KO legal B).
Notation value := (value KO).
Notation yrp := (yrp g KO).
Notation kget := (kp_get (k_eqb KO)).

(** Looking for the page in use from page zero on meets the half-erased page first. *)
Definition sees Y : Prop := exists pg, layok NP Y pg /\ ff pg PartialOpen (get_pages g 0) = None.
Lemma ff_st pg pg' x l : (forall p, In p l -> st_of (pg p) = st_of (pg' p)) -> ff pg x l = ff pg' x l.
Proof. induction l as [|a l IH]; cbn [ff]; auto. intros H. rewrite <- (H a) by now left. rewrite IH; auto. intros; apply H; now right. Qed.
Lemma ff_lay Y pg pg' x : layok NP Y pg -> layok NP Y pg' -> ff pg x (get_pages g 0) = ff pg' x (get_pages g 0).
Proof.
  intros L1 L2. pose proof (npos g gok). apply ff_st. intros p Hp. assert (HP : p < NP) by (pose proof (get_pages_lt g gok 0) as G; rewrite Forall_forall in G; auto).
  pose proof (lay_total g gok Y pg L1) as (TF & _). rewrite <- (mod_pos NP ltac:(lia) (y_f Y) p TF HP).
  rewrite !(page_st_at g gok Y) by (auto using pos_lt; apply Nat.mod_upper_bound; lia). reflexivity.
Qed.
Lemma sees_pg Y pg : layok NP Y pg -> sees Y <-> ff pg PartialOpen (get_pages g 0) = None.
Proof.
  intros LY. split; [|intros H; now exists pg]. intros (pg' & L' & H). now rewrite (ff_lay Y pg pg').
Qed.

Definition hit k Y : Prop := y_bad Y = 1 /\ (sees Y \/ newest k (ents Y) = None).
Definition open_keys k s : Prop := c_dirty (s_ca s) = true \/ kget (c_kp (s_ca s)) k = None.

Lemma last_used_none Y pg f0 L s : mw Y pg f0 L s -> sees Y -> wp (last_used g) (fun _ _ => False) (fun _ _ => True) s.
Proof.
  intros M SE. pose proof M as (LY & Wd & KH & LB). pose proof (ring_of g gok Y pg LY) as RE. apply (sees_pg Y pg LY) in SE.
  unfold last_used. apply wp_bind. eapply wp_find_first; [exact gok|exact Wd|exact RE| |auto]. intros s1 r ST. congruence.
Qed.
Lemma last_used_some Y pg f0 L s : mw Y pg f0 L s -> minv Y -> ~ sees Y -> wp (last_used g) (fun _ _ => True) (fun _ _ => False) s.
Proof.
  intros M MI SE. pose proof M as (LY & Wd & KH & LB). pose proof (ring_of g gok Y pg LY) as RE. rewrite (sees_pg Y pg LY) in SE.
  pose proof (ffP g gok aw Y pg LY MI) as FP. destruct (y_pt Y) as [sl|] eqn:PT.
  - destruct FP as [FP|[FP _]]; [|congruence].
    unfold last_used. apply wp_bind. eapply wp_find_first; [exact gok|exact Wd|exact RE| |congruence]. intros s1 r ST _ _ _ _ _. rewrite FP in ST. injection ST as <-. now apply wp_ret.
  - eapply (wp_last_used g gok ws ae aw KO legal B Y pg f0 L); eauto. intros s' BD. destruct MI as (_ & M2 & _). destruct (M2 PT). lia.
Qed.
Lemma fetch_pages_none Y pg f0 L k : legal k -> mok Y -> minv Y -> y_bad Y = 1 -> newest k (ents Y) = None -> forall i fuel s,
  mw Y pg f0 L s -> i < y_c Y + y_b Y -> i < fuel ->
  wp (fetch_pages KO g fuel k ((y_f Y + i) mod NP)) (fun _ _ => False) (fun _ _ => True) s.
Proof.
  intros LK OK MI BAD NN. 
  induction i as [|i IH]; intros fuel s M Hi FU; (destruct fuel as [|fuel]; [lia|]); cbn [fetch_pages];
    pose proof M as (LY & Wd & KH & LB); pose proof OK as (O1 & O2 & O3);
    pose proof (lay_total g gok Y pg LY) as (TF & TT & TB & TBAD); pose proof (npos g gok) as N1.
  - set (p := (y_f Y + 0) mod NP) in *. assert (Hp : p < NP) by (apply Nat.mod_upper_bound; lia).
    destruct (loc_page g gok Y pg LY 0 Hi) as [US SL]. fold p in US, SL. pose proof Wd as (_ & FW & _).
    pose proof (used_body g ws ae aw pg _ p FW Hp US) as BD. rewrite SL in BD.
    assert (IN : In (nth 0 (uslots Y) []) (uslots Y)) by (apply nth_In; rewrite uslots_len; auto).
    pose proof (ents_at g Y 0 Hi) as EA. fold p in EA.
    destruct (scan_page_eq g gok ws KO legal KC k p (nth 0 (uslots Y) []) Hp) with (n := length (nth 0 (uslots Y) [])) (s := s) (pre := @nil slot) (rest := nth 0 (uslots Y) []) (found := @None (nat * nat)) (fuel := tfuel (dstart g p) (dend g p)) as (buf & LBf & EQ); auto.
    { rewrite Forall_forall in *. intros x Hx. apply O2. unfold content. apply in_flat_map. eauto. }
    { rewrite Forall_forall in O1. specialize (O1 _ IN). eapply Forall_impl; [|exact O1]. intros x Hx. destruct x; cbn [fits_buf] in *; auto; lia. }
    { destruct (body_seg g gok ws _ _ _ BD) as (SG & SC & HD). exact (tfuel_len' g gok _ _ _ _ _ SG). }
    change (sizes g []) with 0 in EQ. rewrite Nat.add_0_r in EQ. eapply wp_ok; [exact EQ|].
    assert (NE : newest k (ents_sl g (dstart g p) (nth 0 (uslots Y) [])) = None).
    { rewrite EA, !newest_app in NN. cbn [firstn ents_pg] in NN. destruct (newest k (ents_pg g _ _)); [discriminate|]. destruct (newest k (ents_sl g _ _)); [discriminate|auto]. }
    rewrite NE. set (M' := mw_buf g ws ae aw KO legal B Y pg f0 L s buf M LBf). apply wp_bind. eapply wp_psc; [exact gok|exact (proj1 (proj2 M'))| | | |].
    + unfold p. rewrite (prev_first g gok Y pg LY). apply Nat.mod_upper_bound. lia.
    + eapply ring_of; eauto.
    + intros s1 x ST W1 F1 _ FL1. exfalso. unfold p in ST. rewrite (prev_first g gok Y pg LY), (page_st_at g gok Y pg) in ST by (auto; lia).
      unfold cls in ST. destruct MI as (MI1 & MI2 & MI3). specialize (MI3 BAD).
      destruct (Nat.ltb_spec (NP - 1) (y_c Y)); [lia|]. destruct (Nat.ltb_spec (NP - 1) (y_c Y + y_b Y)); [lia|]. destruct (Nat.ltb_spec (NP - 1) (y_c Y + y_b Y + y_k Y)); [lia|discriminate].
    + auto.
  - set (p := (y_f Y + S i) mod NP) in *. assert (Hp : p < NP) by (apply Nat.mod_upper_bound; lia).
    destruct (loc_page g gok Y pg LY (S i) Hi) as [US SL]. fold p in US, SL. pose proof Wd as (_ & FW & _).
    pose proof (used_body g ws ae aw pg _ p FW Hp US) as BD. rewrite SL in BD.
    assert (IN : In (nth (S i) (uslots Y) []) (uslots Y)) by (apply nth_In; rewrite uslots_len; auto).
    pose proof (ents_at g Y (S i) Hi) as EA. fold p in EA.
    destruct (scan_page_eq g gok ws KO legal KC k p (nth (S i) (uslots Y) []) Hp) with (n := length (nth (S i) (uslots Y) [])) (s := s) (pre := @nil slot) (rest := nth (S i) (uslots Y) []) (found := @None (nat * nat)) (fuel := tfuel (dstart g p) (dend g p)) as (buf & LBf & EQ); auto.
    { rewrite Forall_forall in *. intros x Hx. apply O2. unfold content. apply in_flat_map. eauto. }
    { rewrite Forall_forall in O1. specialize (O1 _ IN). eapply Forall_impl; [|exact O1]. intros x Hx. destruct x; cbn [fits_buf] in *; auto; lia. }
    { destruct (body_seg g gok ws _ _ _ BD) as (SG & SC & HD). exact (tfuel_len' g gok _ _ _ _ _ SG). }
    change (sizes g []) with 0 in EQ. rewrite Nat.add_0_r in EQ. eapply wp_ok; [exact EQ|].
    assert (NE : newest k (ents_sl g (dstart g p) (nth (S i) (uslots Y) [])) = None).
    { rewrite EA, !newest_app in NN. destruct (newest k (ents_pg g (y_f Y + S (S i)) _)); [discriminate|]. destruct (newest k (ents_sl g _ _)); [discriminate|auto]. }
    rewrite NE. set (M' := mw_buf g ws ae aw KO legal B Y pg f0 L s buf M LBf). unfold p. rewrite (prev_mod g gok Y pg LY) by lia. apply wp_bind. eapply wp_psc; [exact gok|exact (proj1 (proj2 M'))| | | |].
    + apply Nat.mod_upper_bound. lia.
    + eapply ring_of; eauto.
    + intros s1 x ST W1 F1 _ FL1. rewrite (page_st_at g gok Y pg) in ST by (auto; lia).
      assert (X : x = Closed). { unfold cls in ST. destruct (Nat.ltb_spec i (y_c Y)); [congruence|lia]. }
      subst x. cbn [pstate_eqb negb]. apply IH; auto; try lia. eapply mw_fr; eauto.
    + auto.
Qed.

Lemma kget_inval c k : kget (kp_inval c) k = None.
Proof.
  destruct c as [|l]; auto. cbn. enough (H : forall l i, kp_find (k_eqb KO) (map (fun _ => None) l) k i = @None (nat * nat)) by now rewrite H.
  clear l. induction l as [|x l IH]; intros i; cbn; auto.
Qed.

(** A fetch meets the half-erased page, and so repairs, exactly in these cases. *)
Lemma fetch_loc_hit Y pg f0 L k s : mstart Y pg f0 L s -> mok Y -> minv Y -> legal k -> (y_bad Y = 1 -> sees Y -> open_keys k s) ->
  wp (fetch_loc KO g k) (fun _ _ => ~ hit k Y) (fun _ _ => hit k Y) s.
Proof.
  intros MS OK MI LK OP. unfold fetch_loc. apply wp_bind.
  assert (CK : wp c_check_dirty (fun _ s' => open_keys k s -> kget (c_kp (s_ca s')) k = None) (fun _ _ => False) s).
  { unfold wp, c_check_dirty, bind, c_is_dirty, open_keys. destruct (c_dirty (s_ca s)) eqn:DT; cbn.
    - intros _. apply kget_inval.
    - intros [X|X]; [discriminate|auto]. }
  assert (CK2 : wp c_check_dirty (fun _ s' => mw Y pg f0 L s') (fun _ _ => False) s).
  { eapply wp_check; [exact MS|]. auto. }
  eapply wp_mono; [exact (wp_and _ _ _ _ _ _ CK CK2)| |intros ? ? [[] _]]. intros _ s1 [C1 M1].
  assert (REST : forall s2, mw Y pg f0 L s2 -> wp (lu <- last_used g ;;
      match lu with
      | None => ret None
      | Some p =>
          r <- fetch_pages KO g (S NP) k p ;;
          match r with
          | None => ret None
          | Some (a, kl) =>
              c_unmark ;;;
              h <- read_new g a None ;;
              match h with
              | None => fail ECorrupted
              | Some h =>
                  mi <- read_item g h a None ;;
                  match mi with
                  | MPresent h => ret (Some (h, a, Some kl))
                  | MCorrupted _ => fail ECorrupted
                  | MErased _ => fail ELogicBug
                  end
              end
          end
      end) (fun _ _ => ~ hit k Y) (fun _ _ => hit k Y) s2).
  { intros s2 M2. apply wp_bind. assert (SD : sees Y \/ ~ sees Y). { rewrite (sees_pg Y pg (proj1 M2)). destruct (ff pg PartialOpen (get_pages g 0)); [right; discriminate|now left]. }
    destruct SD as [SE|SE].
    - assert (LU : wp (last_used g) (fun _ _ => True) (fun _ _ => y_bad Y = 1) s2) by (apply (wp_last_used g gok ws ae aw KO legal B Y pg f0 L); auto).
      eapply wp_mono; [exact (wp_and _ _ _ _ _ _ (last_used_none Y pg f0 L s2 M2 SE) LU)| |].
      + intros ? ? [[] _].
      + intros e s3 [_ BD]. split; auto.
    - assert (LU : wp (last_used g) (fun r s' => mw Y pg f0 L s' /\ r = (if y_c Y + y_b Y =? 0 then None else Some ((y_f Y + (y_c Y + y_b Y - 1)) mod NP))) (fun _ _ => True) s2).
      { apply (wp_last_used g gok ws ae aw KO legal B Y pg f0 L); auto. }
      eapply wp_mono; [exact (wp_and _ _ _ _ _ _ (last_used_some Y pg f0 L s2 M2 MI SE) LU)| |].
      2:{ intros e s3 [[] _]. }
      intros r s3 [_ [M3 ->]]. pose proof (lay_total g gok Y pg (proj1 M3)) as (TF & TT & TB & TBAD).
      destruct (Nat.eqb_spec (y_c Y + y_b Y) 0) as [Z|Z].
      + apply wp_ret. intros (BD & _). destruct MI as (_ & _ & M3'). specialize (M3' BD). lia.
      + apply wp_bind. destruct (newest k (ents Y)) as [[a d]|] eqn:NE.
        * assert (NH : ~ hit k Y) by (intros (_ & [X|X]); congruence).
          eapply (wp_fetch_pages g gok ws ae aw KO legal KC B Y pg f0 L k); auto; try lia; try congruence.
          { rewrite skipn_all2 by (rewrite uslots_len; lia). reflexivity. }
          intros s4 r M4 F4 FL4 ->. rewrite NE. apply wp_unmark. pose proof (mw_dirty g ws ae aw KO legal B Y pg f0 L s4 false M4) as M5.
          match type of M5 with MFetchP.mw _ _ _ _ _ _ _ _ _ _ _ ?x => set (s5 := x) in * end.
          destruct (read_newest g gok ws ae aw KO legal B Y pg f0 L s5 k a d M5 OK NE) as (A & Gd & HK & R). destruct (R _ (or_intror eq_refl)) as (R1 & buf & LB & FN & LD & R2).
          eapply wp_ok; [exact R1|]. cbv beta iota. eapply wp_ok; [exact R2|]. cbv beta iota. now apply wp_ret.
        * assert (BD : y_bad Y = 0 \/ y_bad Y = 1) by lia. destruct BD as [BD|BD].
          -- eapply (wp_fetch_pages g gok ws ae aw KO legal KC B Y pg f0 L k); auto; try lia.
             { rewrite skipn_all2 by (rewrite uslots_len; lia). reflexivity. }
             intros s4 r M4 F4 FL4 ->. rewrite NE. apply wp_ret. intros (X & _). lia.
          -- eapply wp_mono; [apply (fetch_pages_none Y pg f0 L k LK OK MI BD NE); [exact M3|lia|lia]| |].
             ++ intros ? ? [].
             ++ intros e s4 _. split; auto. }
  apply wp_bind. destruct (kget (c_kp (s_ca s1)) k) as [a|] eqn:EK.
  - eapply (wp_fetch_cached g gok ws ae aw KO legal KC B Y pg f0 L); auto. intros s2 r M2 F2 FL2 [->|(a' & d & N & -> & FN & LD)]; [now apply REST|].
    apply wp_ret. intros (BD & [SE|X]); [|congruence]. specialize (C1 (OP BD SE)). discriminate.
  - assert (FC : fetch_cached KO g k s1 = (Ok None, s1)) by (unfold fetch_cached, c_key_loc, bind; now rewrite EK).
    unfold wp. rewrite FC. exact (REST s1 M1).
Qed.

Lemma m_fetch_hit Y pg b k s : legal k -> smw Y pg (set_buf s b) -> mgood Y -> (y_bad Y = 1 -> sees Y -> open_keys k s) ->
  wp (m_fetch KO g b k)
     (fun r s' => r = value k (content Y) /\ exists Y' L', mend Y' (s_fl s) L' (set_buf s b) s' /\ (~ hit k Y /\ Y' = Y /\ L' = [] \/ hit k Y /\ Y' = yrep Y /\ L' = rops g Y))
     (fun e s' => e = EStorage SShutoff /\ hit k Y /\ mcut (fun Yc => Yc = Y \/ Yc = yrep Y) (s_fl s) (rops g Y) s') s.
Proof.
  intros LK SM MG OP. unfold m_fetch. apply wp_bind. unfold wp at 1, put_buf. set (s0 := set_buf s b) in *. apply wp_bind. apply wp_auto_repair.
  assert (MS : mstart Y pg (s_fl s) [] s0) by (right; split; [exact SM|split; reflexivity]).
  assert (FIN : forall Y1 pg1 L1 s1 r, mgood Y1 -> content Y1 = content Y -> ents Y1 = ents Y -> mw Y1 pg1 (s_fl s) L1 s1 -> mfr s0 s1 -> fres g KO k Y1 r s1 ->
    (~ hit k Y /\ Y1 = Y /\ L1 = [] \/ hit k Y /\ Y1 = yrep Y /\ L1 = rops g Y) -> forall E : err -> st -> Prop,
    wp match r with
       | None => ret None
       | Some (h, _, okl) =>
           b <- get_buf ;;
           let dl := h_len h in
           if length b <? dl then fail EPanic
           else
             kl <- match okl with Some kl => ret kl | None => ser_lift (k_len KO (firstn dl b)) end ;;
             if dl <? kl then fail EPanic else ret (Some (firstn (dl - kl) (skipn kl b)))
       end
      (fun r s' => r = value k (content Y) /\ exists Y' L', mend Y' (s_fl s) L' s0 s' /\ (~ hit k Y /\ Y' = Y /\ L' = [] \/ hit k Y /\ Y' = yrep Y /\ L' = rops g Y)) E s1).
  { intros Y1 pg1 L1 s1 r MG1 CE EE M1 F1 FR REL E. assert (ME : mend Y1 (s_fl s) L1 s0 s1) by (split; [eauto|auto]).
    assert (VE : value k (content Y) = option_map (dval KO) (option_map snd (newest k (ents Y1)))).
    { unfold MLogP.value. now rewrite newest_lastd, ents_data, CE. }
    unfold fres in FR. destruct (newest k (ents Y1)) as [[a d]|] eqn:NE.
    - destruct FR as (okl & -> & OKL & FN & LD). unfold get_buf. eapply wp_ok; [reflexivity|]. cbv beta zeta.
      assert (GD : good d). { destruct MG1 as (_ & (_ & GG & _) & _). rewrite Forall_forall in GG. apply GG. rewrite <- (ents_data g). apply newest_in in NE. destruct NE as [IN _]. now apply (in_map snd) in IN. }
      destruct (good_de KO legal KC d GD) as (k0 & _ & _ & KL & DE). destruct (DE []) as [_ DL]. rewrite app_nil_r in DL.
      cbn [ihdr h_len]. destruct (Nat.ltb_spec (length (s_buf s1)) (length d)); [lia|].
      assert (KV : wp match okl with Some kl => ret kl | None => ser_lift (k_len KO (firstn (length d) (s_buf s1))) end (fun kl s' => kl = dklen KO d /\ s' = s1) E s1).
      { destruct OKL as [->| ->]; [rewrite FN, DL|]; apply wp_ret; auto. }
      apply wp_bind. eapply wp_mono; [exact KV| |auto]. intros kl s2 [-> ->]. destruct (Nat.ltb_spec (length d) (dklen KO d)); [lia|].
      apply wp_ret. split; [|eauto]. rewrite VE. cbn [option_map snd]. f_equal. unfold dval. rewrite <- skipn_firstn_comm. now rewrite FN.
    - subst r. apply wp_ret. split; [|eauto]. rewrite VE. reflexivity. }
  assert (FL : wp (fetch_loc KO g k) (fun r s1 => mw Y pg (s_fl s) [] s1 /\ mfr s0 s1 /\ fres g KO k Y r s1)
     (fun e s1 => e = ECorrupted /\ mw Y pg (s_fl s) [] s1 /\ mfr s0 s1) s0).
  { apply (wp_fetch_loc g gok ws ae aw KO legal KC B Y pg (s_fl s) [] k s0); [exact MS|apply MG|apply MG|exact LK| |]; auto. }
  eapply wp_mono; [exact (wp_and _ _ _ _ _ _ FL (fetch_loc_hit Y pg (s_fl s) [] k s0 MS ltac:(apply MG) ltac:(apply MG) LK OP))| |].
  - intros r s1 [(M1 & F1 & FR) NH]. cbv beta in NH. eapply (FIN Y pg []); eauto.
  - intros e s1 [(-> & M1 & F1) HI]. cbv beta in HI. pose proof HI as (BD & _).
    eapply (wp_m_repair g gok ws ae aw np2 KO legal KC B False Y pg (s_fl s) [] s1); [exact M1|exact MG|left; right; right; unfold nomig; lia|tauto| |].
    + assert (YR : yrp Y = (rops g Y, yrep Y)) by (unfold MStoreP.yrp; rewrite BD; reflexivity). rewrite YR. cbn [fst snd app].
      intros s2 pg2 M2 MG2 _ F2. eapply (wp_fetch_loc g gok ws ae aw KO legal KC B (yrep Y) pg2 (s_fl s) (rops g Y) k s2); [left; exact M2|apply MG2|apply MG2|exact LK| |].
      * intros s3 r M3 F3 FL3 FR. eapply (FIN (yrep Y) pg2 (rops g Y)); eauto. eapply mfr_trans; [exact F1|]. eapply mfr_trans; eauto.
      * intros s3 X. discriminate X.
    + assert (YR : yrp Y = (rops g Y, yrep Y)) by (unfold MStoreP.yrp; rewrite BD; reflexivity). rewrite YR. cbn [fst app].
      apply mcut_mcrash. intros s' (pg' & Yc & [C1 C1'] & C2). split; auto. split; auto. exists pg', Yc. split; auto.
Qed.
End Twin.

Section Hist.
Context (g : geom) (gok : geom_ok g) (ws ae : bool) (aw : nat) (np2 : 2 <= NP g).
Context {K : Type} (KO : keyops K) (legal : K -> Prop) (KC : key_codec KO legal).
Notation NP := (NP g).
Notation st := (st K).
Implicit Types (s : st) (pg : nat -> page) (Y : lay) (B : lim).
Notation lastd := (lastd KO).
Notation ents := (ents g).
Notation value := (value KO).
Notation ysto := (ysto g KO).
Notation mgood := (mgood g ws aw KO legal).
Notation mlay := (mlay g ws ae aw KO legal).
Notation mcut := (mcut g ws ae aw KO legal).
Notation acts := (acts g KO).
Notation cuts := (cuts KO legal).
Notation mcallok := (mcallok g ws aw KO legal).
Notation hit := (hit g KO).
Notation sees := (sees g).
Notation covered := (covered (K := K) ae).
Notation mcok := (mcok g ws aw KO legal).
Notation Bl := (Bl KO).
Notation newlog := (newlog KO).

(** The flash operations of a call. *)
Definition xops (c : mcall K) Y (L : list dop) : Prop :=
  match c with
  | MStore b k v => L = snd (fst (ysto Y (dser KO (length b) k v)))
  | MFetch b k => (~ hit k Y /\ L = []) \/ (hit k Y /\ L = rops g Y)
  | MRemove b k => L = rops g Y ++ rmops g KO (Some k) (y_f Y) (uslots Y)
  | MRemoveAll b => L = rops g Y ++ rmops g KO None (y_f Y) (uslots Y)
  | MIter b bs => L = []
  end.
Lemma xops_det c Y L1 L2 : xops c Y L1 -> xops c Y L2 -> L1 = L2.
Proof. destruct c; cbn [xops]; try congruence. intros [[A ->]|[A ->]] [[A2 ->]|[A2 ->]]; auto; contradiction. Qed.
Definition jok Y s : Prop := y_bad Y = 1 -> sees Y -> forall k, legal k -> open_keys KO k s.
Definition xact (c : mcall K) Y a L Y' : Prop := acts c Y a L Y' /\ xops c Y L /\ (y_bad Y' = 1 -> ~ sees Y') /\
  match c with MFetch b k => ~ hit k Y /\ Y' = Y \/ hit k Y /\ Y' = yrep Y | _ => True end.
Lemma xact_det c Y a1 a2 L1 L2 Y1 Y2 : xact c Y a1 L1 Y1 -> xact c Y a2 L2 Y2 -> a1 = a2 /\ L1 = L2 /\ Y1 = Y2.
Proof.
  intros (A1 & O1 & _ & F1) (A2 & O2 & _ & F2). pose proof (xops_det _ _ _ _ O1 O2) as <-. destruct c; cbn [MExecP.acts] in *.
  - destruct A1 as (x1 & -> & E1), A2 as (x2 & -> & E2). rewrite E1 in E2. injection E2 as -> ->. auto.
  - destruct A1 as (-> & _), A2 as (-> & _). split; auto. split; auto. destruct F1 as [[X ->]|[X ->]], F2 as [[X2 ->]|[X2 ->]]; auto; contradiction.
  - destruct A1 as (-> & -> & _), A2 as (-> & -> & _). auto.
  - destruct A1 as (-> & -> & _), A2 as (-> & -> & _). auto.
  - destruct A1 as (-> & -> & _), A2 as (-> & -> & _). auto.
Qed.

Lemma exec_twin B c p cl Y s a s' : mlay cl Y s -> mgood B Y -> mcallok B c -> mpre ae c p cl Y -> (ws = true -> p = None) -> jok Y s ->
  m_exec KO g c (power s p) = (a, s') ->
  (exists L Y', xact c Y a L Y' /\ mlay true Y' s' /\ mgood B Y' /\ run g (s_fl (power s p)) L = (None, s_fl s')) \/
  (a = cutans c /\ exists L, xops c Y L /\ mcut B (cuts c Y) (s_fl (power s p)) L s').
Proof.
  intros ML MG CO PR PO J E. pose proof ML as (pg & LY & SW & KW & KD & CL).
  assert (SWP : WorldP.sworld g ws ae aw pg (power s p)). { destruct SW as ((A1 & B1 & C1 & D1 & E1) & F1). split; [|exact F1]. split; [exact A1|]. split; [exact B1|]. split; [exact C1|]. split; [exact D1|auto]. }
  assert (SM : forall b, B <= length b -> smw g ws ae aw KO legal B Y pg (set_buf (power s p) b)).
  { intros b LB. repeat split; auto; try apply LY; try apply SWP. }
  assert (MW : cl = true -> forall b, B <= length b -> mw g ws ae aw KO legal B Y pg (s_fl (power s p)) [] (set_buf (power s p) b)).
  { intros C b LB. destruct (CL C) as [C1 C2]. repeat split; auto; try apply LY; try apply SWP; apply C1. }
  assert (YB : y_bad Y <= 1) by (eapply mlay_bad; eauto).
  assert (RM : forall sk b, (match sk with Some k => legal k | None => True end) -> B <= length b -> cl = true -> (p = None \/ nomig Y) ->
     forall r s1, m_rm g KO sk b (power s p) = (r, s1) ->
     (r = Ok tt /\ exists L, L = rops g Y ++ rmops g KO sk (y_f Y) (uslots Y) /\ mlay true (yrm KO sk (yrep Y)) s1 /\ mgood B (yrm KO sk (yrep Y)) /\ run g (s_fl (power s p)) L = (None, s_fl s1)) \/
     (r = Err (EStorage SShutoff) /\ mcut B (fun Yc => rcut KO sk Y Yc \/ rcut KO sk (yrep Y) Yc) (s_fl (power s p)) (rops g Y ++ rmops g KO sk (y_f Y) (uslots Y)) s1)).
  { intros sk b LK LB C PP r s1 ER. pose proof (wp_m_rm g gok ws ae aw np2 KO legal KC B sk Y pg b (power s p) LK (MW C b LB) MG) as H.
    assert (FU : f_fuel (s_fl (power s p)) = None \/ nomig Y) by (destruct PP as [->|]; [left; reflexivity|now right]). specialize (H FU). cbv zeta in H. unfold wp in H.
    unfold M in H. rewrite ER in H. destruct r as [[]|e].
    - left. split; auto. eexists. split; [reflexivity|]. eapply mend_mlay. exact H.
    - right. destruct H as [-> H]. split; auto. }
  destruct c as [b k v|b k|b k|b|b bs]; cbn [m_exec MExecP.mcallok mpre] in *; unfold mans1 in E.
  - destruct CO as (LK & LB & NW). pose proof (wp_m_store g gok ws ae aw np2 KO legal KC B Y pg b k v (power s p) _ LK (SM b LB) MG eq_refl NW) as H.
    assert (FU : ae = true \/ f_fuel (s_fl (power s p)) = None \/ settled Y) by (destruct PR as [X|[->|X]]; auto). specialize (H FU). cbv zeta in H. unfold wp in H.
    destruct (ysto Y (dser KO (length b) k v)) as [[x L] Y'] eqn:EY. cbn [fst snd] in H.
    assert (XA : forall s1, mend g ws ae aw KO legal B Y' (s_fl (power s p)) L (set_buf (power s p) b) s1 -> xact (MStore b k v) Y (RUnit x) L Y' /\ mlay true Y' s1 /\ mgood B Y' /\ run g (s_fl (power s p)) L = (None, s_fl s1)).
    { intros s1 ME. apply mend_mlay in ME. destruct ME as (M1 & M2 & M3). split; [|auto]. split; [exists x; auto|]. split; [cbn [xops]; now rewrite EY|]. split; auto.
      destruct (ysto_ok g gok ws aw np2 KO legal KC _ Y pg _ x L Y' LY MG (dser_nocorr KO (length b) k v) EY) as (RD & _).
      rewrite (ready_bad g np2 Y'); auto; [discriminate|apply M2|]. eapply mlay_bad; eauto. }
    destruct (m_store KO g b k v (power s p)) as [[[]|e] s1]; cbn [fst snd] in E; injection E as <- <-.
    + left. exists L, Y'. destruct H as [-> H]. auto.
    + destruct H as [[-> H]|[-> H]].
      * left. exists L, Y'. auto.
      * right. split; auto. exists L. split; [cbn [xops]; now rewrite EY|exact H].
  - destruct CO as (LK & LB). pose proof (m_fetch_hit g gok ws ae aw np2 KO legal KC B Y pg b k (power s p) LK (SM b LB) MG (fun A1 A2 => J A1 A2 k LK)) as H. unfold wp in H.
    destruct (m_fetch KO g b k (power s p)) as [[x|e] s1]; cbn [fst snd] in E; injection E as <- <-.
    + left. destruct H as (-> & Y' & L' & H & D). exists L', Y'. split; [|eapply mend_mlay; exact H]. split; [|split; [|split]].
      * split; auto. destruct D as [(_ & D)|((D1 & _) & D)]; auto.
      * cbn [xops]. tauto.
      * destruct D as [(NH & -> & _)|(_ & -> & _)]; [|discriminate]. intros BD SE. apply NH. split; auto.
      * tauto.
    + right. destruct H as (-> & HI & H). split; auto. exists (rops g Y). split; [right; auto|exact H].
  - destruct CO as (LK & LB), PR as (C & PP). change (m_remove KO g b k) with (m_rm g KO (Some k) b) in E.
    destruct (m_rm g KO (Some k) b (power s p)) as [r s1] eqn:ER. cbn [fst snd] in E. injection E as <- <-.
    destruct (RM (Some k) b LK LB C PP r s1 ER) as [(-> & L & -> & H)|(-> & H)]; [left|right].
    + eexists _, _. split; [|exact H]. split; [split; auto|]. split; [reflexivity|]. split; [|auto]. discriminate.
    + split; auto. eexists. split; [reflexivity|exact H].
  - destruct PR as (C & PP). change (m_remove_all KO g b) with (m_rm g KO None b) in E.
    destruct (m_rm g KO None b (power s p)) as [r s1] eqn:ER. cbn [fst snd] in E. injection E as <- <-.
    destruct (RM None b I CO C PP r s1 ER) as [(-> & L & -> & H)|(-> & H)]; [left|right].
    + eexists _, _. split; [|exact H]. split; [split; auto|]. split; [reflexivity|]. split; [|auto]. discriminate.
    + split; auto. eexists. split; [reflexivity|exact H].
  - pose proof PR as (_ & BZ).
    destruct (exec_spec g gok ws ae aw np2 KO legal KC B (MIter b bs) p cl Y s a s' ML MG CO PR PO E) as [(L & Y' & AC & M1 & M2 & M3)|(-> & _ & _ & Yc & [] & _)].
    left. exists L, Y'. split; [|auto]. split; [exact AC|]. destruct AC as (_ & -> & ->). split; [reflexivity|]. split; [|auto]. rewrite BZ. discriminate.
Qed.

(** * Two storages on the same flash *)
Definition side (n : nat) (log : list (K * list N)) (t : mode) Y s : Prop :=
  mlay (fresh t) Y s /\ jok Y s /\ (sure t = true -> settled Y) /\ (whole t = true -> y_bad Y = 0).
Definition mtwin (n : nat) (log : list (K * list N)) (t1 t2 : mode) s1 s2 : Prop :=
  s_fl s1 = s_fl s2 /\ exists Y, mgood (Bl n log) Y /\ side n log t1 Y s1 /\ side n log t2 Y s2.

Lemma covered_pre t c p Y : covered t c p -> (sure t = true -> settled Y) -> (whole t = true -> y_bad Y = 0) -> (ae = true -> y_bad Y = 0) -> mpre ae c p (fresh t) Y.
Proof.
  intros CV SU WH AE. destruct c; cbn [MSpec.covered mpre] in *; try tauto; destruct CV as [C1 [C2|C2]]; split; auto; right; apply SU; auto.
Qed.
Lemma side_act n log t c B Y a L Y' pg s' : layok NP Y pg -> mgood B Y -> xact c Y a L Y' -> mlay true Y' s' -> minv Y' ->
  (sure t = true -> settled Y) -> (whole t = true -> y_bad Y = 0) -> side n log (after_call t c a) Y' s'.
Proof.
  intros LY MG (AC & _ & NS & _) ML' MI SU WH. pose proof (mlay_bad g ws ae aw KO legal _ _ _ ML') as YB'.
  pose proof (lay_total g gok Y pg LY) as (_ & _ & _ & YB).
  assert (MKS : forall t', (sure t' = true -> settled Y') -> (whole t' = true -> y_bad Y' = 0) -> side n log t' Y' s').
  { intros t' A2 A3. split; [|split; [|auto]].
    - destruct (fresh t'); auto. destruct ML' as (pg' & X). exists pg'. destruct X as (X1 & X2 & X3 & X4 & X5). repeat (split; auto); discriminate.
    - intros BD SE. destruct (NS BD SE). }
  destruct c as [b k v|b k|b k|b|b bs]; cbn [MExecP.acts] in *.
  - destruct AC as (x & -> & YS).
    destruct (ysto_ok g gok ws aw np2 KO legal KC _ Y pg _ x L Y' LY MG (dser_nocorr KO (length b) k v) YS) as (RD & SA & IN & CL).
    assert (B0 : y_bad Y' = 0) by (apply (ready_bad g np2); auto).
    assert (NCT : x <> Err (EStorage SShutoff)).
    { intros ->. destruct CL as [CL|(d & _ & [[X _]|[X _]])]; try discriminate X. unfold dser in CL. destruct (k_ser KO k (length b)); [destruct (_ <? _)|]; discriminate CL. }
    assert (AF : after_call t (MStore b k v) (RUnit x) = calm0).
    { unfold after_call. destruct x as [|e]; auto. destruct e; auto. destruct e; auto. congruence. }
    rewrite AF. apply MKS; auto. intros _. now apply (ready_settled g np2).
  - destruct AC as (-> & YE). apply MKS; cbn [after_call was_cut sure whole].
    + intros X. destruct YE as [[-> _]|(_ & -> & _)]; auto. apply (yrep_settled g np2); auto.
    + intros X. destruct YE as [[-> _]|(B1 & -> & _)]; auto.
  - destruct AC as (-> & -> & _). apply MKS; cbn [after_call was_cut sure whole]; auto. intros X. apply rm_settled, (yrep_settled g np2); auto.
  - destruct AC as (-> & -> & _). apply MKS; cbn [after_call was_cut sure whole]; auto. intros X. apply rm_settled, (yrep_settled g np2); auto.
  - destruct AC as (-> & -> & _). apply MKS; auto.
Qed.
Lemma side_cut n log t c Y Yc pg pg' f0 L s' : layok NP Y pg -> layok NP Yc pg' -> crashed g ws ae aw pg' f0 L s' -> kwfs s' -> cuts c Y Yc ->
  (sure t = true -> settled Y) -> side n log (after_call t c (cutans c)) Yc s'.
Proof.
  intros LY LC CR KW CT SU. pose proof (lay_total g gok Y pg LY) as (_ & _ & _ & YB). pose proof (crashed_sworld _ _ _ _ _ _ _ _ CR) as SW.
  assert (AF : after_call t c (cutans c) = mkmode (match c with MStore _ _ _ => false | _ => sure t end) false false) by (unfold after_call; now rewrite was_cut_ans).
  assert (DI : c_dirty (s_ca s') = true) by apply CR.
  rewrite AF. split; [|split; [|split; [|discriminate]]]; cbn [fresh sure whole].
  - exists pg'. split; auto. split; auto. split; auto. split; [now left|discriminate].
  - intros _ _ k _. now left.
  - destruct c as [b k v|b k|b k|b|b bs]; cbn [MExecP.cuts] in *; [discriminate| | | |destruct CT]; intros X.
    + destruct CT as [->| ->]; auto. apply (yrep_settled g np2); auto.
    + destruct CT as [[R _]|[R _]]; (eapply (yrel_settled g np2); [exact R|]); auto. apply (yrep_settled g np2); auto.
    + destruct CT as [[R _]|[R _]]; (eapply (yrel_settled g np2); [exact R|]); auto. apply (yrep_settled g np2); auto.
Qed.

Lemma mtwin_call n log t1 t2 c p s1 s2 a1 a2 s1' s2' : mtwin n log t1 t2 s1 s2 -> mcok n c -> (ws = true -> p = None) -> covered t1 c p -> covered t2 c p ->
  m_exec KO g c (power s1 p) = (a1, s1') -> m_exec KO g c (power s2 p) = (a2, s2') ->
  a1 = a2 /\ mtwin n (newlog log c) (after_call t1 c a1) (after_call t2 c a2) s1' s2'.
Proof.
  intros (EF & Y & MG & (ML1 & J1 & SU1 & WH1) & (ML2 & J2 & SU2 & WH2)) CO PO CV1 CV2 E1 E2.
  pose proof (mgood_log g ws aw KO legal n log (newlog log c) Y (newlog_incl KO log c) MG) as MG'.
  pose proof (mcok_callok g ws aw KO legal KC n log c CO) as CK.
  pose proof (exec_twin _ c p _ Y s1 a1 s1' ML1 MG' CK (covered_pre _ _ _ _ CV1 SU1 WH1 (mlay_whole g gok ws ae aw np2 KO legal _ _ _ ML1)) PO J1 E1) as O1.
  pose proof (exec_twin _ c p _ Y s2 a2 s2' ML2 MG' CK (covered_pre _ _ _ _ CV2 SU2 WH2 (mlay_whole g gok ws ae aw np2 KO legal _ _ _ ML2)) PO J2 E2) as O2.
  assert (EP : s_fl (power s1 p) = s_fl (power s2 p)) by (unfold power; cbn; now rewrite EF). rewrite <- EP in O2.
  destruct ML1 as (pg1 & LY1 & _).
  destruct O1 as [(L1 & Y1 & X1 & M1 & G1 & R1)|(-> & L1 & X1 & (pg' & Yc & C1 & C2 & C3 & C4 & C5))];
  destruct O2 as [(L2 & Y2 & X2 & M2 & G2 & R2)|(-> & L2 & X2 & (pg2' & Yc2 & D1 & D2 & D3 & D4 & D5))].
  - destruct (xact_det _ _ _ _ _ _ _ _ X1 X2) as (<- & <- & <-). split; auto. split; [rewrite R1 in R2; congruence|]. exists Y1.
    split; [exact G1|]. split; eapply side_act; eauto; apply G1.
  - pose proof (xops_det _ _ _ _ (proj1 (proj2 X1)) X2) as <-. destruct D4 as (R2 & _). rewrite R1 in R2. discriminate.
  - pose proof (xops_det _ _ _ _ X1 (proj1 (proj2 X2))) as <-. destruct C4 as (R1 & _). rewrite R2 in R1. discriminate.
  - pose proof (xops_det _ _ _ _ X1 X2) as <-. split; auto.
    assert (EF' : s_fl s1' = s_fl s2') by (destruct C4 as (R1 & _), D4 as (R2 & _); rewrite R1 in R2; congruence). split; auto.
    exists Yc. split; [exact C2|]. split; (eapply side_cut; [exact LY1|exact C3| | |exact C1|auto]); [exact C4|exact C5| |exact D5].
    destruct C4 as (R1 & F1 & _ & _ & _), D4 as (R2 & F2 & W2 & DI2 & Z2). split; [exact R2|]. split; [now rewrite <- EF'|]. auto.
Qed.

Fixpoint mcalls (evs : list (mev K)) : list (mcall K * option nat) :=
  match evs with [] => [] | MCall c p :: t => (c, p) :: mcalls t | MBoot _ :: t => mcalls t end.
Lemma kget_fresh c k : fresh_kp c -> kp_get (k_eqb KO) c k = None.
Proof.
  intros [|n _]; auto. cbn. enough (H : forall n i, kp_find (k_eqb KO) (repeat None n) k i = @None (nat * nat)) by now rewrite H.
  clear n. induction n as [|n IH]; intros i; cbn; auto.
Qed.
Lemma mtwin_boot n log t1 t2 s1 s2 c : fresh_cache NP c -> mtwin n log t1 t2 s1 s2 -> mtwin n log (mkmode (sure t1) true (whole t1)) t2 (set_ca s1 c) s2.
Proof.
  intros F (A & Y & MG & (ML & J & SU & WH) & SD). split; [exact A|]. exists Y. split; auto. split; [|exact SD]. split; [eapply mlay_boot; eauto|].
  split; [|auto]. intros _ _ k _. right. apply kget_fresh. apply F.
Qed.
Lemma mtwin_sym n log t1 t2 s1 s2 : mtwin n log t1 t2 s1 s2 -> mtwin n log t2 t1 s2 s1.
Proof. intros (A & Y & MG & S1 & S2). split; auto. exists Y. auto. Qed.

Theorem mtwin_hist n m : forall evs1 evs2 log t1 t2 s1 s2 l1 l2 s1' s2', length evs1 + length evs2 <= m -> mcalls evs1 = mcalls evs2 ->
  Forall (mevok g ws aw KO legal n) evs1 -> Forall (mevok g ws aw KO legal n) evs2 -> mtwin n log t1 t2 s1 s2 ->
  m_run KO g s1 evs1 = (l1, s1') -> m_run KO g s2 evs2 = (l2, s2') -> calm ae t1 evs1 l1 -> calm ae t2 evs2 l2 ->
  l1 = l2 /\ exists log', mtwin n log' (mode_after t1 evs1 l1) (mode_after t2 evs2 l2) s1' s2'.
Proof.
  induction m as [|m IH]; intros evs1 evs2 log t1 t2 s1 s2 l1 l2 s1' s2' LN EC V1 V2 TW E1 E2 H1 H2.
  { destruct evs1, evs2; cbn in LN; try lia. cbn in E1, E2. injection E1 as <- <-. injection E2 as <- <-. cbn [mode_after]. eauto. }
  destruct evs1 as [|[c1 p1|c1] evs1].
  - destruct evs2 as [|[c2 p2|c2] evs2]; [|discriminate|].
    + cbn in E1, E2. injection E1 as <- <-. injection E2 as <- <-. cbn [mode_after]. eauto.
    + inversion V2; subst. cbn [m_run] in E2. cbn [calm mode_after] in H2 |- *. change (mode_after t1 [] l1) with t1.
      apply (IH [] evs2 log t1 _ s1 (set_ca s2 c2)); auto; [cbn in LN |- *; lia|]. apply mtwin_sym, mtwin_boot; auto. now apply mtwin_sym.
  - destruct evs2 as [|[c2 p2|c2] evs2]; [discriminate| |].
    + cbn [mcalls] in EC. injection EC as <- <- EC. inversion V1 as [|? ? CP V1']; subst. destruct CP as [CO PO]. inversion V2 as [|? ? _ V2']; subst.
      cbn [m_run] in E1, E2. destruct (m_exec KO g c1 (power s1 p1)) as [a1 u1] eqn:X1. destruct (m_exec KO g c1 (power s2 p1)) as [a2 u2] eqn:X2.
      destruct (m_run KO g u1 evs1) as [k1 w1] eqn:R1. destruct (m_run KO g u2 evs2) as [k2 w2] eqn:R2. injection E1 as <- <-. injection E2 as <- <-.
      cbn [calm mode_after] in *. destruct H1 as [CV1 H1], H2 as [CV2 H2].
      destruct (mtwin_call _ _ _ _ _ _ _ _ _ _ _ _ TW CO PO CV1 CV2 X1 X2) as [-> TW'].
      destruct (IH evs1 evs2 (newlog log c1) (after_call t1 c1 a2) (after_call t2 c1 a2) u1 u2 k1 k2 w1 w2) as [-> TW2]; eauto. cbn in LN; lia.
    + inversion V2; subst. cbn [m_run] in E2. cbn [calm] in H2. change (mode_after t2 (MBoot c2 :: evs2) l2) with (mode_after (mkmode (sure t2) true (whole t2)) evs2 l2).
      apply (IH (MCall c1 p1 :: evs1) evs2 log t1 _ s1 (set_ca s2 c2)); auto; [cbn in LN |- *; lia|]. apply mtwin_sym, mtwin_boot; auto. now apply mtwin_sym.
  - inversion V1; subst. cbn [m_run] in E1. cbn [calm] in H1. change (mode_after t1 (MBoot c1 :: evs1) l1) with (mode_after (mkmode (sure t1) true (whole t1)) evs1 l1).
    apply (IH evs1 evs2 log _ t2 (set_ca s1 c1) s2); auto; [cbn in LN |- *; lia|]. now apply mtwin_boot.
Qed.
End Hist.
