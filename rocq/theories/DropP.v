(** Proofs for Drops.v: a call dropped at a read leaves the flash as a call that is cut by a power failure, or as the completed call. *)
From Coq Require Import List NArith Arith Bool Lia.
From Verif Require Import Base Flash Cache State Item Generic Queue Map Codec Client MClient TMap QSpec MSpec ProgP Reads ReadsP Drops.
Import ListNotations.

Section Drop.
Context {K : Type} (g : geom).
Lemma set_fl_id (s : st K) : set_fl s (s_fl s) = s. Proof. destruct s; reflexivity. Qed.
Lemma log_id f : with_log f (f_bad f) = f. Proof. destruct f; reflexivity. Qed.

(** The power budget does not matter to parts that only read. *)
Definition blind {A} (m : M K A) : Prop := forall s p, m (power s p) = (fst (m s), power (snd (m s)) p).
Lemma blind_bind {A B} (m : M K A) (k : A -> M K B) : blind m -> (forall a, blind (k a)) -> blind (bind m k).
Proof. intros H1 H2 s p. unfold bind. rewrite H1. destruct (m s) as [[a|e] s1]; cbn [fst snd]; [apply H2|reflexivity]. Qed.
Lemma blind_local {A} (m : M K A) : local m -> blind m.
Proof.
  intros L s p. destruct (L s) as (_ & L'). unfold power. rewrite L'. f_equal. unfold power. now rewrite (local_fl m s L).
Qed.
Lemma blind_read a n : blind (fl_read g a n).
Proof. intros s p. unfold fl_read, on_read, steady, dev_read. cbn [s_fl power set_fl]. destruct (chk _ _ _ _); reflexivity. Qed.

(** With a large enough budget all is as without. *)
Definition needs {A} (m : M K A) : Prop := forall s, f_fuel (s_fl s) = None -> f_fuel (s_fl (snd (m s))) = None /\ exists c, forall j,
  m (power s (Some (c + j))) = (fst (m s), power (snd (m s)) (Some j)).
Lemma needs_blind {A} (m : M K A) : blind m -> still m -> needs m.
Proof. intros B S0 s F. destruct (S0 s) as (l & E). split; [now rewrite E|]. exists 0. intros j. apply B. Qed.
Lemma needs_bind {A B} (m : M K A) (k : A -> M K B) : needs m -> (forall a, needs (k a)) -> needs (bind m k).
Proof.
  intros H1 H2 s F. destruct (H1 s F) as (F1 & c1 & E1). unfold bind. destruct (m s) as [[a|e] s1] eqn:EM; cbn [fst snd] in *.
  - destruct (H2 a s1 F1) as (F2 & c2 & E2). split; auto. exists (c1 + c2). intros j. rewrite <- Nat.add_assoc, E1. apply E2.
  - split; auto. exists c1. intros j. now rewrite E1.
Qed.

Definition logged (s : st K) l : st K := set_fl s (with_log (s_fl s) l).
Lemma logged_id s : logged s (f_bad (s_fl s)) = s. Proof. unfold logged. now rewrite log_id, set_fl_id. Qed.
Context (T : nat).
Notation D := (dropping T).
(** Parts that only read: as on the mock flash, or dropped before anything changed in the flash. *)
Definition reading {A} (m : reader -> M K A) : Prop := ends (m steady) /\ blind (m steady) /\ still (m steady) /\ forall s l,
  (exists l', m D (logged s l) = (fst (m steady s), logged (snd (m steady s)) l')) \/ (fst (m D (logged s l)) = Err dropped /\ exists l', s_fl (snd (m D (logged s l))) = with_log (s_fl s) l').
Lemma rd_bind {A B} (m : reader -> M K A) (k : reader -> A -> M K B) : reading m -> (forall a, reading (fun R => k R a)) -> reading (fun R => bind (m R) (k R)).
Proof.
  intros (N1 & B1 & S1 & H1) H2. split; [apply ends_bind; auto; intros a; apply (H2 a)|]. split; [apply blind_bind; auto; intros a; apply (H2 a)|]. split; [apply still_bind; auto; intros a; apply (H2 a)|].
  intros s l. unfold bind. destruct (H1 s l) as [(l1 & E)|(E & l1 & E2)].
  - rewrite E. destruct (m steady s) as [[a|e] s1] eqn:EM; cbn [fst snd]; [|left; exists l1; reflexivity]. destruct (H2 a) as (_ & _ & _ & H3). destruct (H3 s1 l1) as [X|(X & l2 & X2)]; auto. right. split; auto.
    destruct (S1 s) as (l3 & E3). rewrite EM in E3. cbn [snd] in E3. exists l2. rewrite X2, E3. reflexivity.
  - right. destruct (m D (logged s l)) as [r s2]. cbn [fst snd] in *. subst r. cbn [fst snd]. eauto.
Qed.
Lemma rd_local {A} (m : M K A) : local m -> reading (fun _ => m).
Proof.
  intros L. split; [intros s; apply L|]. split; [now apply blind_local|]. split; [now apply still_local|]. intros s l. left. exists l. unfold logged. destruct (L s) as (_ & L'). rewrite L'. now rewrite (local_fl m s L).
Qed.
Lemma rd_read a n : reading (fun R => fl_read g a n).
Proof.
  split; [apply ends_read|]. split; [apply blind_read|]. split; [apply still_read|]. intros s l. unfold fl_read. cbn [on_read steady dropping]. unfold dev_read, logged. cbn [s_fl set_fl]. destruct (chk g (RS g) a n) as [e|]; cbn [fst snd].
  - left. exists ((a, n) :: l). reflexivity.
  - destruct (_ <? T); cbn [fst snd].
    + left. exists ((a, n) :: l). reflexivity.
    + right. split; auto. exists l. reflexivity.
Qed.
Ltac rd1 := first [apply rd_read|apply rd_local; first [apply l_ret|apply l_fail; discriminate|apply l_get_buf|apply l_put_buf]|
  lazymatch goal with |- reading (fun R => bind _ _) => apply rd_bind; [|intros ?] | |- reading (fun R => match ?x with _ => _ end) => destruct x end].
Lemma rd_hdr n a : reading (fun R => read_hdr g n a). Proof. induction n; cbn [read_hdr]; repeat rd1; auto. Qed.
Lemma rd_data n h c a x : reading (fun R => read_data g n h c a x). Proof. induction n; cbn [read_data]; repeat rd1; auto. Qed.
Lemma rd_state p : reading (fun R => page_state g p). Proof. unfold page_state. repeat rd1. Qed.
Lemma rd_new a e : reading (fun R => read_new g a e). Proof. unfold read_new. repeat first [rd1|apply rd_hdr]; cbv zeta; repeat rd1. Qed.
Lemma rd_item h a e : reading (fun R => read_item g h a e). Proof. unfold read_item. cbv zeta. repeat first [rd1|apply rd_data]. Qed.

(** Without power nothing changes. *)
Definition same_fl (f f2 : flash) : Prop := (forall x, f_mem f2 x = f_mem f x) /\ (forall x, f_wc f2 x = f_wc f x) /\ f_ae f2 = f_ae f /\ f_aw f2 = f_aw f.
Lemma same_refl f : same_fl f f. Proof. repeat split. Qed.
Lemma same_sym f1 f2 : same_fl f1 f2 -> same_fl f2 f1. Proof. intros (A1 & A2 & A3 & A4). repeat split; intros; symmetry; auto. Qed.
Lemma same_trans f1 f2 f3 : same_fl f1 f2 -> same_fl f2 f3 -> same_fl f1 f3.
Proof. intros (A1 & A2 & A3 & A4) (B1 & B2 & B3 & B4). repeat split; intros; try congruence; etransitivity; eauto. Qed.
Lemma same_log f l : same_fl f (with_log f l). Proof. repeat split. Qed.
Definition spent {A} (m : M K A) (s : st K) : Prop := fst (m s) = Err cut \/ f_fuel (s_fl (snd (m s))) = Some 0.
Definition idle {A} (m : M K A) : Prop := forall s, f_fuel (s_fl s) = Some 0 -> same_fl (s_fl s) (s_fl (snd (m s))) /\ spent m s.
Lemma idle_still {A} (m : M K A) : still m -> idle m.
Proof. intros S0 s F. unfold spent. destruct (S0 s) as (l & ->). split; [apply same_log|]. right. exact F. Qed.
Lemma idle_bind {A B} (m : M K A) (k : A -> M K B) : idle m -> (forall a, idle (k a)) -> idle (bind m k).
Proof.
  intros H1 H2 s F. destruct (H1 s F) as (E1 & S1). unfold spent, bind in *. destruct (m s) as [[a|e] s1]; cbn [fst snd] in *.
  - destruct S1 as [S1|S1]; [discriminate|]. destruct (H2 a s1 S1) as (E2 & S2). split; auto. eapply same_trans; eauto.
  - split; auto. destruct S1 as [[= ->]|S1]; auto.
Qed.
Lemma idle_write a bs : idle (fl_write g a bs).
Proof.
  intros s F. unfold spent, fl_write, dev_write. destruct (chk g (WS g) a (length bs)) as [e|] eqn:C; cbn [fst snd].
  - split; [apply same_log|]. right. exact F.
  - assert (P : length bs <> 0). { unfold chk in C. destruct (length bs =? 0) eqn:Z; [|now apply Nat.eqb_neq]. rewrite orb_true_r in C. discriminate. }
    rewrite F. cbn [spend]. destruct (Nat.leb_spec (length bs) 0); [lia|]. cbn [andb]. destruct (length bs <=? f_aw (s_fl s)); cbn [fst snd s_fl set_fl f_mem f_wc f_ae f_aw firstn]; split; auto; repeat split; cbn [f_mem f_wc f_ae f_aw]; auto; intros x; unfold mem_and, wc_inc; cbn [length]; rewrite Nat.add_0_r;
      (destruct (Nat.leb_spec a x), (Nat.ltb_spec x a); cbn [andb]; auto; lia).
Qed.
Lemma idle_erase a b : idle (fl_erase g a b).
Proof.
  intros s F. unfold spent, fl_erase, dev_erase. destruct (chk g (ES g) a (b - a)) as [e|] eqn:C; cbn [fst snd].
  - split; [apply same_log|]. right. exact F.
  - assert (P : b - a <> 0). { unfold chk in C. destruct (b - a =? 0) eqn:Z; [|now apply Nat.eqb_neq]. rewrite orb_true_r in C. discriminate. }
    rewrite F. cbn [spend]. destruct (Nat.leb_spec (b - a) 0); [lia|]. cbn [andb]. destruct (f_ae (s_fl s)) eqn:AE; cbn [fst snd s_fl set_fl f_mem f_wc f_ae f_aw]; split; auto; repeat split; cbn [f_mem f_wc f_ae f_aw]; auto; intros x; unfold mem_ff, wc_zero; rewrite Nat.add_0_r;
      (destruct (Nat.leb_spec a x), (Nat.ltb_spec x a); cbn [andb]; auto; lia).
Qed.
Lemma prog_idle {A} F (m : reader -> M K A) F1 : prog g F m F1 -> idle (m steady).
Proof.
  revert A F m F1. apply prog_ind1; intros; auto using idle_write, idle_erase.
  - now apply idle_still, still_local.
  - apply idle_still. intros s. exists (f_bad (s_fl s)). cbn. now rewrite log_id.
  - apply idle_still. intros s. exists (f_bad (s_fl s)). cbn. now rewrite log_id.
  - apply idle_still, (rd_state p).
  - apply idle_still, (rd_new a e).
  - apply idle_still, (rd_item h a e).
  - apply idle_bind; auto.
  - intros s FU. destruct (IHprog s FU) as (E1 & S1). pose proof (prog_ends g F m F1 H s) as NE. unfold spent, bind, attempt in *. cbn [on_result steady]. unfold hand_on.
    destruct (m steady s) as [r s1] eqn:EM. cbn [fst snd] in *. destruct S1 as [S1|S1].
    + destruct H2 as [H2|H2].
      * destruct (H2 s) as (l & E). rewrite EM in E. cbn [snd] in E. assert (FU1 : f_fuel (s_fl s1) = Some 0) by (rewrite E; exact FU). destruct (H1 r NE s1 FU1) as (E2 & S2). split; auto. eapply same_trans; eauto.
      * subst r. unfold cut in *. rewrite H2. cbn. auto.
    + destruct (H1 r NE s1 S1) as (E2 & S2). split; auto. eapply same_trans; eauto.
Qed.
Lemma prog_needs {A} F (m : reader -> M K A) F1 : prog g F m F1 -> needs (m steady).
Proof.
  revert A F m F1. apply prog_ind1; intros.
  - apply needs_blind; [now apply blind_local|now apply still_local].
  - intros s FU. split; auto. exists 0. reflexivity.
  - intros s FU. split; auto. exists 0. reflexivity.
  - intros s FU. unfold fl_write, dev_write. cbn [s_fl power set_fl f_fuel]. rewrite FU. destruct (chk g (WS g) a (length bs)) as [e|]; cbn [fst snd].
    + split; [exact FU|]. exists 0. reflexivity.
    + cbn [spend andb]. split; [reflexivity|]. exists (length bs). intros j. cbn [spend]. destruct (Nat.leb_spec (length bs) (length bs + j)); [|lia]. cbn [andb fst snd]. rewrite Nat.add_comm, Nat.add_sub. reflexivity.
  - intros s FU. unfold fl_erase, dev_erase. cbn [s_fl power set_fl f_fuel]. rewrite FU. destruct (chk g (ES g) a (b - a)) as [e|]; cbn [fst snd].
    + split; [exact FU|]. exists 0. reflexivity.
    + cbn [spend andb]. split; [reflexivity|]. exists (b - a). intros j. cbn [spend]. destruct (Nat.leb_spec (b - a) (b - a + j)); [|lia]. cbn [andb fst snd]. rewrite (Nat.add_comm (b - a) j), Nat.add_sub. reflexivity.
  - apply needs_blind; apply (rd_state p).
  - apply needs_blind; apply (rd_new a e).
  - apply needs_blind; apply (rd_item h a e).
  - apply needs_bind; auto.
  - intros s FU. destruct (IHprog s FU) as (FU1 & c1 & E1). pose proof (prog_ends g F m F1 H s) as NE. unfold bind, attempt. cbn [on_result steady]. unfold hand_on. destruct (m steady s) as [r s1] eqn:EM. cbn [fst snd] in *.
    destruct (H1 r NE s1 FU1) as (FU2 & c2 & E2). split; auto. exists (c1 + c2). intros j. rewrite <- Nat.add_assoc, E1. apply E2.
  - auto.
  - auto.
Qed.

(** A dropped call. *)
Definition drops {A} (m : reader -> M K A) : Prop := forall s l, f_fuel (s_fl s) = None ->
  (exists l', m D (logged s l) = (fst (m steady s), logged (snd (m steady s)) l')) \/
  (fst (m D (logged s l)) = Err dropped /\ exists k, same_fl (s_fl (snd (m D (logged s l)))) (s_fl (snd (m steady (power s (Some k))))) /\ spent (m steady) (power s (Some k))).
Lemma drops_reading {A} (m : reader -> M K A) : reading m -> drops m.
Proof.
  intros (N & B & S0 & H) s l FU. destruct (H s l) as [X|(X & l' & E)]; [now left|right]. split; auto. exists 0. unfold spent. rewrite B. cbn [fst snd]. destruct (S0 s) as (l2 & E2). split.
  - rewrite E. cbn [s_fl power set_fl]. rewrite E2. repeat split.
  - right. reflexivity.
Qed.
Lemma prog_drops {A} F (m : reader -> M K A) F1 : prog g F m F1 -> drops m.
Proof.
  revert A F m F1. apply prog_ind1; intros.
  - now apply drops_reading, rd_local.
  - apply drops_reading, rd_local, l_fail, H.
  - apply drops_reading, rd_local, l_ret.
  - intros s l FU. left. unfold fl_write, dev_write, logged. cbn [s_fl set_fl]. unfold with_log. cbn [f_fuel f_aw f_mem f_wc f_er f_ae f_bad]. destruct (chk g (WS g) a (length bs)) as [e|]; [eexists; reflexivity|]. destruct (spend _ _) as [[k fu] []]; eexists; reflexivity.
  - intros s l FU. left. unfold fl_erase, dev_erase, logged. cbn [s_fl set_fl]. unfold with_log. cbn [f_fuel f_aw f_mem f_wc f_er f_ae f_bad]. destruct (chk g (ES g) a (b - a)) as [e|]; [eexists; reflexivity|]. destruct (spend _ _) as [[k fu] []]; eexists; reflexivity.
  - apply drops_reading, rd_state.
  - apply drops_reading, rd_new.
  - apply drops_reading, rd_item.
  - intros s l FU. destruct (prog_needs F m F1 H s FU) as (FU1 & c & NE). destruct (IHprog s l FU) as [(l1 & E)|(E & k1 & S1 & S2)].
    + unfold spent, bind. rewrite E. destruct (m steady s) as [[a|e] s1] eqn:EM; cbn [fst snd] in *; [|left; exists l1; reflexivity]. destruct (H1 a s1 l1 FU1) as [X|(X & k2 & Y1 & Y2)]; [left; exact X|].
      right. split; auto. exists (c + k2). rewrite NE. cbn [fst snd]. auto.
    + right. unfold spent, bind. destruct (m D (logged s l)) as [r s2]. cbn [fst snd] in *. subst r. cbn [fst snd]. split; auto. exists k1. unfold spent, bind in *. destruct (m steady (power s (Some k1))) as [[a|e] s3]; cbn [fst snd] in *.
      * destruct S2 as [S2|S2]; [discriminate|]. destruct (prog_idle _ _ _ (H0 a) s3 S2) as (Z1 & Z2). split; auto. eapply same_trans; eauto.
      * split; auto. destruct S2 as [[= ->]|S2]; auto.
  - intros s l FU. pose proof (prog_ends g F m F1 H s) as ND. destruct (prog_needs F m F1 H s FU) as (FU1 & c & NE). unfold bind, attempt, spent. cbn [on_result steady dropping]. unfold hand_on. destruct (IHprog s l FU) as [(l1 & E)|(E & k1 & S1 & S2)].
    + rewrite E. destruct (m steady s) as [r s1] eqn:EM. cbn [fst snd] in *.
      assert (X : match r with Err (EStorage SDropped) => (Err (EStorage SDropped), logged s1 l1) | _ => (Ok r, logged s1 l1) end = (Ok r, logged s1 l1)).
      { destruct r as [|[[]| | | | | | | |]]; auto. now destruct ND. }
      rewrite X. clear X. destruct (H1 r ND s1 l1 FU1) as [X|(X & k2 & Y1 & Y2)]; [left; exact X|].
      right. split; auto. exists (c + k2). rewrite NE. cbn [fst snd]. auto.
    + right. destruct (m D (logged s l)) as [r s2]. cbn [fst snd] in *. subst r. cbn [fst snd dropped]. split; auto. destruct H2 as [H2|KF].
      * exists 0. destruct (prog_idle F m F1 H (power s (Some 0)) eq_refl) as (Z1 & _). pose proof (prog_ends g F m F1 H (power s (Some 0))) as ND1.
        assert (Z0 : same_fl (s_fl s2) (s_fl (power s (Some 0)))).
        { eapply same_trans; [exact S1|]. destruct (H2 (power s (Some k1))) as (l3 & E3). rewrite E3. repeat split. }
        destruct (H2 (power s (Some 0))) as (l3 & E3). destruct (m steady (power s (Some 0))) as [r s3] eqn:EM3. cbn [fst snd] in *.
        destruct (prog_idle _ _ _ (H0 r ND1) s3 ltac:(rewrite E3; reflexivity)) as (Z2 & Z3). split; auto. eapply same_trans; [exact Z0|]. eapply same_trans; eauto.
      * exists k1. pose proof (prog_ends g F m F1 H (power s (Some k1))) as ND1. unfold spent in S2. destruct (m steady (power s (Some k1))) as [r s3] eqn:EM3. cbn [fst snd] in *. destruct S2 as [->|S2].
        -- unfold cut. rewrite KF. cbn. auto.
        -- destruct (prog_idle _ _ _ (H0 r ND1) s3 S2) as (Z1 & Z2). split; auto. eapply same_trans; eauto.
  - auto.
  - auto.
Qed.
End Drop.
