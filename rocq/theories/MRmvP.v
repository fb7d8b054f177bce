(** Removing keys from a map: all pages, and the calls. *)
From Coq Require Import List NArith ZArith Arith Bool Lia ZifyBool ZifyNat ZifyN.
From Verif Require Import Base BaseP Crc CrcP Flash Cache State Item Generic Map Codec CodecP GeomP ScanP WpP ItemP CalcP PageP WorldP LayP QPushP QRepP QStepP KeyP MLogP MFetchP MMigP MStoreP MCallP MRemP.
Import ListNotations.
Local Opaque crc16 acrc crc32.

Section Rmv.
Context (g : geom) (gok : geom_ok g) (ws ae : bool) (aw : nat) (np2 : 2 <= NP g).
Context {K : Type} (KO : keyops K) (legal : K -> Prop) (KC : key_codec KO legal) (B : lim).
Notation W := (W g).
Notation HL := (HL g).
Notation rup := (rup g).
Notation NP := (NP g).
Notation st := (st K).
Implicit Types (s : st) (pg : nat -> page) (Y : lay).
Notation world := (world g ws ae aw).
Notation crashed := (crashed g ws ae aw).
Notation sworld := (sworld g ws ae aw).
Notation newest := (newest KO).
Notation lastd := (lastd KO).
Notation ents := (ents g).
Notation good := (good KO legal).
Notation tearok := (tearok g ws aw B).
Notation mok := (mok g ws aw KO legal B).
Notation mw := (mw g ws ae aw KO legal B).
Notation mgood := (mgood g ws aw KO legal B).
Notation same := (same KO legal).
Notation kcoh := (kcoh KO legal).
Notation ymig := (ymig g KO).
Notation migops := (migops g KO).
Notation y_cur := (y_cur g).

Notation yst := (yst g KO).
Notation yrp := (yrp g KO).
Notation yadv := (yadv g KO).
Notation smw := (smw g ws ae aw KO legal B).
Notation mcrash := (mcrash g ws ae aw KO legal B).
Notation newok := (newok g ws aw B).
Notation after := (after KO legal).
Notation cst := (cst KO legal).


Notation mt := (mt KO).
Notation erf := (erf KO).
Notation rmsl := (rmsl KO).
Notation yrm := (yrm KO).
Notation rmops := (rmops g KO).
Notation rmops_sl := (rmops_sl g KO).
Notation cutsl := (cutsl KO).
Notation mend := (mend g ws ae aw KO legal B).
Notation mcut := (mcut g ws ae aw KO legal B).

Lemma app_len_inv {A} (a b : list A) : forall a' b', length a = length a' -> a ++ b = a' ++ b' -> a = a' /\ b = b'.
Proof. induction a as [|x a IH]; intros [|y a'] b' LE E; try discriminate LE; [auto|]. cbn in *. injection E as -> E. destruct (IH a' b') as [-> ->]; auto. Qed.
(** * The last page in some state *)
Fixpoint fl pg (x : pstate) (l : list nat) (last : option nat) : option (option nat) :=
  match l with
  | [] => Some last
  | p :: t => match st_of (pg p) with
              | None => None
              | Some y => if pstate_eqb x y then fl pg x t (Some p) else match last with Some _ => Some last | None => fl pg x t None end
              end
  end.
Lemma wp_find_last_in pg f0 L x l : forall last (Q : option nat -> st -> Prop) (E : err -> st -> Prop) s,
  Forall (fun p => p < NP) l -> world pg f0 L s -> ring_ex g pg ->
  (forall s' r, fl pg x l last = Some r -> world pg f0 L s' -> fr s s' -> s_fl s' = s_fl s -> Q r s') ->
  (forall s', fl pg x l last = None -> world pg f0 L s' -> fr s s' -> E ECorrupted s') ->
  wp (find_last_in g l x last) Q E s.
Proof.
  induction l as [|p l IH]; intros last Q E s F Wd RE HQ HE; cbn [find_last_in fl] in *.
  - apply wp_ret. apply HQ; auto using fr_refl.
  - inversion F as [|a b F1 F2]; subst. apply wp_bind. eapply wp_psc; [exact gok|exact Wd|exact F1|exact RE| |].
    + intros s1 y ST W1 R1 _ FL1. rewrite ST in HQ, HE.
      assert (REC : forall la, fl pg x l la = (if pstate_eqb x y then fl pg x l (Some p) else match last with Some _ => Some last | None => fl pg x l None end) -> wp (find_last_in g l x la) Q E s1).
      { intros la EQ. apply IH; auto.
        - intros s2 r R W2 F2' FL2. apply HQ; auto; [now rewrite <- EQ|eapply fr_trans; eauto|congruence].
        - intros s2 R W2 F2'. apply HE; auto; [now rewrite <- EQ|eapply fr_trans; eauto]. }
      destruct (pstate_eqb x y); [now apply REC|]. destruct last; [|now apply REC]. apply wp_ret. now apply HQ.
    + intros ST. rewrite ST in HE. apply HE; auto using fr_refl.
Qed.
Lemma pstate_eqb_spec x y : pstate_eqb x y = true <-> x = y.
Proof. destruct x, y; cbn; split; congruence. Qed.
Lemma fl_some pg x : forall l a n r, l = seq a n -> forall p0, S p0 = a -> fl pg x l (Some p0) = Some r ->
  exists p, r = Some p /\ p0 <= p < a + n /\ (st_of (pg p0) = Some x -> st_of (pg p) = Some x) /\ (forall q, a <= q <= p -> st_of (pg q) = Some x) /\ (S p = a + n \/ S p < a + n /\ st_of (pg (S p)) <> Some x).
Proof.
  induction l as [|q l IH]; intros a n r EQ p0 EP F; cbn [fl] in F.
  - destruct n; [|discriminate]. injection F as <-. exists p0. split; auto. split; [lia|]. split; auto. split; [intros; lia|left; lia].
  - destruct n as [|n]; [discriminate|]. cbn [seq] in EQ. injection EQ as -> EQ. destruct (st_of (pg a)) as [y|] eqn:ST; [|discriminate].
    destruct (pstate_eqb x y) eqn:XY.
    + apply pstate_eqb_spec in XY. subst y. destruct (IH (S a) n r EQ a eq_refl F) as (p & -> & P1 & P2 & P3 & P4). exists p. split; auto. split; [lia|]. split; [intros _; auto|]. split; [|].
      * intros q Hq. destruct (Nat.eq_dec q a) as [->|]; auto. apply P3. lia.
      * destruct P4 as [P4|[P4 P5]]; [left|right; split; auto]; lia.
    + injection F as <-. exists p0. split; auto. split; [lia|]. split; auto. split; [intros; lia|]. right. rewrite EP. split; [lia|]. rewrite ST. intros [= ->].
      assert (pstate_eqb x x = true) by now apply pstate_eqb_spec. congruence.
Qed.
Lemma fl_none pg x : forall l a n r, l = seq a n -> fl pg x l None = Some r ->
  match r with
  | None => forall q, a <= q < a + n -> st_of (pg q) <> Some x
  | Some p => a <= p < a + n /\ st_of (pg p) = Some x /\ (S p < a + n /\ st_of (pg (S p)) <> Some x \/ S p = a + n /\ ((forall q, a <= q < a + n -> st_of (pg q) = Some x) \/ st_of (pg a) <> Some x))
  end.
Proof.
  induction l as [|q l IH]; intros a n r EQ F; cbn [fl] in F.
  - destruct n; [|discriminate]. injection F as <-. intros; lia.
  - destruct n as [|n]; [discriminate|]. cbn [seq] in EQ. injection EQ as -> EQ. destruct (st_of (pg a)) as [y|] eqn:ST; [|discriminate].
    destruct (pstate_eqb x y) eqn:XY.
    + apply pstate_eqb_spec in XY. subst y. destruct (fl_some pg x l (S a) n r EQ a eq_refl F) as (p & -> & P1 & P2 & P3 & P4). split; [lia|]. split; auto.
      destruct P4 as [P4|[P4 P5]]; [right|left; split; auto; lia]. split; [lia|]. left. intros q Hq. destruct (Nat.eq_dec q a) as [->|]; auto. apply P3. lia.
    + assert (NX : st_of (pg a) <> Some x). { rewrite ST. intros [= ->]. assert (pstate_eqb x x = true) by now apply pstate_eqb_spec. congruence. }
      specialize (IH (S a) n r EQ F). destruct r as [p|].
      * destruct IH as (A & C & D). split; [lia|]. split; auto. destruct D as [D|[D _]]; [left|right; split; [lia|right; congruence]]. destruct D; split; [lia|auto].
      * intros q Hq. destruct (Nat.eq_dec q a) as [->|]; auto. apply IH. lia.
Qed.
Lemma pages0 : get_pages g 0 = seq 0 NP.
Proof.
  unfold get_pages. rewrite <- (map_id (seq 0 NP)) at 2. apply map_ext_in. intros i I. apply in_seq in I. rewrite Nat.add_0_r. apply Nat.mod_small. lia.
Qed.
(** Where the used pages end, when no page is partially open. *)
Lemma flC Y pg : layok NP Y pg -> minv Y -> y_pt Y = None ->
  fl pg Closed (get_pages g 0) None = Some (if y_c Y =? 0 then None else Some ((y_f Y + (y_c Y - 1)) mod NP)).
Proof.
  intros LY MI PT. pose proof (lay_total g gok Y pg LY) as (TF & TT & TB & TBD). pose proof (y_b_pt Y) as PB. rewrite PT in PB. destruct MI as (M1 & M2 & _). destruct (M2 PT) as [K1 B0].
  assert (AT : forall i, i < NP -> st_of (pg ((y_f Y + i) mod NP)) = Some (if i <? y_c Y then Closed else Open)).
  { intros i Hi. rewrite (page_st_at g gok Y pg i LY Hi). unfold cls. rewrite PB, Nat.add_0_r. destruct (i <? y_c Y); auto. destruct (Nat.ltb_spec i (y_c Y + y_k Y)); auto; lia. }
  assert (POS : forall p, p < NP -> exists i, i < NP /\ p = (y_f Y + i) mod NP).
  { intros p Hp. exists (pos NP (y_f Y) p). split; [apply pos_lt; auto; lia|]. clear -Hp TF. unfold pos. destruct (Nat.leb_spec (y_f Y) p); [rewrite Nat.mod_small; lia|]. replace (y_f Y + (p + NP - y_f Y)) with (p + 1 * NP) by lia. rewrite Nat.mod_add by lia. rewrite Nat.mod_small; lia. }
  assert (NB : forall l, Forall (fun p => p < NP) l -> forall la, fl pg Closed l la <> None).
  { induction l as [|q l IH]; intros F la; cbn [fl]; [discriminate|]. inversion F; subst. destruct (POS q H1) as (i & Hi & ->). rewrite AT by auto.
    destruct (pstate_eqb _ _); auto. destruct la; [discriminate|auto]. }
  destruct (fl pg Closed (get_pages g 0) None) as [r|] eqn:FL; [|now apply NB in FL; [|apply (get_pages_lt g gok)]]. f_equal.
  rewrite pages0 in FL. pose proof (fl_none pg Closed (seq 0 NP) 0 NP r eq_refl FL) as X. destruct r as [p|].
  - destruct X as (X1 & X2 & X3). destruct (POS p ltac:(lia)) as (i & Hi & ->). rewrite AT in X2 by auto. destruct (Nat.ltb_spec i (y_c Y)) as [C|C]; [|discriminate].
    destruct (Nat.eqb_spec (y_c Y) 0); [lia|]. do 2 f_equal.
    assert (SI : S i < NP) by lia.
    destruct (Nat.eq_dec (S i) (y_c Y)) as [|NE]; [lia|]. exfalso. specialize (AT (S i) SI). destruct (Nat.ltb_spec (S i) (y_c Y)) as [C2|C2]; [|lia].
    assert (NXT : (y_f Y + S i) mod NP = if S ((y_f Y + i) mod NP) =? NP then 0 else S ((y_f Y + i) mod NP)).
    { replace (y_f Y + S i) with (S (y_f Y + i)) by lia. rewrite <- Nat.add_1_r. rewrite <- Nat.add_mod_idemp_l by lia. rewrite Nat.add_1_r.
      destruct (Nat.eqb_spec (S ((y_f Y + i) mod NP)) NP) as [->|]; [apply Nat.mod_same; lia|apply Nat.mod_small; lia]. }
    rewrite NXT in AT. destruct (Nat.eqb_spec (S ((y_f Y + i) mod NP)) NP) as [E|E].
    + destruct X3 as [[X3 _]|[_ [X3|X3]]]; [lia| |congruence]. 
      assert (y_c Y < NP) by lia. specialize (X3 ((y_f Y + y_c Y) mod NP)). assert (Z : (y_f Y + y_c Y) mod NP < NP) by (apply Nat.mod_upper_bound; lia). 
      specialize (X3 ltac:(lia)). rewrite (page_st_at g gok Y pg _ LY) in X3 by lia. unfold cls in X3. rewrite PB, Nat.add_0_r in X3.
      destruct (Nat.ltb_spec (y_c Y) (y_c Y)); [lia|]. destruct (Nat.ltb_spec (y_c Y) (y_c Y + y_k Y)); [discriminate|lia].
    + destruct X3 as [[_ X3]|[X3 _]]; [congruence|lia].
  - destruct (Nat.eqb_spec (y_c Y) 0); auto. exfalso. apply (X ((y_f Y + 0) mod NP)); [split; [lia|apply Nat.mod_upper_bound; lia]|]. rewrite AT by lia. destruct (Nat.ltb_spec 0 (y_c Y)); [auto|lia].
Qed.

(** * The entries that stay *)
Lemma ents_sl_rm sk sl : forall a, ents_sl g a (rmsl sk sl) = filter (fun e => negb (mt sk (snd e))) (ents_sl g a sl).
Proof.
  induction sl as [|x sl IH]; intros a; auto. unfold MRemP.rmsl in *. cbn [map ents_sl]. rewrite filter_app, IH, rmx_size. f_equal.
  destruct x; cbn [rmx]; auto. cbn [filter snd]. destruct (mt sk d); reflexivity.
Qed.
Lemma ents_rm sk Y : ents (yrm sk Y) = filter (fun e => negb (mt sk (snd e))) (ents Y).
Proof.
  unfold MLogP.ents. rewrite yrm_uslots. change (y_f (yrm sk Y)) with (y_f Y). generalize (y_f Y). induction (uslots Y) as [|sl us IH]; intros f; auto.
  cbn [map ents_pg]. rewrite filter_app, IH, ents_sl_rm. reflexivity.
Qed.
Lemma newest_filter sk k es : Forall good (map snd es) -> legal k -> (match sk with Some k' => legal k' | None => True end) -> ~ kills sk k ->
  newest k (filter (fun e => negb (mt sk (snd e))) es) = newest k es.
Proof.
  intros G LK LS NK. induction es as [|[a d] es IH]; auto. cbn [map] in G. inversion G as [|x y Gd Gs]; subst. specialize (IH Gs). cbn [filter snd].
  destruct (mt sk d) eqn:MT; cbn [negb MLogP.newest]; rewrite IH; auto. destruct (newest k es); auto. cbn [snd].
  destruct (hask KO k d) eqn:HK; auto. exfalso. apply NK. destruct sk as [k'|]; cbn [kills MRemP.mt] in *; auto.
  apply (good_hask KO legal KC) in HK; auto. apply (good_hask KO legal KC) in MT; auto. congruence.
Qed.
(** The key cache after the key is forgotten, with respect to what stays. *)
Lemma kcoh_erased es es' c k : kcoh es c -> legal k -> (forall k' e, legal k' -> k' <> k -> newest k' es = Some e -> newest k' es' = Some e) -> kcoh es' (kp_erased (k_eqb KO) c k).
Proof.
  destruct c as [|l]; [auto|]. intros (NE & en & KI & C) LK H. destruct (kp_erased_is (k_eqb KO) legal (kc_eqb KO legal KC) l en k KI LK) as (l' & -> & LL & KI').
  split; [intros ->; destruct l; cbn in LL; congruence|]. exists (forget (k_eqb KO) k en). split; auto. intros k' a I. apply filter_In in I. destruct I as [I NQ]. cbn in NQ.
  destruct (C k' a I) as (d & E). exists d. destruct KI as (m & _ & _ & LG). rewrite Forall_forall in LG. pose proof (LG _ I) as L'. cbn in L'.
  apply H; auto. intros ->. assert (k_eqb KO k k = true) by (apply (kc_eqb KO legal KC); auto). rewrite H0 in NQ. discriminate.
Qed.

Section Pages.
Context (sk : option K) (LS : match sk with Some k' => legal k' | None => True end) (ES : list ent) (f0 : flash).
Notation rmw := (rmw g ws ae aw KO legal B ES f0).

Definition yshape Y Y' : Prop := y_f Y' = y_f Y /\ y_k Y' = y_k Y /\ y_bad Y' = y_bad Y /\ y_c Y' = y_c Y /\ y_b Y' = y_b Y.
Lemma yshape_ext Y Y' : yshape Y Y' -> uslots Y' = uslots Y -> Y' = Y.
Proof.
  destruct Y as [f cl pt k bad], Y' as [f' cl' pt' k' bad']. unfold yshape, uslots, y_c, y_b. cbn [y_f y_cl y_pt y_k y_bad]. intros (-> & -> & -> & C & _) E.
  apply app_len_inv in E; auto. destruct E as [-> E]. destruct pt, pt'; cbn [ptl] in E; congruence.
Qed.
Lemma yset_shape Y j sl : j < y_c Y + y_b Y -> yshape Y (yset Y j sl).
Proof. intros H. repeat split; [apply yset_f|apply yset_k|apply yset_bad|apply yset_c|now apply yset_b]. Qed.

(** Pages that are not in use are left alone. *)
Lemma wp_rp_open Y pg L rest (Q : unit -> st -> Prop) (E : err -> st -> Prop) : forall l s, Forall (fun q => q < NP /\ st_of (pg q) = Some Open) l ->
  rmw Y pg L s -> (forall s', rmw Y pg L s' -> mfr s s' -> wp (remove_pages KO g rest sk) Q E s') -> wp (remove_pages KO g (l ++ rest) sk) Q E s.
Proof.
  induction l as [|q l IH]; intros s F M H; [now apply H; [|apply mfr_refl]|]. inversion F as [|x y [F1 F2] F3]; subst. cbn [app remove_pages].
  pose proof M as (LY & Wd & _). apply wp_bind. eapply wp_psc; [exact gok|exact Wd|exact F1|apply (ring_of g gok Y pg LY)| |].
  - intros s1 x ST W1 R1 _ _. rewrite F2 in ST. injection ST as <-. cbn [pstate_eqb]. eapply wp_ok; [reflexivity|]. cbv beta.
    apply IH; [exact F3|eapply rmw_fr; eauto|]. intros s2 M2 F2'. apply H; auto. eapply mfr_trans; [apply fr_mfr; exact R1|exact F2'].
  - intros ST. congruence.
Qed.

(** The used pages. *)
Definition ccut (us us' : list (list slot)) : Prop := exists a sl b sl', us = a ++ sl :: b /\ us' = map (rmsl sk) a ++ sl' :: b /\ cutsl sk sl sl'.
Lemma wp_rp_used : forall us P Y pg L s (Q : unit -> st -> Prop) (E : err -> st -> Prop),
  uslots Y = P ++ us -> Forall good (flat_map live_of us) -> Forall (Forall (fits_buf g B)) us -> rmw Y pg L s ->
  (forall s' pg' Y', yshape Y Y' -> uslots Y' = P ++ map (rmsl sk) us -> rmw Y' pg' (L ++ rmops sk (y_f Y + length P) us) s' -> mfr s s' -> Q tt s') ->
  (forall s' pg' Y' us', yshape Y Y' -> uslots Y' = P ++ us' -> ccut us us' -> layok NP Y' pg' ->
     crashed pg' f0 (L ++ rmops sk (y_f Y + length P) us) s' -> kwfs s' -> E (EStorage SShutoff) s') ->
  wp (remove_pages KO g (map (fun i => (y_f Y + i) mod NP) (seq (length P) (length us))) sk) Q E s.
Proof.
  induction us as [|sl us IH]; intros P Y pg L s Q E US GD FB M HQ HC; cbn [length seq map remove_pages].
  - apply wp_ret. apply (HQ s pg Y); [repeat split|exact US|cbn [MRemP.rmops]; now rewrite app_nil_r|apply mfr_refl].
  - set (j := length P) in *. set (p := (y_f Y + j) mod NP).
    assert (LU : y_c Y + y_b Y = j + S (length us)) by (rewrite <- uslots_len, US, app_length; reflexivity).
    pose proof M as (LY & Wd & KH & LB). pose proof (npos g gok) as NPp. assert (Hp : p < NP) by (apply Nat.mod_upper_bound; lia).
    pose proof (lay_total g gok Y pg LY) as (TF & TT & TB & TBD).
    cbn [flat_map] in GD. apply Forall_app in GD. destruct GD as [G1 G2]. inversion FB as [|x y F1 F2]; subst.
    apply wp_bind. eapply wp_psc; [exact gok|exact Wd|exact Hp|apply (ring_of g gok Y pg LY)| |].
    2:{ intros ST. unfold p in ST. rewrite (page_st_at g gok Y pg j LY ltac:(lia)) in ST. exfalso. unfold cls in ST. destruct (Nat.ltb_spec j (y_c Y)); [discriminate|]. destruct (Nat.ltb_spec j (y_c Y + y_b Y)); [discriminate|lia]. }
    intros s1 x ST W1 R1 _ _. assert (XO : pstate_eqb x Open = false).
    { unfold p in ST. rewrite (page_st_at g gok Y pg j LY ltac:(lia)) in ST. unfold cls in ST. destruct (Nat.ltb_spec j (y_c Y)); [now injection ST as <-|]. destruct (Nat.ltb_spec j (y_c Y + y_b Y)); [now injection ST as <-|lia]. }
    rewrite XO. assert (NTH : sl = nth j (uslots Y) []) by (rewrite US; unfold j; rewrite app_nth2, Nat.sub_diag by lia; reflexivity).
    assert (SELF : yset Y j sl = Y).
    { apply yshape_ext; [apply yset_shape; lia|]. rewrite yset_uslots by lia. rewrite US. unfold j. apply list_set_app. }
    assert (UY : forall z, uslots (yset Y j z) = (P ++ [z]) ++ us).
    { intros z. rewrite yset_uslots by lia. rewrite US. unfold j. rewrite list_set_app, <- app_assoc. reflexivity. }
    assert (M1 : rmw Y pg L s1) by (eapply rmw_fr; eauto).
    assert (LEN : length (P ++ [rmsl sk sl]) = S j) by (rewrite app_length; cbn; unfold j; lia).
    apply wp_bind. replace (dstart g p) with (dstart g p + sizes g []) by (change (sizes g []) with 0; lia).
    eapply (wp_remove_items g gok ws ae aw np2 KO legal KC B sk LS ES f0 Y j sl ltac:(lia) NTH G1 F1 _ [] sl pg L s1); [reflexivity| |cbn [MRemP.rmsl map app]; rewrite SELF; exact M1| |].
    + pose proof W1 as (_ & FW1 & _). destruct (loc_page g gok Y pg LY j ltac:(lia)) as [U1 U2]. fold p in U1, U2. pose proof (used_body g ws ae aw pg _ p FW1 Hp U1) as BD. rewrite U2, <- NTH in BD.
      destruct (body_seg g gok ws _ _ _ BD) as (SG & _). change (sizes g []) with 0. rewrite Nat.add_0_r. eapply tfuel_len'; eauto.
    + change (sizes g []) with 0. rewrite Nat.add_0_r. fold p. intros s2 pg2 M2 R2.
      replace (seq (S j) (length us)) with (seq (length (P ++ [rmsl sk sl])) (length us)) by now rewrite LEN.
      rewrite <- (yset_f Y j (rmsl sk sl)).
      eapply (IH (P ++ [rmsl sk sl]) (yset Y j (rmsl sk sl)) pg2); [apply UY|exact G2|exact F2|exact M2| |].
      * intros s3 pg3 Y3 SH3 U3 M3 R3. rewrite <- app_assoc in M3. rewrite LEN, yset_f in M3. apply (HQ s3 pg3 Y3).
        -- destruct SH3 as (A1 & A2 & A3 & A4 & A5). rewrite yset_b in * by lia. rewrite yset_f, yset_k, yset_bad, yset_c in *. repeat split; auto.
        -- rewrite U3, <- app_assoc. reflexivity.
        -- cbn [MRemP.rmops]. replace (S (y_f Y + j)) with (y_f Y + S j) by lia. exact M3.
        -- eapply mfr_trans; [apply fr_mfr; exact R1|]. eapply mfr_trans; eauto.
      * intros s3 pg3 Y3 us3 SH3 U3 (a & z & b & z' & C1 & C1' & C1'') C2 C3 C4. rewrite <- app_assoc in C3. rewrite LEN, yset_f in C3. eapply (HC s3 pg3 Y3 (rmsl sk sl :: us3)); auto.
        -- destruct SH3 as (A1 & A2 & A3 & A4 & A5). rewrite yset_b in * by lia. rewrite yset_f, yset_k, yset_bad, yset_c in *. repeat split; auto.
        -- rewrite U3, <- app_assoc. reflexivity.
        -- exists (sl :: a), z, b, z'. rewrite C1, C1'. auto.
        -- cbn [MRemP.rmops]. replace (S (y_f Y + j)) with (y_f Y + S j) by lia. exact C3.
    + change (sizes g []) with 0. rewrite Nat.add_0_r. fold p. intros s2 pg2 sl2 C1 C2 C3 C4.
      eapply (HC s2 pg2 (yset Y j sl2) (sl2 :: us)); auto.
      * apply yset_shape; lia.
      * rewrite UY, <- app_assoc. reflexivity.
      * exists [], sl, us, sl2. auto.
      * cbn [MRemP.rmops]. rewrite app_assoc. apply crashed_app. exact C3.
Qed.
End Pages.

(** * A removal cut short *)
Definition rcut sk Y Yc : Prop := yrel Y Yc /\ exists a b, content Y = a ++ b /\ content Yc = erf sk a ++ b.
Lemma ccut_rcut sk Y Yc : yshape Y Yc -> ccut sk (uslots Y) (uslots Yc) -> rcut sk Y Yc.
Proof.
  intros (A1 & A2 & A3 & A4 & A5) (a & sl & b & sl' & E1 & E2 & (x & d & y & r & -> & MT & -> & Hy)). split.
  - repeat split; auto. rewrite E1, E2. apply Forall2_app; [clear; induction a; cbn [map]; constructor; auto; apply srel_rm|]. constructor.
    + apply Forall2_app; [apply srel_rm|]. constructor; [|apply srel_refl]. destruct Hy as [->|[->|(c & ->)]]; [now left|right; eauto|right; eauto].
    + clear. induction b; constructor; auto using srel_refl.
  - unfold content. rewrite E1, E2, !flat_map_app. cbn [flat_map]. rewrite flat_rm, !live_app, live_rm.
    assert (LD : live_of (SLive d :: r) = [d] ++ live_of r) by reflexivity. rewrite LD.
    destruct Hy as [->|Hy].
    + exists (flat_map live_of a ++ live_of x), ((live_of (SLive d :: r)) ++ flat_map live_of b). rewrite erf_app, <- !app_assoc, LD. split; reflexivity.
    + exists (flat_map live_of a ++ live_of x ++ [d]), (live_of r ++ flat_map live_of b). rewrite !erf_app, <- !app_assoc. split; [reflexivity|].
      assert (D1 : erf sk [d] = []) by (unfold MRemP.erf; cbn [filter]; rewrite MT; reflexivity). rewrite D1.
      assert (D2 : live_of (y :: r) = live_of r) by (destruct Hy as [->|(c & ->)]; reflexivity). rewrite D2. reflexivity.
Qed.
Lemma rcut_refl sk Y : rcut sk Y Y.
Proof. split; [repeat split; auto; induction (uslots Y); constructor; auto using srel_refl|]. exists [], (content Y). auto. Qed.
Lemma rcut_value sk Y Yc k : rcut sk Y Yc -> Forall good (content Y) -> legal k -> (match sk with Some k' => legal k' | None => True end) ->
  lastd k (content Yc) = lastd k (content Y) \/ (kills sk k /\ lastd k (content Yc) = None).
Proof.
  intros (_ & a & b & E1 & E2) G LK LS. rewrite E1 in G. apply Forall_app in G. destruct G as [Ga Gb]. rewrite E1, E2, !lastd_app.
  destruct (lastd_erf KO legal KC sk k a Ga LK LS) as [H1 H2]. destruct (lastd k b); auto.
  destruct sk as [k'|]; cbn [kills] in *.
  - destruct (k_eqb KO k k') eqn:KE.
    + apply (kc_eqb KO legal KC) in KE; auto.
    + left. apply H2. intros ->. assert (k_eqb KO k' k' = true) by (apply (kc_eqb KO legal KC); auto). congruence.
  - right. auto.
Qed.
Lemma rcut_good sk Y Yc : rcut sk Y Yc -> nomig Y -> mgood Y -> mgood Yc.
Proof.
  intros (R & _) NM (MI & OK & CP). destruct (yrel_ok g ws aw np2 KO legal B Y Yc R OK MI) as [OK' MI']. split; [exact MI'|]. split; [exact OK'|].
  intros K0 B0. destruct R as (_ & R2 & R3 & _). unfold nomig in NM. rewrite <- R2, <- R3 in NM. lia.
Qed.
Lemma run_nocut L : forall f1 f2, f_fuel f1 = None -> run g f1 L <> (Some SShutoff, f2).
Proof.
  induction L as [|o L IH]; intros f1 f2 FU; cbn [run]; [discriminate|]. destruct (run1 g f1 o) as [r f3] eqn:R.
  assert (X : (r = None /\ f_fuel f3 = None) \/ (exists e, r = Some e /\ e <> SShutoff)).
  { destruct o as [a bs|p]; cbn [run1] in R; unfold dev_write, dev_erase in R; rewrite FU in R; cbn [spend] in R;
      match type of R with context [chk ?a ?b ?c ?d] => destruct (chk a b c d) as [e|] eqn:CH end.
    - right. injection R as <- _. exists e. split; auto. intros ->. unfold chk in CH. repeat (destruct (_ : bool) in CH; try discriminate).
    - left. injection R as <- <-. auto.
    - right. injection R as <- _. exists e. split; auto. intros ->. unfold chk in CH. repeat (destruct (_ : bool) in CH; try discriminate).
    - left. injection R as <- <-. auto. }
  destruct X as [[-> X]|(e & -> & X)]; [now apply IH|congruence].
Qed.

(** * One attempt *)
Lemma seq_plus a m : seq a m = map (fun i => a + i) (seq 0 m).
Proof.
  assert (H : forall o, seq (a + o) m = map (fun i => a + i) (seq o m)); [|now rewrite <- (H 0), Nat.add_0_r].
  induction m as [|m IH]; intros o; cbn [seq map]; auto. f_equal. rewrite <- Nat.add_succ_r. apply IH.
Qed.
Lemma used_pages Y n : y_c Y + y_b Y <= NP -> n = y_c Y + y_b Y ->
  get_pages g ((y_f Y + n) mod NP) = map (fun i => (y_f Y + i) mod NP) (seq n (NP - n)) ++ map (fun i => (y_f Y + i) mod NP) (seq 0 n).
Proof.
  intros LE ->. set (n := y_c Y + y_b Y) in *. unfold get_pages. replace (seq 0 NP) with (seq 0 (NP - n) ++ seq (NP - n) n) by (rewrite <- seq_app; f_equal; lia).
  rewrite map_app. f_equal.
  - rewrite (seq_plus n), map_map. apply map_ext. intros i. rewrite Nat.add_mod_idemp_r by lia. f_equal. lia.
  - rewrite (seq_plus (NP - n)), map_map. apply map_ext. intros i. rewrite Nat.add_mod_idemp_r by lia. replace (NP - n + i + (y_f Y + n)) with (y_f Y + i + 1 * NP) by lia. apply Nat.mod_add. lia.
Qed.

Lemma wp_remove_inner sk Y pg f0 L s (Q : unit -> st -> Prop) (E : err -> st -> Prop) : (match sk with Some k' => legal k' | None => True end) ->
  mw Y pg f0 L s -> mgood Y ->
  (y_bad Y = 0 -> forall s' pg', mw (yrm sk Y) pg' f0 (L ++ rmops sk (y_f Y) (uslots Y)) s' -> mfr s s' -> Q tt s') ->
  (y_bad Y = 1 -> forall s', mw Y pg f0 L s' -> mfr s s' -> E ECorrupted s') ->
  (y_bad Y = 0 -> forall s' pg' Yc, rcut sk Y Yc -> layok NP Yc pg' -> crashed pg' f0 (L ++ rmops sk (y_f Y) (uslots Y)) s' -> kwfs s' -> E (EStorage SShutoff) s') ->
  wp (remove_inner KO g sk) Q E s.
Proof.
  intros LS M (MI & OK & CP) HQ HB HC. unfold remove_inner.
  assert (GE : Forall good (map snd (ents Y))) by (rewrite (ents_data g); apply OK).
  (* the key cache *)
  assert (CACHE : exists s0, (match sk with Some k => c_key_erased (k_eqb KO) k | None => c_inval end) s = (Ok tt, s0) /\ mw Y pg f0 L s0 /\ kcoh (ents (yrm sk Y)) (c_kp (s_ca s0)) /\ mfr s s0).
  { pose proof M as (LY & Wd & KH & LB). destruct sk as [k|].
    - eexists. split; [reflexivity|]. cbn [s_ca set_ca c_kp]. split; [|split; [|repeat split]].
      + split; [exact LY|]. split; [apply (world_kp g ws ae aw); exact Wd|]. split; [|exact LB]. cbn [s_ca set_ca c_kp]. eapply kcoh_erased; eauto.
      + eapply kcoh_erased; eauto. intros k' e LK' NK NE. rewrite ents_rm, newest_filter; auto.
    - eexists. split; [reflexivity|]. split; [|split; [|repeat split]].
      + apply mw_inval. exact M.
      + cbn. apply kwf_inval. eapply kcoh_wf. exact KH. }
  destruct CACHE as (s0 & CE & M0 & KH0 & F0). eapply wp_ok; [exact CE|]. clear CE. cbv beta.
  pose proof M0 as (LY & Wd & _ & LB0). pose proof (lay_total g gok Y pg LY) as (TF & TT & TB & TBD). pose proof (y_b_pt Y) as PB. pose proof MI as (I1 & I2 & I3).
  pose proof (ring_of g gok Y pg LY) as RE.
  assert (M0' : rmw g ws ae aw KO legal B (ents (yrm sk Y)) f0 Y pg L s0) by (split; [exact LY|split; [exact Wd|split; [exact KH0|exact LB0]]]).
  (* from the last page in use on *)
  assert (MAIN : forall lu s1, y_c Y + y_b Y <> 0 -> next_page g lu = (y_f Y + (y_c Y + y_b Y)) mod NP -> mw Y pg f0 L s1 ->
     rmw g ws ae aw KO legal B (ents (yrm sk Y)) f0 Y pg L s1 -> mfr s s1 ->
     wp (remove_pages KO g (get_pages g (next_page g lu)) sk ;;; c_unmark) Q E s1).
  { intros lu s1 NZ NX MW1 M1 F1. rewrite NX, (used_pages Y _ ltac:(lia) eq_refl). apply wp_bind.
    destruct (Nat.eq_dec (y_bad Y) 1) as [BD|BD].
    - specialize (I3 BD). replace (NP - (y_c Y + y_b Y)) with 1 by lia. cbn [seq map app remove_pages]. apply wp_bind.
      assert (ST0 : st_of (pg ((y_f Y + (y_c Y + y_b Y)) mod NP)) = None).
      { rewrite (page_st_at g gok Y pg _ LY) by lia. unfold cls. destruct (Nat.ltb_spec (y_c Y + y_b Y) (y_c Y)); [lia|]. destruct (Nat.ltb_spec (y_c Y + y_b Y) (y_c Y + y_b Y)); [lia|]. destruct (Nat.ltb_spec (y_c Y + y_b Y) (y_c Y + y_b Y + y_k Y)); [lia|reflexivity]. }
      eapply wp_psc; [exact gok|apply M1|apply Nat.mod_upper_bound; lia|exact RE| |].
      + intros s2 x X. congruence.
      + intros _. apply HB; auto.
    - assert (B0 : y_bad Y = 0) by lia. eapply wp_rp_open; [|exact M1|].
      + rewrite Forall_map. apply Forall_forall. intros i I. apply in_seq in I. split; [apply Nat.mod_upper_bound; lia|].
        rewrite (page_st_at g gok Y pg _ LY) by lia. unfold cls. destruct (Nat.ltb_spec i (y_c Y)); [lia|]. destruct (Nat.ltb_spec i (y_c Y + y_b Y)); [lia|]. destruct (Nat.ltb_spec i (y_c Y + y_b Y + y_k Y)); [reflexivity|lia].
      + intros s2 M2 F2. rewrite <- (uslots_len Y). change 0 with (length (@nil (list slot))) at 1. destruct OK as (O1 & O2 & O3).
        eapply (wp_rp_used sk LS (ents (yrm sk Y)) f0 (uslots Y) [] Y pg L s2); [reflexivity|exact O2|exact O1|exact M2| |].
        * cbn [length app]. rewrite Nat.add_0_r. intros s3 pg3 Y3 SH3 U3 M3 F3. assert (Y3 = yrm sk Y) as ->.
          { apply yshape_ext; [|rewrite U3, yrm_uslots; reflexivity]. destruct (yrel_rm KO sk Y) as (A1 & A2 & A3 & A4 & A5 & _). destruct SH3 as (C1 & C2 & C3 & C4 & C5). repeat split; congruence. }
          apply wp_unmark1. apply (HQ B0 _ pg3).
          -- apply mw_dirty. exact M3.
          -- eapply mfr_trans; [exact F1|]. eapply mfr_trans; [exact F2|]. eapply mfr_trans; [exact F3|apply mfr_dirty].
        * cbn [length app]. rewrite Nat.add_0_r. intros s3 pg3 Y3 us3 SH3 U3 C1 C2 C3 C4. eapply (HC B0 s3 pg3 Y3); auto. apply ccut_rcut; auto. rewrite U3. exact C1. }
  pose proof (ffP g gok B Y pg LY MI) as FP.
  apply wp_bind. eapply wp_find_first; [exact gok|exact Wd|exact RE| |].
  2:{ intros s1 FN W1 F1. destruct (y_pt Y) as [sl|] eqn:PT; [|congruence]. destruct FP as [FP|[_ BD]]; [congruence|].
      apply HB; [exact BD|eapply mw_fr; eauto|eapply mfr_trans; [exact F0|apply fr_mfr; exact F1]]. }
  intros s1 lp FN W1 F1 FL1 _ KN1. pose proof (mw_fr g ws ae aw KO legal B _ _ _ _ _ _ M0 W1 F1) as M1.
  pose proof (rmw_fr g ws ae aw KO legal B _ _ _ _ _ _ _ M0' W1 F1) as M1'. assert (F01 : mfr s s1) by (eapply mfr_trans; [exact F0|apply fr_mfr; exact F1]).
  destruct (y_pt Y) as [sl|] eqn:PT.
  - destruct FP as [FP|[FP _]]; [|congruence]. rewrite FP in FN. injection FN as <-. eapply wp_ok; [reflexivity|]. cbv beta.
    apply MAIN; auto; [lia|]. rewrite (next_of g gok) by exact np2. f_equal. lia.
  - rewrite FP in FN. injection FN as <-. destruct (I2 eq_refl) as [K1 B0]. apply wp_bind. apply wp_bind. unfold find_last.
    eapply wp_find_last_in; [apply (get_pages_lt g gok)|exact W1|exact RE| |].
    2:{ intros s2 X. rewrite (flC Y pg LY MI PT) in X. discriminate. }
    intros s2 r FN W2 F2 FL2. rewrite (flC Y pg LY MI PT) in FN. injection FN as <-. apply wp_ret. cbv beta.
    pose proof (mw_fr g ws ae aw KO legal B _ _ _ _ _ _ M1 W2 F2) as M2. pose proof (rmw_fr g ws ae aw KO legal B _ _ _ _ _ _ _ M1' W2 F2) as M2'. assert (F02 : mfr s s2) by (eapply mfr_trans; [exact F01|apply fr_mfr; exact F2]).
    destruct (Nat.eqb_spec (y_c Y) 0) as [C0|C0].
    + (* nothing stored *)
      apply wp_bind. rewrite <- (app_nil_r (get_pages g _)). eapply wp_rp_open; [|exact M2'|].
      * assert (G : Forall (fun q => q < NP) (get_pages g (next_page g 0))) by apply (get_pages_lt g gok). rewrite Forall_forall in *. intros q I. specialize (G q I). split; auto.
        assert (F00 : y_f Y = 0) by lia. specialize (page_st_at g gok Y pg q LY G). rewrite F00, Nat.add_0_l, Nat.mod_small by auto. intros ->. unfold cls. rewrite C0.
        destruct (Nat.ltb_spec q 0); [lia|]. destruct (Nat.ltb_spec q (0 + y_b Y)); [lia|]. destruct (Nat.ltb_spec q (0 + y_b Y + y_k Y)); [reflexivity|lia].
      * intros s3 M3 F3. cbn [remove_pages]. apply wp_ret. apply wp_unmark1.
        assert (UN : uslots Y = []) by (apply length_zero_iff_nil; rewrite uslots_len; lia).
        assert (YE : yrm sk Y = Y). { apply yshape_ext; [|rewrite yrm_uslots, UN; reflexivity]. destruct (yrel_rm KO sk Y) as (A1 & A2 & A3 & A4 & A5 & _). repeat split; auto. }
        apply (HQ B0 _ pg); [|eapply mfr_trans; [exact F02|]; eapply mfr_trans; [exact F3|apply mfr_dirty]].
        rewrite UN. cbn [MRemP.rmops]. rewrite app_nil_r. apply mw_dirty. rewrite YE in *. exact M3.
    + apply MAIN; auto; [lia|]. rewrite (next_of g gok) by exact np2. f_equal. lia.
Qed.

(** * The calls *)
Definition m_rm sk (b : list N) : M K unit := put_buf b ;;; auto_repair (remove_inner KO g sk) (m_repair KO g).
Lemma wp_m_rm sk Y pg b s : (match sk with Some k' => legal k' | None => True end) -> mw Y pg (s_fl s) [] (set_buf s b) -> mgood Y ->
  (f_fuel (s_fl s) = None \/ nomig Y) ->
  let L := rops g Y ++ rmops sk (y_f Y) (uslots Y) in
  wp (m_rm sk b)
     (fun _ s' => mend (yrm sk (yrep Y)) (s_fl s) L (set_buf s b) s')
     (fun e s' => e = EStorage SShutoff /\ mcut (fun Yc => rcut sk Y Yc \/ rcut sk (yrep Y) Yc) (s_fl s) L s') s.
Proof.
  intros LS M MG NC L. unfold m_rm. apply wp_bind. unfold wp at 1, put_buf. set (s0 := set_buf s b) in *. apply wp_auto_repair.
  assert (BAD : y_bad Y = 0 \/ y_bad Y = 1) by (destruct M as ((_ & B1) & _); lia).
  eapply (wp_remove_inner sk Y pg (s_fl s) [] s0); [exact LS|exact M|exact MG| | |].
  - intros B0 s1 pg1 M1 F1. assert (LE : L = rmops sk (y_f Y) (uslots Y)) by (unfold L, rops; rewrite B0; reflexivity). rewrite LE, (yrep_id Y B0). split; [eauto|]. split; [|exact F1].
    eapply yrm_good; eauto.
  - intros BD s1 M1 F1. eapply (wp_m_repair g gok ws ae aw np2 KO legal KC B False Y pg (s_fl s) [] s1); [exact M1|exact MG|left; right; right; unfold nomig; lia|tauto| |].
    + assert (YR : yrp Y = (rops g Y, yrep Y)) by (unfold MStoreP.yrp; rewrite BD; reflexivity). rewrite YR. cbn [fst snd app].
      intros s2 pg2 M2 MG2 _ F2. assert (F02 : mfr s0 s2) by (eapply mfr_trans; eauto).
      eapply (wp_remove_inner sk (yrep Y) pg2 (s_fl s) (rops g Y) s2); [exact LS|exact M2|exact MG2| | |].
      * intros _ s3 pg3 M3 F3. split; [exists pg3; exact M3|]. split; [eapply yrm_good; eauto|eapply mfr_trans; eauto].
      * intros X. discriminate X.
      * intros _ s3 pg3 Yc C1 C2 C3 C4. split; auto. exists pg3, Yc. split; [auto|]. split; [|auto].
        eapply rcut_good; [exact C1| |exact MG2]. unfold nomig. cbn [yrep y_k y_bad]. lia.
    + assert (YR : yrp Y = (rops g Y, yrep Y)) by (unfold MStoreP.yrp; rewrite BD; reflexivity). rewrite YR. cbn [fst app].
      apply mcut_mcrash. intros s' (pg' & Yc & [C1 C1'] & C2 & C3 & C4 & C5). split; auto. exists pg', Yc. split; [|split; [exact C2|split; [exact C3|split; [|exact C5]]]].
      * destruct (C1' BD) as [->| ->]; [left|right]; apply rcut_refl.
      * unfold L. apply crashed_app. exact C4.
  - intros B0 s1 pg1 Yc C1 C2 C3 C4. assert (LE : L = rmops sk (y_f Y) (uslots Y)) by (unfold L, rops; rewrite B0; reflexivity). rewrite LE. split; auto.
    exists pg1, Yc. split; [auto|]. split; [|auto]. destruct NC as [NC|NC]; [|eapply rcut_good; eauto]. destruct C3 as (C3 & _). now apply run_nocut in C3.
Qed.
End Rmv.
