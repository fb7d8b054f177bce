(** The log of a map: stored items oldest to newest, and the last one of a key. *)
From Coq Require Import List NArith ZArith Arith Bool Lia ZifyBool ZifyNat ZifyN.
From Verif Require Import Base BaseP Crc CrcP Flash Cache State Item Generic Map Codec CodecP GeomP ScanP WpP ItemP CalcP PageP WorldP LayP QPushP.
Import ListNotations.
Local Opaque crc16 acrc crc32.

Section Log.
Context {K : Type} (KO : keyops K) (legal : K -> Prop) (KC : key_codec KO legal).

(** A serialized key followed by a serialized value. *)
Definition good (d : list N) : Prop := exists k n kb v, legal k /\ k_ser KO k n = inl kb /\ d = kb ++ v.
Definition dkey (d : list N) : option K := match k_de KO d with inl (k, _) => Some k | inr _ => None end.
Definition dklen (d : list N) : nat := match k_de KO d with inl (_, n) => n | inr _ => 0 end.
Definition dval (d : list N) : list N := skipn (dklen d) d.
Definition hask (k : K) (d : list N) : bool := match dkey d with Some k' => k_eqb KO k' k | None => false end.

Lemma good_de d : good d -> exists k, legal k /\ dkey d = Some k /\ dklen d <= length d /\
  forall rest, k_de KO (d ++ rest) = inl (k, dklen d) /\ k_len KO (d ++ rest) = inl (dklen d).
Proof.
  intros (k & n & kb & v & L & S & ->). exists k. split; auto.
  assert (E : k_de KO (kb ++ v) = inl (k, length kb)) by (eapply kc_de; eauto).
  unfold dkey, dklen. rewrite E. split; auto. split; [rewrite app_length; lia|]. intros rest. rewrite <- !app_assoc.
  split; [eapply kc_de; eauto|eapply kc_len; eauto].
Qed.
Lemma good_hask k d : good d -> legal k -> hask k d = true <-> dkey d = Some k.
Proof.
  intros G L. destruct (good_de d G) as (k' & L' & E & _). unfold hask. rewrite E. rewrite (kc_eqb KO legal KC) by auto.
  split; congruence.
Qed.
Lemma good_ser k n kb v : legal k -> k_ser KO k n = inl kb -> good (kb ++ v) /\ dkey (kb ++ v) = Some k /\ dval (kb ++ v) = v /\ dklen (kb ++ v) = length kb.
Proof.
  intros L S. split; [exists k, n, kb, v; auto|].
  assert (E : k_de KO (kb ++ v) = inl (k, length kb)) by (eapply kc_de; eauto).
  unfold dval, dkey, dklen. rewrite E. split; auto. split; auto. rewrite skipn_app, skipn_all, Nat.sub_diag. auto.
Qed.

(** The last item of a key. *)
Fixpoint lastd (k : K) (ds : list (list N)) : option (list N) :=
  match ds with
  | [] => None
  | d :: t => match lastd k t with Some x => Some x | None => if hask k d then Some d else None end
  end.
Lemma lastd_app k a b : lastd k (a ++ b) = match lastd k b with Some x => Some x | None => lastd k a end.
Proof.
  induction a as [|d a IH]; cbn [lastd app]; [destruct (lastd k b); auto|]. rewrite IH. destruct (lastd k b); auto.
Qed.
Lemma lastd_in k ds d : lastd k ds = Some d -> In d ds /\ hask k d = true.
Proof.
  induction ds as [|x ds IH]; cbn [lastd]; [discriminate|]. destruct (lastd k ds) as [y|] eqn:E.
  - intros [= ->]. destruct (IH eq_refl). split; cbn; auto.
  - destruct (hask k x) eqn:H; intros [= ->]. cbn. auto.
Qed.
Lemma lastd_none k ds : lastd k ds = None <-> forall d, In d ds -> hask k d = false.
Proof.
  induction ds as [|x ds IH]; cbn [lastd]; [split; auto; intros _ d []|]. split.
  - destruct (lastd k ds) eqn:E; [discriminate|]. destruct (hask k x) eqn:H; [discriminate|]. intros _ d [->|I]; auto. now apply IH.
  - intros H. rewrite (proj2 IH) by (intros d I; apply H; cbn; auto). now rewrite H by (cbn; auto).
Qed.
(** The value of a key. *)
Definition value (k : K) (ds : list (list N)) : option (list N) := option_map dval (lastd k ds).

(** Copies of items that are the last of their key. *)
Definition copies (X ds : list (list N)) : Prop := Forall (fun d => exists k, dkey d = Some k /\ lastd k X = Some d) ds.
Lemma copies_last X ds k : Forall good ds -> legal k -> copies X ds -> lastd k (X ++ ds) = lastd k X.
Proof.
  intros G L C. rewrite lastd_app. destruct (lastd k ds) as [d|] eqn:E; auto. destruct (lastd_in _ _ _ E) as [I H].
  unfold copies in C. rewrite Forall_forall in G, C. destruct (C d I) as (k' & A & B). apply good_hask in H; auto. rewrite A in H. injection H as ->. auto.
Qed.

(** The items of a page that have to be kept when it is erased: those without a later item of the same key. *)
Definition samek (d x : list N) : bool := match dkey d with Some k => hask k x | None => false end.
Fixpoint keep (ds later : list (list N)) : list (list N) :=
  match ds with
  | [] => []
  | d :: t => if existsb (samek d) (t ++ later) then keep t later else d :: keep t later
  end.
Lemma samek_none d k l : dkey d = Some k -> existsb (samek d) l = false <-> lastd k l = None.
Proof.
  intros E. rewrite lastd_none. induction l as [|x l IH]; cbn [existsb]; [split; auto; intros _ y []|].
  unfold samek at 1. rewrite E. rewrite orb_false_iff, IH. split.
  - intros [A B] y [->|I]; auto.
  - intros H. split; [apply H; cbn; auto|]. intros y I. apply H. cbn. auto.
Qed.
Lemma keep_in ds later d : In d (keep ds later) -> In d ds.
Proof. induction ds as [|x ds IH]; cbn [keep]; auto. destruct (existsb _ _); cbn; tauto. Qed.
Lemma keep_last ds later k : Forall good ds -> legal k -> lastd k (later ++ keep ds later) = lastd k (ds ++ later).
Proof.
  intros G L. induction ds as [|d ds IH]; cbn [keep app]; [now rewrite app_nil_r|].
  inversion G as [|x y Gd Gs]; subst. specialize (IH Gs). destruct (good_de d Gd) as (kd & Lk & Ek & _).
  cbn [lastd]. destruct (existsb (samek d) (ds ++ later)) eqn:X.
  - rewrite IH. destruct (lastd k (ds ++ later)) eqn:E; auto. destruct (hask k d) eqn:H; auto.
    apply good_hask in H; auto. rewrite Ek in H. injection H as ->. apply (samek_none d k) in E; auto. congruence.
  - rewrite lastd_app in *. cbn [lastd]. destruct (hask k d) eqn:H.
    + apply good_hask in H; auto. rewrite Ek in H. injection H as ->. apply (samek_none d k) in X; auto. rewrite X in *.
      destruct (lastd k (keep ds later)); [discriminate|]. auto.
    + destruct (lastd k (keep ds later)); rewrite IH; destruct (lastd k (ds ++ later)); auto.
Qed.
(** What is kept is the last of its key. *)
Lemma keep_copies ds later : Forall good ds -> forall p, copies (p ++ ds ++ later) (keep ds later).
Proof.
  intros G. induction ds as [|d ds IH]; intros p; cbn [keep]; [constructor|]. inversion G as [|x y Gd Gs]; subst.
  assert (T : copies (p ++ (d :: ds) ++ later) (keep ds later)).
  { specialize (IH Gs (p ++ [d])). rewrite <- app_assoc in IH. exact IH. }
  destruct (existsb _ _) eqn:X; auto. constructor; auto. destruct (good_de d Gd) as (k & Lk & Ek & _). exists k. split; auto.
  apply (samek_none d k) in X; auto. rewrite lastd_app. cbn [app lastd]. rewrite X. replace (hask k d) with true; auto. symmetry. now apply good_hask.
Qed.
Lemma keep_app a b later : Forall good a -> keep (a ++ b) later = keep a (b ++ later) ++ keep b later.
Proof.
  intros G. induction a as [|d a IH]; cbn [keep app]; auto. inversion G; subst. rewrite <- app_assoc. rewrite IH by auto. destruct (existsb _ _); auto.
Qed.
Lemma keep_fresh a b later d : Forall good (a ++ b) -> In d (keep a (b ++ later)) -> existsb (samek d) (b ++ later) = false.
Proof.
  intros G. apply Forall_app in G. destruct G as [G _]. induction a as [|x a IH]; cbn [keep]; [intros []|]. inversion G; subst.
  destruct (existsb (samek x) (a ++ b ++ later)) eqn:X; auto. intros [->|I]; auto. rewrite existsb_app in X. apply orb_false_iff in X. tauto.
Qed.

(** Items with their addresses. *)
Definition ent := (nat * list N)%type.
Fixpoint newest (k : K) (es : list ent) : option ent :=
  match es with
  | [] => None
  | e :: t => match newest k t with Some x => Some x | None => if hask k (snd e) then Some e else None end
  end.
Lemma newest_app k a b : newest k (a ++ b) = match newest k b with Some x => Some x | None => newest k a end.
Proof.
  induction a as [|d a IH]; cbn [newest app]; [destruct (newest k b); auto|]. rewrite IH. destruct (newest k b); auto.
Qed.
Lemma newest_lastd k es : option_map snd (newest k es) = lastd k (map snd es).
Proof.
  induction es as [|e es IH]; cbn [newest map lastd]; auto. rewrite <- IH. destruct (newest k es); auto. cbn. destruct (hask k (snd e)); auto.
Qed.
Lemma newest_in k es e : newest k es = Some e -> In e es /\ hask k (snd e) = true.
Proof.
  induction es as [|x es IH]; cbn [newest]; [discriminate|]. destruct (newest k es) as [y|] eqn:E.
  - intros [= ->]. destruct (IH eq_refl). split; cbn; auto.
  - destruct (hask k (snd x)) eqn:H; intros [= ->]. cbn. auto.
Qed.
Lemma newest_none k es : newest k es = None <-> lastd k (map snd es) = None.
Proof. rewrite <- newest_lastd. destruct (newest k es); cbn; split; congruence. Qed.
End Log.

Section Ents.
Context (g : geom) (gok : geom_ok g).
Notation NP := (NP g).
Fixpoint ents_sl (a : nat) (sl : list slot) : list ent :=
  match sl with
  | [] => []
  | x :: t => (match x with SLive d => [(a, d)] | _ => [] end) ++ ents_sl (a + ssize g x) t
  end.
Fixpoint ents_pg (f : nat) (us : list (list slot)) : list ent :=
  match us with
  | [] => []
  | sl :: t => ents_sl (dstart g (f mod NP)) sl ++ ents_pg (S f) t
  end.
Definition ents (Y : lay) : list ent := ents_pg (y_f Y) (uslots Y).

Lemma ents_sl_app a x y : ents_sl a (x ++ y) = ents_sl a x ++ ents_sl (a + sizes g x) y.
Proof.
  revert a. induction x as [|s x IH]; intros a; cbn [app ents_sl].
  - change (sizes g []) with 0. now rewrite Nat.add_0_r.
  - rewrite IH, app_assoc. do 2 f_equal. rewrite sizes_cons. lia.
Qed.
Lemma ents_sl_data a sl : map snd (ents_sl a sl) = live_of sl.
Proof. revert a. induction sl as [|x sl IH]; intros a; cbn [ents_sl]; auto. rewrite map_app, IH. destruct x; auto. Qed.
Lemma ents_pg_app f a b : ents_pg f (a ++ b) = ents_pg f a ++ ents_pg (f + length a) b.
Proof.
  revert f. induction a as [|x a IH]; intros f; cbn [app ents_pg length]; [now rewrite Nat.add_0_r|].
  rewrite IH, app_assoc. do 2 f_equal. lia.
Qed.
Lemma ents_pg_data f us : map snd (ents_pg f us) = flat_map live_of us.
Proof. revert f. induction us as [|x us IH]; intros f; cbn [ents_pg flat_map]; auto. now rewrite map_app, IH, ents_sl_data. Qed.
Lemma ents_data Y : map snd (ents Y) = content Y.
Proof. apply ents_pg_data. Qed.
Lemma ents_pg_mod f us : ents_pg (f mod NP) us = ents_pg f us.
Proof.
  pose proof (npos g gok) as N. revert f. induction us as [|x us IH]; intros f; cbn [ents_pg]; auto.
  rewrite Nat.mod_mod by lia. f_equal. rewrite <- (IH (S (f mod NP))), <- (IH (S f)). f_equal.
  rewrite <- (Nat.add_1_r (f mod NP)), <- (Nat.add_1_r f), Nat.add_mod_idemp_l by lia. auto.
Qed.
Lemma ents_sl_in a sl e : In e (ents_sl a sl) -> exists l r, sl = l ++ SLive (snd e) :: r /\ fst e = a + sizes g l.
Proof.
  revert a. induction sl as [|x sl IH]; intros a; cbn [ents_sl]; [intros []|]. intros H. apply in_app_or in H. destruct H as [H|H].
  - destruct x; cbn in H; try easy. destruct H as [<-|[]]. exists [], sl. split; auto.
  - destruct (IH _ H) as (l & r & -> & E). exists (x :: l), r. split; auto. rewrite sizes_cons. lia.
Qed.
Lemma ents_sl_range a sl e : In e (ents_sl a sl) -> a <= fst e < a + sizes g sl.
Proof.
  intros H. destruct (ents_sl_in _ _ _ H) as (l & r & -> & E). rewrite sizes_app, sizes_cons. pose proof (ssize_pos g gok (SLive (snd e))). lia.
Qed.
Lemma ents_pg_in f us e : In e (ents_pg f us) -> exists i l r, i < length us /\ nth i us [] = l ++ SLive (snd e) :: r /\
  fst e = dstart g ((f + i) mod NP) + sizes g l.
Proof.
  revert f. induction us as [|x us IH]; intros f; cbn [ents_pg]; [intros []|]. intros H. apply in_app_or in H. destruct H as [H|H].
  - destruct (ents_sl_in _ _ _ H) as (l & r & -> & E). exists 0, l, r. rewrite Nat.add_0_r. cbn. split; [lia|auto].
  - destruct (IH _ H) as (i & l & r & L & N & E). exists (S i), l, r. replace (f + S i) with (S f + i) by lia. cbn. split; [lia|auto].
Qed.
End Ents.
