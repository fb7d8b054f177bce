(** The calculated page-state cache (src/cache/page_states.rs 42-247) is sound on ring-shaped storages. *)
From Coq Require Import List NArith ZArith Arith Bool Lia ZifyBool ZifyNat ZifyN.
From Verif Require Import Base BaseP Flash Cache.
Import ListNotations.

Definition upd {A} (f : nat -> A) (p : nat) (x : A) : nat -> A := fun q => if q =? p then x else f q.
Lemma upd_same {A} (f : nat -> A) p x : upd f p x p = x.
Proof. unfold upd. now rewrite Nat.eqb_refl. Qed.
Lemma upd_other {A} (f : nat -> A) p x q : q <> p -> upd f p x q = f q.
Proof. intros. unfold upd. destruct (Nat.eqb_spec q p); congruence. Qed.

(** Position of page [p] counted from page [f] on a ring of [n]. *)
Definition pos (n f p : nat) : nat := if f <=? p then p - f else p + n - f.

(** The state by position: closed pages (oldest first), at most one partially open page, open pages, and possibly
    one half-erased page. *)
Definition cls (c b k i : nat) : option pstate :=
  if i <? c then Some Closed else if i <? c + b then Some PartialOpen else if i <? c + b + k then Some Open else None.

Definition ringst (n : nat) (stf : nat -> option pstate) (f c b k bad : nat) : Prop :=
  f < n /\ c + b + k + bad = n /\ b <= 1 /\ bad <= 1 /\ forall p, p < n -> stf p = cls c b k (pos n f p).

Section Calc.
Context (n : nat) (npos : 1 <= n).
Notation pos := (pos n).
Notation ringst := (ringst n).

Definition prv (p : nat) : nat := match p with O => n - 1 | S q => q end.
Definition nxt (p : nat) : nat := (p + 1) mod n.
Lemma nxt_eq p : p < n -> nxt p = if p + 1 =? n then 0 else p + 1.
Proof.
  intros. unfold nxt. destruct (Nat.eqb_spec (p + 1) n) as [->|]; [apply Nat.mod_same; lia|apply Nat.mod_small; lia].
Qed.

(** [places_behind_of_anchor] as coded (one too many when it wraps). *)
Definition beh (a p : nat) : nat := if p <=? a then a - p else a + 1 + n - p.

(** The cached claims are true. *)
Definition calc_coh (stf : nat -> option pstate) (k : calc) : Prop :=
  k_pc k = n /\
  match k_anchor k with
  | None => k_partial k = false /\ k_guess k = true /\ k_closed k = 0 /\ k_open k = 0
  | Some a =>
      a < n /\ 1 <= k_open k <= n /\
      stf a = Some (if k_partial k then PartialOpen else Open) /\
      (forall p, p < n -> p <> a -> pos a p < k_open k -> stf p = Some Open) /\
      (forall p, p < n -> p <> a -> beh a p <= k_closed k -> stf p = Some Closed) /\
      (k_guess k = true -> k_partial k = false /\ k_closed k = 0) /\
      (k_guess k = false -> k_partial k = true \/ (stf (prv a) <> Some Open /\ stf (prv a) <> Some PartialOpen) \/
                            (forall p, p < n -> stf p = Some Open))
  end.

Lemma calc_new_coh stf : calc_coh stf (calc_new n).
Proof. split; cbn; auto. Qed.

Ltac pb := repeat match goal with
  | |- context [?a =? ?b] => destruct (Nat.eqb_spec a b)
  | |- context [?a <? ?b] => destruct (Nat.ltb_spec a b)
  | |- context [?a <=? ?b] => destruct (Nat.leb_spec a b)
  | H : context [?a =? ?b] |- _ => destruct (Nat.eqb_spec a b)
  | H : context [?a <? ?b] |- _ => destruct (Nat.ltb_spec a b)
  | H : context [?a <=? ?b] |- _ => destruct (Nat.leb_spec a b)
  end.

Lemma pos_lt f p : f < n -> p < n -> pos f p < n.
Proof. intros. unfold CalcP.pos. pb; lia. Qed.
Lemma pos_inj f p q : f < n -> p < n -> q < n -> pos f p = pos f q -> p = q.
Proof. unfold CalcP.pos. intros. pb; lia. Qed.
Lemma pos_self f : pos f f = 0.
Proof. unfold CalcP.pos. pb; lia. Qed.
Lemma pos_mod f i : f < n -> i < n -> pos f ((f + i) mod n) = i.
Proof.
  intros. assert (E : (f + i) mod n = if f + i <? n then f + i else f + i - n).
  { pb. - apply Nat.mod_small; lia. - replace (f + i) with ((f + i - n) + 1 * n) at 1 by lia. rewrite Nat.mod_add by lia. apply Nat.mod_small. lia. }
  rewrite E. unfold CalcP.pos. pb; lia.
Qed.
Lemma mod_pos f p : f < n -> p < n -> (f + pos f p) mod n = p.
Proof.
  intros. unfold CalcP.pos. pb.
  - replace (f + (p - f)) with p by lia. apply Nat.mod_small. lia.
  - replace (f + (p + n - f)) with (p + 1 * n) by lia. rewrite Nat.mod_add by lia. apply Nat.mod_small. lia.
Qed.

(** What [calc_get] answers, spelled out. *)
Lemma calc_get_eq k p : k_pc k = n -> match k_anchor k with Some a => a < n | None => True end -> p < n ->
  calc_get k p = match k_anchor k with
                 | None => None
                 | Some a => if a =? p then Some (if k_partial k then PartialOpen else Open)
                             else if pos a p <? k_open k then Some Open
                             else if beh a p <=? k_closed k then Some Closed else None
                 end.
Proof.
  intros PC AN P. unfold calc_get, calc_front, calc_behind. destruct (k_anchor k) as [a|]; auto.
  rewrite PC. destruct (Nat.eqb_spec a p); auto.
  assert (E1 : match (if a <=? p then Some (p - a) else Some (n - a + p)) with Some i => i <? k_open k | None => false end = (pos a p <? k_open k)).
  { unfold CalcP.pos. destruct (Nat.leb_spec a p); auto. f_equal. lia. }
  assert (E2 : match (if p <=? a then Some (a - p) else Some (a + 1 + n - p)) with Some i => i <=? k_closed k | None => false end = (beh a p <=? k_closed k)).
  { unfold beh. destruct (Nat.leb_spec p a); auto. }
  now rewrite E1, E2.
Qed.

Lemma coh_anchor stf k : calc_coh stf k -> k_pc k = n /\ match k_anchor k with Some a => a < n | None => True end.
Proof. intros [H1 H2]. split; auto. destruct (k_anchor k); tauto. Qed.

Lemma calc_get_sound stf k p s : calc_coh stf k -> p < n -> calc_get k p = Some s -> stf p = Some s.
Proof.
  intros C P. destruct (coh_anchor _ _ C) as [PC AN]. rewrite calc_get_eq by auto. destruct C as [_ C].
  destruct (k_anchor k) as [a|]; [|discriminate]. destruct C as (_ & _ & A & O & Cl & _).
  pb; intros [= <-]; subst; auto.
Qed.

Lemma calc_front_eq k a p : k_pc k = n -> k_anchor k = Some a -> a < n -> calc_front k p = Some (pos a p).
Proof. intros PC E L. unfold calc_front. rewrite E, PC. unfold CalcP.pos. destruct (Nat.leb_spec a p); f_equal. lia. Qed.
Lemma calc_behind_eq k a p : k_pc k = n -> k_anchor k = Some a -> calc_behind k p = Some (beh a p).
Proof. intros PC E. unfold calc_behind. rewrite E, PC. unfold beh. now destruct (Nat.leb_spec p a). Qed.

Section Ring.
Context (stf : nat -> option pstate) (f c b k bad : nat) (R : ringst stf f c b k bad).

Lemma ring_closed p : p < n -> stf p = Some Closed <-> pos f p < c.
Proof.
  intros P. destruct R as (Rf & Rn & Rb & Rbad & Rs). rewrite Rs by auto. unfold cls. pb; split; try discriminate; auto; lia.
Qed.
Lemma ring_part p : p < n -> stf p = Some PartialOpen <-> b = 1 /\ pos f p = c.
Proof.
  intros P. destruct R as (Rf & Rn & Rb & Rbad & Rs). rewrite Rs by auto. unfold cls.
  pb; split; try discriminate; auto; intros; lia.
Qed.
Lemma ring_open p : p < n -> stf p = Some Open <-> c + b <= pos f p < c + b + k.
Proof.
  intros P. destruct R as (Rf & Rn & Rb & Rbad & Rs). rewrite Rs by auto. unfold cls.
  pb; split; try discriminate; auto; intros; lia.
Qed.
Lemma ring_bad p : p < n -> stf p = None <-> c + b + k <= pos f p.
Proof.
  intros P. destruct R as (Rf & Rn & Rb & Rbad & Rs). rewrite Rs by auto. unfold cls.
  pb; split; try discriminate; auto; intros; lia.
Qed.

(** A non-guessed anchor is the youngest page. *)
Lemma anchor_young kk a : calc_coh stf kk -> k_anchor kk = Some a -> k_guess kk = false ->
  pos f a = c \/ (c = 0 /\ b = 0 /\ bad = 0).
Proof.
  intros [PC C] E G. rewrite E in C. destruct C as (La & Lo & A & O & Cl & Gt & Gf). specialize (Gf G).
  pose proof R as (Rf & Rn & Rb & Rbad & Rs).
  destruct Gf as [P|[[P1 P2]|P]].
  - rewrite P in A. apply ring_part in A; auto. left. tauto.
  - destruct (k_partial kk).
    + apply ring_part in A; auto. left. tauto.
    + apply ring_open in A; auto. left.
      assert (Lp : prv a < n) by (unfold prv; destruct a; lia).
      rewrite ring_open in P1 by auto. rewrite ring_part in P2 by auto.
      destruct (Nat.eq_dec (pos f a) 0) as [Z|Z]; [lia|].
      assert (pos f (prv a) = pos f a - 1). { unfold prv, CalcP.pos in *. destruct a; pb; lia. }
      lia.
  - right. destruct (Nat.eq_dec c 0) as [Zc|Nc].
    + split; auto. destruct (Nat.eq_dec b 0) as [Zb|Nb].
      * split; auto. destruct (Nat.eq_dec bad 0); auto. exfalso.
        specialize (P ((f + (n - 1)) mod n) ltac:(apply Nat.mod_upper_bound; lia)).
        apply ring_open in P; [|apply Nat.mod_upper_bound; lia]. rewrite pos_mod in P by lia. lia.
      * exfalso. specialize (P f Rf). apply ring_open in P; auto. rewrite pos_self in P. lia.
    + exfalso. specialize (P f Rf). apply ring_open in P; auto. rewrite pos_self in P. lia.
Qed.

(** Noticing a page state that was read from flash. *)
Lemma calc_obs kk p s : calc_coh stf kk -> p < n -> stf p = Some s -> calc_get kk p = None ->
  exists kk', calc_notice kk p s = Some kk' /\ calc_coh stf kk' /\
    (s = PartialOpen -> calc_get kk' p = Some PartialOpen) /\
    (forall q, q < n -> calc_get kk q = Some PartialOpen ->
       calc_get kk' q = Some PartialOpen /\ calc_get kk' p = Some s).
Proof.
  intros C P S G. pose proof R as (Rf & Rn & Rb & Rbad & Rs).
  destruct (coh_anchor _ _ C) as [PC AN]. pose proof C as [_ C']. unfold calc_notice. rewrite G.
  rewrite calc_get_eq in G by auto.
  assert (KQ : forall q, q < n -> calc_get kk q = Some PartialOpen -> k_anchor kk = Some q /\ k_partial kk = true).
  { intros q Q. rewrite calc_get_eq by auto. destruct (k_anchor kk) as [a|]; [|discriminate].
    destruct (Nat.eqb_spec a q); [subst; destruct (k_partial kk); [auto|discriminate]|]. pb; discriminate. }
  destruct s.
  - (* Closed *)
    destruct (k_guess kk) eqn:Eg.
    + exists kk. split; auto. split; auto. split; [discriminate|]. intros q Q1 Q2.
      destruct (KQ q Q1 Q2) as [E1 E2]. rewrite E1 in C'. destruct C' as (_&_&_&_&_&X&_). specialize (X eq_refl). destruct X; congruence.
    + destruct (k_anchor kk) as [a|] eqn:Ea.
      2:{ destruct C' as (_ & X & _). congruence. }
      rewrite (calc_behind_eq kk a) by auto.
      set (kk' := mkcalc _ _ _ _ _ _). exists kk'. split; auto.
      destruct C' as (La & Lo & A & O & Cl & Gt & Gf).
      assert (YA : pos f a = c). { destruct (anchor_young kk a C Ea Eg) as [|(Z1 & Z2 & Z3)]; auto. apply ring_closed in S; auto. lia. }
      assert (C2 : calc_coh stf kk').
      { split; [exact PC|]. cbn [k_anchor k_open k_partial k_closed k_guess kk']. split; auto. split; auto. split; auto. split; auto.
        split; [|split; [congruence|auto]].
        intros q Q1 Q2 Q3. destruct (le_lt_dec (beh a q) (k_closed kk)); auto.
        apply ring_closed; auto. apply ring_closed in S; auto. unfold CalcP.pos, beh in *. clear - Q1 Q2 Q3 l S YA Rf La P Rn. pb; lia. }
      split; auto. split; [discriminate|]. intros q Q1 Q2. destruct (KQ q Q1 Q2) as [E1 E2]. injection E1 as ->.
      rewrite !calc_get_eq by (auto; cbn; auto). cbn [k_anchor k_open k_partial k_closed k_guess kk'].
      rewrite Nat.eqb_refl, E2. split; auto. destruct (Nat.eqb_spec q p); [discriminate|].
      destruct (pos q p <? k_open kk); [discriminate|]. pb; auto; lia.
  - (* PartialOpen *)
    set (kk' := mkcalc _ _ _ _ _ _). exists kk'. split; auto.
    assert (CZ : k_closed kk = 0 /\ k_anchor kk <> Some p).
    { destruct (k_anchor kk) as [a|] eqn:Ea; [|split; [tauto|discriminate]]. destruct C' as (La & Lo & A & O & Cl & Gt & Gf).
      split; [|destruct (Nat.eqb_spec a p); congruence].
      destruct (k_guess kk) eqn:Eg; [tauto|]. exfalso.
      apply ring_part in S; auto. destruct S as [Sb Sp].
      destruct (anchor_young kk a C Ea Eg) as [Y|Y]; [|lia].
      assert (a = p) by (apply (pos_inj f); auto; lia). subst. rewrite Nat.eqb_refl in G. discriminate. }
    destruct CZ as [CZ CA].
    assert (C2 : calc_coh stf kk').
    { split; [exact PC|]. cbn [k_anchor k_open k_partial k_closed k_guess kk']. split; auto. split; [lia|]. split; auto.
      split; [intros q Q1 Q2 Q3; exfalso; unfold CalcP.pos in Q3; pb; lia|].
      split; [intros q Q1 Q2 Q3; exfalso; unfold beh in Q3; pb; lia|]. split; [discriminate|auto]. }
    split; auto. split.
    + intros _. rewrite calc_get_eq by auto. cbn. now rewrite Nat.eqb_refl.
    + intros q Q1 Q2. destruct (KQ q Q1 Q2) as [E1 E2]. exfalso. rewrite E1 in C'. destruct C' as (La & Lo & A & _).
      rewrite E2 in A. apply ring_part in A; auto. apply ring_part in S; auto.
      assert (q = p) by (apply (pos_inj f); auto; lia). congruence.
  - (* Open *)
    destruct (k_anchor kk) as [a|] eqn:Ea.
    + destruct C' as (La & Lo & A & O & Cl & Gt & Gf).
      assert (Nap : a <> p) by (intros ->; rewrite Nat.eqb_refl in G; discriminate).
      destruct (Nat.eqb_spec a p); [contradiction|].
      destruct (Nat.ltb_spec (pos a p) (k_open kk)) as [|LO]; [discriminate|].
      destruct (k_guess kk) eqn:Eg.
      * destruct (Gt eq_refl) as [G1 G2].
        assert (NK : forall q, q < n -> calc_get kk q = Some PartialOpen -> False).
        { intros q Q1 Q2. destruct (KQ q Q1 Q2) as [_ E2]. congruence. }
        rewrite PC. destruct (Nat.eqb_spec p ((a + k_open kk) mod n)) as [Ep|Ep].
        -- set (kk' := mkcalc _ _ _ _ _ _). exists kk'. split; auto.
           assert (LO2 : k_open kk < n). { pose proof (pos_lt a p La P). lia. }
           split; [|split; [discriminate|intros q Q1 Q2; exfalso; eauto]].
           split; [reflexivity|]. cbn [k_anchor k_open k_partial k_closed k_guess kk']. split; auto. split; [lia|]. split; auto.
           split; [|split; [auto|split; [auto|discriminate]]].
           intros q Q1 Q2 Q3. destruct (Nat.eq_dec (pos a q) (k_open kk)) as [E|E].
           ++ assert (q = p) as ->; auto. rewrite Ep, <- E. symmetry. now apply mod_pos.
           ++ apply O; auto. lia.
        -- exists kk. split; auto. split; auto. split; [discriminate|]. intros q Q1 Q2. exfalso; eauto.
      * rewrite (calc_front_eq kk a) by auto.
        set (kk' := mkcalc _ _ _ _ _ _). exists kk'. split; auto. split.
        -- split; [exact PC|]. cbn [k_anchor k_open k_partial k_closed k_guess kk']. split; auto.
           pose proof (pos_lt a p La P). split; [lia|]. split; auto.
           split; [|split; [auto|split; [discriminate|auto]]].
           intros q Q1 Q2 Q3. apply ring_open; auto.
           destruct (anchor_young kk a C Ea Eg) as [Y|(Z1 & Z2 & Z3)].
           2:{ pose proof (pos_lt f q Rf Q1). lia. }
           apply ring_open in S; auto.
           assert (Ab : pos f a = c) by auto.
           destruct (le_lt_dec (k_open kk) (pos a q)).
           ++ destruct (k_partial kk) eqn:Epa.
              ** apply ring_part in A; auto. unfold CalcP.pos in *. clear - A S Q3 Q1 Q2 l P Rf La Rn Rb Lo Nap LO. pb; lia.
              ** apply ring_open in A; auto. unfold CalcP.pos in *. clear - A S Q3 Q1 Q2 l P Rf La Rn Rb Lo Nap LO Ab. pb; lia.
           ++ apply ring_open; auto.
        -- split; [discriminate|]. intros q Q1 Q2. destruct (KQ q Q1 Q2) as [E1 E2]. injection E1 as ->.
           rewrite !calc_get_eq by (auto; cbn; auto). cbn [k_anchor k_open k_partial k_closed k_guess kk'].
           rewrite Nat.eqb_refl, E2. split; auto. destruct (Nat.eqb_spec q p); [contradiction|].
           destruct (Nat.ltb_spec (pos q p) (Nat.max (k_open kk) (pos q p + 1))); auto. lia.
    + set (kk' := mkcalc _ _ _ _ _ _). exists kk'. split; auto. split.
      * split; [exact PC|]. cbn [k_anchor k_open k_partial k_closed k_guess kk']. split; auto. split; [lia|]. split; auto.
        split; [intros q Q1 Q2 Q3; exfalso; unfold CalcP.pos in Q3; pb; lia|].
        split; [intros q Q1 Q2 Q3; exfalso; unfold beh in Q3; pb; lia|]. split; auto; discriminate.
      * split; [discriminate|]. intros q Q1 Q2. destruct (KQ q Q1 Q2). discriminate.
Qed.
End Ring.

(** Open to partially open, at the youngest position. *)
Lemma calc_T1 stf f c k bad kk p : ringst stf f c 0 (S k) bad -> (1 <= c \/ (p = 0 /\ bad = 0)) -> p < n -> pos f p = c ->
  calc_coh stf kk ->
  exists kk', calc_notice kk p PartialOpen = Some kk' /\ calc_coh (upd stf p (Some PartialOpen)) kk' /\
    calc_get kk' p = Some PartialOpen.
Proof.
  intros R HB P Y C. pose proof R as (Rf & Rn & Rb & Rbad & Rs).
  destruct (coh_anchor _ _ C) as [PC AN]. pose proof C as [_ C']. unfold calc_notice.
  assert (Sp : stf p = Some Open) by (apply (ring_open _ _ _ _ _ _ R); auto; lia).
  assert (ALLOPEN : forall a, k_anchor kk = Some a -> a <> p -> c = 0 -> bad = 0 -> k_closed kk = 0).
  { intros a Ea Na -> ->. destruct HB as [|[-> _]]; [lia|]. rewrite Ea in C'. destruct C' as (La & Lo & A & O & Cl & Gt & Gf).
    destruct (Nat.eq_dec (k_closed kk) 0); auto. exfalso.
    assert (X : stf (a - 1) = Some Closed). { apply Cl; try lia. unfold beh. pb; lia. }
    apply (ring_closed _ _ _ _ _ _ R) in X; lia. }
  destruct (calc_get kk p) as [s|] eqn:G.
  - assert (s = Open) by (pose proof (calc_get_sound _ _ _ _ C P G); congruence). subst s.
    rewrite calc_get_eq in G by auto. destruct (k_anchor kk) as [a|] eqn:Ea; [|discriminate].
    destruct C' as (La & Lo & A & O & Cl & Gt & Gf).
    set (kk' := mkcalc _ _ _ _ _ _). exists kk'. split; auto. split.
    2:{ rewrite calc_get_eq by (auto; cbn; auto). cbn. now rewrite Nat.eqb_refl. }
    split; [exact PC|]. cbn [k_anchor k_open k_partial k_closed k_guess kk']. split; auto. split; auto.
    split; [apply upd_same|].
    assert (NP : k_partial kk = false). { destruct (k_partial kk); auto. apply (ring_part _ _ _ _ _ _ R) in A; auto. lia. }
    rewrite NP in A. apply (ring_open _ _ _ _ _ _ R) in A; auto.
    assert (CASE : a = p \/ (a <> p /\ c = 0 /\ bad = 0)).
    { destruct (Nat.eqb_spec a p) as [|N]; auto. right. split; auto.
      destruct (Nat.ltb_spec (pos a p) (k_open kk)) as [L|L]; [|destruct (beh a p <=? k_closed kk); discriminate].
      destruct (Nat.eq_dec c 0) as [Z|Z]; [split; auto; lia|]. exfalso.
      assert (Lp : prv p < n) by (unfold prv; destruct p; lia).
      assert (Sq : stf (prv p) = Some Closed).
      { apply (ring_closed _ _ _ _ _ _ R); auto. unfold prv, CalcP.pos in *. destruct p; pb; lia. }
      assert (X : stf (prv p) = Some Open).
      { destruct (Nat.eq_dec (prv p) a) as [E|E].
        - rewrite E. apply (ring_open _ _ _ _ _ _ R); auto.
        - apply O; auto. clear - L N Lp P La E. unfold prv, CalcP.pos in *. destruct p; pb; lia. }
      congruence. }
    split; [|split; [|split; [discriminate|auto]]].
    + intros q Q1 Q2 Q3. rewrite upd_other by auto. destruct CASE as [<-|(_ & -> & ->)]; auto.
      apply (ring_open _ _ _ _ _ _ R); auto. pose proof (pos_lt f q Rf Q1). lia.
    + intros q Q1 Q2 Q3. rewrite upd_other by auto. destruct CASE as [<-|(N & Z1 & Z2)]; auto.
      exfalso. rewrite (ALLOPEN a) in Q3 by auto. unfold beh in Q3. pb; lia.
  - set (kk' := mkcalc _ _ _ _ _ _). exists kk'. split; auto. split.
    2:{ rewrite calc_get_eq by (auto; cbn; auto). cbn. now rewrite Nat.eqb_refl. }
    split; [exact PC|]. cbn [k_anchor k_open k_partial k_closed k_guess kk']. split; auto. split; [lia|].
    split; [apply upd_same|].
    assert (CZ : k_closed kk = 0).
    { rewrite calc_get_eq in G by auto. destruct (k_anchor kk) as [a|] eqn:Ea; [|tauto].
      assert (a <> p) by (intros ->; rewrite Nat.eqb_refl in G; discriminate).
      destruct (k_guess kk) eqn:Eg; [tauto|].
      destruct (anchor_young _ _ _ _ _ _ R kk a C Ea Eg) as [X|(X1 & _ & X2)]; [|apply (ALLOPEN a); auto].
      exfalso. apply H. apply (pos_inj f); auto. lia. }
    rewrite CZ. split; [intros q Q1 Q2 Q3; exfalso; unfold CalcP.pos in Q3; pb; lia|].
    split; [intros q Q1 Q2 Q3; exfalso; unfold beh in Q3; pb; lia|]. split; [discriminate|auto].
Qed.

(** Partially open to closed, with the next page known to be open. *)
Lemma calc_T2 stf f c k bad kk p : ringst stf f c 1 (S k) bad -> p < n -> pos f p = c ->
  calc_coh stf kk -> calc_get kk p = Some PartialOpen -> calc_get kk (nxt p) = Some Open ->
  exists kk', calc_notice kk p Closed = Some kk' /\ calc_coh (upd stf p (Some Closed)) kk'.
Proof.
  intros R P Y C G1 G2. pose proof R as (Rf & Rn & Rb & Rbad & Rs).
  destruct (coh_anchor _ _ C) as [PC AN]. pose proof C as [_ C']. unfold calc_notice. rewrite G1.
  assert (Ln : nxt p < n) by (apply Nat.mod_upper_bound; lia).
  rewrite calc_get_eq in G1, G2 by auto.
  destruct (k_anchor kk) as [a|] eqn:Ea; [|discriminate].
  destruct C' as (La & Lo & A & O & Cl & Gt & Gf).
  assert (a = p). { destruct (Nat.eqb_spec a p); auto. destruct (pos a p <? k_open kk); [discriminate|]. destruct (beh a p <=? k_closed kk); discriminate. }
  subst a. rewrite Nat.eqb_refl in G1. assert (PA : k_partial kk = true) by (destruct (k_partial kk); [auto|discriminate]).
  assert (Nn : p <> nxt p). { intros E. rewrite <- E, Nat.eqb_refl, PA in G2. discriminate. }
  destruct (Nat.eqb_spec p (nxt p)); [contradiction|].
  rewrite (nxt_eq p P) in *.
  assert (O2 : 2 <= k_open kk).
  { destruct (Nat.ltb_spec (pos p (if p + 1 =? n then 0 else p + 1)) (k_open kk)) as [L|L].
    - unfold CalcP.pos in L. pb; lia.
    - destruct (beh _ _ <=? k_closed kk); discriminate. }
  destruct (k_open kk) as [|o] eqn:Eo; [lia|].
  rewrite PC. fold (nxt p). rewrite (nxt_eq p P).
  set (np := if p + 1 =? n then 0 else p + 1) in *.
  set (kk' := mkcalc _ _ _ _ _ _). exists kk'. split; auto.
  split; [reflexivity|]. cbn [k_anchor k_open k_partial k_closed k_guess kk']. split; auto. split; [lia|].
  assert (Onp : stf np = Some Open). { apply O; auto. unfold np, CalcP.pos. pb; lia. }
  split; [now rewrite upd_other by auto|].
  split; [|split; [|split]].
  - intros q Q1 Q2 Q3.
    assert (q <> p). { intros ->. unfold np, CalcP.pos in *. clear - Q3 Q2 Lo P. pb; lia. }
    rewrite upd_other by auto. apply O; auto. unfold np, CalcP.pos in *. clear - Q3 Q2 Q1 Lo P H. pb; lia.
  - intros q Q1 Q2 Q3. destruct (Nat.eq_dec q p) as [->|Nq]; [apply upd_same|]. rewrite upd_other by auto.
    apply Cl; auto. unfold np, beh in *. clear - Q3 Q2 Q1 Nq P. pb; lia.
  - intros X. destruct (Gt X). congruence.
  - intros _. right. left.
    assert (prv np = p). { unfold prv, np. clear - P. destruct (Nat.eqb_spec (p + 1) n); [lia|]. destruct (p + 1) eqn:E; lia. }
    rewrite H, upd_same. split; discriminate.
Qed.

(** The oldest closed page becomes open. *)
Lemma calc_T3 stf f c b k kk : ringst stf f (S c) b k 0 -> calc_coh stf kk ->
  exists kk', calc_notice kk f Open = Some kk' /\ calc_coh (upd stf f (Some Open)) kk' /\
    (forall q, q < n -> calc_get kk q = Some PartialOpen -> calc_get kk' q = Some PartialOpen /\ calc_get kk' f = Some Open).
Proof.
  intros R C. pose proof R as (Rf & Rn & Rb & Rbad & Rs).
  destruct (coh_anchor _ _ C) as [PC AN]. pose proof C as [_ C']. unfold calc_notice.
  assert (Sf : stf f = Some Closed) by (apply (ring_closed _ _ _ _ _ _ R); auto; rewrite pos_self; lia).
  assert (KQ : forall q, q < n -> calc_get kk q = Some PartialOpen -> k_anchor kk = Some q /\ k_partial kk = true).
  { intros q Q. rewrite calc_get_eq by auto. destruct (k_anchor kk) as [a|]; [|discriminate].
    destruct (Nat.eqb_spec a q); [subst; destruct (k_partial kk); [auto|discriminate]|]. pb; discriminate. }
  destruct (calc_get kk f) as [s|] eqn:G.
  - assert (s = Closed) by (pose proof (calc_get_sound _ _ _ _ C Rf G); congruence). subst s.
    rewrite calc_get_eq in G by auto. destruct (k_anchor kk) as [a|] eqn:Ea; [|discriminate].
    destruct C' as (La & Lo & A & O & Cl & Gt & Gf).
    rewrite (calc_front_eq kk a) by auto. cbn zeta.
    rewrite (calc_behind_eq _ a) by auto. cbn [k_pc k_closed].
    destruct (Nat.eqb_spec a f); [destruct (k_partial kk); discriminate|].
    destruct (Nat.ltb_spec (pos a f) (k_open kk)) as [|LO]; [discriminate|].
    destruct (Nat.leb_spec (beh a f) (k_closed kk)) as [LC|]; [|discriminate].
    assert (Eg : k_guess kk = false). { destruct (k_guess kk); auto. destruct (Gt eq_refl) as [_ Z]. unfold beh in LC. pb; lia. }
    assert (YA : pos f a = S c). { destruct (anchor_young _ _ _ _ _ _ R kk a C Ea Eg) as [|(X & _)]; [auto|lia]. }
    set (kk' := mkcalc _ _ _ _ _ _). exists kk'. split; auto. split.
    + split; [exact PC|]. cbn [k_anchor k_open k_partial k_closed k_guess kk']. split; auto.
      pose proof (pos_lt a f La Rf). split; [lia|]. rewrite upd_other by auto. split; auto. split; [|split; [|split]].
      * intros q Q1 Q2 Q3. destruct (Nat.eq_dec q f) as [->|Nq]; [apply upd_same|]. rewrite upd_other by auto.
        apply (ring_open _ _ _ _ _ _ R); auto.
        destruct (k_partial kk) eqn:PA.
        -- apply (ring_part _ _ _ _ _ _ R) in A; auto. unfold CalcP.pos in *. clear - A Q3 Q1 Q2 Nq Rf La Rn LO YA. pb; lia.
        -- apply (ring_open _ _ _ _ _ _ R) in A; auto. unfold CalcP.pos in *. clear - A Q3 Q1 Q2 Nq Rf La Rn LO YA. pb; lia.
      * intros q Q1 Q2 Q3. rewrite PC in Q3. fold (nxt f) in Q3. rewrite (nxt_eq f Rf) in Q3.
        assert (Nq : q <> f). { intros ->. unfold beh, CalcP.pos in *. clear - Q3 La YA Rf n0. pb; lia. }
        rewrite upd_other by auto. apply Cl; auto. lia.
      * congruence.
      * intros _. destruct (k_partial kk) eqn:PA; auto. right. destruct (Gf Eg) as [X|[[X1 X2]|X]]; [discriminate| |].
        -- destruct (Nat.eq_dec (prv a) f) as [E|E].
           ++ right. intros q Q. destruct (Nat.eq_dec q f) as [->|Nq]; [apply upd_same|]. rewrite upd_other by auto.
              apply (ring_open _ _ _ _ _ _ R); auto. apply (ring_open _ _ _ _ _ _ R) in A; auto.
              unfold prv, CalcP.pos in *. clear - A E Nq Q Rf La Rn YA n0. destruct a; pb; lia.
           ++ left. rewrite upd_other by auto. auto.
        -- specialize (X f Rf). congruence.
    + intros q Q1 Q2. destruct (KQ q Q1 Q2) as [E1 E2]. injection E1 as ->.
      rewrite !calc_get_eq by (auto; cbn; auto). cbn [k_anchor k_open k_partial k_closed k_guess kk'].
      rewrite Nat.eqb_refl, E2. split; auto. destruct (Nat.eqb_spec q f); [contradiction|].
      destruct (Nat.ltb_spec (pos q f) (Nat.max (k_open kk) (pos q f + 1))); auto. lia.
  - rewrite calc_get_eq in G by auto. destruct (k_anchor kk) as [a|] eqn:Ea.
    2:{ set (kk' := mkcalc _ _ _ _ _ _). exists kk'. split; auto. split.
        - split; [exact PC|]. cbn [k_anchor k_open k_partial k_closed k_guess kk']. split; auto. split; [lia|].
          split; [apply upd_same|].
          split; [intros q Q1 Q2 Q3; exfalso; unfold CalcP.pos in Q3; pb; lia|].
          split; [intros q Q1 Q2 Q3; exfalso; unfold beh in Q3; pb; lia|]. split; auto; discriminate.
        - intros q Q1 Q2. destruct (KQ q Q1 Q2). discriminate. }
    destruct C' as (La & Lo & A & O & Cl & Gt & Gf).
    assert (Naf : a <> f) by (intros ->; rewrite Nat.eqb_refl in G; discriminate).
    destruct (Nat.eqb_spec a f); [contradiction|].
    destruct (Nat.ltb_spec (pos a f) (k_open kk)) as [|LO]; [discriminate|].
    destruct (Nat.leb_spec (beh a f) (k_closed kk)) as [|LC]; [discriminate|].
    destruct (k_guess kk) eqn:Eg.
    + destruct (Gt eq_refl) as [G1 G2].
      assert (NK : forall q, q < n -> calc_get kk q = Some PartialOpen -> False).
      { intros q Q1 Q2. destruct (KQ q Q1 Q2) as [_ E2]. congruence. }
      rewrite PC. destruct (Nat.eqb_spec f ((a + k_open kk) mod n)) as [Ep|Ep].
      * set (kk' := mkcalc _ _ _ _ _ _). exists kk'. split; auto.
        pose proof (pos_lt a f La Rf). split; [|intros q Q1 Q2; exfalso; eauto].
        split; [reflexivity|]. cbn [k_anchor k_open k_partial k_closed k_guess kk']. split; auto. split; [lia|].
        rewrite upd_other by auto. split; auto.
        split; [|split; [|split; [auto|discriminate]]].
        -- intros q Q1 Q2 Q3. destruct (Nat.eq_dec q f) as [->|Nq]; [apply upd_same|]. rewrite upd_other by auto.
           apply O; auto. destruct (Nat.eq_dec (pos a q) (k_open kk)) as [E|E]; [|lia].
           exfalso. apply Nq. rewrite Ep, <- E. symmetry. now apply mod_pos.
        -- intros q Q1 Q2 Q3. rewrite G2 in Q3. exfalso. unfold beh in Q3; pb; lia.
      * exists kk. split; auto. split; [|intros q Q1 Q2; exfalso; eauto].
        split; [exact PC|]. rewrite Ea. split; auto. split; auto. rewrite upd_other by auto. split; auto.
        split; [|split; [|split; [auto|congruence]]].
        -- intros q Q1 Q2 Q3. rewrite upd_other; auto. intros ->. lia.
        -- intros q Q1 Q2 Q3. rewrite G2 in Q3. exfalso. unfold beh in Q3; pb; lia.
    + rewrite (calc_front_eq kk a) by auto.
      assert (YA : pos f a = S c). { destruct (anchor_young _ _ _ _ _ _ R kk a C Ea Eg) as [|(X & _)]; [auto|lia]. }
      set (kk' := mkcalc _ _ _ _ _ _). exists kk'. split; auto. split.
      * split; [exact PC|]. cbn [k_anchor k_open k_partial k_closed k_guess kk']. split; auto.
        pose proof (pos_lt a f La Rf). split; [lia|]. rewrite upd_other by auto. split; auto. split; [|split; [|split]].
        -- intros q Q1 Q2 Q3. destruct (Nat.eq_dec q f) as [->|Nq]; [apply upd_same|]. rewrite upd_other by auto.
           apply (ring_open _ _ _ _ _ _ R); auto.
           destruct (k_partial kk) eqn:PA.
           ++ apply (ring_part _ _ _ _ _ _ R) in A; auto. unfold CalcP.pos in *. clear - A Q3 Q1 Q2 Nq Rf La Rn LO YA. pb; lia.
           ++ apply (ring_open _ _ _ _ _ _ R) in A; auto. unfold CalcP.pos in *. clear - A Q3 Q1 Q2 Nq Rf La Rn LO YA. pb; lia.
        -- intros q Q1 Q2 Q3. rewrite upd_other; auto. intros ->. lia.
        -- discriminate.
        -- intros _. destruct (k_partial kk) eqn:PA; auto. right. destruct (Gf eq_refl) as [X|[[X1 X2]|X]]; [discriminate| |].
           ++ destruct (Nat.eq_dec (prv a) f) as [E|E].
              ** right. intros q Q. destruct (Nat.eq_dec q f) as [->|Nq]; [apply upd_same|]. rewrite upd_other by auto.
                 apply (ring_open _ _ _ _ _ _ R); auto. apply (ring_open _ _ _ _ _ _ R) in A; auto.
                 unfold prv, CalcP.pos in *. clear - A E Nq Q Rf La Rn YA n0. destruct a; pb; lia.
              ** left. rewrite upd_other by auto. auto.
           ++ specialize (X f Rf). congruence.
      * intros q Q1 Q2. destruct (KQ q Q1 Q2) as [E1 E2]. injection E1 as ->.
        rewrite !calc_get_eq by (auto; cbn; auto). cbn [k_anchor k_open k_partial k_closed k_guess kk'].
        rewrite Nat.eqb_refl, E2. split; auto. destruct (Nat.eqb_spec q f); [contradiction|].
        destruct (Nat.ltb_spec (pos q f) (Nat.max (k_open kk) (pos q f + 1))); auto. lia.
Qed.

(** The partially open page becomes open again (it is erased in place). *)
Lemma calc_T5 stf f c k kk p : ringst stf f c 1 k 0 -> p < n -> stf p = Some PartialOpen -> calc_coh stf kk ->
  calc_get kk p = Some PartialOpen ->
  exists kk', calc_notice kk p Open = Some kk' /\ calc_coh (upd stf p (Some Open)) kk'.
Proof.
  intros R P S C G. pose proof R as (Rf & Rn & Rb & Rbad & Rs).
  destruct (coh_anchor _ _ C) as [PC AN]. pose proof C as [_ C']. unfold calc_notice. rewrite G.
  rewrite calc_get_eq in G by auto. destruct (k_anchor kk) as [a|] eqn:Ea; [|discriminate].
  assert (a = p). { destruct (Nat.eqb_spec a p); auto. destruct (pos a p <? k_open kk); [discriminate|]. destruct (beh a p <=? k_closed kk); discriminate. }
  subst a. destruct C' as (La & Lo & A & O & Cl & Gt & Gf).
  rewrite Nat.eqb_refl in G. assert (PA : k_partial kk = true) by (destruct (k_partial kk); [auto|discriminate]).
  set (kk' := mkcalc _ _ _ _ _ _). exists kk'. split; auto.
  split; [exact PC|]. cbn [k_anchor k_open k_partial k_closed k_guess kk']. split; auto. split; auto.
  split; [apply upd_same|]. split; [|split; [|split]].
  - intros q Q1 Q2 Q3. rewrite upd_other; auto.
  - intros q Q1 Q2 Q3. rewrite upd_other; auto.
  - intros X. destruct (Gt X). congruence.
  - intros _. right. apply (ring_part _ _ _ _ _ _ R) in S; auto. destruct S as [_ S].
    assert (Lp : prv p < n) by (unfold prv; destruct p; lia).
    destruct (Nat.eq_dec c 0) as [->|Nc].
    + right. intros q Q. destruct (Nat.eq_dec q p) as [->|Nq]; [apply upd_same|]. rewrite upd_other by auto.
      apply (ring_open _ _ _ _ _ _ R); auto. pose proof (pos_lt f q Rf Q).
      assert (pos f q <> pos f p) by (intros X; apply Nq; apply (pos_inj f); auto). lia.
    + left. assert (X : stf (prv p) = Some Closed).
      { apply (ring_closed _ _ _ _ _ _ R); auto. unfold prv, CalcP.pos in *. destruct p; pb; lia. }
      assert (prv p <> p) by (intros E; rewrite E in X; congruence).
      rewrite upd_other by auto. rewrite X. split; discriminate.
Qed.

(** Half-erased pages are erased by the repair, which starts from an empty cache: only guesses so far. *)
Definition calc_guessing (k : calc) : Prop := k_guess k = true.
Lemma calc_T4 stf kk p : p < n -> stf p = None -> calc_coh stf kk -> calc_guessing kk ->
  exists kk', calc_notice kk p Open = Some kk' /\ calc_coh (upd stf p (Some Open)) kk' /\ calc_guessing kk'.
Proof.
  intros P S C Eg. unfold calc_guessing in *. destruct (coh_anchor _ _ C) as [PC AN]. pose proof C as [_ C']. unfold calc_notice.
  destruct (calc_get kk p) as [s|] eqn:G. { pose proof (calc_get_sound _ _ _ _ C P G). congruence. }
  rewrite calc_get_eq in G by auto. destruct (k_anchor kk) as [a|] eqn:Ea.
  - destruct C' as (La & Lo & A & O & Cl & Gt & Gf). rewrite Eg. destruct (Gt Eg) as [G1 G2].
    assert (Nap : a <> p) by (intros ->; rewrite Nat.eqb_refl in G; discriminate).
    destruct (Nat.eqb_spec a p); [contradiction|].
    destruct (Nat.ltb_spec (pos a p) (k_open kk)) as [|LO]; [discriminate|].
    rewrite PC. destruct (Nat.eqb_spec p ((a + k_open kk) mod n)) as [Ep|Ep].
    + set (kk' := mkcalc _ _ _ _ _ _). exists kk'. split; auto. split; auto.
      pose proof (pos_lt a p La P).
      split; [reflexivity|]. cbn [k_anchor k_open k_partial k_closed k_guess kk']. split; auto. split; [lia|].
      rewrite upd_other by auto. split; auto.
      split; [|split; [|split; [auto|congruence]]].
      * intros q Q1 Q2 Q3. destruct (Nat.eq_dec q p) as [->|Nq]; [apply upd_same|]. rewrite upd_other by auto.
        apply O; auto. destruct (Nat.eq_dec (pos a q) (k_open kk)) as [E|E]; [|lia].
        exfalso. apply Nq. rewrite Ep, <- E. symmetry. now apply mod_pos.
      * intros q Q1 Q2 Q3. rewrite G2 in Q3. exfalso. unfold beh in Q3; pb; lia.
    + exists kk. split; auto. split; auto.
      split; [exact PC|]. rewrite Ea. split; auto. split; auto. rewrite upd_other by auto. split; auto.
      split; [|split; [|split; [auto|congruence]]].
      * intros q Q1 Q2 Q3. rewrite upd_other; auto. intros ->. lia.
      * intros q Q1 Q2 Q3. rewrite G2 in Q3. exfalso. unfold beh in Q3; pb; lia.
  - set (kk' := mkcalc _ _ _ _ _ _). exists kk'. split; auto. split; auto.
    split; [exact PC|]. cbn [k_anchor k_open k_partial k_closed k_guess kk']. split; auto. split; [lia|].
    split; [apply upd_same|].
    split; [intros q Q1 Q2 Q3; exfalso; unfold CalcP.pos in Q3; pb; lia|].
    split; [intros q Q1 Q2 Q3; exfalso; unfold beh in Q3; pb; lia|]. split; auto; discriminate.
Qed.
End Calc.
