(** The calculated page-state cache over whole histories of page states. *)
From Coq Require Import List NArith ZArith Arith Bool Lia ZifyBool ZifyNat ZifyN.
From Verif Require Import Base BaseP Flash Cache CalcP.
Import ListNotations.

(** * Specification: how the states of the pages evolve.  [None] is a half-erased page. *)
Inductive pev :=
| VLook (p : nat)      (** the state of page [p] is asked for *)
| VUse (p : nat)       (** an open page gets its start marker *)
| VClose (p : nat)     (** the partially open page gets its end marker *)
| VErase (p : nat)     (** the oldest closed page is erased *)
| VReopen (p : nat)    (** the partially open page is erased *)
| VTear (p : nat)      (** erasing the oldest closed page is cut by a power failure *)
| VRepair (p : nat)    (** the half-erased page is erased *)
| VReset.              (** the cache is emptied *)

(** Pages [f], [f+1], ... around the ring of [n]: [c] closed ones, then [b] (at most one) partially open, then [k] open, then [bad]
    (at most one) half-erased. *)
Definition shape (n : nat) (stf : nat -> option pstate) (f c b k bad : nat) : Prop :=
  f < n /\ c + b + k + bad = n /\ b <= 1 /\ bad <= 1 /\
  forall i, i < n -> stf ((f + i) mod n) = if i <? c then Some Closed else if i <? c + b then Some PartialOpen else if i <? c + b + k then Some Open else None.
Definition turn {A} (f : nat -> A) (p : nat) (x : A) : nat -> A := fun q => if q =? p then x else f q.
(** Legal changes: the page after the youngest closed page is used next (page 0 of an empty storage), the page after the partially open
    one must be open when that is closed, the oldest closed page is erased first. *)
Inductive vstep (n : nat) : (nat -> option pstate) -> pev -> (nat -> option pstate) -> Prop :=
| VSLook stf p : p < n -> vstep n stf (VLook p) stf
| VSUse stf f c k bad i : shape n stf f c 0 (S k) bad -> i = (f + c) mod n -> 1 <= c \/ (i = 0 /\ bad = 0) -> vstep n stf (VUse i) (turn stf i (Some PartialOpen))
| VSClose stf f c k bad i : shape n stf f c 1 (S k) bad -> i = (f + c) mod n -> vstep n stf (VClose i) (turn stf i (Some Closed))
| VSErase stf f c b k : shape n stf f (S c) b k 0 -> vstep n stf (VErase f) (turn stf f (Some Open))
| VSReopen stf f c k i : shape n stf f c 1 k 0 -> i = (f + c) mod n -> vstep n stf (VReopen i) (turn stf i (Some Open))
| VSTear stf f c b k : shape n stf f (S c) b k 0 -> vstep n stf (VTear f) (turn stf f None)
| VSRepair stf p : p < n -> stf p = None -> vstep n stf (VRepair p) (turn stf p (Some Open))
| VSReset stf : vstep n stf VReset stf.

(** * What the storage does with its cache at these events.  [None]: a panic. *)
(** A look: the cache is asked; if it does not know, the true state is read and noticed (a half-erased page is an error, nothing is noticed). *)
Definition c_look (stf : nat -> option pstate) (c : calc) (p : nat) : option calc :=
  match calc_get c p with
  | Some _ => Some c
  | None => match stf p with Some s => calc_notice c p s | None => Some c end
  end.
Definition obind {A B} (x : option A) (f : A -> option B) : option B := match x with Some a => f a | None => None end.
Definition c_event (n : nat) (stf : nat -> option pstate) (c : calc) (e : pev) : option calc :=
  match e with
  | VLook p => c_look stf c p
  | VUse p => calc_notice c p PartialOpen
  | VClose p => obind (c_look stf c p) (fun c => obind (c_look stf c ((p + 1) mod n)) (fun c => calc_notice c p Closed))
  | VErase p => calc_notice c p Open
  | VReopen p => obind (c_look stf c p) (fun c => calc_notice c p Open)
  | VTear _ => Some (calc_new n)
  | VRepair p => calc_notice (calc_new n) p Open
  | VReset => Some (calc_new n)
  end.
(** A history of page states, with the cache alongside. *)
Inductive vrun (n : nat) : (nat -> option pstate) -> option calc -> list pev -> (nat -> option pstate) -> option calc -> Prop :=
| VRNil stf c : vrun n stf c [] stf c
| VRCons stf c e stf1 evs stf2 c2 : vstep n stf e stf1 -> vrun n stf1 (obind c (fun c => c_event n stf c e)) evs stf2 c2 -> vrun n stf c (e :: evs) stf2 c2.

(** * Proof *)
Section Hist.
Context (n : nat) (npos : 1 <= n).

Lemma shape_ring stf f c b k bad : shape n stf f c b k bad <-> ringst n stf f c b k bad.
Proof.
  unfold shape, ringst. split; intros (F & T & B1 & B2 & H); repeat split; auto.
  - intros p P. rewrite <- (mod_pos n npos f p F P) at 1. rewrite H by (apply pos_lt; auto). reflexivity.
  - intros i I. rewrite H by (apply Nat.mod_upper_bound; lia). rewrite pos_mod by auto. reflexivity.
Qed.
(** What can be seen of the ring. *)
Definition rings (stf : nat -> option pstate) : Prop := exists f c b k bad, ringst n stf f c b k bad.
Lemma look_ok stf c p : rings stf -> calc_coh n stf c -> p < n ->
  exists c', c_look stf c p = Some c' /\ calc_coh n stf c' /\
    (stf p = Some PartialOpen -> calc_get c' p = Some PartialOpen) /\
    (forall q, q < n -> calc_get c q = Some PartialOpen -> calc_get c' q = Some PartialOpen /\ (forall s, stf p = Some s -> calc_get c' p = Some s)).
Proof.
  intros (f & cl & b & k & bad & R) CO P. unfold c_look. destruct (calc_get c p) as [s|] eqn:G.
  - exists c. pose proof (calc_get_sound n npos stf c p s CO P G) as ST. split; [reflexivity|]. split; auto. split; [congruence|]. intros q Q GQ. split; auto. congruence.
  - destruct (stf p) as [s|] eqn:ST.
    + destruct (calc_obs n npos stf f cl b k bad R c p s CO P ST G) as (c' & E & CO' & H1 & H2). exists c'. split; auto. split; auto. split; [intros X; injection X as X; auto|].
      intros q Q GQ. destruct (H2 q Q GQ). split; auto. intros s' X. injection X as <-. auto.
    + exists c. split; [reflexivity|]. split; auto. split; [discriminate|]. intros q Q GQ. split; auto. discriminate.
Qed.
Lemma turn_upd {A} (f : nat -> A) p x : turn f p x = upd f p x.
Proof. reflexivity. Qed.

Ltac pb := repeat match goal with
  | |- context [?a =? ?b] => destruct (Nat.eqb_spec a b)
  | |- context [?a <? ?b] => destruct (Nat.ltb_spec a b)
  | |- context [?a <=? ?b] => destruct (Nat.leb_spec a b)
  | H : context [?a <=? ?b] |- _ => destruct (Nat.leb_spec a b)
  end.
Lemma ring_at stf f c b k bad i j s c' b' k' bad' : ringst n stf f c b k bad -> i < n -> j = pos n f i -> c' + b' + k' + bad' = n -> b' <= 1 -> bad' <= 1 ->
  (forall x, x < n -> cls c' b' k' x = if x =? j then s else cls c b k x) -> ringst n (turn stf i s) f c' b' k' bad'.
Proof.
  intros (F & T & B1 & B2 & H) I J T' B1' B2' X. split; auto. split; auto. split; auto. split; auto. intros p P. unfold turn. rewrite X by (apply pos_lt; auto).
  destruct (Nat.eqb_spec p i) as [->|NE]; [now rewrite <- J, Nat.eqb_refl|]. destruct (Nat.eqb_spec (pos n f p) j) as [E|_]; [|auto].
  exfalso. apply NE. subst j. apply (pos_inj n npos f); auto.
Qed.
Lemma ring_turn stf f c b k s k' bad' : ringst n stf f (S c) b k 0 -> k' + bad' = S k -> (s = Some Open /\ bad' = 0 \/ s = None /\ bad' = 1) ->
  ringst n (turn stf f s) (nxt n f) c b k' bad'.
Proof.
  intros (F & T & B1 & B2 & H) K S. rewrite nxt_eq by auto.
  split; [pb; lia|]. split; [lia|]. split; auto. split; [lia|]. intros p P. unfold turn. rewrite (H p P).
  unfold cls, pos. destruct S as [[-> ->]|[-> ->]]; pb; try lia; auto.
Qed.
Lemma vstep_ok stf e stf' c : rings stf -> calc_coh n stf c -> vstep n stf e stf' ->
  exists c', c_event n stf c e = Some c' /\ calc_coh n stf' c' /\ rings stf'.
Proof.
  intros RI CO V. inversion V as [? p P|? f cl k bad i S I C1|? f cl k bad i S I|? f cl b k S|? f cl k i S I|? f cl b k S|? p P N|?]; subst; cbn [c_event].
  - destruct (look_ok stf' c p RI CO P) as (c' & E & CO' & _). eauto.
  - apply shape_ring in S. pose proof S as (F & T & _). set (i := (f + cl) mod n) in *. assert (I : i < n) by (apply Nat.mod_upper_bound; lia).
    assert (PI : pos n f i = cl) by (apply pos_mod; lia).
    destruct (calc_T1 n npos stf f cl k bad c i S C1 I PI CO) as (c' & E & CO' & _). exists c'. split; auto. split; auto.
    exists f, cl, 1, k, bad. eapply ring_at; eauto; try lia. { apply S. } intros x X. unfold cls. pb; auto; lia.
  - apply shape_ring in S. pose proof S as (F & T & _). set (i := (f + cl) mod n) in *. assert (I : i < n) by (apply Nat.mod_upper_bound; lia).
    assert (PI : pos n f i = cl) by (apply pos_mod; lia). assert (NI : (i + 1) mod n < n) by (apply Nat.mod_upper_bound; lia).
    assert (SI : stf i = Some PartialOpen). { apply (ring_part n npos stf f cl 1 (Datatypes.S k) bad S); auto. }
    assert (SN : stf ((i + 1) mod n) = Some Open).
    { change ((i + 1) mod n) with (nxt n i). apply (ring_open n npos stf f cl 1 (Datatypes.S k) bad S); auto. unfold nxt, i. rewrite Nat.add_mod_idemp_l by lia.
      rewrite <- Nat.add_assoc. rewrite pos_mod by lia. lia. }
    destruct (look_ok stf c i RI CO I) as (c1 & E1 & CO1 & G1 & _). rewrite E1. cbn [obind]. destruct (look_ok stf c1 _ RI CO1 NI) as (c2 & E2 & CO2 & _ & G2). rewrite E2. cbn [obind].
    destruct (G2 i I (G1 SI)) as [G3 G4].
    destruct (calc_T2 n npos stf f cl k bad c2 i S I PI CO2 G3 (G4 _ SN)) as (c' & E & CO'). exists c'. split; auto. split; auto.
    exists f, (Datatypes.S cl), 0, (Datatypes.S k), bad. eapply ring_at; eauto; try lia. { apply S. } intros x X. unfold cls. pb; auto; lia.
  - apply shape_ring in S. destruct (calc_T3 n npos stf f cl b k c S CO) as (c' & E & CO' & _). exists c'. split; auto. split; auto.
    exists (nxt n f), cl, b, (Datatypes.S k), 0. eapply ring_turn; eauto.
  - apply shape_ring in S. pose proof S as (F & T & _). set (i := (f + cl) mod n) in *. assert (I : i < n) by (apply Nat.mod_upper_bound; lia).
    assert (PI : pos n f i = cl) by (apply pos_mod; lia). assert (SI : stf i = Some PartialOpen). { apply (ring_part n npos stf f cl 1 k 0 S); auto. }
    destruct (look_ok stf c i RI CO I) as (c1 & E1 & CO1 & G1 & _). rewrite E1. cbn [obind].
    destruct (calc_T5 n npos stf f cl k c1 i S I SI CO1 (G1 SI)) as (c' & E & CO'). exists c'. split; auto. split; auto.
    exists f, cl, 0, (Datatypes.S k), 0. eapply ring_at; eauto; try lia. intros x X. unfold cls. pb; auto; lia.
  - apply shape_ring in S. exists (calc_new n). split; auto. split; [apply calc_new_coh|]. exists (nxt n f), cl, b, k, 1. eapply ring_turn; eauto. lia.
  - destruct RI as (f & cl & b & k & bad & R). destruct (calc_T4 n npos stf (calc_new n) p P N (calc_new_coh n stf) eq_refl) as (c' & E & CO' & _). exists c'. split; auto. split; auto.
    pose proof (proj1 (ring_bad n npos stf f cl b k bad R p P) N) as PB. pose proof R as (F & T & B1 & B2 & _). pose proof (pos_lt n npos f p F P) as PL.
    exists f, cl, b, (k + 1), 0. eapply ring_at; eauto; try lia. intros x X. unfold cls. pb; auto; lia.
  - exists (calc_new n). split; auto. split; [apply calc_new_coh|auto].
Qed.
Lemma vrun_ok stf c evs stf' c' : vrun n stf c evs stf' c' -> rings stf -> (exists k, c = Some k /\ calc_coh n stf k) -> exists k', c' = Some k' /\ calc_coh n stf' k'.
Proof.
  intros V. induction V as [|? ? ? ? ? ? ? S V IH]; intros RI (k & -> & CO); eauto. cbn [obind] in *.
  destruct (vstep_ok _ _ _ _ RI CO S) as (k1 & E & CO1 & RI1). rewrite E in IH. eauto.
Qed.
Lemma calc_history evs stf c : vrun n (fun _ => Some Open) (Some (calc_new n)) evs stf c ->
  exists k, c = Some k /\ forall p, p < n -> calc_get k p = None \/ calc_get k p = stf p.
Proof.
  intros V. destruct (vrun_ok _ _ _ _ _ V) as (k & E & CO).
  - exists 0, 0, 0, n, 0. repeat split; auto; try lia. intros p P. unfold cls, pos. pb; auto; lia.
  - exists (calc_new n). split; auto. apply calc_new_coh.
  - exists k. split; auto. intros p P. destruct (calc_get k p) as [s|] eqn:G; auto. right. symmetry. eapply calc_get_sound; eauto.
Qed.
End Hist.
