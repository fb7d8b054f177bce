(** Layouts of the page ring and the page searches on them. *)
From Coq Require Import List NArith ZArith Arith Bool Lia ZifyBool ZifyNat ZifyN.
From Verif Require Import Base BaseP Crc CrcP Flash Cache State Item Generic GeomP ScanP WpP ItemP CalcP PageP WorldP.
Import ListNotations.
Local Opaque crc16 acrc crc32.

Lemma list_set_app {A} (a : list A) x b y : list_set (a ++ x :: b) (length a) y = a ++ y :: b.
Proof. induction a; cbn; auto. now rewrite IHa. Qed.
Lemma nth_list_set {A} (l : list A) i j x d : nth j (list_set l i x) d = if (j =? i) && (i <? length l) then x else nth j l d.
Proof.
  rewrite !nth_nth_default || idtac. revert i j. induction l as [|a l IH]; intros [|i] [|j]; cbn [list_set nth]; auto.
  - cbn [length]. now rewrite andb_false_r.
  - rewrite IH. cbn [length]. reflexivity.
Qed.
Lemma nth_repeat' {A} (x : A) n i d : nth i (repeat x n) d = if i <? n then x else d.
Proof. revert i. induction n; intros [|i]; cbn [repeat nth]; auto. rewrite IHn. destruct (Nat.ltb_spec i n), (Nat.ltb_spec (S i) (S n)); auto; lia. Qed.

(** Pages listed from [f] around the ring. *)
Definition lay0 (n f : nat) (l : list page) (pg : nat -> page) : Prop :=
  f < n /\ length l = n /\ forall i, i < n -> pg ((f + i) mod n) = nth i l POpen.

Lemma lay0_pos n f l pg p : 1 <= n -> lay0 n f l pg -> p < n -> pg p = nth (pos n f p) l POpen.
Proof.
  intros N (Hf & L & H) Hp. rewrite <- H by (apply pos_lt; auto). f_equal. symmetry. apply mod_pos; auto.
Qed.
Lemma lay0_upd n f l pg i x : 1 <= n -> lay0 n f l pg -> i < n -> lay0 n f (list_set l i x) (upd pg ((f + i) mod n) x).
Proof.
  intros N (Hf & L & H) Hi. split; auto. rewrite list_set_length. split; auto. intros j Hj. rewrite nth_list_set.
  assert (i <? length l = true) as -> by (apply Nat.ltb_lt; lia). rewrite andb_true_r. unfold upd.
  destruct (Nat.eqb_spec j i) as [->|NE].
  - now rewrite Nat.eqb_refl.
  - destruct (Nat.eqb_spec ((f + j) mod n) ((f + i) mod n)) as [E|_]; [|auto]. exfalso. apply NE.
    rewrite <- (pos_mod n N f j Hf Hj), <- (pos_mod n N f i Hf Hi). now rewrite E.
Qed.
Lemma lay0_rot n f x l pg : 1 <= n -> lay0 n f (x :: l) pg -> lay0 n ((f + 1) mod n) (l ++ [x]) pg.
Proof.
  intros N (Hf & L & H). split; [apply Nat.mod_upper_bound; lia|]. rewrite app_length. cbn in *. split; [lia|].
  intros i Hi. rewrite Nat.add_mod_idemp_l by lia. destruct (Nat.eq_dec i (n - 1)) as [->|NE].
  - replace (f + 1 + (n - 1)) with (f + 0 + 1 * n) by lia. rewrite Nat.mod_add by lia. rewrite H by lia.
    rewrite app_nth2 by lia. replace (n - 1 - length l) with 0 by lia. reflexivity.
  - replace (f + 1 + i) with (f + S i) by lia. rewrite H by lia. cbn. now rewrite app_nth1 by lia.
Qed.
Lemma lay0_ext n f l pg pg' : (forall p, p < n -> pg p = pg' p) -> lay0 n f l pg -> lay0 n f l pg'.
Proof.
  intros X (Hf & L & H). split; auto. split; auto. intros i Hi. rewrite <- X; auto. apply Nat.mod_upper_bound. lia.
Qed.
Lemma lay0_upd_app n f a x b y pg : 1 <= n -> lay0 n f (a ++ x :: b) pg ->
  lay0 n f (a ++ y :: b) (upd pg ((f + length a) mod n) y).
Proof.
  intros N L. rewrite <- (list_set_app a x b y). apply lay0_upd; auto. destruct L as (_ & L & _).
  rewrite app_length in L. cbn in L. lia.
Qed.
Lemma lay0_at n f a x b pg : lay0 n f (a ++ x :: b) pg -> pg ((f + length a) mod n) = x.
Proof.
  intros (_ & L & H). rewrite app_length in L. cbn in L. rewrite H by lia. rewrite app_nth2, Nat.sub_diag by lia. reflexivity.
Qed.

(** Closed pages (oldest first), perhaps a partially open one, open pages, perhaps a half-erased one. *)
Record lay := mklay { y_f : nat; y_cl : list (list slot); y_pt : option (list slot); y_k : nat; y_bad : nat }.
Definition ptl (o : option (list slot)) : list (list slot) := match o with Some sl => [sl] | None => [] end.
Definition y_b (Y : lay) : nat := length (ptl (y_pt Y)).
Definition y_c (Y : lay) : nat := length (y_cl Y).
Definition uslots (Y : lay) : list (list slot) := y_cl Y ++ ptl (y_pt Y).
Definition pages (Y : lay) : list page :=
  map PClosed (y_cl Y) ++ map PPart (ptl (y_pt Y)) ++ repeat POpen (y_k Y) ++ repeat PBad (y_bad Y).
Definition layok (n : nat) (Y : lay) (pg : nat -> page) : Prop := lay0 n (y_f Y) (pages Y) pg /\ y_bad Y <= 1.

Lemma y_b_le Y : y_b Y <= 1.
Proof. unfold y_b. destruct (y_pt Y); cbn; lia. Qed.
Lemma uslots_len Y : length (uslots Y) = y_c Y + y_b Y.
Proof. unfold uslots, y_c, y_b. apply app_length. Qed.
Lemma pages_len Y : length (pages Y) = y_c Y + y_b Y + y_k Y + y_bad Y.
Proof. unfold pages, y_c, y_b. rewrite !app_length, !map_length, !repeat_length. lia. Qed.

Lemma pages_cls Y i : i < length (pages Y) -> st_of (nth i (pages Y) POpen) = cls (y_c Y) (y_b Y) (y_k Y) i.
Proof.
  intros Hi. rewrite pages_len in Hi. unfold pages, cls, y_c, y_b in *.
  destruct (Nat.ltb_spec i (length (y_cl Y))) as [A|A].
  { rewrite app_nth1 by (rewrite map_length; auto). rewrite (nth_indep _ POpen (PClosed [])) by (rewrite map_length; auto).
    now rewrite (map_nth PClosed). }
  rewrite app_nth2 by (rewrite map_length; auto). rewrite map_length.
  destruct (Nat.ltb_spec i (length (y_cl Y) + length (ptl (y_pt Y)))) as [B|B].
  { rewrite app_nth1 by (rewrite map_length; lia). rewrite (nth_indep _ POpen (PPart [])) by (rewrite map_length; lia).
    now rewrite (map_nth PPart). }
  rewrite app_nth2 by (rewrite map_length; lia). rewrite map_length.
  set (j := i - _ - _).
  destruct (Nat.ltb_spec i (length (y_cl Y) + length (ptl (y_pt Y)) + y_k Y)) as [C|C].
  - rewrite app_nth1 by (rewrite repeat_length; lia). rewrite nth_repeat'. destruct (j <? _); auto.
  - rewrite app_nth2 by (rewrite repeat_length; lia). rewrite repeat_length, nth_repeat'. destruct (Nat.ltb_spec (j - y_k Y) (y_bad Y)); auto; lia.
Qed.

Lemma lay_ring n Y pg : 1 <= n -> layok n Y pg -> ringst n (fun p => st_of (pg p)) (y_f Y) (y_c Y) (y_b Y) (y_k Y) (y_bad Y).
Proof.
  intros N [L B]. pose proof L as (Hf & LL & _). rewrite pages_len in LL. split; auto. split; auto. split; [apply y_b_le|].
  split; auto. intros p Hp. rewrite (lay0_pos n (y_f Y) (pages Y) pg p) by auto. apply pages_cls. rewrite pages_len, LL. apply pos_lt; auto.
Qed.

(** A layout has none of the pages that a torn erase leaves. *)
Definition nojunk (x : page) : Prop := match x with PStale _ | PJunk _ _ => False | _ => True end.
Lemma pages_nojunk Y : Forall nojunk (pages Y).
Proof.
  unfold pages. rewrite !Forall_app. repeat split; apply Forall_forall; intros x Hx.
  1,2: apply in_map_iff in Hx; destruct Hx as (y & <- & _); exact I.
  all: apply repeat_spec in Hx; subst x; exact I.
Qed.
Lemma lay_nojunk n Y pg p : 1 <= n -> layok n Y pg -> p < n -> nojunk (pg p).
Proof.
  intros N [L B] Hp. pose proof L as (Hf & LL & _). rewrite (lay0_pos n (y_f Y) (pages Y) pg p) by auto.
  pose proof (pages_nojunk Y) as F. rewrite Forall_forall in F. apply F. apply nth_In. rewrite LL. apply pos_lt; auto.
Qed.

Lemma nth_uslots Y i : i < y_c Y + y_b Y ->
  used (nth i (pages Y) POpen) /\ slots_of (nth i (pages Y) POpen) = nth i (uslots Y) [] /\
  nth i (pages Y) POpen = if i <? y_c Y then PClosed (nth i (uslots Y) []) else PPart (nth i (uslots Y) []).
Proof.
  intros Hi. assert (X : nth i (pages Y) POpen = if i <? y_c Y then PClosed (nth i (uslots Y) []) else PPart (nth i (uslots Y) [])).
  { unfold pages, uslots, y_c, y_b in *. destruct (Nat.ltb_spec i (length (y_cl Y))) as [A|A].
    - rewrite app_nth1 by (rewrite map_length; auto). rewrite (nth_indep _ POpen (PClosed [])) by (rewrite map_length; auto).
      rewrite (map_nth PClosed). now rewrite app_nth1.
    - rewrite app_nth2 by (rewrite map_length; auto). rewrite map_length. rewrite (app_nth2 (y_cl Y)) by auto.
      rewrite app_nth1 by (rewrite map_length; lia). rewrite (nth_indep _ POpen (PPart [])) by (rewrite map_length; lia).
      now rewrite (map_nth PPart). }
  rewrite X. destruct (i <? y_c Y); cbn; auto.
Qed.

(** The part of a layout that the searches and later steps rely on. *)
Definition qinv (Y : lay) : Prop :=
  (y_pt Y = None -> 1 <= y_k Y) /\ (y_bad Y = 1 -> 1 <= y_c Y + y_b Y) /\ (y_c Y + y_b Y = 0 -> y_f Y = 0).

Section Search.
Context (g : geom) (gok : geom_ok g).
Notation NP := (NP g).
Implicit Types pg : nat -> page.

Lemma ff_cases pg x l :
  match ff pg x l with
  | Some (Some p) => exists l1 l2, l = l1 ++ p :: l2 /\ st_of (pg p) = Some x /\
      (forall q, In q l1 -> st_of (pg q) <> None /\ st_of (pg q) <> Some x)
  | Some None => forall q, In q l -> st_of (pg q) <> None /\ st_of (pg q) <> Some x
  | None => exists q, In q l /\ st_of (pg q) = None
  end.
Proof.
  induction l as [|a l IH]; cbn [ff].
  - intros q [].
  - destruct (st_of (pg a)) as [y|] eqn:E; [|exists a; split; [now left|auto]].
    destruct (pstate_eqb x y) eqn:X.
    + exists [], l. cbn. split; auto. split; [|contradiction]. rewrite E. destruct x, y; auto; discriminate.
    + assert (D : st_of (pg a) <> None /\ st_of (pg a) <> Some x).
      { rewrite E. split; [discriminate|]. intros [= ->]. destruct x; discriminate. }
      destruct (ff pg x l) as [[p|]|].
      * destruct IH as (l1 & l2 & -> & S & H). exists (a :: l1), l2. cbn. split; auto. split; auto.
        intros q [<-|Q]; auto.
      * intros q [<-|Q]; auto.
      * destruct IH as (q & Q & S). exists q. split; auto. now right.
Qed.

Lemma in_get_pages start p : start < NP -> p < NP -> In p (get_pages g start).
Proof.
  intros Hs Hp. unfold get_pages. apply in_map_iff. exists (pos NP start p). split; [rewrite Nat.add_comm; apply mod_pos; auto; lia|].
  apply in_seq. pose proof (pos_lt NP ltac:(lia) start p). lia.
Qed.
Lemma get_pages_split start l1 p l2 : start < NP -> get_pages g start = l1 ++ p :: l2 ->
  exists i, i < NP /\ p = (start + i) mod NP /\ forall j, j < i -> In ((start + j) mod NP) l1.
Proof.
  intros Hs E. exists (length l1). unfold get_pages in E.
  rewrite (map_ext _ (fun i => (start + i) mod NP)) in E by (intros; f_equal; lia).
  assert (LE : length (map (fun i => (start + i) mod NP) (seq 0 NP)) = length (l1 ++ p :: l2)) by now rewrite E.
  rewrite map_length, seq_length, app_length in LE. cbn in LE. split; [lia|].
  assert (NT : forall j, j < NP -> nth j (map (fun i => (start + i) mod NP) (seq 0 NP)) 0 = (start + j) mod NP).
  { intros j Hj. rewrite (nth_indep _ 0 ((start + 0) mod NP)) by (rewrite map_length, seq_length; auto).
    rewrite (map_nth (fun i => (start + i) mod NP)). now rewrite seq_nth. }
  split.
  - rewrite <- NT by lia. rewrite E. rewrite app_nth2, Nat.sub_diag by lia. reflexivity.
  - intros j Hj. rewrite <- NT by lia. rewrite E. rewrite app_nth1 by auto. now apply nth_In.
Qed.

(** The page to write to, as [find_youngest_page] computes it. *)
Definition young pg : option nat :=
  match ff pg PartialOpen (get_pages g 0) with
  | None => None
  | Some (Some p) => Some p
  | Some None =>
      match ff pg Closed (get_pages g 0) with
      | None => None
      | Some None => Some 0
      | Some (Some a) => match ff pg Open (get_pages g a) with Some (Some p) => Some p | _ => None end
      end
  end.
Definition oldest pg : option nat :=
  match young pg with
  | None => None
  | Some y => match ff pg Closed (get_pages g y) with None => None | Some (Some p) => Some p | Some None => Some y end
  end.

Context (Y : lay) (pg : nat -> page) (LY : layok NP Y pg) (QI : qinv Y).
Notation f := (y_f Y).
Notation c := (y_c Y).
Notation b := (y_b Y).
Notation k := (y_k Y).
Notation bad := (y_bad Y).

Let npos : 1 <= NP. Proof. pose proof (NP_pos g gok). lia. Qed.
Let RG := lay_ring NP Y pg npos LY.
Let flt : f < NP. Proof. apply RG. Qed.
Let total : c + b + k + bad = NP. Proof. apply RG. Qed.
Let ble : b <= 1. Proof. apply RG. Qed.
Let badle : bad <= 1. Proof. apply RG. Qed.
Let pk : b = 0 -> 1 <= k.
Proof. intros B. apply QI. unfold y_b in B. destruct (y_pt Y); cbn in B; [lia|auto]. Qed.

Lemma at_pos i : i < NP -> st_of (pg ((f + i) mod NP)) = cls c b k i.
Proof.
  intros Hi. destruct RG as (_ & _ & _ & _ & H). rewrite H by (apply Nat.mod_upper_bound; lia).
  now rewrite pos_mod.
Qed.
Lemma mod_lt' x : x mod NP < NP. Proof. apply Nat.mod_upper_bound. lia. Qed.

Lemma no_bad : (forall q, In q (get_pages g 0) -> st_of (pg q) <> None) -> bad = 0.
Proof.
  intros H. destruct (Nat.eq_dec bad 0); auto. exfalso. apply (H ((f + (NP - 1)) mod NP)).
  - apply in_get_pages; [lia|apply mod_lt'].
  - rewrite at_pos by lia. unfold cls. repeat (match goal with |- context [?x <? ?y] => destruct (Nat.ltb_spec x y) end); auto; lia.
Qed.
Lemma is_bad q : q < NP -> st_of (pg q) = None -> bad = 1.
Proof.
  intros Hq H. pose proof (proj1 (ring_bad NP npos _ _ _ _ _ _ RG q Hq) H). pose proof (pos_lt NP npos f q flt Hq). lia.
Qed.

Lemma young_ok : young pg = Some ((f + c) mod NP) \/ (young pg = None /\ bad = 1).
Proof.
  pose proof (ff_cases pg PartialOpen (get_pages g 0)) as F1. unfold young.
  destruct (ff pg PartialOpen (get_pages g 0)) as [[p|]|].
  - destruct F1 as (l1 & l2 & E & S & _). assert (Hp : p < NP).
    { pose proof (get_pages_lt g gok 0) as G. rewrite Forall_forall in G. apply G. rewrite E. apply in_or_app. right. now left. }
    apply (ring_part NP npos _ _ _ _ _ _ RG p Hp) in S. destruct S as [_ S]. left. f_equal.
    rewrite <- S. symmetry. apply mod_pos; auto.
  - assert (B0 : bad = 0) by (apply no_bad; intros q Hq; apply F1; auto).
    assert (B1 : b = 0).
    { destruct (Nat.eq_dec b 0); auto. exfalso. destruct (F1 ((f + c) mod NP)) as [_ X].
      - apply in_get_pages; [lia|apply mod_lt'].
      - apply X. apply (ring_part NP npos _ _ _ _ _ _ RG); [apply mod_lt'|]. rewrite pos_mod; auto; [split; lia|lia]. }
    pose proof (pk B1) as pk1.
    pose proof (ff_cases pg Closed (get_pages g 0)) as F2. destruct (ff pg Closed (get_pages g 0)) as [[a|]|].
    + destruct F2 as (l1 & l2 & E & S & _). assert (Ha : a < NP).
      { pose proof (get_pages_lt g gok 0) as G. rewrite Forall_forall in G. apply G. rewrite E. apply in_or_app. right. now left. }
      apply (ring_closed NP npos _ _ _ _ _ _ RG a Ha) in S.
      pose proof (ff_cases pg Open (get_pages g a)) as F3. destruct (ff pg Open (get_pages g a)) as [[p|]|].
      * destruct F3 as (l3 & l4 & E3 & S3 & H3). destruct (get_pages_split a l3 p l4 Ha E3) as (i & Hi & -> & H4).
        left. f_equal. assert (SH : forall j, (a + j) mod NP = (f + (pos NP f a + j)) mod NP).
        { intros j. rewrite Nat.add_assoc. rewrite <- (Nat.add_mod_idemp_l (f + pos NP f a)) by lia. now rewrite mod_pos. }
        assert (i = c - pos NP f a); [|subst i; rewrite SH; f_equal; lia].
        destruct (Nat.lt_trichotomy i (c - pos NP f a)) as [L|[L|L]]; auto; exfalso.
        -- rewrite SH, at_pos in S3 by lia. unfold cls in S3. destruct (Nat.ltb_spec (pos NP f a + i) c); [discriminate|lia].
        -- destruct (H3 _ (H4 _ L)) as [_ X]. apply X. rewrite SH, at_pos by lia. unfold cls.
           repeat (match goal with |- context [?x <? ?y] => destruct (Nat.ltb_spec x y) end); auto; lia.
      * exfalso. destruct (F3 ((f + c) mod NP)) as [_ X].
        -- apply in_get_pages; [lia|apply mod_lt'].
        -- apply X. rewrite at_pos by lia. unfold cls.
           repeat (match goal with |- context [?x <? ?y] => destruct (Nat.ltb_spec x y) end); auto; lia.
      * exfalso. destruct F3 as (q & Hq & S3). apply is_bad in S3; [lia|]. pose proof (get_pages_lt g gok a) as G. rewrite Forall_forall in G. auto.
    + left. f_equal. destruct (Nat.eq_dec c 0) as [C0|C0].
      * destruct QI as (_ & _ & Q3). rewrite Q3 by lia. rewrite C0. cbn. symmetry. apply Nat.mod_small. lia.
      * exfalso. destruct (F2 ((f + 0) mod NP)) as [_ X].
        -- apply in_get_pages; [lia|apply mod_lt'].
        -- apply X. rewrite at_pos by lia. unfold cls. destruct (Nat.ltb_spec 0 c); auto; lia.
    + exfalso. destruct F2 as (q & Hq & S3). apply is_bad in S3; [lia|]. pose proof (get_pages_lt g gok 0) as G. rewrite Forall_forall in G. auto.
  - right. split; auto. destruct F1 as (q & Hq & S3). apply is_bad in S3; auto. pose proof (get_pages_lt g gok 0) as G. rewrite Forall_forall in G. auto.
Qed.

Lemma oldest_ok : oldest pg = if bad =? 0 then Some f else None.
Proof.
  unfold oldest. destruct young_ok as [E|[E B]]; rewrite E; [|rewrite B; reflexivity].
  assert (CN : c < NP) by (destruct (Nat.eq_dec b 0) as [Z|Z]; [pose proof (pk Z)|]; lia).
  pose proof (ff_cases pg Closed (get_pages g ((f + c) mod NP))) as F. 
  assert (SH : forall j, ((f + c) mod NP + j) mod NP = (f + (c + j)) mod NP).
  { intros j. rewrite Nat.add_mod_idemp_l by lia. f_equal. lia. }
  destruct (ff pg Closed _) as [[p|]|].
  - destruct F as (l3 & l4 & E3 & S3 & H3). destruct (get_pages_split _ l3 p l4 (mod_lt' _) E3) as (i & Hi & -> & H4).
    assert (C1 : 1 <= c).
    { apply (ring_closed NP npos _ _ _ _ _ _ RG) in S3; [|apply mod_lt']. lia. }
    assert (IL : NP - c <= i).
    { destruct (Nat.le_gt_cases (NP - c) i) as [|G]; auto. exfalso. rewrite SH, at_pos in S3 by lia. unfold cls in S3.
      destruct (Nat.ltb_spec (c + i) c); [lia|]. repeat (match type of S3 with context [?x <? ?y] => destruct (x <? y) end); discriminate. }
    destruct (Nat.eqb_spec bad 0) as [B|B].
    + f_equal. destruct (Nat.eq_dec i (NP - c)) as [EI|NI].
      * subst i. rewrite SH. replace (f + (c + (NP - c))) with (f + 1 * NP) by lia. rewrite Nat.mod_add by lia. now apply Nat.mod_small.
      * exfalso. destruct (H3 _ (H4 (NP - c) ltac:(lia))) as [_ X]. apply X. rewrite SH.
        replace (f + (c + (NP - c))) with (f + 0 + 1 * NP) by lia. rewrite Nat.mod_add by lia. rewrite at_pos by lia. unfold cls.
        destruct (Nat.ltb_spec 0 c); auto; lia.
    + exfalso. destruct (H3 _ (H4 (NP - 1 - c) ltac:(lia))) as [X _]. apply X. rewrite SH, at_pos by lia. unfold cls.
      repeat (match goal with |- context [?x <? ?y] => destruct (Nat.ltb_spec x y) end); auto; lia.
  - assert (B0 : bad = 0).
    { apply no_bad. intros q Hq. apply F. apply in_get_pages; [apply mod_lt'|]. pose proof (get_pages_lt g gok 0) as G. rewrite Forall_forall in G. auto. }
    rewrite B0. cbn [Nat.eqb]. f_equal. destruct (Nat.eq_dec c 0) as [C0|C0].
    + rewrite C0, Nat.add_0_r. now apply Nat.mod_small.
    + exfalso. destruct (F ((f + 0) mod NP)) as [_ X].
      -- apply in_get_pages; apply mod_lt'.
      -- apply X. rewrite at_pos by lia. unfold cls. destruct (Nat.ltb_spec 0 c); auto; lia.
  - destruct F as (q & Hq & S3). apply is_bad in S3; [|pose proof (get_pages_lt g gok ((f + c) mod NP)) as G; rewrite Forall_forall in G; auto].
    rewrite S3. reflexivity.
Qed.
End Search.
