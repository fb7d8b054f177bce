(** Damage to stored items, in terms of the documented representation (FormatSpec.v).  Nothing here models library code. *)
From Coq Require Import List NArith Arith Bool.
From Verif Require Import Base Flash Cache State Queue Map Client QSpec QObs MClient MSpec MObs FormatSpec NoiseSpec.
Import ListNotations.

Section Places.
Variable g : geom.
Variable m : nat -> N.
(** As [FormatSpec.items], with the address of each item. *)
Fixpoint places (fuel a e : nat) : list (nat * list N) :=
  match fuel with
  | 0 => []
  | S k =>
    let hl := words g 8 in
    if e <? a + hl then []
    else if forallb (N.eqb 255) (bytes m a hl) then []
    else
      let len := N.to_nat (num m (a + 4) 2) in
      let next := a + hl + words g len in
      if (num m (a + 6) 2 =? check16 (bytes m (a + 4) 2))%N && (next <=? e) then
        let d := bytes m (a + hl) len in
        if (num m a 4 =? check32 d)%N then (a, d) :: places k next e else places k next e
      else places k (a + word g) e
  end.
Definition page_places (p : nat) : list (nat * list N) :=
  if begun g m p then places (ES g) (first_byte g p + word g) (first_byte g p + ES g - word g) else [].
(** All items in flash, from page [p] around the ring. *)
Definition placed (p : nat) : list (nat * list N) := flat_map page_places (ring g p).

(** The checksum and the data of the item at [a] with the data [d]. *)
Definition part_of (i : nat * list N) (x : nat) : Prop :=
  let '(a, d) := i in a <= x < a + 4 \/ a + words g 8 <= x < a + words g 8 + words g (length d).
(** The same bytes in [m2]. *)
Definition intact (m2 : nat -> N) (i : nat * list N) : bool :=
  let '(a, d) := i in forallb (fun x => (m2 x =? m x)%N) (seq a 4 ++ seq (a + words g 8) (length d)).
(** In [m2] some bytes of data and data checksums are wrong, and no wrong item has a matching checksum. *)
Definition hurt (m2 : nat -> N) : Prop :=
  (forall x, is_byte (m2 x)) /\
  (forall x, (forall i, In i (placed 0) -> ~ part_of i x) -> m2 x = m x) /\
  (forall a d, In (a, d) (placed 0) -> num m2 a 4 = check32 (bytes m2 (a + words g 8) (length d)) -> intact m2 (a, d) = true).
(** Damage that always shows: at most two wrong bits in the data and the checksum, wrong bits within one byte of them, or the data as it was. *)
Definition slight (m2 : nat -> N) (i : nat * list N) : Prop :=
  let '(a, d) := i in
  wrong_bits m m2 a 4 + wrong_bits m m2 (a + words g 8) (length d) <= 2 \/
  (exists y, forall x, x <> y -> a <= x < a + 4 \/ a + words g 8 <= x < a + words g 8 + length d -> m2 x = m x) \/
  (forall x, a + words g 8 <= x < a + words g 8 + length d -> m2 x = m x).
Definition slightly_hurt (m2 : nat -> N) : Prop :=
  (forall x, is_byte (m2 x)) /\
  (forall x, (forall i, In i (placed 0) -> ~ part_of i x) -> m2 x = m x) /\
  (forall i, In i (placed 0) -> slight m2 i).
(** At most [k] wrong bits in the data and checksum of each item. *)
Definition wrong_at_most (k : nat) (m2 : nat -> N) : Prop :=
  (forall x, (forall i, In i (placed 0) -> ~ part_of i x) -> m2 x = m x) /\
  (forall a d, In (a, d) (placed 0) -> wrong_bits m m2 a 4 + wrong_bits m m2 (a + words g 8) (length d) <= k).
(** The items without wrong bytes. *)
Definition survivors (m2 : nat -> N) (p : nat) : list (list N) := map snd (filter (intact m2) (placed p)).
End Places.

(** Histories of a queue in which stored items get damaged.  [s]: the state, [q]: the contents before; [q2]: the contents after. *)
Inductive htrace (g : geom) : st unit -> list item -> list (nev qev) -> list qans -> list item -> Prop :=
| HNil s q : htrace g s q [] [] q
| HEv s q e a s1 q1 t l q2 : q_run g s [e] = (a, s1) -> qtrace (rup g) (HL g) (page_cap g) (2 <=? NP g) true q [e] a q1 -> htrace g s1 q1 t l q2 ->
    htrace g s q (NEv e :: t) (a ++ l) q2
| HMem s q m p t l q2 : oldest g (f_mem (s_fl s)) p -> map snd (placed g (f_mem (s_fl s)) p) = q ->
    htrace g (with_mem s m) (survivors g (f_mem (s_fl s)) m p) t l q2 -> htrace g s q (NMem m :: t) l q2.
(** All changes are damage to stored items. *)
Fixpoint only_hurt {K E A} (run : st K -> list E -> list A * st K) (g : geom) (s : st K) (l : list (nev E)) : Prop :=
  match l with
  | [] => True
  | NEv e :: t => only_hurt run g (snd (run s [e])) t
  | NMem m :: t => hurt g (f_mem (s_fl s)) m /\ only_hurt run g (with_mem s m) t
  end.

(** Histories of a map in which stored items get damaged. *)
Section MapHurt.
Context {K : Type} (KO : keyops K) (legal : K -> Prop) (g : geom).
(** The cache does not say where keys are, or the storage object is made anew next. *)
Definition unkeyed (s : st K) (rest : list (nev (mev K))) : Prop := c_kp (s_ca s) = KPNone \/ exists c t, rest = NEv (MBoot c) :: t.
(** The calls covered are those of [MSpec.calm]; items are damaged after a completed store, not while a store that was cut is to be completed. *)
Fixpoint calm_hurt (t : mode) (s : st K) (l : list (nev (mev K))) : Prop :=
  match l with
  | [] => True
  | NEv e :: r => let '(a, s1) := m_run KO g s [e] in calm (f_ae (s_fl s)) t [e] a /\ calm_hurt (mode_after t [e] a) s1 r
  | NMem m :: r => sure t = true /\ hurt g (f_mem (s_fl s)) m /\ unkeyed s r /\ calm_hurt t (with_mem s m) r
  end.
(** [v], [log]: the values of the keys and the pairs stored before; [v2], [log2]: after. *)
Inductive mhtrace : st K -> (K -> option (list N)) -> list (K * list N) -> list (nev (mev K)) -> list (mans K) -> (K -> option (list N)) -> list (K * list N) -> Prop :=
| MHNil s v log : mhtrace s v log [] [] v log
| MHEv s v log e a s1 v1 log1 t l v2 log2 : m_run KO g s [e] = (a, s1) ->
    mtrace (k_eqb KO) legal (item_bytes KO) (mbig g) true v log [e] a v1 log1 -> mhtrace s1 v1 log1 t l v2 log2 -> mhtrace s v log (NEv e :: t) (a ++ l) v2 log2
| MHMem s v log m p t l v2 log2 : oldest g (f_mem (s_fl s)) p -> (forall k, legal k -> v k = lastv (k_eqb KO) k (unpack KO (map snd (placed g (f_mem (s_fl s)) p)))) ->
    mhtrace (with_mem s m) (fun k => lastv (k_eqb KO) k (unpack KO (survivors g (f_mem (s_fl s)) m p))) log t l v2 log2 -> mhtrace s v log (NMem m :: t) l v2 log2.
End MapHurt.
