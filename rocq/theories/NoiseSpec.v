(** Vocabulary for the claim about wrong bits in page markers.  Nothing here models library code.
    The marker words of a page are its first and its last [RS] bytes (the read size). *)
From Coq Require Import List NArith Arith Bool.
From Verif Require Import Base Flash State.
Import ListNotations.

(** The number of bits in which two bytes differ. *)
Definition bit_diff (x y : N) : nat := length (filter (fun i => xorb (N.testbit x (N.of_nat i)) (N.testbit y (N.of_nat i))) (seq 0 8)).
(** The number of wrong bits in the [n] bytes at [a]. *)
Definition wrong_bits (m m2 : nat -> N) (a n : nat) : nat := list_sum (map (fun x => bit_diff (m x) (m2 x)) (seq a n)).
(** [m2] is [m] with at most [k] wrong bits in each marker word; all data between the markers is the same. *)
Definition bad_markers (k : nat) (g : geom) (m m2 : nat -> N) : Prop :=
  (forall p x, p < NP g -> dstart g p <= x < dend g p -> m2 x = m x) /\
  (forall p x, p < NP g -> paddr g p <= x < pend g p -> (m2 x < 256)%N) /\
  (forall p, p < NP g -> wrong_bits m m2 (paddr g p) (RS g) <= k /\ wrong_bits m m2 (pend g p - RS g) (RS g) <= k).
(** The bytes next to the data of each page are as the library writes them: 00 or FF. *)
Definition clean_markers (g : geom) (m : nat -> N) : Prop :=
  forall p x, p < NP g -> paddr g p <= x < dstart g p \/ dend g p <= x < pend g p -> m x = 0%N \/ m x = 255%N.

(** A history in which the contents of the flash may change by themselves. *)
Inductive nev (E : Type) := NEv (e : E) | NMem (m : nat -> N).
Arguments NEv {E} e. Arguments NMem {E} m.
Definition with_mem {K} (s : st K) (m : nat -> N) : st K := let f := s_fl s in set_fl s (mkflash m (f_wc f) (f_er f) (f_fuel f) (f_ae f) (f_aw f) (f_bad f)).
Section Runs.
Context {K E A : Type} (run : st K -> list E -> list A * st K).
(** What happens. *)
Fixpoint real_run (s : st K) (l : list (nev E)) : list A * st K :=
  match l with
  | [] => ([], s)
  | NEv e :: t => let '(a, s1) := run s [e] in let '(r, s2) := real_run s1 t in (a ++ r, s2)
  | NMem m :: t => real_run (with_mem s m) t
  end.
(** What would happen with a perfect flash. *)
Definition ideal (l : list (nev E)) : list E := flat_map (fun x => match x with NEv e => [e] | NMem _ => [] end) l.
(** At all times each marker word has at most [k] wrong bits, compared with the perfect flash. *)
Fixpoint few_bad (k : nat) (g : geom) (s : st K) (l : list (nev E)) : Prop :=
  match l with
  | [] => True
  | NEv e :: t => few_bad k g (snd (run s [e])) t
  | NMem m :: t => bad_markers k g (f_mem (s_fl s)) m /\ few_bad k g s t
  end.
End Runs.
(** The same data, the same pages erased, the same power left. *)
Definition same_flash (g : geom) (f f2 : flash) : Prop :=
  (forall p x, p < NP g -> dstart g p <= x < dend g p -> f_mem f2 x = f_mem f x) /\ f_er f2 = f_er f /\ f_fuel f2 = f_fuel f.
