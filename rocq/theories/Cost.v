(** Counting reads.  Nothing here models library code, apart from the device of src/mock_flash.rs 187-200 with its statistics (src/mock_flash.rs 96-98: [reads], [bytes_read]). *)
From Coq Require Import List NArith Arith Bool.
From Verif Require Import Base Flash Cache State Item Generic Map Client MClient FormatSpec Reads.
Import ListNotations.

(** The mock flash, with the reads (address, number of bytes) in the ghost log. *)
Definition counted : reader := garbled (fun _ => bytes).
(** The reads made between two states, latest first. *)
Definition reads_between {K} (s s' : st K) : list (nat * nat) :=
  firstn (length (f_bad (s_fl s')) - length (f_bad (s_fl s))) (f_bad (s_fl s')).
(** Fetching some keys, one after the other: the answers, with the reads made. *)
Fixpoint fetches {K} (KO : keyops K) (g : geom) (b : list N) (ks : list K) (s : st K) : list (mans K * list (nat * nat)) * st K :=
  match ks with
  | [] => ([], s)
  | k :: ks' =>
      let '(a, s1) := m_exec (R := counted) KO g (MFetch b k) (power s None) in
      let '(l, s2) := fetches KO g b ks' s1 in ((a, reads_between s s1) :: l, s2)
  end.
(** These reads read one item: its header and then its data, as long as the header says. *)
Definition one_item (g : geom) (m : nat -> N) (l : list (nat * nat)) : Prop :=
  exists a len, num m (a + 4) 2 = N.of_nat len /\
    l = (if words g len =? 0 then [] else [(a + words g 8, words g len)]) ++ [(a, words g 8)].
