(** The same calls on storages of different geometries.  Nothing here models library code. *)
From Coq Require Import List NArith Arith Bool.
From Verif Require Import Flash Cache State Client MClient QSpec.
Import ListNotations.

(** Queue calls whose answers are meant to depend on the items only: no overwriting, no questions about space, buffers of at least [n] bytes. *)
Definition plain (n : nat) (c : qcall) : Prop :=
  match c with
  | QPush _ ow => ow = false
  | QPop b | QPeek b => n <= length b
  | QIter sc => Forall (fun x => n <= length (fst x)) sc
  | QMaxFit | QSpace => False
  end.
(** The answers to the pushes. *)
Fixpoint push_answers (cs : list (qcall * option nat)) (l : list qans) : list qans :=
  match cs, l with
  | (QPush _ _, _) :: cs', a :: l' => a :: push_answers cs' l'
  | _ :: cs', _ :: l' => push_answers cs' l'
  | _, _ => []
  end.
(** Map calls other than iterations, which may show the keys in another order. *)
Definition unordered {K} (c : mcall K) : Prop := match c with MIter _ _ => False | _ => True end.
(** The answers to the stores. *)
Fixpoint store_answers {K} (cs : list (mcall K * option nat)) (l : list (mans K)) : list (mans K) :=
  match cs, l with
  | (MStore _ _ _, _) :: cs', a :: l' => a :: store_answers cs' l'
  | _ :: cs', _ :: l' => store_answers cs' l'
  | _, _ => []
  end.
