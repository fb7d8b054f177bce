(** The room that the contents of a map take. *)
From Coq Require Import List NArith Arith Bool.
From Verif Require Import Base Flash Cache State Crc Map Client QObs MObs.
Import ListNotations.

Section CapSpec.
Context {K : Type} (KO : keyops K).
(** The bytes that an item takes on a page: header, data, padding to a whole number of words. *)
Definition item_room (g : geom) (d : list N) : nat := HL g + rup g (length d).
(** The bytes that the current values of the keys [ks] take, written with buffers of [n] bytes. *)
Definition room (g : geom) (n : nat) (m : K -> option (list N)) (ks : list K) : nat :=
  list_sum (map (fun k => match m k with
                          | Some v => match item_bytes KO n k v with inl d => item_room g d | inr _ => 0 end
                          | None => 0
                          end) ks).
End CapSpec.

(** Histories of a queue where no item that is accepted takes more than [M] bytes, and where items leave only from the front: nothing is removed through an iterator. *)
Definition in_order (g : geom) (M : nat) (e : qev) : Prop :=
  match e with
  | ECall (QPush d _) _ => item_room g d <= M \/ page_cap g < item_room g d \/ (65535 < N.of_nat (length d))%N
  | ECall (QIter sc) _ => Forall (fun x => snd x = false) sc
  | _ => True
  end.
