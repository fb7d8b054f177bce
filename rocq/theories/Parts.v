(** Storages that share a chip (the [flash_range] arguments of src/lib.rs 46-51, src/queue/mod.rs 144-152, src/map.rs 167-175): a storage is given a range of the flash; other
    software, and other storages, use the rest of the chip.
    The device of the model (Flash.v [chk]) refuses what is outside of the range of a storage, the mock flash only what is outside of the chip.  Theorems of C15 say that the
    storages never ask for such an access, and the theorems here that the log of refused accesses is the same as without the neighbours. *)
From Coq Require Import List NArith Arith Bool.
From Verif Require Import Base Flash Cache State Item Generic Queue Map Codec Client MClient TMap.
Import ListNotations.

(** [x] belongs to the range of the storage (src/lib.rs 48). *)
Definition inside (g : geom) (x : nat) : Prop := START g <= x < FEND g.
(** Ranges that have no address in common. *)
Definition apart (g1 g2 : geom) : Prop := forall x, inside g1 x -> ~ inside g2 x.

(** What others did to the chip: anything outside of the range, bytes and the number of times they were programmed. *)
Definition elsewhere (g : geom) (f f' : flash) : Prop :=
  (forall x, inside g x -> f_mem f' x = f_mem f x /\ f_wc f' x = f_wc f x) /\ f_fuel f' = f_fuel f /\ f_ae f' = f_ae f /\ f_aw f' = f_aw f /\ f_bad f' = f_bad f.
(** What a storage did to the chip: the bytes outside of its range are as before. *)
Definition kept (g : geom) (f f' : flash) : Prop := forall x, ~ inside g x -> f_mem f' x = f_mem f x /\ f_wc f' x = f_wc f x.
(** The same storage: the same contents in the range, the same cache object, the same buffer and iterators. *)
Definition alike {K} (g : geom) (s s' : st K) : Prop :=
  elsewhere g (s_fl s) (s_fl s') /\ s_ca s' = s_ca s /\ s_buf s' = s_buf s /\ s_qi s' = s_qi s /\ s_mi s' = s_mi s.

(** A history of a storage with step function [x] (one event, its answers) on a chip that others use as well: before each event the rest of the chip may have changed in any way. *)
Inductive among {K E A} (g : geom) (x : E -> st K -> list A * st K) : st K -> list E -> list A -> st K -> Prop :=
| AmEnd s f : elsewhere g (s_fl s) f -> among g x s [] [] (set_fl s f)
| AmEv s f e l s1 t l' s2 : elsewhere g (s_fl s) f -> x e (set_fl s f) = (l, s1) -> among g x s1 t l' s2 -> among g x s (e :: t) (l ++ l') s2.

(** One event of a queue (Client.v), of a map (MClient.v), of a map with typed values (TMap.v). *)
Definition q_ev (g : geom) (e : qev) (s : st unit) : list qans * st unit := q_run g s [e].
(** As [q_ev]. *)
Definition m_ev {K} (KO : keyops K) (g : geom) (e : mev K) (s : st K) : list (mans K) * st K := m_run KO g s [e].
(** As [q_ev]. *)
Definition t_ev {K} (KO : keyops K) (g : geom) (e : tev K) (s : st K) : list (mans K) * st K := t_run KO g s [e].

(** Two storages on one chip.  Each storage object has its own cache, buffer and iterators; the contents of the flash are those of the chip. *)
Definition on_chip {K} (ch : flash) (s : st K) : st K :=
  set_fl s (mkflash (f_mem ch) (f_wc ch) (f_er ch) (f_fuel (s_fl s)) (f_ae (s_fl s)) (f_aw (s_fl s)) (f_bad (s_fl s))).
Section Two.
Context {K1 K2 E1 E2 A1 A2 : Type} (x1 : E1 -> st K1 -> list A1 * st K1) (x2 : E2 -> st K2 -> list A2 * st K2).
(** The events of the two in any order; each works on the flash as the last event left it.  The answers of the first and of the second storage, the storages and the chip at the end. *)
Fixpoint two_run (ch : flash) (s1 : st K1) (s2 : st K2) (evs : list (E1 + E2)) : list A1 * list A2 * (flash * st K1 * st K2) :=
  match evs with
  | [] => ([], [], (ch, on_chip ch s1, on_chip ch s2))
  | inl e :: t => let '(l, s1') := x1 e (on_chip ch s1) in let '(l1, l2, r) := two_run (s_fl s1') s1' s2 t in (l ++ l1, l2, r)
  | inr e :: t => let '(l, s2') := x2 e (on_chip ch s2) in let '(l1, l2, r) := two_run (s_fl s2') s1 s2' t in (l1, l ++ l2, r)
  end.
End Two.
(** The events of one of the two. *)
Definition lefts {A B} (l : list (A + B)) : list A := flat_map (fun e => match e with inl a => [a] | inr _ => [] end) l.
Definition rights {A B} (l : list (A + B)) : list B := flat_map (fun e => match e with inl _ => [] | inr b => [b] end) l.
(** The outcome [r] of two storages on the chip [ch] is as if each had been alone ([r1], [r2]): the same answers, the same storages at the end, and the rest of the chip is as it was. *)
Definition unharmed {K1 K2 A1 A2} (g1 g2 : geom) (ch : flash) (r1 : list A1 * st K1) (r2 : list A2 * st K2) (r : list A1 * list A2 * (flash * st K1 * st K2)) : Prop :=
  let '(l1, l2, (ch', s1, s2)) := r in
  l1 = fst r1 /\ l2 = fst r2 /\ alike g1 (snd r1) s1 /\ alike g2 (snd r2) s2 /\ s1 = on_chip ch' s1 /\ s2 = on_chip ch' s2 /\ forall x, ~ inside g1 x -> ~ inside g2 x -> f_mem ch' x = f_mem ch x.
