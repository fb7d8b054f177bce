(** Claims about what reading costs.  Statements only; proofs are in CostP.v.
    Vocabulary (Cost.v): [fetches KO g b ks s]: the answers to fetching the keys [ks] one after the other, each with the reads (address, number of bytes) that the device was asked for;
    [one_item g m rs]: the reads [rs] are those of one item and nothing else: the header, and then the data, as long as the header in [m] says.
    See MObs.v for [m_reached] and [m_holds], MSpec.v for [whole]. *)
From Coq Require Import List NArith Arith Bool Lia.
From Verif Require Import Base CrcP Flash Cache State Item Generic Map Codec Client MClient MSpec MObs MPropsP QCase MCase FormatSpec Reads Cost CostP.
Import ListNotations.

(** C47.  [en]: the places of the key cache; [W]: the keys in use, all of them stored, not more than places.  However these keys are fetched, in whatever order and however often, each
    fetch reads one item, with not more exceptions than there are keys.  This also holds straight after a call failed, or if a failed call left the cache marked: at the latest after the first
    fetch it is usable.  Missing: a page half erased by a power failure (that needs a repair first). *)
Theorem c47_working_set {K} (KO : keyops K) legal pf g n evs l s m b ks W en :
  m_reached KO legal pf g n evs l s -> m_holds KO legal g n s m -> f_ae (s_fl s) = true \/ whole (mode_after calm0 evs l) = true -> n <= length b ->
  c_kp (s_ca s) = KPArray en -> Forall legal W -> (forall k, In k W -> m k <> None) -> length W <= length en -> incl ks W ->
  map fst (fst (fetches KO g b ks s)) = map (fun k => RVal (Ok (m k))) ks /\
  exists misses, length misses <= length W /\
    forall i a rs, nth_error (fst (fetches KO g b ks s)) i = Some (a, rs) -> In i misses \/ one_item g (f_mem (s_fl s)) rs.
Proof. exact (m_costs KO legal pf g n evs l s m b ks W en). Qed.
(** C47: straight after a completed store, with any key cache, fetching that key reads one item. *)
Theorem c47_after_store {K} (KO : keyops K) legal pf g n evs l s m b k v p b2 en :
  m_reached KO legal pf g n (evs ++ [MCall (MStore b k v) p]) (l ++ [RUnit (Ok tt)]) s -> m_holds KO legal g n s m -> n <= length b2 -> c_kp (s_ca s) = KPArray en -> legal k ->
  exists rs, fst (fetches KO g b2 [k] s) = [(RVal (Ok (m k)), rs)] /\ one_item g (f_mem (s_fl s)) rs.
Proof. exact (m_store_cost KO legal pf g n evs l s m b k v p b2 en). Qed.
Print Assumptions c47_working_set.
Print Assumptions c47_after_store.

(** Four keys and two places.  Keys 1 and 2 are not in the cache at first; then every fetch takes two reads.  Key 4 was stored last. *)
Definition cevs : list (mev N) := [Sto 1 10 7 None; Sto 2 20 15 None; Sto 1 30 7 None; Sto 3 40 7 None; Sto 4 50 7 None].
Definition cs : st N := snd (mrun false 3 cevs).
Example c47_case : m_reached kn kl true (mg 3) 64 cevs (fst (mrun false 3 cevs)) cs /\ whole (mode_after calm0 cevs (fst (mrun false 3 cevs))) = true /\
  (exists en, c_kp (s_ca cs) = KPArray en /\ length en = 2) /\
  map (fun x => (fst x, length (snd x))) (fst (fetches kn (mg 3) kb [1; 2; 1; 1; 2; 1]%N cs)) =
    [(RVal (Ok (Some (it 30 7))), 8); (RVal (Ok (Some (it 20 15))), 13); (RVal (Ok (Some (it 30 7))), 2); (RVal (Ok (Some (it 30 7))), 2); (RVal (Ok (Some (it 20 15))), 2); (RVal (Ok (Some (it 30 7))), 2)] /\
  map (fun x => (fst x, snd x)) (fst (fetches kn (mg 3) kb [4]%N cs)) = [(RVal (Ok (Some (it 50 7))), [(112, 8); (104, 8)])].
Proof. split; [unfold cs; reach|]. split; [vm_compute; reflexivity|]. split; [eexists; split; vm_compute; reflexivity|]. split; vm_compute; reflexivity. Qed.
(** With three keys in turn and two places, every fetch has to search. *)
Example c47_too_many : map (fun x => length (snd x) <=? 2) (fst (fetches kn (mg 3) kb [1; 2; 3; 1; 2; 3; 1; 2; 3]%N cs)) = repeat false 9.
Proof. vm_compute. reflexivity. Qed.
