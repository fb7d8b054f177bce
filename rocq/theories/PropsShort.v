(** C49.  A map call whose data buffer is too small. *)
From Coq Require Import List NArith Arith Bool Lia.
From Verif Require Import Base Flash Cache State Item Generic Map Codec CodecP Client QSpec QCase MClient MSpec MObs MCase Drops Short ShortP ShortMP.
Import ListNotations.

(** Any contents of the flash, any cache: the answer and the effects do not depend on the size of the buffers, or the call says that a buffer is too small and the flash is as
    some power failure in the call with longer buffers leaves it. *)
Theorem c49_any {K} (KO : keyops K) (legal : K -> Prop) g n c s : geom_ok g -> key_codec KO legal -> prefix_codec KO -> (forall b k v, c = MStore b k v -> legal k) ->
  let r := m_exec KO g c (power s None) in let w := m_exec KO g (wide n c) (power s None) in
  (fst w = fst r /\ s_fl (snd w) = s_fl (snd r) /\ s_ca (snd w) = s_ca (snd r)) \/
  (m_small (fst r) = true /\ exists k, same_flash (snd r) (snd (m_exec KO g (wide n c) (power s (Some k))))).
Proof. exact (short_any KO legal g n c s). Qed.
(** Every history.  Buffers may have any size at the calls [SAny].  If such a call is answered, it is answered as with a longer buffer; if it says that its buffer is too
    small, a store has stored nothing and lost nothing, and a removal removed nothing else.  In the end everything that should be there is found. *)
Theorem c49_history {K} (KO : keyops K) (legal : K -> Prop) g n f c evs l s : key_codec KO legal -> prefix_codec KO -> erased g f -> f_fuel f = None -> fresh_cache (NP g) c ->
  msetting true g (f_aw f) -> Forall (msev_ok KO legal g n) evs -> calm_s (f_ae f) calm0 evs l -> m_srun KO g (st_new f c) evs = (l, s) ->
  exists m log, mstrace (k_eqb KO) legal (item_bytes KO) (mbig g) n (@nothing K) [] evs l m log /\ m_holds KO legal g n s m.
Proof. exact (small_map KO legal g n f c evs l s). Qed.
(** The keys of the library are of the kind asked for. *)
Theorem c49_keys : (forall w, prefix_codec (key_num w)) /\ (forall w, prefix_codec (key_int w)) /\ (forall w, prefix_codec (key_array w)) /\ prefix_codec key_unit /\
  (forall cap, prefix_codec (key_vec cap)) /\ (forall small cap, prefix_codec (key_string small cap)).
Proof. exact (conj pc_num (conj pc_int (conj pc_array (conj pc_unit (conj pc_vec pc_string))))). Qed.
Print Assumptions c49_any.
Print Assumptions c49_history.
Print Assumptions c49_keys.

(** A map with two pages of items.  The store of a short value with a 12 byte buffer has to move a longer one and fails, and so does a second attempt and a fetch.  After the store has been repeated with a
    proper buffer all is there, and a fetch of the short value with the short buffer works.  A removal fails, as does a store whose own item does not fit in the buffer. *)
Definition tiny : list N := repeat 0%N 12.
Definition Y (c : mcall N) : msev N := SAny c (mc 3 2).
Definition sevs : list (msev N) := map SEv [Sto 1 1 15 None; Sto 2 2 15 None; Sto 3 3 15 None; Sto 1 4 15 None]%N ++
  [Y (MStore tiny 2%N (it 5 4)); Y (MStore tiny 2%N (it 6 4)); Y (MFetch tiny 2%N); SEv (Fet 1); SEv (Fet 2); SEv (Fet 3); SEv (Sto 2 5 4 None);
   Y (MFetch tiny 2%N); Y (MRemoveAll tiny); Y (MStore tiny 3%N (it 7 15)); SEv (Fet 1); SEv (Fet 2); SEv (Fet 3)]%N.
Example c49_case : let l := fst (m_srun kn (mg 3) (mst0 false 3) sevs) in Forall (msev_ok kn kl (mg 3) 64) sevs /\ calm_s false calm0 sevs l /\
  l = repeat (RUnit (Ok tt)) 4 ++ [RUnit (Err (EBufTooSmall 16)); RUnit (Err (EBufTooSmall 16)); RVal (Err (EBufTooSmall 16)); RVal (Ok (Some (it 4 15))); RVal (Ok (Some (it 2 15))); RVal (Ok (Some (it 3 15))); RUnit (Ok tt);
    RVal (Ok (Some (it 5 4))); RUnit (Err (EBufTooSmall 16)); RUnit (Err (ESer SEBufferTooSmall)); RVal (Ok (Some (it 4 15))); RVal (Ok (Some (it 5 4))); RVal (Ok (Some (it 3 15)))].
Proof.
  cbv zeta. split; [|split; [|vm_compute; reflexivity]].
  - unfold sevs, Y. cbn [map app]. repeat (constructor; [split; [first [discriminate | apply call_okb_ok; vm_compute; reflexivity]|first [apply mc_fresh; lia | apply call_okb_ok; vm_compute; reflexivity]]|]). constructor.
  - vm_compute. repeat split; auto.
Qed.
