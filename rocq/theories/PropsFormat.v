(** C39, C40: the in-flash representation. *)
From Coq Require Import List NArith Arith Bool Lia.
From Verif Require Import Base Flash Cache State Queue Map Codec CodecP Client QSpec QObs QCase MClient MSpec MObs MCase FormatSpec FormatP ImageP.
Import ListNotations.

(** C39.  Whatever the history, also with power failures, a reader that follows the documented representation finds
    the contents of the queue in flash. *)
Theorem c39_queue : forall pf g evs l s q, q_reached pf g evs l s -> q_holds g s q ->
  exists p, oldest g (f_mem (s_fl s)) p /\ stored g (f_mem (s_fl s)) p = q.
Proof. exact q_image. Qed.
Print Assumptions c39_queue.
(** The same for maps: the last item of a key counts. *)
Theorem c39_map : forall K (KO : keyops K) legal pf g n evs l s m, m_reached KO legal pf g n evs l s -> m_holds KO legal g n s m ->
  exists p, oldest g (f_mem (s_fl s)) p /\ forall k, legal k -> m k = lastv (k_eqb KO) k (unpack KO (stored g (f_mem (s_fl s)) p)).
Proof. exact @m_image. Qed.
Print Assumptions c39_map.

(** C40.  Flash that was written by someone else in that representation is read as what it represents, and every
    further history starts from there. *)
Theorem c40_queue : forall pf g f c p full cur k evs l s, setting pf g (f_ae f) (f_aw f) -> device f ->
  image g (f_mem f) p full cur k -> (cur = None -> 1 <= k) -> fresh_cache (NP g) c ->
  Forall (qev_ok pf g) evs -> q_run g (st_new f c) evs = (l, s) ->
  exists q, qtrace (rup g) (HL g) (page_cap g) (2 <=? NP g) pf (kept_in full cur) evs l q /\ q_holds g s q.
Proof. intros pf g f c p full cur k evs l s S (D1 & D2 & D3). exact (q_image_history pf g f c p full cur k evs l s S D1 D2 D3). Qed.
Print Assumptions c40_queue.
Theorem c40_map : forall K (KO : keyops K) legal pf g n f c p full cur k evs l s, key_codec KO legal -> msetting pf g (f_aw f) -> device f ->
  image g (f_mem f) p full cur k -> 1 <= k -> (cur = None -> 2 <= k) -> (p = 0 \/ k = 1) ->
  Forall (map_item KO legal pf g n) (kept_in full cur) -> fresh_cache (NP g) c ->
  Forall (mev_ok KO legal pf g n) evs -> (pf = true -> calm (f_ae f) calm0 evs l) -> m_run KO g (st_new f c) evs = (l, s) ->
  exists m log, mtrace (k_eqb KO) legal (item_bytes KO) (mbig g) pf
      (fun x => lastv (k_eqb KO) x (unpack KO (kept_in full cur))) (unpack KO (kept_in full cur)) evs l m log /\
    m_holds KO legal g n s m.
Proof. intros K KO legal pf g n f c p full cur k evs l s C S (D1 & D2 & D3). exact (m_image_history KO legal pf g n f c p full cur k evs l s C S D1 D2 D3). Qed.
Print Assumptions c40_map.

(** ** Cases *)
(** The state of QCase, after torn writes and a torn erase, read from page 1 on. *)
Example c39_case_queue : q_reached true cg evs1 (fst (q_run cg st0 evs1)) st1 /\ q_holds cg st1 q1 /\
  stored cg (f_mem (s_fl st1)) 1 = q1.
Proof. split; [exact st1_reached|]. split; [exact st1_holds|]. vm_compute. reflexivity. Qed.
Example c39_case_map : m_reached kn kl true (mg 3) 64 mevs1 (fst (mrun false 3 mevs1)) ms1 /\
  exists p, p < 3 /\ map (fun k => lastv N.eqb k (unpack kn (stored (mg 3) (f_mem (s_fl ms1)) p))) [1; 3; 4; 5]%N = map mm1 [1; 3; 4; 5]%N.
Proof. split; [exact ms1_reached|]. exists 1. split; [lia|]. vm_compute. reflexivity. Qed.

(** Bytes.  The item [1; 2; 3; 4; 5] on words of 8 bytes. *)
Definition item12345 : list N := [83; 28; 199; 41;  5; 0;  220; 229;  1; 2; 3; 4; 5; 0; 0; 0]%N.
Example c39_case_bytes :
  rd (f_mem (s_fl (snd (q_run cg st0 [ECall (QPush [1; 2; 3; 4; 5]%N false) None])))) 0 32 =
  repeat 0%N 8 ++ item12345 ++ repeat 255%N 8.
Proof. vm_compute. reflexivity. Qed.

(** A hand-written image of three pages of 64 bytes: a full page with a removed and a kept item, a current page, an erased page. *)
Definition by_hand : list N :=
  (repeat 255 64 ++
   [0; 0; 0; 0; 255; 255; 255; 255] ++
   [0; 0; 0; 0;  2; 0;  238; 242;  7; 42; 255; 255; 255; 255; 255; 255] ++
   item12345 ++ repeat 255 16 ++ repeat 0 8 ++
   [0; 0; 0; 0; 0; 0; 0; 0] ++
   [22; 10; 162; 221;  4; 0;  132; 247;  9; 1; 2; 3; 0; 0; 0; 0] ++ repeat 255 40)%N.
Definition hand_flash : flash := mkflash (fun x => nth x by_hand 255%N) (fun _ => 0) [] None false 0 [].
Definition hand_full : list (list (list N * bool)) := [[([7; 42], false); ([1; 2; 3; 4; 5], true)]]%N.
Definition hand_cur : option (list (list N * bool)) := Some [([9; 1; 2; 3]%N, true)].

Lemma range (P : nat -> Prop) (b : nat -> bool) lo hi : (forall x, b x = true -> P x) -> forallb b (seq lo (hi - lo)) = true -> forall x, lo <= x < hi -> P x.
Proof. intros H F x X. apply H. rewrite forallb_forall in F. apply F. apply in_seq. lia. Qed.
Ltac ran := match goal with |- forall x, _ <= x < _ -> ?m x = ?v => apply (range _ (fun x => N.eqb (m x) v)); [intros ? ?; now apply N.eqb_eq|vm_compute; reflexivity] end.
Lemma hand_image : image (mg 3) (f_mem hand_flash) 1 hand_full hand_cur 1.
Proof.
  split; [cbn; lia|]. change (ring (mg 3) 1) with [1; 2; 0]. cbn [map app repeat hand_full hand_cur].
  constructor; [|constructor; [|constructor; [|constructor]]]; cbn [page_at].
  - split; [vm_compute; reflexivity|]. split; [|ran]. cbn [items_at]. repeat split; try (vm_compute; reflexivity); try (apply Nat.leb_le; vm_compute; reflexivity). ran.
  - split; [vm_compute; reflexivity|]. split; [|ran]. cbn [items_at]. repeat split; try (vm_compute; reflexivity); try (apply Nat.leb_le; vm_compute; reflexivity). ran.
  - ran.
Qed.
Lemma hand_device : device hand_flash.
Proof.
  split; [|split; auto]. intros x. unfold hand_flash. cbn [f_mem]. destruct (Nat.lt_ge_cases x (length by_hand)) as [L|L].
  - apply (range (fun x => is_byte (nth x by_hand 255%N)) (fun x => N.ltb (nth x by_hand 255%N) 256) 0 (length by_hand)); [intros y; apply N.ltb_lt|vm_compute; reflexivity|lia].
  - rewrite nth_overflow by auto. reflexivity.
Qed.
Lemma mg3_ok : geom_ok (mg 3).
Proof. unfold geom_ok. cbn. lia. Qed.
Definition hand_cache : cache unit := mkcache false (PSArray (repeat None 3)) (PPArray (repeat None 3) (repeat None 3)) KPNone.

(** The queue on it delivers the two kept items; so does the model. *)
Example c40_case_queue : setting false (mg 3) (f_ae hand_flash) (f_aw hand_flash) /\ device hand_flash /\ image (mg 3) (f_mem hand_flash) 1 hand_full hand_cur 1 /\
  fst (q_run (mg 3) (st_new hand_flash cc) [ECall (QPop kb) None; ECall (QPush [3]%N false) None; ECall (QPop kb) None; ECall (QPop kb) None; ECall (QPop kb) None]) =
  [AItem (Ok (Some [1; 2; 3; 4; 5]%N)); AUnit (Ok tt); AItem (Ok (Some [9; 1; 2; 3]%N)); AItem (Ok (Some [3]%N)); AItem (Ok None)].
Proof.
  split; [split; [apply mg3_ok|discriminate]|]. split; [apply hand_device|]. split; [apply hand_image|]. vm_compute. reflexivity.
Qed.
(** As a map: key 1 has the value 2 3 4 5, key 9 the value 1 2 3, key 7 was removed. *)
Example c40_case_map : Forall (map_item kn kl false (mg 3) 64) (kept_in hand_full hand_cur) /\
  fst (m_run kn (mg 3) (st_new hand_flash (mc 3 2)) [Fet 1; Fet 7; Fet 9; MCall (MStore kb 1%N [8]%N) None; Fet 1]) =
  [RVal (Ok (Some [2; 3; 4; 5]%N)); RVal (Ok None); RVal (Ok (Some [1; 2; 3]%N)); RUnit (Ok tt); RVal (Ok (Some [8]%N))].
Proof.
  split; [|vm_compute; reflexivity]. assert (B : forall d, bytesb d && no_collisionb d = true -> item_ok false d) by (intros d; apply item_okb).
  constructor; [|constructor; [|constructor]].
  - split; [exists 1%N, [2; 3; 4; 5]%N, 64; split; reflexivity|]. split; [apply B; vm_compute; reflexivity|]. apply Nat.leb_le. vm_compute. reflexivity.
  - split; [exists 9%N, [1; 2; 3]%N, 64; split; reflexivity|]. split; [apply B; vm_compute; reflexivity|]. apply Nat.leb_le. vm_compute. reflexivity.
Qed.
