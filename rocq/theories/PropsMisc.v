(** Claims about items on flash, configurations and caches.  Statements only; proofs are in the [...P] files. *)
From Coq Require Import List NArith ZArith Arith Bool Lia.
From Verif Require Import Base BaseP Crc CrcP Flash Cache State Item Config ConfigP KeyP KeySpecP CalcHistP ScanP WpP QSpec QObs QCase ItemSpecP.
Import ListNotations.

(** C19: items written one after the other to erased flash are found in this order, at their addresses, with their bytes; nothing else is
    found, nothing outside is changed.  [finds] is repeated [item_next]: the scan every call uses. *)
Theorem c19_items_read_back {K} g (gok : geom_ok g) e ds (s : st K) a : area g a e s -> blank (s_fl s) a e -> f_fuel (s_fl s) = None -> Forall is_data ds ->
  a + total g ds <= e -> exists s', write_all g a ds s = (Ok (a + total g ds), s') /\ finds g e s' a (placed g a ds) /\
    forall x, x < a \/ a + total g ds <= x -> f_mem (s_fl s') x = f_mem (s_fl s) x.
Proof. exact (items_read_back g gok e ds s a). Qed.

(** Pages of 128 bytes, words of 4 bytes. *)
Definition ig : geom := mkgeom 1 4 128 0 3.
Definition ids : list (list N) := [it 1 5; []; repeat 255%N 7; repeat 0%N 4].
Definition ist : st unit := set_buf st0 (repeat 0%N 128).
Lemma ig_ok : geom_ok ig. Proof. unfold geom_ok. cbn. lia. Qed.
Lemma ids_data : Forall is_data ids.
Proof. repeat constructor; try (apply bytesb_ok; vm_compute; reflexivity); vm_compute; discriminate. Qed.
Lemma ist_area : area ig 4 124 ist /\ blank (s_fl ist) 4 124.
Proof. split; [repeat split; cbn; lia|intros x _; reflexivity]. Qed.
Example c19_case : exists s', write_all ig 4 ids ist = (Ok 56, s') /\ finds ig 124 s' 4 [(4, it 1 5); (20, []); (28, repeat 255%N 7); (44, repeat 0%N 4)].
Proof.
  destruct (c19_items_read_back ig ig_ok 124 ids ist 4) as (s' & E & F & _); [apply ist_area|apply ist_area|reflexivity|apply ids_data|vm_compute; lia|].
  exists s'. split; [exact E|exact F].
Qed.

(** C21: a torn write of one more item: the scan finds the items before, and possibly the complete new item; nothing else.  What follows is erased. *)
Theorem c21_torn_write {K} g (gok : geom_ok g) e ds (s : st K) a s1 d p r s2 : area g a e s -> blank (s_fl s) a e -> f_fuel (s_fl s) = None -> Forall is_data ds ->
  is_data d -> no_collision d -> 8 <= W g \/ HL g <= f_aw (s_fl s) -> a + total g (ds ++ [d]) <= e ->
  write_all g a ds s = (Ok (a + total g ds), s1) -> write_new g (a + total g ds) d (with_power p s1) = (r, s2) ->
  (r = Ok tt /\ finds g e s2 a (placed g a (ds ++ [d])) \/
   r = Err (EStorage SShutoff) /\ (finds g e s2 a (placed g a ds) \/ finds g e s2 a (placed g a (ds ++ [d])))) /\
  exists b, traverse g (tfuel a e) (fun _ => true) a e s2 = (Ok (None, b, b), s2) /\ blank (s_fl s2) b e.
Proof. exact (item_torn g gok e ds s a s1 d p r s2). Qed.
(** C21: a torn removal leaves the item or not; the others stay.  First for pages written as above, then for any page (words of 8 bytes or more). *)
Theorem c21_torn_removal {K} g (gok : geom_ok g) e ds (s : st K) a s1 L1 ad d L2 p r s2 : area g a e s -> blank (s_fl s) a e -> f_fuel (s_fl s) = None ->
  is_mem (f_mem (s_fl s)) -> Forall is_data ds -> a + total g ds <= e ->
  write_all g a ds s = (Ok (a + total g ds), s1) -> placed g a ds = L1 ++ (ad, d) :: L2 -> erase_data g (mkhdr (length d) (Some (acrc d))) ad (with_power p s1) = (r, s2) ->
  (r = Ok tt /\ finds g e s2 a (L1 ++ L2)) \/
  (r = Err (EStorage SShutoff) /\ p <> None /\ (finds g e s2 a (L1 ++ L2) \/ finds g e s2 a (L1 ++ (ad, d) :: L2))).
Proof. exact (removal_cases g gok e ds s a s1 L1 ad d L2 p r s2). Qed.
Theorem c21_torn_removal_any_page {K} g (gok : geom_ok g) e (s : st K) a L1 ad d L2 r s2 : 8 <= W g -> area g a e s -> is_mem (f_mem (s_fl s)) ->
  finds g e s a (L1 ++ (ad, d) :: L2) -> erase_data g (mkhdr (length d) (Some (acrc d))) ad s = (r, s2) ->
  (r = Ok tt /\ finds g e s2 a (L1 ++ L2)) \/
  (r = Err (EStorage SShutoff) /\ f_fuel (s_fl s) <> None /\ (finds g e s2 a (L1 ++ L2) \/ finds g e s2 a (L1 ++ (ad, d) :: L2))).
Proof. exact (removal_any_cases g gok e s a L1 ad d L2 r s2). Qed.

(** Words of 8 bytes; power lost 3, 8, 20, 23 bytes into writing an item of 8 + 13 bytes and 3 bytes of padding; 0, 2, 8 bytes into a removal. *)
Definition itorn (p : nat) : res unit * st unit :=
  let '(_, s1) := write_all cg 8 [it 1 5] ist in write_new cg 24 (it 3 13) (with_power (Some p) s1).
Definition ihas (s : st unit) : list (nat * list N) :=
  (fix go n a s := match n with 0 => [] | S n => match item_next cg (tfuel a 120) a 120 s with
     | (Ok (Some (h, ad), nx), s') => (ad, firstn (h_len h) (s_buf s')) :: go n nx s' | _ => [] end end) 5 8 s.
Example c21_case : map (fun p => ihas (snd (itorn p))) [3; 8; 20; 23] =
  [[(8, it 1 5)]; [(8, it 1 5)]; [(8, it 1 5)]; [(8, it 1 5); (24, it 3 13)]] /\ no_collision (it 3 13) /\ is_data (it 3 13).
Proof.
  split; [vm_compute; reflexivity|]. split; [apply no_collisionb_ok; vm_compute; reflexivity|]. split; [apply bytesb_ok; vm_compute; reflexivity|vm_compute; discriminate].
Qed.
Definition irem (p : nat) : res unit * st unit :=
  let '(_, s1) := write_all cg 8 [it 1 5; it 3 13; it 7 2] ist in erase_data cg (mkhdr 13 (Some (acrc (it 3 13)))) 24 (with_power (Some p) s1).
Example c21_removal_case : map (fun p => ihas (snd (irem p))) [0; 2; 8] =
  [[(8, it 1 5); (24, it 3 13); (48, it 7 2)]; [(8, it 1 5); (48, it 7 2)]; [(8, it 1 5); (48, it 7 2)]].
Proof. vm_compute. reflexivity. Qed.

(** C20: on any page, whatever else it contains: if the memory changes only inside the data of one item that the scan finds, the scan still finds
    every other item; the damaged item is skipped unless its new data has the same checksum. *)
Theorem c20_damage_isolated {K} g (gok : geom_ok g) e (s s' : st K) a L1 ad d L2 : area g a e s -> area g a e s' -> finds g e s a (L1 ++ (ad, d) :: L2) ->
  (forall x, ~ ad + HL g <= x < ad + HL g + length d -> f_mem (s_fl s') x = f_mem (s_fl s) x) ->
  let d' := rd (f_mem (s_fl s')) (ad + HL g) (length d) in
  finds g e s' a (L1 ++ (if (acrc d' =? acrc d)%N then [(ad, d')] else []) ++ L2).
Proof. exact (damage_isolated g gok e s s' a L1 ad d L2). Qed.
Example c20_damage_case : exists s s' : st unit, finds ig 124 s 4 ([(4, it 1 5); (20, [])] ++ (28, repeat 255%N 7) :: [(44, repeat 0%N 4)]) /\
  f_mem (s_fl s') 38 <> f_mem (s_fl s) 38 /\ finds ig 124 s' 4 [(4, it 1 5); (20, []); (44, repeat 0%N 4)].
Proof.
  destruct (c19_items_read_back ig ig_ok 124 ids ist 4) as (s & E & F & _); [apply ist_area|apply ist_area|reflexivity|apply ids_data|vm_compute; lia|].
  assert (SB : length (s_buf s) = 128) by (replace s with (snd (write_all ig 4 ids ist)) by (now rewrite E); vm_compute; reflexivity).
  set (f' := s_fl s). set (s' := set_fl s (mkflash (fun x => if x =? 38 then 7%N else f_mem (s_fl s) x) (f_wc f') (f_er f') (f_fuel f') (f_ae f') (f_aw f') (f_bad f'))).
  assert (M : f_mem (s_fl s) 38 = 255%N) by (replace s with (snd (write_all ig 4 ids ist)) by (now rewrite E); vm_compute; reflexivity).
  exists s, s'. split; [exact F|]. split; [rewrite M; discriminate|].
  assert (AR : area ig 4 124 s) by (repeat split; cbn; lia).
  pose proof (c20_damage_isolated ig ig_ok 124 s s' 4 [(4, it 1 5); (20, [])] 28 (repeat 255%N 7) [(44, repeat 0%N 4)] AR AR F) as X. cbv zeta in X.
  assert (RD : rd (f_mem (s_fl s')) (28 + HL ig) (length (repeat 255%N 7)) = [255;255;7;255;255;255;255]%N).
  { unfold s'. replace s with (snd (write_all ig 4 ids ist)) by (now rewrite E). vm_compute. reflexivity. }
  rewrite RD in X. assert (Q : (acrc [255;255;7;255;255;255;255] =? acrc (repeat 255 7))%N = false) by (vm_compute; reflexivity). rewrite Q in X. apply X.
  intros x Hx. unfold s'. cbn [s_fl set_fl f_mem]. destruct (Nat.eqb_spec x 38) as [->|]; auto. exfalso. apply Hx. cbn. lia.
Qed.

(** C28: with overflow checks (debug builds, constants), or any build when the range is not reversed: accepted exactly when both ends are page boundaries, the range is not reversed, it holds
    [pages] pages (2 for a map, 1 for a queue), a page holds two markers, an item header and one word, and words have at most 32 bytes. *)
Theorem c28_accepted_partial checks z a b w h : (a < 2 ^ 32 -> b < 2 ^ 32 -> 0 < z_rs z -> w = N.max (z_rs z) (z_ws z) -> h mod w = 0 -> 8 <= h < 8 + w -> checks = true \/ a <= b ->
  let ok := fun pages => a mod z_es z = 0 /\ b mod z_es z = 0 /\ a <= b /\ pages * z_es z <= b - a /\ 3 * w + h <= z_es z /\ w <= 32 in
  (map_try_new checks z a b = None <-> ok 2) /\ (queue_try_new checks z a b = None <-> ok 1))%N.
Proof. exact (fun A B C D E F G => conj (accepted_iff' checks 2 z a b w h A B C D E F G) (accepted_iff' checks 1 z a b w h A B C D E F G)). Qed.
(** C28: an accepted configuration of a flash with sane sizes is one all other claims apply to; a map has two pages. *)
Theorem c28_accepted_is_usable z a b : (a < 2 ^ 32 -> b < 2 ^ 32 -> 0 < z_rs z -> 0 < z_ws z ->
  (z_ws z mod z_rs z = 0 \/ z_rs z mod z_ws z = 0) -> z_es z mod z_word z = 0 ->
  (map_try_new true z a b = None -> geom_ok (geom_of z a b) /\ (2 <= NP (geom_of z a b))%nat /\ FEND (geom_of z a b) = N.to_nat b) /\
  (queue_try_new true z a b = None -> geom_ok (geom_of z a b) /\ (1 <= NP (geom_of z a b))%nat /\ FEND (geom_of z a b) = N.to_nat b))%N.
Proof. exact (fun A B C D E F => conj (accepted_geom 2 z a b A B ltac:(lia) C D E F) (accepted_geom 1 z a b A B ltac:(lia) C D E F)). Qed.
Example c28_case : map_try_new true (mkfsizes 1 4 4096) 0x1000 0x3000 = None /\ map_try_new true (mkfsizes 1 4 4096) 0x1000 0x2000 = Some CTooSmall /\
  queue_try_new true (mkfsizes 1 4 4096) 0x1000 0x2000 = None /\ queue_try_new true (mkfsizes 1 4 4096) 0x1004 0x2000 = Some CStart /\
  queue_try_new true (mkfsizes 1 64 4096) 0x1000 0x2000 = Some CWordTooLarge /\ queue_try_new true (mkfsizes 1 32 64) 0x1000 0x2000 = Some CPagesTooSmall.
Proof. vm_compute. repeat split. Qed.
(** C28 is false for release builds: a reversed range is accepted (the length wraps); debug builds panic on it instead of returning an error. *)
Theorem c28_release_refuted : exists z a b, (b < a)%N /\ map_try_new false z a b = None /\ map_try_new true z a b = Some CPanic.
Proof. exists (mkfsizes 1 4 4096), 0x3000%N, 0x1000%N. vm_compute. repeat split. Qed.

(** C30: whatever evolution of page states and whatever order of looks: the calculated cache never panics and says the truth or nothing. *)
Theorem c30_calculated_states n evs stf c : 1 <= n -> vrun n (fun _ => Some Open) (Some (calc_new n)) evs stf c ->
  exists k, c = Some k /\ forall p, p < n -> calc_get k p = None \/ calc_get k p = stf p.
Proof. exact (fun npos => calc_history n npos evs stf c). Qed.
Ltac ring3 := split; [cbn; lia|]; split; [reflexivity|]; split; [lia|]; split; [lia|]; intros [|[|[|]]] ?; try lia; reflexivity.
Definition cevs : list pev := [VLook 2; VUse 0; VClose 0; VLook 1; VUse 1; VClose 1; VTear 0; VLook 0; VLook 1; VRepair 0; VUse 2; VLook 2; VLook 1].
Example c30_case : exists stf k, vrun 3 (fun _ => Some Open) (Some (calc_new 3)) cevs stf (Some k) /\
  map stf [0; 1; 2] = [Some Open; Some Closed; Some PartialOpen] /\ map (calc_get k) [0; 1; 2] = [None; Some Closed; Some PartialOpen].
Proof.
  eexists _, _. split; [|split].
  - unfold cevs.
    eapply VRCons; [apply VSLook; lia|].
    eapply VRCons; [eapply (VSUse 3 _ 0 0 2 0); [ring3|reflexivity|right; split; reflexivity]|].
    eapply VRCons; [eapply (VSClose 3 _ 0 0 1 0); [ring3|reflexivity]|].
    eapply VRCons; [apply VSLook; lia|].
    eapply VRCons; [eapply (VSUse 3 _ 0 1 1 0); [ring3|reflexivity|left; lia]|].
    eapply VRCons; [eapply (VSClose 3 _ 0 1 0 0); [ring3|reflexivity]|].
    eapply VRCons; [eapply (VSTear 3 _ 0 1 0 1); ring3|].
    eapply VRCons; [apply VSLook; lia|].
    eapply VRCons; [apply VSLook; lia|].
    eapply VRCons; [apply VSRepair; [lia|reflexivity]|].
    eapply VRCons; [eapply (VSUse 3 _ 1 1 1 0); [ring3|reflexivity|left; lia]|].
    eapply VRCons; [apply VSLook; lia|].
    eapply VRCons; [apply VSLook; lia|].
    vm_compute. apply VRNil.
  - vm_compute. reflexivity.
  - vm_compute. reflexivity.
Qed.

(** C31: a lookup returns the address noted last, or nothing; a key that was noted is still found while fewer than [n] other keys were noted since;
    the cache is exactly a bounded most-recently-used list. *)
Theorem c31_lookup_true {K} (keqb : K -> K -> bool) (legal : K -> Prop) : (forall a b, legal a -> legal b -> (keqb a b = true <-> a = b)) ->
  forall n os k a, n <> 0 -> Forall (kop_ok legal) os -> legal k ->
  exists c, kp_steps keqb (KPArray (repeat None n)) os = Some c /\ (kp_get keqb c k = Some a -> last_note keqb k os = Some a).
Proof. exact (key_lookup_true keqb legal). Qed.
Theorem c31_lookup_kept {K} (keqb : K -> K -> bool) (legal : K -> Prop) : (forall a b, legal a -> legal b -> (keqb a b = true <-> a = b)) ->
  forall n os1 os2 k a ks, Forall (kop_ok legal) (os1 ++ KNote k a :: os2) -> length ks < n -> Forall (others keqb k ks) os2 ->
  exists c, kp_steps keqb (KPArray (repeat None n)) (os1 ++ KNote k a :: os2) = Some c /\ kp_get keqb c k = Some a.
Proof. exact (key_lookup_kept keqb legal). Qed.
Theorem c31_lru {K} (keqb : K -> K -> bool) (legal : K -> Prop) : (forall a b, legal a -> legal b -> (keqb a b = true <-> a = b)) ->
  forall n os k, n <> 0 -> Forall (kop_ok legal) os -> legal k ->
  exists c, kp_steps keqb (KPArray (repeat None n)) os = Some c /\ kp_get keqb c k = recall keqb k (fold_left (lru_step keqb n) os []).
Proof. exact (kp_lookup keqb legal). Qed.
Example c31_case : forall c, kp_steps Nat.eqb (KPArray (repeat None 2)) [KNote 1 10; KNote 2 20; KNote 1 11; KNote 3 30; KErase 3] = Some c ->
  map (kp_get Nat.eqb c) [1; 2; 3] = [Some 11; None; None].
Proof. intros c E. vm_compute in E. injection E as <-. reflexivity. Qed.
(** C31 needs at least one place: without, noting a key panics. *)
Theorem c31_no_places_refuted : exists k a, kp_steps Nat.eqb (KPArray (repeat None 0)) [KNote k a] = None.
Proof. exists 1, 1. reflexivity. Qed.

Print Assumptions c19_items_read_back.
Print Assumptions c20_damage_isolated.
Print Assumptions c21_torn_write.
Print Assumptions c21_torn_removal.
Print Assumptions c21_torn_removal_any_page.
Print Assumptions c28_accepted_partial.
Print Assumptions c28_accepted_is_usable.
Print Assumptions c28_release_refuted.
Print Assumptions c30_calculated_states.
Print Assumptions c31_lookup_true.
Print Assumptions c31_lookup_kept.
Print Assumptions c31_lru.
Print Assumptions c31_no_places_refuted.
