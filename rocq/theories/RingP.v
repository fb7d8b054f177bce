(** The RAM ring refines a bounded first-in-first-out list. *)
From Coq Require Import List NArith ZArith Arith Bool Lia ZifyBool ZifyNat ZifyN.
From Verif Require Import Base BaseP Flash Cache State Queue Buffered.
Import ListNotations.

(** * Specification: a list of byte strings with a byte budget of two bytes plus the length per string. *)
Definition cost (q : list (list N)) : nat := list_sum (map (fun d => 2 + length d) q).

Definition short (d : list N) : Prop := (N.of_nat (length d) <= 65535)%N.

Inductive rop := RPush (d : list N) | RPushOw (d : list N) | RPeek (bl : nat) | RDiscard | RLen | REmpty | ROldest | RUsed | RFree.
Inductive robs := RBool (b : bool) | RData (o : option (list N)) | RUnit | RNum (n : nat) | RONum (o : option nat).

(** Drop the fewest oldest strings so that [need] bytes fit. *)
Fixpoint drop_until (cap need : nat) (q : list (list N)) : list (list N) :=
  match q with
  | [] => []
  | d :: t => if cost q + need <=? cap then q else drop_until cap need t
  end.

Definition fifo_step (cap : nat) (q : list (list N)) (o : rop) : robs * list (list N) :=
  match o with
  | RPush d => if (N.of_nat (length d) <=? 65535)%N && (cost q + (2 + length d) <=? cap)
               then (RBool true, q ++ [d]) else (RBool false, q)
  | RPushOw d => if (N.of_nat (length d) <=? 65535)%N && (2 + length d <=? cap)
                 then (RBool true, drop_until cap (2 + length d) q ++ [d]) else (RBool false, q)
  | RPeek bl => (RData (match q with d :: _ => if length d <=? bl then Some d else None | [] => None end), q)
  | RDiscard => (RUnit, tl q)
  | RLen => (RNum (length q), q)
  | REmpty => (RBool (match q with [] => true | _ => false end), q)
  | ROldest => (RONum (match q with d :: _ => Some (length d) | [] => None end), q)
  | RUsed => (RNum (cost q), q)
  | RFree => (RONum (Some (cap - cost q)), q)
  end.

(** The same operations on the model of the ring. *)
Definition ring_step (r : ring) (o : rop) : robs * ring :=
  match o with
  | RPush d => match ring_push r d with Some r' => (RBool true, r') | None => (RBool false, r) end
  | RPushOw d => match ring_push_ow r d with Some r' => (RBool true, r') | None => (RBool false, r) end
  | RPeek bl => (RData (ring_peek r bl), r)
  | RDiscard => (RUnit, ring_discard r)
  | RLen => (RNum (ring_len r), r)
  | REmpty => (RBool (ring_is_empty r), r)
  | ROldest => (RONum (oldest_len r), r)
  | RUsed => (RNum (ring_bytes_used r), r)
  | RFree => (RONum (ring_free r), r)
  end.

Fixpoint runs {S O R} (step : S -> O -> R * S) (s : S) (l : list O) : list R * S :=
  match l with
  | [] => ([], s)
  | o :: t => let '(r, s') := step s o in let '(rs, s'') := runs step s' t in (r :: rs, s'')
  end.

(** * Proof *)
Definition enc1 (d : list N) : list N := le_bytes 2 (N.of_nat (length d)) ++ d.
Definition enc (q : list (list N)) : list N := flat_map enc1 q.

Definition ringc (buf : list N) (rp n : nat) : list N :=
  map (fun i => nth ((rp + i) mod length buf) buf 0%N) (seq 0 n).

Record ring_rep (r : ring) (q : list (list N)) : Prop := {
  rr_short : Forall short q;
  rr_used : r_used r = length (enc q);
  rr_cnt : r_cnt r = length q;
  rr_cap : r_used r <= r_cap r;
  rr_rp : r_rp r < r_cap r \/ (r_cap r = 0 /\ r_rp r = 0);
  rr_wp : r_wp r = (r_rp r + r_used r) mod r_cap r;
  rr_c : ringc (r_buf r) (r_rp r) (r_used r) = enc q }.

Lemma enc1_length d : length (enc1 d) = 2 + length d.
Proof. unfold enc1. now rewrite app_length, le_bytes_length. Qed.

Lemma enc_length q : length (enc q) = cost q.
Proof.
  unfold cost, enc. induction q; cbn [flat_map map list_sum fold_right]; auto.
  rewrite app_length, enc1_length, IHq. reflexivity.
Qed.

Lemma mod_neq a i n c : i < n -> n < c -> (a + i) mod c <> (a + n) mod c.
Proof.
  intros. intro E.
  pose proof (Nat.div_mod (a + i) c ltac:(lia)) as A. pose proof (Nat.div_mod (a + n) c ltac:(lia)) as B.
  rewrite E in A. set (x := (a + i) / c) in *. set (y := (a + n) / c) in *.
  assert (c * y = c * x + (n - i)) by lia. assert (y > x \/ y <= x) as [|] by lia; nia.
Qed.

Lemma ringc_set_other buf rp n i b : (forall j, j < n -> (rp + j) mod length buf <> i) ->
  ringc (list_set buf i b) rp n = ringc buf rp n.
Proof.
  intros H. unfold ringc. apply map_ext_in. intros j Hj. apply in_seq in Hj.
  rewrite list_set_length, nth_list_set.
  destruct (Nat.eqb_spec ((rp + j) mod length buf) i); auto. exfalso. eapply H; eauto. lia.
Qed.

Lemma ringc_snoc buf rp n b : n < length buf ->
  ringc (list_set buf ((rp + n) mod length buf) b) rp (S n) = ringc buf rp n ++ [b].
Proof.
  intros H. unfold ringc at 1. rewrite seq_S, map_app. cbn [map]. rewrite Nat.add_0_l.
  fold (ringc (list_set buf ((rp + n) mod length buf) b) rp n).
  rewrite ringc_set_other by (intros; apply mod_neq; lia). f_equal. f_equal.
  rewrite list_set_length, nth_list_set, Nat.eqb_refl.
  destruct (Nat.ltb_spec ((rp + n) mod length buf) (length buf)); auto.
  pose proof (Nat.mod_upper_bound (rp + n) (length buf)). lia.
Qed.

Lemma fold_bytes bs : forall r n, n + length bs <= r_cap r -> r_wp r = (r_rp r + n) mod r_cap r ->
  let r' := fold_left ring_byte bs r in
  r_cap r' = r_cap r /\ r_rp r' = r_rp r /\ r_used r' = r_used r /\ r_cnt r' = r_cnt r /\
  r_wp r' = (r_rp r + (n + length bs)) mod r_cap r /\
  ringc (r_buf r') (r_rp r) (n + length bs) = ringc (r_buf r) (r_rp r) n ++ bs.
Proof.
  induction bs as [|b bs IH]; intros r n Hn Hw.
  - cbn. rewrite Nat.add_0_r, app_nil_r. repeat split; auto.
  - cbn [fold_left length] in *.
    assert (C : r_cap (ring_byte r b) = r_cap r) by (unfold r_cap, ring_byte; cbn; now rewrite list_set_length).
    specialize (IH (ring_byte r b) (S n)).
    rewrite C in IH. cbn zeta in *. destruct IH as (A1 & A2 & A3 & A4 & A5 & A6); [lia| |].
    + unfold ring_byte at 1 2; cbn [r_wp r_rp]. rewrite Hw.
      rewrite Nat.add_mod_idemp_l by lia. f_equal. lia.
    + rewrite A1, A2, A3, A4, A5. repeat split; auto.
      * unfold ring_byte; cbn [r_rp]. f_equal. lia.
      * change (r_rp (ring_byte r b)) with (r_rp r) in A6.
        replace (n + S (length bs)) with (S n + length bs) by lia. rewrite A6.
        unfold ring_byte; cbn [r_buf r_rp]. rewrite Hw. unfold r_cap. rewrite ringc_snoc by (unfold r_cap in *; lia).
        now rewrite <- app_assoc.
Qed.

Lemma ringc_split buf rp n m : ringc buf rp (n + m) = ringc buf rp n ++ map (fun i => nth ((rp + n + i) mod length buf) buf 0%N) (seq 0 m).
Proof.
  unfold ringc. rewrite seq_app, map_app. f_equal. rewrite Nat.add_0_l.
  replace (seq n m) with (map (fun i => n + i) (seq 0 m)).
  - rewrite map_map. apply map_ext. intros. f_equal. f_equal. lia.
  - clear. revert n. induction m; intros; cbn; auto. f_equal; [lia|].
    rewrite <- seq_shift, map_map. rewrite <- (IHm (S n)). apply map_ext. intros; lia.
Qed.

Lemma ringc_shift buf rp n m : 0 < length buf ->
  map (fun i => nth ((rp + n + i) mod length buf) buf 0%N) (seq 0 m) = ringc buf ((rp + n) mod length buf) m.
Proof.
  intros. unfold ringc. apply map_ext. intros. f_equal. rewrite Nat.add_mod_idemp_l by lia. reflexivity.
Qed.

Lemma rep_new n : ring_rep (ring_new n) [].
Proof.
  constructor; unfold ring_new, r_cap; cbn; auto; rewrite ?repeat_length; try lia.
  destruct n; [reflexivity|]. symmetry. apply Nat.mod_0_l. lia.
Qed.

Lemma rep_raw r q d : ring_rep r q -> short d -> r_used r + (2 + length d) <= r_cap r ->
  ring_rep (ring_raw r d) (q ++ [d]).
Proof.
  intros [R1 R2 R3 R4 R5 R6 R7] Hs Hc.
  pose proof (fold_bytes (enc1 d) r (r_used r)) as F. cbn zeta in F. rewrite enc1_length in F.
  destruct F as (A1 & A2 & A3 & A4 & A5 & A6); [lia|auto|].
  unfold ring_raw. fold (enc1 d). set (r' := fold_left ring_byte (enc1 d) r) in *. clearbody r'.
  assert (EE : enc (q ++ [d]) = enc q ++ enc1 d) by (unfold enc; rewrite flat_map_app; cbn; now rewrite app_nil_r).
  constructor; unfold r_cap in *; cbn [r_buf r_rp r_wp r_used r_cnt].
  - apply Forall_app; auto.
  - rewrite EE, app_length, enc1_length. lia.
  - rewrite app_length. cbn. lia.
  - lia.
  - rewrite A1, A2. auto.
  - rewrite A5, A2, A3, A1. reflexivity.
  - rewrite A3, A2, A6, EE, R7. reflexivity.
Qed.

Lemma nth_ringc buf rp n i : i < n -> nth i (ringc buf rp n) 0%N = nth ((rp + i) mod length buf) buf 0%N.
Proof.
  intros. unfold ringc. rewrite (nth_indep _ _ (nth ((rp + 0) mod length buf) buf 0%N)) by (rewrite map_length, seq_length; lia).
  rewrite (map_nth (fun i => nth ((rp + i) mod length buf) buf 0%N)). now rewrite seq_nth.
Qed.

Lemma rep_oldest r q : ring_rep r q ->
  oldest_len r = match q with d :: _ => Some (length d) | [] => None end.
Proof.
  intros [R1 R2 R3 R4 R5 R6 R7]. unfold oldest_len. rewrite R3. destruct q as [|d q]; cbn [length]; auto.
  cbn [Nat.eqb]. f_equal.
  assert (Hu : r_used r = 2 + length d + length (enc q)).
  { rewrite R2. cbn [enc flat_map]. rewrite app_length, enc1_length. reflexivity. }
  assert (H0 : nth 0 (ringc (r_buf r) (r_rp r) (r_used r)) 0%N = nth (r_rp r) (r_buf r) 0%N).
  { rewrite nth_ringc by lia. rewrite Nat.add_0_r, Nat.mod_small; auto. unfold r_cap in *. lia. }
  assert (H1 : nth 1 (ringc (r_buf r) (r_rp r) (r_used r)) 0%N = nth ((r_rp r + 1) mod r_cap r) (r_buf r) 0%N).
  { rewrite nth_ringc by lia. reflexivity. }
  rewrite <- H0, <- H1, R7.
  change (N.to_nat (le_val (le_bytes 2 (N.of_nat (length d)))) = length d).
  rewrite le_val_le_bytes; [lia|]. inversion R1; subst. unfold short in *. change (256 ^ N.of_nat 2)%N with 65536%N. lia.
Qed.

Lemma rep_peek r q bl : ring_rep r q ->
  ring_peek r bl = match q with d :: _ => if length d <=? bl then Some d else None | [] => None end.
Proof.
  intros R. unfold ring_peek. rewrite (rep_oldest _ _ R). destruct q as [|d q]; auto.
  rewrite Nat.ltb_antisym. destruct (Nat.leb_spec (length d) bl); cbn [negb]; auto. f_equal.
  destruct R as [R1 R2 R3 R4 R5 R6 R7]. unfold ring_bytes.
  assert (Hu : r_used r = 2 + (length d + length (enc q))).
  { rewrite R2. cbn [enc flat_map]. rewrite app_length, enc1_length. reflexivity. }
  rewrite Hu, ringc_split in R7.
  assert (E : map (fun i => nth ((r_rp r + 2 + i) mod length (r_buf r)) (r_buf r) 0%N) (seq 0 (length d + length (enc q))) = d ++ enc q).
  { apply (f_equal (skipn 2)) in R7. rewrite skipn_app_exact in R7 by (unfold ringc; now rewrite map_length, seq_length).
    rewrite R7. unfold enc. cbn [flat_map]. unfold enc1. rewrite <- app_assoc. apply skipn_app_exact, le_bytes_length. }
  apply (f_equal (firstn (length d))) in E. rewrite firstn_app_exact in E by reflexivity. rewrite <- E at 2.
  rewrite seq_app, map_app. symmetry. apply firstn_app_exact. now rewrite map_length, seq_length.
Qed.

Lemma rep_discard r q : ring_rep r q -> ring_rep (ring_discard r) (tl q).
Proof.
  intros R. unfold ring_discard. rewrite (rep_oldest _ _ R). destruct q as [|d q]; [exact R|].
  destruct R as [R1 R2 R3 R4 R5 R6 R7]. cbn [tl].
  assert (Hu : r_used r = 2 + length d + length (enc q)).
  { rewrite R2. cbn [enc flat_map]. rewrite app_length, enc1_length. reflexivity. }
  assert (Hu' : r_used r - (2 + length d) = length (enc q)) by lia.
  constructor; unfold r_cap in *; cbn [r_buf r_rp r_wp r_used r_cnt].
  - now inversion R1.
  - exact Hu'.
  - rewrite R3. cbn. lia.
  - lia.
  - left. apply Nat.mod_upper_bound. lia.
  - rewrite R6. rewrite Nat.add_mod_idemp_l by lia. f_equal. lia.
  - rewrite Hu'. rewrite <- Nat.add_assoc. rewrite <- ringc_shift by lia.
    rewrite Hu, ringc_split in R7.
    apply (f_equal (skipn (2 + length d))) in R7. rewrite skipn_app_exact in R7 by (unfold ringc; now rewrite map_length, seq_length).
    rewrite R7. unfold enc. cbn [flat_map]. apply skipn_app_exact, enc1_length.
Qed.

Lemma rep_push r q d : ring_rep r q ->
  match ring_push r d with
  | Some r' => (N.of_nat (length d) <=? 65535)%N && (cost q + (2 + length d) <=? r_cap r) = true /\ ring_rep r' (q ++ [d]) /\ r_cap r' = r_cap r
  | None => (N.of_nat (length d) <=? 65535)%N && (cost q + (2 + length d) <=? r_cap r) = false
  end.
Proof.
  intros R. unfold ring_push.
  rewrite N.ltb_antisym. destruct (N.leb_spec (N.of_nat (length d)) 65535); cbn [negb andb]; auto.
  pose proof (rr_used _ _ R) as U. rewrite enc_length in U.
  rewrite Nat.ltb_antisym, U. destruct (Nat.leb_spec (cost q + (2 + length d)) (r_cap r)); cbn [negb]; auto.
  split; auto. split.
  - apply rep_raw; auto; lia.
  - unfold ring_raw, r_cap. cbn [r_buf]. fold (enc1 d).
    pose proof (fold_bytes (enc1 d) r (r_used r)) as F. cbn zeta in F. rewrite enc1_length in F.
    destruct F as (A1 & _); [lia|apply R|]. exact A1.
Qed.

Lemma cap_discard r : r_cap (ring_discard r) = r_cap r.
Proof. unfold ring_discard. destruct (oldest_len r); reflexivity. Qed.

Lemma rep_evict need : forall q r, ring_rep r q -> need <= r_cap r ->
  exists r', ring_evict (r_cnt r) r need = Some r' /\ ring_rep r' (drop_until (r_cap r) need q) /\ r_cap r' = r_cap r /\
             r_used r' + need <= r_cap r.
Proof.
  induction q as [|d q IH]; intros r R Hn.
  - pose proof (rr_used _ _ R) as U. cbn in U. rewrite (rr_cnt _ _ R). cbn [length ring_evict].
    destruct (Nat.ltb_spec (r_cap r) (r_used r + need)); [lia|]. exists r. cbn. repeat split; auto; apply R.
  - pose proof (rr_used _ _ R) as U. rewrite enc_length in U. rewrite (rr_cnt _ _ R). cbn [length ring_evict drop_until].
    rewrite Nat.ltb_antisym, U. destruct (Nat.leb_spec (cost (d :: q) + need) (r_cap r)); cbn [negb].
    + exists r. repeat split; auto; try apply R. lia.
    + pose proof (rep_discard _ _ R) as R'. cbn [tl] in R'.
      destruct (IH _ R') as (r' & E & A & B & C); [rewrite cap_discard; auto|].
      rewrite (rr_cnt _ _ R') in E. rewrite cap_discard in *. exists r'. auto.
Qed.

Lemma rep_step r q o : ring_rep r q ->
  let '(b, r') := ring_step r o in let '(b', q') := fifo_step (r_cap r) q o in
  b = b' /\ ring_rep r' q' /\ r_cap r' = r_cap r.
Proof.
  intros R. destruct o; cbn [ring_step fifo_step].
  - pose proof (rep_push _ _ d R) as P. destruct (ring_push r d); [destruct P as (-> & ? & ?)|rewrite P]; auto.
  - unfold ring_push_ow.
    rewrite N.ltb_antisym. destruct (N.leb_spec (N.of_nat (length d)) 65535); cbn [negb andb]; auto.
    rewrite Nat.ltb_antisym. destruct (Nat.leb_spec (2 + length d) (r_cap r)); cbn [negb]; auto.
    destruct (rep_evict (2 + length d) _ _ R H0) as (r' & -> & A & B & C).
    split; auto. pose proof (rep_push _ _ d A) as P. unfold ring_push in P.
    rewrite N.ltb_antisym in P. destruct (N.leb_spec (N.of_nat (length d)) 65535); [|lia]. cbn [negb andb] in P.
    rewrite Nat.ltb_antisym in P. rewrite B in P.
    destruct (Nat.leb_spec (r_used r' + (2 + length d)) (r_cap r)); [|lia]. cbn [negb] in P. intuition.
  - rewrite (rep_peek _ _ _ R). auto.
  - split; auto. split; [now apply rep_discard|apply cap_discard].
  - unfold ring_len. rewrite (rr_cnt _ _ R). auto.
  - unfold ring_is_empty. rewrite (rr_cnt _ _ R). now destruct q.
  - rewrite (rep_oldest _ _ R). auto.
  - unfold ring_bytes_used. rewrite (rr_used _ _ R), enc_length. auto.
  - pose proof (rr_used _ _ R) as U. pose proof (rr_cap _ _ R) as C. rewrite enc_length in U. unfold ring_free. destruct (Nat.ltb_spec (r_cap r) (r_used r)); [lia|]. rewrite U. auto.
Qed.

Lemma rep_runs l : forall r q, ring_rep r q ->
  fst (runs ring_step r l) = fst (runs (fifo_step (r_cap r)) q l).
Proof.
  induction l as [|o l IH]; intros r q R; cbn [runs]; auto.
  pose proof (rep_step _ _ o R) as P.
  destruct (ring_step r o) as [b r']. destruct (fifo_step (r_cap r) q o) as [b' q'].
  destruct P as (-> & R' & C). specialize (IH _ _ R'). rewrite C in IH.
  destruct (runs ring_step r' l), (runs (fifo_step (r_cap r)) q' l). cbn in *. congruence.
Qed.

Lemma ring_refines_fifo n l :
  fst (runs ring_step (ring_new n) l) = fst (runs (fifo_step n) [] l).
Proof.
  pose proof (rep_runs l _ _ (rep_new n)) as P.
  replace (r_cap (ring_new n)) with n in P by (symmetry; apply repeat_length). exact P.
Qed.

(** What the specification's eviction does: a suffix is kept, it fits, and one more would not have fit. *)
Lemma drop_until_spec cap need q : need <= cap ->
  exists gone, q = gone ++ drop_until cap need q /\ cost (drop_until cap need q) + need <= cap /\
    (forall g1 d, gone = g1 ++ [d] -> cap < cost (d :: drop_until cap need q) + need).
Proof.
  intros Hn. induction q as [|d q IH].
  - exists []. cbn. repeat split; auto. intros g1 d E. destruct g1; discriminate.
  - cbn [drop_until]. destruct (Nat.leb_spec (cost (d :: q) + need) cap).
    + exists []. repeat split; auto. intros g1 d' E. destruct g1; discriminate.
    + destruct IH as (g & E & F & L). exists (d :: g). split; [cbn; congruence|]. split; auto.
      intros g1 d' E'. destruct g as [|x g].
      * destruct g1; cbn in E'; [|destruct g1; discriminate]. injection E' as <-. cbn in E. rewrite <- E. exact H.
      * destruct g1 as [|y g1]; cbn in E'; injection E' as -> E'; [destruct g; discriminate|]. eapply L. exact E'.
Qed.

Example ring_wraps :
  fst (runs ring_step (ring_new 10) [RPush [1;2;3]; RPush [4;5;6]; RPush [7]; RDiscard; RPush [8;9;10]; RPeek 8; RDiscard; RPeek 8;
     RPushOw [1;2;3;4;5;6]; RLen]%N)
  = [RBool true; RBool true; RBool false; RUnit; RBool true; RData (Some [4;5;6]); RUnit; RData (Some [8;9;10]); RBool true; RNum 1]%N.
Proof. vm_compute. reflexivity. Qed.
