(** Proofs for Addr32.v: pages without damage. *)
From Coq Require Import List NArith ZArith Arith Bool Lia ZifyBool ZifyNat ZifyN.
From Verif Require Import Base BaseP Crc CrcP Flash Cache State Item GeomP ScanP FormatSpec FormatP ImageP Addr32 Addr32P.
Import ListNotations.
Local Opaque crc16 acrc crc32.

Section S.
Context {K : Type} (g : geom) (gok : geom_ok g) (chk : bool) (e : nat) (EF : e <= FEND g) (E32 : (N.of_nat e + N.of_nat (HL g) < 2 ^ 32)%N).
Lemma next_top a h : next_addr g a h <= e -> next_addr32 (K := K) g chk a h = ret (next_addr g a h).
Proof.
  intros L. unfold next_addr in L. unfold next_addr32, data_addr32. rewrite plus_ok by lia.
  change (bind (ret (a + HL g)) (fun da => plus32 (K := K) chk da (rup g (h_len h)))) with (plus32 (K := K) chk (a + HL g) (rup g (h_len h))). rewrite plus_ok by lia. reflexivity.
Qed.
Lemma new_top a (s : st K) : al g a -> START g <= a -> a <= e -> hdr_at g (f_mem (s_fl s)) e a <> HBad ->
  read_new32 (R := steady) g chk a (Some e) s = read_new (R := steady) g a (Some e) s.
Proof.
  intros A B C H. unfold read_new32, read_new. rewrite plus_ok by lia. unfold bind at 1. unfold ret at 1. destruct (beyond (Some e) (a + HL g)) eqn:By; [reflexivity|]. cbn in By. apply Nat.ltb_ge in By.
  unfold bind. rewrite read_hdr_eq by (auto; lia). cbv zeta. unfold hdr_at in H. replace (e <? a + HL g) with false in H by lia. cbv zeta in H.
  destruct (all_ff _); [reflexivity|]. destruct (lcrc_ok _); [|reflexivity]. cbn [negb] in H.
  destruct (e <? next_addr g a (hdr_of (rd (f_mem (s_fl s)) a (HL g)))) eqn:En; [congruence|]. apply Nat.ltb_ge in En. rewrite (next_top a) by assumption. reflexivity.
Qed.
Lemma first_at l a (s : st K) : bytes_in s -> items_at g (f_mem (s_fl s)) a e l ->
  match l with [] => hdr_at g (f_mem (s_fl s)) e a = HEnd
  | (d, kept) :: t => exists h, h_len h = length d /\ hdr_at g (f_mem (s_fl s)) e a = HOk h /\ next_addr g a h <= e /\ items_at g (f_mem (s_fl s)) (next_addr g a h) e t end.
Proof.
  intros M I. destruct l as [|[d kept] l]; cbn [items_at] in I; [apply ff_end; auto|]. destruct I as (I1 & I2 & I3). destruct (item_slot g gok _ _ _ _ _ M I1 I2) as (S1 & _).
  rewrite !words_eq in I3 by auto. destruct kept; cbn in S1; eexists; (split; [|split; [exact S1|]]); [reflexivity| |reflexivity|]; (split; [apply (hdr_at_ok _ _ _ _ _ S1)|exact I3]).
Qed.
Lemma al_next a h : al g a -> al g (next_addr g a h).
Proof. intros A. unfold next_addr, HL. apply al_add; auto; [apply al_add; auto|]; now apply al_rup. Qed.
Lemma trav_top skip : forall f l a (s : st K), bytes_in s -> al g a -> START g <= a -> a <= e -> items_at g (f_mem (s_fl s)) a e l ->
  traverse32 (R := steady) g chk f skip a e s = traverse (R := steady) g f skip a e s.
Proof.
  induction f as [|f IH]; intros l a s M A B C I; [reflexivity|]. pose proof (first_at l a s M I) as X.
  assert (NB : hdr_at g (f_mem (s_fl s)) e a <> HBad) by (destruct l as [|[d kept] l]; [rewrite X; discriminate|destruct X as (h & _ & X & _); rewrite X; discriminate]).
  cbn [traverse32 traverse]. unfold attempt, bind at 1. symmetry. unfold bind at 1. cbn [on_result steady]. unfold hand_on.
  rewrite new_top by assumption. rewrite read_new_eq by auto.
  destruct l as [|[d kept] l]; [rewrite X; reflexivity|]. destruct X as (h & Lh & X & Nx & I'). rewrite X.
  rewrite next_top by assumption. unfold bind, ret at 2. destruct (skip h); [|reflexivity]. symmetry.
  apply (IH l); auto; [now apply al_next|unfold next_addr; lia].
Qed.
Lemma trav_first f l a (s : st K) : bytes_in s -> al g a -> START g <= a -> a <= e -> items_at g (f_mem (s_fl s)) a e l ->
  match l with [] => traverse (R := steady) g (S f) (fun _ => false) a e s = (Ok (None, a, a), s)
  | (d, kept) :: t => exists h, traverse (R := steady) g (S f) (fun _ => false) a e s = (Ok (Some h, a, next_addr g a h), s) /\ next_addr g a h <= e /\ items_at g (f_mem (s_fl s)) (next_addr g a h) e t end.
Proof.
  intros M A B C I. pose proof (first_at l a s M I) as X. cbn [traverse]. unfold attempt, bind. cbn [on_result steady]. unfold hand_on. rewrite read_new_eq by auto.
  destruct l as [|[d kept] l]; [rewrite X; reflexivity|]. destruct X as (h & Lh & X & Nx & I'). rewrite X. exists h. auto.
Qed.
Lemma data_same h c da rl m : forall k (s : st K) r s', f_mem (s_fl s) = m -> read_data (R := steady) g k h c da rl s = (r, s') -> f_mem (s_fl s') = m.
Proof.
  assert (P : forall (s : st K) r s', f_mem (s_fl s) = m -> (if rl =? 0 then ret tt else d <- fl_read (R := steady) g da rl ;; b <- get_buf ;; put_buf (put_front d b)) s = (r, s') -> f_mem (s_fl s') = m).
  { intros s r s' B H. destruct (rl =? 0); [injection H as <- <-; auto|]. unfold bind in H. destruct (fl_read g da rl s) as [[d|x] t] eqn:E; pose proof (read_mem _ _ _ _ _ _ E) as M.
    - unfold get_buf, put_buf in H. injection H as <- <-. cbn. now rewrite M.
    - injection H as <- <-. now rewrite M. }
  induction k as [|k IH]; intros s r s' B H; cbn [read_data] in H; unfold bind at 1 in H.
  - match type of H with (let (_, _) := ?X in _) = _ => destruct X as [[u|x] t] eqn:E end; pose proof (P _ _ _ B E) as Bt; [|injection H as <- <-; auto]. unfold bind, get_buf in H. destruct (_ =? _)%N; injection H as <- <-; auto.
  - match type of H with (let (_, _) := ?X in _) = _ => destruct X as [[u|x] t] eqn:E end; pose proof (P _ _ _ B E) as Bt; [|injection H as <- <-; auto]. unfold bind, get_buf in H. destruct (_ =? _)%N; [injection H as <- <-; auto|]. exact (IH _ _ _ Bt H).
Qed.
Lemma item_same h a o (s : st K) r s' : read_item (R := steady) g h a o s = (r, s') -> f_mem (s_fl s') = f_mem (s_fl s).
Proof.
  intros H. unfold read_item in H. destruct (h_crc h) as [c|]; [|injection H as <- <-; auto]. cbv zeta in H. destruct (beyond _ _); [injection H as <- <-; auto|].
  unfold bind, get_buf in H. destruct (length _ <? _); [injection H as <- <-; auto|]. exact (data_same _ _ _ _ _ _ _ _ _ eq_refl H).
Qed.
Lemma item_top h a (s : st K) o : next_addr g a h <= e -> read_item32 (K := K) (R := steady) g chk h a o s = read_item (R := steady) g h a o s.
Proof.
  intros L. unfold next_addr in L. unfold read_item32, read_item. destruct (h_crc h) as [c|]; [|reflexivity]. cbv zeta. unfold data_addr32.
  rewrite plus_ok by lia. unfold bind at 1, ret at 1. rewrite plus_ok by lia. unfold bind at 1, ret at 1. reflexivity.
Qed.
Lemma items_top : forall f l a (s : st K), bytes_in s -> al g a -> START g <= a -> a <= e -> items_at g (f_mem (s_fl s)) a e l ->
  item_next32 (R := steady) g chk f a e s = item_next (R := steady) g f a e s.
Proof.
  induction f as [|f IH]; intros l a s M A B C I; [reflexivity|]. cbn [item_next32 item_next]. unfold bind at 1. symmetry. unfold bind at 1. rewrite (trav_top _ _ l) by assumption.
  assert (TF : exists n, tfuel a e = S n) by (unfold tfuel; eexists; rewrite ?Nat.add_1_r; reflexivity). destruct TF as (n & TF). rewrite TF.
  pose proof (trav_first n l a s M A B C I) as X. destruct l as [|[d kept] l]; [rewrite X; reflexivity|]. destruct X as (h & X & Nx & I'). rewrite X.
  unfold bind. rewrite item_top by assumption. destruct (read_item g h a (Some e) s) as [[[?|?|?]|x] u] eqn:Ei; try reflexivity; symmetry; pose proof (item_same _ _ _ _ _ _ Ei) as MM;
    (apply (IH l); [unfold bytes_in; rewrite MM; exact M|now apply al_next|unfold next_addr; lia|assumption|rewrite MM; exact I']).
Qed.
End S.

Lemma top_page {K} g chk (s : st K) p l f : geom_ok g -> bytes_in s -> p < NP g -> (N.of_nat (FEND g) + 8 <= 2 ^ 32)%N ->
  items_at g (f_mem (s_fl s)) (dstart g p) (dend g p) l ->
  (forall skip, traverse32 (R := steady) g chk f skip (dstart g p) (dend g p) s = traverse (R := steady) g f skip (dstart g p) (dend g p) s) /\
  item_next32 (R := steady) g chk f (dstart g p) (dend g p) s = item_next (R := steady) g f (dstart g p) (dend g p) s.
Proof.
  intros G B P E I. assert (PE : pend g p <= FEND g) by (unfold pend, paddr, FEND; nia).
  assert (DD : dend g p + W g = pend g p /\ dstart g p <= dend g p /\ START g <= dstart g p).
  { destruct G as (_ & _ & _ & _ & _ & G1 & _). unfold dend, dstart, pend, paddr in *. nia. }
  pose proof (rup_lt g G 8) as RL. fold (HL g) in RL.
  split; [intros skip; apply (trav_top g G chk (dend g p)) with (l := l)|apply (items_top g G chk (dend g p)) with (l := l)]; auto; try lia; now apply al_dstart.
Qed.

(** An undamaged page close to the top: an item and a removed one. *)
Lemma bytes_move m b n : forall a, bytes (fun x => m (x - b)) (b + a) n = bytes m a n.
Proof. induction n as [|n IH]; intros a; [reflexivity|]. cbn [bytes]. rewrite <- Nat.add_succ_r, IH. f_equal. f_equal. lia. Qed.
Lemma num_move m b n : forall a, num (fun x => m (x - b)) (b + a) n = num m a n.
Proof. induction n as [|n IH]; intros a; [reflexivity|]. cbn [num]. rewrite <- Nat.add_succ_r, IH. repeat f_equal. lia. Qed.
Lemma items_move g m b e : forall l a, items_at g m a e l -> items_at g (fun x => m (x - b)) (b + a) (b + e) l.
Proof.
  induction l as [|[d kept] l IH]; intros a H; cbn [items_at] in *.
  - intros x Hx. apply H. lia.
  - destruct H as ((H1 & H2 & H3 & H4) & H5 & H6). unfold item_at. rewrite <- !Nat.add_assoc, !num_move, !bytes_move. rewrite !Nat.add_assoc. split; [auto|]. split; [lia|]. rewrite <- !Nat.add_assoc. apply IH. rewrite !Nat.add_assoc. exact H6.
Qed.
(** Example data, laid out as src/item.rs 1-23 says: bytes, memory and state. *)
Definition ub : list N := le_bytes 4 (check32 [1; 2; 3]%N) ++ [3; 0]%N ++ le_bytes 2 (check16 [3; 0]%N) ++ [1; 2; 3; 255; 255; 255; 255; 255]%N ++
  [0; 0; 0; 0; 1; 0]%N ++ le_bytes 2 (check16 [1; 0]%N) ++ [7]%N.
Definition um (x : nat) : N := nth x ub 255%N.
Definition us (B : nat) : st unit := st_new (mkflash (fun x => um (x - tcur B)) (fun _ => 0) [] None true 0 []) cache_none.
Lemma us_bytes B : bytes_in (us B).
Proof.
  intros x. change (is_byte (nth (x - tcur B) ub 255%N)). assert (F : Forall is_byte ub) by (vm_compute; repeat constructor).
  destruct (Nat.lt_ge_cases (x - tcur B) (length ub)) as [L|L]; [rewrite Forall_forall in F; apply F; now apply nth_In|rewrite nth_overflow by assumption; reflexivity].
Qed.
Lemma us_items B : items_at (tg B) (f_mem (s_fl (us B))) (dstart (tg B) 1) (dend (tg B) 1) [([1; 2; 3]%N, true); ([7]%N, false)].
Proof.
  assert (A1 : dstart (tg B) 1 = tcur B) by (unfold dstart, paddr, tcur; cbn [START ES tg]; change (W (tg B)) with 8; lia).
  assert (A2 : dend (tg B) 1 = tcur B + 48) by (unfold dend, pend, tcur; cbn [START ES tg]; change (W (tg B)) with 8; lia). rewrite A1, A2. rewrite <- (Nat.add_0_r (tcur B)) at 1. change (f_mem (s_fl (us B))) with (fun x => um (x - tcur B)). apply items_move.
  assert (T : forall x, 25 <= x -> um x = 255%N) by (intros x Hx; apply nth_overflow; vm_compute in Hx |- *; lia).
  assert (T' : forall x, 32 <= x < 48 -> um x = 255%N) by (intros; apply T; lia).
  cbn [items_at]. change (words (tg B) 8) with 8. change (words (tg B) (length [1; 2; 3]%N)) with 8. change (words (tg B) (length [7]%N)) with 8. unfold item_at. change (words (tg B) 8) with 8.
  split; [split; [vm_compute; reflexivity|]; split; [vm_compute; reflexivity|]; split; vm_compute; reflexivity|]. split; [lia|].
  split; [split; [vm_compute; reflexivity|]; split; [vm_compute; reflexivity|]; split; vm_compute; reflexivity|]. split; [lia|]. exact T'.
Qed.
Lemma top_case : exists g (s : st unit) l, geom_ok g /\ bytes_in s /\ 1 < NP g /\ (N.of_nat (FEND g) + 8 <= 2 ^ 32)%N /\ (2 ^ 32 < N.of_nat (FEND g) + 65)%N /\
  l = [([1; 2; 3]%N, true); ([7]%N, false)] /\ items_at g (f_mem (s_fl s)) (dstart g 1) (dend g 1) l.
Proof.
  pose (B := N.to_nat 67108861). assert (HB : N.of_nat B = 67108861%N) by apply N2Nat.id. clearbody B. exists (tg B), (us B), [([1; 2; 3]%N, true); ([7]%N, false)].
  split; [apply tg_ok|]. split; [apply us_bytes|]. split; [cbn; lia|]. split; [unfold FEND; cbn [START ES NP tg]; lia|]. split; [unfold FEND; cbn [START ES NP tg]; lia|]. split; [reflexivity|apply us_items].
Qed.
