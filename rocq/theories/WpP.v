(** Weakest preconditions for the model's monad and rules for the flash primitives. *)
From Coq Require Import List NArith ZArith Arith Bool Lia ZifyBool ZifyNat ZifyN.
From Verif Require Import Base BaseP Crc CrcP Flash Cache State Item Generic GeomP ScanP.
Import ListNotations.

(** [c] started in [s] ends well in [Q] or with an error in [E]. *)
Definition wp {K A} (c : M K A) (Q : A -> st K -> Prop) (E : err -> st K -> Prop) (s : st K) : Prop :=
  match c s with (Ok a, s') => Q a s' | (Err e, s') => E e s' end.

Section Rules.
Context {K : Type}.
Implicit Types s : st K.

Lemma wp_ret {A} (a : A) (Q : A -> st K -> Prop) (E : err -> st K -> Prop) s : Q a s -> wp (ret a) Q E s.
Proof. auto. Qed.
Lemma wp_fail {A} e (Q : A -> st K -> Prop) (E : err -> st K -> Prop) s : E e s -> wp (fail e) Q E s.
Proof. auto. Qed.
Lemma wp_bind {A B} (c : M K A) (f : A -> M K B) Q E s :
  wp c (fun a s' => wp (f a) Q E s') E s -> wp (bind c f) Q E s.
Proof. unfold wp, bind. destruct (c s) as [[a|e] s']; auto. Qed.
Lemma wp_ok {A B} (c : M K A) (f : A -> M K B) Q E s a s' :
  c s = (Ok a, s') -> wp (f a) Q E s' -> wp (bind c f) Q E s.
Proof. unfold wp, bind. now intros ->. Qed.
Lemma wp_eq {A} (c : M K A) (Q : A -> st K -> Prop) (E : err -> st K -> Prop) s a s' : c s = (Ok a, s') -> Q a s' -> wp c Q E s.
Proof. unfold wp. now intros ->. Qed.
Lemma wp_err {A B} (c : M K A) (f : A -> M K B) Q (E : err -> st K -> Prop) s e s' :
  c s = (Err e, s') -> E e s' -> wp (bind c f) Q E s.
Proof. unfold wp, bind. now intros ->. Qed.
Lemma wp_mono {A} (c : M K A) (Q Q' : A -> st K -> Prop) (E E' : err -> st K -> Prop) s :
  wp c Q E s -> (forall a s', Q a s' -> Q' a s') -> (forall e s', E e s' -> E' e s') -> wp c Q' E' s.
Proof. unfold wp. destruct (c s) as [[a|e] s']; auto. Qed.
Lemma wp_and {A} (c : M K A) (Q Q' : A -> st K -> Prop) (E E' : err -> st K -> Prop) s :
  wp c Q E s -> wp c Q' E' s -> wp c (fun a s' => Q a s' /\ Q' a s') (fun e s' => E e s' /\ E' e s') s.
Proof. unfold wp. destruct (c s) as [[a|e] s']; auto. Qed.
Lemma wp_attempt {A B} (c : M K A) (f : res A -> M K B) Q E s :
  wp c (fun a s' => wp (f (Ok a)) Q E s') (fun e s' => wp (f (Err e)) Q E s') s -> wp (bind (attempt c) f) Q E s.
Proof. unfold wp, bind, attempt, on_result, steady, hand_on. destruct (c s) as [[a|e] s']; auto. Qed.

(** [run_with_auto_repair!]: on Corrupted repair and run once more. *)
Lemma wp_auto_repair {A} (f : M K A) (rp : M K unit) Q E s :
  wp f Q (fun e s' => match e with
                      | ECorrupted => wp rp (fun _ s'' => wp f Q E s'') E s'
                      | _ => E e s'
                      end) s ->
  wp (auto_repair f rp) Q E s.
Proof.
  intros H. apply wp_attempt. eapply wp_mono; [exact H| |]; cbn beta.
  - intros a s' H'. now apply wp_ret.
  - intros e s' H'. destruct e; auto using wp_fail. apply wp_bind. exact H'.
Qed.

Lemma wp_get_buf {B} (f : _ -> M K B) Q E s : wp (f (s_buf s)) Q E s -> wp (bind get_buf f) Q E s.
Proof. auto. Qed.
Lemma wp_put_buf {B} b (f : _ -> M K B) Q E s : wp (f tt) Q E (set_buf s b) -> wp (bind (put_buf b) f) Q E s.
Proof. auto. Qed.
Lemma wp_get_qi {B} (f : _ -> M K B) Q E s : wp (f (s_qi s)) Q E s -> wp (bind get_qi f) Q E s.
Proof. auto. Qed.
Lemma wp_put_qi {B} b (f : _ -> M K B) Q E s : wp (f tt) Q E (set_qi s b) -> wp (bind (put_qi b) f) Q E s.
Proof. auto. Qed.
Lemma wp_get_mi {B} (f : _ -> M K B) Q E s : wp (f (s_mi s)) Q E s -> wp (bind get_mi f) Q E s.
Proof. auto. Qed.
Lemma wp_put_mi {B} b (f : _ -> M K B) Q E s : wp (f tt) Q E (set_mi s b) -> wp (bind (put_mi b) f) Q E s.
Proof. auto. Qed.
End Rules.

(** [f'] is [f] after programming [bs] at [a]. *)
Record prog (f f' : flash) (a : nat) (bs : list N) : Prop := {
  pg_mem : forall x, f_mem f' x = mem_and (f_mem f) a bs x;
  pg_wc : forall x, f_wc f' x = wc_inc (f_wc f) a (length bs) x;
  pg_er : f_er f' = f_er f;
  pg_fuel : f_fuel f = None -> f_fuel f' = None;
  pg_ae : f_ae f' = f_ae f;
  pg_aw : f_aw f' = f_aw f }.

(** [f'] is [f] after erasing the first [j] bytes of page [p]. *)
Record erad (g : geom) (f f' : flash) (p j : nat) : Prop := {
  er_mem : forall x, f_mem f' x = mem_ff (f_mem f) (paddr g p) j x;
  er_wc : forall x, f_wc f' x = wc_zero (f_wc f) (paddr g p) j x;
  er_er : f_er f' = (paddr g p, pend g p) :: f_er f;
  er_fuel : f_fuel f = None -> f_fuel f' = None;
  er_ae : f_ae f' = f_ae f;
  er_aw : f_aw f' = f_aw f }.

Lemma wc_inc_out w a n x : x < a \/ a + n <= x -> wc_inc w a n x = w x.
Proof. intros. unfold wc_inc. destruct (Nat.leb_spec a x), (Nat.ltb_spec x (a + n)); cbn [andb]; auto; lia. Qed.
Lemma wc_inc_in w a n x : a <= x < a + n -> wc_inc w a n x = S (w x).
Proof. intros. unfold wc_inc. destruct (Nat.leb_spec a x), (Nat.ltb_spec x (a + n)); cbn [andb]; auto; lia. Qed.
Lemma wc_zero_out w a n x : x < a \/ a + n <= x -> wc_zero w a n x = w x.
Proof. intros. unfold wc_zero. destruct (Nat.leb_spec a x), (Nat.ltb_spec x (a + n)); cbn [andb]; auto; lia. Qed.
Lemma wc_zero_in w a n x : a <= x < a + n -> wc_zero w a n x = 0.
Proof. intros. unfold wc_zero. destruct (Nat.leb_spec a x), (Nat.ltb_spec x (a + n)); cbn [andb]; auto; lia. Qed.

Lemma prog_nil f a : prog f f a [].
Proof.
  constructor; auto; intros.
  - symmetry. apply mem_and_out. cbn. lia.
  - symmetry. apply wc_inc_out. cbn. lia.
Qed.
Lemma prog_app f f1 f2 a x y : prog f f1 a x -> prog f1 f2 (a + length x) y -> prog f f2 a (x ++ y).
Proof.
  intros [M1 W1 E1 F1 A1 B1] [M2 W2 E2 F2 A2 B2]. constructor; auto; try congruence.
  - intros z. rewrite M2. destruct (le_lt_dec a z) as [H|H];
      [destruct (le_lt_dec (a + length x) z) as [H'|H'];
       [destruct (le_lt_dec (a + length x + length y) z) as [H2|H2]|]|].
    + rewrite !mem_and_out by (rewrite ?app_length; lia). rewrite M1. apply mem_and_out. lia.
    + rewrite (mem_and_in _ (a + length x)), mem_and_in by (rewrite ?app_length; lia). rewrite M1, mem_and_out by lia.
      f_equal. rewrite app_nth2 by lia. f_equal. lia.
    + rewrite mem_and_out by lia. rewrite M1, !mem_and_in by (rewrite ?app_length; lia).
      f_equal. rewrite app_nth1 by lia. reflexivity.
    + rewrite !mem_and_out by (rewrite ?app_length; lia). rewrite M1. apply mem_and_out. lia.
  - intros z. rewrite W2, app_length. destruct (le_lt_dec a z) as [H|H];
      [destruct (le_lt_dec (a + length x) z) as [H'|H'];
       [destruct (le_lt_dec (a + length x + length y) z) as [H2|H2]|]|].
    + rewrite !wc_inc_out by lia. rewrite W1. apply wc_inc_out. lia.
    + rewrite (wc_inc_in _ (a + length x)), wc_inc_in by lia. rewrite W1, wc_inc_out by lia. reflexivity.
    + rewrite wc_inc_out by lia. rewrite W1, !wc_inc_in by lia. reflexivity.
    + rewrite !wc_inc_out by lia. rewrite W1. apply wc_inc_out. lia.
Qed.

Lemma prog_out f f' a bs x : prog f f' a bs -> x < a \/ a + length bs <= x -> f_mem f' x = f_mem f x /\ f_wc f' x = f_wc f x.
Proof. intros P H. rewrite (pg_mem _ _ _ _ P), (pg_wc _ _ _ _ P), mem_and_out, wc_inc_out; auto. Qed.
Lemma prog_mem f f' a bs : prog f f' a bs -> is_mem (f_mem f) -> is_mem (f_mem f').
Proof. intros P H x. rewrite (pg_mem _ _ _ _ P). now apply mem_and_mem. Qed.
Lemma erad_mem g f f' p j : erad g f f' p j -> is_mem (f_mem f) -> is_mem (f_mem f').
Proof. intros P H x. rewrite (er_mem _ _ _ _ _ P). now apply mem_ff_mem. Qed.
Lemma erad_out g f f' p j x : erad g f f' p j -> x < paddr g p \/ paddr g p + j <= x ->
  f_mem f' x = f_mem f x /\ f_wc f' x = f_wc f x.
Proof. intros P H. rewrite (er_mem _ _ _ _ _ P), (er_wc _ _ _ _ _ P), mem_ff_out, wc_zero_out; auto. Qed.

Section Prims.
Context {K : Type} (g : geom) (gok : geom_ok g).
Implicit Types s : st K.

Lemma wp_write a bs (Q : unit -> st K -> Prop) (E : err -> st K -> Prop) s :
  al g a -> al g (length bs) -> 0 < length bs -> START g <= a -> a + length bs <= FEND g ->
  (forall f', prog (s_fl s) f' a bs -> Q tt (set_fl s f')) ->
  (forall f' j, f_fuel (s_fl s) <> None -> j < length bs -> (length bs <= f_aw (s_fl s) -> j = 0) -> prog (s_fl s) f' a (firstn j bs) ->
     E (EStorage SShutoff) (set_fl s f')) ->
  wp (fl_write g a bs) Q E s.
Proof.
  intros A B C D F HQ HE. unfold wp, fl_write, dev_write. rewrite (chk_WS g gok) by auto.
  unfold spend. destruct (f_fuel (s_fl s)) as [k|] eqn:Ef.
  - destruct (Nat.leb_spec (length bs) k) as [L|L]; cbn [andb].
    + apply HQ. rewrite firstn_all. constructor; auto. congruence.
    + set (j := if length bs <=? f_aw (s_fl s) then 0 else k).
      apply (HE _ j).
      * discriminate.
      * unfold j. destruct (length bs <=? f_aw (s_fl s)); lia.
      * intros X. unfold j. apply Nat.leb_le in X. now rewrite X.
      * constructor; auto. cbn [f_wc]. intros x. rewrite firstn_length, Nat.min_l; auto.
        unfold j. destruct (length bs <=? f_aw (s_fl s)); lia.
  - cbn [andb]. apply HQ. rewrite firstn_all. constructor; auto.
Qed.

Lemma wp_erase p (Q : unit -> st K -> Prop) (E : err -> st K -> Prop) s : p < NP g ->
  (forall f', erad g (s_fl s) f' p (ES g) -> Q tt (set_fl s f')) ->
  (forall f' j, f_fuel (s_fl s) <> None -> j < ES g -> (f_ae (s_fl s) = true -> j = 0) -> erad g (s_fl s) f' p j ->
     E (EStorage SShutoff) (set_fl s f')) ->
  wp (fl_erase g (paddr g p) (pend g p)) Q E s.
Proof.
  intros P HQ HE. unfold wp, fl_erase, dev_erase. rewrite (chk_ES g gok) by auto.
  pose proof (pend_eq g p) as PE. replace (pend g p - paddr g p) with (ES g) by lia.
  unfold spend. destruct (f_fuel (s_fl s)) as [k|] eqn:Ef.
  - destruct (Nat.leb_spec (ES g) k) as [L|L]; cbn [andb].
    + apply HQ. constructor; auto. congruence.
    + set (j := if f_ae (s_fl s) then 0 else k).
      apply (HE _ j).
      * discriminate.
      * unfold j. destruct (f_ae (s_fl s)); lia.
      * intros X. unfold j. now rewrite X.
      * constructor; auto.
  - cbn [andb]. apply HQ. constructor; auto.
Qed.
End Prims.
