(** A write or an erase that fails ends the call with its error. *)
From Coq Require Import List NArith Arith Bool Lia.
From Verif Require Import Base Crc Flash Cache State Item Generic Queue Map Codec TMap Client QSpec QObs MClient MSpec MObs ProgP Reads ReadsP Drops DropP Fails FailsP.
Import ListNotations.
Local Opaque crc16 acrc crc32.

Section W.
Context {K : Type} (g : geom).
Definition tells {A} (m : M K A) : Prop := forall s k, f_fuel (s_fl s) = None ->
  f_fuel (s_fl (snd (m s))) = None /\ ((exists j, m (power s (Some k)) = (fst (m s), power (snd (m s)) (Some j))) \/ fst (m (power s (Some k))) = Err cut /\ f_fuel (s_fl (snd (m (power s (Some k))))) = None).
Lemma tells_blind {A} (m : M K A) : blind m -> still m -> tells m.
Proof. intros B S0 s k F. destruct (S0 s) as (l & E). split; [now rewrite E|]. left. exists k. apply B. Qed.
Lemma power_again (s : st K) k j : power (power s k) j = power s j. Proof. destruct s as [[] ? ? ? ?]; reflexivity. Qed.
Lemma tells_bind {A B} (m : M K A) (k : A -> M K B) : tells m -> (forall a, tells (k a)) -> tells (bind m k).
Proof.
  intros H1 H2 s n F. destruct (H1 s n F) as (F1 & H). unfold bind. destruct H as [(j & H)|H].
  - rewrite H. destruct (m s) as [[a|e] s1]; cbn [fst snd] in *; [apply (H2 a s1 j F1)|]. split; auto. left. exists j. reflexivity.
  - destruct (m (power s (Some n))) as [[a|e] s2]; cbn [fst snd] in H; destruct H as (H & H3); [discriminate|]. injection H as ->. cbn [fst snd]. destruct (m s) as [[a|e] s1]; cbn [fst snd] in *; [|auto]. split; [|auto]. apply (H2 a s1 n F1).
Qed.
Lemma prog_tells {A} F (m : reader -> M K A) F1 : progb g true F m F1 -> tells (m steady).
Proof.
  revert A F m F1. apply prog_ind1; intros.
  - apply tells_blind; [now apply blind_local|now apply still_local].
  - intros s k FU. split; auto. left. exists k. reflexivity.
  - intros s k FU. split; auto. left. exists k. reflexivity.
  - intros s k FU. unfold fl_write, dev_write. cbn [s_fl power set_fl f_fuel]. rewrite FU. destruct (chk g (WS g) a (length bs)) as [e|]; cbn [fst snd].
    + split; [exact FU|]. left. exists k. reflexivity.
    + cbn [spend andb]. split; [reflexivity|]. destruct (Nat.leb_spec (length bs) k); cbn [andb fst snd]; [left; exists (k - length bs); reflexivity|right; split; reflexivity].
  - intros s k FU. unfold fl_erase, dev_erase. cbn [s_fl power set_fl f_fuel]. rewrite FU. destruct (chk g (ES g) a (b - a)) as [e|]; cbn [fst snd].
    + split; [exact FU|]. left. exists k. reflexivity.
    + cbn [spend andb]. split; [reflexivity|]. destruct (Nat.leb_spec (b - a) k); cbn [andb fst snd]; [left; exists (k - (b - a)); reflexivity|right; split; reflexivity].
  - apply tells_blind; apply (rd_state g 0 p).
  - apply tells_blind; apply (rd_new g 0 a e).
  - apply tells_blind; apply (rd_item g 0 h a e).
  - apply tells_bind; auto.
  - intros s n FU. destruct (IHprog s n FU) as (FU1 & E1). pose proof (prog_ends g F m F1 H s) as NE. unfold bind, attempt. cbn [on_result steady]. unfold hand_on.
    destruct E1 as [(j & E1)|E1].
    + rewrite E1. destruct (m steady s) as [r s1] eqn:EM. cbn [fst snd] in *. apply (H1 r NE s1 j FU1).
    + destruct (m steady (power s (Some n))) as [r2 s2] eqn:EM2. cbn [fst snd] in E1. destruct E1 as (-> & E1). destruct (m steady s) as [r s1] eqn:EM. cbn [fst snd] in *. split; [apply (H1 r NE s1 n FU1)|].
      destruct H2 as [H2|H2]; [|right; unfold cut; rewrite H2; split; [reflexivity|exact E1]].
      exfalso. destruct (H2 (power s (Some n))) as (l & E). rewrite EM2 in E. cbn [snd] in E. rewrite E in E1. discriminate.
  - auto.
  - auto.
Qed.
End W.

Lemma q_tells g s c k : let r := q_exec (R := steady) g c (power s None) in let d := q_exec (R := steady) g c (power s (Some k)) in
  (fst d = fst r /\ same_flash (snd r) (snd d)) \/ q_failed SShutoff (fst d) = true.
Proof.
  cbv zeta. set (s0 := power s None).
  assert (PL : forall A (f : res A -> qans) (m : reader -> M unit A), (forall R s, q_exec (R := R) g c s = ans1 f (m R s)) -> (forall r, q_failed SShutoff (f r) = is_failed SShutoff r) -> tells (m steady) ->
    (fst (q_exec (R := steady) g c (power s (Some k))) = fst (q_exec (R := steady) g c s0) /\ same_flash (snd (q_exec (R := steady) g c s0)) (snd (q_exec (R := steady) g c (power s (Some k))))) \/
    q_failed SShutoff (fst (q_exec (R := steady) g c (power s (Some k)))) = true).
  { intros A f m EX FN TL. rewrite !EX. unfold ans1. cbn [fst snd]. rewrite FN. destruct (TL s0 k eq_refl) as (_ & [(j & H)|(H & _)]); change (power s0 (Some k)) with (power s (Some k)) in H; rewrite H; [left|right; reflexivity].
    cbn [fst snd]. split; auto. repeat split. }
  destruct c as [d ow|b'|b'|sc| |].
  - exact (PL _ AUnit (fun R => q_push g d ow) (fun _ _ => eq_refl) (fun _ => eq_refl) (prog_tells g _ _ _ (p_push g d ow))).
  - exact (PL _ AItem (fun R => q_pop g b') (fun _ _ => eq_refl) (fun _ => eq_refl) (prog_tells g _ _ _ (p_q_pop g b'))).
  - exact (PL _ AItem (fun R => q_peek g b') (fun _ _ => eq_refl) (fun _ => eq_refl) (prog_tells g _ _ _ (p_q_peek g b'))).
  - exact (PL _ AIter (fun R => q_iterate g sc) (fun _ _ => eq_refl) (fun _ => eq_refl) (prog_tells g _ _ _ (p_q_iterate g sc))).
  - exact (PL _ AMax (fun R => q_max_fit g) (fun _ _ => eq_refl) (fun _ => eq_refl) (prog_tells g _ _ _ (p_max_fit g))).
  - exact (PL _ ANum (fun R => q_space_left g) (fun _ _ => eq_refl) (fun _ => eq_refl) (prog_tells g _ _ _ (p_space_left g))).
Qed.
Lemma m_tells {K} (KO : keyops K) g s c k : let r := m_exec (R := steady) KO g c (power s None) in let d := m_exec (R := steady) KO g c (power s (Some k)) in
  (fst d = fst r /\ same_flash (snd r) (snd d)) \/ m_failed SShutoff (fst d) = true.
Proof.
  cbv zeta. set (s0 := power s None).
  assert (PL : forall A (f : res A -> mans K) (m : reader -> M K A), (forall R s, m_exec (R := R) KO g c s = mans1 f (m R s)) -> (forall r, m_failed SShutoff (f r) = is_failed SShutoff r) -> tells (m steady) ->
    (fst (m_exec (R := steady) KO g c (power s (Some k))) = fst (m_exec (R := steady) KO g c s0) /\ same_flash (snd (m_exec (R := steady) KO g c s0)) (snd (m_exec (R := steady) KO g c (power s (Some k))))) \/
    m_failed SShutoff (fst (m_exec (R := steady) KO g c (power s (Some k)))) = true).
  { intros A f m EX FN TL. rewrite !EX. unfold mans1. cbn [fst snd]. rewrite FN. destruct (TL s0 k eq_refl) as (_ & [(j & H)|(H & _)]); change (power s0 (Some k)) with (power s (Some k)) in H; rewrite H; [left|right; reflexivity].
    cbn [fst snd]. split; auto. repeat split. }
  destruct c as [b k' v|b k'|b k'|b|b bs].
  - exact (PL _ RUnit (fun R => m_store KO g b k' v) (fun _ _ => eq_refl) (fun _ => eq_refl) (prog_tells g _ _ _ (p_store KO g b k' v))).
  - exact (PL _ RVal (fun R => m_fetch KO g b k') (fun _ _ => eq_refl) (fun _ => eq_refl) (prog_tells g _ _ _ (p_fetch KO g b k'))).
  - exact (PL _ RUnit (fun R => m_remove KO g b k') (fun _ _ => eq_refl) (fun _ => eq_refl) (prog_tells g _ _ _ (p_remove KO g b k'))).
  - exact (PL _ RUnit (fun R => m_remove_all KO g b) (fun _ _ => eq_refl) (fun _ => eq_refl) (prog_tells g _ _ _ (p_remove_all KO g b))).
  - exact (PL _ RList (fun R => m_iterate KO g b bs) (fun _ _ => eq_refl) (fun _ => eq_refl) (prog_tells g _ _ _ (p_m_iterate KO g b bs))).
Qed.
Lemma t_tells {K T} (KO : keyops K) (V : valops T) g s b k v n : let r := t_store (R := steady) KO g V b k v (power s None) in let d := t_store (R := steady) KO g V b k v (power s (Some n)) in
  (fst d = fst r /\ same_flash (snd r) (snd d)) \/ is_failed SShutoff (fst d) = true.
Proof.
  cbv zeta. destruct (prog_tells g _ _ _ (p_t_store KO g V b k v) (power s None) n eq_refl) as (_ & [(j & H)|(H & _)]); change (power (power s None) (Some n)) with (power s (Some n)) in H; rewrite H; [left|right; reflexivity].
  cbn [fst snd]. split; auto. repeat split.
Qed.
