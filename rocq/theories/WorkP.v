(** Proofs for Work.v: how many reads and erases a call makes. *)
From Coq Require Import List NArith ZArith Arith Bool Lia ZifyBool ZifyNat ZifyN.
From Verif Require Import Base BaseP Crc CrcP Flash Cache State Item Generic Queue Map Codec TMap GeomP CalcP Client MClient SafeP SafeQP SafeRunP Reads Cost Work.
Import ListNotations.
Local Opaque crc16 acrc crc32.
Local Existing Instance counted.

Section L.
Context {K : Type} (g : geom) (gok : geom_ok g).
Notation W := (W g). Notation HL := (HL g). Notation NP := (NP g). Notation ES := (ES g).
Notation pred := (st K -> Prop).
(** Logged accesses (in units of bytes, [W] for each) and erases. *)
Definition nr (s : st K) : nat := W * length (f_bad (s_fl s)).
Definition ne (s : st K) : nat := length (f_er (s_fl s)).
Definition ct {A} (P : pred) (r e : nat) (m : M K A) (E : pred) (Q : A -> pred) : Prop := forall s, P s ->
  nr (snd (m s)) <= nr s + r /\ ne (snd (m s)) <= ne s + e /\ match fst (m s) with Ok a => Q a (snd (m s)) | Err _ => E (snd (m s)) end.

Lemma ct_le {A} (P P' : pred) r e r' e' (m : M K A) (E E' : pred) (Q Q' : A -> pred) : ct P r e m E Q -> r <= r' -> e <= e' -> (forall s, P' s -> P s) ->
  (forall s, E s -> E' s) -> (forall a s, Q a s -> Q' a s) -> ct P' r' e' m E' Q'.
Proof. intros H Lr Le HP HE HQ s Ps. destruct (H s (HP s Ps)) as (A1 & A2 & A3). repeat split; [lia|lia|]. destruct (fst (m s)); auto. Qed.
Lemma ct_seq {A B} (P : pred) r e r1 e1 (m : M K A) (k : A -> M K B) (E : pred) (Q1 : A -> pred) (Q : B -> pred) : ct P r1 e1 m E Q1 -> r1 <= r -> e1 <= e ->
  (forall a, ct (Q1 a) (r - r1) (e - e1) (k a) E Q) -> ct P r e (bind m k) E Q.
Proof.
  intros H Lr Le H2 s Ps. destruct (H s Ps) as (A1 & A2 & A3). unfold bind. destruct (m s) as [[a|x] s1]; cbn [fst snd] in *; [|repeat split; auto; lia].
  destruct (H2 a s1 A3) as (B1 & B2 & B3). repeat split; auto; lia.
Qed.
Lemma ct_try {A B} (P : pred) r e r1 e1 (m : M K A) (k : res A -> M K B) (E1 E : pred) (Q1 : A -> pred) (Q : B -> pred) : ct P r1 e1 m E1 Q1 -> r1 <= r -> e1 <= e ->
  (forall x, ct (fun s => match x with Ok a => Q1 a s | Err _ => E1 s end) (r - r1) (e - e1) (k x) E Q) -> ct P r e (bind (attempt m) k) E Q.
Proof.
  intros H Lr Le H2 s Ps. destruct (H s Ps) as (A1 & A2 & A3). unfold bind, attempt. cbn [on_result counted garbled]. unfold hand_on. destruct (m s) as [x s1]; cbn [fst snd] in *.
  assert (A3' : match x with Ok a => Q1 a s1 | Err _ => E1 s1 end) by (destruct x; exact A3). destruct (H2 x s1 A3') as (B1 & B2 & B3). repeat split; auto; lia.
Qed.
Lemma ct_loc {A} (P : pred) r e (m : M K A) (E : pred) (Q : A -> pred) : (forall s, P s -> s_fl (snd (m s)) = s_fl s /\ match fst (m s) with Ok a => Q a (snd (m s)) | Err _ => E (snd (m s)) end) -> ct P r e m E Q.
Proof. intros H s Ps. destruct (H s Ps) as (A1 & A2). unfold nr, ne. rewrite A1. repeat split; auto; lia. Qed.
Lemma ct_ret {A} (P : pred) r e (a : A) (E : pred) (Q : A -> pred) : (forall s, P s -> Q a s) -> ct P r e (ret a) E Q.
Proof. intros H. apply ct_loc. intros s Ps. cbn. auto. Qed.
Lemma ct_fail {A} (P : pred) r e x (E : pred) (Q : A -> pred) : (forall s, P s -> E s) -> ct P r e (fail x) E Q.
Proof. intros H. apply ct_loc. intros s Ps. cbn. auto. Qed.
Lemma ct_pure {A} (X : Prop) (P : pred) r e (m : M K A) E Q : (X -> ct P r e m E Q) -> ct (fun s => P s /\ X) r e m E Q.
Proof. intros H s (Ps & x). exact (H x s Ps). Qed.

(** Invariants that the cache's forgetting, the device and the buffer do not touch. *)
Record frm (I : pred) : Prop := mkfrm {
  i_fl : forall s f, I s -> I (set_fl s f);
  i_buf : forall s b, I s -> I (set_buf s b);
  i_ca : forall s c, (pp_sane g (c_pp (s_ca s)) -> pp_sane g (c_pp c)) -> I s -> I (set_ca s c) }.
Section F.
Context (I : pred) (F : frm I).
Notation ok r e m := (ct I r e m I (fun _ => I)).
Lemma w_read a n : ok W 0 (fl_read g a n).
Proof.
  intros s Is. unfold fl_read. cbn [on_read counted garbled]. unfold nr, ne. assert (J : I (set_fl s (refuse (s_fl s) a n))) by now apply (i_fl I F).
  destruct (dev_read g (s_fl s) a n); cbn [fst snd set_fl s_fl refuse f_bad f_er length]; (repeat split; [lia|lia|exact J]).
Qed.
Lemma w_write a bs : ok W 0 (fl_write g a bs).
Proof.
  intros s Is. unfold fl_write, dev_write, nr, ne. destruct (chk g (WS g) a (length bs)); [cbn [fst snd set_fl s_fl refuse f_bad f_er length]; repeat split; [lia|lia|now apply (i_fl I F)]|].
  destruct (spend _ _) as [[k fu] cr]. destruct cr; cbn [fst snd set_fl s_fl f_bad f_er]; (repeat split; [lia|lia|now apply (i_fl I F)]).
Qed.
Lemma w_erase a b : ok W 1 (fl_erase g a b).
Proof.
  intros s Is. unfold fl_erase, dev_erase, nr, ne. destruct (chk g (ES) a (b - a)); [cbn [fst snd set_fl s_fl refuse f_bad f_er length]; repeat split; [lia|lia|now apply (i_fl I F)]|].
  destruct (spend _ _) as [[k fu] cr]. destruct cr; cbn [fst snd set_fl s_fl f_bad f_er length]; (repeat split; [lia|lia|now apply (i_fl I F)]).
Qed.
Lemma w_get_buf : ok 0 0 get_buf. Proof. apply ct_loc. intros s Is. cbn. auto. Qed.
Lemma w_put_buf b : ok 0 0 (put_buf b). Proof. apply ct_loc. intros s Is. cbn [put_buf fst snd]. split; [reflexivity|now apply (i_buf I F)]. Qed.
Lemma w_unmark : ok 0 0 c_unmark. Proof. apply ct_loc. intros s Is. cbn [c_unmark fst snd]. split; [reflexivity|]. apply (i_ca I F); auto. Qed.
Lemma w_inval : ok 0 0 c_inval.
Proof.
  apply ct_loc. intros s Is. cbn [c_inval fst snd]. split; [reflexivity|]. apply (i_ca I F); auto. intros _. unfold cache_inval. cbn [c_pp]. destruct (c_pp (s_ca s)) as [|er wr]; [exact Logic.I|].
  cbn [pp_inval pp_sane]. intros p a P. rewrite !lookup_none. easy.
Qed.
Lemma w_check : ok 0 0 c_check_dirty.
Proof.
  unfold c_check_dirty. eapply ct_seq; [apply (ct_loc I 0 0 _ I (fun _ => I)); intros s Is; cbn; auto|lia|lia|]. intros b. destruct b; [apply w_inval|(apply ct_ret; auto)].
Qed.
Lemma w_get_ps p : ok 0 0 (c_get_ps p). Proof. apply ct_loc. intros s Is. unfold c_get_ps. destruct (ps_get (c_ps (s_ca s)) p); cbn; auto. Qed.
Lemma w_notice_ps p x d : ok 0 0 (c_notice_ps p x d).
Proof.
  apply ct_loc. intros s Is. unfold c_notice_ps. destruct (ps_notice (c_ps (s_ca s)) p x); cbn [fst snd]; (split; [reflexivity|]); apply (i_ca I F); auto. cbn [c_pp]. apply pp_page_sane.
Qed.
Lemma w_key_loc q k : ok 0 0 (c_key_loc q k). Proof. apply ct_loc. intros s Is. cbn. auto. Qed.
Lemma w_notice_key q k a d : ok 0 0 (c_notice_key q k a d).
Proof. apply ct_loc. intros s Is. unfold c_notice_key. destruct (kp_notice q (c_kp (s_ca s)) k a); cbn [fst snd]; (split; [reflexivity|]); apply (i_ca I F); auto. Qed.
Lemma w_key_erased q k : ok 0 0 (c_key_erased q k). Proof. apply ct_loc. intros s Is. cbn [c_key_erased fst snd]. split; [reflexivity|]. apply (i_ca I F); auto. Qed.
Lemma w_lift {A} (x : A + sererr) : ok 0 0 (ser_lift x). Proof. destruct x; cbn [ser_lift]; [(apply ct_ret; auto)|(apply ct_fail; auto)]. Qed.
Lemma w_weak {A} r e r' e' (m : M K A) : ok r e m -> r <= r' -> e <= e' -> ok r' e' m. Proof. intros H L1 L2. eapply ct_le; eauto. Qed.

Lemma w_read_hdr n : forall a, ok (W * S n) 0 (read_hdr g n a).
Proof.
  induction n as [|n IH]; intros a; cbn [read_hdr]; (eapply ct_seq; [apply w_read|lia|lia|]); intros b; destruct (all_ff b); try ((apply ct_ret; auto)); destruct (lcrc_ok b); try ((apply ct_ret; auto)); [(apply ct_fail; auto)|].
  eapply w_weak; [apply IH|lia|lia].
Qed.
Lemma w_read_new a e : ok (2 * W) 0 (read_new g a e).
Proof.
  unfold read_new. destruct (beyond e (a + HL)); [(apply ct_ret; auto)|]. eapply ct_seq; [apply w_read_hdr|lia|lia|]. intros [b|]; [|(apply ct_ret; auto)].
  cbv zeta. destruct (beyond e _); [(apply ct_fail; auto)|(apply ct_ret; auto)].
Qed.
Lemma w_read_data n : forall h c da rl, ok (W * S n) 0 (read_data g n h c da rl).
Proof.
  induction n as [|n IH]; intros h c da rl; cbn [read_data];
    (eapply (ct_seq I _ _ W 0 _ _ I (fun _ => I)); [destruct (rl =? 0); [(apply ct_ret; auto)|eapply ct_seq; [apply w_read|lia|lia|]; intros d; eapply ct_seq; [apply w_get_buf|lia|lia|]; intros b; eapply w_weak; [apply w_put_buf|lia|lia]]|lia|lia|]);
    intros ?; (eapply ct_seq; [apply w_get_buf|lia|lia|]); intros b; destruct (acrc _ =? c)%N; try ((apply ct_ret; auto)). eapply w_weak; [apply IH|lia|lia].
Qed.
Lemma w_read_item h a e : ok (2 * W) 0 (read_item g h a e).
Proof.
  unfold read_item. destruct (h_crc h); [|(apply ct_ret; auto)]. cbv zeta. destruct (beyond e _); [(apply ct_ret; auto)|]. eapply ct_seq; [apply w_get_buf|lia|lia|]. intros b.
  destruct (length b <? _); [(apply ct_fail; auto)|]. eapply w_weak; [apply w_read_data|lia|lia].
Qed.
Lemma w_state p : ok (2 * W) 0 (page_state g p).
Proof.
  unfold page_state. eapply ct_seq; [apply w_read|lia|lia|]. intros b1. eapply ct_seq; [apply w_read|lia|lia|]. intros b2. destruct (marked b1), (marked b2); try ((apply ct_ret; auto)). (apply ct_fail; auto).
Qed.
Lemma w_state_c p : ok (2 * W) 0 (page_state_c g p).
Proof.
  unfold page_state_c. eapply ct_seq; [apply w_get_ps|lia|lia|]. intros [x|]; [(apply ct_ret; auto)|]. eapply ct_seq; [apply w_state|lia|lia|]. intros x. eapply ct_seq; [apply w_notice_ps|lia|lia|]. intros ?. (apply ct_ret; auto).
Qed.
Lemma w_open p : ok W 1 (open_page g p).
Proof. unfold open_page. eapply ct_seq; [apply w_notice_ps|lia|lia|]. intros ?. eapply w_weak; [apply w_erase|lia|lia]. Qed.
Lemma w_partial p : ok (3 * W) 0 (partial_close g p).
Proof.
  unfold partial_close. eapply ct_seq; [apply w_state_c|lia|lia|]. intros x. destruct (negb _); [(apply ct_ret; auto)|]. eapply ct_seq; [apply w_notice_ps|lia|lia|]. intros ?.
  eapply ct_seq; [apply w_write|lia|lia|]. intros ?. (apply ct_ret; auto).
Qed.
Lemma w_close p : ok (4 * W) 0 (close_page g p).
Proof.
  unfold close_page. eapply ct_seq; [apply w_partial|lia|lia|]. intros x. destruct (negb _); [(apply ct_ret; auto)|]. eapply ct_seq; [apply w_notice_ps|lia|lia|]. intros ?. eapply w_weak; [apply w_write|lia|lia].
Qed.
Lemma w_ff_in x : forall l, ok (2 * W * length l) 0 (find_first_in g l x).
Proof.
  induction l as [|p l IH]; cbn [find_first_in length]; [(apply ct_ret; auto)|]. eapply ct_seq; [apply w_state_c|lia|lia|]. intros y. destruct (pstate_eqb x y); [(apply ct_ret; auto)|]. eapply w_weak; [apply IH|lia|lia].
Qed.
Lemma pages_length a : length (get_pages g a) = NP. Proof. unfold get_pages. now rewrite map_length, seq_length. Qed.
Lemma w_ff a x : ok (W * (2 * NP)) 0 (find_first g a x).
Proof. unfold find_first. eapply w_weak; [apply w_ff_in|rewrite pages_length; lia|lia]. Qed.
Lemma w_fl_in x : forall l o, ok (2 * W * length l) 0 (find_last_in g l x o).
Proof.
  induction l as [|p l IH]; intros o; cbn [find_last_in length]; [(apply ct_ret; auto)|]. eapply ct_seq; [apply w_state_c|lia|lia|]. intros y. destruct (pstate_eqb x y); [|destruct o; [(apply ct_ret; auto)|]]; (eapply w_weak; [apply IH|lia|lia]).
Qed.
Lemma w_flast a x : ok (W * (2 * NP)) 0 (find_last g a x).
Proof. unfold find_last. eapply w_weak; [apply w_fl_in|rewrite pages_length; lia|lia]. Qed.
Lemma w_repair_in : forall l, ok (3 * W * length l) (length l) (general_repair_in g l).
Proof.
  induction l as [|p l IH]; cbn [general_repair_in length]; [(apply ct_ret; auto)|]. eapply ct_try; [apply w_state|lia|lia|]. intros x.
  assert (X : ok W 1 (match x with Err ECorrupted => open_page g p | _ => ret tt end)) by (destruct x as [|[]]; first [apply w_open|(apply ct_ret; auto)]).
  eapply (ct_seq _ _ _ W 1 _ _ I (fun _ => I)); [eapply ct_le; [exact X|lia|lia| |auto|auto]; intros s Hs; destruct x; exact Hs|lia|lia|]. intros ?. eapply w_weak; [apply IH|lia|lia].
Qed.
Lemma w_repair : ok (W * (3 * NP)) NP (general_repair g).
Proof. unfold general_repair. eapply w_weak; [apply w_repair_in|rewrite pages_length; lia|rewrite pages_length; lia]. Qed.

Lemma w_trav skip e : forall fuel cur s, I s ->
  nr (snd (traverse g fuel skip cur e s)) + match fst (traverse g fuel skip cur e s) with Ok (Some h, a, nx) => 2 * (e - nx) | _ => 0 end <= nr s + 2 * (e - cur) /\ ne (snd (traverse g fuel skip cur e s)) <= ne s /\ I (snd (traverse g fuel skip cur e s)) /\
  match fst (traverse g fuel skip cur e s) with Ok (Some h, a, nx) => cur <= a /\ nx = next_addr g a h /\ a + W <= nx /\ nx <= e /\ (al g cur -> al g a) | Ok (None, _, nx) => cur <= nx | _ => True end.
Proof.
  pose proof (HL_W g) as HW. induction fuel as [|fuel IH]; intros cur s Is; cbn [traverse]; [cbn [fail fst snd]; repeat split; auto; lia|].
  unfold bind, attempt. cbn [on_result counted garbled]. unfold hand_on. destruct (beyond (Some e) (cur + HL)) eqn:EB.
  - assert (ER : read_new g cur (Some e) s = (Ok None, s)) by (unfold read_new; now rewrite EB). rewrite ER. cbn [ret fst snd]. repeat split; auto; lia.
  - destruct (w_read_new cur (Some e) s Is) as (A1 & A2 & A3). assert (LB : cur + HL <= e) by (cbn [beyond] in EB; lia).
    assert (NX : forall h s', read_new g cur (Some e) s = (Ok (Some h), s') -> next_addr g cur h <= e).
    { intros h s' E. unfold read_new in E. rewrite EB in E. unfold bind in E. destruct (read_hdr g 1 cur s) as [[[b|]|x] s2]; try discriminate. cbv zeta in E.
      destruct (beyond (Some e) (next_addr g cur (hdr_of b))) eqn:E2; [discriminate|]. injection E as <- _. cbn [beyond] in E2. lia. }
    destruct (read_new g cur (Some e) s) as [[[h|]|x] s1] eqn:ER; cbn [fst snd] in *.
    + specialize (NX h s1 eq_refl). assert (AD : cur + W <= next_addr g cur h) by (unfold next_addr; lia).
      assert (AN : al g cur -> al g (next_addr g cur h)) by (intros H; unfold next_addr; apply (al_add g gok); [apply (al_add g gok); [exact H|apply (al_HL g gok)]|apply (al_rup g gok)]). destruct (skip h).
      * destruct (IH (next_addr g cur h) s1 A3) as (B1 & B2 & B3 & B4). destruct (traverse g fuel skip (next_addr g cur h) e s1) as [[[[[h2|] a2] nx2]|x2] s2]; cbn [fst snd] in *; repeat split; try tauto; try lia.
      * cbn [ret fst snd]. repeat split; auto; lia.
    + cbn [ret fst snd]. repeat split; auto; lia.
    + assert (AN : al g cur -> al g (cur + W)) by (intros H; apply (al_add g gok); [exact H|apply (al_W g gok)]).
      destruct x; cbn [fail fst snd]; try (repeat split; auto; lia). destruct (IH (cur + W) s1 A3) as (B1 & B2 & B3 & B4). destruct (traverse g fuel skip (cur + W) e s1) as [[[[[h2|] a2] nx2]|x2] s2]; cbn [fst snd] in *; repeat split; try tauto; try lia.
Qed.
Lemma w_trav_ok skip fuel cur e : ok (2 * (e - cur)) 0 (traverse g fuel skip cur e).
Proof. intros s Is. destruct (w_trav skip e fuel cur s Is) as (A & B & C & D). repeat split; [lia|lia|]. destruct (fst _); auto. Qed.
Lemma w_item_next e : forall fuel cur s, I s ->
  nr (snd (item_next g fuel cur e s)) + match fst (item_next g fuel cur e s) with Ok (Some _, nx) => 4 * (e - nx) | _ => 0 end <= nr s + 4 * (e - cur) /\ ne (snd (item_next g fuel cur e s)) <= ne s /\ I (snd (item_next g fuel cur e s)) /\
  match fst (item_next g fuel cur e s) with Ok (Some _, nx) => cur + W <= nx /\ nx <= e | _ => True end.
Proof.
  induction fuel as [|fuel IH]; intros cur s Is; cbn [item_next]; [cbn [fail fst snd]; repeat split; auto; lia|]. unfold bind.
  destruct (w_trav (fun _ => false) e (tfuel cur e) cur s Is) as (A1 & A2 & A3 & A4). destruct (traverse g (tfuel cur e) (fun _ => false) cur e s) as [[[[[h|] a] nx]|x] s1]; cbn [fst snd] in *;
    [|cbn [ret fst snd]; repeat split; auto; lia|repeat split; auto; lia].
  destruct (w_read_item h a (Some e) s1 A3) as (B1 & B2 & B3). destruct (read_item g h a (Some e) s1) as [[mi|x] s2]; cbn [fst snd] in *; [|repeat split; auto; lia].
  destruct mi as [h2|h2|h2]; [| |cbn [ret fst snd]; repeat split; auto; lia]; destruct (IH nx s2 B3) as (C1 & C2 & C3 & C4);
    destruct (item_next g fuel nx e s2) as [[[[y|] nx2]|x2] s3]; cbn [fst snd] in *; repeat split; auto; lia.
Qed.
Lemma ct_add {A} (P : pred) r e (m : M K A) E (Q Q' : A -> pred) : ct P r e m E Q -> (forall s a s', P s -> m s = (Ok a, s') -> Q' a s') -> ct P r e m E (fun a s => Q a s /\ Q' a s).
Proof. intros H H2 s Ps. destruct (H s Ps) as (A1 & A2 & A3). repeat split; auto.  destruct (fst (m s)) eqn:EF; auto. split; auto. apply (H2 s a (snd (m s)) Ps). rewrite (surjective_pairing (m s)), EF. reflexivity. Qed.
Lemma ff_in x : forall l (s : st K) p s', find_first_in g l x s = (Ok (Some p), s') -> In p l.
Proof.
  induction l as [|q l IH]; intros s p s' E; cbn [find_first_in] in E; [discriminate|]. unfold bind in E. destruct (page_state_c g q s) as [[y|y] s1]; [|discriminate]. destruct (pstate_eqb x y); [injection E as <- _; now left|right; eapply IH; eauto].
Qed.
Lemma w_ff_lt a x : ct I (W * (2 * NP)) 0 (find_first g a x) I (fun r s => I s /\ forall p, r = Some p -> p < NP).
Proof.
  apply ct_add; [apply w_ff|]. intros s r s' _ E p ->. unfold find_first in E. apply ff_in in E. unfold get_pages in E. apply in_map_iff in E. destruct E as (i & <- & _). apply Nat.mod_upper_bound. pose proof (NP_pos g gok). lia.
Qed.
Lemma w_auto {A} r e rr er (m : M K A) rp (Q : A -> pred) : ct I r e m I Q -> ok rr er rp -> ct I (2 * r + rr) (2 * e + er) (auto_repair m rp) I Q.
Proof.
  intros H1 H2. unfold auto_repair. eapply ct_try; [exact H1|lia|lia|]. intros [a|x]; [apply ct_ret; auto|]. destruct x; try (apply ct_fail; auto). eapply ct_seq; [exact H2|lia|lia|]. intros ?. eapply ct_le; [exact H1|lia|lia|auto|auto|auto].
Qed.
End F.
End L.
Arguments ct {K} g {A}. Arguments nr {K}. Arguments ne {K}.

Section Q.
Context (g : geom) (gok : geom_ok g).
Notation W := (W g). Notation HL := (HL g). Notation NP := (NP g). Notation ES := (ES g). Notation U := (page_words g).
Notation pred := (st unit -> Prop).
Lemma ES_words : ES = W * U.
Proof. unfold page_words. pose proof (al_ES g gok) as A. unfold al in A. pose proof (W_pos g gok). rewrite (Nat.div_mod ES W) at 1 by lia. lia. Qed.
Lemma page_len p a : paddr g p <= a -> dend g p - a <= ES - W.
Proof. pose proof (dend_lt g gok p). unfold paddr, pend in *. lia. Qed.
Lemma page_len_d p : dend g p - dstart g p <= ES - W. Proof. apply page_len. unfold dstart. lia. Qed.
Section F.
Context (I : pred) (F : frm g I).
Notation ok r e m := (ct g I r e m I (fun _ => I)).
Lemma w_youngest : ct g I (W * (6 * NP)) 0 (find_youngest g) I (fun p s => I s /\ p < NP).
Proof.
  pose proof (NP_pos g gok) as NPp. unfold find_youngest. eapply ct_seq; [apply (w_ff_lt g gok I F)|lia|lia|]. intros [p|]; cbv beta.
  - apply ct_ret. intros s (Is & H). auto.
  - eapply (ct_seq g _ _ _ (W * (2 * NP)) 0 _ _ I (fun r s => I s /\ forall p, r = Some p -> p < NP)); [eapply ct_le; [apply (w_ff_lt g gok I F)|lia|lia|intros s (Is & _); exact Is|auto|auto]|lia|lia|]. intros fc. cbv beta.
    eapply (ct_seq g _ _ _ (W * (2 * NP)) 0 _ _ I (fun r s => I s /\ forall p, r = Some p -> p < NP)); [|lia|lia|].
    + destruct fc as [anchor|]; [eapply ct_le; [apply (w_ff_lt g gok I F)|lia|lia|intros s (Is & _); exact Is|auto|auto]|]. apply ct_ret. intros s (Is & _). split; auto. intros p [= <-]. lia.
    + intros [p|]; [apply ct_ret; intros s (Is & H); auto|apply ct_fail; intros s (Is & _); auto].
Qed.
Lemma w_oldest : ct g I (W * (8 * NP)) 0 (find_oldest g) I (fun p s => I s /\ p < NP).
Proof.
  unfold find_oldest. eapply ct_seq; [apply w_youngest|lia|lia|]. intros y. cbv beta. apply ct_pure. intros Y.
  eapply ct_seq; [apply (w_ff_lt g gok I F)|lia|lia|]. intros o. apply ct_ret. intros s (Is & H). split; auto. destruct o; auto.
Qed.
Lemma w_q_repair : ok (W * (3 * NP)) NP (q_repair g).
Proof. unfold q_repair. eapply ct_seq; [apply (w_inval g I F)|lia|lia|]. intros ?. eapply w_weak; [apply (w_repair g I F)|lia|lia]. Qed.
Lemma w_free p n : ok (W * (2 * U)) 0 (find_free g (dstart g p) (dend g p) n).
Proof.
  pose proof ES_words as EW. pose proof (page_len_d p) as PL. unfold find_free. eapply (ct_seq g _ _ _ 0 0 _ _ I (fun _ => I)); [apply ct_loc; intros s Is; cbn; auto|lia|lia|]. intros aw.
  eapply (ct_seq g _ _ _ (W * (2 * U)) 0 _ _ I (fun _ => I)); [|lia|lia|].
  - destruct aw as [a|]; [apply ct_ret; auto|]. eapply (ct_seq g _ _ _ 0 0 _ _ I (fun _ => I)); [apply ct_loc; intros s Is; cbn; auto|lia|lia|]. intros ae. cbv zeta.
    set (from := Nat.max _ (dstart g p)). assert (L : 2 * (dend g p - from) <= W * (2 * U)) by (subst from; nia). eapply ct_seq; [apply (w_trav_ok g gok I F)|lia|lia|]. intros t. apply ct_ret; auto.
  - intros fr. destruct (_ <? fr); [apply ct_fail; auto|]. destruct (avail _ _); apply ct_ret; auto.
Qed.
End F.

(** Parts that use the cached pointers. *)
Definition ipp (s : st unit) : Prop := pp_sane g (c_pp (s_ca s)).
Lemma frm_ipp : frm g ipp. Proof. constructor; auto. Qed.
Notation okp r e m := (ct g ipp r e m ipp (fun _ => ipp)).
Lemma w_after_erased p : p < NP -> ct g ipp 0 0 (c_after_erased p) ipp (fun o s => ipp s /\ forall a, o = Some a -> inp g p a).
Proof. intros P. apply ct_loc. intros s Is. cbn [c_after_erased fst snd]. split; [reflexivity|]. split; auto. intros a E. unfold ipp in Is. destruct (c_pp (s_ca s)); [discriminate|]. exact (proj1 (Is p a P) E). Qed.
Lemma inp_len p a : inp g p a -> 2 * (dend g p - a) <= W * (2 * U).
Proof. intros (_ & A & _). pose proof ES_words as EW. assert (L : paddr g p <= a) by (unfold dstart in A; lia). pose proof (page_len p a L). nia. Qed.
Lemma w_empty p x : p < NP -> okp (W * (2 * U)) 0 (is_page_empty g p x).
Proof.
  intros P. destruct x; cbn [is_page_empty]; try (apply ct_ret; auto; fail). eapply ct_seq; [apply (w_after_erased p P)|lia|lia|]. intros ae. cbv beta zeta. apply ct_pure. intros H.
  set (from := match ae with Some x => x | None => dstart g p end). assert (L : 2 * (dend g p - from) <= W * (2 * U)) by (apply inp_len; subst from; destruct ae; [auto|now apply inp_dstart]).
  eapply ct_seq; [apply (w_trav_ok g gok _ frm_ipp)|lia|lia|]. intros t. apply ct_ret; auto.
Qed.
Lemma w_free_addr p : p < NP -> okp (W * (2 * U)) 0 (free_addr g p).
Proof.
  intros P. unfold free_addr. eapply (ct_seq g _ _ _ 0 0 _ _ ipp (fun _ => ipp)); [apply ct_loc; intros s Is; cbn; auto|lia|lia|]. intros [a|]; [apply ct_ret; auto|].
  eapply ct_seq; [apply (w_after_erased p P)|lia|lia|]. intros ae. cbv beta zeta. apply ct_pure. intros H.
  set (from := match ae with Some x => x | None => dstart g p end). assert (L : 2 * (dend g p - from) <= W * (2 * U)) by (apply inp_len; subst from; destruct ae; [auto|now apply inp_dstart]).
  eapply ct_seq; [apply (w_trav_ok g gok _ frm_ipp)|lia|lia|]. intros t. apply ct_ret; auto.
Qed.
Notation Top := (fun _ : st unit => True).
Lemma frm_top {K} : frm g (fun _ : st K => True). Proof. constructor; auto. Qed.
Lemma w_top {A} r e r' e' (m : M unit A) (E : pred) (Q : A -> pred) P : ct g P r e m E Q -> r <= r' -> e <= e' -> ct g P r' e' m Top (fun _ => Top).
Proof. intros H L1 L2. eapply ct_le; eauto. Qed.
Lemma w_write_raw {K} h d a : ct g (fun _ : st K => True) (3 * W) 0 (write_raw g h d a) (fun _ => True) (fun _ _ => True).
Proof.
  unfold write_raw, hdr_write. eapply (ct_seq g _ _ _ 0 0 _ _ _ (fun _ _ => True)); [apply ct_loc; intros s Is; cbn; auto|lia|lia|]. intros ?. eapply ct_seq; [apply (w_write g _ frm_top)|lia|lia|]. intros ?. cbv zeta.
  destruct (_ <? _); [apply ct_fail; auto|]. eapply (ct_seq g _ _ _ W 0 _ _ _ (fun _ _ => True)); [destruct (_ =? 0); [apply ct_ret; auto|apply (w_write g _ frm_top)]|lia|lia|]. intros ?.
  destruct (_ =? 0); [apply ct_ret; auto|]. destruct (32 <? _); [apply ct_fail; auto|]. eapply ct_le; [apply (w_write g _ frm_top)|lia|lia|auto|auto|auto].
Qed.
Lemma ct_s {K A B} (P P0 E1 : st K -> Prop) r e r1 e1 (m : M K A) (k : A -> M K B) (Q1 : A -> st K -> Prop) (Q : B -> st K -> Prop) : ct g P0 r1 e1 m E1 Q1 -> (forall s, P s -> P0 s) -> r1 <= r -> e1 <= e ->
  (forall a, ct g (Q1 a) (r - r1) (e - e1) (k a) (fun _ => True) Q) -> ct g P r e (bind m k) (fun _ => True) Q.
Proof. intros H HP L1 L2 H2. eapply ct_seq; [eapply ct_le; [exact H|apply Nat.le_refl|apply Nat.le_refl|exact HP|auto|intros a s X; exact X]|exact L1|exact L2|exact H2]. Qed.
Lemma ct_t {K A} (P P0 E1 : st K -> Prop) r e r1 e1 (m : M K A) (Q1 : A -> st K -> Prop) : ct g P0 r1 e1 m E1 Q1 -> (forall s, P s -> P0 s) -> r1 <= r -> e1 <= e -> ct g P r e m (fun _ => True) (fun _ _ => True).
Proof. intros H HP L1 L2. eapply ct_le; eauto. Qed.
Ltac sq L := eapply ct_s; [apply L|now auto|try lia; try nia|try lia|].
Ltac fin L := eapply ct_t; [apply L|now auto|try lia; try nia|try lia].
Lemma w_push_inner d ow : ct g ipp (W * (6 * NP + 4 * U + 16)) 1 (push_inner g d ow) Top (fun _ => Top).
Proof.
  unfold push_inner. sq (w_check g _ frm_ipp). intros ?. destruct (too_big g _); [sq (w_unmark g _ frm_ipp); intros ?; apply ct_fail; auto|].
  sq (w_youngest _ frm_ipp). intros cur. cbv beta. apply ct_pure. intros CU. sq (w_partial g _ frm_ipp). intros ?. sq (w_free _ frm_ipp cur (length d)). intros na.
  eapply (ct_seq g _ _ _ (W * (2 * U) + 10 * W) 1 _ _ Top (fun _ => Top)); [|nia|lia|intros aa; unfold write_new; sq (@w_write_raw unit); intros ?; fin (w_unmark g _ (@frm_top unit))].
  destruct na as [ad|]; [apply ct_ret; auto|]. cbv zeta. sq (w_state_c g _ frm_ipp). intros x.
  assert (T3 : ct g ipp (W * (2 * U) + 8 * W) 1 (if pstate_eqb x Closed || (next_page g cur =? cur) then full <- (if ow then ret false else e <- is_page_empty g (next_page g cur) x ;; ret (negb e)) ;; (if (full : bool) then c_unmark ;;; fail EFull
     else open_page g (next_page g cur) ;;; (if next_page g cur =? cur then ret tt else close_page g cur) ;;; partial_close g (next_page g cur) ;;; ret (dstart g (next_page g cur))) else fail ECorrupted) Top (fun _ => Top)).
  { destruct (_ || _); [|apply ct_fail; auto]. eapply (ct_seq g _ _ _ (W * (2 * U)) 0 _ _ Top (fun _ => ipp)); [|lia|lia|].
    - destruct ow; [apply ct_ret; auto|]. sq (w_empty (next_page g cur) x (next_page_lt g gok cur)). intros b. apply ct_ret; auto.
    - intros [|]; [sq (w_unmark g _ frm_ipp); intros ?; apply ct_fail; auto|]. sq (w_open g _ (@frm_top unit)). intros ?.
      eapply (ct_seq g _ _ _ (4 * W) 0 _ _ Top (fun _ => Top)); [destruct (_ =? _); [apply ct_ret; auto|apply (w_close g _ frm_top)]|lia|lia|]. intros ?.
      sq (w_partial g _ (@frm_top unit)). intros ?. apply ct_ret; auto. }
  destruct x; [eapply ct_le; [exact T3|lia|lia|auto|auto|auto]|eapply ct_le; [exact T3|lia|lia|auto|auto|auto]|].
  sq (w_close g _ (@frm_top unit)). intros ?. sq (w_partial g _ (@frm_top unit)). intros ?. apply ct_ret; auto.
Qed.
Lemma w_q_repair_any : ct g Top (W * (3 * NP)) NP (q_repair g) Top (fun _ => ipp).
Proof.
  unfold q_repair. eapply (ct_seq g _ _ _ 0 0 _ _ Top (fun _ => ipp)); [|lia|lia|intros ?; eapply ct_le; [apply (w_repair g _ frm_ipp)|lia|lia|auto|auto|auto]].
  apply ct_loc. intros s _. split; [reflexivity|]. cbn [c_inval fst snd]. unfold ipp. cbn [set_ca s_ca cache_inval c_pp]. destruct (c_pp (s_ca s)) as [|er wr]; [exact Logic.I|]. intros p a P. rewrite !lookup_none. easy.
Qed.
Lemma w_auto_any {A} r e (m : M unit A) (Q : A -> pred) : ct g ipp r e m Top Q -> ct g ipp (2 * r + W * (3 * NP)) (2 * e + NP) (auto_repair m (q_repair g)) Top Q.
Proof.
  intros H1. unfold auto_repair. eapply ct_try; [exact H1|lia|lia|]. intros [a|x]; [apply ct_ret; auto|]. destruct x; try (apply ct_fail; auto). sq w_q_repair_any. intros ?. eapply ct_le; [exact H1|lia|lia|auto|auto|auto].
Qed.
Lemma w_max_inner : ct g ipp (W * (6 * NP + 4 * U + 2)) 0 (max_fit_inner g) Top (fun _ => Top).
Proof.
  unfold max_fit_inner. sq (w_check g _ frm_ipp). intros ?. sq (w_youngest _ frm_ipp). intros cur. cbv beta. apply ct_pure. intros CU. cbv zeta. sq (w_state_c g _ frm_ipp). intros x.
  eapply (ct_seq g _ _ _ (W * (2 * U)) 0 _ _ Top (fun _ => ipp)); [destruct x; [|apply ct_fail; auto|apply ct_ret; auto]|nia|lia|].
  - eapply ct_le; [apply (w_empty (next_page g cur) Closed (next_page_lt g gok cur))|lia|lia|auto|auto|auto].
  - intros [|]; [sq (w_unmark g _ frm_ipp); intros ?; apply ct_ret; auto|]. sq (w_free_addr cur CU). intros ad. sq (w_unmark g _ frm_ipp). intros ?. destruct (_ <? _); [apply ct_fail; auto|apply ct_ret; auto].
Qed.
Lemma w_space_loop : forall l n, Forall (fun p => p < NP) l -> ct g ipp (length l * (W * (6 * U + 2))) 0 (space_loop g l n) Top (fun _ => ipp).
Proof.
  induction l as [|p l IH]; intros n H; cbn [space_loop length]; [apply ct_ret; auto|]. inversion_clear H as [|? ? P H'].
  assert (T : forall n r, length l * (W * (6 * U + 2)) <= r -> ct g ipp r 0 (space_loop g l n) Top (fun _ => ipp)) by (intros n' r L; eapply ct_le; [apply (IH n' H')|exact L|lia|auto|auto|auto]).
  sq (w_state_c g _ frm_ipp). intros x. sq (w_empty p x P). intros em. destruct (_ && _); [apply T; nia|]. destruct em; [apply T; nia|]. sq (w_free_addr p P). intros ad. destruct (_ <? _); [apply ct_fail; auto|].
  eapply (ct_seq g _ _ _ (W * (2 * U)) 0 _ _ Top (fun _ => ipp)); [destruct (avail _ _); [apply ct_ret; auto|]; eapply ct_le; [apply (w_empty p Closed P)|lia|lia|auto|auto|auto]|nia|lia|].
  intros [|]; apply T; nia.
Qed.
Lemma w_space_inner : ct g ipp (W * (NP * (6 * U + 2))) 0 (space_left_inner g) Top (fun _ => Top).
Proof.
  unfold space_left_inner. sq (w_check g _ frm_ipp). intros ?. assert (PF : Forall (fun p => p < NP) (get_pages g 0)).
  { apply Forall_forall. intros p H. unfold get_pages in H. apply in_map_iff in H. destruct H as (i & <- & _). apply Nat.mod_upper_bound. pose proof (NP_pos g gok). lia. }
  eapply (ct_seq g _ _ _ (W * (NP * (6 * U + 2))) 0 _ _ Top (fun _ => ipp)); [eapply ct_le; [apply (w_space_loop _ 0 PF)|rewrite pages_length; nia|lia|auto|auto|auto]|lia|lia|].
  intros n. sq (w_unmark g _ frm_ipp). intros ?. apply ct_ret; auto.
Qed.

(** * The iterator *)
Definition iqi (s : st unit) : Prop := qiok g (s_qi s) (s_mi s).
Lemma frm_iqi : frm g iqi. Proof. constructor; auto. Qed.
Lemma w_start : ct g ipp (W * (8 * NP)) 0 (find_start g) Top (fun a _ => exists p, p < NP /\ inp g p a).
Proof.
  unfold find_start. sq (w_check g _ frm_ipp). intros ?. sq (w_oldest _ frm_ipp). intros o. cbv beta. apply ct_pure. intros O. sq (w_after_erased o O). intros ae. cbv beta. apply ct_ret. intros s (_ & H). exists o. split; auto. destruct ae; [auto|now apply inp_dstart].
Qed.
Lemma w_iter : ct g ipp (2 * (W * (8 * NP)) + W * (3 * NP)) NP (q_iter g) Top (fun _ => iqi).
Proof.
  unfold q_iter. sq (w_auto_any _ _ _ _ w_start). intros ad. cbv beta. apply ct_loc. intros s (p & P & IN). split; [reflexivity|]. cbn [put_qi fst snd]. unfold iqi. cbn [set_qi s_qi s_mi]. unfold qiok. cbn [qi_oldest qi_next].
  split; [rewrite (inp_pindex g gok p ad IN); exact P|exists p; auto].
Qed.

Definition isq (q : qiter) (s : st unit) : Prop := s_qi s = q.
Lemma frm_isq q : frm g (isq q). Proof. constructor; auto. Qed.
Definition rest (k : nat) : nat := (NP - 1 - k) * (4 * ES + 3 * W) + 2 * W.
Definition scan (f p a : nat) : M unit (option (hdr * nat)) :=
  let e := dend g p in
  t <- traverse g (tfuel a e) is_erased_hdr a e ;;
  match t with
  | (Some h, fa, _) =>
      mi <- read_item g h fa (Some e) ;;
      qi <- get_qi ;;
      match mi with
      | MCorrupted h =>
          let nx := next_addr g fa h in
          put_qi (mkqi (if e <=? nx then NPageAfter p else NAddr nx) (qi_prev qi) (qi_oldest qi)) ;;; next_loop g f
      | MErased _ => fail ELogicBug
      | MPresent h =>
          let nx := next_addr g fa h in
          put_qi (mkqi (if e <=? nx then NPageAfter p else NAddr nx) (match qi_prev qi with AllPopped => AllButCurrentPopped | x => x end) (qi_oldest qi)) ;;; c_unmark ;;; ret (Some (h, fa))
      end
  | (None, _, _) => qi <- get_qi ;; put_qi (mkqi (NPageAfter p) (qi_prev qi) (qi_oldest qi)) ;;; next_loop g f
  end.
Definition vr (q : qiter) : nat :=
  match qi_next q with NAddr a => 4 * (dend g (pindex g a) - a) + rest (pos NP (qi_oldest q) (pindex g a)) | NPageAfter p => rest (pos NP (qi_oldest q) p) end.
Definition ve (q : qiter) : nat := match qi_next q with NAddr a => NP - 1 - pos NP (qi_oldest q) (pindex g a) | NPageAfter p => NP - 1 - pos NP (qi_oldest q) p end.
Definition turn (f : nat) : Prop := forall q, qiok g q (mkmi 0 0 0 0) -> ct g (isq q) (vr q) (ve q) (next_loop g f) iqi (fun _ => iqi).
Lemma isq_iqi q s : qiok g q (mkmi 0 0 0 0) -> isq q s -> iqi s. Proof. unfold isq, iqi. intros H ->. exact H. Qed.
Lemma same_len h mi x fa e (s s' : st unit) : read_item g h fa e s = (Ok mi, s') -> (mi = MCorrupted x \/ mi = MPresent x) -> next_addr g fa x = next_addr g fa h.
Proof.
  unfold read_item. destruct (h_crc h) as [n0|]; [|intros [= <- _] [H|H]; discriminate]. cbv zeta. destruct (beyond e _); [intros [= <- _] [H|H]; inversion H; reflexivity|]. unfold bind, get_buf. destruct (length (s_buf s) <? _); [discriminate|].
  assert (RD : forall n (s1 s2 : st unit) m, read_data g n h n0 (fa + HL) (rup g (h_len h)) s1 = (Ok m, s2) -> m = MPresent h \/ m = MCorrupted h).
  { induction n as [|n IH]; intros s1 s2 m E; cbn [read_data] in E; unfold bind, get_buf in E;
      match type of E with (match ?x with _ => _ end = _) => destruct x as [[?|?] s3] end; try discriminate; (destruct (_ =? n0)%N; [injection E as <- _; now left|]); [injection E as <- _; now right|exact (IH _ _ _ E)]. }
  intros E H. apply RD in E. destruct E as [->| ->], H as [H|H]; inversion H; reflexivity.
Qed.
Lemma vr_at p a pr o : inp g p a -> vr (mkqi (NAddr a) pr o) = 4 * (dend g p - a) + rest (pos NP o p) /\ ve (mkqi (NAddr a) pr o) = NP - 1 - pos NP o p.
Proof. intros H. unfold vr, ve. cbn [qi_next qi_oldest]. now rewrite (inp_pindex g gok p a H). Qed.
Lemma then_loop f q s : turn f -> qiok g q (mkmi 0 0 0 0) -> let s' := next_loop g f (set_qi s q) in
  nr g (snd s') <= nr g s + vr q /\ ne (snd s') <= ne s + ve q /\ match fst s' with Ok a => iqi (snd s') | Err _ => iqi (snd s') end.
Proof. intros T Q. exact (T q Q (set_qi s q) eq_refl). Qed.
Lemma w_scan f p a q : turn f -> p < NP -> inp g p a -> qiok g q (mkmi 0 0 0 0) -> ct g (isq q) (4 * (dend g p - a) + rest (pos NP (qi_oldest q) p)) (NP - 1 - pos NP (qi_oldest q) p) (scan f p a) iqi (fun _ => iqi).
Proof.
  intros TU P IN QI s Is. assert (O : qi_oldest q < NP) by apply QI. unfold scan. cbv zeta. unfold bind. set (e := dend g p) in *. set (k := pos NP (qi_oldest q) p) in *.
  assert (A : al g a /\ dstart g p <= a <= e) by exact IN. pose proof (W_pos g gok) as WP.
  assert (QO : forall pr, qiok g (mkqi (NPageAfter p) pr (qi_oldest q)) (mkmi 0 0 0 0)) by (intros; split; cbn [qi_oldest qi_next]; auto).
  assert (QA : forall pr nx, inp g p nx -> qiok g (mkqi (NAddr nx) pr (qi_oldest q)) (mkmi 0 0 0 0)) by (intros; split; cbn [qi_oldest qi_next]; eauto).
  destruct (w_trav g gok (isq q) (frm_isq q) is_erased_hdr e (tfuel a e) a s Is) as (A1 & A2 & A3 & A4).
  destruct (traverse g (tfuel a e) is_erased_hdr a e s) as [[[[[h|] fa] nx]|x] s1] eqn:ETR; cbn [fst snd] in *.
  - destruct A4 as (L1 & -> & L2 & L3 & L4). destruct (w_read_item g (isq q) (frm_isq q) h fa (Some e) s1 A3) as (B1 & B2 & B3).
    pose proof (fun mi x s2 => same_len h mi x fa (Some e) s1 s2) as SL.
    destruct (read_item g h fa (Some e) s1) as [[mi|x] s2] eqn:ERI; cbn [fst snd] in *.
    2: { split; [lia|split; [lia|exact (isq_iqi _ _ QI B3)]]. }
    assert (Q2 : s_qi s2 = q) by exact B3.
    assert (NXI : inp g p (next_addr g fa h)). { split; [|split]; [|lia|exact L3]. unfold next_addr. apply (al_add g gok); [apply (al_add g gok); [apply L4, A|apply (al_HL g gok)]|apply (al_rup g gok)]. }
    cbn [get_qi put_qi c_unmark ret fail]. rewrite Q2. destruct mi as [h2|h2|h2]; [| cbn [fail fst snd]; split; [lia|split; [lia|exact (isq_iqi _ _ QI B3)]]|]; rewrite (SL _ h2 _ eq_refl (ltac:(auto))).
    + destruct (Nat.leb_spec e (next_addr g fa h)).
      * destruct (then_loop f _ s2 TU (QO (qi_prev q))) as (C1 & C2 & C3). unfold vr, ve in C1, C2. cbn [qi_next qi_oldest] in C1, C2. fold k in C1, C2. split; [lia|split; [lia|exact C3]].
      * destruct (then_loop f _ s2 TU (QA (qi_prev q) _ NXI)) as (C1 & C2 & C3). destruct (vr_at p (next_addr g fa h) (qi_prev q) (qi_oldest q) NXI) as (V1 & V2). rewrite V1 in C1. rewrite V2 in C2. fold k e in C1, C2. split; [lia|split; [lia|exact C3]].
    + cbn [fst snd]. split; [change (nr g s2 <= nr g s + (4 * (e - a) + rest k)); lia|split; [change (ne s2 <= ne s + (NP - 1 - k)); lia|]].
      unfold iqi. cbn [set_ca set_qi s_qi s_mi]. destruct (Nat.leb_spec e (next_addr g fa h)); [apply QO|now apply QA].
  - cbn [get_qi put_qi]. replace (s_qi s1) with q by now symmetry.
    destruct (then_loop f _ s1 TU (QO (qi_prev q))) as (C1 & C2 & C3). unfold vr, ve in C1, C2. cbn [qi_next qi_oldest] in C1, C2. fold k in C1, C2. split; [lia|split; [lia|exact C3]].
  - split; [lia|split; [lia|exact (isq_iqi _ _ QI A3)]].
Qed.
Lemma all_turns : forall f, turn f.
Proof.
  pose proof (NP_pos g gok) as NPp. induction f as [|f IH]; intros q QI s Is; [cbn [next_loop fail fst snd]; split; [lia|split; [lia|exact (isq_iqi _ _ QI Is)]]|].
  assert (O : qi_oldest q < NP) by apply QI. destruct q as [nx pr o]. cbn [qi_oldest] in O. assert (IS : s_qi s = mkqi nx pr o) by exact Is. destruct nx as [a|p].
  - destruct QI as (_ & p & P & IN). cbn [qi_next] in IN. destruct (vr_at p a pr o IN) as (V1 & V2). rewrite V1, V2.
    assert (EQ : next_loop g (S f) s = scan f p a s). { cbn [next_loop]. unfold bind at 1. cbn [get_qi]. rewrite IS. cbn [qi_next]. unfold bind at 1. cbn [ret]. rewrite (inp_pindex g gok p a IN). reflexivity. }
    rewrite EQ. refine (w_scan f p a (mkqi (NAddr a) pr o) IH P IN _ s Is). split; cbn [qi_oldest qi_next]; eauto.
  - assert (P : p < NP) by apply QI. pose proof (next_page_lt g gok p) as NL.
    assert (EQ : next_loop g (S f) s = (x <- page_state_c g (next_page g p) ;; if is_open x || (next_page g p =? o) then c_unmark ;;; ret None
      else (match pr with AllPopped => open_page g p | _ => ret tt end) ;;; put_qi (mkqi (NAddr (dstart g (next_page g p))) pr o) ;;; scan f (next_page g p) (dstart g (next_page g p))) s).
    { cbn [next_loop]. unfold bind at 1. cbn [get_qi]. rewrite IS. cbn [qi_next qi_prev qi_oldest]. unfold bind. destruct (page_state_c g (next_page g p) s) as [[x|x] s1]; [|reflexivity]. destruct (_ || _); [reflexivity|].
      destruct (match pr with AllPopped => open_page g p | _ => ret tt end s1) as [[[]|y] s2]; reflexivity. }
    rewrite EQ. clear EQ. revert s Is IS. enough (X : ct g (isq (mkqi (NPageAfter p) pr o)) (vr (mkqi (NPageAfter p) pr o)) (ve (mkqi (NPageAfter p) pr o)) (x <- page_state_c g (next_page g p) ;; if is_open x || (next_page g p =? o) then c_unmark ;;; ret None
      else (match pr with AllPopped => open_page g p | _ => ret tt end) ;;; put_qi (mkqi (NAddr (dstart g (next_page g p))) pr o) ;;; scan f (next_page g p) (dstart g (next_page g p))) iqi (fun _ => iqi)) by (intros s Is _; exact (X s Is)).
    set (q := mkqi (NPageAfter p) pr o) in *. assert (FI : forall s, isq q s -> iqi s) by (intros s; now apply isq_iqi).
    assert (VR : vr q = (NP - 1 - pos NP o p) * (4 * ES + 3 * W) + 2 * W) by reflexivity. assert (VE : ve q = NP - 1 - pos NP o p) by reflexivity. rewrite VR, VE. pose (X := (NP - 1 - pos NP o p) * (4 * ES + 3 * W)). assert (EX : (NP - 1 - pos NP o p) * (4 * ES + 3 * W) = X) by reflexivity. rewrite EX. clearbody X.
    eapply (ct_seq g _ _ _ (2 * W) 0 _ _ iqi (fun _ => isq q)); [eapply ct_le; [apply (w_state_c g _ (frm_isq q))|lia|lia|auto|auto|auto]|lia|lia|]. intros x.
    destruct (is_open x || (next_page g p =? o)) eqn:EC; [eapply (ct_seq g _ _ _ 0 0 _ _ iqi (fun _ => isq q)); [eapply ct_le; [apply (w_unmark g _ (frm_isq q))|lia|lia|auto|auto|auto]|lia|lia|]; intros ?; apply ct_ret; auto|].
    apply orb_false_iff in EC. destruct EC as (_ & EC). apply Nat.eqb_neq in EC. pose proof (pos_next g o p O P EC) as PN. pose proof (pos_NP g o (next_page g p) O NL) as PL. rewrite PN in PL. set (k := pos NP o p) in *.
    assert (SP : NP - 1 - k = S (NP - 1 - S k)) by lia. rewrite SP in EX |- *. set (r := NP - 1 - S k) in *. cbn [Nat.mul] in EX. set (Y := r * (4 * ES + 3 * W)) in *.
    eapply (ct_seq g _ _ _ W 1 _ _ iqi (fun _ => isq q)); [destruct pr; [eapply ct_le; [apply (w_open g _ (frm_isq q))|lia|lia|auto|auto|auto]|apply ct_ret; auto|apply ct_ret; auto]|lia|lia|]. intros ?.
    eapply (ct_seq g _ _ _ 0 0 _ _ iqi (fun _ => isq (mkqi (NAddr (dstart g (next_page g p))) pr o))); [apply ct_loc; intros s Is; split; reflexivity|lia|lia|]. intros ?.
    assert (QN : qiok g (mkqi (NAddr (dstart g (next_page g p))) pr o) (mkmi 0 0 0 0)) by (split; [exact O|exists (next_page g p); split; [exact NL|now apply inp_dstart]]).
    eapply ct_le; [apply (w_scan f (next_page g p) (dstart g (next_page g p)) _ IH NL (inp_dstart g gok _) QN)| | |auto|auto|auto]; cbn [qi_oldest]; rewrite PN.
    + unfold rest. fold r Y. pose proof (page_len_d (next_page g p)). pose proof (ES_big g gok). lia.
    + fold r. lia.
Qed.
Lemma w_next_inner : ct g iqi (W * (NP * (4 * U + 3))) (NP - 1) (next_inner g) iqi (fun _ => iqi).
Proof.
  pose proof ES_words as EW. pose proof (NP_pos g gok) as NPp. pose proof (ES_big g gok) as EB. unfold next_inner. eapply ct_seq; [apply (w_check g _ frm_iqi)|lia|lia|]. intros ?. intros s Is.
  assert (Q : qiok g (s_qi s) (mkmi 0 0 0 0)) by exact Is. destruct (all_turns (qfuel g) (s_qi s) Q s eq_refl) as (A1 & A2 & A3).
  assert (VR : vr (s_qi s) <= W * (NP * (4 * U + 3))).
  { assert (RS : forall k, rest k <= (NP - 1) * (4 * ES + 3 * W) + 2 * W) by (intros k; unfold rest; apply Nat.add_le_mono_r, Nat.mul_le_mono_r; lia).
    assert (SP : W * (NP * (4 * U + 3)) = 4 * ES + 3 * W + (NP - 1) * (4 * ES + 3 * W)) by (rewrite EW; replace NP with (S (NP - 1)) at 1 by lia; lia).
    unfold vr. destruct (s_qi s) as [[ad|p] pr o]; cbn [qi_next qi_oldest]; [|specialize (RS (pos NP o p)); lia]. destruct Q as (_ & p & P & IN). cbn [qi_next] in IN. rewrite (inp_pindex g gok p ad IN). specialize (RS (pos NP o p)).
    assert (L : dend g p - ad <= ES - W) by (apply page_len; destruct IN as (_ & IN & _); unfold dstart in IN; lia). lia. }
  assert (VE : ve (s_qi s) <= NP - 1) by (unfold ve; destruct (qi_next (s_qi s)); lia). split; [lia|split; [lia|exact A3]].
Qed.
Lemma w_next : ct g iqi (W * fst (q_next_work g)) (snd (q_next_work g)) (q_next g) iqi (fun _ => iqi).
Proof.
  unfold q_next_work, q_twice. cbn [fst snd]. unfold q_next. eapply (ct_seq g _ _ _ 0 0 _ _ iqi (fun qi s => iqi s /\ qiok g qi (mkmi 0 0 0 0))); [apply ct_loc; intros s Is; split; [reflexivity|split; exact Is]|lia|lia|]. intros qi. cbv beta. apply ct_pure. intros QI.
  eapply (ct_seq g _ _ _ 0 0 _ _ iqi (fun _ => iqi)); [|lia|lia|].
  - destruct (qi_prev qi); [apply ct_ret; auto| |apply ct_ret; auto]. apply ct_loc. intros s Is. split; [reflexivity|]. exact QI.
  - intros ?. eapply ct_seq; [apply (w_auto g iqi _ _ _ _ _ _ _ w_next_inner (w_q_repair _ frm_iqi))|lia|lia|]. intros [[h ad]|]; [|apply ct_ret; auto]. eapply ct_seq; [apply (w_get_buf g)|lia|lia|]. intros b. destruct (_ <? _); [apply ct_fail; auto|apply ct_ret; auto].
Qed.
Lemma w_entry_pop h a : ct g iqi W 0 (q_entry_pop g h a) iqi (fun _ => iqi).
Proof.
  unfold q_entry_pop. eapply (ct_seq g _ _ _ 0 0 _ _ iqi (fun qi s => iqi s /\ qiok g qi (mkmi 0 0 0 0))); [apply ct_loc; intros s Is; split; [reflexivity|split; exact Is]|lia|lia|]. intros qi. cbv beta. apply ct_pure. intros QI.
  eapply (ct_seq g _ _ _ 0 0 _ _ iqi (fun _ => iqi)); [|lia|lia|].
  - destruct (qi_prev qi); [apply ct_ret; auto| |apply ct_ret; auto]. apply ct_loc. intros s Is. split; [reflexivity|]. exact QI.
  - intros ?. unfold erase_data, hdr_write. cbv zeta. eapply (ct_seq g _ _ _ W 0 _ _ iqi (fun _ => iqi)); [|lia|lia|intros ?; eapply ct_le; [apply (w_unmark g _ frm_iqi)|lia|lia|auto|auto|auto]].
    eapply (ct_seq g _ _ _ 0 0 _ _ iqi (fun _ => iqi)); [apply ct_loc; intros s Is; split; [reflexivity|exact Is]|lia|lia|]. intros ?. eapply ct_le; [apply (w_write g _ frm_iqi)|lia|lia|auto|auto|auto].
Qed.
Lemma w_entry h : ct g iqi 0 0 (d <- entry_data h ;; ret (Some d)) iqi (fun _ => iqi).
Proof. apply ct_loc. intros s Is. split; [reflexivity|exact Is]. Qed.
Lemma w_step pop : ct g iqi (W * (fst (q_next_work g) + 1)) (snd (q_next_work g)) (q_step g pop) iqi (fun _ => iqi).
Proof.
  unfold q_step. eapply ct_seq; [apply w_next|lia|lia|]. intros [[h ad]|]; [|apply ct_ret; auto]. eapply (ct_seq g _ _ _ W 0 _ _ iqi (fun _ => iqi)); [destruct pop; [apply w_entry_pop|apply ct_ret; auto]|lia|lia|].
  intros ?. eapply ct_le; [apply w_entry|lia|lia|auto|auto|auto].
Qed.
Lemma w_script : forall sc, ct g iqi (length sc * (W * (fst (q_next_work g) + 1))) (length sc * snd (q_next_work g)) (q_script g sc) iqi (fun _ => iqi).
Proof.
  induction sc as [|[b pop] sc IH]; cbn [q_script length]; [apply ct_ret; auto|]. eapply ct_seq; [apply (w_put_buf g _ frm_iqi)|lia|lia|]. intros ?.
  eapply ct_try; [apply w_step|lia|lia|]. intros x.
  assert (T : forall y : res (option (list N)), ct g (fun s => match x with Ok _ => iqi s | Err _ => iqi s end) (length sc * (W * (fst (q_next_work g) + 1))) (length sc * snd (q_next_work g)) (rs <- q_script g sc ;; ret (y :: rs)) iqi (fun _ => iqi)).
  { intros y. eapply ct_seq; [eapply ct_le; [apply IH|apply Nat.le_refl|apply Nat.le_refl|intros s H; destruct x; exact H|auto|intros aa s H; exact H]|lia|lia|]. intros rs. apply ct_ret; auto. }
  destruct x as [o|x]; [eapply ct_le; [apply T|lia|lia|auto|auto|auto]|]. destruct x; try (apply ct_fail; auto; fail). eapply ct_le; [apply T|lia|lia|auto|auto|auto].
Qed.
Lemma q_work_ct c s : ipp s -> let s' := snd (q_exec (R := counted) g c s) in nr g s' <= nr g s + W * fst (q_work g c) /\ ne s' <= ne s + snd (q_work g c).
Proof.
  intros Is. cbv zeta.
  assert (T : forall A (h : res A -> qans) (m : M unit A) r e, (q_exec (R := counted) g c s = ans1 h (m s)) -> ct g ipp r e m Top (fun _ => Top) -> r <= W * fst (q_work g c) -> e <= snd (q_work g c) ->
    nr g (snd (q_exec (R := counted) g c s)) <= nr g s + W * fst (q_work g c) /\ ne (snd (q_exec (R := counted) g c s)) <= ne s + snd (q_work g c)).
  { intros A h m r e -> H L1 L2. unfold ans1. cbn [snd]. destruct (H s Is) as (A1 & A2 & _). lia. }
  destruct c as [d ow|b|b|sc| |].
  - refine (T _ _ _ _ _ eq_refl (w_auto_any _ _ _ _ (w_push_inner d ow)) _ _); unfold q_work, q_twice; cbn [fst snd]; lia.
  - refine (T _ AItem (q_pop g b) (2 * (W * (8 * NP)) + W * (3 * NP) + W * (fst (q_next_work g) + 1)) (NP + snd (q_next_work g)) eq_refl _ _ _); [|unfold q_work, q_twice; cbn [fst snd]; lia|unfold q_work, q_twice; cbn [fst snd]; lia].
    unfold q_pop. sq (w_put_buf g _ frm_ipp). intros ?. sq w_iter. intros ?. sq w_next. intros [[h ad]|]; [|apply ct_ret; auto]. sq w_entry_pop. intros ?. fin w_entry.
  - refine (T _ AItem (q_peek g b) (2 * (W * (8 * NP)) + W * (3 * NP) + W * (fst (q_next_work g) + 1)) (NP + snd (q_next_work g)) eq_refl _ _ _); [|unfold q_work, q_twice; cbn [fst snd]; lia|unfold q_work, q_twice; cbn [fst snd]; lia].
    unfold q_peek. sq (w_put_buf g _ frm_ipp). intros ?. sq w_iter. intros ?. sq w_next. intros [[h ad]|]; [|apply ct_ret; auto]. fin w_entry.
  - refine (T _ AIter (q_iterate g sc) (2 * (W * (8 * NP)) + W * (3 * NP) + length sc * (W * (fst (q_next_work g) + 1))) (NP + length sc * snd (q_next_work g)) eq_refl _ _ _); [|unfold q_work, q_twice; cbn [fst snd]; lia|unfold q_work, q_twice; cbn [fst snd]; lia].
    unfold q_iterate. sq w_iter. intros ?. fin w_script.
  - refine (T _ _ _ _ _ eq_refl (w_auto_any _ _ _ _ w_max_inner) _ _); unfold q_work, q_twice; cbn [fst snd]; lia.
  - refine (T _ _ _ _ _ eq_refl (w_auto_any _ _ _ _ w_space_inner) _ _); unfold q_work, q_twice; cbn [fst snd]; lia.
Qed.
End Q.
