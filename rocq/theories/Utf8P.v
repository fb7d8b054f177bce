(** The check for well-formed UTF-8 accepts exactly the encodings of the Unicode scalar values. *)
From Coq Require Import List NArith ZArith Arith Bool Lia ZifyBool ZifyNat ZifyN.
From Verif Require Import Base Crc Map Codec CodecP.
Import ListNotations.
Open Scope N_scope.

(** Unicode scalar values, and their encoding (The Unicode Standard, definitions D76 and D92). *)
Definition scalar (c : N) : Prop := c < 0xD800 \/ 0xE000 <= c < 0x110000.
Definition enc (c : N) : list N :=
  if c <? 0x80 then [c]
  else if c <? 0x800 then [0xC0 + c / 64; 0x80 + c mod 64]
  else if c <? 0x10000 then [0xE0 + c / 4096; 0x80 + c / 64 mod 64; 0x80 + c mod 64]
  else [0xF0 + c / 262144; 0x80 + c / 4096 mod 64; 0x80 + c / 64 mod 64; 0x80 + c mod 64].
Definition text (l : list N) : Prop := exists cs, Forall scalar cs /\ l = flat_map enc cs.

Local Ltac Zify.zify_post_hook ::= Z.div_mod_to_equations.
Ltac byt := apply eq_true_iff_eq || idtac; unfold within, cont; lia.
Lemma enc_utf8 c l : scalar c -> utf8 (enc c ++ l) = utf8 l.
Proof.
  intros S. unfold scalar in S. unfold enc. destruct (c <? 0x80) eqn:E1.
  { cbn [app utf8]. now rewrite E1. }
  destruct (c <? 0x800) eqn:E2.
  { cbn [app utf8]. replace (0xC0 + c / 64 <? 0x80) with false by lia. replace (within 0xC2 0xDF (0xC0 + c / 64)) with true by (unfold within; lia).
    replace (cont (0x80 + c mod 64)) with true by (unfold cont; lia). reflexivity. }
  destruct (c <? 0x10000) eqn:E3.
  { cbn [app utf8]. replace (0xE0 + c / 4096 <? 0x80) with false by lia. replace (within 0xC2 0xDF (0xE0 + c / 4096)) with false by (unfold within; lia).
    replace (within 0xE0 0xEF (0xE0 + c / 4096)) with true by (unfold within; lia).
    replace (cont (0x80 + c mod 64)) with true by (unfold cont; lia).
    replace (if 0xE0 + c / 4096 =? 0xE0 then within 0xA0 0xBF (0x80 + c / 64 mod 64) else if 0xE0 + c / 4096 =? 0xED then within 0x80 0x9F (0x80 + c / 64 mod 64) else cont (0x80 + c / 64 mod 64)) with true; [reflexivity|].
    symmetry. unfold within, cont. destruct (0xE0 + c / 4096 =? 0xE0) eqn:F1; [lia|]. destruct (0xE0 + c / 4096 =? 0xED) eqn:F2; lia. }
  cbn [app utf8]. replace (0xF0 + c / 262144 <? 0x80) with false by lia. replace (within 0xC2 0xDF (0xF0 + c / 262144)) with false by (unfold within; lia).
  replace (within 0xE0 0xEF (0xF0 + c / 262144)) with false by (unfold within; lia).
  replace (within 0xF0 0xF4 (0xF0 + c / 262144)) with true by (unfold within; lia).
  replace (cont (0x80 + c mod 64)) with true by (unfold cont; lia). replace (cont (0x80 + c / 64 mod 64)) with true by (unfold cont; lia).
  replace (if 0xF0 + c / 262144 =? 0xF0 then within 0x90 0xBF (0x80 + c / 4096 mod 64) else if 0xF0 + c / 262144 =? 0xF4 then within 0x80 0x8F (0x80 + c / 4096 mod 64) else cont (0x80 + c / 4096 mod 64)) with true; [reflexivity|].
  symmetry. unfold within, cont. destruct (0xF0 + c / 262144 =? 0xF0) eqn:F1; [lia|]. destruct (0xF0 + c / 262144 =? 0xF4) eqn:F2; lia.
Qed.
Lemma text_cons c l : scalar c -> text l -> text (enc c ++ l).
Proof. intros S (cs & F & ->). exists (c :: cs). split; [now constructor|reflexivity]. Qed.
Lemma enc2 a b : within 0xC2 0xDF a = true -> cont b = true -> exists c, scalar c /\ enc c = [a; b].
Proof.
  unfold within, cont. intros A B. exists ((a - 0xC0) * 64 + (b - 0x80)). split; [unfold scalar; lia|]. unfold enc.
  replace ((a - 0xC0) * 64 + (b - 0x80) <? 0x80) with false by lia. replace ((a - 0xC0) * 64 + (b - 0x80) <? 0x800) with true by lia.
  repeat f_equal; lia.
Qed.
Lemma enc3 a b c : within 0xE0 0xEF a = true -> (if a =? 0xE0 then within 0xA0 0xBF b else if a =? 0xED then within 0x80 0x9F b else cont b) = true -> cont c = true ->
  exists x, scalar x /\ enc x = [a; b; c].
Proof.
  unfold within, cont. intros A B C. assert (B' : 0x80 <= b <= 0xBF /\ (a = 0xE0 -> 0xA0 <= b) /\ (a = 0xED -> b <= 0x9F)) by (destruct (a =? 0xE0) eqn:F1; [lia|]; destruct (a =? 0xED) eqn:F2; lia). clear B.
  exists ((a - 0xE0) * 4096 + (b - 0x80) * 64 + (c - 0x80)). set (x := (a - 0xE0) * 4096 + (b - 0x80) * 64 + (c - 0x80)).
  assert (x = (a - 0xE0) * 4096 + (b - 0x80) * 64 + (c - 0x80)) by reflexivity. clearbody x. split; [unfold scalar; lia|]. unfold enc.
  replace (x <? 0x80) with false by lia. replace (x <? 0x800) with false by lia. replace (x <? 0x10000) with true by lia. repeat f_equal; lia.
Qed.
Lemma enc4 a b c d : within 0xF0 0xF4 a = true -> (if a =? 0xF0 then within 0x90 0xBF b else if a =? 0xF4 then within 0x80 0x8F b else cont b) = true -> cont c = true -> cont d = true ->
  exists x, scalar x /\ enc x = [a; b; c; d].
Proof.
  unfold within, cont. intros A B C D. assert (B' : 0x80 <= b <= 0xBF /\ (a = 0xF0 -> 0x90 <= b) /\ (a = 0xF4 -> b <= 0x8F)) by (destruct (a =? 0xF0) eqn:F1; [lia|]; destruct (a =? 0xF4) eqn:F2; lia). clear B.
  exists ((a - 0xF0) * 262144 + (b - 0x80) * 4096 + (c - 0x80) * 64 + (d - 0x80)). set (x := (a - 0xF0) * 262144 + (b - 0x80) * 4096 + (c - 0x80) * 64 + (d - 0x80)).
  assert (x = (a - 0xF0) * 262144 + (b - 0x80) * 4096 + (c - 0x80) * 64 + (d - 0x80)) by reflexivity. clearbody x. split; [unfold scalar; lia|]. unfold enc.
  replace (x <? 0x80) with false by lia. replace (x <? 0x800) with false by lia. replace (x <? 0x10000) with false by lia. repeat f_equal; lia.
Qed.
Lemma utf8_ok l : utf8 l = true <-> text l.
Proof.
  split.
  - remember (length l) as n eqn:E. assert (L : (length l <= n)%nat) by lia. clear E. revert l L. induction n as [|n IH]; intros [|a l] L H; cbn [length] in L; try lia; try (exists []; split; auto; fail).
    cbn [utf8] in H. destruct (a <? 0x80) eqn:E1.
    { replace (a :: l) with (enc a ++ l) by (unfold enc; now rewrite E1). apply text_cons; [unfold scalar; lia|]. apply IH; auto; lia. }
    destruct (within 0xC2 0xDF a) eqn:E2.
    { destruct l as [|b l]; try discriminate. apply andb_true_iff in H. destruct H as [H1 H2]. destruct (enc2 a b E2 H1) as (x & S & EX).
      replace (a :: b :: l) with (enc x ++ l) by now rewrite EX. apply text_cons; auto. apply IH; auto. cbn [length] in L. lia. }
    destruct (within 0xE0 0xEF a) eqn:E3.
    { destruct l as [|b [|c l]]; try discriminate. apply andb_true_iff in H. destruct H as [H1 H2]. apply andb_true_iff in H1. destruct H1 as [H0 H1]. destruct (enc3 a b c E3 H0 H1) as (x & S & EX).
      replace (a :: b :: c :: l) with (enc x ++ l) by now rewrite EX. apply text_cons; auto. apply IH; auto. cbn [length] in L. lia. }
    destruct (within 0xF0 0xF4 a) eqn:E4; try discriminate.
    destruct l as [|b [|c [|d l]]]; try discriminate. rewrite !andb_true_iff in H. destruct H as [[[H0 H1] H2] H3]. destruct (enc4 a b c d E4 H0 H1 H2) as (x & S & EX).
    replace (a :: b :: c :: d :: l) with (enc x ++ l) by now rewrite EX. apply text_cons; auto. apply IH; auto. cbn [length] in L. lia.
  - intros (cs & F & ->). induction F as [|c cs S F IH]; cbn [flat_map]; auto. now rewrite enc_utf8.
Qed.
Close Scope N_scope.

(** Strings. *)
Lemma codec_ext {K} (KO : keyops K) (P Q : K -> Prop) : (forall k, Q k -> P k) -> key_codec KO P -> key_codec KO Q.
Proof. intros H [A B C D E F]. constructor; eauto. Qed.
Lemma vcodec_ext {T} (V : valops T) (P Q : T -> Prop) : (forall k, Q k -> P k) -> val_codec V P -> val_codec V Q.
Proof. intros H []. constructor; eauto. Qed.
Lemma text_byte l : text l -> Forall is_byte l.
Proof.
  intros (cs & F & ->). induction F as [|c cs S F IH]; cbn [flat_map]; [constructor|]. apply Forall_app. split; auto. unfold enc, scalar in *.
  destruct (c <? 0x80)%N eqn:E1; [|destruct (c <? 0x800)%N eqn:E2; [|destruct (c <? 0x10000)%N eqn:E3]]; repeat constructor; unfold is_byte; lia.
Qed.
(** Lengths a container of capacity [cap] holds. *)
Definition room (cap : option nat) (n : nat) : Prop := forall c, cap = Some c -> n <= c.
Lemma room_fits cap n : room cap n -> fits cap n = true.
Proof. intros H. destruct cap as [c|]; cbn [fits]; auto. apply Nat.leb_le. auto. Qed.
Lemma key_vec_room cap : key_codec (key_vec cap) (fun k => Forall is_byte k /\ room cap (length k)).
Proof. eapply codec_ext; [|apply key_vec_ok]. intros k [T F]. split; auto using room_fits. Qed.
Lemma val_vec_room cap : val_codec (val_vec cap) (fun k => Forall is_byte k /\ room cap (length k)).
Proof. eapply vcodec_ext; [|apply val_vec_ok]. intros k [T F]. split; auto using room_fits. Qed.
Lemma key_text_ok e cap : key_codec (key_string e cap) (fun k => text k /\ room cap (length k)).
Proof. eapply codec_ext; [|apply key_string_ok]. intros k [T F]. split; [now apply text_byte|]. split; [now apply utf8_ok|now apply room_fits]. Qed.
Lemma val_text_ok cap : val_codec (val_string cap) (fun k => text k /\ room cap (length k)).
Proof. eapply vcodec_ext; [|apply val_string_ok]. intros k [T F]. split; [now apply text_byte|]. split; [now apply utf8_ok|now apply room_fits]. Qed.
Lemma key_text_only e cap b d n : k_de (key_string e cap) b = inl (d, n) -> text d.
Proof.
  unfold key_string. cbn [k_de]. unfold prefix_de. destruct (prefix_len b) as [t|]; try discriminate. destruct (length b <? t); try discriminate. cbv zeta.
  destruct (utf8 (firstn (t - 2) (skipn 2 b))) eqn:U; try discriminate. cbn [negb]. destruct (negb _); try discriminate. intros [= <- <-]. now apply utf8_ok.
Qed.
Lemma val_text_only cap b d n : v_de (val_string cap) b = inl (d, n) -> d = b /\ text d.
Proof. unfold val_string. cbn [v_de]. destruct (utf8 b) eqn:U; try discriminate. cbn [negb]. destruct (fits _ _); try discriminate. intros [= <- <-]. split; auto. now apply utf8_ok. Qed.
