(** Proofs for Cheap.v: stores. *)
From Coq Require Import List NArith ZArith Arith Bool Lia ZifyBool ZifyNat ZifyN.
From Verif Require Import Base BaseP Crc CrcP Flash Cache State Item Generic Queue Map Codec TMap Client MClient GeomP ScanP WpP ItemP CalcP PageP WorldP LayP QHistP FormatSpec FormatP MExecP MHistP MObs MPropsP MAmoP ProgP Reads ReadsP Cost CostP Work WorkMP Cheap CheapP.
Import ListNotations.
Local Opaque crc16 acrc crc32.

(** [store_loop] after its first part. *)
Definition store_rest {K} (KO : keyops K) (g : geom) {R : reader} (r : nat) (k : K) (d : list N) (nxt : option (option nat)) : M K unit :=
  match nxt with
  | None => ret tt
  | Some (Some np) =>
      s <- page_state_c g np ;;
      if negb (pstate_eqb s Open) then fail ECorrupted
      else
        partial_close g np ;;;
        let bp := next_page g np in
        s2 <- page_state_c g bp ;;
        (if pstate_eqb s2 Open then ret tt else migrate KO g bp np) ;;;
        store_loop KO g r k d
  | Some None =>
      fo <- find_first g 0 Open ;;
      match fo with
      | None => fail ECorrupted
      | Some p => partial_close g p ;;; store_loop KO g r k d
      end
  end.
(** * Relations kept by every step of a store *)
Section Kept.
Context {K : Type} (KO : keyops K) (g : geom) {R : reader} (Rel : st K -> st K -> Prop).
Definition kl {A} (c : M K A) : Prop := forall s, Rel s (snd (c s)).
Record kept : Prop := {
  kt_refl : forall s, Rel s s;
  kt_trans : forall s1 s2 s3, Rel s1 s2 -> Rel s2 s3 -> Rel s1 s3;
  kt_read : forall a n, kl (fl_read g a n);
  kt_write : forall a b, kl (fl_write g a b);
  kt_erase : forall a b, kl (fl_erase g a b);
  kt_notice : forall p x d, kl (c_notice_ps p x d);
  kt_iw : forall a nx, kl (c_item_written g a nx);
  kt_inval : kl c_inval;
  kt_unmark : kl c_unmark;
  kt_nk : forall q k a d, kl (c_notice_key q k a d);
  kt_buf : forall b, kl (put_buf b);
  kt_hand : forall A (c : M K A), attempt c = hand_on c }.
Context (KT : kept).
Lemma kl_read a n : kl (fl_read g a n). Proof. apply KT. Qed.
Lemma kl_write a b : kl (fl_write g a b). Proof. apply KT. Qed.
Lemma kl_erase a b : kl (fl_erase g a b). Proof. apply KT. Qed.
Lemma kl_notice p x d : kl (c_notice_ps p x d). Proof. apply KT. Qed.
Lemma kl_iw a nx : kl (c_item_written g a nx). Proof. apply KT. Qed.
Lemma kl_inval : kl c_inval. Proof. apply KT. Qed.
Lemma kl_unmark : kl c_unmark. Proof. apply KT. Qed.
Lemma kl_nk q k a d : kl (c_notice_key q k a d). Proof. apply KT. Qed.
Lemma kl_buf b : kl (put_buf b). Proof. apply KT. Qed.
Lemma kl_id {A} (c : M K A) : (forall s, snd (c s) = s) -> kl c. Proof. intros H s. rewrite H. apply KT. Qed.
Lemma kl_bind {A B} (c : M K A) (f : A -> M K B) : kl c -> (forall a, kl (f a)) -> kl (bind c f).
Proof. intros H1 H2 s. unfold bind. specialize (H1 s). destruct (c s) as [[a|e] s']; cbn [snd] in *; [|exact H1]. exact (kt_trans KT _ _ _ H1 (H2 a s')). Qed.
Lemma kl_try {A} (c : M K A) : kl c -> kl (attempt c).
Proof. intros H s. rewrite (kt_hand KT). unfold hand_on. specialize (H s). destruct (c s). exact H. Qed.
Lemma kl_auto {A} (c : M K A) r : kl c -> kl r -> kl (auto_repair c r).
Proof. intros H1 H2. unfold auto_repair. apply kl_bind; [now apply kl_try|]. intros [a|e]; [now apply kl_id|]. destruct e; try (now apply kl_id). now apply kl_bind. Qed.
Lemma kl_check : kl c_check_dirty. Proof. apply kl_bind; [now apply kl_id|]. intros [|]; [apply kl_inval|now apply kl_id]. Qed.
Ltac k1 := cbv zeta; lazymatch goal with
  | |- kl (bind _ _) => apply kl_bind; [|let a := fresh "a" in intros a; cbv beta]
  | |- kl (attempt _) => apply kl_try
  | |- kl (match ?x with _ => _ end) => destruct x
  | |- kl _ => first [apply kl_read|apply kl_write|apply kl_erase|apply kl_notice|apply kl_iw|apply kl_inval|apply kl_check|apply kl_unmark|apply kl_nk|solve [eauto 2 with kls]|apply kl_buf|solve [apply kl_id; intros; reflexivity]]
  end.
Ltac ks := repeat k1.
Lemma kl_get_ps p : kl (c_get_ps p). Proof. apply kl_id. intros s. unfold c_get_ps. destruct (ps_get _ _); reflexivity. Qed.
Hint Resolve kl_get_ps : kls.
Lemma kl_hdr a n : kl (read_hdr g n a). Proof. induction n; cbn [read_hdr]; ks. Qed.
Hint Resolve kl_hdr : kls.
Lemma kl_new a e : kl (read_new g a e). Proof. unfold read_new. ks. Qed.
Lemma kl_data h c a n r : kl (read_data g r h c a n). Proof. induction r; cbn [read_data]; ks. Qed.
Hint Resolve kl_new kl_data : kls.
Lemma kl_item h a e : kl (read_item g h a e). Proof. unfold read_item. ks. Qed.
Lemma kl_trav n skip e : forall cur, kl (traverse g n skip cur e). Proof. induction n; intros cur; cbn [traverse]; ks. Qed.
Hint Resolve kl_item kl_trav : kls.
Lemma kl_next n e : forall cur, kl (item_next g n cur e). Proof. induction n; intros cur; cbn [item_next]; ks. Qed.
Lemma kl_ps p : kl (page_state g p). Proof. unfold page_state. ks. Qed.
Hint Resolve kl_next kl_ps : kls.
Lemma kl_psc p : kl (page_state_c g p). Proof. unfold page_state_c. ks. Qed.
Lemma kl_open p : kl (open_page g p). Proof. unfold open_page. ks. Qed.
Hint Resolve kl_psc kl_open : kls.
Lemma kl_part p : kl (partial_close g p). Proof. unfold partial_close. ks. Qed.
Hint Resolve kl_part : kls.
Lemma kl_close p : kl (close_page g p). Proof. unfold close_page. ks. Qed.
Lemma kl_ffi x l : kl (find_first_in g l x). Proof. induction l; cbn [find_first_in]; ks. Qed.
Lemma kl_ff a x : kl (find_first g a x). Proof. apply kl_ffi. Qed.
Lemma kl_gri l : kl (general_repair_in g l). Proof. induction l; cbn [general_repair_in]; ks. Qed.
Lemma kl_gr : kl (general_repair g). Proof. apply kl_gri. Qed.
Lemma kl_hw h a : kl (hdr_write g h a). Proof. unfold hdr_write. ks. Qed.
Hint Resolve kl_close kl_ff kl_gr kl_hw : kls.
Lemma kl_wr h d a : kl (write_raw g h d a). Proof. unfold write_raw. ks. Qed.
Lemma kl_wn d a : kl (write_new g a d). Proof. apply kl_wr. Qed.
Lemma kl_free a e n : kl (find_free g a e n). Proof. unfold find_free. ks. Qed.
Hint Resolve kl_wr kl_wn kl_free : kls.
Lemma kl_sl {A} (r : A + sererr) : kl (ser_lift r). Proof. unfold ser_lift. ks. Qed.
Hint Resolve kl_sl : kls.
Lemma kl_scan n k e : forall cur o, kl (scan_page KO g n k cur e o). Proof. induction n; intros cur o; cbn [scan_page]; ks. Qed.
Hint Resolve kl_scan : kls.
Lemma kl_fps n k : forall p, kl (fetch_pages KO g n k p). Proof. induction n; intros p; cbn [fetch_pages]; ks. Qed.
Lemma kl_fc k : kl (fetch_cached KO g k). Proof. unfold fetch_cached. ks. Qed.
Lemma kl_lu : kl (last_used g). Proof. unfold last_used. ks. Qed.
Hint Resolve kl_fps kl_fc kl_lu : kls.
Lemma kl_fl k : kl (fetch_loc KO g k). Proof. unfold fetch_loc. ks. Qed.
Hint Resolve kl_fl : kls.
Lemma kl_ml n e : forall cur wa, kl (migrate_loop KO g n cur e wa). Proof. induction n; intros cur wa; cbn [migrate_loop]; ks. Qed.
Hint Resolve kl_ml : kls.
Lemma kl_mig a b : kl (migrate KO g a b). Proof. unfold migrate. ks. Qed.
Hint Resolve kl_mig : kls.
Lemma kl_rep : kl (m_repair KO g). Proof. unfold m_repair. ks. Qed.
Lemma kl_ser k v : kl (ser_item KO k v). Proof. unfold ser_item. ks. Qed.
Hint Resolve kl_ser : kls.
Lemma kl_store n k v : kl (store_loop KO g n k v). Proof. induction n; cbn [store_loop]; ks. Qed.
Hint Resolve kl_store : kls.
Lemma kl_inner k v : kl (store_inner KO g k v). Proof. unfold store_inner. ks. Qed.
Lemma kl_mstore b k v : kl (m_store KO g b k v). Proof. unfold m_store. apply kl_bind; [apply kl_buf|]. intros ?. apply kl_auto; [apply kl_inner|apply kl_rep]. Qed.

Lemma kl_rest r k d nxt : kl (store_rest KO g r k d nxt). Proof. unfold store_rest. ks. Qed.
End Kept.

Section S.
Context {K : Type} (g : geom) (gok : geom_ok g).
Notation NP := (NP g). Notation W := (W g).
Notation st := (st K).
Lemma nam_lt a h : a < next_addr g a h.
Proof. unfold next_addr. pose proof (HL_W g). pose proof (W_pos g gok). lia. Qed.
(** * The sizes of the page caches never change *)
Definition wlm (s : st) : nat := match c_pp (s_ca s) with PPNone => 0 | PPArray _ wr => length wr end.
Definition plm (s : st) : option nat := match c_ps (s_ca s) with PSArray l => Some (length l) | _ => None end.
Definition vm (s : st) (i : nat) : option pstate := match c_ps (s_ca s) with PSArray l => lookup l i | _ => None end.
Definition pwm (s : st) (i : nat) : option nat := pp_written (c_pp (s_ca s)) i.
Definition same_size (s s' : st) : Prop := wlm s' = wlm s /\ plm s' = plm s.
Notation kl := (kl (K := K) same_size).
Lemma ss_ca s s' : s_ca s' = s_ca s -> same_size s s'. Proof. unfold same_size, wlm, plm. now intros ->. Qed.
Lemma ss_trans s1 s2 s3 : same_size s1 s2 -> same_size s2 s3 -> same_size s1 s3. Proof. intros (A & B) (C & D). split; congruence. Qed.
Lemma kl_ca {A} (c : M K A) : (forall s, s_ca (snd (c s)) = s_ca s) -> kl c. Proof. intros H s. now apply ss_ca. Qed.
Lemma ss_read a k : kl (fl_read g a k). Proof. apply kl_ca. intros s. unfold fl_read. cbn [on_read steady]. destruct (dev_read g (s_fl s) a k); reflexivity. Qed.
Lemma ss_write a b : kl (fl_write g a b). Proof. apply kl_ca. intros s. unfold fl_write. destruct (dev_write g (s_fl s) a b) as [[x|] f]; reflexivity. Qed.
Lemma ss_erase a b : kl (fl_erase g a b). Proof. apply kl_ca. intros s. unfold fl_erase. destruct (dev_erase g (s_fl s) a b) as [[x|] f]; reflexivity. Qed.
Lemma ss_notice p x d : kl (c_notice_ps p x d).
Proof.
  intros s. unfold c_notice_ps. cbv zeta. unfold same_size, wlm, plm. destruct (c_ps (s_ca s)) as [|l|k] eqn:E; cbn [ps_notice].
  - cbn [snd set_ca s_ca c_pp c_ps]. split; [|reflexivity]. destruct (c_pp (s_ca s)); [reflexivity|]. destruct x; cbn [pp_page_state]; try reflexivity. apply lset_len.
  - destruct (_ <? _); cbn [snd set_ca s_ca c_pp c_ps set_dirty].
    + split; [destruct (c_pp (s_ca s)); [reflexivity|]; destruct x; cbn [pp_page_state]; try reflexivity; apply lset_len|now rewrite lset_len].
    + rewrite E. split; reflexivity.
  - destruct (ps_notice (PSCalc k) p x) as [ps|] eqn:EN; cbn [ps_notice] in EN; rewrite EN; cbn [snd set_ca s_ca c_pp c_ps set_dirty].
    + split; [destruct (c_pp (s_ca s)); [reflexivity|]; destruct x; cbn [pp_page_state]; try reflexivity; apply lset_len|]. revert EN. repeat match goal with |- context [match ?y with _ => _ end] => destruct y end; intros [= <-]; reflexivity.
    + rewrite E. split; reflexivity.
Qed.
Lemma ss_iw a nx : kl (c_item_written g a nx).
Proof. intros s. unfold c_item_written, same_size, wlm, plm. cbv zeta. cbn [snd set_ca s_ca c_pp c_ps]. split; [|reflexivity]. destruct (c_pp (s_ca s)) as [|er wr]; [reflexivity|]. cbn [pp_item_written]. destruct (lookup wr (pindex g a)) as [old|]; [destruct (_ <=? old); [reflexivity|]|]; apply lset_len. Qed.
Lemma ss_inval : kl c_inval.
Proof. intros s. unfold c_inval, same_size, wlm, plm. cbn [snd set_ca s_ca cache_inval c_ps c_pp]. split; [destruct (c_pp (s_ca s)); [reflexivity|]; cbn [pp_inval]; apply map_length|]. destruct (c_ps (s_ca s)); cbn [ps_inval]; [reflexivity|now rewrite map_length|reflexivity]. Qed.
Lemma ss_nk q k a d : kl (c_notice_key q k a d). Proof. intros s. unfold c_notice_key. cbv zeta. destruct (kp_notice _ _ _ _); split; reflexivity. Qed.
Lemma ss_unmark : kl c_unmark. Proof. intros s. split; reflexivity. Qed.
Lemma same_kept : kept g (R := steady) same_size.
Proof. constructor; [intros s; split; reflexivity|exact ss_trans|exact ss_read|exact ss_write|exact ss_erase|exact ss_notice|exact ss_iw|exact ss_inval|exact ss_unmark|exact ss_nk|intros b s; split; reflexivity|reflexivity]. Qed.
Context (KO : keyops K).
(** * What the caches know after a completed store *)
Definition Jm (s : st) : Prop := NP <= wlm s /\ exists n, plm s = Some n /\ NP <= n.
Lemma J_ss s s' : same_size s s' -> Jm s -> Jm s'. Proof. intros (A & B) (C & D). unfold Jm. now rewrite A, B. Qed.
Lemma J_kl {A} (c : M K A) s : kl c -> Jm s -> wp c (fun _ => Jm) (fun _ _ => True) s.
Proof. intros H JS. unfold wp. specialize (H s). destruct (c s) as [[a|e] s']; [exact (J_ss _ _ H JS)|exact Logic.I]. Qed.
Definition keeps_cam {A} (c : M K A) : Prop := forall s, s_ca (snd (c s)) = s_ca s.
Lemma kcm_wp {A} (c : M K A) s : keeps_cam c -> wp c (fun _ s' => s_ca s' = s_ca s) (fun _ _ => True) s.
Proof. intros H. unfold wp. specialize (H s). destruct (c s) as [[a|e] s']; [exact H|exact Logic.I]. Qed.
Lemma kcm_bind {A B} (c : M K A) (f : A -> M K B) : keeps_cam c -> (forall a, keeps_cam (f a)) -> keeps_cam (bind c f).
Proof. intros H1 H2 s. unfold bind. specialize (H1 s). destruct (c s) as [[a|e] s']; cbn [snd] in *; [|exact H1]. now rewrite H2. Qed.
Lemma kcm_ret {A} (a : A) : keeps_cam (ret a). Proof. intros s. reflexivity. Qed.
Lemma kcm_fail {A} e : keeps_cam (@fail K A e). Proof. intros s. reflexivity. Qed.
Lemma kcm_read a k : keeps_cam (fl_read g a k).
Proof. intros s. unfold fl_read. cbn [on_read steady]. destruct (dev_read g (s_fl s) a k); reflexivity. Qed.
Lemma kcm_write a b : keeps_cam (fl_write g a b).
Proof. intros s. unfold fl_write. destruct (dev_write g (s_fl s) a b) as [[x|] f]; reflexivity. Qed.
Lemma kcm_hdr a : forall k, keeps_cam (read_hdr g k a).
Proof. induction k; cbn [read_hdr]; (apply kcm_bind; [apply kcm_read|intros b]); destruct (all_ff b); [apply kcm_ret| |apply kcm_ret|]; (destruct (lcrc_ok b); [apply kcm_ret|]); [apply kcm_fail|apply IHk]. Qed.
Lemma kcm_new a e : keeps_cam (read_new g a e).
Proof. unfold read_new. destruct (beyond _ _); [apply kcm_ret|]. apply kcm_bind; [apply kcm_hdr|]. intros [b|]; [|apply kcm_ret]. cbv zeta. destruct (beyond _ _); [apply kcm_fail|apply kcm_ret]. Qed.
Lemma kcm_trav skip e : forall fuel cur, keeps_cam (traverse g fuel skip cur e).
Proof.
  induction fuel as [|fuel IH]; intros cur; cbn [traverse]; [apply kcm_fail|]. apply kcm_bind; [intros s; unfold attempt; cbn [on_result steady]; unfold hand_on; pose proof (kcm_new cur (Some e) s) as H; destruct (read_new _ _ _ s); exact H|].
  intros [[h|]|x]; [destruct (skip h); [apply IH|apply kcm_ret]|apply kcm_ret|destruct x; first [apply kcm_fail|apply IH]].
Qed.
Lemma Jm_ca s s' : s_ca s' = s_ca s -> Jm s -> Jm s'. Proof. intros E. apply J_ss. now apply ss_ca. Qed.
Lemma vm_ca s s' : s_ca s' = s_ca s -> vm s' = vm s. Proof. unfold vm. now intros ->. Qed.
Lemma pwm_ca s s' : s_ca s' = s_ca s -> pwm s' = pwm s. Proof. unfold pwm. now intros ->. Qed.
Definition monom (s s' : st) : Prop := forall i y, vm s i = Some y -> vm s' i = Some y.
Lemma km_psc p s : Jm s -> p < NP -> wp (page_state_c g p) (fun x s' => Jm s' /\ vm s' p = Some x /\ monom s s') (fun _ _ => True) s.
Proof.
  intros JS P. unfold wp. pose proof (kl_psc g same_size same_kept p s) as KL. apply J_ss in KL; [|exact JS]. destruct JS as (_ & n & PL & LN). unfold page_state_c, bind, c_get_ps in *. unfold plm in PL. destruct (c_ps (s_ca s)) as [|l|] eqn:E; [discriminate|injection PL as PL|discriminate].
  cbn [ps_get] in *. destruct (nth_error l p) as [[x|]|] eqn:EN.
  - cbn [ret snd] in *. split; [exact KL|]. split; [unfold vm; rewrite E; unfold lookup; now rewrite EN|intros i y H; exact H].
  - assert (KP : keeps_cam (page_state g p)). { apply kcm_bind; [apply kcm_read|intros b1]. apply kcm_bind; [apply kcm_read|intros b2]. destruct (marked b1), (marked b2); first [apply kcm_ret|apply kcm_fail]. }
    specialize (KP s). destruct (page_state g p s) as [[x|e] s1]; [|exact Logic.I]. cbn [snd] in KP. unfold c_notice_ps in *. cbv zeta in *. rewrite KP, E in *. cbn [ps_notice] in *. assert (L : p <? length l = true) by (apply Nat.ltb_lt; lia). rewrite L in *. cbn [ret snd] in *. split; [exact KL|].
    unfold monom, vm. rewrite E. cbn [set_ca s_ca c_ps]. split; [rewrite lookup_lset, Nat.eqb_refl by lia; reflexivity|]. intros i y H. rewrite lookup_lset by lia. destruct (Nat.eqb_spec i p) as [->|NE]; [|exact H]. unfold lookup in H. rewrite EN in H. discriminate.
  - exact Logic.I.
Qed.
Definition isntm (x : pstate) (s : st) (i : nat) : Prop := exists y, vm s i = Some y /\ y <> x.
Lemma isntm_mono x s s' i : monom s s' -> isntm x s i -> isntm x s' i. Proof. intros M (y & H & NE). exists y. auto. Qed.
Lemma km_ff x : forall l s, Jm s -> Forall (fun p => p < NP) l -> wp (find_first_in g l x) (fun o s' => Jm s' /\ monom s s' /\
  match o with Some p => exists l1 l2, l = l1 ++ p :: l2 /\ vm s' p = Some x /\ Forall (isntm x s') l1 | None => True end) (fun _ _ => True) s.
Proof.
  induction l as [|p l IH]; intros s JS FL; cbn [find_first_in]; [apply wp_ret; split; [exact JS|]; split; [intros i y H; exact H|exact Logic.I]|]. inversion FL as [|? ? LP FL']; subst.
  apply wp_bind. eapply wp_mono; [apply (km_psc p s JS LP)| |auto]. intros y s1 (J1 & V1 & M1). destruct (pstate_eqb x y) eqn:EQ.
  - apply wp_ret. split; [exact J1|]. split; [exact M1|]. exists [], l. split; [reflexivity|]. split; [|constructor]. assert (x = y) by (destruct x, y; try discriminate; reflexivity). now subst.
  - assert (NE : y <> x) by (intros ->; destruct x; discriminate). eapply wp_mono; [apply (IH s1 J1 FL')| |auto]. intros o s2 (J2 & M2 & H). split; [exact J2|]. split; [intros i z Hz; auto|].
    destruct o as [q|]; [|exact Logic.I]. destruct H as (l1 & l2 & -> & V2 & F2). exists (p :: l1), l2. split; [reflexivity|]. split; [exact V2|]. constructor; [exists y; auto|exact F2].
Qed.
Definition K2m (p : nat) (s : st) : Prop := p < NP /\ (forall i, i < p -> isntm PartialOpen s i) /\ vm s p = Some PartialOpen /\ vm s (next_page g p) = Some Open.
Definition warmm (p : nat) (s : st) : Prop := K2m p s /\ pwm s p <> None /\ c_dirty (s_ca s) = false.
Lemma km_free p k s : wp (find_free g (dstart g p) (dend g p) k) (fun o s' => s_ca s' = s_ca s /\ match o with Some a => pwm s p <> None \/ dstart g p <= a <= dend g p | None => True end) (fun _ _ => True) s.
Proof.
  unfold find_free. cbv zeta. rewrite (pindex_dstart g gok p). apply wp_bind. eapply wp_eq; [reflexivity|]. apply wp_bind.
  apply wp_mono with (Q := fun fr s' => s_ca s' = s_ca s /\ (pwm s p <> None \/ dstart g p <= fr)) (E := fun _ _ => True); [|intros fr s' (CA & LO)|auto].
  - fold (pwm s p). destruct (pwm s p) as [a|] eqn:EW.
    + apply wp_ret. split; [reflexivity|]. left. discriminate.
    + apply wp_bind. eapply wp_eq; [reflexivity|]. cbv zeta. set (from := Nat.max _ (dstart g p)). assert (LF : dstart g p <= from) by (subst from; lia). clearbody from. apply wp_bind.
      assert (T : forall fuel c (s0 : st), dstart g p <= c -> wp (traverse g fuel (fun _ => true) c (dend g p)) (fun t _ => dstart g p <= snd (fst t)) (fun _ _ => True) s0).
      { induction fuel as [|fuel IH]; intros c s0 LC; cbn [traverse]; [apply wp_fail; exact Logic.I|]. apply wp_attempt. unfold wp at 1. destruct (read_new g c (Some (dend g p)) s0) as [[[h|]|e] s1].
        - apply IH. pose proof (nam_lt c h). lia.
        - apply wp_ret. exact LC.
        - destruct e; try (apply wp_fail; exact Logic.I). apply IH. lia. }
      eapply wp_mono; [apply wp_and; [exact (T _ from s LF)|apply (kcm_wp _ s (kcm_trav (fun _ => true) (dend g p) (tfuel from (dend g p)) from))]| |]; cbv beta.
      * intros t s1 (A & B). apply wp_ret. split; [exact B|right; exact A].
      * auto.
  - destruct (Nat.ltb_spec (dend g p) fr); [apply wp_fail; exact Logic.I|]. destruct (avail g (dend g p - fr)) as [av|]; [|apply wp_ret; auto]. apply wp_ret. split; [exact CA|]. destruct (k <=? av); [|exact Logic.I]. destruct LO; [now left|right; lia].
Qed.
Lemma km_new p a d s : Jm s -> K2m p s -> pwm s p <> None \/ dstart g p <= a <= dend g p -> wp (write_new g a d ;;; c_unmark) (fun _ => warmm p) (fun _ _ => True) s.
Proof.
  intros JS (LP & BE & VP & VN) LA.
  apply wp_bind. unfold write_new, write_raw. set (h := mkhdr _ _). apply wp_bind.
  assert (X : wp (c_item_written g a (next_addr g a h)) (fun _ s' => vm s' = vm s /\ pwm s' p <> None) (fun _ _ => True) s).
  { unfold wp, c_item_written. cbv zeta. split; [reflexivity|]. destruct JS as (WL & _). unfold wlm, pwm in *. cbn [set_ca s_ca c_pp c_ps]. destruct (c_pp (s_ca s)) as [|er wr]; [lia|]. cbn [pp_item_written].
    assert (NZ : nonzero (next_addr g a h) = Some (next_addr g a h)) by (unfold nonzero; pose proof (nam_lt a h); destruct (Nat.eqb_spec (next_addr g a h) 0); [lia|reflexivity]).
    assert (SET : pp_written (PPArray er wr) p <> None \/ pindex g a = p -> pp_written (PPArray er (list_set wr (pindex g a) (nonzero (next_addr g a h)))) p <> None).
    { intros LB. rewrite NZ. cbn [pp_written] in *. unfold lookup in *. rewrite nth_error_list_set. destruct (Nat.eqb_spec p (pindex g a)) as [EP|NE]; [|destruct LB; [exact H|congruence]]. assert (L : pindex g a <? length wr = true) by (apply Nat.ltb_lt; lia). rewrite L. discriminate. }
    assert (LB : pp_written (PPArray er wr) p <> None \/ pindex g a = p) by (destruct LA as [LA|LA]; [now left|right; apply (pindex_in g gok); pose proof (dend_lt g gok p); pose proof (W_pos g gok); unfold dstart in LA; lia]).
    destruct (lookup wr (pindex g a)) as [old|] eqn:EL; [destruct (_ <=? old)|]; [|exact (SET LB)|exact (SET LB)]. destruct LB as [LB|LB]; [exact LB|]. cbn [pp_written]. rewrite <- LB, EL. discriminate. }
  eapply wp_mono; [exact X| |auto]. intros [] s1 (V1 & P1). eapply wp_mono; [apply kcm_wp| |auto].
  - apply kcm_bind; [apply kcm_write|intros ?]. destruct (_ <? _); [apply kcm_fail|]. apply kcm_bind; [destruct (_ =? 0); [apply kcm_ret|apply kcm_write]|intros ?]. destruct (_ =? 0); [apply kcm_ret|]. cbv zeta. destruct (_ <? _); [apply kcm_fail|apply kcm_write].
  - cbv beta. intros ? s2 CA. pose proof (vm_ca _ _ CA) as V2. pose proof (pwm_ca _ _ CA) as P2. unfold wp, c_unmark. rewrite V1 in V2. unfold warmm, K2m, isntm. change (vm (set_ca s2 (set_dirty (s_ca s2) false))) with (vm s2). change (pwm (set_ca s2 (set_dirty (s_ca s2) false))) with (pwm s2). rewrite V2, P2. repeat split; assumption.
Qed.
Lemma km_loop k d : forall r s, Jm s -> wp (store_loop KO g r k d) (fun _ s' => exists p, warmm p s') (fun _ _ => True) s.
Proof.
  induction r as [|r IH]; intros s JS; cbn [store_loop]; [apply wp_bind; eapply wp_eq; [reflexivity|]; apply wp_fail; exact Logic.I|].
  assert (N0 : 0 < NP) by (pose proof (NP_pos g gok); lia).
  apply wp_bind. unfold find_first at 1. eapply wp_mono; [apply (km_ff PartialOpen _ s JS (get_pages_lt g gok 0))| |auto]. intros lp s1 (J1 & _ & H1). apply wp_bind.
  assert (RC : forall np s, Jm s -> wp (store_rest KO g r k d (Some np)) (fun _ s' => exists p, warmm p s') (fun _ _ => True) s).
  { intros [np|] s0 J0; unfold store_rest.
    - apply wp_bind. eapply wp_mono; [apply (J_kl _ s0 (kl_psc g same_size same_kept np) J0)| |auto]. intros x s2 J2. destruct (negb _); [apply wp_fail; exact Logic.I|]. apply wp_bind. eapply wp_mono; [apply (J_kl _ s2 (kl_part g same_size same_kept np) J2)| |auto]. intros ? s3 J3. cbv zeta.
      apply wp_bind. eapply wp_mono; [apply (J_kl _ s3 (kl_psc g same_size same_kept _) J3)| |auto]. intros x2 s4 J4. apply wp_bind. eapply wp_mono; [apply (J_kl _ s4)| |auto]; [destruct (pstate_eqb x2 Open); [now apply kl_ca|apply (kl_mig KO g same_size same_kept)]|exact J4|]. intros ? s5 J5. now apply IH.
    - apply wp_bind. eapply wp_mono; [apply (J_kl _ s0 (kl_ff g same_size same_kept 0 Open) J0)| |auto]. intros [p|] s2 J2; [|apply wp_fail; exact Logic.I]. apply wp_bind. eapply wp_mono; [apply (J_kl _ s2 (kl_part g same_size same_kept p) J2)| |auto]. intros ? s3 J3. now apply IH. }
  destruct lp as [p|]; [|apply wp_ret; exact (RC None s1 J1)]. destruct H1 as (l1 & l2 & E & V1 & F1). destruct (get_pages_split g 0 l1 p l2 N0 E) as (i & LI & EP & IN). cbn [Nat.add] in *. rewrite Nat.mod_small in EP by lia. subst i.
  assert (B1 : forall j, j < p -> isntm PartialOpen s1 j) by (intros j LJ; rewrite Forall_forall in F1; apply F1; specialize (IN j LJ); rewrite Nat.mod_small in IN by lia; exact IN).
  apply wp_bind. eapply wp_mono; [apply (km_psc (next_page g p) s1 J1 (next_page_lt g gok p))| |auto]. intros x s2 (J2 & V2 & M2). destruct (negb (pstate_eqb x Open)) eqn:EX; [apply wp_fail; exact Logic.I|]. assert (x = Open) by (destruct x; try discriminate; reflexivity). subst x.
  assert (K2 : K2m p s2). { split; [lia|]. split; [intros j LJ; apply (isntm_mono _ s1); auto|]. split; auto. }
  apply wp_bind. eapply wp_mono; [apply (kcm_wp (ser_item KO k d) s2)| |auto].
  { unfold ser_item. apply kcm_bind; [intros ?; reflexivity|intros b]. apply kcm_bind; [unfold ser_lift; destruct (k_ser _ _ _); [apply kcm_ret|apply kcm_fail]|intros kb]. apply kcm_bind; [intros ?; reflexivity|intros ?]. destruct (_ <? _); [apply kcm_fail|]. destruct (_ <? _); [apply kcm_fail|]. apply kcm_bind; [intros ?; reflexivity|intros ?; apply kcm_ret]. }
  cbv beta. intros n s3 CA3. assert (K3 : K2m p s3) by (unfold K2m, isntm; rewrite (vm_ca _ _ CA3); exact K2). pose proof (Jm_ca _ _ CA3 J2) as J3. destruct (too_big g n); [apply wp_bind; eapply wp_eq; [reflexivity|]; apply wp_fail; exact Logic.I|].
  apply wp_bind. eapply wp_mono; [apply (km_free p n s3)| |auto]. intros fs s4 (CA4 & FS). assert (K4 : K2m p s4) by (unfold K2m, isntm; rewrite (vm_ca _ _ CA4); exact K3). pose proof (Jm_ca _ _ CA4 J3) as J4. rewrite <- (pwm_ca _ _ CA4) in FS.
  destruct fs as [a|].
  - apply wp_bind. assert (X : wp (c_notice_key (k_eqb KO) k a true) (fun _ s' => c_ps (s_ca s') = c_ps (s_ca s4) /\ c_pp (s_ca s') = c_pp (s_ca s4)) (fun _ _ => True) s4) by (unfold wp, c_notice_key; cbv zeta; destruct (kp_notice _ _ _ _); [split; reflexivity|exact Logic.I]).
    eapply wp_mono; [exact X| |auto]. intros ? s5 (E1 & E2). assert (J5 : Jm s5) by (unfold Jm, wlm, plm in *; now rewrite E1, E2). assert (K5 : K2m p s5) by (unfold K2m, isntm, vm in *; now rewrite E1). assert (FS5 : pwm s5 p <> None \/ dstart g p <= a <= dend g p) by (unfold pwm in *; now rewrite E2).
    apply wp_bind. eapply wp_eq; [reflexivity|]. pose proof (km_new p a (firstn n (s_buf s5)) s5 J5 K5 FS5) as KN. unfold wp in KN |- *. unfold bind in *. destruct (write_new g a (firstn n (s_buf s5)) s5) as [[u|e] s6]; [|exact Logic.I]. destruct (c_unmark s6) as [[u2|e2] s7]; [|exact Logic.I]. cbn [ret]. now exists p.
  - apply wp_bind. eapply wp_mono; [apply (J_kl _ s4 (kl_close g same_size same_kept p) J4)| |auto]. intros ? s5 J5. apply wp_ret. exact (RC (Some (next_page g p)) s5 J5).
Qed.
Lemma km_inner k d s : Jm s -> wp (store_inner KO g k d) (fun _ s' => exists p, warmm p s') (fun _ _ => True) s.
Proof. intros JS. unfold store_inner. apply wp_bind. eapply wp_mono; [apply (J_kl _ s (kl_check g same_size same_kept) JS)| |auto]. intros ? s1 J1. now apply km_loop. Qed.
Lemma km_store b k d s s' : Jm s -> m_store KO g b k d s = (Ok tt, s') -> exists p, warmm p s'.
Proof.
  intros JS E. assert (X : wp (m_store KO g b k d) (fun _ s' => exists p, warmm p s') (fun _ _ => True) s); [|unfold wp in X; now rewrite E in X]. unfold m_store. apply wp_bind. eapply wp_eq; [reflexivity|].
  apply wp_auto_repair. assert (J0 : Jm (set_buf s b)) by exact JS. pose proof (km_inner k d _ J0) as H. pose proof (kl_inner KO g same_size same_kept k d (set_buf s b)) as KI. unfold wp in H |- *. destruct (store_inner KO g k d (set_buf s b)) as [[u|e] s1]; [exact H|]. destruct e; try exact Logic.I.
  pose proof (J_ss _ _ KI J0) as J1. cbn [snd] in J1. pose proof (kl_rep KO g same_size same_kept s1) as KR. destruct (m_repair KO g s1) as [[u|e] s2]; [|exact Logic.I]. exact (km_inner k d s2 (J_ss _ _ KR J1)).
Qed.
Lemma pscm_known {R : reader} p x s : vm s p = Some x -> page_state_c (R := R) g p s = (Ok x, s).
Proof. unfold vm, page_state_c, bind, c_get_ps. destruct (c_ps (s_ca s)) as [|l|]; try discriminate. cbn [ps_get]. unfold lookup. destruct (nth_error l p) as [[y|]|]; try discriminate. now intros [= ->]. Qed.
Lemma ffm_warm {R : reader} p s : K2m p s -> find_first (R := R) g 0 PartialOpen s = (Ok (Some p), s).
Proof.
  intros (LP & BE & VP & _). unfold find_first. rewrite (pages0 g). replace (seq 0 NP) with (seq 0 p ++ p :: seq (S p) (NP - S p)) by (replace (p :: seq (S p) (NP - S p)) with (seq (0 + p) (S (NP - S p))) by reflexivity; rewrite <- seq_app; f_equal; lia).
  assert (F : Forall (isntm PartialOpen s) (seq 0 p)) by (apply Forall_forall; intros i HI; apply in_seq in HI; apply BE; lia).
  induction F as [|q l1 (y & Y & NE) F IH]; cbn [app find_first_in]; unfold bind.
  - now rewrite (pscm_known p PartialOpen s VP).
  - rewrite (pscm_known q y s Y). destruct y; [exact IH|contradiction|exact IH].
Qed.
(** * A store that needs no reads, or closes the page *)
(** Since some state with [L0] erases there was another one, or the word at [A] is still zero. *)
Definition Z (L0 A : nat) (s : st) : Prop := L0 <= length (f_er (s_fl s)) /\ (L0 < length (f_er (s_fl s)) \/ forall x, A <= x < A + W -> f_mem (s_fl s) x = 0%N).
Lemma z_fl L0 A (s s' : st) : f_er (s_fl s') = f_er (s_fl s) -> f_mem (s_fl s') = f_mem (s_fl s) -> Z L0 A s -> Z L0 A s'. Proof. unfold Z. now intros -> ->. Qed.
Lemma z_kept L0 A : kept g (R := counted) (fun s s' => Z L0 A s -> Z L0 A s').
Proof.
  constructor; try (intros; intros s; apply z_fl; reflexivity).
  - intros s H. exact H.
  - intros s1 s2 s3 H1 H2 H. auto.
  - intros a n s. unfold fl_read. cbn [on_read counted garbled]. destruct (dev_read g (s_fl s) a n); apply z_fl; reflexivity.
  - intros a b s (H1 & H2). unfold fl_write, dev_write. destruct (chk _ _ _ _); [split; [exact H1|exact H2]|]. destruct (spend _ _) as [[k fu] cr]. cbv zeta. set (k' := if cr && (length b <=? f_aw (s_fl s)) then 0 else k). clearbody k'.
    assert (X : Z L0 A (set_fl s (mkflash (mem_and (f_mem (s_fl s)) a (firstn k' b)) (wc_inc (f_wc (s_fl s)) a k') (f_er (s_fl s)) fu (f_ae (s_fl s)) (f_aw (s_fl s)) (f_bad (s_fl s))))).
    { split; [exact H1|]. destruct H2 as [H2|H2]; [left; exact H2|right]. intros x HX. cbn [set_fl s_fl f_mem]. unfold mem_and. rewrite (H2 x HX). destruct (_ && _); reflexivity. }
    destruct cr; exact X.
  - intros a b s (H1 & H2). unfold fl_erase, dev_erase. destruct (chk _ _ _ _); [split; [exact H1|exact H2]|]. destruct (spend _ _) as [[k fu] cr]. cbv zeta. set (k' := if cr && f_ae (s_fl s) then 0 else k). clearbody k'. destruct cr; (split; cbn [snd set_fl s_fl f_er length]; [lia|left; lia]).
  - intros p x d s. apply z_fl; unfold c_notice_ps; cbv zeta; destruct (ps_notice _ _ _); reflexivity.
  - intros q k a d s. apply z_fl; unfold c_notice_key; cbv zeta; destruct (kp_notice _ _ _ _); reflexivity.
  - reflexivity.
Qed.
Definition fl_same (s s' : st) : Prop := f_bad (s_fl s') = f_bad (s_fl s) /\ f_er (s_fl s') = f_er (s_fl s).
Lemma w_write a b s : wp (fl_write g a b) (fun _ s' => fl_same s s') (fun e _ => e <> ECorrupted) s.
Proof. unfold wp, fl_write, dev_write. destruct (chk _ _ _ _); [discriminate|]. destruct (spend _ _) as [[k fu] cr]. destruct cr; [discriminate|]. split; reflexivity. Qed.
Lemma fs_trans s1 s2 s3 : fl_same s1 s2 -> fl_same s2 s3 -> fl_same s1 s3. Proof. intros (A & B) (C & D). split; congruence. Qed.
Lemma w_new a d s : wp (write_new g a d) (fun _ s' => fl_same s s') (fun e _ => e <> ECorrupted) s.
Proof.
  unfold write_new, write_raw. apply wp_bind. unfold wp at 1, c_item_written. cbv zeta. apply wp_bind. eapply wp_mono; [apply w_write| |auto]. intros ? s1 F1. change (fl_same s s1) in F1. destruct (_ <? _); [apply wp_fail; discriminate|].
  apply wp_bind. apply wp_mono with (Q := fun _ s' => fl_same s s') (E := fun e _ => e <> ECorrupted); [|intros ? s2 F2|auto].
  - destruct (_ =? 0); [now apply wp_ret|]. eapply wp_mono; [apply w_write| |auto]. intros ? s2 F2. exact (fs_trans _ _ _ F1 F2).
  - destruct (_ =? 0); [now apply wp_ret|]. cbv zeta. destruct (_ <? _); [apply wp_fail; discriminate|]. eapply wp_mono; [apply w_write| |auto]. intros ? s3 F3. exact (fs_trans _ _ _ F2 F3).
Qed.
Lemma w_ser k d s : wp (ser_item KO k d) (fun _ s' => s_ca s' = s_ca s /\ s_fl s' = s_fl s) (fun e _ => e <> ECorrupted) s.
Proof.
  unfold ser_item. apply wp_bind. eapply wp_eq; [reflexivity|]. apply wp_bind. unfold ser_lift. destruct (k_ser _ _ _); [apply wp_ret|apply wp_fail; discriminate]. apply wp_bind. eapply wp_eq; [reflexivity|].
  destruct (_ <? _); [apply wp_fail; discriminate|]. destruct (_ <? _); [apply wp_fail; discriminate|]. apply wp_bind. eapply wp_eq; [reflexivity|]. apply wp_ret. split; reflexivity.
Qed.
Lemma w_close p s : vm s p = Some PartialOpen -> wp (close_page (R := counted) g p) (fun _ s' => Z (length (f_er (s_fl s))) (pend g p - W) s') (fun e _ => e <> ECorrupted) s.
Proof.
  intros VP. unfold close_page, partial_close. apply wp_bind. apply wp_bind. eapply wp_eq; [exact (pscm_known p _ s VP)|]. cbn [pstate_eqb negb]. apply wp_ret. cbn [pstate_eqb negb]. apply wp_bind.
  unfold wp at 1, c_notice_ps. cbv zeta. destruct (ps_notice _ _ _) as [ps|]; [|discriminate]. unfold wp, fl_write, dev_write. cbn [set_ca s_fl]. destruct (chk _ _ _ _); [discriminate|]. rewrite repeat_length. destruct (spend (f_fuel (s_fl s)) W) as [[k fu] cr] eqn:ES. destruct cr; [discriminate|].
  assert (k = W) by (unfold spend in ES; destruct (f_fuel (s_fl s)); [destruct (_ <=? _)|]; congruence). subst k. cbn [andb]. rewrite firstn_all2 by (rewrite repeat_length; lia). split; [apply le_n|]. right. intros x HX. cbn [set_fl s_fl f_mem]. unfold mem_and. rewrite repeat_length.
  replace (_ && _) with true by (symmetry; apply andb_true_intro; split; [apply Nat.leb_le|apply Nat.ltb_lt]; lia). rewrite (nth_indep _ 255%N 0%N) by (rewrite repeat_length; lia). rewrite nth_repeat. apply N.land_0_r.
Qed.
Definition quiet (s0 : st) (p : nat) (s' : st) : Prop := f_bad (s_fl s') = f_bad (s_fl s0) \/ Z (length (f_er (s_fl s0))) (pend g p - W) s'.
Lemma w_inner p k d s : warmm p s -> wp (store_inner (R := counted) KO g k d) (fun _ s' => quiet s p s') (fun e s' => e = ECorrupted -> Z (length (f_er (s_fl s))) (pend g p - W) s') s.
Proof.
  intros (K2 & PW & DI). pose proof K2 as (LP & _ & VP & VN). unfold store_inner. apply wp_bind. unfold c_check_dirty, c_is_dirty. unfold wp at 1, bind at 1. rewrite DI. cbn [ret]. assert (NR : exists r, NP = S r) by (exists (NP - 1); lia). destruct NR as (r & ->). cbn [store_loop].
  assert (WK : forall A (c : M K A) (Q : A -> st -> Prop) s1, wp c Q (fun e _ => e <> ECorrupted) s1 -> wp c Q (fun e s' => e = ECorrupted -> Z (length (f_er (s_fl s))) (pend g p - W) s') s1).
  { intros A c Q s1 H. eapply wp_mono; [exact H|auto|]. intros e s' NE E. contradiction. }
  apply wp_bind. eapply wp_eq; [exact (ffm_warm p s K2)|]. apply wp_bind. apply wp_bind. eapply wp_eq; [exact (pscm_known _ _ s VN)|]. cbn [pstate_eqb negb]. apply wp_bind. eapply wp_mono; [apply WK; exact (w_ser k d s)| |auto]. intros n s1 (C1 & F1).
  destruct (too_big g n); [apply wp_bind; eapply wp_eq; [reflexivity|]; apply wp_fail; discriminate|]. apply wp_bind. unfold find_free. cbv zeta. rewrite (pindex_dstart g gok p). apply wp_bind. eapply wp_eq; [reflexivity|]. fold (pwm s1 p). rewrite (pwm_ca _ _ C1). destruct (pwm s p) as [a|]; [|congruence].
  apply wp_bind. apply wp_ret. destruct (_ <? a); [apply wp_fail; discriminate|]. set (fs := match avail g (dend g p - a) with Some av => ret (if n <=? av then Some a else None) | None => ret None end). assert (FS : fs = ret (Some a) \/ fs = ret (K := K) None) by (subst fs; destruct (avail _ _) as [av|]; [destruct (n <=? av)|]; auto).
  destruct FS as [-> | ->]; apply wp_ret.
  - apply wp_bind. unfold wp at 1, c_notice_key. cbv zeta. destruct (kp_notice _ _ _ _) as [kp|]; [|discriminate]. apply wp_bind. eapply wp_eq; [reflexivity|]. apply wp_bind. eapply wp_mono; [apply WK; apply w_new| |auto]. intros ? s2 (B2 & _). apply wp_bind. eapply wp_eq; [reflexivity|]. apply wp_ret. apply wp_ret. left. cbn [set_ca s_fl] in *. rewrite B2. cbn [set_ca s_fl]. now rewrite F1.
  - apply wp_bind. assert (V1 : vm s1 p = Some PartialOpen) by (rewrite (vm_ca _ _ C1); exact VP). pose proof (w_close p s1 V1) as WC. rewrite F1 in WC. eapply wp_mono; [apply WK; exact WC| |auto]. intros ? s2 Z2. apply wp_ret.
    pose proof (kl_rest KO g _ (z_kept (length (f_er (s_fl s))) (pend g p - W)) r k d (Some (Some (next_page g p))) s2 Z2) as ZR. change (wp (store_rest (R := counted) KO g r k d (Some (Some (next_page g p)))) (fun _ s' => quiet s p s') (fun e s' => e = ECorrupted -> Z (length (f_er (s_fl s))) (pend g p - W) s') s2).
    unfold wp. destruct (store_rest KO g r k d (Some (Some (next_page g p))) s2) as [[u|e] s3]; cbn [snd] in ZR; [now right|intros _; exact ZR].
Qed.
Lemma w_store p b k d s s' : warmm p s -> m_store (R := counted) KO g b k d s = (Ok tt, s') -> quiet s p s'.
Proof.
  intros WM. unfold m_store. unfold bind at 1. cbn [put_buf]. assert (W0 : warmm p (set_buf s b)) by exact WM. pose proof (w_inner p k d _ W0) as H. unfold auto_repair, attempt, bind. cbn [on_result counted garbled]. unfold hand_on. unfold wp in H. cbn [put_buf]. destruct (store_inner (R := counted) KO g k d (set_buf s b)) as [[u|e] s1].
  - intros [= _ <-]. exact H.
  - destruct e; try discriminate. specialize (H eq_refl). cbn [set_buf s_fl] in H. pose proof (kl_rep KO g _ (z_kept (length (f_er (s_fl s))) (pend g p - W)) s1 H) as H1. destruct (m_repair (R := counted) KO g s1) as [[u|e] s2]; [|discriminate]. cbn [snd] in H1.
    pose proof (kl_inner KO g _ (z_kept (length (f_er (s_fl s))) (pend g p - W)) k d s2 H1) as H2. intros E. rewrite E in H2. right. exact H2.
Qed.
End S.

(** * The claim *)
Lemma cheap_store {K} (KO : keyops K) legal pf g n evs l s b k d p b2 k2 d2 p2 : m_reached KO legal pf g n (evs ++ [MCall (MStore b k d) p]) (l ++ [RUnit (Ok tt)]) s -> page_caches g (s_ca s) ->
  let r := m_exec (R := counted) KO g (MStore b2 k2 d2) (power s p2) in fst r = RUnit (Ok tt) -> reads_between s (snd r) = [] \/ moved_on g s (snd r).
Proof.
  intros RE PC r E2. destruct (reached_reach KO legal _ _ _ _ _ _ RE) as (m & log & ae & aw & RC). pose proof (rc_set _ _ _ _ _ _ _ _ _ _ _ _ RC) as (gok & np2 & _). pose proof (rc_mst _ _ _ _ _ _ _ _ _ _ _ _ RC) as (Y & (pg & LY & SW & _) & _).
  destruct RE as (_ & f & c & _ & _ & _ & _ & _ & _ & _ & RUN). rewrite m_run_snoc in RUN. destruct (m_run KO g (st_new f c) evs) as [l1 s1]. destruct (m_exec KO g (MStore b k d) (power s1 p)) as [a s2] eqn:E1. injection RUN as EA ->. apply app_inj_tail in EA. destruct EA as (_ & ->).
  cbn [m_exec] in E1. unfold mans1 in E1. destruct (m_store KO g b k d (power s1 p)) as [rr s2] eqn:EM. cbn [fst snd] in E1. injection E1 as -> ->.
  assert (JS : Jm g (power s1 p)).
  { pose proof (kl_mstore KO g same_size (same_kept g) b k d (power s1 p)) as (A & B). rewrite EM in A, B. cbn [snd] in A, B. destruct PC as (ps & er & wr & P1 & P2 & L1 & _ & L3). split.
    - rewrite <- A. unfold wlm. rewrite P2. exact L3.
    - exists (length ps). rewrite <- B. unfold plm. rewrite P1. split; [reflexivity|exact L1]. }
  destruct (km_store g gok KO b k d _ s JS EM) as (q & WM). pose proof WM as ((LQ & _ & VQ & _) & _ & DI).
  destruct SW as ((IM & PG & _) & _ & [X|(CS & _)]); [congruence|].
  assert (SQ : st_of (pg q) = Some PartialOpen). { unfold vm in VQ. destruct (c_ps (s_ca s)) as [|l0|]; try discriminate. destruct CS as (_ & CS). apply CS; auto. unfold lookup in VQ. destruct (nth_error l0 q) as [[z|]|]; try discriminate. congruence. }
  pose proof (lay_nojunk (NP g) Y pg q ltac:(lia) LY LQ) as NJ. destruct (page_read g gok _ (s_fl s) q (pg q) IM NJ (PG q LQ)) as (_ & EN & _). assert (EF : ended g (f_mem (s_fl s)) q = false) by (rewrite EN; destruct (pg q); try reflexivity; discriminate).
  subst r. cbn [m_exec] in *. unfold mans1 in *. destruct (m_store (R := counted) KO g b2 k2 d2 (power s p2)) as [r2 s'] eqn:E3. cbn [fst snd] in *. injection E2 as ->. assert (WP : warmm g q (power s p2)) by exact WM. destruct (w_store g gok KO q b2 k2 d2 _ s' WP E3) as [B|(L0 & B)].
  - left. unfold reads_between. change (f_bad (s_fl (power s p2))) with (f_bad (s_fl s)) in B. now rewrite B, Nat.sub_diag.
  - right. change (f_er (s_fl (power s p2))) with (f_er (s_fl s)) in *. destruct B as [B|B].
    + left. unfold erases_between. intros X. apply (f_equal (@length _)) in X. rewrite firstn_length in X. cbn [length] in X. lia.
    + right. exists q. split; [exact LQ|]. split; [exact EF|]. unfold ended, mark. assert (B2 : bytes (f_mem (s_fl s')) (first_byte g q + ES g - RS g) (RS g) = repeat 0%N (RS g)).
      { rewrite last_eq. assert (H : forall i x, pend g q - W g <= x -> x + i <= pend g q -> bytes (f_mem (s_fl s')) x i = repeat 0%N i).
        { induction i as [|i IH]; intros x H1 H2; [reflexivity|]. cbn [bytes repeat]. rewrite (IH (S x)) by lia. rewrite (B x) by lia. reflexivity. }
        assert (RB : 0 < RS g /\ RS g <= W g /\ paddr g q + 2 * W g <= pend g q) by (pose proof gok as (RP & _); unfold paddr, pend; pose proof (word_eq g); unfold word in *; destruct gok as (_ & _ & _ & _ & _ & ZZ & _); lia).
        apply H; lia. }
      rewrite B2. pose proof gok as (RP & _). destruct (RS g) as [|rs]; [lia|]. reflexivity.
Qed.
