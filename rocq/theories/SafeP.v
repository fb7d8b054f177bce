(** Calls on arbitrary flash contents: no panic, no endless loop, no access outside the flash range. *)
From Coq Require Import List NArith ZArith Arith Bool Lia ZifyBool ZifyNat ZifyN.
From Verif Require Import Base BaseP Crc CrcP Flash Cache State Item Generic Queue GeomP ScanP ItemP WorldP WpP NoiseP.
Import ListNotations.
Local Opaque crc16 acrc crc32.

(** Errors other than panics, endless loops, refused accesses and [Error::LogicBug]. *)
Definition tame (e : err) : Prop :=
  match e with EPanic | EFuel | ELogicBug | EStorage SOob | EStorage SAlign => False | _ => True end.

Section Safe.
Context {K : Type} (g : geom) (gok : geom_ok g) (F0 : flash) (J : qiter -> miter -> Prop).
Notation NP := (NP g).
Notation HL := (HL g).
Notation W := (W g).
Notation dstart := (dstart g).
Notation dend := (dend g).
Notation rup := (rup g).
Implicit Types s : st K.

(** An aligned address in the data area of a page. *)
Definition inp (p a : nat) : Prop := al g a /\ dstart p <= a <= dend p.
Definition calc_sane (k : calc) : Prop :=
  k_pc k = NP /\ forall a, k_anchor k = Some a -> a < NP /\ 1 <= k_open k /\ (k_partial k = true -> k_guess k = false).
Definition ps_sane (c : pscache) : Prop := match c with PSNone => True | PSArray l => NP <= length l | PSCalc k => calc_sane k end.
Definition pp_sane (c : ppcache) : Prop :=
  match c with PPNone => True | PPArray er wr => forall p a, p < NP -> (lookup er p = Some a -> inp p a) /\ (lookup wr p = Some a -> inp p a) end.
Definition kp_sane (c : kpcache K) : Prop :=
  match c with KPNone => True | KPArray l => l <> [] /\ forall k a, In (Some (k, a)) l -> exists p, p < NP /\ inp p a end.
Definition csane (c : cache K) : Prop := ps_sane (c_ps c) /\ pp_sane (c_pp c) /\ kp_sane (c_kp c).
Definition outside (m : nat -> N) : Prop := (forall x, x < START g \/ FEND g <= x -> m x = f_mem F0 x) /\ (clean g (f_mem F0) -> clean g m).
Definition sane s : Prop := (f_bad (s_fl s) = f_bad F0 /\ outside (f_mem (s_fl s))) /\ csane (s_ca s) /\ J (s_qi s) (s_mi s).
(** [c] keeps things sane, and does the same whatever bits of the markers are wrong that do not matter. *)
Definition safe {A} (c : M K A) (Q : A -> st K -> Prop) s : Prop := wp c (fun a s' => sane s' /\ Q a s') (fun e s' => tame e /\ sane s') s /\ rok g c s.

Lemma safe_ret {A} (a : A) (Q : A -> st K -> Prop) s : sane s -> Q a s -> safe (ret a) Q s. Proof. intros. split; [unfold wp; cbn; auto|apply rok_ret]. Qed.
Lemma safe_fail {A} e (Q : A -> st K -> Prop) s : sane s -> tame e -> safe (fail e) Q s. Proof. intros. split; [unfold wp; cbn; auto|apply rok_fail]. Qed.
Lemma safe_at {A} (c : M K A) Q s a s' : safe c Q s -> c s = (Ok a, s') -> sane s' /\ Q a s'. Proof. intros (H & _) E. unfold wp in H. now rewrite E in H. Qed.
Lemma safe_at_err {A} (c : M K A) Q s e s' : safe c Q s -> c s = (Err e, s') -> tame e /\ sane s'. Proof. intros (H & _) E. unfold wp in H. now rewrite E in H. Qed.
Lemma safe_bind {A B} (c : M K A) (f : A -> M K B) (P : A -> st K -> Prop) Q s : safe c P s -> (forall a s', sane s' -> P a s' -> safe (f a) Q s') -> safe (bind c f) Q s.
Proof.
  intros H1 H2. split.
  - apply wp_bind. eapply wp_mono; [apply H1| |auto]. cbn beta. intros a s' [X Y]. now apply H2.
  - apply rok_bind; [apply H1|]. intros a s' E. destruct (safe_at _ _ _ _ _ H1 E). now apply H2.
Qed.
Lemma safe_mono {A} (c : M K A) (P Q : A -> st K -> Prop) s : safe c P s -> (forall a s', sane s' -> P a s' -> Q a s') -> safe c Q s.
Proof. intros H1 H2. split; [|apply H1]. eapply wp_mono; [apply H1| |auto]. cbn beta. intros a s' [X Y]. split; auto. Qed.
Lemma safe_eq {A B} (c : M K A) (f : A -> M K B) Q s a s' : c s = (Ok a, s') -> rok g c s -> safe (f a) Q s' -> safe (bind c f) Q s.
Proof.
  intros E R (H1 & H2). split; [unfold wp, bind in *; now rewrite E|]. apply rok_bind; auto. intros a' s2 E2. rewrite E in E2. now injection E2 as <- <-.
Qed.
Lemma safe_err {A B} (c : M K A) (f : A -> M K B) Q s e s' : c s = (Err e, s') -> rok g c s -> tame e -> sane s' -> safe (bind c f) Q s.
Proof. intros E R T S. split; [unfold wp, bind; rewrite E; auto|]. apply rok_bind; auto. intros a' s2 E2. now rewrite E in E2. Qed.
Lemma safe_attempt {A B} (c : M K A) (f : res A -> M K B) (P : A -> st K -> Prop) Q s : safe c P s ->
  (forall a s', sane s' -> P a s' -> safe (f (Ok a)) Q s') -> (forall e s', sane s' -> tame e -> safe (f (Err e)) Q s') -> safe (bind (attempt c) f) Q s.
Proof.
  intros H1 H2 H3. split.
  - apply wp_attempt. eapply wp_mono; [apply H1| |]; cbn beta; [intros a s' [X Y]; now apply H2|intros e s' [X Y]; now apply H3].
  - apply rok_attempt; [apply H1|]. intros [a|e] s' E; [destruct (safe_at _ _ _ _ _ H1 E); now apply H2|destruct (safe_at_err _ _ _ _ _ H1 E); now apply H3].
Qed.
Lemma safe_auto {A} (f : M K A) (rp : M K unit) (Q : A -> st K -> Prop) s : safe f Q s -> (forall s', sane s' -> safe rp (fun _ _ => True) s') -> (forall s', sane s' -> safe f Q s') ->
  safe (auto_repair f rp) Q s.
Proof.
  intros H1 H2 H3. unfold auto_repair. eapply safe_attempt; [exact H1| |].
  - intros a s' S X. now apply safe_ret.
  - intros e s' S T. assert (Z : safe (fail e) Q s') by now apply safe_fail. destruct e; auto. eapply safe_bind; [now apply H2|]. intros _ s2 S2 _. now apply H3.
Qed.
Lemma sane_buf s b : sane s -> sane (set_buf s b). Proof. intros H. exact H. Qed.
Lemma sane_ca s c : sane s -> csane c -> sane (set_ca s c). Proof. intros (A & _ & C) B. split; [exact A|]. split; [exact B|exact C]. Qed.
Lemma sane_c s : sane s -> csane (s_ca s). Proof. intros H. apply H. Qed.

(** * Geometry *)
Lemma inp_dstart p : inp p (dstart p).
Proof. pose proof (dstart_lt g gok p). pose proof (W_pos g gok). split; [auto with al|lia]. Qed.
Lemma inp_START p a : inp p a -> START g <= a.
Proof. intros (_ & A & _). pose proof (START_paddr g p). unfold Flash.dstart in A. lia. Qed.
Lemma dend_FEND p : p < NP -> dend p <= FEND g.
Proof. intros P. pose proof (pend_FEND g p P). unfold Flash.dend. lia. Qed.
Lemma dend_pend p : dend p < pend g p. Proof. pose proof (dend_lt g gok p). pose proof (W_pos g gok). lia. Qed.
Lemma inp_pindex p a : inp p a -> pindex g a = p.
Proof. intros (_ & A & B). apply (pindex_in g gok). pose proof (dend_pend p). pose proof (pend_eq g p). unfold Flash.dstart in A. lia. Qed.
Lemma inp_pos p a : inp p a -> 0 < a.
Proof. intros (_ & A & _). pose proof (W_pos g gok). unfold Flash.dstart in A. lia. Qed.
Lemma inp_inj p q a : inp p a -> inp q a -> p = q.
Proof. intros A B. rewrite <- (inp_pindex p a A). now apply inp_pindex. Qed.

(** * Flash *)
(** The writes of the library: inside the data area of a page, or zeros. *)
Definition mwrite a (bs : list N) : Prop := Forall (eq 0%N) bs \/ exists p, p < NP /\ dstart p <= a /\ a + length bs <= dend p.
Lemma mw_zeros n a : mwrite a (repeat 0%N n). Proof. left. apply Forall_forall. intros x X. now apply repeat_spec in X. Qed.
Lemma mw_data p a bs : p < NP -> inp p a -> a + length bs <= dend p -> mwrite a bs. Proof. intros P (A & B & C) L. right. exists p. repeat split; auto. Qed.
#[local] Hint Resolve mw_zeros : core.
Lemma mwrite_firstn j a bs : mwrite a bs -> mwrite a (firstn j bs).
Proof.
  intros [H|(p & P & A & B)]; [left|right].
  - apply Forall_forall. intros x X. rewrite Forall_forall in H. apply H. rewrite <- (firstn_skipn j bs). apply in_app_iff. auto.
  - exists p. pose proof (firstn_length j bs). repeat split; auto. lia.
Qed.
Lemma mwrite_noise a bs m m2 : mwrite a bs -> noise g m m2 -> noise g (mem_and m a bs) (mem_and m2 a bs).
Proof. intros [H|(p & P & A & B)]; [now apply noise_zeros|now apply (noise_data g gok p)]. Qed.
Lemma safe_write a bs (Q : unit -> st K -> Prop) s : sane s -> al g a -> al g (length bs) -> 0 < length bs -> START g <= a -> a + length bs <= FEND g -> mwrite a bs ->
  (forall s', sane s' -> s_buf s' = s_buf s -> s_ca s' = s_ca s -> s_qi s' = s_qi s -> s_mi s' = s_mi s ->
     (forall x, x < a \/ a + length bs <= x -> f_mem (s_fl s') x = f_mem (s_fl s) x) -> Q tt s') -> safe (fl_write g a bs) Q s.
Proof.
  intros S A B C D E MW H. split.
  - unfold wp, fl_write, dev_write. rewrite (chk_WS g gok) by auto. destruct (spend (f_fuel (s_fl s)) (length bs)) as [[k fu] cr] eqn:SP.
    assert (X : forall j, let f := mkflash (mem_and (f_mem (s_fl s)) a (firstn j bs)) (wc_inc (f_wc (s_fl s)) a j) (f_er (s_fl s)) fu (f_ae (s_fl s)) (f_aw (s_fl s)) (f_bad (s_fl s)) in
      sane (set_fl s f) /\ forall x, x < a \/ a + length bs <= x -> f_mem f x = f_mem (s_fl s) x).
    { intros j. destruct S as ((S1 & S2) & S3 & S4). cbn [f_mem]. assert (Z : forall x, x < a \/ a + length bs <= x -> mem_and (f_mem (s_fl s)) a (firstn j bs) x = f_mem (s_fl s) x).
      { intros x Hx. apply mem_and_out. pose proof (firstn_length j bs). lia. }
      split; [|exact Z]. split; [split; [exact S1|]|split; [exact S3|exact S4]]. destruct S2 as (S2 & S5). split; [|intros CL; apply (clean_and g gok); [now apply mwrite_firstn|now apply S5]].
      intros x Hx. cbn [f_mem s_fl set_fl]. rewrite Z by lia. now apply S2. }
    destruct cr; cbn [andb]; [split; [exact I|apply X]|]. destruct (X k) as (X1 & X2). split; auto.
  - intros m2 N. unfold fl_write, dev_write. rewrite (chk_WS g gok) by auto. cbn [s_fl wm set_fl f_fuel f_aw f_mem f_wc f_er f_ae f_bad].
    destruct (spend (f_fuel (s_fl s)) (length bs)) as [[k fu] cr] eqn:SP. set (k' := if cr && _ then 0 else k). exists (mem_and m2 a (firstn k' bs)).
    destruct cr; (split; [reflexivity|]); cbn [snd s_fl set_fl f_mem]; apply mwrite_noise; auto; now apply mwrite_firstn.
Qed.
Lemma safe_erase p (Q : unit -> st K -> Prop) s : sane s -> p < NP ->
  (forall s', sane s' -> s_buf s' = s_buf s -> s_ca s' = s_ca s -> s_qi s' = s_qi s -> s_mi s' = s_mi s -> Q tt s') -> safe (fl_erase g (paddr g p) (pend g p)) Q s.
Proof.
  intros S P H. pose proof (pend_eq g p) as PE.
  assert (LK : forall n k fu cr, spend (f_fuel (s_fl s)) n = (k, fu, cr) -> k <= n).
  { intros n k fu cr SP. unfold spend in SP. destruct (f_fuel (s_fl s)) as [k0|]; [destruct (Nat.leb_spec n k0) in SP|]; injection SP; intros; lia. }
  split.
  - unfold wp, fl_erase, dev_erase. rewrite (chk_ES g gok) by auto. destruct (spend (f_fuel (s_fl s)) _) as [[k fu] cr] eqn:SP. apply LK in SP.
    assert (X : forall j wc er, j <= k -> sane (set_fl s (mkflash (mem_ff (f_mem (s_fl s)) (paddr g p) j) wc er fu (f_ae (s_fl s)) (f_aw (s_fl s)) (f_bad (s_fl s))))).
    { intros j wc er Hj. destruct S as ((S1 & S2) & S3 & S4). split; [split; [exact S1|]|split; [exact S3|exact S4]]. destruct S2 as (S2 & S5). split; [|intros CL; now apply clean_ff, S5].
      intros x Hx. cbn [f_mem s_fl set_fl]. rewrite mem_ff_out; [now apply S2|]. pose proof (START_paddr g p). pose proof (pend_FEND g p P). lia. }
    destruct cr; cbn [andb]; [split; [exact I|]; apply X; destruct (f_ae _); lia|]. split; [apply X; lia|]. apply H; try reflexivity. apply X. lia.
  - intros m2 N. unfold fl_erase, dev_erase. rewrite (chk_ES g gok) by auto. cbn [s_fl wm set_fl f_fuel f_aw f_mem f_wc f_er f_ae f_bad].
    destruct (spend (f_fuel (s_fl s)) _) as [[k fu] cr] eqn:SP. apply LK in SP. set (k' := if cr && _ then 0 else k). exists (mem_ff m2 (paddr g p) k').
    assert (k' <= ES g) by (unfold k'; destruct (cr && f_ae (s_fl s)); lia).
    destruct cr; (split; [reflexivity|]); cbn [snd s_fl set_fl f_mem]; now apply noise_ff.
Qed.

(** * Scanning *)
Lemma trav skip e s : e <= FEND g -> forall fuel a, al g a -> START g <= a -> a <= e -> S (S (e - a)) <= fuel ->
  exists oh fa nx, traverse g fuel skip a e s = (Ok (oh, fa, nx), s) /\ a <= fa /\ al g fa /\ fa <= e /\
    match oh with Some h => hdr_at g (f_mem (s_fl s)) e fa = HOk h /\ skip h = false /\ nx = next_addr g fa h | None => nx = fa end.
Proof.
  intros HE. induction fuel as [|f IH]; intros a A1 A2 A3 F; [lia|]. cbn [traverse]. unfold bind at 1, attempt, on_result, steady, hand_on. rewrite (read_new_eq g gok) by auto.
  destruct (hdr_at g (f_mem (s_fl s)) e a) as [| |h] eqn:H.
  - exists None, a, a. repeat split; auto.
  - pose proof (hdr_at_bad g _ _ _ H). pose proof (HL_W g gok). pose proof (W_pos g gok).
    destruct (IH (a + W)) as (oh & fa & nx & E & B); [auto with al|lia|lia|lia|]. exists oh, fa, nx. split; [exact E|]. intuition lia.
  - destruct (hdr_at_ok g _ _ _ _ H) as (L & _). pose proof (HL_ge g). destruct (skip h) eqn:SK.
    + assert (al g (next_addr g a h)) by (unfold next_addr; auto with al). unfold next_addr in *.
      destruct (IH (a + HL + rup (h_len h))) as (oh & fa & nx & E & B); [auto|lia|lia|lia|]. exists oh, fa, nx. split; [exact E|]. intuition lia.
    + exists (Some h), a, (next_addr g a h). repeat split; auto.
Qed.
Lemma trav_page skip p a s : p < NP -> inp p a -> exists oh fa nx, traverse g (tfuel a (dend p)) skip a (dend p) s = (Ok (oh, fa, nx), s) /\ inp p fa /\ a <= fa /\
  match oh with Some h => hdr_at g (f_mem (s_fl s)) (dend p) fa = HOk h /\ skip h = false /\ nx = next_addr g fa h /\ inp p nx /\ fa < nx | None => nx = fa end.
Proof.
  intros P I. pose proof (inp_START _ _ I) as ST. destruct I as (A & B & C). destruct (trav skip (dend p) s (dend_FEND p P) (tfuel a (dend p)) a A ST C (le_n _)) as (oh & fa & nx & E & H1 & H2 & H3 & H4).
  exists oh, fa, nx. split; [exact E|]. split; [split; [auto|lia]|]. split; auto. destruct oh as [h|]; auto. destruct H4 as (H4 & H5 & ->). repeat split; auto.
  - unfold next_addr. auto with al.
  - unfold next_addr. lia.
  - destruct (hdr_at_ok g _ _ _ _ H4) as (L & _). exact L.
  - unfold next_addr. pose proof (HL_ge g). lia.
Qed.

Lemma hdr_noise m m2 p a : noise g m m2 -> p < NP -> inp p a -> hdr_at g m2 (dend p) a = hdr_at g m (dend p) a.
Proof.
  intros (N & _) P (A & B & C). destruct (le_lt_dec (a + HL) (dend p)) as [L|L].
  - apply hdr_at_ext. intros x Hx. apply (N p); auto. lia.
  - unfold hdr_at. destruct (Nat.ltb_spec (dend p) (a + HL)); [reflexivity|lia].
Qed.
Lemma rd_noise m m2 p a n : noise g m m2 -> p < NP -> dstart p <= a -> a + n <= dend p -> rd m2 a n = rd m a n.
Proof. intros (N & _) P A B. apply rd_ext. intros x Hx. apply (N p); auto. lia. Qed.
Lemma rok_read_new p a s : p < NP -> inp p a -> rok g (read_new g a (Some (dend p))) s.
Proof.
  intros P I. pose proof (inp_START _ _ I) as ST. pose proof I as (A & _). pose proof (dend_FEND p P) as FE. intros m2 N. exists m2. rewrite !(read_new_eq g gok) by auto. split; [|exact N].
  cbn [s_fl wm set_fl f_mem fst snd]. now rewrite (hdr_noise _ _ p a N P I).
Qed.
Lemma rok_trav skip p s : p < NP -> forall fuel a, inp p a -> rok g (traverse g fuel skip a (dend p)) s.
Proof.
  intros P. induction fuel as [|f IH]; intros a I; [apply rok_fail|]. cbn [traverse]. apply rok_attempt; [now apply rok_read_new|]. intros r s'.
  pose proof (inp_START _ _ I) as ST. pose proof I as (A & B & C). rewrite (read_new_eq g gok) by (auto using dend_FEND). intros [= <- <-]. destruct (hdr_at g (f_mem (s_fl s)) (dend p) a) as [| |h] eqn:H.
  - apply rok_ret.
  - pose proof (hdr_at_bad g _ _ _ H). pose proof (HL_W g gok). apply IH. split; [auto with al|lia].
  - destruct (hdr_at_ok g _ _ _ _ H) as (L & _). destruct (skip h); [|apply rok_ret]. apply IH. unfold next_addr in *. split; [auto with al|lia].
Qed.

(** The state after reading data: only the buffer differs, and it keeps its length. *)
Definition sb s s' : Prop := exists b, length b = length (s_buf s) /\ s' = set_buf s b.
Lemma sb_refl s : sb s s. Proof. exists (s_buf s). destruct s; auto. Qed.
Lemma sb_trans s1 s2 s3 : sb s1 s2 -> sb s2 s3 -> sb s1 s3. Proof. intros (b & L & ->) (b' & L' & ->). exists b'. cbn in *. split; [lia|reflexivity]. Qed.
Lemma sb_sane s s' : sb s s' -> sane s -> sane s'. Proof. intros (b & _ & ->) H. exact H. Qed.
Lemma sb_fl s s' : sb s s' -> s_fl s' = s_fl s. Proof. now intros (b & _ & ->). Qed.
Lemma sb_ca s s' : sb s s' -> s_ca s' = s_ca s. Proof. now intros (b & _ & ->). Qed.
Lemma sb_mi s s' : sb s s' -> s_mi s' = s_mi s. Proof. now intros (b & _ & ->). Qed.
Lemma sb_qi s s' : sb s s' -> s_qi s' = s_qi s. Proof. now intros (b & _ & ->). Qed.
Lemma sb_len s s' : sb s s' -> length (s_buf s') = length (s_buf s). Proof. now intros (b & L & ->). Qed.

(** Present items: the buffer holds their data. *)
Definition in_buf s h a : Prop := rup (h_len h) <= length (s_buf s) /\ firstn (h_len h) (s_buf s) = rd (f_mem (s_fl s)) (a + HL) (h_len h) /\ h_crc h = Some (acrc (rd (f_mem (s_fl s)) (a + HL) (h_len h))).
Lemma read_item_any h p a e s : p < NP -> inp p a -> hdr_at g (f_mem (s_fl s)) (dend p) a = HOk h -> (forall x, e = Some x -> x = dend p) ->
  exists s', sb s s' /\ (read_item g h a e s = (Err (EBufTooSmall (rup (h_len h))), s') \/
    exists mi, read_item g h a e s = (Ok mi, s') /\ match mi with MPresent h' => h' = h /\ in_buf s' h a | MErased h' => h' = h /\ h_crc h = None | MCorrupted h' => h' = h end).
Proof.
  intros P I H HE. pose proof (inp_START _ _ I) as ST. destruct I as (A & B & C). destruct (hdr_at_ok g _ _ _ _ H) as (L & _). unfold next_addr in L.
  pose proof (dend_FEND p P) as FE. unfold read_item. destruct (h_crc h) as [c|] eqn:EC; [|exists s; split; [apply sb_refl|]; right; exists (MErased h); auto].
  assert (X : beyond e (a + HL + rup (h_len h)) = false). { destruct e as [x|]; auto. rewrite (HE x eq_refl). cbn. apply Nat.ltb_ge. lia. }
  rewrite X. unfold bind, get_buf. cbv beta iota zeta. destruct (Nat.ltb_spec (length (s_buf s)) (rup (h_len h))) as [T|T].
  - exists s. split; [apply sb_refl|]. left. reflexivity.
  - rewrite (read_data_eq g gok) by (auto with al; lia). eexists. split; [|right; eexists; split; [reflexivity|]].
    + exists (put_front (rd (f_mem (s_fl s)) (a + HL) (rup (h_len h))) (s_buf s)). split; [|reflexivity]. unfold put_front. rewrite app_length, skipn_length, rd_length. lia.
    + destruct (N.eqb_spec (acrc (rd (f_mem (s_fl s)) (a + HL) (h_len h))) c) as [Q|Q]; [|reflexivity]. split; [reflexivity|]. unfold in_buf. cbn [s_buf set_buf s_fl].
      pose proof (rup_ge g gok (h_len h)). unfold put_front. split; [rewrite app_length, skipn_length, rd_length; lia|]. split; [|congruence].
      rewrite firstn_app, rd_length, rd_firstn by lia. replace (h_len h - rup (h_len h)) with 0 by lia. cbn. apply app_nil_r.
Qed.

Lemma rok_read_item h p a e s : p < NP -> inp p a -> hdr_at g (f_mem (s_fl s)) (dend p) a = HOk h -> (forall x, e = Some x -> x = dend p) -> rok g (read_item g h a e) s.
Proof.
  intros P I H HE. pose proof (inp_START _ _ I) as ST. destruct I as (A & B & C). destruct (hdr_at_ok g _ _ _ _ H) as (L & _). unfold next_addr in L.
  pose proof (dend_FEND p P) as FE. unfold read_item. destruct (h_crc h) as [c|] eqn:EC; [|apply rok_ret].
  assert (X : beyond e (a + HL + rup (h_len h)) = false). { destruct e as [x|]; auto. rewrite (HE x eq_refl). cbn. apply Nat.ltb_ge. lia. }
  rewrite X. cbv zeta. apply rok_bind; [rst|]. intros b s' [= <- <-]. destruct (Nat.ltb_spec (length (s_buf s)) (rup (h_len h))) as [T|T]; [apply rok_fail|].
  pose proof (rup_ge g gok (h_len h)) as RU. intros m2 N. exists m2. rewrite !(read_data_eq g gok) by (auto with al; lia). split; [|exact N]. cbn [s_fl wm set_fl f_mem fst snd s_buf].
  rewrite !(rd_noise _ m2 p _ _ N P) by lia. reflexivity.
Qed.
(** An item that is present. *)
Definition item_at (m : nat -> N) p a h : Prop := inp p a /\ hdr_at g m (dend p) a = HOk h /\ h_crc h = Some (acrc (rd m (a + HL) (h_len h))).
Definition same_cache s s' : Prop := s_fl s' = s_fl s /\ s_qi s' = s_qi s /\ s_mi s' = s_mi s /\ length (s_buf s') = length (s_buf s).
Lemma item_next_any p : p < NP -> forall fuel cur s, inp p cur -> S (S (dend p - cur)) <= fuel ->
  exists s', sb s s' /\ ((exists n, item_next g fuel cur (dend p) s = (Err (EBufTooSmall n), s')) \/
    (exists nx, item_next g fuel cur (dend p) s = (Ok (None, nx), s')) \/
    exists h a nx, item_next g fuel cur (dend p) s = (Ok (Some (h, a), nx), s') /\ cur <= a /\ item_at (f_mem (s_fl s)) p a h /\ nx = next_addr g a h /\ inp p nx /\ a < nx /\ in_buf s' h a).
Proof.
  intros P. induction fuel as [|f IH]; intros cur s I F; [lia|].
  destruct (trav_page (fun _ => false) p cur s P I) as (oh & fa & nx & E & I' & L & H). destruct oh as [h|].
  - destruct H as (H & _ & N & I2 & LT). destruct (read_item_any h p fa (Some (dend p)) s P I' H) as (s1 & S1 & [R|(mi & R & M)]); [now intros x [=]| |].
    + exists s1. split; auto. left. cbn [item_next]. unfold bind. rewrite E, R. eauto.
    + assert (EQ : item_next g (S f) cur (dend p) s = match mi with MPresent h => (Ok (Some (h, fa), nx), s1) | _ => item_next g f nx (dend p) s1 end).
      { cbn [item_next]. unfold bind. rewrite E, R. destruct mi; reflexivity. }
      rewrite EQ. assert (REC : exists s', sb s s' /\ ((exists n, item_next g f nx (dend p) s1 = (Err (EBufTooSmall n), s')) \/
        (exists nx', item_next g f nx (dend p) s1 = (Ok (None, nx'), s')) \/
        exists h a nx', item_next g f nx (dend p) s1 = (Ok (Some (h, a), nx'), s') /\ cur <= a /\ item_at (f_mem (s_fl s)) p a h /\ nx' = next_addr g a h /\ inp p nx' /\ a < nx' /\ in_buf s' h a)).
      { destruct (IH nx s1) as (s2 & S2 & C); auto; [destruct I2; lia|]. exists s2. split; [eapply sb_trans; eauto|].
        destruct C as [C|[C|(h2 & a2 & nx2 & C & D)]]; [left; exact C|right; left; exact C|]. right. right. exists h2, a2, nx2. split; [exact C|]. rewrite (sb_fl _ _ S1) in D.
        destruct D as (D1 & D2). split; [lia|exact D2]. }
      destruct mi as [h'|h'|h']; auto.
      exists s1. split; auto. right. right. destruct M as (-> & M). exists h, fa, nx. split; [reflexivity|]. split; auto. split; [|auto].
      split; [auto|]. split; auto. destruct M as (_ & _ & M). now rewrite (sb_fl _ _ S1) in M.
  - exists s. split; [apply sb_refl|]. right. left. exists nx. cbn [item_next]. unfold bind. now rewrite E.
Qed.

Lemma rok_item_next p : p < NP -> forall fuel cur s, inp p cur -> S (S (dend p - cur)) <= fuel -> rok g (item_next g fuel cur (dend p)) s.
Proof.
  intros P. induction fuel as [|f IH]; intros cur s I F; [apply rok_fail|]. cbn [item_next]. apply rok_bind; [now apply rok_trav|]. intros [[oh fa] nx] s' E2.
  destruct (trav_page (fun _ => false) p cur s P I) as (oh' & fa' & nx' & E & I' & L & H). rewrite E in E2. injection E2 as -> -> -> ->. destruct oh as [h|]; [|apply rok_ret].
  destruct H as (H & _ & N & I2 & LT). assert (HE : forall x, Some (dend p) = Some x -> x = dend p) by now intros x [=].
  apply rok_bind; [now apply (rok_read_item h p)|]. intros mi s1 E1. destruct mi; try apply rok_ret; apply IH; auto; destruct I2; lia.
Qed.
Lemma safe_item_next p cur s : p < NP -> inp p cur -> sane s ->
  safe (item_next g (tfuel cur (dend p)) cur (dend p)) (fun r s' => sb s s' /\
    match r with (Some (h, a), nx) => cur <= a /\ item_at (f_mem (s_fl s)) p a h /\ nx = next_addr g a h /\ inp p nx /\ a < nx /\ in_buf s' h a | _ => True end) s.
Proof.
  intros P I S. destruct (item_next_any p P (tfuel cur (dend p)) cur s I (le_n _)) as (s' & B & [(n & E)|[(nx & E)|(h & a & nx & E & X)]]); (split; [unfold wp; rewrite E|apply rok_item_next; auto]).
  - split; [exact Logic.I|]. now apply (sb_sane s).
  - split; [now apply (sb_sane s)|]. split; auto.
  - split; [now apply (sb_sane s)|]. split; auto.
Qed.

(** * Caches *)
Definition fr s s' : Prop := s_fl s' = s_fl s /\ s_buf s' = s_buf s /\ s_qi s' = s_qi s /\ s_mi s' = s_mi s.
Lemma fr_refl s : fr s s. Proof. repeat split. Qed.
Lemma fr_trans s1 s2 s3 : fr s1 s2 -> fr s2 s3 -> fr s1 s3. Proof. intros (A & B & C & D) (A' & B' & C' & D'). repeat split; congruence. Qed.
Lemma fr_ca s c : fr s (set_ca s c). Proof. repeat split. Qed.

(** The page-state caches.  [anc n s p]: the calculated state has a partial-open anchor [p] with [n] open places from it. *)
Definition anc (n : nat) s (p : nat) : Prop :=
  match c_ps (s_ca s) with PSCalc k => k_anchor k = Some p /\ k_partial k = true /\ k_guess k = false /\ n <= k_open k | _ => True end.
Definition mstate (m : nat -> N) (p : nat) : option pstate :=
  match marked (rd m (paddr g p) (RS g)), marked (rd m (paddr g p + (ES g - RS g)) (RS g)) with
  | true, true => Some Closed | true, false => Some PartialOpen | false, true => None | false, false => Some Open end.
Definition seen s (p : nat) (x : pstate) : Prop :=
  match c_ps (s_ca s) with
  | PSNone => mstate (f_mem (s_fl s)) p = Some x
  | PSArray l => nth_error l p = Some (Some x)
  | PSCalc k => match x with
      | PartialOpen => anc 1 s p
      | Open => calc_get k p = Some Open \/ (calc_get k p = None /\ k_guess k = true /\ mstate (f_mem (s_fl s)) p = Some Open)
      | Closed => True end
  end.
Definition firm s p : Prop := exists x, x <> Closed /\ seen s p x.


Lemma calc_get_cases k p : calc_sane k -> p < NP -> calc_get k p <> None -> exists a, k_anchor k = Some a /\ a < NP /\ 1 <= k_open k.
Proof.
  intros (A & B) P H. unfold calc_get, calc_front, calc_behind in H. destruct (k_anchor k) as [a|] eqn:E; [|easy]. exists a. destruct (B a eq_refl) as (C & D & _). auto.
Qed.
Lemma calc_open k p : calc_sane k -> p < NP -> exists k', calc_notice k p Open = Some k' /\ calc_sane k'.
Proof.
  intros S P. pose proof S as (A & B). unfold calc_notice. destruct (calc_get k p) as [x|] eqn:E.
  - destruct (calc_get_cases k p S P ltac:(congruence)) as (a & E1 & E2 & E3). destruct (B a E1) as (_ & _ & B3). destruct x.
    + eexists. split; [reflexivity|]. split; [exact A|]. cbn [k_anchor k_open k_partial k_guess]. intros a' H. rewrite E1 in H. injection H as <-. split; auto. split; auto. destruct (calc_front k p); lia.
    + eexists. split; [reflexivity|]. split; [exact A|]. cbn [k_anchor k_open k_partial k_guess]. intros a' H. rewrite E1 in H. injection H as <-. repeat split; auto. easy.
    + eexists. split; [reflexivity|]. exact S.
  - destruct (k_anchor k) as [a|] eqn:E1.
    + destruct (B a eq_refl) as (C & D & F). destruct (k_guess k) eqn:G.
      * destruct (p =? _); eexists; split; try reflexivity; auto. split; [exact A|]. cbn [k_anchor k_open k_partial k_guess]. intros a' [= <-]. repeat split; auto; lia.
      * destruct (calc_front k p); eexists; split; try reflexivity; auto. split; [exact A|]. cbn [k_anchor k_open k_partial k_guess]. intros a' [= <-]. repeat split; auto; lia.
    + eexists. split; [reflexivity|]. split; [exact A|]. cbn [k_anchor k_open k_partial k_guess]. intros a' [= <-]. repeat split; auto.
Qed.
Lemma calc_partial k p : calc_sane k -> p < NP -> calc_get k p <> Some Closed -> exists k', calc_notice k p PartialOpen = Some k' /\ calc_sane k' /\
  k_anchor k' = Some p /\ k_partial k' = true /\ k_guess k' = false /\ 1 <= k_open k'.
Proof.
  intros S P N. pose proof S as (A & B). unfold calc_notice. destruct (calc_get k p) as [x|] eqn:E.
  - destruct (calc_get_cases k p S P ltac:(congruence)) as (a & E1 & E2 & E3). destruct (B a E1) as (_ & _ & B3). destruct x; [easy| |].
    + assert (X : a = p /\ k_partial k = true).
      { unfold calc_get in E. rewrite E1 in E. destruct (Nat.eqb_spec a p); [|destruct (match calc_front k p with Some i => _ | None => _ end); [easy|destruct (match calc_behind k p with Some i => _ | None => _ end); easy]].
        destruct (k_partial k); easy. }
      destruct X as (-> & X). eexists. split; [reflexivity|]. cbn [k_anchor k_open k_partial k_guess]. split; [|auto]. split; [exact A|]. cbn [k_anchor k_open k_partial k_guess]. intros a' H. rewrite E1 in H. injection H as <-. auto.
    + eexists. split; [reflexivity|]. cbn [k_anchor k_open k_partial k_guess]. split; [|auto]. split; [exact A|]. cbn [k_anchor k_open k_partial k_guess]. intros a' [= <-]. auto.
  - eexists. split; [reflexivity|]. cbn [k_anchor k_open k_partial k_guess]. split; [|auto]. split; [exact A|]. cbn [k_anchor k_open k_partial k_guess]. intros a' [= <-]. auto.
Qed.
Lemma calc_close k p : calc_sane k -> p < NP -> k_anchor k = Some p -> k_partial k = true -> k_guess k = false -> 2 <= k_open k -> exists k', calc_notice k p Closed = Some k' /\ calc_sane k'.
Proof.
  intros (A & B) P H1 H2 H3 H4. unfold calc_notice, calc_get. rewrite H1, Nat.eqb_refl, H2. destruct (k_open k) as [|o] eqn:O; [lia|]. eexists. split; [reflexivity|].
  split; [exact A|]. cbn [k_anchor k_open k_partial k_guess]. intros a [= <-]. rewrite A. split; [apply Nat.mod_upper_bound; lia|]. split; [lia|easy].
Qed.
(** A page state read from flash when the cache does not know it. *)
Lemma calc_closed_obs k p : calc_sane k -> p < NP -> calc_get k p = None -> exists k', calc_notice k p Closed = Some k' /\ calc_sane k' /\
  k_anchor k' = k_anchor k /\ k_partial k' = k_partial k /\ k_guess k' = k_guess k /\ k_open k' = k_open k /\ k_pc k' = k_pc k /\ (k_guess k = true -> k' = k).
Proof.
  intros S P N. unfold calc_notice. rewrite N. destruct (k_guess k) eqn:G; [exists k; split; [reflexivity|]; split; [exact S|]; auto 10|].
  destruct (calc_behind k p); [|exists k; split; [reflexivity|]; split; [exact S|]; auto 10]. eexists. split; [reflexivity|]. split; [destruct S as (A & B); split; [exact A|]; cbn; intros a Ha; destruct (B a Ha); tauto|]. cbn. repeat split; easy.
Qed.
Lemma calc_open_obs k p k' : calc_sane k -> p < NP -> calc_get k p = None -> calc_notice k p Open = Some k' -> calc_get k' p = Some Open \/ (calc_get k' p = None /\ k_guess k' = true).
Proof.
  intros (A & B) P N. unfold calc_notice. rewrite N. destruct (k_anchor k) as [a|] eqn:E.
  - destruct (B a eq_refl) as (C & D & F). destruct (k_guess k) eqn:G.
    + destruct (Nat.eqb_spec p ((a + k_open k) mod k_pc k)) as [Q|Q]; intros [= <-]; [left|right; auto].
      unfold calc_get in *. cbn [k_anchor k_partial k_open k_closed k_pc]. unfold calc_front, calc_behind in *. cbn [k_anchor k_pc]. rewrite E in *.
      destruct (Nat.eqb_spec a p) as [X|X]; [easy|]. rewrite A in *.
      assert (Y : (if a <=? p then Some (p - a) else Some (NP - a + p)) = Some (if a <=? p then p - a else NP - a + p)) by (destruct (a <=? p); reflexivity).
      rewrite Y in *. destruct (Nat.ltb_spec (if a <=? p then p - a else NP - a + p) (k_open k + 1)) as [Z|Z]; [reflexivity|exfalso].
      destruct (Nat.ltb_spec (if a <=? p then p - a else NP - a + p) (k_open k)); [lia|].
      pose proof (Nat.div_mod (a + k_open k) NP ltac:(lia)) as DM. rewrite <- Q in DM. destruct (Nat.leb_spec a p); destruct ((a + k_open k) / NP) as [|[|q]] eqn:DV; try lia; nia.
    + assert (Y : exists f, calc_front k p = Some f) by (unfold calc_front; rewrite E; destruct (a <=? p); eauto). destruct Y as (f & Y). rewrite Y. intros [= <-]. left.
      unfold calc_get in *. cbn [k_anchor k_partial k_open k_closed]. rewrite E in *. destruct (Nat.eqb_spec a p); [easy|]. unfold calc_front in *. cbn [k_anchor k_pc]. rewrite E in *. rewrite Y.
      destruct (Nat.ltb_spec f (Nat.max (k_open k) (f + 1))); [reflexivity|lia].
  - intros [= <-]. left. unfold calc_get. cbn [k_anchor k_partial]. now rewrite Nat.eqb_refl.
Qed.
(** After the page behind a partial-open anchor was seen or made open there are two open places. *)
Lemma calc_open_two k p k' q : calc_sane k -> p < NP -> q < NP -> p <> q -> p = next_page g q -> k_anchor k = Some q -> k_partial k = true -> k_guess k = false -> calc_notice k p Open = Some k' ->
  k_anchor k' = Some q /\ k_partial k' = true /\ k_guess k' = false /\ 2 <= k_open k'.
Proof.
  intros (A & B) P Q N E AN PA GU. destruct (B q AN) as (_ & D & _).
  assert (FR : calc_front k p = Some 1).
  { unfold calc_front. rewrite AN, A. unfold next_page in E. destruct (Nat.eq_dec (q + 1) NP) as [X|X].
    - rewrite X, Nat.mod_same in E by lia. subst p. destruct (Nat.leb_spec q 0); f_equal; lia.
    - rewrite Nat.mod_small in E by lia. destruct (Nat.leb_spec q p); f_equal; lia. }
  assert (G : calc_get k p = if 1 <? k_open k then Some Open else if match calc_behind k p with Some b => b <=? k_closed k | None => false end then Some Closed else None).
  { unfold calc_get. rewrite AN, FR. destruct (Nat.eqb_spec q p); [lia|reflexivity]. }
  unfold calc_notice. rewrite G, AN, GU, FR. destruct (Nat.ltb_spec 1 (k_open k)) as [L|L].
  - intros [= <-]. auto.
  - destruct (match calc_behind k p with Some b => _ | None => _ end); intros [= <-]; cbn [k_anchor k_partial k_guess k_open]; repeat split; auto; lia.
Qed.

Lemma lookup_set {A} (l : list (option A)) i j x y : lookup (list_set l i x) j = Some y -> (i = j /\ x = Some y) \/ lookup l j = Some y.
Proof.
  unfold lookup. rewrite nth_error_list_set. destruct (Nat.eqb_spec j i) as [->|N]; cbn [andb]; auto. destruct (i <? length l); auto. destruct x; [|easy]. intros [= ->]. auto.
Qed.
Lemma pp_page_sane c p x : pp_sane c -> pp_sane (pp_page_state c p x).
Proof.
  destruct c as [|er wr]; auto. destruct x; auto. intros H q a Q. destruct (H q a Q) as (A & B). cbn.
  split; intros E; apply lookup_set in E; destruct E as [(_ & E)|E]; try easy; auto.
Qed.
Lemma lookup_none {A} (l : list (option A)) j : lookup (map (fun _ => None) l) j = @None A.
Proof. unfold lookup. rewrite nth_error_map. now destruct (nth_error l j). Qed.
Lemma inval_sane c : csane c -> csane (cache_inval c).
Proof.
  intros (A & B & C). unfold cache_inval. split; [|split]; cbn [c_ps c_pp c_kp].
  - destruct (c_ps c) as [|l|k]; auto; [cbn in *; now rewrite map_length|]. destruct A as (A & _). split; [exact A|]. easy.
  - destruct (c_pp c) as [|er wr]; auto. intros p a P. rewrite !lookup_none. easy.
  - destruct (c_kp c) as [|l]; auto. destruct C as (C & D). split; [now destruct l|]. intros k a H. apply in_map_iff in H. destruct H as (x & H & _). easy.
Qed.
Lemma dirty_sane c b : csane c -> csane (set_dirty c b). Proof. intros H. exact H. Qed.
Lemma safe_unmark (Q : unit -> st K -> Prop) s : sane s -> (forall c, csane c -> c_ps c = c_ps (s_ca s) -> Q tt (set_ca s c)) -> safe c_unmark Q s.
Proof. intros S H. split; [|rst]. unfold wp, c_unmark. split; [now apply sane_ca, dirty_sane, sane_c|]. apply H; [now apply dirty_sane, sane_c|reflexivity]. Qed.
Lemma safe_inval (Q : unit -> st K -> Prop) s : sane s -> (forall c, Q tt (set_ca s c)) -> safe c_inval Q s.
Proof. intros S H. split; [|rst]. unfold wp, c_inval. split; [now apply sane_ca, inval_sane, sane_c|]. apply H. Qed.
Lemma safe_check (Q : unit -> st K -> Prop) s : sane s -> (forall s', fr s s' -> Q tt s') -> safe c_check_dirty Q s.
Proof.
  intros S H. unfold c_check_dirty. eapply safe_eq; [reflexivity|rst|]. cbv beta iota. destruct (c_dirty (s_ca s)).
  - apply safe_inval; auto. intros c. apply H, fr_ca.
  - apply safe_ret; auto. apply H, fr_refl.
Qed.

(** Noticing a page state that the calculated cache accepts. *)
Definition accepts (c : pscache) p x : Prop := match c with PSCalc k => exists k', calc_notice k p x = Some k' /\ calc_sane k' | _ => True end.
Lemma notice_ok c p x : ps_sane c -> p < NP -> accepts c p x -> exists c', ps_notice c p x = Some c' /\ ps_sane c'.
Proof.
  intros S P A. destruct c as [|l|k]; cbn [ps_notice ps_sane accepts] in *.
  - exists PSNone. auto.
  - destruct (Nat.ltb_spec p (length l)); [|lia]. eexists. split; [reflexivity|]. cbn. now rewrite list_set_length.
  - destruct A as (k' & E & A). rewrite E. eexists. split; [reflexivity|exact A].
Qed.
Lemma safe_notice p x d (Q : unit -> st K -> Prop) s : sane s -> p < NP -> accepts (c_ps (s_ca s)) p x ->
  (forall c, csane c -> ps_notice (c_ps (s_ca s)) p x = Some (c_ps c) -> Q tt (set_ca s c)) -> safe (c_notice_ps p x d) Q s.
Proof.
  intros S P A H. destruct (notice_ok _ _ _ (proj1 (sane_c _ S)) P A) as (c' & E & C). split; [|intros m2 N; exists m2; unfold c_notice_ps; cbn [s_ca wm set_fl]; rewrite E; split; [reflexivity|exact N]]. unfold wp, c_notice_ps. rewrite E.
  match goal with |- sane (set_ca s ?c) /\ _ => assert (X : csane c) end.
  { split; [exact C|]. split; [|apply (sane_c _ S)]. apply pp_page_sane. apply (sane_c _ S). }
  split; [now apply sane_ca|]. apply H; auto.
Qed.

Lemma pstate_dec (x y : pstate) : {x = y} + {x <> y}. Proof. decide equality. Qed.

(** [get_page_state] on any memory. *)
Lemma page_state_eq p s : p < NP -> page_state g p s = (match mstate (f_mem (s_fl s)) p with Some x => Ok x | None => Err ECorrupted end, s).
Proof.
  intros P. unfold page_state, bind, fl_read, on_read, steady, dev_read. rewrite (chk_marker_lo g gok) by auto. rewrite (chk_marker_hi g gok) by auto. unfold mstate.
  destruct (marked _), (marked _); reflexivity.
Qed.

Lemma mstate_noise m m2 p : noise g m m2 -> p < NP -> mstate m2 p = mstate m p.
Proof.
  intros (_ & N) P. destruct (N p P) as (N1 & N2). specialize (N1 0 (Nat.le_0_l _)). specialize (N2 0 (Nat.le_0_l _)). rewrite Nat.add_0_r, Nat.sub_0_r in N1, N2. unfold mstate. now rewrite N1, N2.
Qed.
Lemma rok_page_state p s : p < NP -> rok g (page_state g p) s.
Proof. intros P m2 N. exists m2. rewrite !page_state_eq by auto. split; [|exact N]. cbn [s_fl wm set_fl f_mem fst snd]. now rewrite (mstate_noise _ _ p N P). Qed.
Lemma safe_ps {B} p (f : pstate -> M K B) Q s : sane s -> p < NP -> (forall x, mstate (f_mem (s_fl s)) p = Some x -> safe (f x) Q s) -> safe (bind (page_state g p) f) Q s.
Proof.
  intros S P H. pose proof (page_state_eq p s P) as E. pose proof (rok_page_state p s P) as R. destruct (mstate (f_mem (s_fl s)) p) as [x|]; [eapply safe_eq; eauto|eapply safe_err; eauto]. exact I.
Qed.
Lemma seen_firm s p : firm s p -> ps_get (c_ps (s_ca s)) p <> Some (Some Closed) /\ (ps_get (c_ps (s_ca s)) p = Some None -> mstate (f_mem (s_fl s)) p <> Some Closed).
Proof.
  intros (x & N & S). unfold seen in S. destruct (c_ps (s_ca s)) as [|l|k] eqn:E; cbn.
  - split; [easy|]. congruence.
  - rewrite S. split; congruence.
  - destruct x; [easy| |].
    + unfold anc in S. rewrite E in S. destruct S as (A & B & C & D). unfold calc_get. rewrite A, Nat.eqb_refl, B. split; easy.
    + destruct S as [S|(S & _ & T)]; [rewrite S; split; easy|]. rewrite S, T. split; easy.
Qed.

(** Closed pages read from flash do not change what is known about open ones. *)
Lemma firm_closed s c p q : csane (s_ca s) -> p < NP -> firm s q -> ps_get (c_ps (s_ca s)) p = Some None -> mstate (f_mem (s_fl s)) p = Some Closed ->
  ps_notice (c_ps (s_ca s)) p Closed = Some (c_ps c) -> firm (set_ca s c) q.
Proof.
  intros (CS & _) P F G MS N. destruct (Nat.eq_dec q p) as [->|NE]; [destruct (seen_firm _ _ F) as (_ & X); now apply X in G|].
  destruct F as (x & NX & S). exists x. split; auto. unfold seen, anc in *. cbn [s_ca set_ca s_fl]. destruct (c_ps (s_ca s)) as [|l|k] eqn:E; cbn [ps_notice] in N.
  - injection N as <-. exact S.
  - destruct (p <? length l); [|easy]. injection N as <-. rewrite nth_error_list_set. destruct (Nat.eqb_spec q p); [lia|exact S].
  - cbn in CS, G. injection G as G. destruct (calc_closed_obs k p CS P G) as (k' & E' & CS' & A & B & C & D & PC & GU). rewrite E' in N. injection N as <-.
    destruct x; [easy| |].
    + now rewrite A, B, C, D.
    + destruct S as [S|(S & T & U)]; [left|right; rewrite (GU T); auto].
      unfold calc_get, calc_front in *. rewrite A, B, D, PC. destruct (k_anchor k) as [a|] eqn:EA; [|unfold calc_behind in S; rewrite EA in S; easy]. destruct (a =? q); auto.
      destruct (match (if a <=? q then _ else _) with Some i => i <? k_open k | None => false end); auto. destruct (match calc_behind k q with Some b => _ | None => _ end); easy.
Qed.

Lemma safe_psc p s : sane s -> p < NP ->
  safe (page_state_c g p) (fun x s' => fr s s' /\ seen s' p x /\ (x = Closed -> forall q, firm s q -> firm s' q) /\ (firm s p -> x <> Closed) /\
     (x = Open -> forall q, q < NP -> p = next_page g q -> anc 1 s q -> anc 2 s' q) /\ (anc 2 s p -> anc 2 s' p)) s.
Proof.
  intros S P. pose proof (sane_c _ S) as CS. unfold page_state_c.
  assert (G : exists o, ps_get (c_ps (s_ca s)) p = Some o).
  { destruct (c_ps (s_ca s)) as [|l|k] eqn:E; cbn; eauto. destruct CS as (CS & _). rewrite E in CS. cbn in CS. destruct (nth_error l p) eqn:N; eauto. apply nth_error_None in N. lia. }
  destruct G as (o & G). eapply safe_eq; [unfold c_get_ps; rewrite G; reflexivity|intros m2 N; exists m2; unfold c_get_ps; cbn [s_ca wm set_fl]; rewrite G; split; [reflexivity|exact N]|]. cbv beta. destruct o as [x|].
  - apply safe_ret; auto. split; [apply fr_refl|]. split; [|split; [auto|split; [|split; [|auto]]]].
    + unfold seen, anc. destruct (c_ps (s_ca s)) as [|l|k] eqn:E; cbn in G; [easy|congruence|]. injection G as G. destruct x; auto.
      destruct CS as (CS & _). rewrite E in CS. destruct (calc_get_cases k p CS P ltac:(congruence)) as (a & E1 & E2 & E3). destruct CS as (_ & B). destruct (B a E1) as (_ & _ & B3).
      unfold calc_get in G. rewrite E1 in G. destruct (Nat.eqb_spec a p) as [X|X]; [subst a|]; [|destruct (match calc_front k p with Some i => _ | None => _ end); [easy|destruct (match calc_behind k p with Some i => _ | None => _ end); easy]].
      destruct (k_partial k); [|easy]. auto.
    + intros F. destruct (seen_firm _ _ F) as (F1 & _). congruence.
    + intros -> q Q EQ A. unfold anc in *. destruct (c_ps (s_ca s)) as [|l|k] eqn:E; auto. destruct A as (A & B & C & D). cbn in G. injection G as G.
      destruct CS as (CS & _). rewrite E in CS. assert (p <> q). { intros ->. unfold calc_get in G. now rewrite A, Nat.eqb_refl, B in G. }
      apply (calc_open_two k p k q); auto. unfold calc_notice. now rewrite G.
  - apply safe_ps; auto. intros x MS.
    change (safe (c_notice_ps p x false;;; ret x) (fun x s' => fr s s' /\ seen s' p x /\ (x = Closed -> forall q, firm s q -> firm s' q) /\ (firm s p -> x <> Closed) /\
     (x = Open -> forall q, q < NP -> p = next_page g q -> anc 1 s q -> anc 2 s' q) /\ (anc 2 s p -> anc 2 s' p)) s).
    assert (AC : accepts (c_ps (s_ca s)) p x).
    { destruct (c_ps (s_ca s)) as [|l|k] eqn:E; cbn; auto. cbn in G. injection G as G. destruct CS as (CS & _). rewrite E in CS. cbn in CS. destruct x.
      - destruct (calc_closed_obs k p CS P G) as (k' & ? & ? & _); eauto.
      - destruct (calc_partial k p CS P ltac:(congruence)) as (k' & ? & ? & _); eauto.
      - apply calc_open; auto. }
    eapply safe_bind; [apply (safe_notice p x false (fun _ s' => exists c, s' = set_ca s c /\ csane c /\ ps_notice (c_ps (s_ca s)) p x = Some (c_ps c))); eauto|].
    cbv beta. intros _ s1 S1 (c & -> & CC & N). apply safe_ret; auto. split; [apply fr_ca|]. split; [|split; [|split; [|split]]].
    + unfold seen, anc. cbn [s_ca set_ca s_fl]. destruct (c_ps (s_ca s)) as [|l|k] eqn:E; cbn [ps_notice] in N.
      * now injection N as <-.
      * destruct (Nat.ltb_spec p (length l)); [|easy]. injection N as <-. rewrite nth_error_list_set, Nat.eqb_refl. destruct (Nat.ltb_spec p (length l)); [reflexivity|lia].
      * cbn in G. injection G as G. destruct CS as (CS & _). rewrite E in CS. cbn in CS. destruct (calc_notice k p x) as [k'|] eqn:NK; [|easy]. injection N as <-. destruct x; auto.
        -- destruct (calc_partial k p CS P ltac:(congruence)) as (k2 & E2 & _ & ?). rewrite E2 in NK. injection NK as <-. auto.
        -- destruct (calc_open_obs k p k' CS P G NK) as [X|(X & Y)]; auto.
    + intros -> q F. apply (firm_closed s c p q); auto.
    + intros F. destruct (seen_firm _ _ F) as (_ & F2). specialize (F2 G). congruence.
    + intros -> q Q EQ A. unfold anc in *. cbn [s_ca set_ca]. destruct (c_ps (s_ca s)) as [|l|k] eqn:E; cbn [ps_notice] in N.
      * injection N as <-. auto.
      * destruct (p <? length l); [|easy]. injection N as <-. auto.
      * cbn in G. injection G as G. destruct CS as (CS & _). rewrite E in CS. cbn in CS. destruct (calc_notice k p Open) as [k'|] eqn:NK; [|easy]. injection N as <-.
        destruct A as (A & B & C & D). assert (p <> q). { intros ->. unfold calc_get in G. now rewrite A, Nat.eqb_refl, B in G. }
        apply (calc_open_two k p k' q); auto.
    + unfold anc in *. cbn [s_ca set_ca]. destruct (c_ps (s_ca s)) as [|l|k] eqn:E; cbn [ps_notice] in N.
      * injection N as <-. auto.
      * destruct (p <? length l); [|easy]. injection N as <-. auto.
      * intros (A & B & _). cbn in G. injection G as G. unfold calc_get in G. now rewrite A, Nat.eqb_refl, B in G.
Qed.

(** * Page operations *)
Definition fm s s' : Prop := s_buf s' = s_buf s /\ s_qi s' = s_qi s /\ s_mi s' = s_mi s.
Lemma fm_trans s1 s2 s3 : fm s1 s2 -> fm s2 s3 -> fm s1 s3. Proof. intros (B & C & D) (B' & C' & D'). repeat split; congruence. Qed.
Lemma fr_fm s s' : fr s s' -> fm s s'. Proof. intros (_ & H). exact H. Qed.

Lemma next_lt p : next_page g p < NP. Proof. apply (next_page_lt g gok). Qed.

Lemma safe_open p s : sane s -> p < NP -> safe (open_page g p) (fun _ s' => fm s s' /\ (forall q, q < NP -> p = next_page g q -> p <> q -> anc 1 s q -> anc 2 s' q)) s.
Proof.
  intros S P. pose proof (sane_c _ S) as (CS & _). unfold open_page.
  eapply safe_bind; [apply (safe_notice p Open true (fun _ s' => exists c, s' = set_ca s c /\ ps_notice (c_ps (s_ca s)) p Open = Some (c_ps c))); eauto|].
  { destruct (c_ps (s_ca s)); cbn; auto. now apply calc_open. }
  cbv beta. intros _ s1 S1 (c & -> & N). apply safe_erase; auto. intros s' S' B CA Q MI. split; [split; [exact B|]; split; [exact Q|exact MI]|].
  intros q Hq E NE A. unfold anc in *. rewrite CA. cbn [s_ca set_ca]. destruct (c_ps (s_ca s)) as [|l|k] eqn:EP; cbn [ps_notice] in N.
  - injection N as <-. auto.
  - destruct (p <? length l); [|easy]. injection N as <-. auto.
  - destruct (calc_notice k p Open) as [k'|] eqn:NK; [|easy]. injection N as <-. destruct A as (A & B' & C & D). eapply (calc_open_two k p k' q); eauto.
Qed.

Lemma zeros_len n : length (repeat 0%N n) = n. Proof. apply repeat_length. Qed.
Lemma marker_fit p : p < NP -> START g <= paddr g p /\ paddr g p + W <= FEND g /\ START g <= pend g p - W /\ pend g p - W + W <= FEND g.
Proof. intros P. pose proof (pend_FEND g p P). pose proof (pend_eq g p). pose proof (START_paddr g p). pose proof (ES_big g gok). lia. Qed.

Lemma safe_partial p s : sane s -> p < NP -> safe (partial_close g p) (fun x s' => fm s s' /\ (x = PartialOpen -> anc 1 s' p) /\ (anc 2 s p -> anc 2 s' p)) s.
Proof.
  intros S P. unfold partial_close. eapply safe_bind; [apply (safe_psc p s S P)|]. cbv beta. intros x s1 S1 (FR & SE & _ & _ & _ & A2). destruct x; cbn [pstate_eqb negb].
  - apply safe_ret; auto. split; [now apply fr_fm|]. split; [easy|auto].
  - apply safe_ret; auto. split; [now apply fr_fm|]. split; [|auto]. intros _. unfold seen, anc in *. destruct (c_ps (s_ca s1)); auto.
  - pose proof (sane_c _ S1) as (CS & _).
    eapply safe_bind; [apply (safe_notice p PartialOpen true (fun _ s' => exists c, s' = set_ca s1 c /\ ps_notice (c_ps (s_ca s1)) p PartialOpen = Some (c_ps c))); eauto|].
    { unfold seen in SE. destruct (c_ps (s_ca s1)) as [| |k] eqn:E; cbn; auto. destruct (calc_partial k p CS P) as (k' & ? & ? & _); [|eauto]. destruct SE as [SE|(SE & _)]; congruence. }
    cbv beta. intros _ s2 S2 (c & -> & N). destruct (marker_fit p P) as (M1 & M2 & _).
    eapply safe_bind; [apply (safe_write (paddr g p) (repeat 0%N W) (fun _ s' => fm s s' /\ anc 1 s' p /\ (anc 2 s p -> anc 2 s' p)) (set_ca s1 c)); rewrite ?zeros_len; auto with al; try (pose proof (W_pos g gok); lia)|].
    2: { cbv beta. intros _ s3 S3 (A & B & C). apply safe_ret; auto. }
    intros s3 S3 B CA Q MI _. split; [destruct FR as (_ & F1 & F2 & F3); repeat split; [rewrite B|rewrite Q|rewrite MI]; assumption|].
    unfold anc in *. rewrite CA. cbn [s_ca set_ca]. unfold seen in SE. destruct (c_ps (s_ca s1)) as [|l|k] eqn:EP; cbn [ps_notice] in N.
    + injection N as <-. auto.
    + destruct (p <? length l); [|easy]. injection N as <-. auto.
    + destruct (calc_partial k p CS P) as (k' & NK & _ & K1 & K2 & K3 & K4); [destruct SE as [SE|(SE & _)]; congruence|]. rewrite NK in N. injection N as <-. split; [auto|].
      intros A. specialize (A2 A). destruct A2 as (A21 & A22 & _). exfalso. unfold calc_get in SE. rewrite A21, Nat.eqb_refl, A22 in SE. destruct SE as [SE|(SE & _)]; easy.
Qed.
Lemma safe_close p s : sane s -> p < NP -> anc 2 s p -> safe (close_page g p) (fun _ s' => fm s s') s.
Proof.
  intros S P A. unfold close_page. eapply safe_bind; [apply (safe_partial p s S P)|]. cbv beta. intros x s1 S1 (FR & A1 & A2). specialize (A2 A).
  destruct x; cbn [pstate_eqb negb]; try (apply safe_ret; auto; fail). pose proof (sane_c _ S1) as (CS & _).
  eapply safe_bind; [apply (safe_notice p Closed true (fun _ s' => exists c, s' = set_ca s1 c)); eauto|].
  { unfold anc in A2. destruct (c_ps (s_ca s1)) as [| |k] eqn:E; cbn; auto. destruct A2 as (B1 & B2 & B3 & B4). now apply calc_close. }
  cbv beta. intros _ s2 S2 (c & ->). destruct (marker_fit p P) as (_ & _ & M1 & M2).
  apply safe_write; rewrite ?zeros_len; auto with al; try (pose proof (W_pos g gok); lia). intros s3 S3 B CA Q MI _.
  destruct FR as (F1 & F2 & F3). repeat split; [rewrite B|rewrite Q|rewrite MI]; assumption.
Qed.

Lemma safe_find_in x : forall l s, sane s -> Forall (fun p => p < NP) l -> safe (find_first_in g l x) (fun r s' => fr s s' /\ match r with Some p => p < NP /\ seen s' p x | None => True end) s.
Proof.
  induction l as [|p l IH]; intros s S F; cbn [find_first_in]; [apply safe_ret; auto; split; [apply fr_refl|auto]|]. inversion F as [|? ? P F']; subst.
  eapply safe_bind; [apply (safe_psc p s S P)|]. cbv beta. intros y s1 S1 (FR & SE & _). destruct (pstate_eqb x y) eqn:E.
  - apply safe_ret; auto. split; auto. split; auto. now destruct x, y.
  - eapply safe_mono; [apply (IH s1 S1 F')|]. cbv beta. intros r s2 S2 (FR2 & H). split; [eapply fr_trans; eauto|auto].
Qed.
Lemma safe_find start x s : sane s -> safe (find_first g start x) (fun r s' => fr s s' /\ match r with Some p => p < NP /\ seen s' p x | None => True end) s.
Proof. intros S. apply safe_find_in; auto. apply get_pages_lt. exact gok. Qed.
Lemma seen_anc s p : seen s p PartialOpen -> anc 1 s p.
Proof. unfold seen, anc. now destruct (c_ps (s_ca s)). Qed.

Lemma safe_findl_in x : forall l o s, sane s -> Forall (fun p => p < NP) l -> (forall p, o = Some p -> p < NP) -> safe (find_last_in g l x o) (fun r s' => fr s s' /\ forall p, r = Some p -> p < NP) s.
Proof.
  induction l as [|p l IH]; intros o s S F O; cbn [find_last_in]; [apply safe_ret; auto; split; [apply fr_refl|auto]|]. inversion F as [|? ? P F']; subst.
  eapply safe_bind; [apply (safe_psc p s S P)|]. cbv beta. intros y s1 S1 (FR & SE & _).
  assert (X : forall o', (forall p, o' = Some p -> p < NP) -> safe (find_last_in g l x o') (fun r s' => fr s s' /\ forall p, r = Some p -> p < NP) s1).
  { intros o' O'. eapply safe_mono; [apply (IH o' s1 S1 F' O')|]. cbv beta. intros r s2 S2 (FR2 & H). split; [eapply fr_trans; eauto|auto]. }
  destruct (pstate_eqb x y); [apply X; now intros ? [= <-]|]. destruct o; [apply safe_ret; auto|apply X; easy].
Qed.
Lemma safe_findl start x s : sane s -> safe (find_last g start x) (fun r s' => fr s s' /\ forall p, r = Some p -> p < NP) s.
Proof. intros S. apply safe_findl_in; auto; [apply get_pages_lt; exact gok|easy]. Qed.

Lemma safe_repair_in : forall l s, sane s -> Forall (fun p => p < NP) l -> safe (general_repair_in g l) (fun _ s' => fm s s') s.
Proof.
  induction l as [|p l IH]; intros s S F; cbn [general_repair_in]; [apply safe_ret; auto; repeat split|]. inversion F as [|? ? P F']; subst.
  eapply safe_eq; [unfold attempt; cbn [on_result steady]; unfold hand_on; rewrite (page_state_eq p s P); reflexivity|now apply rok_attempt1, rok_page_state|]. cbv beta iota.
  assert (X : safe (match (match mstate (f_mem (s_fl s)) p with Some x => Ok x | None => Err ECorrupted end) with Err ECorrupted => open_page g p | _ => ret tt end) (fun _ s' => fm s s') s).
  { destruct (mstate _ p); [apply safe_ret; auto; repeat split|]. eapply safe_mono; [apply (safe_open p s S P)|]. cbv beta. tauto. }
  eapply safe_bind; [exact X|]. cbv beta. intros _ s1 S1 FM. eapply safe_mono; [apply (IH s1 S1 F')|]. cbv beta. intros _ s2 _ FM2. eapply fm_trans; eauto.
Qed.
Lemma safe_general s : sane s -> safe (general_repair g) (fun _ s' => fm s s') s.
Proof. intros S. apply safe_repair_in; auto. apply get_pages_lt. exact gok. Qed.

(** * Items *)
Lemma pp_er s p a : sane s -> p < NP -> pp_erased (c_pp (s_ca s)) p = Some a -> inp p a.
Proof. intros S P H. pose proof (sane_c _ S) as (_ & PP & _). destruct (c_pp (s_ca s)) as [|er wr]; [easy|]. destruct (PP p a P) as (X & _). auto. Qed.
Lemma pp_wr s p a : sane s -> p < NP -> pp_written (c_pp (s_ca s)) p = Some a -> inp p a.
Proof. intros S P H. pose proof (sane_c _ S) as (_ & PP & _). destruct (c_pp (s_ca s)) as [|er wr]; [easy|]. destruct (PP p a P) as (_ & X). auto. Qed.

Lemma safe_empty p x s : sane s -> p < NP -> safe (is_page_empty g p x) (fun _ s' => s' = s) s.
Proof.
  intros S P. destruct x; cbn [is_page_empty]; try (apply safe_ret; auto; fail). eapply safe_eq; [reflexivity|rst|]. cbv beta zeta.
  set (from := match pp_erased (c_pp (s_ca s)) p with Some x => x | None => dstart p end).
  assert (I : inp p from) by (unfold from; destruct (pp_erased _ p) eqn:E; [now apply (pp_er s)|apply inp_dstart]).
  destruct (trav_page is_erased_hdr p from s P I) as (oh & fa & nx & E & _). eapply safe_eq; [exact E|now apply rok_trav|]. apply safe_ret; auto.
Qed.

Lemma inp_max p a b : inp p a -> inp p b -> inp p (Nat.max a b).
Proof. intros A B. destruct (Nat.max_spec a b) as [[_ ->]|[_ ->]]; auto. Qed.
Lemma safe_free p dl s : sane s -> p < NP -> safe (find_free g (dstart p) (dend p) dl) (fun r s' => s' = s /\ match r with Some a => inp p a /\ a + HL + rup dl <= dend p | None => True end) s.
Proof.
  intros S P. unfold find_free. rewrite (inp_pindex p (dstart p) (inp_dstart p)). eapply safe_eq; [reflexivity|rst|]. cbv beta.
  assert (X : exists fa, inp p fa /\ (match pp_written (c_pp (s_ca s)) p with Some a => ret a | None => ae <- c_after_erased p ;;
      let from := Nat.max (match ae with Some x => x | None => 0 end) (dstart p) in t <- traverse g (tfuel from (dend p)) (fun _ => true) from (dend p) ;; ret (snd (fst t)) end) s = (Ok fa, s) /\ rok g (match pp_written (c_pp (s_ca s)) p with Some a => ret a | None => ae <- c_after_erased p ;;
      let from := Nat.max (match ae with Some x => x | None => 0 end) (dstart p) in t <- traverse g (tfuel from (dend p)) (fun _ => true) from (dend p) ;; ret (snd (fst t)) end) s).
  { destruct (pp_written _ p) as [a|] eqn:E; [exists a; split; [now apply (pp_wr s)|split; [reflexivity|apply rok_ret]]|].
    set (from := Nat.max (match pp_erased (c_pp (s_ca s)) p with Some x => x | None => 0 end) (dstart p)).
    assert (I : inp p from). { unfold from. destruct (pp_erased _ p) eqn:E2; [apply inp_max; [now apply (pp_er s)|apply inp_dstart]|apply inp_dstart]. }
    destruct (trav_page (fun _ => true) p from s P I) as (oh & fa & nx & E2 & I2 & _). exists fa. split; auto. split.
    - unfold bind at 1, c_after_erased. cbv beta iota zeta. fold from. unfold bind. now rewrite E2.
    - apply rok_bind; [rst|]. unfold c_after_erased. intros ae s' [= <- <-]. cbv zeta. fold from. apply rok_bind; [now apply rok_trav|]. intros; apply rok_ret. }
  destruct X as (fa & I & E & RO). eapply safe_eq; [exact E|exact RO|]. cbv beta. destruct I as (A & B & C). destruct (Nat.ltb_spec (dend p) fa); [lia|].
  rewrite (avail_eq g gok) by (auto with al). destruct (Nat.leb_spec HL (dend p - fa)); [|apply safe_ret; auto].
  apply safe_ret; auto. split; auto. destruct (Nat.leb_spec dl (dend p - fa - HL)) as [L|L]; auto. split; [split; auto|].
  pose proof (rup_min g gok dl (dend p - fa - HL) ltac:(auto with al) L). lia.
Qed.

Lemma erased_sane s p a nx : sane s -> p < NP -> inp p a -> inp p nx -> csane (mkcache true (c_ps (s_ca s)) (pp_item_erased g (c_pp (s_ca s)) a nx) (c_kp (s_ca s))).
Proof.
  intros S P I I2. pose proof (sane_c _ S) as (A & B & C). split; [exact A|]. split; [|exact C]. cbn [c_pp]. destruct (c_pp (s_ca s)) as [|er wr]; auto. cbn [pp_item_erased].
  destruct (a =? _); auto. rewrite (inp_pindex p a I). intros q b Q. destruct (B q b Q) as (B1 & B2). split; auto. intros L. apply lookup_set in L. destruct L as [(-> & L)|L]; auto.
  unfold nonzero in L. destruct (nx =? 0); [easy|]. now injection L as <-.
Qed.
Lemma written_sane s p a nx : sane s -> p < NP -> inp p a -> inp p nx -> csane (mkcache true (c_ps (s_ca s)) (pp_item_written g (c_pp (s_ca s)) a nx) (c_kp (s_ca s))).
Proof.
  intros S P I I2. pose proof (sane_c _ S) as (A & B & C). split; [exact A|]. split; [|exact C]. cbn [c_pp]. destruct (c_pp (s_ca s)) as [|er wr]; auto. cbn [pp_item_written].
  rewrite (inp_pindex p a I). assert (X : pp_sane (PPArray er (list_set wr p (nonzero nx)))).
  { intros q b Q. destruct (B q b Q) as (B1 & B2). split; auto. intros L. apply lookup_set in L. destruct L as [(-> & L)|L]; auto.
    unfold nonzero in L. destruct (nx =? 0); [easy|]. now injection L as <-. }
  destruct (lookup wr p); auto. destruct (nx <=? n); auto.
Qed.
Lemma inp_fit p a n : p < NP -> inp p a -> a + n <= dend p -> START g <= a /\ a + n <= FEND g.
Proof. intros P I H. pose proof (inp_START _ _ I). pose proof (dend_FEND p P). lia. Qed.
Lemma safe_erase_data p h a s : sane s -> p < NP -> inp p a -> inp p (next_addr g a h) -> safe (erase_data g h a) (fun _ s' => fm s s' /\ (forall x, x < a \/ a + HL <= x -> f_mem (s_fl s') x = f_mem (s_fl s) x)) s.
Proof.
  intros S P I I2. unfold erase_data. eapply safe_eq; [reflexivity|rst|]. cbv beta. assert (X := erased_sane s p a _ S P I I2). unfold hdr_write.
  assert (a + HL <= dend p) by (destruct I2; unfold next_addr in *; lia). destruct (inp_fit p a HL P I H).
  apply safe_write; rewrite ?(hdr_bytes_length g); auto; try (now apply sane_ca); [apply I|auto with al|pose proof (HL_ge g); lia|apply (mw_data p); rewrite ?(hdr_bytes_length g); auto|].
  intros s' S' B C Q MI M. split; [split; [exact B|split; [exact Q|exact MI]]|exact M].
Qed.
Lemma safe_write_raw p h data a s : sane s -> p < NP -> inp p a -> inp p (next_addr g a h) -> length data = h_len h ->
  safe (write_raw g h data a) (fun _ s' => fm s s' /\ (forall x, x < a \/ next_addr g a h <= x -> f_mem (s_fl s') x = f_mem (s_fl s) x)) s.
Proof.
  intros S P I I2 L. unfold write_raw. eapply safe_eq; [reflexivity|rst|]. cbv beta. assert (X := written_sane s p a _ S P I I2). unfold hdr_write.
  assert (LE : a + HL + rup (h_len h) <= dend p) by (destruct I2; unfold next_addr in *; lia). assert (H : a + HL <= dend p) by lia. destruct (inp_fit p a HL P I H) as (F1 & F2).
  destruct (inp_fit p a (HL + rup (h_len h)) P I ltac:(lia)) as (_ & F3). pose proof (HL_ge g). pose proof (rup_split g gok (h_len h)) as RS. pose proof (rdown_le g gok (h_len h)) as RD. pose proof (rdown_gt g gok (h_len h)) as RG.
  set (nb := rdown g (length data)). assert (NB : nb = rdown g (h_len h)) by (unfold nb; now rewrite L).
  assert (LB : length (firstn nb data) = nb) by (rewrite firstn_length; lia). assert (LS : length (skipn nb data) = h_len h - nb) by (rewrite skipn_length; lia).
  eapply safe_bind; [apply (safe_write a (hdr_bytes g h) (fun _ s' => fm s s' /\ (forall x, x < a \/ next_addr g a h <= x -> f_mem (s_fl s') x = f_mem (s_fl s) x))); rewrite ?(hdr_bytes_length g); auto; try (now apply sane_ca); [apply I|auto with al|lia|apply (mw_data p); rewrite ?(hdr_bytes_length g); auto|]|].
  { intros s' S' B C Q MI M. split; [split; [exact B|split; [exact Q|exact MI]]|]. unfold next_addr. intros x Hx. apply M. lia. }
  cbv beta zeta. intros _ s1 S1 (FM1 & M1). destruct (Nat.ltb_spec (length data) nb); [lia|].
  eapply (safe_bind _ _ (fun _ s' => fm s s' /\ (forall x, x < a \/ next_addr g a h <= x -> f_mem (s_fl s') x = f_mem (s_fl s) x))).
  { rewrite LB. destruct (Nat.eqb_spec nb 0); [apply safe_ret; auto|]. assert (al g nb) by (unfold nb; auto with al).
    apply safe_write; rewrite ?LB; auto; try lia; [destruct I; auto with al|right; exists p; rewrite LB; destruct I; repeat split; auto; lia|]. intros s' S' B C Q MI M. split; [eapply fm_trans; [exact FM1|]; repeat split; auto|].
    unfold next_addr in *. intros x Hx. rewrite M by lia. auto. }
  cbv beta. intros _ s2 S2 (FM2 & M2). destruct (Nat.eqb_spec (length (skipn nb data)) 0); [apply safe_ret; auto|].
  assert (RL : rup (length (skipn nb data)) <= W). { apply (rup_min g gok); [auto with al|lia]. } pose proof (rup_ge g gok (length (skipn nb data))) as RGE.
  assert (W32 : W <= 32) by apply gok. destruct (Nat.ltb_spec 32 (rup (length (skipn nb data)))); [lia|].
  assert (LL : length (skipn nb data ++ repeat 0%N (rup (length (skipn nb data)) - length (skipn nb data))) = rup (length (skipn nb data))) by (rewrite app_length, repeat_length; lia).
  rewrite LB. assert (al g nb) by (unfold nb; auto with al). assert (RE : nb + rup (length (skipn nb data)) = rup (h_len h)) by (rewrite LS, NB; lia).
  apply safe_write; rewrite ?LL; auto with al; try lia; [destruct I; auto with al|right; exists p; rewrite LL; destruct I; repeat split; auto; lia|]. intros s' S' B C Q MI M. split; [eapply fm_trans; [exact FM2|]; repeat split; auto|].
  unfold next_addr in *. intros x Hx. rewrite M by lia. auto.
Qed.

(** * Scans that find no partial-open page *)
Lemma safe_and {A} (c : M K A) (P Q : A -> st K -> Prop) s : safe c P s -> safe c Q s -> safe c (fun a s' => P a s' /\ Q a s') s.
Proof. unfold safe, wp. destruct (c s) as [[a|e] s']; tauto. Qed.
Definition blind (k : calc) : Prop := k_guess k = true \/ k_anchor k = None.
Definition nonpart s p : Prop :=
  match c_ps (s_ca s) with
  | PSNone => mstate (f_mem (s_fl s)) p <> Some PartialOpen
  | PSArray l => exists x, nth_error l p = Some (Some x) /\ x <> PartialOpen
  | PSCalc k => calc_get k p = Some Open \/ calc_get k p = Some Closed \/ (calc_get k p = None /\ blind k /\ mstate (f_mem (s_fl s)) p <> Some PartialOpen)
  end.
Lemma calc_open_obs2 k p k' q : calc_sane k -> p < NP -> q < NP -> calc_get k p = None -> calc_notice k p Open = Some k' ->
  (calc_get k q = Some Open -> calc_get k' q = Some Open) /\ (calc_get k q = Some Closed -> calc_get k' q = Some Open \/ calc_get k' q = Some Closed) /\
  (calc_get k q = None -> blind k -> k_guess k' = true /\ (calc_get k' q = None \/ calc_get k' q = Some Open)) /\
  (k_anchor k = Some q -> k_anchor k' = Some q /\ k_partial k' = k_partial k /\ k_guess k' = k_guess k /\ k_open k <= k_open k').
Proof.
  intros (A & B) P Q N NK. destruct (k_anchor k) as [a|] eqn:E.
  - assert (X : exists o', k_open k <= o' /\ k' = mkcalc (k_pc k) (k_anchor k) (k_partial k) (k_guess k) (k_closed k) o').
    { assert (Z : k = mkcalc (k_pc k) (k_anchor k) (k_partial k) (k_guess k) (k_closed k) (k_open k)) by now destruct k.
      unfold calc_notice in NK. rewrite N, E in NK. rewrite E in Z. rewrite E. destruct (k_guess k).
      - destruct (p =? _); injection NK as <-; [exists (k_open k + 1)|exists (k_open k)]; split; auto; lia.
      - destruct (calc_front k p) as [f|]; injection NK as <-; [exists (Nat.max (k_open k) (f + 1))|exists (k_open k)]; split; auto; lia. }
    clear NK. destruct X as (o' & L & ->). unfold blind. rewrite E. unfold calc_get, calc_front, calc_behind. cbn [k_pc k_anchor k_partial k_guess k_closed k_open]. rewrite !E.
    assert (Y : forall b o, (match (if a <=? q then Some (q - a) else Some (k_pc k - a + q)) with Some i => i <? o | None => b end) = ((if a <=? q then q - a else k_pc k - a + q) <? o)) by (intros; destruct (a <=? q); reflexivity).
    assert (Z : forall b o, (match (if q <=? a then Some (a - q) else Some (a + 1 + k_pc k - q)) with Some i => i <=? o | None => b end) = ((if q <=? a then a - q else a + 1 + k_pc k - q) <=? o)) by (intros; destruct (q <=? a); reflexivity).
    rewrite !Y, !Z. set (fq := if a <=? q then _ else _). set (bq := if q <=? a then _ else _). split; [|split; [|split]].
    + destruct (a =? q); auto. destruct (Nat.ltb_spec fq (k_open k)); [|destruct (bq <=? k_closed k); easy]. destruct (Nat.ltb_spec fq o'); [auto|lia].
    + destruct (a =? q); auto. destruct (Nat.ltb_spec fq (k_open k)); [easy|]. destruct (bq <=? k_closed k); [|easy]. destruct (fq <? o'); auto.
    + intros H [G|G]; [|easy]. split; auto. destruct (a =? q); [easy|]. destruct (Nat.ltb_spec fq (k_open k)); [easy|]. destruct (bq <=? k_closed k); [easy|]. destruct (fq <? o'); auto.
    + auto.
  - unfold calc_notice in NK. rewrite N, E in NK. injection NK as <-. split; [|split; [|split]].
    + unfold calc_get, calc_front, calc_behind. rewrite E. easy.
    + unfold calc_get, calc_front, calc_behind. rewrite E. easy.
    + intros _ _. split; auto. unfold calc_get, calc_front, calc_behind. cbn [k_pc k_anchor k_partial k_guess k_closed k_open].
      destruct (Nat.eqb_spec p q); auto. replace (match (if p <=? q then Some (q - p) else Some (k_pc k - p + q)) with Some i => i <? 1 | None => false end) with false.
      2: { rewrite A. destruct (Nat.leb_spec p q); symmetry; apply Nat.ltb_ge; lia. }
      replace (match (if q <=? p then Some (p - q) else Some (p + 1 + k_pc k - q)) with Some i => i <=? 0 | None => false end) with false; auto.
      rewrite A. destruct (Nat.leb_spec q p); symmetry; apply Nat.leb_gt; lia.
    + easy.
Qed.
Lemma calc_closed_get k p k' q : calc_sane k -> p < NP -> calc_get k p = None -> calc_notice k p Closed = Some k' ->
  (calc_get k q = Some Open -> calc_get k' q = Some Open) /\ (calc_get k q = Some Closed -> calc_get k' q = Some Closed) /\
  (calc_get k q = None -> blind k -> blind k' /\ calc_get k' q = None) /\ (calc_get k' p = Some Closed \/ (k' = k /\ blind k)).
Proof.
  intros S P N NK. unfold calc_notice in NK. rewrite N in NK. unfold blind. destruct (k_guess k) eqn:G; [injection NK as <-; auto 10|].
  destruct (k_anchor k) as [a|] eqn:E; [|unfold calc_behind in NK; rewrite E in NK; injection NK as <-; auto 10].
  assert (Z : forall q c o, (match (if q <=? a then Some (a - q) else Some (a + 1 + k_pc k - q)) with Some i => i <=? o | None => c end) = ((if q <=? a then a - q else a + 1 + k_pc k - q) <=? o)) by (intros q' c o; destruct (q' <=? a); reflexivity).
  assert (BP : calc_behind k p = Some (if p <=? a then a - p else a + 1 + k_pc k - p)) by (unfold calc_behind; rewrite E; destruct (p <=? a); reflexivity).
  rewrite BP in NK. injection NK as <-. unfold calc_get, calc_front, calc_behind in *. cbn [k_pc k_anchor k_partial k_guess k_closed k_open]. rewrite E in *.
  rewrite !Z in *. split; [|split; [|split]].
  - destruct (a =? q); [auto|]. destruct (match (if a <=? q then _ else _) with Some i => i <? k_open k | None => false end); [auto|]. destruct ((if q <=? a then a - q else a + 1 + k_pc k - q) <=? k_closed k); intros; discriminate.
  - destruct (a =? q); [auto|]. destruct (match (if a <=? q then _ else _) with Some i => i <? k_open k | None => false end); [auto|].
    destruct (Nat.leb_spec (if q <=? a then a - q else a + 1 + k_pc k - q) (k_closed k)); [|easy]. intros _. match goal with |- (if ?c then _ else _) = _ => destruct c eqn:X; auto; apply Nat.leb_gt in X; lia end.
  - intros _ [X|X]; easy.
  - left. destruct (a =? p); [easy|]. destruct (match (if a <=? p then _ else _) with Some i => i <? k_open k | None => false end); [easy|].
    match goal with |- (if ?c then _ else _) = _ => destruct c eqn:X; auto; apply Nat.leb_gt in X; lia end.
Qed.
Lemma safe_psc2 p s : sane s -> p < NP ->
  safe (page_state_c g p) (fun x s' => (x <> PartialOpen -> nonpart s' p /\ forall q, q < NP -> nonpart s q -> nonpart s' q) /\ (nonpart s p -> x <> PartialOpen) /\
     (x = Open -> forall q, q < NP -> firm s q -> firm s' q)) s.
Proof.
  intros S P. pose proof (sane_c _ S) as CS. unfold page_state_c.
  assert (G : exists o, ps_get (c_ps (s_ca s)) p = Some o).
  { destruct (c_ps (s_ca s)) as [|l|k] eqn:E; cbn; eauto. destruct CS as (CS & _). rewrite E in CS. cbn in CS. destruct (nth_error l p) eqn:N; eauto. apply nth_error_None in N. lia. }
  destruct G as (o & G). eapply safe_eq; [unfold c_get_ps; rewrite G; reflexivity|intros m2 N; exists m2; unfold c_get_ps; cbn [s_ca wm set_fl]; rewrite G; split; [reflexivity|exact N]|]. cbv beta. destruct o as [x|].
  - apply safe_ret; auto. split; [|split; [|auto]].
    + intros NX. split; [|auto]. unfold nonpart. destruct (c_ps (s_ca s)) as [|l|k] eqn:E; cbn in G; [easy|eauto|]. injection G as G. destruct x; auto. easy.
    + unfold nonpart. destruct (c_ps (s_ca s)) as [|l|k] eqn:E; cbn in G; [easy| |].
      * intros (y & E1 & E2). congruence.
      * injection G as G. rewrite G. intros [X|[X|(X & _)]]; congruence.
  - apply safe_ps; auto. intros x MS.
    change (safe (c_notice_ps p x false;;; ret x) (fun x s' => (x <> PartialOpen -> nonpart s' p /\ forall q, q < NP -> nonpart s q -> nonpart s' q) /\ (nonpart s p -> x <> PartialOpen) /\
     (x = Open -> forall q, q < NP -> firm s q -> firm s' q)) s).
    assert (AC : accepts (c_ps (s_ca s)) p x).
    { destruct (c_ps (s_ca s)) as [|l|k] eqn:E; cbn; auto. cbn in G. injection G as G. destruct CS as (CS & _). rewrite E in CS. cbn in CS. destruct x.
      - destruct (calc_closed_obs k p CS P G) as (k' & ? & ? & _); eauto.
      - destruct (calc_partial k p CS P ltac:(congruence)) as (k' & ? & ? & _); eauto.
      - apply calc_open; auto. }
    eapply safe_bind; [apply (safe_notice p x false (fun _ s' => exists c, s' = set_ca s c /\ csane c /\ ps_notice (c_ps (s_ca s)) p x = Some (c_ps c))); eauto|].
    cbv beta. intros _ s1 S1 (c & -> & CC & N). apply safe_ret; auto. split; [|split].
    + intros NX. assert (KEEP : forall q, q < NP -> nonpart s q -> nonpart (set_ca s c) q).
      { intros q Q. unfold nonpart. cbn [s_ca set_ca s_fl]. destruct (c_ps (s_ca s)) as [|l|k] eqn:E; cbn [ps_notice] in N.
        * now injection N as <-.
        * destruct (Nat.ltb_spec p (length l)); [|easy]. injection N as <-. intros (y & Y1 & Y2). rewrite nth_error_list_set. destruct ((q =? p) && (p <? length l)); eauto.
        * cbn in G. injection G as G. destruct CS as (CS & _). rewrite E in CS. cbn in CS. destruct (calc_notice k p x) as [k'|] eqn:NK; [|easy]. injection N as <-. destruct x; [| easy|].
          -- destruct (calc_closed_get k p k' q CS P G NK) as (X1 & X2 & X3 & _). intros [Y|[Y|(Y1 & Y2 & Y3)]]; auto. destruct (X3 Y1 Y2). auto.
          -- destruct (calc_open_obs2 k p k' q CS P Q G NK) as (X1 & X2 & X3 & _). intros [Y|[Y|(Y1 & Y2 & Y3)]]; auto; [destruct (X2 Y); auto|]. destruct (X3 Y1 Y2) as (Z1 & [Z2|Z2]); auto. right. right. split; auto. split; [now left|auto]. }
      split; [|exact KEEP]. unfold nonpart. cbn [s_ca set_ca s_fl]. destruct (c_ps (s_ca s)) as [|l|k] eqn:E; cbn [ps_notice] in N.
      * injection N as <-. congruence.
      * destruct (Nat.ltb_spec p (length l)) as [L|L]; [|easy]. injection N as <-. rewrite nth_error_list_set, Nat.eqb_refl. destruct (Nat.ltb_spec p (length l)); [cbn; eauto|lia].
      * cbn in G. injection G as G. destruct CS as (CS & _). rewrite E in CS. cbn in CS. destruct (calc_notice k p x) as [k'|] eqn:NK; [|easy]. injection N as <-. destruct x; [| easy|].
        -- destruct (calc_closed_get k p k' p CS P G NK) as (_ & _ & _ & [X|(-> & X)]); auto. right. right. rewrite MS. easy.
        -- destruct (calc_open_obs k p k' CS P G NK) as [X|(X & Y)]; auto. right. right. rewrite MS. split; auto. split; [now left|easy].
    + unfold nonpart. intros X. destruct (c_ps (s_ca s)) as [|l|k] eqn:E; cbn in G; [congruence| |].
      * destruct X as (y & Y1 & Y2). congruence.
      * injection G as G. rewrite G in X. destruct X as [X|[X|(_ & _ & X)]]; [easy|easy|]. congruence.
    + intros -> q Q (y & NY & SY). unfold firm, seen, anc in *. cbn [s_ca set_ca s_fl]. destruct (c_ps (s_ca s)) as [|l|k] eqn:E; cbn [ps_notice] in N.
      * injection N as <-. eauto.
      * destruct (Nat.ltb_spec p (length l)); [|easy]. injection N as <-. rewrite nth_error_list_set. destruct ((q =? p) && (p <? length l)); [exists Open|exists y]; split; easy.
      * cbn in G. injection G as G. destruct CS as (CS & _). rewrite E in CS. cbn in CS. destruct (calc_notice k p Open) as [k'|] eqn:NK; [|easy]. injection N as <-.
        destruct (calc_open_obs2 k p k' q CS P Q G NK) as (X1 & X2 & X3 & X4). destruct y; [easy| |].
        -- exists PartialOpen. split; [easy|]. destruct SY as (Y1 & Y2 & Y3 & Y4). destruct (X4 Y1) as (Z1 & Z2 & Z3 & Z4). rewrite Z1, Z2, Z3. repeat split; auto. lia.
        -- exists Open. split; [easy|]. destruct SY as [SY|(SY1 & SY2 & SY3)]; auto. destruct (X3 SY1 (or_introl SY2)) as (Z1 & [Z2|Z2]); auto.
Qed.

Notation T := (fun _ _ => True).
Lemma safe_seq {A B} (c : M K A) (k : A -> M K B) (Q : B -> st K -> Prop) s : safe c T s -> (forall a s', sane s' -> safe (k a) Q s') -> safe (bind c k) Q s.
Proof. intros H1 H2. eapply safe_bind; [exact H1|]. cbv beta. auto. Qed.
Lemma safe_unmark_t s : sane s -> safe c_unmark T s. Proof. intros S. apply safe_unmark; auto. Qed.
Lemma safe_check_t s : sane s -> safe c_check_dirty T s. Proof. intros S. apply safe_check; auto. Qed.
Lemma safe_open_t p s : sane s -> p < NP -> safe (open_page g p) T s. Proof. intros S P. eapply safe_mono; [apply (safe_open p s S P)|]. auto. Qed.
Lemma safe_partial_t p s : sane s -> p < NP -> safe (partial_close g p) T s. Proof. intros S P. eapply safe_mono; [apply (safe_partial p s S P)|]. auto. Qed.

(** Observing a page keeps the anchor, unless the page is itself partial-open. *)
Lemma safe_psc_anc p q s : sane s -> p < NP -> q < NP -> anc 1 s q -> safe (page_state_c g p) (fun x s' => x <> PartialOpen -> anc 1 s' q) s.
Proof.
  intros S P Q A. pose proof (sane_c _ S) as CS. unfold page_state_c.
  assert (G : exists o, ps_get (c_ps (s_ca s)) p = Some o).
  { destruct (c_ps (s_ca s)) as [|l|k] eqn:E; cbn; eauto. destruct CS as (CS & _). rewrite E in CS. cbn in CS. destruct (nth_error l p) eqn:N; eauto. apply nth_error_None in N. lia. }
  destruct G as (o & G). eapply safe_eq; [unfold c_get_ps; rewrite G; reflexivity|intros m2 N; exists m2; unfold c_get_ps; cbn [s_ca wm set_fl]; rewrite G; split; [reflexivity|exact N]|]. cbv beta. destruct o as [x|]; [apply safe_ret; auto|].
  apply safe_ps; auto. intros x MS.
  change (safe (c_notice_ps p x false;;; ret x) (fun x s' => x <> PartialOpen -> anc 1 s' q) s).
  assert (AC : accepts (c_ps (s_ca s)) p x).
  { destruct (c_ps (s_ca s)) as [|l|k] eqn:E; cbn; auto. cbn in G. injection G as G. destruct CS as (CS & _). rewrite E in CS. cbn in CS. destruct x.
    - destruct (calc_closed_obs k p CS P G) as (k' & ? & ? & _); eauto.
    - destruct (calc_partial k p CS P ltac:(congruence)) as (k' & ? & ? & _); eauto.
    - apply calc_open; auto. }
  eapply safe_bind; [apply (safe_notice p x false (fun _ s' => exists c, s' = set_ca s c /\ ps_notice (c_ps (s_ca s)) p x = Some (c_ps c))); eauto|].
  cbv beta. intros _ s1 S1 (c & -> & N). apply safe_ret; auto. intros NX. unfold anc in *. cbn [s_ca set_ca]. destruct (c_ps (s_ca s)) as [|l|k] eqn:E; cbn [ps_notice] in N.
  - injection N as <-. auto.
  - destruct (p <? length l); [|easy]. injection N as <-. auto.
  - cbn in G. injection G as G. destruct CS as (CS & _). rewrite E in CS. cbn in CS. destruct (calc_notice k p x) as [k'|] eqn:NK; [|easy]. injection N as <-.
    destruct A as (A1 & A2 & A3 & A4). destruct x; [|easy|].
    + destruct (calc_closed_obs k p CS P G) as (k2 & E2 & _ & B1 & B2 & B3 & B4 & _). rewrite E2 in NK. injection NK as <-. rewrite B1, B2, B3, B4. auto.
    + destruct (calc_open_obs2 k p k' q CS P Q G NK) as (_ & _ & _ & X4). destruct (X4 A1) as (Z1 & Z2 & Z3 & Z4). rewrite Z1, Z2, Z3. repeat split; auto. lia.
Qed.
Lemma safe_partial_firm p s : sane s -> p < NP -> firm s p -> safe (partial_close g p) (fun _ s' => anc 1 s' p) s.
Proof.
  intros S P F. assert (X : safe (partial_close g p) (fun x _ => x = PartialOpen) s).
  { unfold partial_close. eapply safe_bind; [apply (safe_psc p s S P)|]. cbv beta. intros x s1 S1 (_ & SE & _ & H & _). specialize (H F).
    destruct x; [easy|apply safe_ret; auto|]. cbn [pstate_eqb negb]. apply safe_seq.
    - apply safe_notice; auto. pose proof (sane_c _ S1) as (CS & _). unfold seen in SE. destruct (c_ps (s_ca s1)) as [| |k] eqn:E; cbn; auto.
      destruct (calc_partial k p CS P) as (k' & ? & ? & _); [|eauto]. destruct SE as [SE|(SE & _)]; congruence.
    - intros _ s2 S2. destruct (marker_fit p P) as (M1 & M2 & _). apply safe_seq; [|intros; apply safe_ret; auto].
      apply safe_write; rewrite ?zeros_len; auto with al; try (pose proof (W_pos g gok); lia). }
  eapply safe_mono; [apply safe_and; [exact X|apply (safe_partial p s S P)]|]. cbv beta. intros x s1 _ (-> & _ & A & _). auto.
Qed.

Lemma fits (d : list N) : too_big g (length d) = false -> as_u16 (length d) = length d.
Proof.
  unfold too_big. intros H. apply orb_false_iff in H. destruct H as (H & _). apply N.ltb_ge in H. unfold as_u16. rewrite N.mod_small by lia. lia.
Qed.
Lemma safe_write_new p a d s : sane s -> p < NP -> inp p a -> a + HL + rup (length d) <= dend p -> too_big g (length d) = false -> safe (write_new g a d) T s.
Proof.
  intros S P I L TB. unfold write_new. rewrite fits by auto. eapply safe_mono; [apply (safe_write_raw p); auto|auto].
  unfold next_addr. cbn [h_len]. destruct I as (A & B). split; [auto with al|lia].
Qed.
Lemma too_big_page p n : too_big g n = false -> dstart p + HL + rup n <= dend p.
Proof.
  unfold too_big, max_item. intros H. apply orb_false_iff in H. destruct H as (_ & H). apply Nat.ltb_ge in H.
  pose proof (ES_big g gok). pose proof (dend_lt g gok p). pose proof (pend_eq g p). unfold Flash.dstart.
  assert (A : al g (ES g - W * 2 - HL)) by (replace (ES g - W * 2 - HL) with (ES g - W - W - HL) by lia; auto with al).
  pose proof (rup_min g gok n _ A H). lia.
Qed.
End Safe.
