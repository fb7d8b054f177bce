(** Flash and cache together: rules for the page and item operations of the model. *)
From Coq Require Import List NArith ZArith Arith Bool Lia ZifyBool ZifyNat ZifyN.
From Verif Require Import Base BaseP Crc CrcP Flash Cache State Item Generic GeomP ScanP WpP ItemP CalcP PageP.
Import ListNotations.
Local Opaque crc16 acrc crc32.

(** Device operations and their execution until one fails. *)
Inductive dop := DW (a : nat) (bs : list N) | DE (p : nat).
Definition run1 (g : geom) (f : flash) (o : dop) : option serr * flash :=
  match o with DW a bs => dev_write g f a bs | DE p => dev_erase g f (paddr g p) (pend g p) end.
Fixpoint run (g : geom) (f : flash) (l : list dop) : option serr * flash :=
  match l with
  | [] => (None, f)
  | o :: t => match run1 g f o with (None, f') => run g f' t | x => x end
  end.
Lemma run_app g f l l' : run g f (l ++ l') = match run g f l with (None, f') => run g f' l' | x => x end.
Proof.
  revert f. induction l as [|o l IH]; intros f; cbn [app run]; auto. destruct (run1 g f o) as [[e|] f']; auto.
Qed.
Lemma run_snoc g f l f' l' : run g f l = (None, f') -> run g f (l ++ l') = run g f' l'.
Proof. intros H. now rewrite run_app, H. Qed.
Lemma run_stop g f l e f' l' : run g f l = (Some e, f') -> run g f (l ++ l') = (Some e, f').
Proof. intros H. now rewrite run_app, H. Qed.

Lemma nes {A} (l : list A) i j x :
  nth_error (list_set l i x) j = if j =? i then (if i <? length l then Some x else None) else nth_error l j.
Proof.
  rewrite nth_error_list_set. destruct (Nat.eqb_spec j i) as [->|]; auto. destruct (Nat.ltb_spec i (length l)); auto.
  cbn. now apply nth_error_None.
Qed.

Section World.
Context (g : geom) (gok : geom_ok g) (ws ae : bool) (aw : nat) {K : Type}.
Notation W := (W g).
Notation HL := (HL g).
Notation rup := (rup g).
Notation NP := (NP g).
Implicit Types (s : st K) (pg : nat -> page).

(** * The world *)
(** Half-erased pages need erases that can be torn. *)
Definition nobad pg : Prop := ae = true -> forall p, p < NP -> pg p <> PBad.
Definition fworld pg (f : flash) : Prop :=
  is_mem (f_mem f) /\ (forall p, p < NP -> page_is g ws f p (pg p)) /\ (f_ae f = ae /\ nobad pg) /\ f_aw f = aw /\
  (ws = true -> f_fuel f = None).

Definition coh_ps pg (c : pscache) : Prop :=
  match c with
  | PSNone => True
  | PSArray l => NP <= length l /\ forall p x, p < NP -> nth_error l p = Some (Some x) -> st_of (pg p) = Some x
  | PSCalc k => calc_coh NP (fun p => st_of (pg p)) k
  end.

Definition dead (x : slot) : Prop := match x with SDead _ => True | _ => False end.
Definition used (x : page) : Prop := match x with PClosed _ | PPart _ => True | _ => False end.

Lemma with_nobad x l : used x -> with_slots x l <> PBad.
Proof. destruct x; cbn; try contradiction; discriminate. Qed.
Lemma started_nobad x y : started x y -> y <> PBad.
Proof. unfold started. destruct x, y; intros H; try discriminate; try contradiction; try (destruct H; discriminate). Qed.
Definition ptr_er (p : nat) (x : page) (a : nat) : Prop :=
  used x /\ exists pre rest, slots_of x = pre ++ rest /\ Forall dead pre /\ a = dstart g p + sizes g pre.
Definition ptr_wr (p : nat) (x : page) (a : nat) : Prop := used x /\ a = dstart g p + sizes g (slots_of x).

Definition coh_pp pg (c : ppcache) : Prop :=
  match c with
  | PPNone => True
  | PPArray er wr => forall p, p < NP ->
      (forall a, lookup er p = Some a -> ptr_er p (pg p) a) /\ (forall a, lookup wr p = Some a -> ptr_wr p (pg p) a)
  end.

Definition coh pg (c : cache K) : Prop := coh_ps pg (c_ps c) /\ coh_pp pg (c_pp c).

(** Shape of the cache, whatever it says. *)
Definition wfps (c : pscache) : Prop :=
  match c with PSNone => True | PSArray l => NP <= length l | PSCalc k => k_pc k = NP end.
Definition wfc (c : cache K) : Prop := wfps (c_ps c).

Definition world pg (f0 : flash) (L : list dop) s : Prop :=
  run g f0 L = (None, s_fl s) /\ fworld pg (s_fl s) /\ coh pg (s_ca s).

(** After a power failure. *)
Definition crashed pg (f0 : flash) (L : list dop) s : Prop :=
  run g f0 L = (Some SShutoff, s_fl s) /\ fworld pg (s_fl s) /\ wfc (s_ca s) /\ c_dirty (s_ca s) = true /\ ws = false.

(** At the start of a call. *)
Definition sworld pg s : Prop :=
  fworld pg (s_fl s) /\ wfc (s_ca s) /\ (c_dirty (s_ca s) = true \/ coh pg (s_ca s)).

(** Unchanged by page and item operations. *)
Definition fr s s' : Prop :=
  s_buf s' = s_buf s /\ s_qi s' = s_qi s /\ s_mi s' = s_mi s /\ c_kp (s_ca s') = c_kp (s_ca s).
Lemma fr_refl s : fr s s. Proof. repeat split. Qed.
Lemma fr_trans s1 s2 s3 : fr s1 s2 -> fr s2 s3 -> fr s1 s3.
Proof. intros (A & B & C & D) (A' & B' & C' & D'). repeat split; congruence. Qed.

Definition knp (c : pscache) (p : nat) (x : pstate) : Prop :=
  match c with PSCalc k => calc_get k p = Some x | _ => True end.
Definition kn s p x : Prop := knp (c_ps (s_ca s)) p x.

Definition ring_ex pg : Prop := exists f c b k bad, ringst NP (fun p => st_of (pg p)) f c b k bad.

Lemma NPpos : 1 <= NP. Proof. pose proof (NP_pos g gok). lia. Qed.

Lemma coh_ps_wf pg c : coh_ps pg c -> wfps c.
Proof. destruct c; cbn; auto; [tauto|intros [H _]; auto]. Qed.
Lemma coh_wf pg c : coh pg c -> wfc c.
Proof. intros [H _]. eapply coh_ps_wf; eauto. Qed.

Lemma nth_error_None_map {A B} (l : list A) p (x : B) : nth_error (map (fun _ => @None B) l) p = Some (Some x) -> False.
Proof. revert p. induction l; intros [|p]; cbn; try discriminate. apply IHl. Qed.
Lemma coh_inval pg c : wfc c -> coh pg (cache_inval c).
Proof.
  intros H. split; cbn.
  - unfold wfc, wfps in H. destruct (c_ps c); cbn; auto.
    + rewrite map_length. split; auto. intros p x _ E. now apply nth_error_None_map in E.
    + rewrite H. apply calc_new_coh.
  - destruct (c_pp c); cbn; auto. intros p Hp. unfold lookup. split; intros a E;
      (match type of E with context [nth_error ?l ?i] => destruct (nth_error l i) as [[y|]|] eqn:E1; try discriminate; now apply nth_error_None_map in E1 end).
Qed.
Lemma wfc_inval c : wfc c -> wfc (cache_inval c).
Proof. unfold wfc, wfps. cbn. destruct (c_ps c); cbn; auto. now rewrite map_length. Qed.

Lemma world_sworld pg f0 L s : world pg f0 L s -> sworld pg s.
Proof. intros (A & B & C). split; auto. split; [eapply coh_wf; eauto|auto]. Qed.
Lemma crashed_sworld pg f0 L s : crashed pg f0 L s -> sworld pg s.
Proof. intros (A & B & C & D & _). split; auto. Qed.
Lemma crashed_app pg f0 L L' s : crashed pg f0 L s -> crashed pg f0 (L ++ L') s.
Proof. intros (A & B). split; auto. now apply run_stop. Qed.

(** * Frames *)
Lemma page_far p q x : q <> p -> paddr g q <= x < pend g q -> x < paddr g p \/ pend g p <= x.
Proof. intros N H. destruct (Nat.lt_trichotomy p q) as [L|[->|L]]; [|congruence|]; pose proof (page_lt g _ _ L); lia. Qed.

Lemma fworld_upd pg f f' p x : fworld pg f -> p < NP -> is_mem (f_mem f') ->
  (forall y, y < paddr g p \/ pend g p <= y -> f_mem f' y = f_mem f y /\ f_wc f' y = f_wc f y) ->
  page_is g ws f' p x -> f_ae f' = f_ae f -> f_aw f' = f_aw f -> (f_fuel f = None -> f_fuel f' = None) -> (ae = true -> x <> PBad) ->
  fworld (upd pg p x) f'.
Proof.
  intros (IM & P & (A & NB) & B & C) Hp IM' OUT X A' B' C' NX. split; auto. split; [|split; [split; [congruence|]|split; [congruence|auto]]].
  2:{ intros AE q Hq. destruct (Nat.eq_dec q p) as [->|N]; [rewrite upd_same; auto|]. rewrite upd_other by auto. now apply NB. }
  intros q Hq. destruct (Nat.eq_dec q p) as [->|N]; [now rewrite upd_same|]. rewrite upd_other by auto.
  eapply page_is_ext; eauto. intros y Hy. apply OUT. eapply page_far; eauto.
Qed.
Lemma prog_fworld pg f f' p x a bs : fworld pg f -> p < NP -> prog f f' a bs -> paddr g p <= a -> a + length bs <= pend g p ->
  page_is g ws f' p x -> (ae = true -> x <> PBad) -> fworld (upd pg p x) f'.
Proof.
  intros FW Hp P A B X NX. eapply fworld_upd; eauto; try apply P.
  - eapply prog_mem; eauto. apply FW.
  - intros y Hy. eapply prog_out; eauto. lia.
Qed.

(** Runs recorded by single flash operations. *)
Definition recs {A} (c : M K A) (L : list dop) s : Prop :=
  wp c (fun _ s' => run g (s_fl s) L = (None, s_fl s'))
       (fun e s' => match e with EStorage x => run g (s_fl s) L = (Some x, s_fl s') | _ => False end) s.
Lemma recs_write a bs s : recs (fl_write g a bs) [DW a bs] s.
Proof. unfold recs, wp, fl_write. cbn [run run1]. destruct (dev_write g (s_fl s) a bs) as [[e|] f]; reflexivity. Qed.
Lemma recs_erase p s : recs (fl_erase g (paddr g p) (pend g p)) [DE p] s.
Proof. unfold recs, wp, fl_erase. cbn [run run1]. destruct (dev_erase g (s_fl s) _ _) as [[e|] f]; reflexivity. Qed.
Lemma recs_bind {A B} (c : M K A) (k : A -> M K B) L1 L2 s : recs c L1 s ->
  (forall a s', c s = (Ok a, s') -> recs (k a) L2 s') -> recs (bind c k) (L1 ++ L2) s.
Proof.
  unfold recs, wp, bind. destruct (c s) as [[a|e] s'].
  - intros H H2. specialize (H2 a s' eq_refl). destruct (k a s') as [[x|e] s''].
    + now rewrite (run_snoc _ _ _ _ _ H).
    + destruct e; auto. now rewrite (run_snoc _ _ _ _ _ H).
  - intros H _. destruct e; auto. now apply run_stop.
Qed.
Lemma recs_ret {A} (a : A) s : recs (ret a) [] s.
Proof. reflexivity. Qed.

(** The device operations of writing item [d] at [a]. *)
Definition item_ops (a : nat) (d : list N) : list dop :=
  let nb := rdown g (length d) in
  let block := firstn nb d in
  let left := skipn nb d in
  [DW a (hdr_bytes g (ihdr d))] ++
  (if length block =? 0 then [] else [DW (a + HL) block]) ++
  (if length left =? 0 then [] else [DW (a + HL + length block) (left ++ repeat 0%N (rup (length left) - length left))]).

Lemma recs_write_raw d a s : recs (write_raw g (ihdr d) d a) (item_ops a d) s.
Proof.
  unfold write_raw, item_ops. pose proof (rdown_le g gok (length d)) as RD. pose proof (rdown_gt g gok (length d)) as RG.
  cbv zeta. set (l := _ ++ _ ++ _). change l with ([] ++ l). unfold l. clear l.
  apply recs_bind; [reflexivity|]. intros _ s1 _.
  apply recs_bind; [apply recs_write|]. intros _ s2 _. destruct (Nat.ltb_spec (length d) (rdown g (length d))); [lia|].
  apply recs_bind. { destruct (_ =? 0); [apply recs_ret|apply recs_write]. }
  intros _ s3 _. destruct (Nat.eqb_spec (length (skipn (rdown g (length d)) d)) 0); [apply recs_ret|].
  rewrite skipn_length in *.
  assert (RL : rup (length d - rdown g (length d)) <= W) by (apply (rup_min g gok); [apply al_W; auto|lia]).
  pose proof (W_le_32 g gok). destruct (Nat.ltb_spec 32 (rup (length d - rdown g (length d)))); [lia|]. apply recs_write.
Qed.

Lemma recs_world {A} (c : M K A) L f0 L0 s (Q : A -> st K -> Prop) (E : err -> st K -> Prop) :
  recs c L s -> run g f0 L0 = (None, s_fl s) ->
  wp c (fun a s' => run g f0 (L0 ++ L) = (None, s_fl s') -> Q a s')
       (fun e s' => (forall x, e = EStorage x -> run g f0 (L0 ++ L) = (Some x, s_fl s')) -> E e s') s -> wp c Q E s.
Proof.
  intros R H. unfold recs, wp in *. destruct (c s) as [[a|e] s'].
  - intros X. apply X. now rewrite (run_snoc _ _ _ _ _ H).
  - intros X. apply X. intros x ->. now rewrite (run_snoc _ _ _ _ _ H).
Qed.

(** * Page states *)
Definition obs s s' p x : Prop :=
  (x = PartialOpen -> kn s' p PartialOpen) /\
  (forall q, q < NP -> kn s q PartialOpen -> kn s' q PartialOpen /\ kn s' p x).

Lemma coh_pp_open pg c p x : p < NP -> st_of (pg p) = Some x -> coh_pp pg c -> coh_pp pg (pp_page_state c p x).
Proof.
  intros Hp S H. destruct c as [|er wr]; auto. destruct x; auto. cbn. intros q Hq. unfold lookup.
  specialize (H q Hq). rewrite !nes. unfold lookup in H.
  destruct (Nat.eqb_spec q p) as [->|N]; auto.
  split; intros a E; destruct (p <? _); discriminate.
Qed.

Lemma wp_psc p pg f0 L (Q : pstate -> st K -> Prop) (E : err -> st K -> Prop) s :
  world pg f0 L s -> p < NP -> ring_ex pg ->
  (forall s' x, st_of (pg p) = Some x -> world pg f0 L s' -> fr s s' -> obs s s' p x -> s_fl s' = s_fl s -> Q x s') ->
  (st_of (pg p) = None -> E ECorrupted s) -> wp (page_state_c g p) Q E s.
Proof.
  intros (R & FW & CP & CQ) Hp (f & c & b & k & bad & RG) HQ HE. unfold page_state_c. apply wp_bind. unfold wp at 1, c_get_ps.
  pose proof (page_state_eq g gok ws p (pg p) s Hp (proj1 (proj2 FW) p Hp)) as PS.
  assert (MISS : (forall x, st_of (pg p) = Some x -> exists ps', ps_notice (c_ps (s_ca s)) p x = Some ps' /\ coh_ps pg ps' /\
      (x = PartialOpen -> knp ps' p PartialOpen) /\
      (forall q, q < NP -> knp (c_ps (s_ca s)) q PartialOpen -> knp ps' q PartialOpen /\ knp ps' p x)) ->
    wp (s0 <- page_state g p ;; c_notice_ps p s0 false ;;; ret s0) Q E s).
  { intros N. destruct (st_of (pg p)) as [x|] eqn:X.
    - eapply wp_ok; [exact PS|]. destruct (N x eq_refl) as (ps' & N1 & N2 & N3 & N4). apply wp_bind.
      unfold wp, c_notice_ps. cbv zeta. rewrite N1. apply HQ; auto.
      + split; [exact R|]. split; [exact FW|]. split; [exact N2|]. apply coh_pp_open; auto.
      + repeat split.
      + split; auto.
    - eapply wp_err; [exact PS|]. auto. }
  destruct (c_ps (s_ca s)) as [|l|kk] eqn:EC; cbn [ps_get].
  - apply MISS. intros x Hx. exists PSNone. cbn. repeat split; auto.
  - destruct CP as [LL CP]. destruct (nth_error l p) as [o|] eqn:EN; [|apply nth_error_None in EN; lia].
    destruct o as [x|].
    + apply wp_ret. apply HQ; auto; [|repeat split|unfold obs, kn; rewrite EC; cbn; auto].
      split; auto. split; auto. split; auto. rewrite EC. split; auto.
    + apply MISS. intros x Hx. eexists. cbn [ps_notice]. assert (p <? length l = true) as -> by (apply Nat.ltb_lt; lia).
      split; [reflexivity|]. cbn. split; [|auto]. rewrite list_set_length. split; auto. intros q y Hq.
      rewrite nes. destruct (Nat.eqb_spec q p) as [->|N]; auto.
      destruct (p <? length l); [|discriminate]. intros [= <-]. auto.
  - cbn in CP. destruct (calc_get kk p) as [x|] eqn:EG.
    + pose proof (calc_get_sound NP NPpos _ _ _ _ CP Hp EG) as Sx. cbn in Sx. apply wp_ret. apply HQ; auto; [|repeat split|].
      * split; auto. split; auto. split; auto. rewrite EC. exact CP.
      * split; unfold kn; rewrite EC; cbn; [congruence|auto].
    + apply MISS. intros x Hx. destruct (calc_obs NP NPpos _ _ _ _ _ _ RG kk p x CP Hp Hx EG) as (kk' & N1 & N2 & N3 & N4).
      exists (PSCalc kk'). cbn [ps_notice knp coh_ps]. rewrite N1. auto.
Qed.

(** Search over pages, without a cache: [None] when a half-erased page is met. *)
Fixpoint ff pg (x : pstate) (l : list nat) : option (option nat) :=
  match l with
  | [] => Some None
  | p :: t => match st_of (pg p) with
              | None => None
              | Some y => if pstate_eqb x y then Some (Some p) else ff pg x t
              end
  end.

Lemma wp_find_first_in pg f0 L x l : forall (Q : option nat -> st K -> Prop) (E : err -> st K -> Prop) s,
  Forall (fun p => p < NP) l -> world pg f0 L s -> ring_ex pg ->
  (forall s' r, ff pg x l = Some r -> world pg f0 L s' -> fr s s' -> s_fl s' = s_fl s ->
     (forall q, q < NP -> kn s q PartialOpen -> kn s' q PartialOpen) ->
     (x = PartialOpen -> forall p, r = Some p -> kn s' p PartialOpen) -> Q r s') ->
  (forall s', ff pg x l = None -> world pg f0 L s' -> fr s s' -> E ECorrupted s') ->
  wp (find_first_in g l x) Q E s.
Proof.
  induction l as [|p l IH]; intros Q E s F Wd RE HQ HE; cbn [find_first_in ff] in *.
  - apply wp_ret. apply HQ; auto; [apply fr_refl|]. discriminate.
  - inversion F; subst. apply wp_bind. apply (wp_psc p pg f0 L); auto.
    + intros s' y Sy Ws' Fr (O1 & O2) FL. rewrite Sy in *. destruct (pstate_eqb x y) eqn:Exy.
      * assert (x = y) by (destruct x, y; auto; discriminate). subst y. apply wp_ret. apply HQ; auto.
        -- intros q Hq KQ. now apply O2.
        -- intros -> p' [= <-]. auto.
      * apply IH; auto.
        -- intros s'' r Er W'' Fr'' FL' P1 P2. apply HQ; auto; [eapply fr_trans; eauto|congruence|].
           intros q Hq KQ. apply P1; auto. now apply O2.
        -- intros s'' Er W'' Fr''. apply HE; auto. eapply fr_trans; eauto.
    + intros Sy. rewrite Sy in *. apply HE; auto. apply fr_refl.
Qed.
Lemma get_pages_lt start : Forall (fun p => p < NP) (get_pages g start).
Proof.
  unfold get_pages. apply Forall_forall. intros p H. apply in_map_iff in H. destruct H as (i & <- & _).
  apply Nat.mod_upper_bound. pose proof NPpos. lia.
Qed.
Lemma wp_find_first pg f0 L x start (Q : option nat -> st K -> Prop) (E : err -> st K -> Prop) s :
  world pg f0 L s -> ring_ex pg ->
  (forall s' r, ff pg x (get_pages g start) = Some r -> world pg f0 L s' -> fr s s' -> s_fl s' = s_fl s ->
     (forall q, q < NP -> kn s q PartialOpen -> kn s' q PartialOpen) ->
     (x = PartialOpen -> forall p, r = Some p -> kn s' p PartialOpen) -> Q r s') ->
  (forall s', ff pg x (get_pages g start) = None -> world pg f0 L s' -> fr s s' -> E ECorrupted s') ->
  wp (find_first g start x) Q E s.
Proof. intros. eapply wp_find_first_in; eauto using get_pages_lt. Qed.

(** * Changing page states *)
Lemma st_of_upd pg p x q : st_of (upd pg p x q) = upd (fun y => st_of (pg y)) p (st_of x) q.
Proof. unfold upd. destruct (q =? p); auto. Qed.
Lemma calc_coh_ext stf stf' k : (forall p, stf p = stf' p) -> calc_coh NP stf k -> calc_coh NP stf' k.
Proof.
  intros H [A B]. split; auto. destruct (k_anchor k); auto. destruct B as (B1 & B2 & B3 & B4 & B5 & B6).
  split; auto. split; auto. rewrite <- !H. split; auto.
  split; [intros q ? ? ?; rewrite <- H; auto|]. split; [intros q ? ? ?; rewrite <- H; auto|].
  destruct B6 as [B6 B7]. split; auto. intros G. destruct (B7 G) as [X|[X|X]]; auto.
  right. right. intros q Hq. rewrite <- H. auto.
Qed.
Lemma coh_array_upd pg l p x y : p < NP -> st_of x = Some y -> coh_ps pg (PSArray l) ->
  exists ps', ps_notice (PSArray l) p y = Some ps' /\ coh_ps (upd pg p x) ps' /\ (forall q z, knp ps' q z).
Proof.
  intros Hp Hx [LL C]. cbn [ps_notice]. assert (p <? length l = true) as -> by (apply Nat.ltb_lt; lia). eexists. split; [reflexivity|].
  cbn. rewrite list_set_length. split; auto. split; auto. intros q z Hq. rewrite nes.
  destruct (Nat.eqb_spec q p) as [->|N].
  - rewrite upd_same. destruct (p <? length l); [|discriminate]. intros [= <-]. auto.
  - rewrite upd_other by auto. auto.
Qed.

Ltac narrays := match goal with
  | H : coh_ps _ ?ps |- _ => destruct ps as [|l|kk];
     [eexists; split; [reflexivity|]; split; [exact I|]; cbn; auto
     |edestruct coh_array_upd as (ps' & N1 & N2 & N3); [| |exact H|exists ps'; split; [exact N1|]; split; [exact N2|]; auto]; auto
     |]
  end.

Lemma coh_ps_st pg pg' c : (forall p, st_of (pg p) = st_of (pg' p)) -> coh_ps pg c -> coh_ps pg' c.
Proof.
  intros H C. destruct c as [|l|kk]; auto.
  - destruct C as [C1 C2]. split; auto. intros p x Hp E. rewrite <- H. auto.
  - eapply calc_coh_ext; [|exact C]. auto.
Qed.
Lemma notice_T1 pg ps f c k bad p : coh_ps pg ps -> ringst NP (fun q => st_of (pg q)) f c 0 (S k) bad ->
  (1 <= c \/ (p = 0 /\ bad = 0)) -> p < NP -> pos NP f p = c -> st_of (pg p) = Some Open ->
  exists ps', ps_notice ps p PartialOpen = Some ps' /\ (forall x, st_of x = Some PartialOpen -> coh_ps (upd pg p x) ps') /\ knp ps' p PartialOpen.
Proof.
  intros C R H Hp P O.
  assert (G : exists ps', ps_notice ps p PartialOpen = Some ps' /\ coh_ps (upd pg p (PPart [])) ps' /\ knp ps' p PartialOpen).
  { narrays.
    destruct (calc_T1 NP NPpos _ _ _ _ _ kk p R H Hp P C) as (kk' & A1 & A2 & A3). exists (PSCalc kk'). cbn [ps_notice knp coh_ps]. rewrite A1.
    split; auto. split; auto. eapply calc_coh_ext; [|exact A2]. intros q. now rewrite st_of_upd. }
  destruct G as (ps' & A & B & D). exists ps'. split; auto. split; auto. intros x Sx. eapply coh_ps_st; [|exact B].
  intros q. rewrite !st_of_upd. unfold upd. destruct (q =? p); auto.
Qed.
Lemma notice_T2 pg ps f c k bad p sl : coh_ps pg ps -> ringst NP (fun q => st_of (pg q)) f c 1 (S k) bad ->
  p < NP -> pos NP f p = c -> knp ps p PartialOpen -> knp ps (next_page g p) Open ->
  exists ps', ps_notice ps p Closed = Some ps' /\ coh_ps (upd pg p (PClosed sl)) ps' /\ True.
Proof.
  intros C R Hp P K1 K2. narrays.
  destruct (calc_T2 NP NPpos _ _ _ _ _ kk p R Hp P C K1 K2) as (kk' & A1 & A2). exists (PSCalc kk'). cbn [ps_notice knp coh_ps]. rewrite A1.
  split; auto. split; auto. eapply calc_coh_ext; [|exact A2]. intros q. now rewrite st_of_upd.
Qed.
Lemma notice_T3 pg ps f c b k : coh_ps pg ps -> ringst NP (fun q => st_of (pg q)) f (S c) b k 0 ->
  exists ps', ps_notice ps f Open = Some ps' /\ coh_ps (upd pg f POpen) ps' /\
    (forall q, q < NP -> knp ps q PartialOpen -> knp ps' q PartialOpen /\ knp ps' f Open).
Proof.
  intros C R. pose proof R as (Rf & _). narrays.
  destruct (calc_T3 NP NPpos _ _ _ _ _ kk R C) as (kk' & A1 & A2 & A3). exists (PSCalc kk'). cbn [ps_notice knp coh_ps]. rewrite A1.
  split; auto. split; auto. eapply calc_coh_ext; [|exact A2]. intros q. now rewrite st_of_upd.
Qed.
Lemma notice_T5 pg ps f c k p : coh_ps pg ps -> ringst NP (fun q => st_of (pg q)) f c 1 k 0 -> p < NP ->
  st_of (pg p) = Some PartialOpen -> knp ps p PartialOpen ->
  exists ps', ps_notice ps p Open = Some ps' /\ coh_ps (upd pg p POpen) ps' /\ True.
Proof.
  intros C R Hp P K1. narrays.
  destruct (calc_T5 NP NPpos _ _ _ _ kk p R Hp P C K1) as (kk' & A1 & A2). exists (PSCalc kk'). cbn [ps_notice knp coh_ps]. rewrite A1.
  split; auto. split; auto. eapply calc_coh_ext; [|exact A2]. intros q. now rewrite st_of_upd.
Qed.
Definition guessing (ps : pscache) : Prop := match ps with PSCalc k => calc_guessing k | _ => True end.
Lemma notice_T4 pg ps p : coh_ps pg ps -> p < NP -> pg p = PBad -> guessing ps ->
  exists ps', ps_notice ps p Open = Some ps' /\ coh_ps (upd pg p POpen) ps' /\ guessing ps'.
Proof.
  intros C Hp P K1. assert (S : st_of (pg p) = None) by now rewrite P.
  destruct ps as [|l|kk].
  - exists PSNone. cbn. auto.
  - destruct (coh_array_upd pg l p POpen Open Hp eq_refl C) as (ps' & N1 & N2 & N3). exists ps'. split; auto. split; auto.
    cbn [ps_notice] in N1. destruct (p <? length l); [|discriminate]. injection N1 as <-. exact I.
  - destruct (calc_T4 NP NPpos _ kk p Hp S C K1) as (kk' & A1 & A2 & A3). exists (PSCalc kk'). cbn [ps_notice knp coh_ps]. rewrite A1.
    split; auto. split; auto. eapply calc_coh_ext; [|exact A2]. intros q. now rewrite st_of_upd.
Qed.

Lemma notice_wf ps p x ps' : wfps ps -> ps_notice ps p x = Some ps' -> wfps ps'.
Proof.
  destruct ps as [|l|k]; cbn [wfps ps_notice]; intros H.
  - intros [= <-]. auto.
  - destruct (p <? length l); [|discriminate]. intros [= <-]. cbn. now rewrite list_set_length.
  - destruct (calc_notice k p x) as [k'|] eqn:E; [|discriminate]. intros [= <-]. cbn. rewrite <- H. clear H.
    unfold calc_notice in E. repeat (match type of E with
      | context [match ?y with _ => _ end] => destruct y eqn:?
      | context [if ?y then _ else _] => destruct y eqn:? end; try discriminate); try injection E as <-; auto.
Qed.

Lemma coh_pp_upd pg c p x : (forall q, q < NP -> q <> p -> True) ->
  coh_pp pg c -> (forall er wr, c = PPArray er wr -> p < NP ->
    (forall a, lookup er p = Some a -> ptr_er p x a) /\ (forall a, lookup wr p = Some a -> ptr_wr p x a)) ->
  coh_pp (upd pg p x) c.
Proof.
  intros _ H H2. destruct c as [|er wr]; auto. intros q Hq. destruct (Nat.eq_dec q p) as [->|N].
  - rewrite upd_same. apply (H2 er wr); auto.
  - rewrite upd_other by auto. apply H; auto.
Qed.

(** What the end of a cut erase needs. *)
Definition tearable (x : page) : Prop := ae = true \/ match x with PPart _ => False | _ => True end.

(** The other pages keep their bytes. *)
Definition far_same (p : nat) s s' : Prop := forall y, y < paddr g p \/ pend g p <= y -> f_mem (s_fl s') y = f_mem (s_fl s) y.
Lemma wp_open_page1 p ps' pg f0 L (Q : unit -> st K -> Prop) (E : err -> st K -> Prop) s :
  world pg f0 L s -> p < NP -> ps_notice (c_ps (s_ca s)) p Open = Some ps' -> coh_ps (upd pg p POpen) ps' ->
  (f_fuel (s_fl s) = None \/ tearable (pg p) \/ exists sl, pg p = PPart sl /\ jmem g (f_mem (s_fl s)) p sl) ->
  (forall s', world (upd pg p POpen) f0 (L ++ [DE p]) s' -> fr s s' -> c_ps (s_ca s') = ps' -> far_same p s s' -> Q tt s') ->
  (forall s' x, torn_page (pg p) x \/ (exists sl, pg p = PPart sl /\ x = PStale sl /\ ~ tearable (pg p) /\ f_fuel (s_fl s) <> None) ->
     (forall sl, x = PPart sl -> same_on (f_mem (s_fl s)) (f_mem (s_fl s')) (dstart g p) (dend g p)) ->
     crashed (upd pg p x) f0 (L ++ [DE p]) s' -> far_same p s s' -> E (EStorage SShutoff) s') ->
  wp (open_page g p) Q E s.
Proof.
  intros (R & FW & CP & CQ) Hp N1 N2 T HQ HE. unfold open_page. apply wp_bind. unfold wp at 1, c_notice_ps. cbv zeta. rewrite N1.
  set (s1 := set_ca s _). apply (recs_world _ [DE p] f0 L s1); [apply recs_erase|exact R|].
  apply (wp_erase g gok p); auto.
  - intros f' ER RR. apply HQ.
    + split; [exact RR|]. split; [|split].
      * eapply fworld_upd; eauto; try apply ER.
        -- eapply erad_mem; eauto. apply FW.
        -- intros y Hy. eapply erad_out; eauto. rewrite pend_eq in Hy. auto.
        -- eapply page_erased; exact ER.
        -- discriminate.
      * exact N2.
      * cbn. destruct (c_pp (s_ca s)) as [|er wr]; auto. cbn. intros q Hq. unfold lookup. rewrite !nes.
        destruct (Nat.eqb_spec q p) as [->|N].
        -- split; intros a X; destruct (p <? _); discriminate.
        -- rewrite upd_other by auto. apply CQ. auto.
    + repeat split.
    + reflexivity.
    + intros y Hy. apply (erad_out g _ _ _ _ y ER). rewrite pend_eq in Hy. lia.
  - intros f' j Fu Hj Hae ER RR. specialize (RR _ eq_refl).
    change (s_fl s1) with (s_fl s) in *.
    assert (Ws : ws = false). { destruct FW as (_ & _ & _ & _ & X). destruct ws; auto. exfalso. apply Fu. auto. }
    assert (Eae : f_ae (s_fl s) = ae) by apply FW. pose proof (proj2 (proj1 (proj2 (proj2 FW)))) as NB.
    assert (SAME : ae = true -> page_is g ws f' p (pg p)).
    { intros AE. assert (j = 0) by (apply Hae; congruence). subst j. eapply page_is_ext; [exact gok| |apply FW; exact Hp]. intros y Hy. destruct ER as [M C _ _ _ _]. rewrite M, C. unfold wc_zero. rewrite mem_ff_out by lia.
      split; auto. destruct (_ && _) eqn:Z; auto. lia. }
    assert (J0 : j = 0 -> same_on (f_mem (s_fl s)) (f_mem f') (dstart g p) (dend g p)).
    { intros -> y Hy. destruct ER as [M _ _ _ _ _]. rewrite M, mem_ff_out; auto. lia. }
    assert (HX : exists x, page_is g ws f' p x /\
      (forall sl, x = PPart sl -> same_on (f_mem (s_fl s)) (f_mem f') (dstart g p) (dend g p)) /\
      (torn_page (pg p) x \/ (exists sl, pg p = PPart sl /\ x = PStale sl /\ ~ tearable (pg p) /\ f_fuel (s_fl s) <> None)) /\ (ae = true -> x <> PBad)).
    { destruct (bool_dec ae true) as [AE|AE].
      { exists (pg p). split; [now apply SAME|]. split; [intros sl _; apply J0, Hae; congruence|]. split; [left; now left|]. intros _. now apply NB. }
      assert (NX : forall x, ae = true -> x <> PBad) by (intros x Z; congruence).
      destruct T as [T|[T|(sl & P1 & P2)]]; [now destruct Fu| |].
      - destruct (page_torn_erase g gok ws (s_fl s) f' p (pg p) j) as (x & X1 & X2); eauto.
        + apply FW; auto.
        + destruct T as [T|T]; [left; apply Hae; congruence|now right].
        + exists x. split; auto. split; [|split; auto]. intros sl ->. apply J0. destruct T as [T|T]; [apply Hae; congruence|].
          destruct X2 as [X2|X2]; destruct (pg p); try contradiction; try discriminate; destruct X2; discriminate.
      - pose proof (proj1 (proj2 FW) p Hp) as PI. rewrite P1 in *. destruct (bool_dec ae true) as [A1|A1].
        + contradiction.
        + destruct (page_torn_part g gok ws (s_fl s) f' p sl j Ws PI P2 Hj ER) as [[X X']|X].
          * exists (PPart sl). split; auto. split; auto. split; [left; now left|auto].
          * exists (PStale sl). split; auto. split; [discriminate|]. split; [right|auto]. exists sl. split; auto. split; auto. split; auto. intros [Y|[]]. contradiction. }
    destruct HX as (x & X1 & X3 & X2 & X4). apply (HE _ x); auto.
    + split; [exact RR|]. split; [|split; [|split; auto]].
      * eapply fworld_upd; eauto; try apply ER.
        -- eapply erad_mem; eauto. apply FW.
        -- intros y Hy. eapply erad_out; eauto. rewrite pend_eq in Hy. lia.
      * unfold wfc. cbn. eapply coh_ps_wf; eauto.
    + intros y Hy. apply (erad_out g _ _ _ _ y ER). rewrite pend_eq in Hy. lia.
Qed.
Lemma wp_open_page0 p ps' pg f0 L (Q : unit -> st K -> Prop) (E : err -> st K -> Prop) s :
  world pg f0 L s -> p < NP -> ps_notice (c_ps (s_ca s)) p Open = Some ps' -> coh_ps (upd pg p POpen) ps' ->
  (f_fuel (s_fl s) = None \/ tearable (pg p)) ->
  (forall s', world (upd pg p POpen) f0 (L ++ [DE p]) s' -> fr s s' -> c_ps (s_ca s') = ps' -> Q tt s') ->
  (forall s' x, torn_page (pg p) x -> crashed (upd pg p x) f0 (L ++ [DE p]) s' -> E (EStorage SShutoff) s') ->
  wp (open_page g p) Q E s.
Proof.
  intros WD Hp N1 N2 T HQ HE. eapply wp_open_page1; eauto; [tauto|].
  intros s' x [X|(sl & _ & _ & X & Y)] _ C _; [eauto|tauto].
Qed.
Lemma wp_open_page p ps' pg f0 L (Q : unit -> st K -> Prop) (E : err -> st K -> Prop) s :
  world pg f0 L s -> p < NP -> ps_notice (c_ps (s_ca s)) p Open = Some ps' -> coh_ps (upd pg p POpen) ps' ->
  (ws = true \/ tearable (pg p)) ->
  (forall s', world (upd pg p POpen) f0 (L ++ [DE p]) s' -> fr s s' -> c_ps (s_ca s') = ps' -> Q tt s') ->
  (forall s' x, torn_page (pg p) x -> crashed (upd pg p x) f0 (L ++ [DE p]) s' -> E (EStorage SShutoff) s') ->
  wp (open_page g p) Q E s.
Proof.
  intros WD Hp N1 N2 T HQ HE. eapply wp_open_page0; eauto. destruct T as [T|T]; auto. left. apply WD. auto.
Qed.

Definition zeros : list N := repeat 0%N W.

Lemma wp_partial_close_any p f c k bad pg f0 L (Q : pstate -> st K -> Prop) (E : err -> st K -> Prop) s :
  world pg f0 L s -> ringst NP (fun q => st_of (pg q)) f c 0 (S k) bad ->
  (1 <= c \/ (p = 0 /\ bad = 0)) -> p < NP -> pos NP f p = c -> st_of (pg p) = Some Open ->
  (forall s' x, started (pg p) x -> world (upd pg p x) f0 (L ++ [DW (paddr g p) zeros]) s' -> fr s s' -> kn s' p PartialOpen -> Q PartialOpen s') ->
  (forall s' x, x = pg p \/ started (pg p) x -> crashed (upd pg p x) f0 (L ++ [DW (paddr g p) zeros]) s' -> E (EStorage SShutoff) s') ->
  wp (partial_close g p) Q E s.
Proof.
  intros Wd RG H Hp P O HQ HE. unfold partial_close. apply wp_bind. apply (wp_psc p pg f0 L); auto.
  { repeat eexists; exact RG || apply RG. }
  2:{ congruence. }
  intros s1 x Sx (R & FW & CP & CQ) Fr _ FL. rewrite O in Sx. injection Sx as <-. cbn [pstate_eqb negb].
  destruct (notice_T1 pg (c_ps (s_ca s1)) f c k bad p CP RG H Hp P O) as (ps' & N1 & N2 & N3).
  apply wp_bind. unfold wp at 1, c_notice_ps. cbv zeta. rewrite N1.
  set (s2 := set_ca s1 _). apply wp_bind. fold zeros.
  pose proof (pend_eq g p). pose proof (ES_big g gok). pose proof (START_paddr g p). pose proof (pend_FEND g p Hp). pose proof (W_pos g gok).
  apply (recs_world _ [DW (paddr g p) zeros] f0 L s2); [apply recs_write|exact R|].
  assert (LZ : length zeros = W) by apply repeat_length.
  assert (FRr : fr s s2) by (destruct Fr as (? & ? & ? & ?); repeat split; auto).
  apply (wp_write g gok); rewrite ?LZ; auto with al; try lia.
  - intros f' PR RR. apply wp_ret.
    destruct (page_restarted g gok ws _ f' p (pg p) W (proj1 (proj2 FW) p Hp) O ltac:(lia) PR) as (x & X1 & X2).
    apply (HQ _ x); auto.
    split; [exact RR|]. split; [|split].
    + eapply prog_fworld; eauto; [rewrite LZ; lia|intros _; eapply started_nobad; eauto].
    + apply N2. destruct (pg p); try contradiction; [rewrite X1|destruct X1 as (sl & ->)]; reflexivity.
    + cbn. replace (pp_page_state _ p PartialOpen) with (c_pp (s_ca s1)) by (destruct (c_pp (s_ca s1)); reflexivity).
      apply coh_pp_upd; auto. intros er wr E1 _. rewrite E1 in CQ. specialize (CQ p Hp).
      assert (NU : ~ used (pg p)) by (destruct (pg p); try discriminate O; intros []).
      split; intros a Ea; apply CQ in Ea; destruct Ea as [Ea _]; contradiction.
  - intros f' j Fu Hj _ PR RR. specialize (RR _ eq_refl). change (s_fl s2) with (s_fl s1) in *.
    assert (Ws : ws = false). { destruct FW as (_ & _ & _ & _ & X). destruct ws; auto. exfalso. apply Fu. auto. }
    unfold zeros in PR. rewrite firstn_repeat in PR by lia.
    assert (PI : page_is g ws (s_fl s1) p (pg p)) by (apply FW; auto).
    destruct (Nat.eq_dec j 0) as [->|J0].
    + apply (HE _ (pg p)); auto. split; [exact RR|]. split; [|split; [|split; auto]].
      * eapply prog_fworld; [exact FW|exact Hp|exact PR|lia|cbn; lia| |intros _ Z; rewrite Z in O; discriminate]. eapply page_is_ext; [exact gok| |exact PI]. intros y _. eapply prog_out; eauto. cbn. lia.
      * unfold wfc. cbn. exact (coh_ps_wf _ _ (N2 (PPart []) eq_refl)).
    + destruct (page_restarted g gok ws _ f' p (pg p) j PI O ltac:(lia) PR) as (x & X1 & X2).
      apply (HE _ x); auto. split; [exact RR|]. split; [|split; [|split; auto]].
      * eapply prog_fworld; [exact FW|exact Hp|exact PR|lia|rewrite repeat_length; lia|exact X2|intros _; eapply started_nobad; eauto].
      * unfold wfc. cbn. exact (coh_ps_wf _ _ (N2 (PPart []) eq_refl)).
Qed.

Lemma wp_partial_close_open p f c k bad pg f0 L (Q : pstate -> st K -> Prop) (E : err -> st K -> Prop) s :
  world pg f0 L s -> ringst NP (fun q => st_of (pg q)) f c 0 (S k) bad ->
  (1 <= c \/ (p = 0 /\ bad = 0)) -> p < NP -> pos NP f p = c -> pg p = POpen ->
  (forall s', world (upd pg p (PPart [])) f0 (L ++ [DW (paddr g p) zeros]) s' -> fr s s' -> kn s' p PartialOpen -> Q PartialOpen s') ->
  (forall s' x, x = POpen \/ x = PPart [] -> crashed (upd pg p x) f0 (L ++ [DW (paddr g p) zeros]) s' -> E (EStorage SShutoff) s') ->
  wp (partial_close g p) Q E s.
Proof.
  intros WD RG H Hp P O HQ HE. eapply wp_partial_close_any; eauto.
  - now rewrite O.
  - intros s' x St. rewrite O in St. cbn in St. subst x. auto.
  - intros s' x St. rewrite O in St. cbn in St. eauto.
Qed.

Lemma wp_partial_close_other p pg f0 L (Q : pstate -> st K -> Prop) (E : err -> st K -> Prop) s :
  world pg f0 L s -> ring_ex pg -> p < NP -> st_of (pg p) <> Some Open ->
  (forall s' x, st_of (pg p) = Some x -> world pg f0 L s' -> fr s s' -> obs s s' p x -> s_fl s' = s_fl s -> Q x s') ->
  (st_of (pg p) = None -> E ECorrupted s) ->
  wp (partial_close g p) Q E s.
Proof.
  intros Wd RE Hp NO HQ HE. unfold partial_close. apply wp_bind. apply (wp_psc p pg f0 L); auto.
  intros s' x Sx W' Fr O FL. assert (pstate_eqb x Open = false) as ->.
  { destruct x; auto. congruence. }
  cbn [negb]. apply wp_ret. apply HQ; auto.
Qed.

Lemma wp_close_page p f c k bad sl pg f0 L (Q : unit -> st K -> Prop) (E : err -> st K -> Prop) s :
  world pg f0 L s -> ringst NP (fun q => st_of (pg q)) f c 1 (S k) bad ->
  p < NP -> pos NP f p = c -> pg p = PPart sl -> kn s p PartialOpen -> kn s (next_page g p) Open ->
  (forall s', world (upd pg p (PClosed sl)) f0 (L ++ [DW (dend g p) zeros]) s' -> fr s s' -> Q tt s') ->
  (forall s' x, x = PPart sl \/ x = PClosed sl -> crashed (upd pg p x) f0 (L ++ [DW (dend g p) zeros]) s' -> E (EStorage SShutoff) s') ->
  wp (close_page g p) Q E s.
Proof.
  intros Wd RG Hp P O K1 K2 HQ HE. unfold close_page. apply wp_bind.
  (* the state is known, so that asking for it changes nothing *)
  assert (G : wp (partial_close g p) (fun x s' => x = PartialOpen /\ world pg f0 L s' /\ fr s s' /\ kn s' p PartialOpen /\ kn s' (next_page g p) Open) E s).
  { unfold partial_close, page_state_c. apply wp_bind, wp_bind. unfold wp at 1, c_get_ps. pose proof Wd as (R & FW & CP & CQ).
    pose proof (page_state_eq g gok ws p (pg p) s Hp (proj1 (proj2 FW) p Hp)) as PS. rewrite O in PS. cbn [st_of] in PS.
    unfold kn in K1, K2.
    destruct (c_ps (s_ca s)) as [|l|kk] eqn:EC; cbn [ps_get knp] in *.
    - eapply wp_ok; [exact PS|]. apply wp_bind. unfold wp, c_notice_ps. cbv zeta. rewrite EC. cbn. split; auto. split; [|repeat split].
      split; auto. split; auto. split; [exact I|]. apply coh_pp_open; auto. now rewrite O.
    - destruct CP as [LL CP]. destruct (nth_error l p) as [o|] eqn:EN; [|apply nth_error_None in EN; lia]. destruct o as [x|].
      + pose proof (CP p x Hp EN) as X. rewrite O in X. injection X as <-. apply wp_ret. cbn [pstate_eqb negb]. apply wp_ret.
        split; auto. split; auto. split; [apply fr_refl|]. unfold kn. rewrite EC. cbn. auto.
      + eapply wp_ok; [exact PS|]. apply wp_bind. unfold wp, c_notice_ps. cbv zeta. rewrite EC. cbn [ps_notice].
        assert (p <? length l = true) as -> by (apply Nat.ltb_lt; lia). split; auto. split; [|repeat split].
        split; auto. split; auto. split; [|apply coh_pp_open; auto; now rewrite O]. cbn. rewrite list_set_length. split; auto.
        intros q y Hq. rewrite nes. destruct (Nat.eqb_spec q p) as [->|N]; auto.
        destruct (p <? length l); [|discriminate]. intros [= <-]. now rewrite O.
    - rewrite K1. apply wp_ret. cbn [pstate_eqb negb]. apply wp_ret. split; auto. split; auto. split; [apply fr_refl|]. unfold kn. rewrite EC. cbn. auto. }
  eapply wp_mono; [exact G| |auto]; cbn beta. clear G Wd K1 K2.
  intros x s1 (-> & (R & FW & CP & CQ) & Fr & K1 & K2). cbn [pstate_eqb negb].
  destruct (notice_T2 pg (c_ps (s_ca s1)) f c k bad p sl CP RG Hp P K1 K2) as (ps' & N1 & N2 & _).
  apply wp_bind. unfold wp at 1, c_notice_ps. cbv zeta. rewrite N1.
  set (s2 := set_ca s1 _). fold zeros. change (pend g p - W) with (dend g p).
  pose proof (pend_eq g p). pose proof (dend_lt g gok p). pose proof (ES_big g gok). pose proof (START_paddr g p). pose proof (pend_FEND g p Hp). pose proof (W_pos g gok).
  apply (recs_world _ [DW (dend g p) zeros] f0 L s2); [apply recs_write|exact R|].
  assert (LZ : length zeros = W) by apply repeat_length.
  assert (FRr : fr s s2) by (destruct Fr as (? & ? & ? & ?); repeat split; auto).
  assert (PI : page_is g ws (s_fl s1) p (PPart sl)) by (rewrite <- O; apply FW; auto).
  apply (wp_write g gok); rewrite ?LZ; auto with al; try lia.
  - intros f' PR RR. apply HQ; auto.
    split; [exact RR|]. split; [|split].
    + eapply prog_fworld; [exact FW|exact Hp|exact PR|lia|rewrite LZ; lia| |discriminate]. apply (page_closing g gok ws (s_fl s1) f' p sl W PI ltac:(lia) PR). reflexivity.
    + exact N2.
    + cbn. replace (pp_page_state _ p Closed) with (c_pp (s_ca s1)) by (destruct (c_pp (s_ca s1)); reflexivity).
      apply coh_pp_upd; auto. intros er wr E1 _. rewrite E1 in CQ. specialize (CQ p Hp). rewrite O in CQ.
      split; intros a Ea; apply CQ in Ea; destruct Ea as [_ Ea]; (split; [exact I|exact Ea]).
  - intros f' j Fu Hj _ PR RR. specialize (RR _ eq_refl). change (s_fl s2) with (s_fl s1) in *.
    assert (Ws : ws = false). { destruct FW as (_ & _ & _ & _ & X). destruct ws; auto. exfalso. apply Fu. auto. }
    unfold zeros in PR. rewrite firstn_repeat in PR by lia.
    destruct (page_closing g gok ws (s_fl s1) f' p sl j PI ltac:(lia) PR) as [_ X]. destruct (X Ws) as [Y|Y];
      (eapply HE; [|split; [exact RR|split; [eapply prog_fworld; [exact FW|exact Hp|exact PR|lia|rewrite repeat_length; lia|exact Y|discriminate]|split; [|split; auto]]]]; auto);
      unfold wfc; cbn; eapply coh_ps_wf; eauto.
Qed.

(** * Items *)
Definition fitsb (sl : list slot) (n : nat) : bool := sizes g sl + (HL + rup n) <=? cap g.

Lemma used_body pg f p : fworld pg f -> p < NP -> used (pg p) -> body g ws f p (slots_of (pg p)).
Proof. intros FW Hp U. eapply page_body; [apply FW; auto|exact U]. Qed.

(** Pages whose items can be read. *)
Definition readable (x : page) : Prop := match x with PClosed _ | PPart _ | PJunk _ _ => True | _ => False end.
Lemma used_readable x : used x -> readable x.
Proof. destruct x; cbn; auto. Qed.
Lemma readable_body pg f p : fworld pg f -> p < NP -> readable (pg p) -> jbody g (f_mem f) p (slots_of (pg p)).
Proof.
  intros FW Hp U. pose proof (proj1 (proj2 FW) p Hp) as H. destruct (pg p); try contradiction.
  - eapply body_jbody. eapply (page_body g ws f p (PClosed sl)); [exact H|exact I].
  - eapply body_jbody. eapply (page_body g ws f p (PPart sl)); [exact H|exact I].
  - apply H.
Qed.

Lemma avail_eq n : al g n -> avail g n = if HL <=? n then Some (n - HL) else None.
Proof. intros A. unfold avail. rewrite (rdown_al g gok) by auto. reflexivity. Qed.

Lemma dead_skipped l : Forall dead l -> forallb (skipped is_erased_hdr) l = true.
Proof. induction 1 as [|x l H]; auto. destruct x; try contradiction. exact IHForall. Qed.

Lemma find_end p s sl pre rest skip : body g ws (s_fl s) p sl -> p < NP -> sl = pre ++ rest ->
  forallb (skipped skip) rest = true ->
  traverse g (tfuel (dstart g p + sizes g pre) (dend g p)) skip (dstart g p + sizes g pre) (dend g p) s =
  (Ok (None, dstart g p + sizes g sl, dstart g p + sizes g sl), s).
Proof.
  intros B Hp -> F. destruct (body_seg g gok ws _ _ _ B) as (S & L & E). apply seg_app in S. destruct S as (c & S1 & S2).
  pose proof (seg_end g _ _ _ _ _ S1) as ->. pose proof (dend_lt g gok p). pose proof (pend_FEND g p Hp). pose proof (START_paddr g p).
  eapply (traverse_eq g gok (dend g p)); [| | |exact S2|exact F| |].
  - lia.
  - apply (al_add g gok); auto with al. now apply sizes_al.
  - unfold dstart. lia.
  - unfold stop_at. now rewrite E.
  - eapply tfuel_len'; eauto.
Qed.

Lemma find_free_eq pg f0 L s p n : world pg f0 L s -> p < NP -> used (pg p) ->
  find_free g (dstart g p) (dend g p) n s =
  (Ok (if fitsb (slots_of (pg p)) n then Some (dstart g p + sizes g (slots_of (pg p))) else None), s).
Proof.
  intros (_ & FW & _ & CQ) Hp U. pose proof (used_body _ _ _ FW Hp U) as B. set (sl := slots_of (pg p)) in *.
  unfold find_free. rewrite (pindex_dstart g gok). unfold bind at 1, c_after_written. cbv beta iota.
  pose proof (cap_eq g gok p) as CE. destruct (body_seg g gok ws _ _ _ B) as (S & L' & E).
  pose proof (sizes_al g gok sl) as SA. pose proof (al_dstart g gok p) as DA. pose proof (al_dend g gok p) as DEA.
  set (fa := dstart g p + sizes g sl) in *.
  assert (TAIL : (if dend g p <? fa then fail EPanic
     else match avail g (dend g p - fa) with Some av => ret (if n <=? av then Some fa else None) | None => ret None end) s
     = (Ok (if fitsb sl n then Some fa else None), s)).
  { destruct (Nat.ltb_spec (dend g p) fa); [lia|]. rewrite avail_eq by (apply (al_sub g gok); auto; apply (al_add g gok); auto).
    unfold fitsb. destruct (Nat.leb_spec HL (dend g p - fa)) as [X|X].
    - unfold ret. f_equal. f_equal. destruct (Nat.leb_spec n (dend g p - fa - HL)) as [Y|Y];
        destruct (Nat.leb_spec (sizes g sl + (HL + rup n)) (cap g)) as [Z|Z]; auto; exfalso.
      + assert (rup n <= dend g p - fa - HL); [|lia]. apply (rup_min g gok); auto.
        apply (al_sub g gok); [|apply al_HL; auto]. apply (al_sub g gok); auto. apply (al_add g gok); auto.
      + pose proof (rup_ge g gok n). lia.
    - destruct (Nat.leb_spec (sizes g sl + (HL + rup n)) (cap g)); auto. lia. }
  assert (TRAV : forall pre rest, sl = pre ++ rest ->
     traverse g (tfuel (dstart g p + sizes g pre) (dend g p)) (fun _ => true) (dstart g p + sizes g pre) (dend g p) s = (Ok (None, fa, fa), s)).
  { intros pre rest E1. eapply find_end; eauto. apply forallb_forall. intros x _. unfold skipped. destruct (shdr x); auto. }
  assert (T0 := TRAV [] sl eq_refl). change (sizes g []) with 0 in T0. rewrite Nat.add_0_r in T0.
  destruct (c_pp (s_ca s)) as [|er wr] eqn:EP.
  - cbn [pp_written]. unfold bind at 1 2, c_after_erased. rewrite EP. cbn [pp_erased]. cbv beta iota. rewrite Nat.max_0_l.
    unfold bind at 1. rewrite T0. exact TAIL.
  - destruct (CQ p Hp) as [C1 C2]. cbn [pp_written pp_erased].
    destruct (lookup wr p) as [a|] eqn:LW.
    + destruct (C2 a eq_refl) as [_ ->]. unfold bind, ret. exact TAIL.
    + unfold bind at 1 2, c_after_erased. rewrite EP. cbn [pp_erased]. cbv beta iota.
      destruct (lookup er p) as [a|] eqn:LE.
      * destruct (C1 a eq_refl) as (_ & pre & rest & E1 & _ & ->). rewrite Nat.max_l by lia.
        unfold bind at 1. rewrite (TRAV pre rest E1). exact TAIL.
      * rewrite Nat.max_0_l. unfold bind at 1. rewrite T0. exact TAIL.
Qed.

Lemma from_er pg s p : coh pg (s_ca s) -> p < NP -> used (pg p) ->
  exists pre rest, slots_of (pg p) = pre ++ rest /\ Forall dead pre /\
    (match pp_erased (c_pp (s_ca s)) p with Some x => x | None => dstart g p end) = dstart g p + sizes g pre.
Proof.
  intros [_ CQ] Hp U. destruct (pp_erased (c_pp (s_ca s)) p) as [a|] eqn:E.
  - destruct (c_pp (s_ca s)) as [|er wr]; [discriminate|]. destruct (CQ p Hp) as [C1 _]. destruct (C1 a E) as (_ & pre & rest & A & B & C).
    exists pre, rest. auto.
  - exists [], (slots_of (pg p)). cbn. rewrite Nat.add_0_r. auto.
Qed.

Definition emptyish (sl : list slot) : bool := forallb (skipped is_erased_hdr) sl.

Lemma trav_first p s sl pre rest : body g ws (s_fl s) p sl -> p < NP -> sl = pre ++ rest ->
  forall l x r, rest = l ++ x :: r -> emptyish l = true -> skipped is_erased_hdr x = false ->
  forall h, shdr x = Some h ->
  traverse g (tfuel (dstart g p + sizes g pre) (dend g p)) is_erased_hdr (dstart g p + sizes g pre) (dend g p) s =
  (Ok (Some h, dstart g p + sizes g (pre ++ l), dstart g p + sizes g (pre ++ l ++ [x])), s).
Proof.
  intros B Hp -> l x r -> F Sx h Hh. destruct (body_seg g gok ws _ _ _ B) as (S & L & E). apply seg_app in S. destruct S as (c & S1 & S2).
  pose proof (seg_end g _ _ _ _ _ S1) as ->. pose proof (dend_lt g gok p). pose proof (pend_FEND g p Hp). pose proof (START_paddr g p).
  apply seg_app in S2. destruct S2 as (c & S2 & S3). pose proof (seg_end g _ _ _ _ _ S2) as ->. cbn [seg] in S3. destruct S3 as [S3 S4].
  eapply (traverse_eq g gok (dend g p)); [| | |exact S2|exact F| |].
  - lia.
  - apply (al_add g gok); auto with al. now apply sizes_al.
  - unfold dstart. lia.
  - unfold stop_at. destruct S3 as [S3 _]. rewrite S3, Hh. unfold skipped in Sx. rewrite Hh in Sx. rewrite Sx.
    f_equal. f_equal; [f_equal|].
    + rewrite sizes_app. lia.
    + rewrite !sizes_app. unfold next_addr. assert (sizes g [x] = HL + rup (h_len h)) as ->; [|lia].
      unfold sizes. cbn. unfold ssize. rewrite Hh. lia.
  - eapply tfuel_len'; eauto.
Qed.

Lemma first_nonempty l : emptyish l = true \/ exists a x b, l = a ++ x :: b /\ emptyish a = true /\ skipped is_erased_hdr x = false.
Proof.
  induction l as [|x l IH]; [now left|]. unfold emptyish in *. cbn [forallb]. destruct (skipped is_erased_hdr x) eqn:E.
  - destruct IH as [IH|(a & y & b & -> & A & B)]; [now left|]. right. exists (x :: a), y, b. cbn. rewrite E. auto.
  - right. exists [], x, l. auto.
Qed.
Lemma skipped_hdr x : skipped is_erased_hdr x = false -> exists h, shdr x = Some h.
Proof. unfold skipped. destruct (shdr x); [eauto|discriminate]. Qed.
Lemma emptyish_app a b : emptyish (a ++ b) = emptyish a && emptyish b.
Proof. apply forallb_app. Qed.

Lemma is_page_empty_closed pg f0 L s p : world pg f0 L s -> p < NP -> used (pg p) ->
  is_page_empty g p Closed s = (Ok (emptyish (slots_of (pg p))), s).
Proof.
  intros (_ & FW & C) Hp U. pose proof (used_body _ _ _ FW Hp U) as B. cbn [is_page_empty].
  destruct (from_er pg s p C Hp U) as (pre & rest & E1 & D & FR). unfold bind at 1, c_after_erased. cbv beta iota zeta. rewrite FR.
  assert (emptyish (slots_of (pg p)) = emptyish rest) as ->.
  { rewrite E1, emptyish_app. unfold emptyish at 1. now rewrite dead_skipped. }
  unfold bind. destruct (first_nonempty rest) as [Z|(a & x & b & E2 & A & X)].
  - rewrite (find_end p s _ pre rest is_erased_hdr B Hp E1 Z). cbn [fst snd]. rewrite Z. reflexivity.
  - destruct (skipped_hdr x X) as [h Hh].
    rewrite (trav_first p s _ pre rest B Hp E1 a x b E2 A X h Hh). cbn [fst snd].
    assert (emptyish rest = false) as ->; [|reflexivity].
    rewrite E2, emptyish_app. unfold emptyish at 2. cbn [forallb]. rewrite X. now rewrite andb_false_r.
Qed.

Lemma wp_write_item1 p d sl a pg f0 L (Q : unit -> st K -> Prop) (E : err -> st K -> Prop) s :
  world pg f0 L s -> p < NP -> pg p = PPart sl -> a = dstart g p + sizes g sl -> data_ok d ->
  fitsb sl (length d) = true -> (ws = true \/ torn_safe d /\ (8 <= W \/ HL <= aw)) ->
  (forall s', world (upd pg p (PPart (sl ++ [SLive d]))) f0 (L ++ item_ops a d) s' -> fr s s' -> c_ps (s_ca s') = c_ps (s_ca s) ->
     prog (s_fl s) (s_fl s') a (item_bytes g d) -> Q tt s') ->
  (forall s' tl j, torn_item g d tl -> crashed (upd pg p (PPart (sl ++ tl))) f0 (L ++ item_ops a d) s' ->
     j < length (item_bytes g d) -> prog (s_fl s) (s_fl s') a (firstn j (item_bytes g d)) -> E (EStorage SShutoff) s') ->
  wp (write_raw g (ihdr d) d a) Q E s.
Proof.
  intros (R & FW & CP & CQ) Hp O Ea DO Fi TS HQ HE. unfold fitsb in Fi. apply Nat.leb_le in Fi.
  assert (PI : page_is g ws (s_fl s) p (PPart sl)) by (rewrite <- O; apply FW; auto).
  pose proof (cap_eq g gok p) as CE. pose proof (dend_lt g gok p). pose proof (pend_FEND g p Hp). pose proof (START_paddr g p).
  assert (SZ : ssize g (SLive d) = HL + rup (length d)) by reflexivity.
  pose proof (item_bytes_length g gok d) as IL. pose proof (HL_ge g gok).
  assert (AB : paddr g p <= a) by (unfold dstart in Ea; lia).
  apply (recs_world _ (item_ops a d) f0 L s); [apply recs_write_raw|exact R|].
  assert (Bd : body g ws (s_fl s) p sl) by apply PI.
  apply (wp_write_raw g gok d a); auto; try lia.
  - rewrite Ea. apply (al_add g gok); auto with al. now apply sizes_al.
  - intros f' PR RR. apply HQ; [|repeat split|reflexivity|exact PR]. split; [exact RR|]. split; [|split].
    + eapply prog_fworld; eauto; [lia| |discriminate]. change (PPart (sl ++ [SLive d])) with (with_slots (PPart sl) (sl ++ [SLive d])).
      eapply page_with; [exact gok|exact PI|exact I| |].
      * intros y Hy. eapply prog_out; [exact PR|]. unfold dstart in *; lia.
      * eapply body_write; [exact gok|exact Bd|exact DO|lia|]. rewrite <- Ea. exact PR.
    + cbn. destruct (c_ps (s_ca s)) as [|l|kk]; auto.
      * destruct CP as [LL CP]. split; auto. intros q x Hq Ex. specialize (CP q x Hq Ex). rewrite <- CP. unfold upd.
        destruct (Nat.eqb_spec q p) as [->|]; auto. now rewrite O.
      * eapply calc_coh_ext; [|exact CP]. intros q. rewrite st_of_upd. unfold upd. destruct (Nat.eqb_spec q p) as [->|]; auto. now rewrite O.
    + change (coh_pp (upd pg p (PPart (sl ++ [SLive d]))) (pp_item_written g (c_pp (s_ca s)) a (a + ssize g (SLive d)))).
      assert (PX : pindex g a = p) by (apply (pindex_data g gok); lia).
      set (nx := a + ssize g (SLive d)). assert (NZ : nonzero nx = Some nx) by (unfold nonzero, nx; destruct (Nat.eqb_spec (a + ssize g (SLive d)) 0); auto; lia).
      assert (Enx : nx = dstart g p + sizes g (sl ++ [SLive d])).
      { rewrite sizes_app. unfold sizes at 2. cbn [map list_sum fold_right]. unfold nx. lia. }
      destruct (c_pp (s_ca s)) as [|er wr]; auto. cbn [pp_item_written]. cbv zeta. rewrite PX, NZ.
      assert (ER : forall x, lookup er p = Some x -> ptr_er p (PPart (sl ++ [SLive d])) x).
      { intros x X. destruct (CQ p Hp) as [C1 _]. destruct (C1 x X) as (_ & pre & rest & A1 & A2 & A3). rewrite O in A1. cbn in A1. split; [exact I|].
        exists pre, (rest ++ [SLive d]). cbn. rewrite A1, app_assoc. auto. }
      assert (G : coh_pp (upd pg p (PPart (sl ++ [SLive d]))) (PPArray er (list_set wr p (Some nx)))).
      { intros q Hq. destruct (Nat.eq_dec q p) as [->|N].
        - rewrite upd_same. split; auto. intros x. unfold lookup. rewrite nes, Nat.eqb_refl.
          destruct (p <? length wr); [|discriminate]. intros [= <-]. split; [exact I|]. exact Enx.
        - rewrite upd_other by auto. destruct (CQ q Hq) as [C1 C2]. split; auto. intros x. unfold lookup. rewrite nes.
          destruct (Nat.eqb_spec q p); [contradiction|]. apply C2. }
      destruct (lookup wr p) as [old|] eqn:LW; auto. destruct (CQ p Hp) as [_ C2]. destruct (C2 old LW) as [_ Eo]. rewrite O in Eo. cbn [slots_of] in Eo.
      destruct (Nat.leb_spec nx old); auto. exfalso. unfold nx in *. lia.
  - intros f' j Fu Hj Haw PR RR. specialize (RR _ eq_refl).
    assert (Ws : ws = false). { destruct FW as (_ & _ & _ & _ & X). destruct ws; auto. exfalso. apply Fu. auto. }
    destruct TS as [TS|[TS TW]]; [congruence|].
    assert (Eaw : f_aw (s_fl s) = aw) by apply FW.
    pose proof PR as PR0. rewrite Ea in PR.
    destruct (body_torn g gok ws (s_fl s) f' p sl d j) as (tl & T1 & T2); auto; try lia.
    + apply (HE _ tl j); auto. split; [exact RR|]. split; [|split; [|split; auto]].
      * assert (FLn : length (firstn j (item_bytes g d)) <= ssize g (SLive d)) by (rewrite firstn_length; lia).
        eapply prog_fworld; eauto; try lia; [|discriminate]. change (PPart (sl ++ tl)) with (with_slots (PPart sl) (sl ++ tl)).
        eapply page_with; [exact gok|exact PI|exact I| |exact T2].
        intros y Hy. eapply prog_out; [exact PR|]. unfold dstart in *; lia.
      * unfold wfc. cbn. eapply coh_ps_wf; eauto.
Qed.

Lemma wp_write_item p d sl a pg f0 L (Q : unit -> st K -> Prop) (E : err -> st K -> Prop) s :
  world pg f0 L s -> p < NP -> pg p = PPart sl -> a = dstart g p + sizes g sl -> data_ok d ->
  fitsb sl (length d) = true -> (ws = true \/ torn_safe d /\ (8 <= W \/ HL <= aw)) ->
  (forall s', world (upd pg p (PPart (sl ++ [SLive d]))) f0 (L ++ item_ops a d) s' -> fr s s' -> c_ps (s_ca s') = c_ps (s_ca s) -> Q tt s') ->
  (forall s' tl, torn_item g d tl -> crashed (upd pg p (PPart (sl ++ tl))) f0 (L ++ item_ops a d) s' -> E (EStorage SShutoff) s') ->
  wp (write_raw g (ihdr d) d a) Q E s.
Proof. intros WD Hp O Ea DO Fi TS HQ HE. eapply wp_write_item1; eauto. Qed.

Definition erase_op (a : nat) (d : list N) : dop := DW a (hdr_bytes g (mkhdr (length d) None)).

Lemma recs_erase_data h a s : recs (erase_data g h a) [DW a (hdr_bytes g (mkhdr (h_len h) None))] s.
Proof.
  unfold erase_data. cbv zeta. match goal with |- recs _ ?l _ => change l with ([] ++ l) end.
  apply recs_bind; [reflexivity|]. intros _ s1 _. apply recs_write.
Qed.

Lemma sizes_cons x l : sizes g (x :: l) = ssize g x + sizes g l.
Proof. reflexivity. Qed.
Lemma split_sizes l x r pre rest : l ++ x :: r = pre ++ rest -> sizes g pre = sizes g l -> pre = l.
Proof.
  revert pre. induction l as [|y l IH]; intros [|z pre] E H; auto.
  - exfalso. rewrite sizes_cons in H. change (sizes g []) with 0 in H. pose proof (ssize_pos g gok z). lia.
  - exfalso. rewrite sizes_cons in H. change (sizes g []) with 0 in H. pose proof (ssize_pos g gok y). lia.
  - cbn in E. injection E as <- E. f_equal. apply IH; auto. rewrite !sizes_cons in H. lia.
Qed.
Lemma split_dead l d r pre rest : l ++ SLive d :: r = pre ++ rest -> Forall dead pre -> exists t, l = pre ++ t /\ rest = t ++ SLive d :: r.
Proof.
  revert pre. induction l as [|y l IH]; intros [|z pre] E H.
  - exists []. auto.
  - cbn in E. injection E as <- E. inversion H; contradiction.
  - exists (y :: l). auto.
  - cbn in E. injection E as <- E. inversion H; subst. destruct (IH pre E H3) as (t & -> & ->). exists t. auto.
Qed.
Lemma sizes_live_dead l d r : sizes g (l ++ SDead (length d) :: r) = sizes g (l ++ SLive d :: r).
Proof. rewrite !sizes_app. reflexivity. Qed.

Lemma wp_erase_item p h d l r a pg f0 L (Q : unit -> st K -> Prop) (E : err -> st K -> Prop) s :
  world pg f0 L s -> p < NP -> used (pg p) -> slots_of (pg p) = l ++ SLive d :: r -> a = dstart g p + sizes g l -> h_len h = length d ->
  (forall s', world (upd pg p (with_slots (pg p) (l ++ SDead (length d) :: r))) f0 (L ++ [erase_op a d]) s' -> fr s s' ->
     c_ps (s_ca s') = c_ps (s_ca s) -> Q tt s') ->
  (forall s' y, y = SLive d \/ y = SDead (length d) \/ (exists c, y = SCorr (length d) c) ->
     crashed (upd pg p (with_slots (pg p) (l ++ y :: r))) f0 (L ++ [erase_op a d]) s' -> E (EStorage SShutoff) s') ->
  wp (erase_data g h a) Q E s.
Proof.
  intros (R & FW & CP & CQ) Hp U O Ea Hh HQ HE.
  assert (PI : page_is g ws (s_fl s) p (pg p)) by (apply FW; auto).
  pose proof (used_body _ _ _ FW Hp U) as Bd. rewrite O in Bd.
  pose proof (cap_eq g gok p) as CE. pose proof (dend_lt g gok p). pose proof (pend_FEND g p Hp). pose proof (START_paddr g p).
  pose proof (HL_ge g gok). destruct (slot_in_page g gok ws _ _ _ _ _ Bd) as [SA SL].
  assert (SZ : ssize g (SLive d) = HL + rup (length d)) by reflexivity.
  apply (recs_world _ [erase_op a d] f0 L s); [unfold erase_op; rewrite <- Hh; apply recs_erase_data|exact R|].
  unfold erase_data. rewrite Hh. apply wp_bind. unfold wp at 1, c_item_erased. cbv zeta. set (s1 := set_ca s _).
  pose proof (hdr_bytes_length g gok (mkhdr (length d) None)) as LH. unfold hdr_write.
  assert (AB : paddr g p <= a) by (unfold dstart in Ea; lia).
  set (x' := with_slots (pg p) (l ++ SDead (length d) :: r)).
  assert (Sx' : st_of x' = st_of (pg p)) by (unfold x'; destruct (pg p); auto; contradiction).
  assert (SLx' : slots_of x' = l ++ SDead (length d) :: r) by (unfold x'; destruct (pg p); auto; contradiction).
  assert (Ux' : used x') by (unfold x'; destruct (pg p); auto).
  apply (wp_write g gok); rewrite ?LH; auto with al; try lia.
  - rewrite Ea. apply (al_add g gok); auto with al. now apply sizes_al.
  - intros f' PR RR. change (s_fl s1) with (s_fl s) in *. apply HQ; [|repeat split|reflexivity]. split; [exact RR|]. split; [|split].
    + eapply prog_fworld; eauto; [lia| |intros _; now apply with_nobad]. eapply page_with; eauto.
      * intros y Hy. eapply prog_out; [exact PR|]. unfold dstart in *; lia.
      * rewrite Ea in PR. destruct (body_erase g gok ws (s_fl s) f' p l d r HL (proj1 FW) Bd) as [X _].
        -- rewrite <- LH at 1. rewrite firstn_all. exact PR.
        -- apply X. lia.
    + fold x'. cbn. destruct (c_ps (s_ca s)) as [|ll|kk]; auto.
      * destruct CP as [LL CP]. split; auto. intros q x Hq Ex. specialize (CP q x Hq Ex). rewrite <- CP. unfold upd.
        destruct (Nat.eqb_spec q p) as [->|]; auto.
      * eapply calc_coh_ext; [|exact CP]. intros q. rewrite st_of_upd. unfold upd. destruct (Nat.eqb_spec q p) as [->|]; auto.
    + fold x'. change (coh_pp (upd pg p x') (pp_item_erased g (c_pp (s_ca s)) a (next_addr g a (mkhdr (length d) None)))).
      assert (PX : pindex g a = p) by (apply (pindex_data g gok); lia).
      set (nx := next_addr g a (mkhdr (length d) None)). assert (Enx : nx = dstart g p + sizes g (l ++ [SDead (length d)])).
      { rewrite sizes_app. unfold sizes at 2. cbn [map list_sum fold_right]. unfold nx, next_addr. cbn [h_len].
        assert (ssize g (SDead (length d)) = HL + rup (length d)) by reflexivity. lia. }
      assert (NZ : nonzero nx = Some nx) by (unfold nonzero; destruct (Nat.eqb_spec nx 0); auto; unfold nx, next_addr in *; lia).
      destruct (c_pp (s_ca s)) as [|er wr]; auto. cbn [pp_item_erased]. cbv zeta. rewrite PX, NZ.
      assert (WR : forall x, lookup wr p = Some x -> ptr_wr p x' x).
      { intros x X. destruct (CQ p Hp) as [_ C2]. destruct (C2 x X) as (_ & ->). split; auto. rewrite SLx', O. now rewrite sizes_live_dead. }
      destruct (Nat.eqb_spec a (match lookup er p with Some x => x | None => dstart g p end)) as [X|X].
      * assert (DL : Forall dead l).
        { destruct (lookup er p) as [o|] eqn:LE.
          - destruct (CQ p Hp) as [C1 _]. destruct (C1 o LE) as (_ & pre & rest & A1 & A2 & A3). rewrite O in A1.
            assert (pre = l); [|congruence]. eapply split_sizes; eauto. lia.
          - assert (Z0 : sizes g l = 0) by lia. destruct l as [|y l]; auto. rewrite sizes_cons in Z0. pose proof (ssize_pos g gok y). lia. }
        intros q Hq. destruct (Nat.eq_dec q p) as [->|N].
        -- rewrite upd_same. split; auto. intros y. unfold lookup. rewrite nes, Nat.eqb_refl.
           destruct (p <? length er); [|discriminate]. intros [= <-]. split; auto. exists (l ++ [SDead (length d)]), r.
           rewrite <- app_assoc. split; auto. split; auto. apply Forall_app. split; auto. constructor; auto. exact I.
        -- rewrite upd_other by auto. destruct (CQ q Hq) as [C1 C2]. split; auto. intros y. unfold lookup. rewrite nes.
           destruct (Nat.eqb_spec q p); [contradiction|]. apply C1.
      * apply coh_pp_upd; auto. intros er' wr' [= <- <-] _. split; auto. intros o LE. destruct (CQ p Hp) as [C1 _].
        destruct (C1 o LE) as (_ & pre & rest & A1 & A2 & A3). rewrite O in A1. destruct (split_dead _ _ _ _ _ A1 A2) as (t & -> & ->).
        split; auto. exists pre, (t ++ SDead (length d) :: r). rewrite SLx', <- app_assoc. auto.
  - intros f' j Fu Hj _ PR RR. specialize (RR _ eq_refl). change (s_fl s1) with (s_fl s) in *.
    assert (Ws : ws = false). { destruct FW as (_ & _ & _ & _ & X). destruct ws; auto. exfalso. apply Fu. auto. }
    rewrite Ea in PR.
    destruct (body_erase g gok ws (s_fl s) f' p l d r j (proj1 FW) Bd PR) as [_ X]. destruct (X Ws) as (y & Y1 & Y2).
    apply (HE _ y).
    + destruct Y1 as [[-> _]|[->|[c ->]]]; eauto.
    + split; [exact RR|]. split; [|split; [|split; auto]].
      * assert (FLn : length (firstn j (hdr_bytes g (mkhdr (length d) None))) <= HL) by (rewrite firstn_length; lia).
        eapply prog_fworld; eauto; try lia; [|intros _; now apply with_nobad]. eapply page_with; eauto.
        intros z Hz. eapply prog_out; [exact PR|]. unfold dstart in *; lia.
      * unfold wfc. cbn. eapply coh_ps_wf; eauto.
Qed.

(** * Dirty caches and repair *)
Lemma wp_check_dirty pg (Q : unit -> st K -> Prop) (E : err -> st K -> Prop) s :
  sworld pg s -> (forall s', world pg (s_fl s) [] s' -> s_buf s' = s_buf s -> s_qi s' = s_qi s -> s_mi s' = s_mi s ->
     s_fl s' = s_fl s -> (s' = s \/ s' = set_ca s (cache_inval (s_ca s))) -> Q tt s') ->
  wp c_check_dirty Q E s.
Proof.
  intros (FW & WF & C) HQ. unfold c_check_dirty. apply wp_bind. unfold wp at 1, c_is_dirty. destruct (c_dirty (s_ca s)) eqn:D.
  - unfold wp, c_inval. apply HQ; auto. split; [reflexivity|]. split; auto. now apply coh_inval.
  - destruct C as [C|C]; [congruence|]. apply wp_ret. apply HQ; auto. split; [reflexivity|]. auto.
Qed.

Definition rep (x : page) : page := match x with PBad => POpen | y => y end.
Definition isbad (x : page) : bool := match x with PBad => true | _ => false end.
Fixpoint rep_in pg (l : list nat) : nat -> page :=
  match l with [] => pg | p :: t => rep_in (upd pg p (rep (pg p))) t end.
Fixpoint rep_ops pg (l : list nat) : list dop :=
  match l with [] => [] | p :: t => (if isbad (pg p) then [DE p] else []) ++ rep_ops (upd pg p (rep (pg p))) t end.
Lemma rep_in_eq l : forall pg p, rep_in pg l p = if existsb (Nat.eqb p) l then rep (pg p) else pg p.
Proof.
  induction l as [|q l IH]; intros pg p; cbn [rep_in existsb]; auto. rewrite IH. destruct (Nat.eqb_spec p q) as [->|N]; cbn [orb].
  - rewrite upd_same. destruct (existsb _ l); auto. destruct (pg q); auto.
  - rewrite upd_other by auto. auto.
Qed.

(** Torn repair: half-erased pages may have become erased. *)
Definition rep_part pg pg' : Prop := forall p, pg' p = pg p \/ (pg p = PBad /\ pg' p = POpen).

Lemma upd_ext_self pg p x q : x = pg p -> upd pg p x q = pg q.
Proof. intros ->. unfold upd. destruct (Nat.eqb_spec q p) as [->|]; auto. Qed.
Lemma fworld_ext pg pg' f : (forall p, pg p = pg' p) -> fworld pg f -> fworld pg' f.
Proof. intros H (A & B & (C & D) & E). split; auto. split; [intros p Hp; rewrite <- H; auto|]. split; [|auto]. split; auto. intros AE p Hp. rewrite <- H. auto. Qed.
Lemma coh_ext pg pg' c : (forall p, pg p = pg' p) -> coh pg c -> coh pg' c.
Proof.
  intros H [A B]. split.
  - destruct (c_ps c) as [|l|k]; auto.
    + destruct A as [A1 A2]. split; auto. intros p x Hp E. rewrite <- H. auto.
    + eapply calc_coh_ext; [|exact A]. intros p. cbn. now rewrite H.
  - destruct (c_pp c) as [|er wr]; auto. intros p Hp. rewrite <- H. apply B. auto.
Qed.
Lemma world_ext pg pg' f0 L s : (forall p, pg p = pg' p) -> world pg f0 L s -> world pg' f0 L s.
Proof. intros H (A & B & C). split; auto. split; [eapply fworld_ext; eauto|eapply coh_ext; eauto]. Qed.
Lemma crashed_ext pg pg' f0 L s : (forall p, pg p = pg' p) -> crashed pg f0 L s -> crashed pg' f0 L s.
Proof. intros H (A & B & C). split; auto. split; auto. eapply fworld_ext; eauto. Qed.
Lemma sworld_ext pg pg' s : (forall p, pg p = pg' p) -> sworld pg s -> sworld pg' s.
Proof. intros H (A & B & C). split; [eapply fworld_ext; eauto|]. split; auto. destruct C; auto. right. eapply coh_ext; eauto. Qed.

Lemma wp_general_repair_in l : forall pg f0 L (Q : unit -> st K -> Prop) (E : err -> st K -> Prop) s,
  Forall (fun p => p < NP) l -> world pg f0 L s -> guessing (c_ps (s_ca s)) ->
  (forall s', world (rep_in pg l) f0 (L ++ rep_ops pg l) s' -> guessing (c_ps (s_ca s')) -> fr s s' -> Q tt s') ->
  (forall s' pg', rep_part pg pg' -> rep_ops pg l <> [] -> crashed pg' f0 (L ++ rep_ops pg l) s' -> E (EStorage SShutoff) s') ->
  wp (general_repair_in g l) Q E s.
Proof.
  induction l as [|p l IH]; intros pg f0 L Q E s F Wd G HQ HE; cbn [general_repair_in rep_in rep_ops] in *.
  - apply wp_ret. apply HQ; auto; [|apply fr_refl]. now rewrite app_nil_r.
  - inversion F; subst. apply wp_attempt. pose proof Wd as (R & FW & CP & CQ).
    pose proof (page_state_eq g gok ws p (pg p) s H1 (proj1 (proj2 FW) p H1)) as PS.
    destruct (isbad (pg p)) eqn:B.
    + assert (PB : pg p = PBad) by (revert B; clear; destruct (pg p); auto; discriminate). rewrite PB in *. cbn [st_of] in PS.
      unfold wp. rewrite PS. cbv iota. apply wp_bind.
      destruct (notice_T4 pg (c_ps (s_ca s)) p CP H1 PB G) as (ps' & N1 & N2 & N3).
      apply (wp_open_page p ps' pg f0 L); auto.
      * right. right. now rewrite PB.
      * intros s' W' Fr PS'. cbn [rep] in *. apply (IH (upd pg p POpen) f0 (L ++ [DE p])); auto.
        -- now rewrite PS'.
        -- intros s'' W'' G'' Fr''. apply HQ; auto; [|eapply fr_trans; eauto]. rewrite <- app_assoc in W''. exact W''.
        -- intros s'' pg' RP _ C''. apply (HE _ pg'); auto; [|discriminate|].
           ++ intros q. specialize (RP q). destruct (Nat.eq_dec q p) as [Eq|Nq].
              ** rewrite Eq in *. rewrite upd_same in RP. destruct RP as [RP|[RP _]]; [right; auto|discriminate].
              ** rewrite upd_other in RP by auto. exact RP.
           ++ rewrite <- app_assoc in C''. exact C''.
      * intros s' x T C'. rewrite PB in T. assert (x = PBad \/ x = POpen) by (destruct T as [->|[->| ->]]; auto).
        apply (HE _ (upd pg p x)); [|discriminate|].
        -- intros q. destruct (Nat.eq_dec q p) as [Eq|Nq].
           ++ rewrite Eq, upd_same, PB. destruct H as [->| ->]; auto.
           ++ rewrite upd_other by auto. auto.
        -- cbn [rep]. rewrite app_assoc. apply crashed_app. exact C'.
    + assert (NB : st_of (pg p) <> None) by (revert B; clear; destruct (pg p); cbn; congruence).
      assert (RPp : rep (pg p) = pg p) by (revert B; clear; destruct (pg p); auto; discriminate).
      destruct (st_of (pg p)) as [x|] eqn:X; [|congruence]. unfold wp. rewrite PS. cbv iota. apply wp_bind. apply wp_ret.
      cbn [app] in *. apply (IH (upd pg p (rep (pg p))) f0 L); auto.
      eapply world_ext; [|exact Wd]. intros q. symmetry. now apply upd_ext_self.
      intros s' pg' RP NE C'. apply (HE _ pg'); auto. intros q. specialize (RP q). rewrite !(upd_ext_self pg p) in RP; auto.
Qed.
End World.
