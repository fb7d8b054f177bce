(** Proofs for Work.v: maps. *)
From Coq Require Import List NArith ZArith Arith Bool Lia ZifyBool ZifyNat ZifyN.
From Verif Require Import Base BaseP Crc CrcP Flash Cache State Item Generic Queue Map Codec TMap FormatSpec GeomP CalcP Client MClient SafeP SafeQP SafeMP SafeRunP Reads ReadsP Cost CostP Work WorkP.
Import ListNotations.
Local Opaque crc16 acrc crc32.
Local Existing Instance counted.

Section M.
Context {K : Type} (KO : keyops K) (g : geom) (gok : geom_ok g).
Notation W := (W g). Notation HL := (HL g). Notation NP := (NP g). Notation ES := (ES g). Notation U := (page_words g).
Notation Top := (fun _ : st K => True).
Notation okt r e m := (ct g Top r e m Top (fun _ => Top)).
Ltac sq L := eapply (ct_s g _ _ _); [apply L|now auto|try lia; try nia|try lia|].
Ltac fin L := eapply (ct_t g); [apply L|now auto|try lia; try nia|try lia].
Notation T := (@frm_top g K).

Section F.
Context (I : st K -> Prop) (F : frm g I).
Lemma w_scan_page k e : forall fuel cur fd s, I s -> let s' := snd (scan_page KO g fuel k cur e fd s) in nr g s' <= nr g s + 4 * (e - cur) /\ ne s' <= ne s /\ I s'.
Proof.
  induction fuel as [|fuel IH]; intros cur fd s Is; cbn [scan_page]; [cbn [fail snd]; repeat split; auto; lia|]. cbv zeta. unfold bind.
  destruct (w_item_next g gok I F e (tfuel cur e) cur s Is) as (A1 & A2 & A3 & A4). destruct (item_next g (tfuel cur e) cur e s) as [[[[[h a]|] nx]|x] s1]; cbn [fst snd] in *; [|cbn [ret snd]; repeat split; auto; lia|repeat split; auto; lia].
  cbn [get_buf]. destruct (k_de KO (s_buf s1)) as [kl|x]; cbn [ser_lift ret fail snd]; [|repeat split; auto; lia]. destruct (IH nx (if k_eqb KO (fst kl) k then Some (a, snd kl) else fd) s1 A3) as (B1 & B2 & B3). repeat split; auto; lia.
Qed.
End F.
Lemma page_scan p : 4 * (dend g p - dstart g p) <= W * (4 * U).
Proof. pose proof (ES_words g gok). pose proof (page_len_d g gok p). nia. Qed.
Lemma w_scan_whole k p fd : okt (W * (4 * U)) 0 (scan_page KO g (tfuel (dstart g p) (dend g p)) k (dstart g p) (dend g p) fd).
Proof. intros s _. pose proof (page_scan p). destruct (w_scan_page Top T k (dend g p) (tfuel (dstart g p) (dend g p)) (dstart g p) fd s Logic.I) as (A & B & _). repeat split; [lia|lia|]. destruct (fst _); auto. Qed.
Lemma w_fetch_pages k : forall fuel p, okt (fuel * (W * (4 * U + 2))) 0 (fetch_pages KO g fuel k p).
Proof.
  induction fuel as [|fuel IH]; intros p; cbn [fetch_pages]; [apply ct_fail; auto|]. rewrite Nat.mul_succ_l. set (X := fuel * (W * (4 * U + 2))) in *. sq (w_scan_whole k p). intros [[a kl]|].
  - sq (w_notice_key g _ T). intros ?. apply ct_ret; auto.
  - cbv zeta. sq (w_state_c g _ T). intros x. destruct (negb _); [sq (w_unmark g _ T); intros ?; apply ct_ret; auto|]. fin IH.
Qed.
Lemma w_fetch_cached k : okt (4 * W) 0 (fetch_cached KO g k).
Proof.
  unfold fetch_cached. sq (w_key_loc g Top). intros [a|]; [|apply ct_ret; auto]. cbv zeta. sq (w_read_new g _ T). intros [h|]; [|sq (w_inval g _ T); intros ?; apply ct_ret; auto]. sq (w_read_item g _ T). intros [h2|h2|h2]; [| |apply ct_ret; auto]; (sq (w_inval g _ T); intros ?; apply ct_ret; auto).
Qed.
Lemma w_last_used : okt (W * (4 * NP + 2)) 0 (last_used (K := K) g).
Proof.
  unfold last_used. sq (w_ff g _ T). intros [p|]; [apply ct_ret; auto|]. sq (w_ff g _ T). intros [p|]; [|apply ct_fail; auto]. cbv zeta. sq (w_state_c g _ T). intros x. destruct (pstate_eqb x Closed); [apply ct_ret; auto|]. sq (w_unmark g _ T). intros ?. apply ct_ret; auto.
Qed.
Lemma w_fetch_loc k : okt (W * find_work g) 0 (fetch_loc KO g k).
Proof.
  unfold find_work. unfold fetch_loc. sq (w_check g _ T). intros ?. sq (w_fetch_cached k). intros [[h ad]|]; [apply ct_ret; auto|]. sq w_last_used. intros [p|]; [|apply ct_ret; auto]. sq (w_fetch_pages k (S NP) p). intros [[ad kl]|]; [|apply ct_ret; auto].
  sq (w_unmark g _ T). intros ?. sq (w_read_new g _ T). intros [h|]; [|apply ct_fail; auto]. sq (w_read_item g _ T). intros [h2|h2|h2]; first [apply ct_ret; auto; fail|apply ct_fail; auto].
Qed.
Lemma bind_run {A B} (m : M K A) (k : A -> M K B) s : bind m k s = match m s with (Ok a, s') => k a s' | (Err e, s') => (Err e, s') end. Proof. reflexivity. Qed.
Lemma w_migrate_loop e : forall fuel cur wa, okt ((find_work g + 7) * (e - cur)) 0 (migrate_loop KO g fuel cur e wa).
Proof.
  pose proof w_fetch_loc as WF. set (c := find_work g) in *. clearbody c. induction fuel as [|fuel IH]; intros cur wa s _; cbn [migrate_loop]; [cbn [fail fst snd]; repeat split; nia|]. rewrite bind_run.
  destruct (w_item_next g gok Top T e (tfuel cur e) cur s Logic.I) as (A1 & A2 & _ & A4). destruct (item_next g (tfuel cur e) cur e s) as [[[[[h a]|] nx]|x] s1]; cbn [fst snd] in *; [|cbn [ret fst snd]; repeat split; nia|repeat split; nia].
  destruct A4 as (L1 & L2).
  assert (X : okt (W * (c + 3) + (c + 7) * (e - nx)) 0 (b <- get_buf ;; kl <- ser_lift (k_de KO b) ;; let k := fst kl in c_unmark ;;; r <- fetch_loc KO g k ;;
          match r with
          | None => fail ECorrupted
          | Some (h, fa, _) =>
              b <- get_buf ;;
              if length b <? h_len h then fail ELogicBug
              else if fa =? a then
                c_notice_key (k_eqb KO) k wa true ;;; write_raw g h (firstn (h_len h) b) wa ;;; migrate_loop KO g fuel nx e (next_addr g wa h)
              else migrate_loop KO g fuel nx e wa
          end)).
  { set (Y := (c + 7) * (e - nx)) in *. assert (IHY : forall wa, okt Y 0 (migrate_loop KO g fuel nx e wa)) by (intros; apply IH). clearbody Y.
    sq (w_get_buf g Top). intros b. sq (w_lift g Top (k_de KO b)). intros kl. cbv zeta. sq (w_unmark g _ T). intros ?. sq (WF (fst kl)). intros [[[h2 fa] o]|]; [|apply ct_fail; auto]. sq (w_get_buf g Top). intros b2.
    destruct (_ <? _); [apply ct_fail; auto|]. destruct (fa =? a); [|fin (IHY wa)]. sq (w_notice_key g _ T). intros ?. sq (@w_write_raw g K). intros ?. fin (IHY (next_addr g wa h2)). }
  destruct (X s1 Logic.I) as (B1 & B2 & B3). assert (E1 : e - cur = (nx - cur) + (e - nx)) by lia. assert (M : W * (c + 3) <= (c + 3) * (nx - cur)) by nia. rewrite E1. set (s2 := snd _) in *. repeat split; [|lia|exact B3].
  rewrite Nat.mul_add_distr_l. lia.
Qed.
Lemma w_migrate src tgt : okt (W * compact_work g) 1 (migrate KO g src tgt).
Proof.
  pose proof (ES_words g gok) as EW. pose proof (page_len_d g gok src) as PL. unfold migrate, compact_work. set (c := find_work g) in *.
  assert (L : (c + 7) * (dend g src - dstart g src) <= W * (U * (c + 7))) by nia.
  eapply (ct_s g _ _ _); [apply w_migrate_loop|now auto|fold c; lia|lia|]. intros ?. eapply (ct_t g); [apply (w_open g _ T)|now auto|fold c; lia|lia].
Qed.
Lemma w_m_repair : okt (W * (5 * NP + 6 + compact_work g)) (NP + 2) (m_repair KO g).
Proof.
  set (c := compact_work g). assert (MG : forall a b, okt (W * c) 1 (migrate KO g a b)) by (intros; apply w_migrate). clearbody c.
  unfold m_repair. sq (w_inval g _ T). intros ?. sq (w_repair g _ T). intros ?. sq (w_ff g _ T). intros [p|]; [|apply ct_ret; auto]. cbv zeta. sq (w_state_c g _ T). intros x. destruct (pstate_eqb x Open); [apply ct_ret; auto|].
  sq (w_open g _ T). intros ?. sq (w_partial g _ T). intros ?. fin (MG (next_page g p) p).
Qed.
Lemma w_m_auto {A} r e (m : M K A) : okt (W * r) e m -> okt (W * fst (m_twice g r e)) (snd (m_twice g r e)) (auto_repair m (m_repair KO g)).
Proof.
  intros H. pose proof w_m_repair as RP. unfold m_twice. cbn [fst snd]. set (c := compact_work g) in *. clearbody c. unfold auto_repair. eapply ct_try; [exact H|lia|lia|]. intros [a|x]; [apply ct_ret; auto|]. destruct x; try (apply ct_fail; auto). sq RP. intros ?. fin H.
Qed.
Lemma w_ser k v : okt 0 0 (ser_item KO k v).
Proof.
  unfold ser_item. sq (w_get_buf g Top). intros b. sq (w_lift g Top (k_ser KO k (length b))). intros kb. sq (w_put_buf g _ T). intros ?. destruct (_ <? _); [apply ct_fail; auto|]. destruct (_ <? _); [apply ct_fail; auto|]. sq (w_put_buf g _ T). intros ?. apply ct_ret; auto.
Qed.
Lemma w_freem p n : okt (W * (2 * U)) 0 (find_free (K := K) g (dstart g p) (dend g p) n).
Proof.
  pose proof (ES_words g gok) as EW. pose proof (page_len_d g gok p) as PL. unfold find_free. eapply (ct_seq g _ _ _ 0 0 _ _ Top (fun _ => Top)); [apply ct_loc; intros s Is; cbn; auto|lia|lia|]. intros aw.
  eapply (ct_seq g _ _ _ (W * (2 * U)) 0 _ _ Top (fun _ => Top)); [|lia|lia|].
  - destruct aw as [a|]; [apply ct_ret; auto|]. eapply (ct_seq g _ _ _ 0 0 _ _ Top (fun _ => Top)); [apply ct_loc; intros s Is; cbn; auto|lia|lia|]. intros ae. cbv zeta.
    set (from := Nat.max _ (dstart g p)). assert (L : 2 * (dend g p - from) <= W * (2 * U)) by (subst from; nia). eapply ct_seq; [apply (w_trav_ok g gok _ T)|lia|lia|]. intros t. apply ct_ret; auto.
  - intros fr. destruct (_ <? fr); [apply ct_fail; auto|]. destruct (avail _ _); apply ct_ret; auto.
Qed.
Lemma w_store_loop k v : forall r, okt (r * (W * (4 * NP + 2 * U + 13 + compact_work g))) r (store_loop KO g r k v).
Proof.
  assert (MG : forall a b, okt (W * compact_work g) 1 (migrate KO g a b)) by (intros; apply w_migrate). set (c := compact_work g) in *. clearbody c.
  induction r as [|r IH]; cbn [store_loop]; [sq (w_unmark g _ T); intros ?; apply ct_fail; auto|]. rewrite Nat.mul_succ_l. set (X := r * (W * (4 * NP + 2 * U + 13 + c))) in *. clearbody X.
  sq (w_ff g _ T). intros lp. eapply (ct_seq g _ _ _ (W * (2 * U + 6)) 0 _ _ Top (fun _ => Top)); [|nia|lia|].
  - destruct lp as [p|]; [|apply ct_ret; auto]. sq (w_state_c g _ T). intros x. destruct (negb _); [apply ct_fail; auto|]. sq (w_ser k v). intros n. destruct (too_big g n); [sq (w_unmark g _ T); intros ?; apply ct_fail; auto|].
    sq (w_freem p n). intros [ad|].
    + sq (w_notice_key g _ T). intros ?. sq (w_get_buf g Top). intros b. unfold write_new. sq (@w_write_raw g K). intros ?. sq (w_unmark g _ T). intros ?. apply ct_ret; auto.
    + sq (w_close g _ T). intros ?. apply ct_ret; auto.
  - intros [[np|]|]; [| |apply ct_ret; auto].
    + sq (w_state_c g _ T). intros x. destruct (negb _); [apply ct_fail; auto|]. sq (w_partial g _ T). intros ?. cbv zeta. sq (w_state_c g _ T). intros x2.
      eapply (ct_seq g _ _ _ (W * c) 1 _ _ Top (fun _ => Top)); [destruct (pstate_eqb x2 Open); [apply ct_ret; auto|apply MG]|nia|lia|]. intros ?. eapply (ct_t g); [apply IH|now auto| |lia]. lia.
    + sq (w_ff g _ T). intros [p|]; [|apply ct_fail; auto]. sq (w_partial g _ T). intros ?. fin IH.
Qed.
Lemma w_store_inner k v : okt (W * (NP * (4 * NP + 2 * U + 13 + compact_work g))) NP (store_inner KO g k v).
Proof. unfold store_inner. pose proof (w_store_loop k v NP) as H. set (c := compact_work g) in *. clearbody c. sq (w_check g _ T). intros ?. fin H. Qed.
Lemma w_erase_data h a : okt W 0 (erase_data (K := K) g h a).
Proof. unfold erase_data, hdr_write. cbv zeta. eapply (ct_seq g _ _ _ 0 0 _ _ Top (fun _ => Top)); [apply ct_loc; intros s Is; split; [reflexivity|exact Is]|lia|lia|]. intros ?. fin (w_write g _ T). Qed.
Lemma w_remove_items sk e : forall fuel cur, okt (5 * (e - cur)) 0 (remove_items KO g fuel sk cur e).
Proof.
  induction fuel as [|fuel IH]; intros cur s _; cbn [remove_items]; [cbn [fail fst snd]; repeat split; lia|]. rewrite bind_run.
  destruct (w_trav g gok Top T (fun _ => false) e (tfuel cur e) cur s Logic.I) as (A1 & A2 & _ & A4). destruct (traverse g (tfuel cur e) (fun _ => false) cur e s) as [[[[[h|] a] nx]|x] s1]; cbn [fst snd] in *; [|cbn [ret fst snd]; repeat split; lia|repeat split; lia].
  destruct A4 as (L1 & _ & L2 & L3 & _).
  assert (X : okt (3 * W + 5 * (e - nx)) 0 (mi <- read_item g h a (Some e) ;;
          match mi with
          | MPresent h =>
              m <- match sk with
                   | Some k => b <- get_buf ;; kl <- ser_lift (k_de KO b) ;; ret (k_eqb KO (fst kl) k)
                   | None => ret true
                   end ;;
              (if (m : bool) then erase_data g h a else ret tt) ;;; remove_items KO g fuel sk nx e
          | _ => remove_items KO g fuel sk nx e
          end)).
  { sq (w_read_item g _ T). intros [h2|h2|h2]; [fin (IH nx)|fin (IH nx)|]. eapply (ct_seq g _ _ _ 0 0 _ _ Top (fun _ => Top)); [|lia|lia|].
    - destruct sk; [|apply ct_ret; auto]. sq (w_get_buf g Top). intros b. sq (w_lift g Top (k_de KO b)). intros kl. apply ct_ret; auto.
    - intros m. eapply (ct_seq g _ _ _ W 0 _ _ Top (fun _ => Top)); [destruct m; [apply w_erase_data|apply ct_ret; auto]|lia|lia|]. intros ?. fin (IH nx). }
  destruct (X s1 Logic.I) as (B1 & B2 & B3). repeat split; [lia|lia|exact B3].
Qed.
Lemma w_remove_pages sk : forall l, okt (length l * (W * (5 * U + 2))) 0 (remove_pages KO g l sk).
Proof.
  induction l as [|p l IH]; cbn [remove_pages length]; [apply ct_ret; auto|]. rewrite Nat.mul_succ_l. set (X := length l * (W * (5 * U + 2))) in *. clearbody X. sq (w_state_c g _ T). intros x.
  assert (L : 5 * (dend g p - dstart g p) <= W * (5 * U)) by (pose proof (ES_words g gok); pose proof (page_len_d g gok p); nia).
  eapply (ct_seq g _ _ _ (W * (5 * U)) 0 _ _ Top (fun _ => Top)); [destruct (pstate_eqb x Open); [apply ct_ret; auto|]; fin w_remove_items|nia|lia|]. intros ?. fin IH.
Qed.
Lemma w_remove sk : okt (W * (NP * (5 * U + 6))) 0 (remove_inner KO g sk).
Proof.
  unfold remove_inner. eapply (ct_seq g _ _ _ 0 0 _ _ Top (fun _ => Top)); [destruct sk; [apply (w_key_erased g _ T)|apply (w_inval g _ T)]|lia|lia|]. intros ?. sq (w_ff g _ T). intros lp.
  eapply (ct_seq g _ _ _ (W * (2 * NP)) 0 _ _ Top (fun _ => Top)); [destruct lp; [apply ct_ret; auto|]; sq (w_flast g _ T); intros ?; apply ct_ret; auto|nia|lia|]. intros lu.
  pose proof (w_remove_pages sk (get_pages g (next_page g lu))) as H. rewrite pages_length in H. sq H. intros ?. fin (w_unmark g _ T).
Qed.
(** * The iterator *)
Definition imi (s : st K) : Prop := mi_end (s_mi s) - mi_cur (s_mi s) <= ES.
Lemma frm_imi : frm g imi. Proof. constructor; auto. Qed.
Definition ism (q : miter) (s : st K) : Prop := s_mi s = q.
Lemma frm_ism q : frm g (ism q). Proof. constructor; auto. Qed.
Lemma w_mi_item : forall fuel s, imi s -> let s' := snd (mi_item_next g fuel s) in nr g s' <= nr g s + 4 * (mi_end (s_mi s) - mi_cur (s_mi s)) /\ ne s' <= ne s /\ imi s'.
Proof.
  induction fuel as [|fuel IH]; intros s Is; cbn [mi_item_next]; [cbn [fail snd]; repeat split; auto; lia|]. cbv zeta. set (q := s_mi s) in *. unfold bind. cbn [get_mi]. fold q.
  destruct (w_trav g gok (ism q) (frm_ism q) (fun _ => false) (mi_end q) (tfuel (mi_cur q) (mi_end q)) (mi_cur q) s eq_refl) as (A1 & A2 & A3 & A4).
  destruct (traverse g (tfuel (mi_cur q) (mi_end q)) (fun _ => false) (mi_cur q) (mi_end q) s) as [[[[oh a] nx]|x] s1]; cbn [fst snd] in *; [|split; [lia|split; [lia|]]; unfold imi; rewrite A3; exact Is].
  unfold imi in Is. fold q in Is. cbn [put_mi]. destruct oh as [h|].
  - destruct A4 as (L1 & _ & L2 & L3 & _). set (q2 := mkmi (mi_first q) (mi_page q) nx (mi_end q)). set (s2 := set_mi s1 q2).
    destruct (w_read_item g (ism q2) (frm_ism q2) h a (Some (mi_end q)) s2 eq_refl) as (B1 & B2 & B3). change (nr g s2) with (nr g s1) in B1. change (ne s2) with (ne s1) in B2.
    destruct (read_item g h a (Some (mi_end q)) s2) as [[y|y] s3]; cbn [fst snd] in *; [|split; [lia|split; [lia|]]; unfold imi; rewrite B3; unfold q2; cbn [mi_end mi_cur]; lia].
    assert (I3 : imi s3) by (unfold imi; rewrite B3; unfold q2; cbn [mi_end mi_cur]; lia).
    destruct y as [h2|h2|h2]; [| |cbn [ret snd]; split; [lia|split; [lia|exact I3]]]; destruct (IH s3 I3) as (C1 & C2 & C3); unfold ism in B3; rewrite B3 in C1; unfold q2 in C1; cbn [mi_end mi_cur] in C1; (split; [lia|split; [lia|exact C3]]).
  - cbn [ret snd]. split; [change (nr g s1 <= nr g s + 4 * (mi_end q - mi_cur q)); lia|split; [exact A2|]]. unfold imi. cbn [set_mi s_mi mi_end mi_cur]. lia.
Qed.
Lemma w_mi_page : forall fuel, ct g imi (fuel * (2 * W)) 0 (mi_next_page g fuel) imi (fun _ => imi).
Proof.
  induction fuel as [|fuel IH]; cbn [mi_next_page]; [apply ct_fail; auto|]. rewrite Nat.mul_succ_l.
  eapply (ct_seq g _ _ _ 0 0 _ _ imi (fun mi s => imi s /\ mi_end mi - mi_cur mi <= ES)); [apply ct_loc; intros s Is; split; [reflexivity|split; exact Is]|lia|lia|]. intros mi. cbv beta. apply ct_pure. intros M. cbv zeta.
  eapply (ct_seq g _ _ _ 0 0 _ _ imi (fun _ => imi)); [apply ct_loc; intros s Is; split; [reflexivity|]; unfold imi; cbn; exact M|lia|lia|]. intros ?. destruct (_ =? _); [apply ct_ret; auto|].
  eapply ct_try; [apply (w_state_c g _ frm_imi)|lia|lia|]. intros x.
  assert (G : ct g imi (fuel * (2 * W)) 0 (put_mi (mkmi (mi_first mi) (next_page g (mi_page mi)) (dstart g (next_page g (mi_page mi))) (dend g (next_page g (mi_page mi)))) ;;; ret true) imi (fun _ => imi)).
  { apply ct_loc. intros s Is. split; [reflexivity|]. unfold bind, put_mi, ret. cbn [fst snd]. unfold imi. cbn [set_mi s_mi mi_end mi_cur]. pose proof (page_len_d g gok (next_page g (mi_page mi))). lia. }
  destruct x as [[]|y]; (eapply ct_le; [first [exact G|exact IH]|lia|lia|auto|auto|auto]).
Qed.
Lemma w_mi_loop : forall fuel, ct g imi (fuel * (4 * ES + S NP * (2 * W))) 0 (mi_loop g fuel) imi (fun _ => imi).
Proof.
  induction fuel as [|fuel IH]; cbn [mi_loop]; [apply ct_fail; auto|]. rewrite Nat.mul_succ_l. set (X := fuel * (4 * ES + S NP * (2 * W))) in *. clearbody X. set (Y := S NP * (2 * W)) in *. assert (WP : ct g imi Y 0 (mi_next_page g (S NP)) imi (fun _ => imi)) by apply w_mi_page. assert (EY : 2 * W + NP * (2 * W) = Y) by reflexivity. clearbody Y.
  eapply (ct_seq g _ _ _ 0 0 _ _ imi (fun mi s => imi s)); [apply ct_loc; intros s Is; split; [reflexivity|exact Is]|lia|lia|]. intros mi. cbv beta.
  eapply (ct_seq g _ _ _ (4 * ES) 0 _ _ imi (fun _ => imi)); [|lia|lia|].
  - intros s Is. destruct (w_mi_item (tfuel (mi_cur mi) (mi_end mi)) s Is) as (A1 & A2 & A3). unfold imi in Is. split; [lia|split; [lia|]]. destruct (fst _); exact A3.
  - intros [h|]; [apply ct_ret; auto|]. eapply ct_seq; [exact WP|lia|lia|]. intros [|]; [eapply ct_le; [exact IH|lia|lia|auto|auto|auto]|apply ct_ret; auto].
Qed.
Lemma w_iter_next b : ct g imi (W * ((NP + 2) * (4 * U + 2 * (NP + 1)))) 0 (m_iter_next KO g b) imi (fun _ => imi).
Proof.
  pose proof (ES_words g gok) as EW. unfold m_iter_next. eapply ct_seq; [apply (w_put_buf g _ frm_imi)|lia|lia|]. intros ?.
  pose proof (w_mi_loop (S (S NP))) as H. assert (EQ : S (S NP) * (4 * ES + S NP * (2 * W)) = W * ((NP + 2) * (4 * U + 2 * (NP + 1)))) by (rewrite EW; lia). rewrite EQ in H. set (X := W * ((NP + 2) * (4 * U + 2 * (NP + 1)))) in *. clearbody X.
  eapply ct_seq; [exact H|lia|lia|]. intros [h|]; [|apply ct_ret; auto]. eapply ct_seq; [apply (w_get_buf g)|lia|lia|]. intros b2. eapply ct_seq; [apply (w_lift g imi (k_de KO b2))|lia|lia|]. intros kl. destruct (_ || _); [apply ct_fail; auto|apply ct_ret; auto].
Qed.
Lemma w_m_script : forall bs, ct g imi (length bs * (W * ((NP + 2) * (4 * U + 2 * (NP + 1))))) 0 (m_script KO g bs) imi (fun _ => imi).
Proof.
  pose proof w_iter_next as H. set (X := W * ((NP + 2) * (4 * U + 2 * (NP + 1)))) in *. clearbody X. induction bs as [|b bs IH]; cbn [m_script length]; [apply ct_ret; auto|]. rewrite Nat.mul_succ_l. set (Y := length bs * X) in *. clearbody Y.
  eapply ct_seq; [apply H|lia|lia|]. intros [x|]; [|apply ct_ret; auto]. eapply ct_seq; [exact IH|lia|lia|]. intros rs. apply ct_ret; auto.
Qed.
Lemma w_first : okt (W * (4 * NP + 2)) 0 (first_page_expr (K := K) g).
Proof.
  unfold first_page_expr. sq (w_ff g _ T). intros [p|]; [apply ct_ret; auto|]. sq (w_ff g _ T). intros [p|]; [|apply ct_ret; auto]. sq (w_state_c g _ T). intros x. destruct (pstate_eqb x Closed); [apply ct_ret; auto|]. sq (w_unmark g _ T). intros ?. apply ct_ret; auto.
Qed.
Lemma w_m_iter b : ct g Top (W * fst (m_twice g (4 * NP + 2) 0)) (snd (m_twice g (4 * NP + 2) 0)) (m_iter KO g b) Top (fun _ => imi).
Proof.
  pose proof w_m_repair as RP. unfold m_twice. cbn [fst snd]. set (c := compact_work g) in *. clearbody c. unfold m_iter. sq (w_put_buf g _ T). intros ?. sq w_first. intros r.
  eapply (ct_seq g _ _ _ (W * (4 * NP + 2) + W * (5 * NP + 6 + c)) (NP + 2) _ _ Top (fun _ => Top)); [|nia|lia|].
  - destruct r as [p|]; [apply ct_ret; auto|]. sq RP. intros ?. sq w_first. intros [p|]; [apply ct_ret; auto|apply ct_fail; auto].
  - intros fp. apply ct_loc. intros s _. split; [reflexivity|]. cbn [put_mi fst snd]. unfold imi. cbn [set_mi s_mi mi_end mi_cur]. pose proof (page_len_d g gok fp). lia.
Qed.
Lemma m_work_ct c s : let s' := snd (m_exec (R := counted) KO g c s) in nr g s' <= nr g s + W * fst (m_work g c) /\ ne s' <= ne s + snd (m_work g c).
Proof.
  cbv zeta.
  assert (G : forall A (h : res A -> mans K) (m : M K A) r e, (m_exec (R := counted) KO g c s = mans1 h (m s)) -> okt r e m -> r <= W * fst (m_work g c) -> e <= snd (m_work g c) ->
    nr g (snd (m_exec (R := counted) KO g c s)) <= nr g s + W * fst (m_work g c) /\ ne (snd (m_exec (R := counted) KO g c s)) <= ne s + snd (m_work g c)).
  { intros A h m r e -> H L1 L2. unfold mans1. cbn [snd]. destruct (H s Logic.I) as (A1 & A2 & _). lia. }
  destruct c as [b k v|b k|b k|b|b bs].
  - refine (G _ RUnit (m_store KO g b k v) _ _ eq_refl _ (Nat.le_refl _) (Nat.le_refl _)). cbn [m_work]. unfold m_store. pose proof (w_m_auto _ _ _ (w_store_inner k v)) as H. set (X := W * fst _) in *. set (Y := snd _) in *. clearbody X Y. sq (w_put_buf g _ T). intros ?. fin H.
  - refine (G _ RVal (m_fetch KO g b k) _ _ eq_refl _ (Nat.le_refl _) (Nat.le_refl _)). cbn [m_work]. unfold m_fetch. pose proof (w_m_auto _ _ _ (w_fetch_loc k)) as H. set (X := W * fst _) in *. set (Y := snd _) in *. clearbody X Y. sq (w_put_buf g _ T). intros ?.
    sq H. intros [[[h ad] okl]|]; [|apply ct_ret; auto]. sq (w_get_buf g Top). intros b2. cbv zeta. destruct (_ <? _); [apply ct_fail; auto|].
    eapply (ct_seq g _ _ _ 0 0 _ _ Top (fun _ => Top)); [destruct okl; [apply ct_ret; auto|fin (w_lift g Top (k_len KO (firstn (h_len h) b2)))]|lia|lia|]. intros kl. destruct (_ <? _); [apply ct_fail; auto|apply ct_ret; auto].
  - refine (G _ RUnit (m_remove KO g b k) _ _ eq_refl _ (Nat.le_refl _) (Nat.le_refl _)). cbn [m_work]. unfold m_remove. pose proof (w_m_auto _ _ _ (w_remove (Some k))) as H. set (X := W * fst _) in *. set (Y := snd _) in *. clearbody X Y. sq (w_put_buf g _ T). intros ?. fin H.
  - refine (G _ RUnit (m_remove_all KO g b) _ _ eq_refl _ (Nat.le_refl _) (Nat.le_refl _)). cbn [m_work]. unfold m_remove_all. pose proof (w_m_auto _ _ _ (w_remove None)) as H. set (X := W * fst _) in *. set (Y := snd _) in *. clearbody X Y. sq (w_put_buf g _ T). intros ?. fin H.
  - refine (G _ RList (m_iterate KO g b bs) _ _ eq_refl _ (Nat.le_refl _) (Nat.le_refl _)). cbn [m_work]. unfold m_iterate. cbv zeta. pose proof (w_m_iter b) as H. pose proof (w_m_script bs) as H2. cbn [fst snd].
    set (X := fst (m_twice g (4 * NP + 2) 0)) in *. set (Y := snd (m_twice g (4 * NP + 2) 0)) in *. set (Z := (NP + 2) * (4 * U + 2 * (NP + 1))) in *. clearbody X Y Z. sq H. intros ?. eapply (ct_t g); [exact H2|auto|nia|lia].
Qed.
End M.

Lemma reads_len {K} (s s' : st K) : length (reads_between s s') <= length (f_bad (s_fl s')) - length (f_bad (s_fl s)).
Proof. unfold reads_between. rewrite firstn_length. lia. Qed.
Lemma erases_len {K} (s s' : st K) : length (erases_between s s') <= length (f_er (s_fl s')) - length (f_er (s_fl s)).
Proof. unfold erases_between. rewrite firstn_length. lia. Qed.
Lemma q_all_work g f c0 evs c p : geom_ok g -> (forall x, is_byte (f_mem f x)) -> fresh_cache (NP g) c0 -> (forall c', In (EBoot c') evs -> fresh_cache (NP g) c') ->
  let s := snd (q_run (R := steady) g (st_new f c0) evs) in let r := q_exec (R := steady) g c (power s p) in let n := q_exec (R := counted) g c (power s p) in
  (fst n = fst r /\ same_but_log (snd r) (snd n)) /\ length (reads_between s (snd n)) <= fst (q_work g c) /\ length (erases_between s (snd n)) <= snd (q_work g c).
Proof.
  intros G B Fc Fe. cbv zeta. set (s := snd (q_run (R := steady) g (st_new f c0) evs)).
  assert (IP : ipp g (power s p)) by (destruct (q_any g G f c0 Fc evs Fe) as (_ & _ & (_ & IP & _) & _); exact IP).
  assert (RL : rel s s). { destruct (q_run_sim g G (fun _ => bytes) (exact_harmless g) evs _ _ (rel_start (st_new f c0) B)) as (_ & IM & _). apply rel_start, IM. }
  split. { destruct (q_exec_sim g G (fun _ => bytes) (exact_harmless g) c _ _ (rel_power s s p RL)) as (E1 & E2). split; [exact E1|exact (rel_same _ _ E2)]. }
  destruct (q_work_ct g G c (power s p) IP) as (A & B2). set (s' := snd (q_exec (R := counted) g c (power s p))) in *. clearbody s'. pose proof (reads_len s s'). pose proof (erases_len s s'). pose proof (W_pos g G).
  unfold nr, ne in A, B2. cbn [power set_fl s_fl f_bad f_er] in A, B2. split; [|lia]. assert (length (f_bad (s_fl s')) <= length (f_bad (s_fl s)) + fst (q_work g c)) by nia. lia.
Qed.
Lemma m_all_work {K} (KO : keyops K) g (s : st K) c p : geom_ok g -> (forall x, is_byte (f_mem (s_fl s) x)) ->
  let r := m_exec (R := steady) KO g c (power s p) in let n := m_exec (R := counted) KO g c (power s p) in
  (fst n = fst r /\ same_but_log (snd r) (snd n)) /\ length (reads_between s (snd n)) <= fst (m_work g c) /\ length (erases_between s (snd n)) <= snd (m_work g c).
Proof.
  intros G B. cbv zeta. split. { destruct (m_exec_sim g G (fun _ => bytes) (exact_harmless g) KO c _ _ (rel_power s s p (rel_start s B))) as (E1 & E2). split; [exact E1|exact (rel_same _ _ E2)]. }
  destruct (m_work_ct KO g G c (power s p)) as (A & B2). set (s' := snd (m_exec (R := counted) KO g c (power s p))) in *. clearbody s'. pose proof (reads_len s s'). pose proof (erases_len s s'). pose proof (W_pos g G).
  unfold nr, ne in A, B2. cbn [power set_fl s_fl f_bad f_er] in A, B2. split; [|lia]. assert (length (f_bad (s_fl s')) <= length (f_bad (s_fl s)) + fst (m_work g c)) by nia. lia.
Qed.
