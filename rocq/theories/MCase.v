(** Concrete map histories, used to show that the claims about the map speak about something, and to refute some. *)
From Coq Require Import List NArith Arith Bool Lia.
From Verif Require Import Base Flash Cache State Crc Map Codec CodecP Client QSpec QObs QPropsP QCase MClient MSpec MObs MPropsP.
Import ListNotations.

(** Keys of one byte; [p] pages of 64 bytes, words of 8 bytes; the mock flash with torn writes and torn ([ae = false]) or atomic erases. *)
Definition kn : keyops N := key_num 1.
Definition kl (k : N) : Prop := (k < 256)%N.
Definition mg (p : nat) : geom := mkgeom 1 8 64 0 p.
Definition mc (p n : nat) : cache N := mkcache false (PSCalc (calc_new p)) (PPArray (repeat None p) (repeat None p)) (KPArray (repeat None n)).
Definition kb : list N := repeat 0%N 64.
Definition mfl (ae : bool) : flash := mkflash (f_mem flash_new) (f_wc flash_new) [] None ae 0 [].
Definition mst0 (ae : bool) (p : nat) : st N := st_new (mfl ae) (mc p 2).
(** Events: store, fetch, remove, remove all, iterate, restart. *)
Definition Sto (k x : N) (n : nat) (p : option nat) : mev N := MCall (MStore kb k (it x n)) p.
Definition Fet (k : N) : mev N := MCall (MFetch kb k) None.
Definition Rmv (k : N) (p : option nat) : mev N := MCall (MRemove kb k) p.
Definition Clr (p : option nat) : mev N := MCall (MRemoveAll kb) p.
Definition Itr (n : nat) : mev N := MCall (MIter kb (repeat kb n)) None.
Definition Boot (p : nat) : mev N := MBoot (mc p 1).

(** Boolean versions of the conditions on histories. *)
Definition bigb (g : geom) (d : list N) : bool := (page_cap g - HL g <? length d) || (65535 <? N.of_nat (length d))%N.
Definition call_okb (g : geom) (n : nat) (c : mcall N) : bool :=
  match c with
  | MStore b k v => (k <? 256)%N && (n <=? length b) &&
      match item_bytes kn (length b) k v with inl d => bytesb d && no_collisionb d && (bigb g d || (rup g (length d) <=? n)) | inr _ => true end
  | MFetch b k | MRemove b k => (k <? 256)%N && (n <=? length b)
  | MRemoveAll b => n <=? length b
  | MIter b bs => (n <=? length b) && forallb (fun x => n <=? length x) bs
  end.
Lemma call_okb_ok pf g n c : call_okb g n c = true -> mcall_ok kn kl pf g n c.
Proof.
  unfold call_okb, mcall_ok, kl. destruct c; rewrite ?andb_true_iff, ?N.ltb_lt, ?Nat.leb_le; auto.
  - intros [[H1 H2] H3]. split; auto. split; auto. intros d E. rewrite E in H3. rewrite !andb_true_iff in H3. destruct H3 as [[H3 H4] H5]. split.
    + apply item_okb. now rewrite H3, H4.
    + apply orb_true_iff in H5. destruct H5 as [H5|H5]; [left|right; now apply Nat.leb_le]. unfold bigb in H5. unfold mbig. apply orb_true_iff in H5.
      rewrite Nat.ltb_lt, N.ltb_lt in H5. exact H5.
  - intros [H1 H2]. split; auto. apply Forall_forall. intros x I. rewrite forallb_forall in H2. apply Nat.leb_le. auto.
Qed.
Definition noneb (p : option nat) : bool := match p with None => true | Some _ => false end.
Lemma noneb_ok p : noneb p = true -> p = None.
Proof. now destruct p. Qed.
Definition coveredb (ae : bool) (t : mode) (c : mcall N) (p : option nat) : bool :=
  match c with
  | MStore _ _ _ => ae || noneb p || sure t
  | MFetch _ _ => true
  | MRemove _ _ | MRemoveAll _ => fresh t && (noneb p || sure t)
  | MIter _ _ => fresh t && (ae || whole t)
  end.
Lemma coveredb_ok ae t c p : coveredb ae t c p = true -> covered ae t c p.
Proof. destruct c; cbn; rewrite ?andb_true_iff, ?orb_true_iff; intuition auto using noneb_ok. Qed.
Fixpoint calmb (ae : bool) (t : mode) (evs : list (mev N)) (l : list (mans N)) : bool :=
  match evs, l with
  | MCall c p :: evs', a :: l' => coveredb ae t c p && calmb ae (after_call t c a) evs' l'
  | MBoot _ :: evs', _ => calmb ae (mkmode (sure t) true (whole t)) evs' l
  | _, _ => true
  end.
Lemma calmb_ok ae evs : forall t l, calmb ae t evs l = true -> calm ae t evs l.
Proof.
  induction evs as [|[c p|c] evs IH]; intros t l H; cbn in *; auto. destruct l; auto. apply andb_true_iff in H. destruct H as [H1 H2]. auto using coveredb_ok.
Qed.
(** Calls with the power given; restarts only with the caches of [Boot]. *)
Definition ev_okb (pf : bool) (g : geom) (n : nat) (e : option (mcall N * option nat)) : bool :=
  match e with Some (c, p) => (pf || noneb p) && call_okb g n c | None => true end.
Lemma mc_fresh p n : 1 <= n -> fresh_cache p (mc p n).
Proof. intros H. split; [reflexivity|]. split; [apply FPCalc|]. split; [apply FQArray; auto|apply FKArray; auto]. Qed.
Lemma mg_set pf p aw : 2 <= p -> msetting pf (mg p) aw.
Proof. intros H. split; [|split]; [unfold geom_ok; cbn; lia|exact H|]. intros _. left. cbn. lia. Qed.
Fixpoint evs_okb (pf : bool) (p : nat) (evs : list (mev N)) : bool :=
  match evs with
  | [] => true
  | MCall c q :: t => (pf || noneb q) && call_okb (mg p) 64 c && evs_okb pf p t
  | MBoot _ :: t => evs_okb pf p t
  end.
Lemma evs_okb_ok pf p evs : evs_okb pf p evs = true -> (forall c, In (MBoot c) evs -> c = mc p 1) -> Forall (mev_ok kn kl pf (mg p) 64) evs.
Proof.
  induction evs as [|[c q|c] evs IH]; intros H HB; constructor.
  - cbn in H. apply andb_true_iff in H. destruct H as [H _]. apply andb_true_iff in H. destruct H as [H1 H2]. split; [|now apply call_okb_ok].
    intros ->. now apply noneb_ok.
  - apply IH; [|intros; apply HB; now right]. cbn in H. apply andb_true_iff in H. apply H.
  - cbn. rewrite (HB c (or_introl eq_refl)). now apply mc_fresh.
  - apply IH; [exact H|intros; apply HB; now right].
Qed.
Definition mrun (ae : bool) (p : nat) (evs : list (mev N)) : list (mans N) * st N := m_run kn (mg p) (mst0 ae p) evs.
Lemma kn_codec : key_codec kn kl.
Proof. exact (key_num_ok 1). Qed.
Lemma run_reached pf ae p evs : 2 <= p -> evs_okb pf p evs && (negb pf || calmb ae calm0 evs (fst (mrun ae p evs))) = true -> (forall c, In (MBoot c) evs -> c = mc p 1) ->
  m_reached kn kl pf (mg p) 64 evs (fst (mrun ae p evs)) (snd (mrun ae p evs)).
Proof.
  intros P H HB. apply andb_true_iff in H. destruct H as [H1 H2]. split; [apply kn_codec|]. exists (mfl ae), (mc p 2). split; [split; intros; cbn; try reflexivity; auto|].
  split; [reflexivity|]. split; [reflexivity|]. split; [apply mc_fresh; lia|]. split; [now apply mg_set|]. split; [now apply evs_okb_ok|]. split.
  - intros ->. apply calmb_ok. exact H2.
  - unfold mrun, mst0. apply surjective_pairing.
Qed.
(** What a state holds, read off by fetching all keys. *)
Definition shown (p : nat) (s : st N) (m : N -> option (list N)) : bool :=
  forallb (fun i => let k := N.of_nat i in
    match fst (m_exec kn (mg p) (MFetch kb k) (power s None)), m k with
    | RVal (Ok (Some v)), Some w => (length v =? length w) && forallb (fun ab => (fst ab =? snd ab)%N) (combine v w)
    | RVal (Ok None), None => true
    | _, _ => false
    end) (seq 0 256).
Lemma shown_holds pf p evs l s m : m_reached kn kl pf (mg p) 64 evs l s -> shown p s m = true -> m_holds kn kl (mg p) 64 s m.
Proof.
  intros R H. destruct (m_history kn kl pf (mg p) 64 evs l s R) as (m0 & log & _ & H0). intros k b Lk Lb.
  replace (m k) with (m0 k); [now apply H0|]. destruct (H0 k kb Lk) as [s' E]; [cbn; lia|]. unfold m_does in E. unfold shown in H. rewrite forallb_forall in H.
  unfold kl in Lk. specialize (H (N.to_nat k) ltac:(apply in_seq; lia)). cbv zeta in H. rewrite N2Nat.id, E in H. cbn [fst] in H.
  destruct (m0 k) as [v|], (m k) as [w|]; try discriminate; auto. apply andb_true_iff in H. destruct H as [H1 H2]. apply Nat.eqb_eq in H1. f_equal. now apply pairs_eq.
Qed.
Ltac reach := apply run_reached; [lia|vm_compute; reflexivity|let c := fresh in let H := fresh in intros c H; repeat (destruct H as [H|H]; [first [discriminate H|injection H as <-; reflexivity]|]); destruct H].

(** Power failures in a migration, in a removal and in an item, and restarts; torn erases. *)
Definition mevs1 : list (mev N) :=
  [Sto 1 10 7 None; Sto 2 20 15 None; Sto 1 30 7 None; Sto 3 40 7 None; Rmv 2 None; Sto 4 50 20 None; Sto 1 60 7 None; Sto 5 70 15 (Some 95); Boot 3;
   Fet 1; Fet 4; Fet 5; Sto 5 71 15 None; Rmv 1 (Some 5); Boot 3; Fet 1; Fet 3; Sto 1 80 7 (Some 3); Fet 1; Sto 6 90 15 None; Boot 3; Itr 9; Rmv 4 None; Fet 3].
Definition ms1 : st N := snd (mrun false 3 mevs1).
Definition mm1 : N -> option (list N) := fun k => match k with 3 => Some (it 40 7) | 5 => Some (it 71 15) | _ => None end%N.
Lemma ms1_reached : m_reached kn kl true (mg 3) 64 mevs1 (fst (mrun false 3 mevs1)) ms1.
Proof. reach. Qed.
Lemma ms1_holds : m_holds kn kl (mg 3) 64 ms1 mm1.
Proof. apply (shown_holds true 3 mevs1 _ _ _ ms1_reached). vm_compute. reflexivity. Qed.

(** Without power failures. *)
Definition mevs2 : list (mev N) :=
  [Sto 1 10 7 None; Sto 2 20 15 None; Sto 1 30 7 None; Sto 3 40 7 None; Rmv 2 None; Sto 4 50 20 None; Sto 1 60 7 None; Sto 5 70 15 None; Boot 3;
   Sto 5 71 15 None; Rmv 3 None; Sto 1 80 7 None; Itr 2; Sto 6 90 15 None; Fet 5; Sto 6 91 15 None; Sto 7 99 60 None].
Definition ms2 : st N := snd (mrun false 3 mevs2).
Definition mm2 : N -> option (list N) := fun k => match k with 1 => Some (it 80 7) | 4 => Some (it 50 20) | 5 => Some (it 70 15) | _ => None end%N.
Lemma ms2_reached : m_reached kn kl false (mg 3) 64 mevs2 (fst (mrun false 3 mevs2)) ms2.
Proof. reach. Qed.
Lemma ms2_holds : m_holds kn kl (mg 3) 64 ms2 mm2.
Proof. apply (shown_holds false 3 mevs2 _ _ _ ms2_reached). vm_compute. reflexivity. Qed.

(** Stores and fetches with power failures on top of each other; atomic erases. *)
Definition mevs3 : list (mev N) :=
  [Sto 1 10 7 None; Sto 2 20 15 None; Sto 1 30 7 None; Sto 3 40 7 None; Sto 4 50 15 None; Sto 1 60 7 None; Sto 5 70 15 (Some 20); Boot 3; Sto 5 70 15 (Some 30); Sto 5 70 15 (Some 9);
   Boot 3; Sto 5 70 15 (Some 50); Boot 3; Fet 2; Fet 3; Fet 1].
Definition ms3 : st N := snd (mrun true 3 mevs3).
Lemma ms3_reached : m_reached kn kl true (mg 3) 64 mevs3 (fst (mrun true 3 mevs3)) ms3.
Proof. reach. Qed.
