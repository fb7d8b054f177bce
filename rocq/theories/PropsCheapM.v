(** Claims about what the page caches save in maps.  Statements only; proofs are in CheapMP.v.
    Vocabulary (Cheap.v, Cost.v): [page_caches g c]: the cache [c] has a place for the state and for the pointers of each page; [m_exec (R := counted)]: the call, on a device that keeps a list
    of the reads it is asked for; [reads_between s s']: these reads; [moved_on g s s']: a page was erased or closed in between.  See MObs.v for [m_reached]. *)
From Coq Require Import List NArith Arith Bool Lia.
From Verif Require Import Base BaseP CrcP Flash Cache State Item Generic Map Client MClient QSpec QObs QCase MObs MSpec MPropsP FormatSpec Reads Cost Work Cheap CheapMP MCase.
Import ListNotations.

(** C52 for maps.  A store straight after a completed store reads nothing at all from the flash, unless it has to move on to another page.  The history before the two stores may contain power
    failures and restarts.  The keys and values of both stores may be the same or not, and nothing is asked of the key cache. *)
Theorem c52_store {K} (KO : keyops K) legal pf g n evs l s b k d p b2 k2 d2 p2 :
  m_reached KO legal pf g n (evs ++ [MCall (MStore b k d) p]) (l ++ [RUnit (Ok tt)]) s -> page_caches g (s_ca s) ->
  let r := m_exec (R := counted) KO g (MStore b2 k2 d2) (power s p2) in fst r = RUnit (Ok tt) -> reads_between s (snd r) = [] \/ moved_on g s (snd r).
Proof. exact (cheap_store KO legal pf g n evs l s b k d p b2 k2 d2 p2). Qed.
Print Assumptions c52_store.

(** The answers to calls, one after the other, each with the number of reads it takes. *)
Fixpoint mcosts (g : geom) (s : st N) (cs : list (mcall N)) : list (mans N * nat) :=
  match cs with
  | [] => []
  | c :: cs' => let n := m_exec (R := counted) kn g c (power s None) in (fst n, length (reads_between s (snd n))) :: mcosts g (snd n) cs'
  end.
Definition ng : geom := mkgeom 1 8 128 0 3.
Definition nb : list N := repeat 0%N 128.
(** All pages in the page caches, no key cache; no caches at all. *)
Definition nc : cache N := mkcache false (PSArray (repeat None 3)) (PPArray (repeat None 3) (repeat None 3)) KPNone.
Definition nc0 : cache N := mkcache false PSNone PPNone KPNone.
Definition nsto (k : N) : mcall N := MStore nb k (it k 7).
Definition nstos (ks : list nat) (p : option nat) : list (mev N) := map (fun k => MCall (nsto (N.of_nat k)) p) ks.
Definition ns (c : cache N) (evs : list (mev N)) : list (mans N) * st N := m_run (R := steady) kn ng (st_new (mfl true) c) evs.
Lemma nc_fresh : fresh_cache (NP ng) nc.
Proof. split; [reflexivity|]. split; [exact (FPArray 3 3 (le_n 3))|]. split; [exact (FQArray 3 3 3 (le_n 3) (le_n 3))|constructor]. Qed.
Lemma ns_ok evs : forallb (fun e => match e with MCall c _ => call_okb ng 128 c | MBoot _ => true end) evs = true -> (forall c, In (MBoot c) evs -> c = nc) -> Forall (mev_ok kn kl true ng 128) evs.
Proof.
  intros H HB. apply Forall_forall. intros [c p|c] I.
  - split; [discriminate|]. apply call_okb_ok. rewrite forallb_forall in H. exact (H _ I).
  - cbn. rewrite (HB c I). exact nc_fresh.
Qed.
Lemma ns_reached evs : Forall (mev_ok kn kl true ng 128) evs -> calmb true calm0 evs (fst (ns nc evs)) = true -> m_reached kn kl true ng 128 evs (fst (ns nc evs)) (snd (ns nc evs)).
Proof.
  intros EV CB. split; [apply kn_codec|]. exists (mfl true), nc. split; [split; intros; cbn; try reflexivity; auto|]. split; [reflexivity|]. split; [reflexivity|]. split; [exact nc_fresh|].
  split; [split; [unfold geom_ok; cbn; lia|split; [cbn; lia|intros _; left; cbn; lia]]|]. split; [exact EV|]. split; [intros _; now apply calmb_ok|]. unfold ns. now destruct (m_run kn ng _ evs).
Qed.
(** Seven stores, one cut short by a power failure, a restart, one more store; then the next ones need not read, whichever keys they store, until one has to move on to the next page.
    Without caches each store scans its page. *)
Definition nevs : list (mev N) := nstos (seq 0 7) None ++ nstos [3] (Some 9) ++ [MBoot nc].
Definition nlast : mev N := MCall (nsto 4) None.
Definition nev : list (mev N) := nevs ++ [nlast].
Lemma nev_ok : Forall (mev_ok kn kl true ng 128) nev.
Proof.
  apply ns_ok; [vm_compute; reflexivity|]. intros c I. unfold nev, nevs, nlast, nstos in I. rewrite !in_app_iff, !in_map_iff in I. cbn [In] in I.
  destruct I as [[(? & ? & ?)|[(? & ? & ?)|[I|[]]]]|[I|[]]]; try discriminate. now injection I.
Qed.
Lemma nev_calm : calmb true calm0 nev (fst (ns nc nev)) = true.
Proof. vm_compute. reflexivity. Qed.
Lemma nev_l : fst (ns nc nev) = removelast (fst (ns nc nev)) ++ [RUnit (Ok tt)].
Proof. vm_compute. reflexivity. Qed.
Lemma ans_eq {A} (P : list A -> Prop) (l m : list A) : l = m -> P l -> P m. Proof. now intros <-. Qed.
Lemma nev_reached : m_reached kn kl true ng 128 (nevs ++ [nlast]) (removelast (fst (ns nc nev)) ++ [RUnit (Ok tt)]) (snd (ns nc nev)).
Proof. exact (ans_eq (fun l => m_reached kn kl true ng 128 nev l (snd (ns nc nev))) _ _ nev_l (ns_reached nev nev_ok nev_calm)). Qed.
Definition cached3 (c : cache N) : bool := match c with mkcache _ (PSArray l) (PPArray er wr) _ => (3 <=? length l) && (3 <=? length er) && (3 <=? length wr) | _ => false end.
Lemma cached3_ok c : cached3 c = true -> page_caches ng c.
Proof.
  destruct c as [? [|l|] [|er wr] ?]; try discriminate. intros X. apply andb_prop in X. destruct X as (X & X3). apply andb_prop in X. destruct X as (X1 & X2).
  apply Nat.leb_le in X1, X2, X3. exists l, er, wr. repeat split; assumption.
Qed.
Lemma nev_cached : cached3 (s_ca (snd (ns nc nev))) = true. Proof. vm_compute. reflexivity. Qed.
Example c52_store_case :
  m_reached kn kl true ng 128 (nevs ++ [nlast]) (removelast (fst (ns nc nev)) ++ [RUnit (Ok tt)]) (snd (ns nc nev)) /\ page_caches ng (s_ca (snd (ns nc nev))) /\
  nth 7 (fst (ns nc nev)) (RUnit (Ok tt)) = RUnit (Err (EStorage SShutoff)) /\
  mcosts ng (snd (ns nc nev)) (map (fun k => nsto (N.of_nat k)) (seq 4 7)) = map (fun n => (RUnit (Ok tt), n)) [0; 0; 0; 0; 0; 0; 225] /\
  mcosts ng (snd (ns nc0 (nstos (seq 0 7) None))) (map (fun k => nsto (N.of_nat k)) [4; 5; 6]) = map (fun n => (RUnit (Ok tt), n)) [26; 8; 9].
Proof. split; [exact nev_reached|]. split; [exact (cached3_ok _ nev_cached)|]. split; [vm_compute; reflexivity|]. split; vm_compute; reflexivity. Qed.
