(* Lemmas about leave-one-out retraining and its reader. *)
Set Warnings "-notation-overridden,-ambiguous-paths".
From mathcomp Require Import all_ssreflect all_algebra zify.
From Verif Require Import Py Dict Tensor TensorProof RetrainModel RetrainSpec RetrainProof.
Set Implicit Arguments. Unset Strict Implicit. Unset Printing Implicit Defensive.
Import Order.TTheory GRing.Theory Num.Theory.
Local Open Scope ring_scope.

Lemma remainingE n (i : int) : [seq k <- iota 0 n | k%:Z != i] = all_but n i.
Proof.
case: i => k /=; last first.
  by apply/all_filterP/allP => x _.
have E m a : (forall x, (x \in iota a m) -> x != k) -> [seq x <- iota a m | Posz x != Posz k] = iota a m.
  move=> H; apply/all_filterP/allP => x xi; by rewrite eqz_nat H.
case: ltnP => h; last by apply: E => x; rewrite mem_iota => /andP [_ lt]; apply/eqP; lia.
have {1}-> : n = (k + (n - k.+1).+1)%N by lia.
rewrite iotaD filter_cat add0n /= eqxx /= !E //.
  by move=> x; rewrite mem_iota => /andP [gt _]; apply/eqP; lia.
by move=> x; rewrite mem_iota => /andP [_ lt]; apply/eqP; lia.
Qed.

Lemma last_event_cat i a b :
  last_event i (a ++ b) = if last_event i b is Some x then Some x else last_event i a.
Proof. by elim: a => [|e a IH] /=; [case: last_event | rewrite IH; case: (last_event i b)]. Qed.
Lemma last_event_mem i l : (i \in [seq e.1 | e <- l]) = (if last_event i l is Some _ then true else false).
Proof.
elim: l => [|e l IH] //=; rewrite inE IH eq_sym; case: last_event => [x|]; first by rewrite orbT.
by rewrite orbF; case: ifP.
Qed.
Lemma last_event_call i (l : seq int) (x : nat * option int) :
  last_event i [seq (j, x) | j <- l] = if i \in l then Some x else None.
Proof.
elim: l => [|j l IH] //=; rewrite IH inE eq_sym; case: (i \in l); rewrite ?orbT ?orbF //.
Qed.
Lemma events_rcons h c :
  events (rcons h c) = events h ++ [seq (i, (c.1.1, c.2)) | i <- requested c].
Proof. by rewrite /events map_rcons -cats1 flatten_cat /= cats0. Qed.

Section Loo.
Variables (M G : Type).
Variable reseed : int -> G.
Variable train : seq nat -> option int -> G -> res M * G.

Lemma loo_one_run n seed s g i m :
  (train (all_but n i) seed g).1 = Ok m ->
  exists g', loo_one train n seed (s, g) i =
    ((LRoot (dset (if dhas (lr_dirs s) i then lr_dirs s else dset (lr_dirs s) i None) i (Some m))
            (lr_bad s), g'), Ok tt).
Proof.
by rewrite /loo_one remainingE /=; case: (train _ _ _) => [[m'|?] g'] //= -[->]; exists g'.
Qed.

Lemma dget_dir (d : dict [eqType of int] (option M)) i m k :
  dget (dset (if dhas d i then d else dset d i None) i (Some m)) k =
  if k == i then Some (Some m) else dget d k.
Proof. by rewrite dgetE; case: ifP => // ki; case: ifP => // _; rewrite dgetE ki. Qed.
Lemma uniq_dir (d : dict [eqType of int] (option M)) i m : uniq (dkeys d) ->
  uniq (dkeys (dset (if dhas d i then d else dset d i None) i (Some m))).
Proof. by move=> u; apply: uniq_dset; case: ifP => // _; apply: uniq_dset. Qed.

Section Ok.
Variable tr : seq nat -> option int -> res M.
Variable md : seq nat -> option int -> M.
Hypothesis ss : self_seeding train tr.

Lemma loo_loop n seed l s g : uniq (dkeys (lr_dirs s)) ->
  (forall i, i \in l -> tr (all_but n i) seed = Ok (md (all_but n i) seed)) ->
  exists s' g', [/\ sfold (loo_one train n seed) (s, g) l = ((s', g'), Ok tt),
    lr_bad s' = lr_bad s, uniq (dkeys (lr_dirs s')) &
    forall i, dget (lr_dirs s') i =
      if i \in l then Some (Some (md (all_but n i) seed)) else dget (lr_dirs s) i].
Proof.
elim: l s g => [|i l IH] s g u ok; first by exists s, g.
have [|g1 e1] := @loo_one_run n seed s g i (md (all_but n i) seed).
  by rewrite ss ok ?mem_head.
rewrite [sfold _ _ _]/= e1.
have [|s' [g' [e2 b2 u2 d2]]] := IH (LRoot _ (lr_bad s)) g1 (uniq_dir i (md (all_but n i) seed) u).
  by move=> k kl; apply: ok; rewrite inE kl orbT.
exists s', g'; split=> // k; rewrite d2 /= dget_dir inE.
by case: (k \in l); rewrite ?orbT // orbF; case: eqP => [->|].
Qed.

Definition run_loo (s : lroot M) g (h : seq loo_call) : lroot M * G :=
  foldl (fun sg c => (retrain_loo reseed train sg.1 sg.2 c.1.1 c.1.2 c.2).1) (s, g) h.

Lemma retrain_looE s g (c : loo_call) : uniq (dkeys (lr_dirs s)) ->
  (forall i, i \in requested c -> tr (all_but c.1.1 i) c.2 = Ok (md (all_but c.1.1 i) c.2)) ->
  exists s' g', [/\ retrain_loo reseed train s g c.1.1 c.1.2 c.2 = ((s', g'), Ok tt),
    lr_bad s' = lr_bad s, uniq (dkeys (lr_dirs s')) &
    forall i, dget (lr_dirs s') i =
      if i \in requested c then Some (Some (md (all_but c.1.1 i) c.2)) else dget (lr_dirs s) i].
Proof.
move=> u ok; rewrite /retrain_loo.
have -> : odflt [seq i%:Z | i <- iota 0 c.1.1] c.1.2 = requested c by rewrite /requested; case: (c.1.2).
exact: loo_loop.
Qed.

Lemma run_looE s g h : uniq (dkeys (lr_dirs s)) ->
  (forall e, e \in events h -> tr (all_but e.2.1 e.1) e.2.2 = Ok (md (all_but e.2.1 e.1) e.2.2)) ->
  exists s' g', [/\ run_loo s g h = (s', g'), lr_bad s' = lr_bad s, uniq (dkeys (lr_dirs s')) &
    forall i, dget (lr_dirs s') i =
      if last_event i (events h) is Some x then Some (Some (md (all_but x.1 i) x.2))
      else dget (lr_dirs s) i].
Proof.
move=> u; elim/last_ind: h => [|h c IH] ok.
  by exists s, g; split.
have [|s1 [g1 [e1 b1 u1 d1]]] := IH.
  by move=> e eh; apply: ok; rewrite events_rcons mem_cat eh.
have [|s2 [g2 [e2 b2 u2 d2]]] := @retrain_looE s1 g1 c u1.
  move=> i ir; have := ok (i, (c.1.1, c.2)); apply; rewrite events_rcons mem_cat; apply/orP; right.
  by apply/mapP; exists i.
exists s2, g2; split=> //; rewrite ?b2 //.
  by rewrite /run_loo -cats1 foldl_cat -/(run_loo s g h) e1 /= e2.
move=> i; rewrite d2 events_rcons last_event_cat last_event_call; case: ifP => // _; exact: d1.
Qed.
End Ok.

Variables (R : numFieldType) (nt : nat) (target : M -> seq R).
Hypothesis target_size : forall m, size (target m) = nt.

Lemma looE (s : lroot M) (val : int -> M) :
  ~~ lr_bad s -> (forall i, i \in dkeys (lr_dirs s) -> dget (lr_dirs s) i = Some (Some (val i))) ->
  loo_ground_truth nt target s =
  Ok ([seq target (val i) | i <- sort <=%R (dkeys (lr_dirs s))], sort <=%R (dkeys (lr_dirs s))).
Proof.
move=> /negbTE nb H; rewrite /loo_ground_truth nb.
have [is_ ise] : {is_ | is_ = sort <=%R (dkeys (lr_dirs s))} by eexists.
have Hm i : i \in is_ -> dget (lr_dirs s) i = Some (Some (val i)).
  by rewrite ise mem_sort; apply: H.
rewrite -ise; elim/last_ind: {ise} is_ Hm => [|l i IH] Hm //=.
have F : forall k, k \in l -> dget (lr_dirs s) k = Some (Some (val k)).
  by move=> k kl; apply: Hm; rewrite mem_rcons inE kl orbT.
rewrite rfold_rcons; case: (rfold _ _ _) (IH F) => //= rows [->].
by rewrite (Hm i) ?mem_rcons ?mem_head //= /bc_row target_size eqxx /= map_rcons.
Qed.
End Loo.
