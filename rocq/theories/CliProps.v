(* C59: the retraining command. *)
Set Warnings "-notation-overridden,-ambiguous-paths".
From mathcomp Require Import all_ssreflect all_algebra zify.
From Verif Require Import Py Dict RetrainModel RetrainSpec RetrainProof RetrainProof2 RetrainProps CliModel CliSpec.
Set Implicit Arguments. Unset Strict Implicit. Unset Printing Implicit Defensive.
Import GRing.Theory Num.Theory Order.Theory.
Local Open Scope ring_scope.

Section Cli.
Variables (P : eqType) (M G : Type).
Variable choice : int -> nat -> nat -> seq nat.
Variable reseed : int -> G.
Variable train : kwd -> seq nat -> int -> G -> res M * G.
Notation main := (main choice reseed train).
Notation state := (world P M * lroot M * G)%type.

Lemma poolE sub N : pool sub N = if 0 < sub then `|sub|%N else N.
Proof. by case: sub => [[|k]|k]. Qed.
Definition dev_kw (dev : nat) : kwd := [:: (xcode KDevice, XText dev)].

(* ---- which commands run at all ---- *)

(* Options are refused by the parser exactly when a choice is not offered, a partition is not three numbers or
   "none", or an extra parameter is not key=value; nothing is changed then. *)
Theorem C59_usage (s : state) p N a :
  (main s p N a).2 = Usage <->
  [\/ [\/ c_ds a = Some DOther, c_md a = Some MOther, c_md a = Some Mlp | c_op a = Some OOther],
      (exists fs, c_part a = Some fs /\ (size fs <> 3%N \/ exists i, (i < size fs)%N /\ nth FNone fs i = FBad))
    | exists i, (i < size (c_extra a))%N /\ nth XBad (c_extra a) i = XBad].
Proof.
have -> : (main s p N a).2 = Usage <-> [|| bad_ds (c_ds a), bad_md (c_md a), bad_op (c_op a), bad_part (c_part a) | bad_extra (c_extra a)].
  rewrite /main; case: ifP => [//|_]; split=> //.
  case: (c_ds a) => [d|//]; case: (c_md a) => [m|//]; case: (c_op a) => [o|//].
  case: (~~ supported d m) => //; case: ((c_sub a <= 0) && (N == 0%N)) => //; move: (fields o N (c_part a)) => F3; case: F3 => F2 f2; case: F2 => f0 f1.
  case: f0 => [f0|//]; case: f1 => [f1|//]; case: f2 => [f2|//]; case: (has _ reserved) => //; case: o.
  - by case: (retrain_loo _ _ s.1.2 _ _ _ _) => [[? ?] ?].
  - by case: (call_lds _ _ _ s.1.1 _ _ _ _ _ _ _ _) => [[? ?] ?].
  - by case: (call_lds _ _ _ s.1.1 _ _ _ _ _ _ _ _) => [[? ?] ?].
split.
- case/or4P.
  + by case: (c_ds a) => [[]|] // _; constructor 1; constructor 1.
  + by case: (c_md a) => [[]|] // _; constructor 1; [constructor 3|constructor 2].
  + by case: (c_op a) => [[]|] // _; constructor 1; constructor 4.
  case/orP.
  + rewrite /bad_part; case: (c_part a) => [fs|//] /orP [h|/eqP h]; last by constructor 2; exists fs; split=> //; left.
    constructor 2; exists fs; split=> //; right; have /(has_nthP FNone) [i hi] := h.
    by case e: (nth FNone fs i) => // _; exists i.
  + by move=> /(has_nthP XBad) [i hi]; case e: (nth _ _ _) => // _; constructor 3; exists i.
- case.
  + by case=> ->; rewrite /= ?orbT.
  + case=> fs [-> h]; rewrite (_ : bad_part _ = true) ?orbT //=; case: h => [/eqP ->|[i [hi e]]]; first by rewrite orbT.
    by rewrite (_ : has _ _ = true) //; apply/(has_nthP FNone); exists i => //; rewrite e.
  + case=> i [hi e]; rewrite (_ : bad_extra _ = true) ?orbT //; apply/(has_nthP XBad); exists i => //; by rewrite e.
Qed.
Theorem C59_usage_unchanged (s : state) p N a : (main s p N a).2 = Usage \/ (main s p N a).2 = Help -> (main s p N a).1 = s.
Proof.
rewrite /main; case: ifP => [//|_].
case: (c_ds a) => [d|//]; case: (c_md a) => [m|//]; case: (c_op a) => [o|//].
case: (~~ supported d m) => //; case: ((c_sub a <= 0) && (N == 0%N)) => //; move: (fields o N (c_part a)) => F3; case: F3 => F2 f2; case: F2 => f0 f1.
case: f0 => [f0|//]; case: f1 => [f1|//]; case: f2 => [f2|//]; case: (has _ reserved) => //; case: o.
- by case: (retrain_loo _ _ s.1.2 _ _ _ _) => [[? ?] ?] [].
- by case: (call_lds _ _ _ s.1.1 _ _ _ _ _ _ _ _) => [[? ?] ?] [].
- by case: (call_lds _ _ _ s.1.1 _ _ _ _ _ _ _ _) => [[? ?] ?] [].
Qed.
(* Of the sixteen combinations the parser accepts only four exist; the others are a KeyError and change nothing. *)
Theorem C59_combinations (s : state) p N d m op sub seed part dev :
  d <> DOther -> m <> MOther -> m <> Mlp -> op <> OOther -> ~~ bad_part part ->
  ~ List.In (d, m) combos -> main s p N (plain (d, m) op sub seed part dev) = (s, Done (Err KeyError)).
Proof.
move=> hd hm1 hm2 ho /negbTE hp hc.
have su : supported d m = false.
  by case: d hd hc => // _ hc; case: m hm1 hm2 hc => // _ _ hc; case: hc; rewrite /=; do ?[by left | right].
rewrite /CliModel.main; cbn [plain c_ds c_md c_op c_part c_extra fst snd]; rewrite hp su.
have -> : bad_ds (Some d) = false by case: d hd {hc su}.
have -> : bad_md (Some m) = false by case: m hm1 hm2 {hc su}.
by have -> : bad_op (Some op) = false by case: op ho {hc su}.
Qed.

(* ---- lds ---- *)
Lemma main_lds (s : state) p N dm sub seed st en tot dev : List.In dm combos -> (0 < sub) || (0 < N)%N -> (st <= en)%N ->
  main s p N (plain dm Lds sub seed (part3 st en tot) dev) =
  let: ((w, g), r) := retrain_lds choice reseed (train (dev_kw dev)) s.1.1 s.2 p
     (Job (pool sub N) (pool sub N %/ 2)%N%:Z (en - st) 1 st tot%:Z seed) in
  ((w, s.1.2, g), Done r).
Proof.
move=> hc hN hse; rewrite /CliModel.main.
have [-> ->] : bad_ds (Some dm.1) = false /\ bad_md (Some dm.2) = false by case: hc => [<-|[<-|[<-|[<-|]]]].
have su : supported dm.1 dm.2 by case: hc => [<-|[<-|[<-|[<-|]]]].
cbn [plain c_ds c_md c_op c_sub c_seed c_part c_dev c_extra orb bad_op bad_part part3 bad_extra has size].
have -> : (sub <= 0) && (N == 0%N) = false by move: hN; rewrite lt0n ltNge; case: (sub <= 0) => //= /negbTE.
rewrite su -poolE /= /call_lds /nval_of /=.
have -> : en%:Z - st%:Z = (en - st)%N%:Z by rewrite subzn.
rewrite /retrain_lds /=.
case: (en - st)%N => [|k] //=.
case: (_ %| _)%N => //=.
case: (ltrP seed 0) => // s0.
by case: tot => [|tot]; reflexivity.
Qed.
Section Lds.
Variables (dm : dtext * mtext) (sub seed : int) (N dev : nat).
Hypothesis hc : List.In dm combos.
Hypothesis hN : (0 < sub) || (0 < N)%N.
Let n := pool sub N.
(* What a successful command leaves: subsets start..end-1 (0..end-start-1 when the third field is 0, whatever the
   start), each with the sample drawn from seed+i out of the first n positions and a model trained on it with that
   seed; every other directory and the leave-one-out directory as before. *)
Theorem C59_lds_run (s : state) p st en tot : (st <= en)%N ->
  let: (s', r) := main s p N (plain dm Lds sub seed (part3 st en tot) dev) in
  r = Done (Ok tt) ->
  let first := if tot == 0%N then 0%N else st in
  [/\ (forall i, (first <= i < first + (en - st))%N ->
         let idx := choice (seed + i%:Z) n (n %/ 2)%N in
         (contents s'.1.1 p 1 i).1 = Some idx /\
         exists m g1 g2, checkpoint s'.1.1 p i 0 = Some m /\ train (dev_kw dev) idx (seed + i%:Z) g1 = (Ok m, g2)),
      (forall q i, ~~ ((q == p) && (first <= i < first + (en - st))%N) -> get_dir s'.1.1 (q, i) = get_dir s.1.1 (q, i)) &
      s'.1.2 = s.1.2].
Proof.
move=> hse; rewrite main_lds //; case e: (retrain_lds _ _ _ _ _ _ _) => [[w g] r] -[er].
rewrite er in e; have [sds [h1 h2 h3 h4]] := C30_job e; move=> first.
have cov i : covers (Job n (n %/ 2)%N%:Z (en - st) 1 st tot%:Z seed) i = (first <= i < first + (en - st))%N by [].
split=> //.
- move=> i hi idx; have := h3 i; rewrite cov => /(_ hi) [e1 e2]; split; first exact: e1.
  have [m [g1 [g2 [e3 e4]]]] := e2 0%N isT; exists m, g1, g2; split=> //.
  by move: e4; rewrite h1 /= muln1 addn0.
Qed.
(* Which partitions are accepted, for training functions that do not raise. *)
Theorem C59_lds_accepts (s : state) p st en tot :
  (forall k idx sd g, exists m g', train k idx sd g = (Ok m, g')) ->
  (main s p N (plain dm Lds sub seed (part3 st en tot) dev)).2 = Done (Ok tt) <->
  [&& st != en, ((if (st < en)%N then en - st else st - en) %| tot)%N, 0 <= seed & (en < st)%N || (1 < n)%N].
Proof.
move=> tt_; case: (leqP st en) => hse.
  rewrite main_lds //.
  have := @C30_accepts P M G choice reseed (train (dev_kw dev)) s.1.1 s.2 p (Job n (n %/ 2)%N%:Z (en - st) 1 st tot%:Z seed) (fun i j g _ _ => tt_ _ _ _ g).
  rewrite -/n; case: (retrain_lds _ _ _ _ _ _ _) => [[w g] r] /= h.
  have -> : Done r = Done (Ok tt) <-> r = Ok tt by split=> [[]|->].
  rewrite h /valid_job /= subn_gt0; move: hse; rewrite leq_eqVlt; case: (ltnP st en) => he; rewrite ?orbF ?orbT.
    by move=> _; rewrite (ltn_eqF he) /=; split=> /and3P [-> ->]; [case/andP=> [h1 h2]|move=> h1]; lia.
  by move=> /eqP ->; rewrite eqxx.
rewrite (ltnNge st en) (ltnW hse) /= gtn_eqF //=.
rewrite /CliModel.main.
have [-> ->] : bad_ds (Some dm.1) = false /\ bad_md (Some dm.2) = false by case: hc => [<-|[<-|[<-|[<-|]]]].
have su : supported dm.1 dm.2 by case: hc => [<-|[<-|[<-|[<-|]]]].
cbn [plain c_ds c_md c_op c_sub c_seed c_part c_dev c_extra orb bad_op bad_part part3 bad_extra has size].
have -> : (sub <= 0) && (N == 0%N) = false by move: hN; rewrite lt0n ltNge; case: (sub <= 0) => //= /negbTE.
rewrite su /= /call_lds /nval_of /=.
have e0 : en%:Z - st%:Z = - (st - en)%N%:Z by lia.
rewrite e0 abszN oppr_eq0 -[(st - en)%N%:Z == 0]/((st - en)%N == 0%N) subn_eq0 leqNgt hse /=.
case: (_ %| _)%N => //=; case: (ltrP seed 0) => // s0 /=.
have -> : (- (st - en)%N%:Z < 0)%R by lia.
by case: ifP.
Qed.
(* An end before the start: when the difference divides the total the command succeeds and trains nothing. *)
Theorem C59_lds_reversed (s : state) p st en tot : (en < st)%N -> (0 < tot)%N -> (st - en %| tot)%N -> 0 <= seed ->
  let: (s', r) := main s p N (plain dm Lds sub seed (part3 st en tot) dev) in
  [/\ r = Done (Ok tt), forall d, get_dir s'.1.1 d = get_dir s.1.1 d & forall q, rt_meta (get_root s'.1.1 q) = rt_meta (get_root s.1.1 q)].
Proof.
move=> hse t0 hd s0; rewrite /CliModel.main.
have [-> ->] : bad_ds (Some dm.1) = false /\ bad_md (Some dm.2) = false by case: hc => [<-|[<-|[<-|[<-|]]]].
have su : supported dm.1 dm.2 by case: hc => [<-|[<-|[<-|[<-|]]]].
cbn [plain c_ds c_md c_op c_sub c_seed c_part c_dev c_extra orb bad_op bad_part part3 bad_extra has size].
have -> : (sub <= 0) && (N == 0%N) = false by move: hN; rewrite lt0n ltNge; case: (sub <= 0) => //= /negbTE.
rewrite su /= /call_lds /nval_of /=.
have e0 : en%:Z - st%:Z = - (st - en)%N%:Z by lia.
rewrite e0 abszN oppr_eq0 -[(st - en)%N%:Z == 0]/((st - en)%N == 0%N) subn_eq0 leqNgt hse /= hd /= ltNge s0 /=.
have -> : (- (st - en)%N%:Z < 0)%R by lia.
have -> : (tot%:Z == 0) = false by apply/negbTE; rewrite -lt0n.
split=> //.
- by move=> d; rewrite /get_dir /mkroot get_rootE; case: eqP => [->|].
- by move=> q; rewrite /mkroot get_rootE; case: eqP => [->|].
Qed.
End Lds.
(* Splitting an experiment of J*m subsets into J commands, run in any order: the directories are those of the single
   command, but the ground truth reader cannot read the result. *)
Lemma runs_lds p N dm sub seed dev (l : seq (nat * nat * nat)) (s : state) : List.In dm combos -> (0 < sub) || (0 < N)%N ->
  (forall x, List.In x l -> (x.1.1 <= x.1.2)%N) ->
  let s' := runs choice reseed train p N s [seq plain dm Lds sub seed (part3 x.1.1 x.1.2 x.2) dev | x <- l] in
  (s'.1.1, s'.2) = run_jobs choice reseed (train (dev_kw dev)) s.1.1 s.2 p
    [seq Job (pool sub N) (pool sub N %/ 2)%N%:Z (x.1.2 - x.1.1) 1 x.1.1 x.2%:Z seed | x <- l].
Proof.
move=> hc hN; elim: l s => [|x l IH] s hx /=; first by case: s => [[]].
rewrite IH; last by move=> y hy; apply: hx; right.
rewrite main_lds //; last by apply: hx; left.
by rewrite run_jobs_cons; case: (retrain_lds _ _ _ _ _ _ _) => [[w g] r].
Qed.
Theorem C59_lds_parts (s s1 : state) p p1 N dm sub seed dev J m (qs : seq nat) i (tr : seq nat -> int -> res M) :
  List.In dm combos -> (0 < sub) || (0 < N)%N -> (1 < pool sub N)%N -> 0 <= seed -> (0 < m)%N -> perm_eq qs (iota 0 J) -> (i < J * m)%N ->
  self_seeding (train (dev_kw dev)) tr -> (forall idx sd, exists md, tr idx sd = Ok md) ->
  contents (runs choice reseed train p N s [seq plain dm Lds sub seed (part3 (q * m) (q.+1 * m) (J * m)) dev | q <- qs]).1.1 p 1 i =
  contents (main s1 p1 N (plain dm Lds sub seed (part3 0 (J * m) (J * m)) dev)).1.1.1 p1 1 i.
Proof.
move=> hc hN n1 s0 m0 hq hi ss ok.
pose one := Job (pool sub N) (pool sub N %/ 2)%N%:Z (J * m) 1 0 (J * m)%N%:Z seed.
have v1 : valid_job one by rewrite /valid_job /one /= dvdnn s0; move: hi n1; clear; lia.
have := @C30_split P M G choice reseed (train (dev_kw dev)) tr ss s.1.1 s.2 p s1.1.1 s1.2 p1
  [seq Job (pool sub N) (pool sub N %/ 2)%N%:Z (q.+1 * m - q * m) 1 (q * m) (J * m)%N%:Z seed | q <- qs] one i v1.
have t1 jb : trainable choice tr jb by move=> ? ? _ _; exact: ok.
have ci : covers one i by rewrite /covers /first_subset /one /=; case: ifP; rewrite add0n.
move=> /(_ (t1 _) ci) h.
have -> : contents (main s1 p1 N (plain dm Lds sub seed (part3 0 (J * m) (J * m)) dev)).1.1.1 p1 1 i =
   contents (retrain_lds choice reseed (train (dev_kw dev)) s1.1.1 s1.2 p1 one).1.1 p1 1 i.
  by rewrite main_lds // subn0 -/one; case: (retrain_lds _ _ _ _ _ _ _) => [[? ?] ?].
rewrite -h.
- have := @runs_lds p N dm sub seed dev [seq (q * m, q.+1 * m, J * m)%N | q <- qs] s hc hN.
  rewrite -!map_comp => /(_ _) <- //= x /List.in_map_iff [q [<- _]] /=; by rewrite leq_mul2r leqnSn orbT.
- move=> jb /List.in_map_iff [q [<- hin]]; split=> //; rewrite /valid_job /= s0 mulSn addnK m0 dvdn_mull //=.
  by move: n1; clear; lia.
rewrite has_map; apply/hasP; exists (i %/ m)%N; first by rewrite (perm_mem hq) mem_iota add0n ltn_divLR.
rewrite /= /covers /first_subset /= mulSn addnK.
have -> : ((J * m)%N%:Z == 0) = false by apply/negbTE; rewrite -lt0n; apply: leq_ltn_trans hi.
by rewrite leq_trunc_div /= addnC -mulSn; apply: ltn_ceil.
Qed.
Theorem C59_lds_parts_unreadable (R : numFieldType) nt (target : M -> seq R) (s : state) p N dm sub seed dev J m (qs : seq nat) :
  List.In dm combos -> (0 < sub) || (0 < N)%N -> (1 < pool sub N)%N -> 0 <= seed -> (1 < J)%N -> (0 < m)%N -> perm_eq qs (iota 0 J) ->
  (forall idx sd g, exists md g', train (dev_kw dev) idx sd g = (Ok md, g')) -> rt_meta (get_root s.1.1 p) = None ->
  lds_ground_truth nt target
    (runs choice reseed train p N s [seq plain dm Lds sub seed (part3 (q * m) (q.+1 * m) (J * m)) dev | q <- qs]).1.1 p =
  Err (if (m %| J.-1)%N then KeyError else FileNotFoundError).
Proof.
move=> hc hN n1 s0 J1 m0 hq ok hm.
have [_ <-] := @C31_parallel_unreadable P M G choice reseed (train (dev_kw dev)) R nt target s.1.1 s.2 p (pool sub N) (pool sub N %/ 2)%N%:Z m 1 seed J qs
  (fun i j g _ _ => ok _ _ _) hm J1 m0 s0 ltac:(lia) ltac:(lia) hq.
have := @runs_lds p N dm sub seed dev [seq (q * m, q.+1 * m, J * m)%N | q <- qs] s hc hN.
have hx x : List.In x [seq (q * m, q.+1 * m, J * m)%N | q <- qs] -> (x.1.1 <= x.1.2)%N.
  by elim: qs {hq} => //= q l IH [<- /=|/IH //]; rewrite leq_mul2r leqnSn orbT.
move=> /(_ hx) /= /(congr1 fst); rewrite -!map_comp /= => h; congr lds_ground_truth.
rewrite (_ : [seq plain _ _ _ _ _ _ | q <- qs] = [seq ((fun x : nat * nat * nat => plain dm Lds sub seed (part3 x.1.1 x.1.2 x.2) dev) \o
   (fun q : nat => ((q * m)%N, (q.+1 * m)%N, (J * m)%N))) i | i <- qs]) // h.
by congr (run_jobs _ _ _ _ _ _ _).1; apply: eq_map => q /=; rewrite mulSn addnK.
Qed.

(* ---- loo ---- *)
Lemma main_loo (s : state) p N dm sub seed part st en t dev : List.In dm combos -> (0 < sub) || (0 < N)%N -> ~~ bad_part part ->
  fields Loo N part = (Some st, Some en, Some t) ->
  main s p N (plain dm Loo sub seed part dev) =
  let: ((l, g), r) := retrain_loo reseed (fun i sd g => train (dev_kw dev) i (odflt 0 sd) g) s.1.2 s.2 (pool sub N)
     (Some [seq i%:Z | i <- iota st (en - st)]) (Some seed) in
  ((s.1.1, l, g), Done r).
Proof.
move=> hc hN /negbTE hf ef; rewrite /CliModel.main.
have [-> ->] : bad_ds (Some dm.1) = false /\ bad_md (Some dm.2) = false by case: hc => [<-|[<-|[<-|[<-|]]]].
have su : supported dm.1 dm.2 by case: hc => [<-|[<-|[<-|[<-|]]]].
cbn [plain c_ds c_md c_op c_sub c_seed c_part c_dev c_extra orb bad_op bad_extra has]; rewrite hf.
have -> : (sub <= 0) && (N == 0%N) = false by move: hN; rewrite lt0n ltNge; case: (sub <= 0) => //= /negbTE.
by rewrite su -poolE ef.
Qed.
Section Loo.
Variables (R : numFieldType) (nt : nat) (target : M -> seq R) (dev : nat).
Hypothesis target_size : forall m, size (target m) = nt.
Variable md : seq nat -> int -> M.
Hypothesis ss : forall idx sd g, (train (dev_kw dev) idx sd g).1 = Ok (md idx sd).
Variables (dm : dtext * mtext) (sub seed : int) (N : nat).
Hypothesis hc : List.In dm combos.
Hypothesis hN : (0 < sub) || (0 < N)%N.
Notation n := (pool sub N).

Lemma runs_loo p (l : seq (nat * nat)) (s : state) :
  let s' := runs choice reseed train p N s [seq plain dm Loo sub seed (Some [:: FInt x.1; FInt x.2; FNone]) dev | x <- l] in
  (s'.1.2, s'.2) = run_loo reseed (fun i sd g => train (dev_kw dev) i (odflt 0 sd) g) s.1.2 s.2
    [seq (n, Some [seq i%:Z | i <- iota x.1 (x.2 - x.1)], Some seed) | x <- l].
Proof.
elim: l s => [|x l IH] s /=; first by case: s => [[]].
rewrite IH (@main_loo s p N dm sub seed _ x.1 x.2 N) // {2}/run_loo /= /run_loo.
by case: (retrain_loo _ _ _ _ _ _ _) => [[w g] r].
Qed.
(* After leave-one-out commands for any ranges, in any order and with overlaps, into an empty directory, the ground
   truth has exactly the requested positions in increasing order; the row of position i comes from the model trained
   on the n used positions without i — or on all n of them when i is not one of them. *)
Theorem C59_loo_parts (s : state) p (l : seq (nat * nat)) : s.1.2 = LRoot [::] false ->
  exists idx : seq nat,
  [/\ sorted ltn idx, forall i, (i \in idx) = has (fun x => x.1 <= i < x.2)%N l &
      loo_ground_truth nt target
        (runs choice reseed train p N s [seq plain dm Loo sub seed (Some [:: FInt x.1; FInt x.2; FNone]) dev | x <- l]).1.2 =
      Ok ([seq target (md (if (i < n)%N then iota 0 i ++ iota i.+1 (n - i.+1) else iota 0 n) seed) | i <- idx], [seq i%:Z | i <- idx])].
Proof.
move=> s0; have := congr1 fst (runs_loo p l s); rewrite s0 /= => ->.
set h := [seq _ | x <- l].
have [|idx [so mi ->]] := @C32_history M G reseed (fun i sd g => train (dev_kw dev) i (odflt 0 sd) g) R nt target target_size
  (fun i sd => Ok (md i (odflt 0 sd))) (fun i sd => md i (odflt 0 sd)) (fun i sd g => ss i (odflt 0 sd) g) s.2 h; first by [].
have ev e : e \in events h -> e.2 = (n, Some seed).
  rewrite /events /h; elim: l {h mi} => [|x l IH] //=; rewrite mem_cat => /orP [|/IH //].
  by move=> /mapP [i _ ->].
have evi i : (i \in [seq e.1 | e <- events h]) = has (fun x => i \in [seq k%:Z | k <- iota x.1 (x.2 - x.1)]) l.
  rewrite /events /h; elim: l {h mi ev} => [|x l IH] //=; rewrite map_cat mem_cat IH; congr (_ || _).
  by rewrite /requested /= -map_comp map_id.
have pos i : i \in idx -> i = `|i|%N%:Z.
  by rewrite mi evi => /hasP [x _ /mapP [k _ ->]].
exists [seq `|i|%N | i <- idx]; have eidx : idx = [seq k%:Z | k <- [seq `|i|%N | i <- idx]].
  by rewrite -map_comp -[LHS]map_id; apply/eq_in_map => i /pos.
split.
- have sl (t : seq nat) : sorted <%R [seq k%:Z | k <- t] -> sorted ltn t.
    by case: t => [//|a t] /=; elim: t a => [//|b t IH] a /= /andP [h1 /IH ->]; rewrite andbT -ltz_nat.
  by apply: sl; rewrite -eidx.
- move=> i; have -> : (i \in [seq `|j|%N | j <- idx]) = (i%:Z \in idx) by rewrite [in RHS]eidx mem_map // => a b [].
  rewrite mi evi; apply: eq_has => x; rewrite mem_map; last by move=> a b [].
  by rewrite mem_iota; case: (leqP x.1 x.2); lia.
rewrite -eidx; congr (Ok (_, _)); rewrite -map_comp; apply/eq_in_map => i ii /=.
have -> : last_event i (events h) = Some (n, Some seed).
  have le (L : seq (int * (nat * option int))) y : last_event i L = Some y -> exists2 e, e \in L & e.2 = y.
    elim: L => [//|e L IH] /=; case: (last_event i L) IH => [z|] IH.
      by move=> ez; have [e' he' <-] := IH ez; exists e' => //; rewrite inE he' orbT.
    by case: ifP => // _ [<-]; exists e => //; rewrite inE eqxx.
  have := mi i; rewrite ii last_event_mem; case el: (last_event i (events h)) => [y|//] _.
  by have [e he <-] := le _ _ el; rewrite (ev e he).
by rewrite /= {1}(pos i ii).
Qed.
(* The default partition asks for every position of the data set although only the first n are used: the rows from n
   on all repeat the model trained on everything. *)
Theorem C59_loo_default (s : state) p : s.1.2 = LRoot [::] false ->
  loo_ground_truth nt target (main s p N (plain dm Loo sub seed None dev)).1.1.2 =
  Ok (mkseq (fun i => target (md (if (i < n)%N then iota 0 i ++ iota i.+1 (n - i.+1) else iota 0 n) seed)) N, mkseq Posz N).
Proof.
move=> s0; have [idx [so mi]] := @C59_loo_parts s p [:: (0, N)%N] s0.
rewrite /runs /= (@main_loo s p N dm sub seed _ 0 N N) // (@main_loo s p N dm sub seed _ 0 N N) //.
case: (retrain_loo _ _ _ _ _ _ _) => [[w g] r] /= ->.
suff -> : idx = iota 0 N by [].
apply: (@irr_sorted_eq _ ltn) => //; [exact: ltn_trans|exact: ltnn|exact: iota_ltn_sorted|].
by move=> i; rewrite mi mem_iota /= orbF.
Qed.
End Loo.
(* --train_subset larger than the data set: training that reads its data fails. *)
Theorem C59_loo_too_large (s : state) p N dm sub seed st en dev : List.In dm combos -> (0 < sub) || (0 < N)%N ->
  (forall k idx sd g, has (fun i => (N <= i)%N) idx -> (train k idx sd g).1 = Err IndexError) ->
  (N < pool sub N)%N -> (st < en)%N -> (N.+1 < pool sub N)%N \/ st <> N ->
  (main s p N (plain dm Loo sub seed (Some [:: FInt st; FInt en; FNone]) dev)).2 = Done (Err IndexError).
Proof.
move=> hc hN ht hn hse hst; rewrite (@main_loo s p N dm sub seed _ st en N) // /retrain_loo /=.
have -> : (en - st)%N = (en - st).-1.+1 by move: hse; clear; lia.
rewrite /= /loo_one /=.
set rem := [seq i <- _ | _].
have hr : has (fun i => (N <= i)%N) rem.
  apply/hasP; case: (N =P st) => e.
    by exists N.+1; rewrite ?leqnSn // mem_filter mem_iota; case: hst => [h|/(_ (esym e)) //]; move: h e; clear; lia.
  by exists N; rewrite ?leqnn // mem_filter mem_iota; move: hn e; clear; lia.
by have := ht (dev_kw dev) rem seed (reseed seed) hr; case: (train _ _ _ _) => r g /= ->.
Qed.
Theorem C59_lds_too_large (s : state) p N dm sub seed st en tot dev : List.In dm combos -> (0 < sub) || (0 < N)%N ->
  (forall k idx sd g, has (fun i => (N <= i)%N) idx -> (train k idx sd g).1 = Err IndexError) ->
  samples_without_replacement choice ->
  (N < pool sub N %/ 2)%N -> (st < en)%N -> (en - st %| tot)%N -> 0 <= seed ->
  (main s p N (plain dm Lds sub seed (part3 st en tot) dev)).2 = Done (Err IndexError).
Proof.
move=> hc hN ht sw hn hse hd s0; rewrite main_lds ?(ltnW hse) // /retrain_lds /= hd /=.
have -> : ((en - st)%N == 0%N) = false by move: hse; clear; lia.
rewrite /= ltNge s0 /=.
have -> : (en - st)%N = (en - st).-1.+1 by move: hse; clear; lia.
rewrite /= {1}/one_subset /=.
have -> : (0 < (pool sub N %/ 2)%N%:Z) && ((pool sub N %/ 2)%N%:Z <= (pool sub N)%:Z) by move: hn; clear; lia.
rewrite /one_run /=; set idx := choice _ _ _.
have [] := sw (seed + (if tot%:Z == 0 then 0%N else st)%:Z) (pool sub N) (pool sub N %/ 2)%N; first by move: hn; clear; lia.
rewrite -/idx => sz un al.
have hr : has (fun i => (N <= i)%N) idx.
  rewrite -[has _ _]negbK -all_predC; apply/negP => h.
  have : (size idx <= size (iota 0 N))%N.
    by apply: uniq_leq_size => // i /(allP h) /=; rewrite mem_iota -ltnNge.
  by rewrite size_iota sz; move: hn; clear; lia.
set sd := seed + _; have := ht (dev_kw dev) idx sd (reseed seed) hr.
by case: (train _ _ _ _) => r g /= ->.
Qed.
(* a partition whose start is "none" *)
Theorem C59_no_start (s : state) p N dm op sub seed en t dev : List.In dm combos -> op <> OOther -> en <> FBad -> t <> FBad -> (0 < sub) || (0 < N)%N ->
  main s p N (plain dm op sub seed (Some [:: FNone; en; t]) dev) = (s, Done (Err TypeError)).
Proof.
move=> hc ho he ht hN; rewrite /CliModel.main.
have [-> ->] : bad_ds (Some dm.1) = false /\ bad_md (Some dm.2) = false by case: hc => [<-|[<-|[<-|[<-|]]]].
have su : supported dm.1 dm.2 by case: hc => [<-|[<-|[<-|[<-|]]]].
cbn [plain c_ds c_md c_op c_sub c_seed c_part c_dev c_extra orb bad_part bad_extra has size]; rewrite su.
have -> : (sub <= 0) && (N == 0%N) = false by move: hN; rewrite lt0n ltNge; case: (sub <= 0) => //= /negbTE.
by case: op ho => //; case: en he => //; case: t ht.
Qed.

(* ---- extra parameters ---- *)
Lemma updateE k l key : ~~ bad_extra l -> dget (update k l) (xcode key) = if last_extra key l is Some v then Some v else dget k (xcode key).
Proof.
elim: l k => [//|x l IH] k /= /norP [hx hl]; rewrite /update /= -/(update _ l) IH //.
case: (last_extra key l) => //; case: x hx => // a v _; rewrite dgetE [xcode key == _]eq_sym; by case: ifP.
Qed.
Definition with_extra (a : cargs) (l : seq xarg) : cargs :=
  CArgs (c_ds a) (c_md a) (c_op a) (c_sub a) (c_seed a) (c_part a) (c_dev a) l.
(* seed, path, dataloader and train_func cannot be given as extra parameters *)
Theorem C59_extra_reserved (s : state) p N dm op sub seed part st en t dev l r v : List.In dm combos -> op <> OOther -> ~~ bad_part part ->
  (0 < sub) || (0 < N)%N -> fields op N part = (Some st, Some en, Some t) ->
  ~~ bad_extra l -> List.In r reserved -> last_extra r l = Some v ->
  main s p N (with_extra (plain dm op sub seed part dev) l) = (s, Done (Err TypeError)).
Proof.
move=> hc ho /negbTE hp hN ef hb hr hl; rewrite /CliModel.main.
have [-> ->] : bad_ds (Some dm.1) = false /\ bad_md (Some dm.2) = false by case: hc => [<-|[<-|[<-|[<-|]]]].
have su : supported dm.1 dm.2 by case: hc => [<-|[<-|[<-|[<-|]]]].
cbn [with_extra plain c_ds c_md c_op c_sub c_seed c_part c_dev c_extra]; rewrite hp (negbTE hb) su.
have -> : bad_op (Some op) = false by case: op ho {ef}.
have -> : (sub <= 0) && (N == 0%N) = false by move: hN; rewrite lt0n ltNge; case: (sub <= 0) => //= /negbTE.
rewrite ef; cbn [orb negb]; rewrite (_ : has _ reserved = true) //.
have : dhas (update [:: (xcode KDevice, XText dev)] l) (xcode r) by rewrite dget_has updateE // hl.
by move: hr => /= [<-|[<-|[<-|[<-|]]]] // ->; rewrite ?orbT.
Qed.
(* subset_ratio cannot be set to a fraction: only 1 is accepted *)
Theorem C59_ratio (s : state) p N dm sub seed st en tot dev l v : List.In dm combos ->
  (0 < sub) || (0 < N)%N -> ~~ bad_extra l -> last_extra KRatio l = Some v -> (forall k, List.In k [:: KNum; KStart; KTotal; KRuns] -> last_extra k l = None) ->
  (st < en)%N -> (main s p N (with_extra (plain dm Lds sub seed (part3 st en tot) dev) l)).2 = Done (Ok tt) -> v = XInt 1.
Proof.
move=> hc hN hb hv hk hse; rewrite /CliModel.main.
have [-> ->] : bad_ds (Some dm.1) = false /\ bad_md (Some dm.2) = false by case: hc => [<-|[<-|[<-|[<-|]]]].
have su : supported dm.1 dm.2 by case: hc => [<-|[<-|[<-|[<-|]]]].
cbn [with_extra plain c_ds c_md c_op c_sub c_seed c_part c_dev c_extra]; rewrite (negbTE hb) su.
have -> : (sub <= 0) && (N == 0%N) = false by move: hN; rewrite lt0n ltNge; case: (sub <= 0) => //= /negbTE.
have hg k : List.In k [:: KNum; KStart; KTotal; KRuns] -> dget (update [:: (xcode KDevice, XText dev)] l) (xcode k) = None.
  by move=> hin; rewrite updateE // hk //; move: hin => /= [<-|[<-|[<-|[<-|]]]].
rewrite -poolE; cbn [orb bad_op bad_part part3 has size fields fint odflt oapp nth negb].
case: (has _ reserved) => //.
have hr : dget (update [:: (xcode KDevice, XText dev)] l) (xcode KRatio) = Some v by rewrite updateE // hv.
rewrite /call_lds /nval_of hr (hg KNum) ?(hg KStart) ?(hg KTotal) ?(hg KRuns); try by rewrite /=; do ?[by left | right].
have -> : (tot%:Z < 0) = false by [].
have -> : (en%:Z - st%:Z == 0) = false by move: hse; clear; lia.
rewrite /=; case: (_ %| _)%N => //=; case: v {hv hr} => [r|//]; case: (ltrP seed 0) => // s0.
have n0 : (0 < pool sub N)%N by rewrite poolE; move: hN; case: (ltrP 0 sub) => //= h _; move: h; clear; lia.
have nf : (en%:Z - st%:Z < 0) = false by move: hse; clear; lia.
have -> : (if tot%:Z == 0 then NZ 0 else NZ st%:Z) = NZ (if tot%:Z == 0 then 0 else st%:Z) by case: ifP.
rewrite nf; case e: (retrain_lds _ _ _ _ _ _ _) => [[w g] r'] /= -[er]; rewrite er in e.
have [va _ _ _] := retrain_ok e.
have {va} [h1 h2] : (0 < (pool sub N * r)%N%:Z) /\ ((pool sub N * r)%N%:Z <= (pool sub N)%:Z).
  by case/and5P: va => _ _ _ _ /andP.
congr XInt; move: h1 h2 n0; rewrite lez_nat ltz_nat muln_gt0 => /andP [_ r0] h2 n0.
by move: h2; rewrite -{2}[pool sub N]muln1 leq_pmul2l // ; move: r0; clear; lia.
Qed.
End Cli.

(* ---- examples ---- *)
Section Examples.
Definition ex_choice (s : int) (n k : nat) : seq nat := iota 0 k.
Definition ex_train (k : kwd) (i : seq nat) (s : int) (g : unit) : res (seq nat * int) * unit := (Ok (i, s), g).
Definition ex0 : world nat_eqType (seq nat * int) * lroot (seq nat * int) * unit := ([::], LRoot [::] false, tt).
Notation mainx := (main ex_choice (fun _ => tt) ex_train).
Example C59_ex_hyps : List.In (Mnist, Lr) combos /\ (0 < pool 4 10)%N /\ samples_without_replacement ex_choice.
Proof.
split; first by left.
split=> // s n k kn; split; rewrite /ex_choice ?size_iota ?iota_uniq //; apply/allP => x; rewrite mem_iota; lia.
Qed.
Example C59_ex_lds : let r := mainx ex0 7%N 10%N (plain (Mnist, Lr) Lds 4 3 (part3 2 4 6) 0) in
  r.2 = Done (Ok tt) /\ checkpoint r.1.1.1 7%N 3 0 = Some ([:: 0; 1]%N, 6) /\ checkpoint r.1.1.1 7%N 0 0 = None.
Proof. by vm_compute. Qed.
Example C59_ex_zero_total : let r := mainx ex0 7%N 10%N (plain (Mnist, Lr) Lds 4 3 (part3 2 4 0) 0) in
  r.2 = Done (Ok tt) /\ checkpoint r.1.1.1 7%N 3 0 = None /\ checkpoint r.1.1.1 7%N 0 0 = Some ([:: 0; 1]%N, 3).
Proof. by vm_compute. Qed.
Example C59_ex_reversed : (mainx ex0 7%N 10%N (plain (Mnist, Lr) Lds 4 3 (part3 4 2 6) 0)).2 = Done (Ok tt).
Proof. by vm_compute. Qed.
Example C59_ex_loo : let r := mainx ex0 7%N 5%N (plain (Cifar2, Resnet9) Loo 3 3 None 0) in
  r.2 = Done (Ok tt) /\ dget (lr_dirs r.1.1.2) 1 = Some (Some ([:: 0; 2]%N, 3)) /\ dget (lr_dirs r.1.1.2) 4 = Some (Some ([:: 0; 1; 2]%N, 3)).
Proof. by vm_compute. Qed.
Example C59_ex_ratio : (mainx ex0 7%N 10%N (with_extra (plain (Mnist, Lr) Lds 4 3 (part3 0 2 2) 0) [:: XArg KRatio (XText 0); XArg KRatio (XInt 1)])).2 = Done (Ok tt)
  /\ (mainx ex0 7%N 10%N (with_extra (plain (Mnist, Lr) Lds 4 3 (part3 0 2 2) 0) [:: XArg KRatio (XInt 1); XArg KRatio (XText 0)])).2 = Done (Err ValueError).
Proof. by vm_compute. Qed.
Example C59_ex_usage : (mainx ex0 7%N 10%N (plain (Mnist, Mlp) Lds 4 3 None 0)).2 = Usage
  /\ (mainx ex0 7%N 10%N (plain (Mnist, Resnet9) Lds 4 3 None 0)).2 = Done (Err KeyError)
  /\ (mainx ex0 7%N 10%N (plain (Mnist, Lr) Lds 4 3 (Some [:: FInt 0; FInt 4]) 0)).2 = Usage.
Proof. by vm_compute. Qed.
End Examples.
Print Assumptions C59_usage.
Print Assumptions C59_usage_unchanged.
Print Assumptions C59_combinations.
Print Assumptions C59_lds_run.
Print Assumptions C59_lds_accepts.
Print Assumptions C59_lds_reversed.
Print Assumptions C59_lds_parts.
Print Assumptions C59_lds_parts_unreadable.
Print Assumptions C59_loo_parts.
Print Assumptions C59_loo_default.
Print Assumptions C59_loo_too_large.
Print Assumptions C59_lds_too_large.
Print Assumptions C59_no_start.
Print Assumptions C59_extra_reserved.
Print Assumptions C59_ratio.
