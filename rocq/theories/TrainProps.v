(* C56: what the benchmark's training functions compute, and how they work with the retraining drivers. *)
Set Warnings "-notation-overridden,-ambiguous-paths".
From mathcomp Require Import all_ssreflect all_algebra zify.
From Verif Require Import Py Dict RetrainModel RetrainSpec RetrainProof RetrainProof2 RetrainProps TrainModel TrainSpec TrainProof.
Set Implicit Arguments. Unset Strict Implicit. Unset Printing Implicit Defensive.
Import Order.TTheory GRing.Theory Num.Theory.
Local Open Scope ring_scope.

Lemma pow2_lt m n : (m < n)%N -> pow2 m < pow2 n.
Proof. by move=> h; rewrite /pow2 -!lock ltr_eexpn2l. Qed.
Lemma pow2_ge0 n : 0 <= pow2 n.
Proof. by rewrite /pow2 -lock exprn_ge0. Qed.

(* ---- the optimiser *)
Section Sgd.
Variables (R : realFieldType) (V : lmodType R).
(* SGD with momentum: gradient number s of T moves the parameters by (1 + mu + ... + mu^(T-1-s)) times the
   learning rate. *)
Theorem C56_momentum (lr mu : R) (w : V) (ds : seq V) : mu != 0 ->
  (foldl (fun x dv => sgd_step lr mu 0 x.1 x.2 dv) (None, w) ds).2 =
  w - lr *: \sum_(s < size ds) (\sum_(k < size ds - s) mu ^+ k) *: nth 0 ds s.
Proof. by move=> m0; have := feed_momentum lr w ds m0; rewrite /feed => ->. Qed.
(* Plain SGD, and weight decay: the parameters shrink by the factor 1 - lr*wd per step. *)
Theorem C56_plain (lr wd : R) (w : V) (ds : seq V) :
  (foldl (fun x dv => sgd_step lr 0 wd x.1 x.2 dv) (None, w) ds).2 =
  (1 - lr * wd) ^+ size ds *: w - lr *: \sum_(s < size ds) (1 - lr * wd) ^+ (size ds - s.+1) *: nth 0 ds s.
Proof. exact: feed_decay. Qed.
End Sgd.

Section C56.
Variables (V : zmodType) (GT GN GP B O : Type).
Notation gens := (gens GT GN GP).
Notation loader := (loader GT GN GP B).
Variables (tseed : int -> GT) (nseed : int -> GN) (pseed : int -> GP).
Variable init : gens -> V * gens.
Variable loss_grad : bool -> V -> B -> gens -> res V * gens.
Variable o0 : O.
Variable ostep : O -> V -> V -> O * V.
Notation train := (train tseed nseed pseed init loss_grad o0 ostep).
Let seeded k : gens := Gens (tseed k) (nseed k) (pseed k).

(* ---- seeds *)
(* Which seeds are accepted, and what the others raise; nothing is trained then. *)
Theorem C56_bad_seed t ld n g k :
  [/\ (train t ld n None g).1 = Err TypeError,
      ~~ torch_seed_ok k -> (train t ld n (Some k) g).1 = Err RuntimeError,
      torch_seed_ok k -> t <> Wikitext -> ~~ numpy_seed_ok k -> (train t ld n (Some k) g).1 = Err ValueError &
      torch_seed_ok k -> k < 0 -> (train t ld n (Some k) g).1 = Err ValueError].
Proof.
have H : k < 0 -> (0 <= k) = false /\ numpy_seed_ok k = false.
  by move=> k0; rewrite /numpy_seed_ok leNgt k0.
rewrite /TrainModel.train /seed_all /seed_wikitext.
split; first by case: t.
- by case: t => /negbTE ->.
- by move=> tk tw; case: t tw => // _ /negbTE nk; rewrite tk nk.
by case: t => -> /H [h1 h2]; rewrite ?h1 ?h2.
Qed.

(* The four vision functions reset all three generators: what they return depends on the data and the seed only.
   So does the language-model function, provided nothing in it uses numpy's global generator, which it leaves
   as it finds it. *)
Theorem C56_self_seeding t (mk : seq nat -> loader) n g0 : t <> Wikitext ->
  self_seeding (fun idx s g => train t (mk idx) n s g) (fun idx s => (train t (mk idx) n s g0).1).
Proof.
move=> tw idx s g; rewrite /TrainModel.train.
have E : forall g, (if t is Wikitext then seed_wikitext tseed pseed else seed_all tseed nseed pseed) s g =
  seed_all tseed nseed pseed s g by case: (t) tw.
rewrite !E; case: s {E} => [k|//]; rewrite /seed_all; do 2 (case: ifP => // _).
Qed.
Theorem C56_wikitext_self_seeding (mk : seq nat -> loader) n g0 :
  np_blind init -> (forall m w b, np_blind (loss_grad m w b)) -> (forall idx, np_blind (l_iter (mk idx))) ->
  self_seeding (fun idx s g => train Wikitext (mk idx) n s g) (fun idx s => (train Wikitext (mk idx) n s g0).1).
Proof.
move=> bi bg bl idx [k|//] g; rewrite /TrainModel.train /seed_wikitext; do 2 (case: ifP => // _).
have -> : Gens (tseed k) (g_n g) (pseed k) = with_np (Gens (tseed k) (g_n g0) (pseed k)) (g_n g) by [].
rewrite bi; case: (init _) => w g2 /=.
have := @epochs_np _ _ _ _ _ _ loss_grad ostep (mk idx) (bl idx) bg (iota 0 n) (St w None o0 g2 true) (g_n g).
by rewrite /put_np /set_g /= => ->; case: (sfold _ _ _) => s1 [u|e].
Qed.

(* ---- one optimiser step per batch along that batch's own gradient, whether the gradients are reset before
   the backward pass or after the step *)
Section Total.
Variable d : V -> B -> gens -> V * gens.
Hypothesis dE : forall w b g, loss_grad true w b g = (Ok (d w b g).1, (d w b g).2).

Theorem C56_descent t ld n k g : torch_seed_ok k -> (if t is Wikitext then 0 <= k else numpy_seed_ok k) ->
  report t ld = Ok tt ->
  let g0 := if t is Wikitext then Gens (tseed k) (g_n g) (pseed k) else seeded k in
  (train t ld n (Some k) g).1 =
  Ok ((iter n (round d ostep ld) ((init g0).1, o0, (init g0).2)).1.1, true).
Proof.
move=> tk nk rp g0; rewrite /TrainModel.train.
have -> : (if t is Wikitext then seed_wikitext tseed pseed else seed_all tseed nseed pseed) (Some k) g = (g0, Ok tt).
  by rewrite /g0 /seed_all /seed_wikitext; case: (t) nk => h; rewrite tk h.
case: (init g0) => w g2.
have [|s [-> a ts]] := @epochsE _ _ _ _ _ _ loss_grad ostep d dE t ld n 0 (St w None o0 g2 true) erefl _ rp.
  by left.
by move: a; rewrite /at_ /= => <- /=; rewrite ts.
Qed.

(* ---- with retrain_lds *)
Lemma numpy_torch k : numpy_seed_ok k -> torch_seed_ok k.
Proof.
rewrite /numpy_seed_ok /torch_seed_ok => /andP [k0 k1]; apply/andP; split.
  by apply: le_trans k0; rewrite oppr_le0 pow2_ge0.
by apply: lt_trans k1 _; apply: pow2_lt.
Qed.

(* Jobs of one experiment with a seed whose range stays below 2^32 can be split, reordered and repeated at will. *)
Theorem C56_lds_split (P : eqType) choice reseed t (mk : seq nat -> loader) n
    (w w1 : world P (V * bool)) g p g1 p1 (l : seq job) one i :
  t <> Wikitext -> (forall idx, report t (mk idx) = Ok tt) ->
  let call idx s g := train t (mk idx) n (Some s) g in
  let fits jb := jb_seed jb + ((first_subset jb + jb_num jb) * jb_runs jb)%N%:Z <= pow2 32 in
  valid_job one -> fits one -> covers one i ->
  (forall jb, List.In jb l -> [/\ valid_job jb, fits jb & same_experiment jb one]) ->
  has (fun jb => covers jb i) l ->
  contents (run_jobs choice reseed call w g p l).1 p (jb_runs one) i =
  contents (retrain_lds choice reseed call w1 g1 p1 one).1.1 p1 (jb_runs one) i.
Proof.
move=> tw rp call fits v1 f1 c1 H hl.
have tn jb : valid_job jb -> fits jb -> trainable choice (fun idx s => (call idx s g).1) jb.
  move=> /and5P [_ _ _ s0 _] fj a j /andP [_ ca] jr.
  have nk : numpy_seed_ok (jb_seed jb + (a * jb_runs jb + j)%N%:Z).
    rewrite /numpy_seed_ok addr_ge0 //=; apply: lt_le_trans fj; rewrite ltr_add2l ltz_nat.
    apply: leq_trans (leq_mul ca (leqnn _)); by rewrite mulSnr ltn_add2l.
  rewrite /call (@C56_descent t _ n _ g (numpy_torch nk)) //; last by case: (t) tw.
  by eexists.
apply: (@C30_split P (V * bool)%type gens choice reseed call (fun idx s => (call idx s g).1)) => //.
- by move=> idx s g'; apply: C56_self_seeding.
- exact: tn.
by move=> jb jl; have [vj fj sj] := H jb jl; split=> //; apply: tn.
Qed.
End Total.

(* Without a seed retrain_lds draws 64 random bits.  Unless they happen to be below 2^32 the first training call
   raises: no checkpoint is written. *)
Theorem C56_lds_unseeded (P : eqType) choice reseed t (mk : seq nat -> loader) n
    (w : world P (V * bool)) g p jb :
  t <> Wikitext -> valid_job jb -> (0 < jb_runs jb)%N -> pow2 32 <= jb_seed jb ->
  let call idx s g := train t (mk idx) n (Some s) g in
  let: ((w', _), r) := retrain_lds choice reseed call w g p jb in
  (r = Err ValueError \/ r = Err RuntimeError) /\ forall q i j, checkpoint w' q i j = checkpoint w q i j.
Proof.
move=> tw /and5P [t0 np dv s0 /andP [l1 l2]] rp big call.
rewrite /retrain_lds ltNge t0 /= -[jb_num jb == 0%N]negbK -lt0n np dv /= ltNge s0 /=.
set start := if _ then _ else _; case: (jb_num jb) np => // num _; rewrite [iota _ _]/= [sfold _ _ _]/=.
rewrite {1}/one_subset l1 l2 /=; set idx := choice _ _ _.
case: (jb_runs jb) rp => // runs _; rewrite [iota _ _]/= [sfold _ _ _]/= {1}/one_run /=.
set k := jb_seed jb + _.
have nk : numpy_seed_ok k = false.
  rewrite /numpy_seed_ok; apply/negbTE/negP => /andP [_]; rewrite ltNge => /negP; apply.
  by apply: le_trans big _; rewrite ler_addl.
have E : forall g, exists e g', call idx k g = (Err e, g') /\ (e = ValueError \/ e = RuntimeError).
  move=> g'; rewrite /call /TrainModel.train.
  have -> : (if t is Wikitext then seed_wikitext tseed pseed else seed_all tseed nseed pseed) (Some k) g' =
    seed_all tseed nseed pseed (Some k) g' by case: (t) tw.
  by rewrite /seed_all nk; case: torch_seed_ok => /=; eexists; eexists; split; [by []|left|by []|right].
have [e [g' [-> he]]] := E (reseed (jb_seed jb)).
rewrite /=; split; first by case: he => ->; [left|right].
move=> q i j; rewrite /checkpoint get_dir_upd !get_dir_mkroot.
case: ((q, i) =P (p, start)) => [[-> ->]|//].
by case: (get_dir w (p, start)).
Qed.

(* Without a seed retrain_loo passes None on: the first call raises TypeError and leaves a directory without
   weights, which the reader then stumbles over. *)
Theorem C56_loo_unseeded (R : numFieldType) reseed t (mk : seq nat -> loader) n g m (i : int) (l : seq int)
    (nt : nat) (target : V * bool -> seq R) :
  let call idx s g := train t (mk idx) n s g in
  let: ((s, _), r) := retrain_loo reseed call (LRoot [::] false) g m (Some (i :: l)) None in
  r = Err TypeError /\ loo_ground_truth nt target s = Err FileNotFoundError.
Proof.
move=> call; rewrite /retrain_loo /= {1}/loo_one /=.
have -> : forall idx, call idx None g = (Err TypeError, g) by rewrite /call /TrainModel.train; case: (t).
by split=> //; rewrite /loo_ground_truth /dkeys /dset /dget /= eqxx.
Qed.

(* ---- empty loaders *)
Theorem C56_empty t ld n k g : torch_seed_ok k -> numpy_seed_ok k -> (0 < n)%N ->
  (forall g, (l_iter ld g).1 = [::]) -> l_len ld = 0%N -> l_size ld = 0%N ->
  (train t ld n (Some k) g).1 =
  match t with
  | Mnist => Ok ((init (seeded k)).1, true)
  | Wikitext => Ok ((init (Gens (tseed k) (g_n g) (pseed k))).1, true)
  | _ => Err ZeroDivisionError
  end.
Proof.
move=> tk nk n0 em e1 e2; rewrite /TrainModel.train.
have [k0 _] := andP nk.
have -> : (if t is Wikitext then seed_wikitext tseed pseed else seed_all tseed nseed pseed) (Some k) g =
   (if t is Wikitext then Gens (tseed k) (g_n g) (pseed k) else seeded k, Ok tt).
  by rewrite /seed_all /seed_wikitext; case: (t); rewrite tk ?nk ?k0.
set g0 := if t is Wikitext then _ else _.
have -> : match t with Mnist => Ok ((init (seeded k)).1, true)
  | Wikitext => Ok ((init (Gens (tseed k) (g_n g) (pseed k))).1, true) | _ => Err ZeroDivisionError end =
  match t with Mnist | Wikitext => Ok ((init g0).1, true) | _ => Err ZeroDivisionError end by rewrite /g0; case: (t).
case: (init g0) => w g2.
have P (s : st V GT GN GP O) step : exists g', pass step ld s = (set_g s g', Ok tt).
  by rewrite /pass; have := em (s_g s); case: (l_iter ld _) => bs g' /= ->; exists g'.
have E s : exists g', epoch loss_grad ostep t ld s =
    (set_g s g', match t with Mnist | Wikitext => Ok tt | _ => Err ZeroDivisionError end).
  have [g' e] := P s (if t is Wikitext then batch_step_wikitext loss_grad ostep else batch_step loss_grad ostep).
  by exists g'; rewrite /epoch e; case: (t); rewrite /= ?e1 ?e2.
case: n n0 => // n _; rewrite [iota _ _]/= [sfold _ _ _]/=.
have [g' ->] := E (St w None o0 g2 true).
have L : forall l s, exists g'', sfold (fun s (_ : nat) => epoch loss_grad ostep t ld s) s l =
    (set_g s g'', match t with Mnist | Wikitext => Ok tt | _ => if l is [::] then Ok tt else Err ZeroDivisionError end).
  elim=> [|a l IH] s /=; first by exists (s_g s); case: s; case: (t).
  have [g3 ->] := E s; case: (t) IH => // IH; try by exists g3.
    by have [g4 ->] := IH (set_g s g3); exists g4.
  by have [g4 ->] := IH (set_g s g3); exists g4.
by have [g3] := L (iota 1 n) (set_g (St w None o0 g2 true) g'); case: (t) => // ->.
Qed.

(* ---- the music transformer *)
Section Music.
Variable R : realFieldType.
Variable evaluate : V -> seq B -> res (fl R * R).
Notation train_music := (train_music tseed nseed pseed init loss_grad o0 ostep evaluate).

Theorem C56_music_self_seeding (mk : seq nat -> loader) n g0 :
  self_seeding (fun idx s g => train_music (mk idx) n s g) (fun idx s => (train_music (mk idx) n s g0).1).
Proof.
move=> idx s g; rewrite /TrainModel.train_music; case: s => [k|//]; rewrite /seed_all; do 2 (case: ifP => // _).
Qed.
Theorem C56_music_bad_seed ld n g k :
  [/\ (train_music ld n None g).1 = Err TypeError,
      ~~ torch_seed_ok k -> (train_music ld n (Some k) g).1 = Err RuntimeError &
      torch_seed_ok k -> ~~ numpy_seed_ok k -> (train_music ld n (Some k) g).1 = Err ValueError].
Proof.
rewrite /TrainModel.train_music /seed_all; split=> //; first by move=> /negbTE ->.
by move=> -> /negbTE ->.
Qed.

Variable d : V -> B -> gens -> V * gens.
Hypothesis dE : forall w b g, loss_grad true w b g = (Ok (d w b g).1, (d w b g).2).

(* The parameters in front of evaluation number k: k training passes, with k looks at the loader in between. *)
Let stage ld x0 k := iter k (fun x => round d ostep ld (look ld x)) x0.
(* The returned model has the parameters after the last epoch and is in eval mode, whichever epoch was best;
   nothing is returned when no evaluation gave a positive accuracy or a finite loss. *)
Theorem C56_music_last ld n k g (ev : nat -> fl R * R) : torch_seed_ok k -> numpy_seed_ok k -> l_len ld != 0%N ->
  let x0 := ((init (seeded k)).1, o0, (init (seeded k)).2) in
  (forall j, (j <= n)%N -> evaluate (stage ld x0 j).1.1 (seen ld (stage ld x0 j)) = Ok (ev j)) ->
  (train_music ld n (Some k) g).1 =
  if has (fun j => (0 < (ev j).2) || (if (ev j).1 is Fin _ then true else false)) (iota 0 n.+1)
  then Ok ((stage ld x0 n).1.1, false) else Err UnboundLocalError.
Proof.
move=> tk nk l0 x0 He; rewrite /TrainModel.train_music /seed_all tk nk /= -/(seeded k).
rewrite /x0 in He *; case: (init (seeded k)) He => w g2 He /=.
pose m0 := MSt (St w None o0 g2 true) (0 : R) (PInf R) false.
have E0 : evaluate w (seen ld (w, o0, g2)) = Ok (ev 0%N) by exact: (He 0%N isT).
have [||m1 [e1 a1 t1 i1]] := @music_epochE _ _ _ _ _ _ _ loss_grad ostep evaluate d dE ld l0 m0 true (ev 0%N) false.
- by split.
- exact: E0.
rewrite e1.
have [|m2 [e2 a2 t2 [b2 _]]] := @music_loop _ _ _ _ _ _ _ loss_grad ostep evaluate d dE ld l0 n ev m1 _ 1 (w, o0, g2) i1 isT a1 t1.
  by move=> j /andP [_]; rewrite add1n ltnS => jn; exact: He.
rewrite e2 /= b2 t2 /=.
have -> : s_w (m_s m2) = (stage ld (w, o0, g2) n).1.1.
  by have /(congr1 (fun x => x.1.1)) := a2.
by [].
Qed.
Theorem C56_music_no_epochs ld (n : int) k g : torch_seed_ok k -> numpy_seed_ok k -> n < 0 ->
  (train_music ld n (Some k) g).1 = Err UnboundLocalError.
Proof.
move=> tk nk n0; rewrite /TrainModel.train_music /seed_all tk nk /=.
by case: (init _) => w g2; case: n n0.
Qed.
Theorem C56_music_empty ld (n : nat) k g : torch_seed_ok k -> numpy_seed_ok k -> l_len ld = 0%N ->
  (train_music ld n (Some k) g).1 = Err ZeroDivisionError.
Proof.
move=> tk nk l0; rewrite /TrainModel.train_music /seed_all tk nk /=.
case: (init _) => w g2; rewrite /= {1}/music_epoch /=.
by case: (l_iter ld g2) => bs g3; rewrite l0.
Qed.
End Music.
End C56.

(* ---- concrete cases *)
Section Examples.
(* Three gradients 1, 2, 4 with momentum 1/2 and learning rate 1 move 10 to 10 - (7/4 + 3 + 4) = 5/4. *)
Example ex_momentum :
  (foldl (fun x dv => sgd_step (1 : rat) (1 / 2%:R) 0 x.1 x.2 dv) (None, (10%:R : rat^o)) [:: 1; 2%:R; 4%:R]).2 = 5%:R / 4%:R.
Proof. by vm_compute. Qed.
Example ex_decay :
  (foldl (fun x dv => sgd_step (1 / 2%:R : rat) 0 1 x.1 x.2 dv) (None, (8%:R : rat^o)) [:: 2%:R; 4%:R]).2 = - (1 / 2%:R).
Proof. by vm_compute. Qed.

Lemma seven_ok : numpy_seed_ok 7 /\ torch_seed_ok 7.
Proof.
have h : numpy_seed_ok 7.
  rewrite /numpy_seed_ok; apply/andP; split=> //; have p3 : pow2 3 = 8 by rewrite /pow2 -lock.
  by have := @pow2_lt 3 32 isT; rewrite p3; apply: lt_trans.
by split=> //; apply: numpy_torch.
Qed.
Lemma big_seed : ~~ numpy_seed_ok (pow2 32) /\ torch_seed_ok (pow2 32).
Proof.
split; first by rewrite /numpy_seed_ok ltxx andbF.
rewrite /torch_seed_ok pow2_lt // andbT; apply: le_trans (pow2_ge0 32).
by rewrite oppr_le0 pow2_ge0.
Qed.

(* parameters, batches and generator states are integers; the model starts at torch's generator, the gradient of
   batch b at w is w - b and draws once from torch's generator; the optimiser sums gradients (momentum 1) *)
Let gens := TrainModel.gens int int int.
Let start (g : gens) : int * gens := (g_t g, Gens (g_t g + 1) (g_n g) (g_p g)).
Let start_np (g : gens) : int * gens := (g_n g, g).
Let slope (w b : int) (g : gens) : int * gens := (w - b, Gens (g_t g + 1) (g_n g) (g_p g)).
Let grad (m : bool) (w b : int) (g : gens) : res int * gens := (Ok (slope w b g).1, (slope w b g).2).
Let sum_step (o w dv : int) : int * int := (o + dv, w - (o + dv)).
(* a shuffled loader: the order of the two batches depends on the parity of torch's generator *)
Let two : loader int int int int :=
  Loader (fun g => (if odd `|g_t g|%N then [:: 1; 3] else [:: 3; 1], g)) 2 2.
Let run t init := TrainModel.train id id id init grad (0 : int) sum_step t two.

Example ex_train g : (run Mnist start 2 (Some 7) g).1 = Ok (1, true).
Proof.
have [nk tk] := seven_ok.
by rewrite /run (@C56_descent _ _ _ _ _ _ id id id start grad 0 sum_step slope (fun _ _ _ => erefl) Mnist two 2 7 g tk nk erefl);
   vm_compute.
Qed.
(* A seed numpy refuses: training on mnist raises ValueError, training the language model goes on. *)
Example ex_big g : (run Mnist start 2 (Some (pow2 32)) g).1 = Err ValueError.
Proof.
have [nk tk] := big_seed; rewrite /run.
by have [_ _ h _] := @C56_bad_seed _ _ _ _ _ _ id id id start grad 0 sum_step Mnist two 2 g (pow2 32); apply: h.
Qed.

(* The language-model function leaves numpy's generator as it finds it: a model that reads it comes out
   differently for the same data and the same seed. *)
Theorem C56_wikitext_seed_refuted :
  exists (g1 g2 : gens) (init : gens -> int * gens),
    (run Wikitext init 1 (Some 7) g1).1 <> (run Wikitext init 1 (Some 7) g2).1.
Proof.
exists (Gens 0 0 0), (Gens 0 1 0), start_np; have [_ tk] := seven_ok.
have D := @C56_descent _ _ _ _ _ _ id id id start_np grad 0 sum_step slope (fun _ _ _ => erefl) Wikitext two 1 7.
by rewrite /run !D //; vm_compute.
Qed.

(* The music transformer: the evaluation after the first training pass is better than the one after the second,
   yet the parameters after the second are returned. *)
Let score (w : int) (bs : seq int) : res (fl [realFieldType of rat] * rat) := Ok (Fin ((w + 4)%:~R ^+ 2 : rat), 0 : rat).
Let runm n := TrainModel.train_music id id id start grad (0 : int) sum_step score two n.
Theorem C56_music_best_refuted g : exists (w best : int),
  [/\ (runm 2 (Some 7) g).1 = Ok (w, false), (runm 1 (Some 7) g).1 = Ok (best, false) &
      forall bs bs', exists x y : rat, [/\ score best bs = Ok (Fin x, 0), score w bs' = Ok (Fin y, 0) & x < y]].
Proof.
have [nk tk] := seven_ok.
pose x0 : point [zmodType of int] int int int int := ((start (Gens 7 7 7)).1, 0, (start (Gens 7 7 7)).2).
pose stg k := iter k (fun x => round slope sum_step two (look two x)) x0.
have M n := @C56_music_last _ _ _ _ _ _ id id id start grad 0 sum_step _ score slope (fun _ _ _ => erefl) two n 7 g
   (fun j => (Fin (((stg j).1.1 + 4)%:~R ^+ 2 : rat), 0)) tk nk isT (fun j _ => erefl).
exists (stg 2%N).1.1, (stg 1%N).1.1; split.
- by rewrite /runm (M 2%N) has_predT.
- by rewrite /runm (M 1%N).
move=> bs bs'; eexists; eexists; split; [by rewrite /score|by rewrite /score|].
by vm_compute.
Qed.
End Examples.

Print Assumptions C56_momentum.
Print Assumptions C56_plain.
Print Assumptions C56_bad_seed.
Print Assumptions C56_self_seeding.
Print Assumptions C56_wikitext_self_seeding.
Print Assumptions C56_descent.
Print Assumptions C56_lds_split.
Print Assumptions C56_lds_unseeded.
Print Assumptions C56_loo_unseeded.
Print Assumptions C56_empty.
Print Assumptions C56_music_self_seeding.
Print Assumptions C56_music_bad_seed.
Print Assumptions C56_music_last.
Print Assumptions C56_music_no_epochs.
Print Assumptions C56_music_empty.
Print Assumptions C56_wikitext_seed_refuted.
Print Assumptions C56_music_best_refuted.
