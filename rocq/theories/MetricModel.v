(* /repo/dattri/metric/metrics.py and /repo/dattri/metric/britteness.py:
   lds, loo_corr, mislabel_detection_auc, brittleness, check_if_flip.

   Simplifications: exact real arithmetic instead of floats; p-values are an
   oracle; nan is None; scipy's and torch's sorting routines enter only
   through ranks or through an oracle permutation. *)
Set Warnings "-notation-overridden,-ambiguous-paths".
From mathcomp Require Import all_ssreflect all_algebra.
From Verif Require Import Py Tensor.
Set Implicit Arguments. Unset Strict Implicit. Unset Printing Implicit Defensive.
Import Order.TTheory GRing.Theory Num.Theory.
Local Open Scope ring_scope.

Section Corr.
Variable R : rcfType.

(* a 2-d tensor of shape (size mrows, mcols) *)
Record mat := Mat { mrows : seq (seq R); mcols : nat }.
Definition wf_mat (a : mat) : bool := all (fun r => size r == mcols a) (mrows a).
(* a[:, t] *)
Definition col (a : mat) (t : nat) : seq R := [seq nth 0 r t | r <- mrows a].

(* indexing a dimension of length n with the integer z (metrics.py 49:
   score[:, indices[i]]): negative values count from the end *)
Definition torch_index (n : nat) (z : int) : res nat :=
  match z with
  | Posz k => if (k < n)%N then Ok k else Err IndexError
  | Negz k => if (k < n)%N then Ok (n - k.+1)%N else Err IndexError
  end.
Fixpoint torch_indices (n : nat) (zs : seq int) : res (seq nat) :=
  if zs is z :: zs' then
    rbind (torch_index n z) (fun k => rmap (cons k) (torch_indices n zs'))
  else Ok [::].

(* metrics.py 48-51: one row of sum_scores,
   score[:, indices[i]].sum(dim=1) after score = score.T, i.e. for every test
   sample t the sum of score[j][t] over the members j of the subset *)
Definition subset_sums (score : mat) (zs : seq int) : res (seq R) :=
  rmap (fun js => [seq \sum_(j <- js) nth 0 (nth [::] (mrows score) j) t | t <- iota 0 (mcols score)])
       (torch_indices (size (mrows score)) zs).
Fixpoint all_sums (score : mat) (idx : seq (seq int)) : res (seq (seq R)) :=
  if idx is zs :: idx' then
    rbind (subset_sums score zs) (fun r => rmap (cons r) (all_sums score idx'))
  else Ok [::].

(* scipy.stats.rankdata, method 'average' (called by spearmanr):
   0.5 * (count[dense] + count[dense - 1] + 1) *)
Definition rankdata (x : seq R) : seq R :=
  [seq ((count (fun b => b <= a) x)%:R + (count (fun b => b < a) x)%:R + 1) / 2%:R | a <- x].
Definition mean (x : seq R) : R := (\sum_(a <- x) a) / (size x)%:R.
Definition centre (x : seq R) : seq R := [seq a - mean x | a <- x].
Definition sdot (x y : seq R) : R := \sum_(p <- zip x y) p.1 * p.2.
(* (x == x[0]).all() *)
Definition constant (x : seq R) : bool := all (fun a => a == head 0 x) x.
(* numpy.corrcoef(x, y)[0, 1] = cov(x, y) / sqrt(cov(x, x)) / sqrt(cov(y, y)),
   cov with denominator n - 1; scipy.stats.pearsonr computes the same number
   as the dot product of the centred normalised vectors *)
Definition cov (x y : seq R) : R := sdot (centre x) (centre y) / (size x).-1%:R.
Definition corrcoef (x y : seq R) : R :=
  cov x y / Num.sqrt (cov x x) / Num.sqrt (cov y y).
(* scipy.stats.spearmanr(x, y).correlation for 1-d x, y: ValueError when
   column_stack sees different lengths, nan for at most one observation or a
   constant input *)
Definition spearmanr (x y : seq R) : res (option R) :=
  if size x != size y then Err ValueError
  else if (size x <= 1)%N || constant x || constant y then Ok None
  else Ok (Some (corrcoef (rankdata x) (rankdata y))).
(* scipy.stats.pearsonr(x, y).correlation *)
Definition pearsonr (x y : seq R) : res (option R) :=
  if size x != size y then Err ValueError
  else if (size x <= 1)%N then Err ValueError
  else if constant x || constant y then Ok None
  else Ok (Some (corrcoef x y)).

(* torch.stack([f(i) for i in range(num_test_samples)]) of metrics.py 55-74
   and 106-127: RuntimeError for an empty list *)
Fixpoint stack_from (A : Type) (f : nat -> res A) (ts : seq nat) : res (seq A) :=
  if ts is t :: ts' then rbind (f t) (fun a => rmap (cons a) (stack_from f ts'))
  else Ok [::].
Definition stack (A : Type) (f : nat -> res A) (m : nat) : res (seq A) :=
  rbind (stack_from f (iota 0 m)) (fun s => if s is [::] then Err RuntimeError else Ok s).
(* gt_values[:, i] *)
Definition gcol (gt : mat) (t : nat) : res (seq R) :=
  if (t < mcols gt)%N then Ok (col gt t) else Err IndexError.

Variable pval : seq R -> seq R -> option R.   (* .pvalue *)

(* metrics.py 17-75 *)
Definition lds (score gt : mat) (idx : seq (seq int)) : res (seq (option R) * seq (option R)) :=
  rbind (all_sums score idx) (fun sums =>
  if sums is [::] then Err RuntimeError else
  let x := Mat sums (mcols score) in
  rbind (stack (fun t => rbind (gcol gt t) (fun y => spearmanr (col x t) y)) (mcols score)) (fun c =>
  rbind (stack (fun t => rbind (gcol gt t) (fun y =>
           rmap (fun _ => pval (col x t) y) (spearmanr (col x t) y))) (mcols score)) (fun p =>
  Ok (c, p)))).

(* metrics.py 78-128; [removed] is the tensor of removed indices *)
Definition loo_corr (score gt : mat) (removed : seq int) : res (seq (option R) * seq (option R)) :=
  rbind (stack (fun t => rbind (gcol gt t) (fun y => pearsonr (col score t) y)) (mcols score)) (fun c =>
  rbind (stack (fun t => rbind (gcol gt t) (fun y =>
           rmap (fun _ => pval (col score t) y) (pearsonr (col score t) y))) (mcols score)) (fun p =>
  Ok (c, p))).
End Corr.

Section Auc.
Variable R : realFieldType.

(* metrics.py 154: set(torch.where(ground_truth)[0].numpy()) *)
Definition noise_index (gt : seq bool) : seq nat := [seq i <- iota 0 (size gt) | nth false gt i].
(* metrics.py 162-172: one pass of the loop *)
Definition true_pos (low : seq nat) (noise : seq nat) (ind : nat) : nat :=
  count (mem noise) (undup (take ind low)).
(* torch.trapz(y, x) *)
Definition trapz (y x : seq R) : R :=
  \sum_(k <- iota 0 (size x).-1) (nth 0 x k.+1 - nth 0 x k) * (nth 0 y k + nth 0 y k.+1) / 2%:R.
(* metrics.py 131-182; [asc] is torch.argsort(score).  The threshold -inf is
   None. *)
Definition mislabel_detection_auc (asc : seq nat) (score : seq R) (gt : seq bool) :
    res (R * (seq R * seq R * seq (option nat))) :=
  let noise := noise_index gt in
  let num_noise := (size noise)%:R : R in
  let num_clean := (size score)%:R - num_noise in
  let low := rev asc in                      (* .flip(0) *)
  let thr := iota 1 (size low) in
  if (thr != [::]) && ((num_noise == 0) || (num_clean == 0)) then Err ZeroDivisionError else
  let tpr := 0 :: [seq (true_pos low noise i)%:R / num_noise | i <- thr] in
  let fpr := 0 :: [seq (i%:R - (true_pos low noise i)%:R) / num_clean | i <- thr] in
  Ok (trapz tpr fpr, (fpr, tpr, None :: [seq Some i | i <- thr])).
End Auc.

Section Brittle.
Variables (R : realFieldType) (Lab : eqType) (Net : Type).

(* sampler.indices: a list or array of integers, or a tensor (iterating it
   gives 0-d tensors, which hash by identity) *)
Inductive sampler_indices := IdxList of seq nat | IdxTensor of seq nat | NoIndices.
(* scores: 1-d, or of the documented shape (n, m) *)
Inductive score_arr := S1 of seq R | S2 of seq (seq R).

(* python slicing s[:k] *)
Definition slice_to (A : Type) (s : seq A) (k : int) : seq A :=
  match k with
  | Posz k => take k s
  | Negz k => take (size s - k.+1) s
  end.

(* what train_func, eval_func and the interpreter supply: [it] is the
   iteration order of a set given its elements; [train n d] is the model
   returned by the n-th call of train_func on the samples d, in loader order;
   [predict] is eval_func(model, test_loader).item() *)
Variables (it : seq nat -> seq nat) (train : nat -> seq nat -> Net)
  (predict : Net -> res Lab).

(* britteness.py 98-100: list(set(original_indices) - set(indices_to_remove)) *)
Definition remaining (s : sampler_indices) (rm : seq nat) : res (seq nat) :=
  match s with
  | IdxList o => Ok (it [seq i <- undup o | i \notin rm])
  | IdxTensor o => Ok (it o)
  | NoIndices => Err AttributeError
  end.
(* label after the loop 112-114, and .item(): the label tensor of the last
   test batch must hold one element *)
Definition last_label (test : seq (seq Lab)) : res Lab :=
  if test is b :: bs then
    if last b bs is [:: l] then Ok l else Err RuntimeError
  else Err UnboundLocalError.
(* britteness.py 75-116 *)
Definition check_if_flip (n : nat) (s : sampler_indices) (test : seq (seq Lab)) (rm : seq nat) : res bool :=
  rbind (remaining s rm) (fun d =>
  rbind (predict (train n d)) (fun p =>
  rbind (last_label test) (fun l => Ok (p != l)))).
(* britteness.py 56-62: sorted_indices[:k] of the argsort read backwards, then
   set(...) at 100: a row of a 2-d array is not hashable *)
Definition to_remove (asc : seq nat) (a : score_arr) (k : int) : res (seq nat) :=
  match a with
  | S1 _ => Ok (slice_to (rev asc) k)
  | S2 rows => if slice_to rows k is [::] then Ok [::] else Err TypeError
  end.
Fixpoint brittle_loop (n : nat) (asc : seq nat) (a : score_arr) (s : sampler_indices)
    (test : seq (seq Lab)) (ks : seq int) : res (option int) :=
  if ks is k :: ks' then
    (* the sampler's .indices is read before the set difference *)
    rbind (if s is NoIndices then Err AttributeError else Ok tt) (fun _ =>
    rbind (to_remove asc a k) (fun rm =>
    rbind (check_if_flip n s test rm) (fun b =>
    if b then Ok (Some k) else brittle_loop n.+1 asc a s test ks')))
  else Ok None.
(* list(range(0, 200, 20)), 51-52 *)
Definition default_space : seq int := [seq Posz (20 * i) | i <- iota 0 10].
(* britteness.py 20-72; [asc] is np.argsort(scores) for 1-d scores *)
Definition brittleness (asc : seq nat) (a : score_arr) (s : sampler_indices)
    (test : seq (seq Lab)) (space : option (seq int)) : res (option int) :=
  brittle_loop 0 asc a s test (if space is Some ks then ks else default_space).
End Brittle.
