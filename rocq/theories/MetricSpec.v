(* What the metrics should mean, written without the model's helpers. *)
Set Warnings "-notation-overridden,-ambiguous-paths".
From mathcomp Require Import all_ssreflect all_algebra.
Set Implicit Arguments. Unset Strict Implicit. Unset Printing Implicit Defensive.
Import Order.TTheory GRing.Theory Num.Theory.
Local Open Scope ring_scope.

Section RankCorr.
Variable R : rcfType.
Implicit Types x y : seq R.

(* the 1-based positions a value occupies after sorting, and their mean *)
Definition positions x (a : R) : seq nat :=
  [seq i.+1 | i <- iota 0 (size x) & nth 0 (sort <=%R x) i == a].
Definition midrank x (a : R) : R :=
  (\sum_(i <- positions x a) i%:R) / (size (positions x a))%:R.

(* the textbook product-moment correlation *)
Definition sum x : R := \sum_(a <- x) a.
Definition sum2 x y : R := \sum_(i < size x) nth 0 x i * nth 0 y i.
Definition dev x y : R := (size x)%:R * sum2 x y - sum x * sum y.
Definition correlation x y : R := dev x y / Num.sqrt (dev x x * dev y y).
Definition rank_correlation x y : R :=
  correlation [seq midrank x a | a <- x] [seq midrank y a | a <- y].

(* two observations differ *)
Definition varies x : Prop := exists i j, (i < size x)%N /\ (j < size x)%N /\ nth 0 x i != nth 0 x j.
(* the two lists order the observations alike / oppositely *)
Definition concordant x y : Prop :=
  forall i j, (i < size x)%N -> (j < size x)%N -> (nth 0 x i < nth 0 x j) = (nth 0 y i < nth 0 y j).
Definition discordant x y : Prop :=
  forall i j, (i < size x)%N -> (j < size x)%N -> (nth 0 x i < nth 0 x j) = (nth 0 y j < nth 0 y i).

(* how often training sample j is listed in a subset, a list of (possibly
   negative) positions in 0..n-1 *)
Definition multiplicity (n : nat) (zs : seq int) (j : nat) : nat :=
  count (fun z => (z == j%:Z) || (z == j%:Z - n%:Z)) zs.
Definition in_range (n : nat) (z : int) : bool := (- n%:Z <= z) && (z < n%:Z).
(* predicted effect of training on a subset: the sum of its members' scores *)
Definition predicted (rows : seq (seq R)) (zs : seq int) (t : nat) : R :=
  \sum_(j < size rows) (multiplicity (size rows) zs j)%:R * nth 0 (nth [::] rows j) t.
End RankCorr.

Section Auc.
Variable R : realFieldType.
(* pairs (noisy, clean) such that P holds *)
Definition noisy_clean (gt : seq bool) (P : rel nat) : nat :=
  \sum_(i < size gt) \sum_(j < size gt) (nth false gt i && ~~ nth false gt j && P i j : nat).
Definition noisy (gt : seq bool) : nat := count id gt.
Definition clean (gt : seq bool) : nat := count negb gt.
(* [asc] lists the samples by increasing score, ties in any order *)
Definition sorts (asc : seq nat) (score : seq R) : Prop :=
  perm_eq asc (iota 0 (size score)) /\ sorted (fun i j => nth 0 score i <= nth 0 score j) asc.
(* sample i is inspected before sample j: the list is read from its end *)
Definition inspected_before (asc : seq nat) : rel nat := fun i j => (index j asc < index i asc)%N.
End Auc.

Section Brittle.
Variable R : realFieldType.
(* A is a set of k highest-scored positions *)
Definition top_scored (score : seq R) (k : nat) (A : seq nat) : Prop :=
  [/\ uniq A, size A = minn k (size score), all (fun i => i < size score)%N A &
      forall i j, i \in A -> (j < size score)%N -> j \notin A -> nth 0 score j <= nth 0 score i].
End Brittle.

Section Shapes.
Variable R : rcfType.
(* the documented shapes: score n x m, gt k x m' with m <= m', k subsets of
   in-range positions; at least one subset and one test sample *)
Definition lds_shapes (score gt : seq (seq R)) (m m' : nat) (idx : seq (seq int)) : Prop :=
  [/\ all (all (in_range (size score))) idx, size gt = size idx, (0 < size idx)%N & (0 < m <= m')%N].
(* the predictions and the ground truth for test sample t *)
Definition predictions (score : seq (seq R)) (idx : seq (seq int)) (t : nat) : seq R :=
  [seq predicted score zs t | zs <- idx].
Definition column (a : seq (seq R)) (t : nat) : seq R := [seq nth 0 r t | r <- a].
(* sum of squared rank differences *)
Definition rank_gap (x y : seq R) : R :=
  \sum_(i < size x) (midrank x (nth 0 x i) - midrank y (nth 0 y i)) ^+ 2.
End Shapes.
