(* Specification of data value embeddings: unrolled (Gauss-Newton) SGD. *)
Set Warnings "-notation-overridden,-ambiguous-paths".
From mathcomp Require Import all_ssreflect all_algebra.
Set Implicit Arguments. Unset Strict Implicit. Unset Printing Implicit Defensive.
Import GRing.Theory.
Local Open Scope ring_scope.

Section S.
Variables (F : fieldType) (d : nat).
Notation row := 'rV[F]_d.

(* one training step as the user performed it *)
Record call := Call { c_epoch : nat; c_lr : F; c_samples : seq (nat * row) }.
(* step size per sample: the batch gradient is a mean *)
Definition c_eta (c : call) : F := c_lr c / (size (c_samples c))%:R.

Definition inner (u v : row) : F := \sum_i u 0 i * v 0 i.

(* a parameter displacement v before the step becomes (I - eta * sum g g') v after it *)
Definition pass (v : row) (c : call) : row :=
  v - c_eta c *: \sum_(p <- c_samples c) inner v p.2 *: p.2.
Definition propagate (later : seq call) (v : row) : row := foldl pass v later.

(* chronological order: epoch by epoch, steps of an epoch in recorded order *)
Definition schedule (h : seq call) : seq call :=
  flatten [seq [seq c <- h | c_epoch c == e] | e <- sort leq (undup [seq c_epoch c | c <- h])].

(* total displacement of the final parameters caused by sample j in epoch e *)
Fixpoint sample_effect (e j : nat) (sched : seq call) : row :=
  if sched is c :: later then
    (if c_epoch c == e then \sum_(p <- c_samples c | p.1 == j) propagate later (c_eta c *: p.2) else 0)
    + sample_effect e j later
  else 0.

(* a step that the attributor can record *)
Definition call_ok (c : call) : bool := (0 < size (c_samples c))%N.
Definition num_samples (h : seq call) : nat :=
  (foldr maxn 0%N (flatten [seq [seq p.1 | p <- c_samples c] | c <- h])).+1.
End S.
