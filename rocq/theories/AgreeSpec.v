(* Vocabulary for the agreement of the influence-function attributors: spectral bounds without eigenvalues, squared
   length, closeness of score tables. *)
Set Warnings "-notation-overridden,-ambiguous-paths".
From mathcomp Require Import all_ssreflect all_algebra.
Set Implicit Arguments. Unset Strict Implicit. Unset Printing Implicit Defensive.
Import GRing.Theory Num.Theory.
Local Open Scope ring_scope.

Section Spec.
Variables (F : realFieldType) (n : nat).
Definition sqlen (v : 'rV[F]_n) : F := \sum_j v 0 j ^+ 2.
(* symmetric, with all eigenvalues between mu and L, mu positive *)
Definition bounded (mu L : F) (A : 'M[F]_n) : Prop :=
  [/\ A^T = A, 0 < mu <= L & forall v : 'rV[F]_n, mu * sqlen v <= (v *m A *m v^T) 0 0 <= L * sqlen v].
(* two tables of scores for r training and s test samples, entry (i, j) apart by at most the root of e i j *)
Definition close (r s : nat) (e : nat -> nat -> F) (S S' : seq (seq F)) : Prop :=
  [/\ size S = r, size S' = r, forall i, (i < r)%N -> size (nth [::] S i) = s /\ size (nth [::] S' i) = s
    & forall i j, (i < r)%N -> (j < s)%N -> (nth 0 (nth [::] S' i) j - nth 0 (nth [::] S i) j) ^+ 2 <= e i j].
End Spec.
