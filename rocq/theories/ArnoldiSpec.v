(* Specification vocabulary for the Arnoldi results: an orthonormal family of
   vectors on which A acts diagonally (a set of Ritz pairs), a family being a
   selection of the largest absolute values, and what it means for torch.linalg.eigh
   to be right on one symmetric matrix. *)
Set Warnings "-notation-overridden,-ambiguous-paths".
From mathcomp Require Import all_ssreflect all_algebra.
Set Implicit Arguments. Unset Strict Implicit. Unset Printing Implicit Defensive.
Import GRing.Theory Num.Theory.
Local Open Scope ring_scope.

Section S.
Variables (F : rcfType) (n : nat).
Definition ip (u w : 'rV[F]_n) : F := \sum_i u 0 i * w 0 i.

Definition ritz_pairs (A : 'M[F]_n) (ps : seq (F * 'rV[F]_n)) : Prop :=
  forall i j, (i < size ps)%N -> (j < size ps)%N ->
    let p := nth (0, 0) ps i in let r := nth (0, 0) ps j in
    ip p.2 r.2 = (i == j)%:R /\ ip (p.2 *m A) r.2 = (i == j)%:R * p.1.

(* x is the Galerkin solution of x A = v in the span of the family *)
Definition galerkin (A : 'M[F]_n) (ps : seq (F * 'rV[F]_n)) (v x : 'rV[F]_n) : Prop :=
  (exists c : nat -> F, x = \sum_(i < size ps) c i *: (nth (0, 0) ps i).2) /\
  forall p, p \in ps -> ip (x *m A - v) p.2 = 0.

(* eigenvalues are the columns' factors, eigenvectors orthonormal *)
Definition diagonalises k (T : 'M[F]_k) (lamQ : 'rV[F]_k * 'M[F]_k) : Prop :=
  lamQ.2^T *m lamQ.2 = 1%:M /\ T *m lamQ.2 = lamQ.2 *m diag_mx lamQ.1.

(* the vectors reached by combinations of rows 0..k-1 of a list *)
Definition in_span k (vs : seq 'cV[F]_n) (v : 'rV[F]_n) : Prop :=
  exists c : nat -> F, v = \sum_(i < k) c i *: (nth 0 vs i)^T.
End S.
