(* Specification vocabulary for the EK-FAC results. *)
Set Warnings "-notation-overridden,-ambiguous-paths".
From mathcomp Require Import all_ssreflect all_algebra.
Set Implicit Arguments. Unset Strict Implicit. Unset Printing Implicit Defensive.
Import GRing.Theory.
Local Open Scope ring_scope.

Section S.
Variables (F : fieldType) (X : Type).
(* plain average of a quantity over a list of samples *)
Definition avg (xs : seq X) (f : X -> F) : F := (\sum_(x <- xs) f x) / (size xs)%:R.
(* the batches a limit of m selects: the first m, or everything for 0 *)
Definition selected (m : nat) (bs : seq (seq X)) : seq (seq X) := if m == 0%N then bs else take m bs.
End S.

Section Mx.
Variables (F : fieldType) (o i : nat).
Definition orthogonal n (Q : 'M[F]_n) : Prop := Q^T *m Q = 1%:M.
(* the damped Kronecker-factored curvature acting on a gradient matrix *)
Definition kron_damped (S : 'M[F]_o) (A : 'M[F]_i) (d : F) (v : 'M[F]_(o, i)) : 'M[F]_(o, i) :=
  S *m v *m A + d *: v.
End Mx.
