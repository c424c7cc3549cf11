(* Specification vocabulary for the line search and representer points: gradients, norms, step sizes. *)
Set Warnings "-notation-overridden,-ambiguous-paths".
From mathcomp Require Import all_ssreflect all_algebra.
Set Implicit Arguments. Unset Strict Implicit. Unset Printing Implicit Defensive.
Import GRing.Theory Num.Theory.
Local Open Scope ring_scope.
Section Spec.
Variable R : realFieldType.
Definition inner m n (A B : 'M[R]_(m, n)) : R := \sum_i \sum_j A i j * B i j.
Definition n1 m n (A : 'M[R]_(m, n)) : R := \sum_i \sum_j `|A i j|.
(* [g] is the gradient of [F] at [x] *)
Definition is_grad m n (F : 'M[R]_(m, n) -> R) (x g : 'M[R]_(m, n)) : Prop :=
  forall e, 0 < e -> exists2 r, 0 < r & forall h, n1 h <= r -> `|F (x + h) - F x - inner g h| <= e * n1 h.
(* the k-th step of the line search *)
Definition step (k : nat) : R := 10%:R / 2%:R ^+ k.
End Spec.
