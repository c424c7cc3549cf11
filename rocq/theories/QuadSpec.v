(* What influence scores are said to predict: the change of a test loss when the model is trained again with another
   weight on one training sample.  Training returns a minimiser of the objective; nothing here mentions gradients,
   Hessians or inverses. *)
Set Warnings "-notation-overridden,-ambiguous-paths".
From mathcomp Require Import all_ssreflect all_algebra.
Set Implicit Arguments. Unset Strict Implicit. Unset Printing Implicit Defensive.
Import GRing.Theory Num.Theory.
Local Open Scope ring_scope.

Section Spec.
Variables (F : realFieldType) (n : nat) (X : Type) (loss : X -> 'rV[F]_n -> F).
Definition minimises (f : 'rV[F]_n -> F) (t : 'rV[F]_n) : Prop := forall t', f t <= f t'.
(* mean loss, weight decay, and the sample z counted with the additional weight e *)
Definition objective (xs : seq X) (decay : F) (z : X) (e : F) (t : 'rV[F]_n) : F :=
  (\sum_(x <- xs) loss x t) / (size xs)%:R + decay / 2%:R * (\sum_j t 0 j ^+ 2) + e * loss z t.
(* the objective without the sample at position i, in the same units *)
Definition without (xs : seq X) (decay : F) (i : nat) (t : 'rV[F]_n) : F :=
  (\sum_(x <- take i xs ++ drop i.+1 xs) loss x t) / (size xs)%:R + decay / 2%:R * (\sum_j t 0 j ^+ 2).
(* f(e) = a e + O(e^2) near 0, for all values that a relation allows *)
Definition first_order (P : F -> F -> Prop) (a : F) : Prop :=
  exists K r : F, 0 < r /\ forall e y, `|e| < r -> P e y -> `|y - a * e| <= K * e ^+ 2.
End Spec.
