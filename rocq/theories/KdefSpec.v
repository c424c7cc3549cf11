(* Vocabulary for the shape of KNN-Shapley values and for the default distance. *)
Set Warnings "-notation-overridden,-ambiguous-paths".
From mathcomp Require Import all_ssreflect all_algebra.
Set Implicit Arguments. Unset Strict Implicit. Unset Printing Implicit Defensive.
Import GRing.Theory Num.Theory.
Local Open Scope ring_scope.

(* how many of the n training samples are strictly nearer than sample i *)
Definition nearer (F : realFieldType) (n : nat) (d : nat -> F) (i : nat) : nat := count (fun k => d k < d i) (iota 0 n).
(* the value of a sample of a game between 0 and b if its label matches, between -b and 0 if not *)
Definition signed (F : realFieldType) (m : bool) (b v : F) : Prop := if m then 0 <= v <= b else - b <= v <= 0.
(* a rigid motion of feature vectors of length d *)
Definition rigid (F : realFieldType) (d : nat) (Q : 'M[F]_d) (t : 'rV[F]_d) (u v : seq F) : Prop :=
  Q *m Q^T = 1%:M /\ (\row_(k < d) nth 0 v k = (\row_(k < d) nth 0 u k) *m Q + t).
