(* Vocabulary for the evaluation functions of the benchmark. *)
Set Warnings "-notation-overridden,-ambiguous-paths".
From mathcomp Require Import all_ssreflect all_algebra.
Set Implicit Arguments. Unset Strict Implicit. Unset Printing Implicit Defensive.
Import GRing.Theory Num.Theory.
Local Open Scope ring_scope.

(* the negative log-likelihood of a class *)
Definition nll (R : realFieldType) (lse : seq R -> R) (z : seq R) (t : nat) : R := lse z - nth 0 z t.
(* a label is one of the classes *)
Definition is_class (R : realFieldType) (z : seq R) (t : int) : bool := if t is Posz k then (k < size z)%N else false.
(* the arithmetic mean *)
Definition mean (R : realFieldType) (s : seq R) : R := (\sum_(x <- s) x) / (size s)%:R.
(* a loader cut into batches of one size *)
Definition uniform (T : Type) (n : nat) (l : seq (seq T)) : bool := all (fun b => size b == n) l.
