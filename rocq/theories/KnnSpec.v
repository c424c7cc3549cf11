(* Independent specification: Shapley values of the K-nearest-neighbour game. *)
Set Warnings "-notation-overridden,-ambiguous-paths".
From mathcomp Require Import all_ssreflect all_algebra.
Set Implicit Arguments. Unset Strict Implicit. Unset Printing Implicit Defensive.
Import GRing.Theory Num.Theory.
Local Open Scope ring_scope.

(* The Shapley value of player i in the game v (Shapley 1953):
   sum over coalitions S not containing i of |S|!(n-|S|-1)!/n! (v(S+i) - v(S)) *)
Definition shapley (F : realFieldType) (T : finType) (v : {set T} -> F) (i : T) : F :=
  \sum_(S : {set T} | i \notin S)
     (#|S|`! * (#|T| - #|S| - 1)`!)%:R / (#|T|`!)%:R * (v (i |: S) - v S).

(* Utility of a coalition S of training samples: (1/K) times the number of
   matching samples among the K nearest members of S.  A member is among the K
   nearest members iff fewer than K members are nearer; [rank] is the position
   in the distance order. *)
Definition knn_utility (F : realFieldType) (T : finType) (K : nat) (rank : T -> nat)
    (m : T -> bool) (S : {set T}) : F :=
  (\sum_(i in S | (#|[set j in S | (rank j < rank i)%N]| < K)%N) (m i)%:R) / K%:R.

(* the same utility read off the distances directly (no ties) *)
Definition nn_utility (F : realFieldType) (T : finType) (K : nat) (d : T -> F)
    (m : T -> bool) (S : {set T}) : F :=
  (\sum_(i in S | (#|[set j in S | (d j < d i)%R]| < K)%N) (m i)%:R) / K%:R.

(* what torch.argsort guarantees: a permutation of the positions that lists the
   values in non-decreasing order; ties are broken arbitrarily *)
Definition is_argsort (F : realFieldType) (argsort : seq F -> seq nat) : Prop :=
  forall d, perm_eq (argsort d) (iota 0 (size d)) /\
            sorted <=%O [seq nth 0 d i | i <- argsort d].
