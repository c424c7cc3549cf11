(* Independent specification of DataInf: the average over the cached gradients g
   of v (g'g + reg I)^-1, block by block. *)
Set Warnings "-notation-overridden,-ambiguous-paths".
From mathcomp Require Import all_ssreflect all_algebra.
Set Implicit Arguments. Unset Strict Implicit. Unset Printing Implicit Defensive.
Import GRing.Theory Num.Theory.
Local Open Scope ring_scope.

Definition datainf_spec (F : realFieldType) d (reg : F) (gs : seq 'rV[F]_d) (v : 'rV[F]_d) : 'rV[F]_d :=
  (size gs)%:R^-1 *: \sum_(g <- gs) v *m invmx (g^T *m g + reg%:M).

(* coordinates a .. a+d-1 of a flat vector *)
Definition block (F : realFieldType) (u : seq F) (a d : nat) : 'rV[F]_d := \row_k nth 0 u (a + k).
