(* Independent specification of the TRAK estimator. *)
Set Warnings "-notation-overridden,-ambiguous-paths".
From mathcomp Require Import all_ssreflect all_algebra.
Set Implicit Arguments. Unset Strict Implicit. Unset Printing Implicit Defensive.
Import GRing.Theory Num.Theory.
Local Open Scope ring_scope.

Section Spec.
Variables (F : realFieldType) (q n m C : nat).
(* per checkpoint: projected train and test gradients (one row per sample) and
   the correct-class probabilities *)
Variables (Phi : 'I_C -> 'M[F]_(n, q)) (Psi : 'I_C -> 'M[F]_(m, q)) (P : 'I_C -> 'cV[F]_n).
Variable reg : F.

(* Psi_c (Phi_c' Phi_c + reg I)^-1 Phi_c' *)
Definition trak_ckpt c : 'M[F]_(m, n) := Psi c *m invmx ((Phi c)^T *m Phi c + reg%:M) *m (Phi c)^T.
(* 1 - mean probability *)
Definition trak_q (i : 'I_n) : F := (\sum_c (1 - P c i 0)) / C%:R.
Definition trak_score (i : 'I_n) (j : 'I_m) : F := (\sum_c trak_ckpt c j i) / C%:R * trak_q i.
End Spec.
