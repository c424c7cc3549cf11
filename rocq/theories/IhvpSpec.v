(* Specification vocabulary for inverse Hessian products. *)
Set Warnings "-notation-overridden,-ambiguous-paths".
From mathcomp Require Import all_ssreflect all_algebra.
Set Implicit Arguments. Unset Strict Implicit. Unset Printing Implicit Defensive.
Import GRing.Theory Num.Theory.
Local Open Scope ring_scope.

Definition symmetric (F : fieldType) n (A : 'M[F]_n) : Prop := A^T = A.
Definition posdef (F : realFieldType) n (A : 'M[F]_n) : Prop :=
  forall v : 'rV[F]_n, v != 0 -> 0 < (v *m A *m v^T) 0 0.
(* squared length of e in the metric A *)
Definition energy (F : fieldType) n (A : 'M[F]_n) (e : 'cV[F]_n) : F := (e^T *m A *m e) 0 0.
(* truncated Neumann series *)
Definition neumann (F : fieldType) n (A : 'M[F]_n) (T : nat) (v : 'cV[F]_n) : 'cV[F]_n :=
  \sum_(k < T.+1) iter k (mulmx A) v.
(* span of r, A r, ..., A^(k-1) r *)
Inductive krylov (F : fieldType) n (A : 'M[F]_n) (r : 'cV[F]_n) : nat -> 'cV[F]_n -> Prop :=
| kr_zero k : krylov A r k 0
| kr_start k : krylov A r k.+1 r
| kr_add k u w : krylov A r k u -> krylov A r k w -> krylov A r k (u + w)
| kr_scale k c u : krylov A r k u -> krylov A r k (c *: u)
| kr_mul k u : krylov A r k u -> krylov A r k.+1 (A *m u).
(* all sequences of T draws from Hs, each equally likely; their average *)
Fixpoint draws (A : Type) (Hs : seq A) (T : nat) : seq (seq A) :=
  if T is T'.+1 then [seq rcons s h | s <- draws Hs T', h <- Hs] else [:: [::]].
Definition average (F : fieldType) (V : lmodType F) (vs : seq V) : V :=
  (size vs)%:R^-1 *: \sum_(v <- vs) v.
