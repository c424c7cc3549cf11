(* Influence functions and TracIn on quadratic losses (linear regression with or without weight decay):
   the attributors of AttrModel and IhvpModel with the derivatives that automatic differentiation
   returns for such losses.
   Modelled: dattri/algorithm/influence_function.py 51-132 (IFAttributorExplicit), algorithm/base.py 290-452,
   algorithm/tracin.py 69-258, algorithm/utils.py (loss gradients of single samples), func/hessian.py 256-272.
   Simplifications: one layer of parameters as a row vector; the loss of a batch is the mean over its samples
   (CrossEntropyLoss, MSELoss); the target function is the loss function (task.py 97-99); no rounding.
   No proofs. *)
Set Warnings "-notation-overridden,-ambiguous-paths".
From mathcomp Require Import all_ssreflect all_algebra.
From Verif Require Import Py Tensor AttrModel IhvpModel.
Set Implicit Arguments. Unset Strict Implicit. Unset Printing Implicit Defensive.
Import GRing.Theory Num.Theory.
Local Open Scope ring_scope.

Section Quad.
Variables (F : realFieldType) (n : nat) (X : Type).
(* the loss of sample x at t is  t A(x) t' / 2 - b(x) t' + k(x) *)
Variables (A : X -> 'M[F]_n) (b : X -> 'rV[F]_n) (k : X -> F).

Definition loss (x : X) (t : 'rV[F]_n) : F := 2%:R^-1 * (t *m A x *m t^T) 0 0 - (b x *m t^T) 0 0 + k x.
(* vmap(grad(loss)), task.py 242-258 *)
Definition grad (x : X) (t : 'rV[F]_n) : 'rV[F]_n := t *m A x - b x.
(* torch.func.hessian of the loss of a batch, hessian.py 266-270 *)
Definition hess (xs : seq X) : 'M[F]_n := (size xs)%:R^-1 *: \sum_(x <- xs) A x.

(* influence_function.py 81-132; an error (singular matrix) gives no value *)
Definition transform (reg : F) (full : loader X) (v : 'rV[F]_n) : 'rV[F]_n :=
  if if_transform true (fun xs => ihvp_explicit (hess xs) reg) full v is Ok (Some r) then r else 0.
(* base.py 150-240 with the checkpoints ts *)
Definition if_oracles (reg : F) (ts : nat -> 'rV[F]_n) : oracles F X n n :=
  Oracles (fun c x => grad x (ts c)) (fun c x => grad x (ts c)) (fun _ v => v)
    (fun full _ v => transform reg full v) (fun _ _ _ _ _ => Err ValueError).
(* attributor.cache(train); attributor.attribute(train, test) *)
Definition influence (reg : F) (t0 : 'rV[F]_n) (full tr te : loader X) : res (seq (seq F)) :=
  (base_attribute (if_oracles reg (fun=> t0)) true true (base_cache None full) tr te None 1).2.
End Quad.

(* tracin.py 69-258 with the checkpoints ts and the weights ws, no projection, no normalisation *)
Section Tracin.
Variables (F : rcfType) (n : nat) (X : Type) (A : X -> 'M[F]_n) (b : X -> 'rV[F]_n) (eps : F).
Definition tracin (ts : nat -> 'rV[F]_n) (ws : seq F) (tr te : loader X) : res (seq (seq F)) :=
  tracin_attribute (fun c x => grad A b x (ts c)) (fun c x => grad A b x (ts c)) (fun _ v => v) eps
    true true false (size ws) ws tr te.
End Tracin.
