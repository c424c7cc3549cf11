(* Specification vocabulary for the state seen by the user's functions. *)
Set Warnings "-notation-overridden,-ambiguous-paths".
From mathcomp Require Import all_ssreflect all_algebra.
From Verif Require Import Py Dict TaskModel TaskSpec.
Set Implicit Arguments. Unset Strict Implicit. Unset Printing Implicit Defensive.

Section Spec.
Variables (A : eqType) (F : Type) (I : eqType).
Variable E : tenv A F I.
Local Notation params := (params A F).

(* the complete network of the state dict [base] (frozen parameters and buffers too), whose trainable parameters are
   those of [ck], except that the layers [L] are given by the flat vector [x] *)
Definition network (base ck : params) (L : seq (name A)) (x : seq F) : params :=
  [seq (p.1, Tensor (p_shape p.2)
               (if p.1 \in L then part (weights E ck) L x p.1
                else if p_grad p.2 then data ck p.1 else data base p.1)) | p <- te_arch E].

(* the checkpoint that a request loads; the last one loaded by a history *)
Definition loads (o : op A F I) : option int :=
  match o with
  | OParam c _ _ _ => c
  | OGrad _ _ (Some _) c | OFunc _ (Some _) c => c
  | _ => None
  end.
Definition last_loaded (h : seq (op A F I)) : option int :=
  foldl (fun cur o => if loads o is Some c then if checkpoint E c is Some _ then Some c else cur else cur) None h.

(* whose frozen parameters and buffers a function sees, and in which mode, after a history *)
Definition seen_state (init : params) (cur : option int) : params :=
  if te_fresh E then init
  else if cur is Some c then if checkpoint E c is Some ck then ck else init else init.
Definition seen_mode (mode0 : bool) (cur : option int) : bool :=
  if te_fresh E then mode0 else if cur is Some _ then false else mode0.
End Spec.
