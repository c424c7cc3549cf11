(* Independent specification of which training loader an inner-product
   attributor treats as the full training set, stated on the call history. *)
Set Warnings "-notation-overridden,-ambiguous-paths".
From mathcomp Require Import all_ssreflect all_algebra.
From Verif Require Import Tensor AttrModel.
Set Implicit Arguments. Unset Strict Implicit. Unset Printing Implicit Defensive.

Section Spec.
Variable X : Type.
(* the loader that a call history selects, stated on the history itself *)
Definition last_cached (h : seq (bop X)) : option (loader X) :=
  foldl (fun acc o => if o is OpCache l then Some l else acc) None h.
Definition first_attributed (h : seq (bop X)) : option (loader X) :=
  ohead (pmap (fun o => match o with OpCache _ => None | OpAttr tr _ _ _ => Some tr
                                   | OpSelf tr _ _ => Some tr end) h).
Definition full_spec (h : seq (bop X)) : option (loader X) :=
  if last_cached h is Some l then Some l else first_attributed h.

End Spec.
