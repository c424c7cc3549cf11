(* What a user relies on about the recycled buffers and the preconditioner files. *)
Set Warnings "-notation-overridden,-ambiguous-paths".
From mathcomp Require Import all_ssreflect all_algebra.
From Verif Require Import Py Dict Tensor OffModel DiskModel PoolModel.
Set Implicit Arguments. Unset Strict Implicit. Unset Printing Implicit Defensive.

Section Spec.
Variable T : Type.
(* several processes one after the other on the same directory, with recycled buffers *)
Fixpoint mprocesses (z : T) (cs mx psz : nat) (listing : seq fkey -> seq fkey) (cpu : bool) (d : disk T)
  (lss : seq (seq (label T))) : option (disk T * seq (label T * res unit)) :=
  if lss is ls :: lss' then
    if mexec z cs mx psz listing cpu (mopen listing d) ls is Some (m, log) then
      omap (fun dl => (dl.1, log ++ dl.2)) (mprocesses z cs mx psz listing cpu (d_disk (m_rest m)) lss')
    else None
  else Some (d, [::]).
Definition is_store (l : label T) : bool := if l is LStore _ _ _ then true else false.
(* the tensor has its own memory *)
Definition own (h : handle T) : bool := if h is HVal _ then true else false.
End Spec.

Section Prec.
Variable P : Type.
(* a layer is stored at most once between two waits; [seen]: the layers stored since the last one *)
Fixpoint spaced (seen : seq nat) (ls : seq (rlabel P)) : bool :=
  if ls is l :: ls' then
    match l with
    | RStore i (Some _) => (i \notin seen) && spaced (i :: seen) ls'
    | RWait => spaced [::] ls'
    | _ => spaced seen ls'
    end
  else true.
Definition is_fail (l : rlabel P) : bool := if l is RFail _ then true else false.
(* the tensor stored last for layer i, or what was there *)
Definition last_stored (i : nat) (old : option P) (ls : seq (rlabel P)) : option P :=
  last old [seq Some p | p <- pmap (fun l => if l is RStore j (Some p) then if j == i then Some p else None else None) ls].
End Prec.
