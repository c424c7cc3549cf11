(* What the user's functions see beside the parameters they are given: frozen parameters, buffers (batch-norm
   statistics) and the training mode of the model object they close over.
   Modelled: dattri/task.py 22-37 (eval()), 64-75, 97-102 (functions written with torch.func.functional_call on the
   user's model), 160-177; the use by the attributors: algorithm/base.py 150-200, tracin.py 113-130, 301-318.
   On top of TaskModel: a persistent buffer is an entry of the architecture with p_grad = false.
   Simplifications: functional_call only gets names of the model; no code switches the model back to training mode;
   buffers outside the state dict are not modelled.  No proofs. *)
Set Warnings "-notation-overridden,-ambiguous-paths".
From mathcomp Require Import all_ssreflect all_algebra.
From Verif Require Import Py Dict TaskModel.
Set Implicit Arguments. Unset Strict Implicit. Unset Printing Implicit Defensive.

Section Amb.
Variables (A : eqType) (F : Type) (I : eqType) (dot : A).
Local Notation params := (params A F).
Variable E : tenv A F I.
Variables (R : Type).
(* loss and target on a training flag and a complete state of the network (the data are fixed) *)
Variables (lossn targetn : bool -> params -> res R).
Variable gradv : I -> (arg F -> res R) -> arg F -> res R.
Variable mode0 : bool.                       (* model.training when the task is created *)

(* torch.func.functional_call: the given tensors replace those of the module, all others are the module's own *)
Definition override (own ps : params) : params :=
  [seq (p.1, if dget ps p.1 is Some t then t else p.2) | p <- own].
(* the functions close over the model object that was passed to the task; a load function that creates a new
   object (task.py 97-102) leaves this one alone *)
Definition own_state (s : task A F I) : params := nth [::] (tk_heap s) 0.
(* task.py 36: a load in place ends with eval(); it also sets current_checkpoint_idx, which is never reset *)
Definition training (s : task A F I) : bool := if te_fresh E || (tk_cur s == None) then mode0 else false.
(* task.py 68-73 *)
Definition user (net : bool -> params -> res R) (s : task A F I) (ps : params) : res R :=
  net (training s) (override (own_state s) ps).

Definition acall (s : task A F I) (f : fn A I) (v : seq F) : task A F I * res R :=
  call_fn E (user lossn s) (user targetn s) gradv s f v.
Definition astep (sf : task A F I * seq (fn A I)) (o : op A F I) : task A F I * seq (fn A I) :=
  step dot E (user lossn sf.1) (user targetn sf.1) gradv sf o.
Definition arun (init : params) (h : seq (op A F I)) : task A F I * seq (fn A I) :=
  foldl astep (task_init E init, [::]) h.

(* the loop over checkpoints of the attributors: the parameters, the gradient function, the gradient at them *)
Definition at_ckpt (t : bool) (dims : I) (l : option (lname A)) (s : task A F I) (c : int) : task A F I * res R :=
  let p := get_param dot E s (Some c) l false None in
  let g := get_grad E t p.1 dims l (Some c) in
  match p.2, g.2 with
  | Ok (PFlat v), Ok f => acall g.1 f v
  | Ok _, Ok _ => (g.1, Err TypeError)
  | Err e, _ => (p.1, Err e)
  | _, Err e => (g.1, Err e)
  end.
Fixpoint sweep (t : bool) (dims : I) (l : option (lname A)) (s : task A F I) (cs : seq int) : seq (res R) :=
  if cs is c :: cs' then let r := at_ckpt t dims l s c in r.2 :: sweep t dims l r.1 cs' else [::].
End Amb.
