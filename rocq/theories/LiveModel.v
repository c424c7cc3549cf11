(* The memory behind a task: tensors shared between names (tied weights), state dicts that are references to the
   model's own tensors (model.state_dict() without a copy), parameter tuples that are views of the model, the list
   of checkpoints shared with the caller, and changes made to the model by the user.
   Modelled: dattri/task.py 22-37, 113-120, 160-177, 384-452; func/utils.py 152-206; torch's load_state_dict,
   named_parameters and functional_call(tie_weights=True) as far as they are used there.
   Simplifications: a tensor is one value in one memory cell; state dicts have the names and shapes of the model
   (failing loads are in TaskModel); checkpoints are loaded in place; no layer_name (TaskModel); indices >= 0.
   No proofs. *)
Set Warnings "-notation-overridden,-ambiguous-paths".
From mathcomp Require Import all_ssreflect.
From Verif Require Import Py Dict.
Set Implicit Arguments. Unset Strict Implicit. Unset Printing Implicit Defensive.

Section Live.
Variables (N : eqType) (V : Type).
(* the state dict of the model: names in order, each with its memory cell; tied names have the same cell *)
Variable mdl : dict N nat.
Variable grad : nat -> bool.                      (* requires_grad of a cell; false for buffers *)

Definition mem := nat -> V.
Definition upd (m : mem) (a : nat) (v : V) : mem := fun b => if b == a then v else m b.

(* an entry of a checkpoint: a tensor of its own (a copy, or read from a file), or one of the live cells *)
Inductive src := Saved of V | Ref of nat.
Definition ckpt := dict N src.
Definition rd (m : mem) (x : src) : V := match x with Saved v => v | Ref a => m a end.
(* task.py 35: param.copy_(input_param) for one name after the other *)
Definition load1 (ck : ckpt) (m : mem) (p : N * nat) : mem :=
  if dget ck p.1 is Some x then upd m p.2 (rd m x) else m.
Definition load_sd (ck : ckpt) (m : mem) : mem := foldl (load1 ck) m mdl.
(* model.state_dict(), not copied *)
Definition own_dict : ckpt := [seq (p.1, Ref p.2) | p <- mdl].

(* named_parameters(): a tensor that was met before is left out *)
Fixpoint dedup (seen : seq nat) (l : dict N nat) : dict N nat :=
  if l is p :: l' then if p.2 \in seen then dedup seen l' else p :: dedup (p.2 :: seen) l' else [::].
(* task.py 175-177; func/utils.py 196 *)
Definition named : dict N nat := [seq p <- dedup [::] mdl | grad p.2].

Record st := St {
  mm : mem;                       (* the tensors of the model *)
  cur : option nat;               (* current_checkpoint_idx *)
  cks : seq ckpt;                 (* self.checkpoints, the caller's list *)
  held : seq (seq nat)            (* tuples handed out by get_param(layer_split=True), as views *)
}.

(* task.py 160-177 *)
Definition load (s : st) (c : nat) : st * res unit :=
  if cur s == Some c then (s, Ok tt)
  else if c < size (cks s)
       then (St (load_sd (nth [::] (cks s) c) (mm s)) (Some c) (cks s) (held s), Ok tt)
       else (s, Err IndexError).
(* task.py 452, func/utils.py 152-174: torch.cat copies *)
Definition get_flat (s : st) (c : nat) : st * res (seq V) :=
  let r := load s c in
  (r.1, rbind r.2 (fun _ => if named is [::] then Err StopIteration else Ok [seq mm r.1 p.2 | p <- named])).
(* task.py 436-451: param.flatten() is a view *)
Definition get_split (s : st) (c : nat) : st * res nat :=
  let r := load s c in
  if r.2 is Err e then (r.1, Err e)
  else (St (mm r.1) (cur r.1) (cks r.1) (rcons (held r.1) [seq p.2 | p <- named]), Ok (size (held r.1))).
Definition read_tuple (s : st) (i : nat) : seq V := [seq mm s a | a <- nth [::] (held s) i].

(* torch.func.functional_call: a given tensor replaces every name tied to its own; two for one tensor are refused *)
Definition tied (n n' : N) : bool := if dget mdl n is Some a then dget mdl n' == Some a else false.
Definition clash (ps : seq (N * V)) : bool := has (fun q => has (fun q' => (q.1 != q'.1) && tied q.1 q'.1) ps) ps.
Definition fcall (s : st) (ps : seq (N * V)) : res (seq (N * V)) :=
  if clash ps then Err ValueError
  else Ok [seq (p.1, if [seq q.2 | q <- ps & tied q.1 p.1] is v :: _ then v else mm s p.2) | p <- mdl].
(* func/utils.py 190-206, 265-270 and task.py 68-73: the complete state that the user's function computes with *)
Definition network (s : st) (v : seq V) : res (seq (N * V)) := fcall s (zip [seq p.1 | p <- named] v).

(* what happens to a task: requests, and the user's own actions on the model and on the list *)
Inductive op :=
| Param of nat | Split of nat
| Write of nat & V                (* the user changes a tensor of the model, e.g. by an optimiser step *)
| Replace of nat & ckpt           (* checkpoints[i] = ck on the caller's list *)
| Append of ckpt.
Definition step (s : st) (o : op) : st :=
  match o with
  | Param c => (get_flat s c).1
  | Split c => (get_split s c).1
  | Write a v => St (upd (mm s) a v) (cur s) (cks s) (held s)
  | Replace i ck => if i < size (cks s) then St (mm s) (cur s) (set_nth [::] (cks s) i ck) (held s) else s
  | Append ck => St (mm s) (cur s) (rcons (cks s) ck) (held s)
  end.
Definition init (m : mem) (cs : seq ckpt) : st := St m None cs [::].
Definition run (s : st) (h : seq op) : st := foldl step s h.
End Live.
Arguments Saved {V}. Arguments Ref {V}.
