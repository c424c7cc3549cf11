(* Specification side for the memory behind a task: which value of a checkpoint a name gets, from the list of names
   and the relation "is the same tensor" alone. *)
Set Warnings "-notation-overridden,-ambiguous-paths".
From mathcomp Require Import all_ssreflect.
From Verif Require Import Py Dict LiveModel.
Set Implicit Arguments. Unset Strict Implicit. Unset Printing Implicit Defensive.

Section Spec.
Variables (N : eqType) (V : Type) (mdl : dict N nat) (grad : nat -> bool).
Definition cell (n : N) : nat := odflt 0 (dget mdl n).
Definition names : seq N := dkeys mdl.
(* all names of the tensor called n, in order *)
Definition group (n : N) : seq N := [seq x <- names | cell x == cell n].
(* the trainable tensors, each under its first name *)
Definition firsts : seq N := [seq n <- names | (n == head n (group n)) && grad (cell n)].

(* a checkpoint holding its own tensors for all names *)
Definition complete (ck : ckpt N V) (val : N -> V) : Prop :=
  forall n, n \in names -> dget ck n = Some (Saved (val n)).
(* ... which agree on tied names *)
Definition consistent (val : N -> V) : Prop :=
  forall n n', n \in names -> n' \in names -> cell n = cell n' -> val n = val n'.
(* the value a tensor has after loading: the entry of its last name *)
Definition loaded (val : N -> V) (n : N) : V := val (last n (group n)).

(* what the user last wrote into a tensor *)
Definition written (h : seq (op N V)) (n : N) (v : V) : V :=
  foldl (fun acc o => if o is Write a x then if a == cell n then x else acc else acc) v h.
(* requests for other checkpoints *)
Definition asks (c : nat) (o : op N V) : bool :=
  match o with Param c' | Split c' => c' == c | _ => true end.
Definition only (c : nat) (h : seq (op N V)) : bool := all (asks c) h.
End Spec.

(* the caller's list, and the checkpoint asked for last, after a history *)
Section History.
Variables (N : eqType) (V : Type).
Definition entries (cs : seq (ckpt N V)) (h : seq (op N V)) : seq (ckpt N V) :=
  foldl (fun l o => match o with
                    | Append ck => rcons l ck
                    | Replace i ck => if i < size l then set_nth [::] l i ck else l
                    | _ => l end) cs h.
Definition latest (k : nat) (h : seq (op N V)) : option nat :=
  (foldl (fun kc o => match o with
                      | Append _ => (kc.1.+1, kc.2)
                      | Param c | Split c => (kc.1, if c < kc.1 then Some c else kc.2)
                      | _ => kc end) (k, None) h).2.
(* histories in which the user leaves the model and the entries alone *)
Definition quiet (h : seq (op N V)) : bool :=
  all (fun o => match o with Write _ _ | Replace _ _ => false | _ => true end) h.
End History.
