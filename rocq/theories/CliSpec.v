(* What a user of the retraining command expects, without the script's control flow. *)
Set Warnings "-notation-overridden,-ambiguous-paths".
From mathcomp Require Import all_ssreflect all_algebra.
From Verif Require Import Py Dict RetrainModel RetrainSpec CliModel.
Set Implicit Arguments. Unset Strict Implicit. Unset Printing Implicit Defensive.
Import GRing.Theory Num.Theory.
Local Open Scope ring_scope.

(* the four combinations that run *)
Definition combos : list (dtext * mtext) := [:: (Mnist, Lr); (Imagenet, Resnet18); (Cifar2, Resnet9); (Maestro, Music)].
(* the number of training samples used: --train_subset if positive, else all *)
Definition pool (sub : int) (N : nat) : nat := if sub is Posz (k.+1) then k.+1 else N.
(* a command line without --extra_param *)
Definition plain (dm : dtext * mtext) (op : otext) (sub seed : int) (part : option (seq fld)) (dev : nat) : cargs :=
  CArgs (Some dm.1) (Some dm.2) (Some op) sub seed part dev [::].
Definition part3 (s e t : nat) : option (seq fld) := Some [:: FInt s; FInt e; FInt t].
(* several runs one after the other *)
Definition runs (P : eqType) (M G : Type) choice reseed train (p : P) (N : nat) :=
  foldl (fun (s : world P M * lroot M * G) a => (main choice reseed train s p N a).1).
(* the value of the last --extra_param with this key *)
Fixpoint last_extra (key : xkey) (l : seq xarg) : option xval :=
  if l is x :: l' then
    if last_extra key l' is Some v then Some v
    else if x is XArg a v then (if xcode a == xcode key then Some v else None) else None
  else None.
