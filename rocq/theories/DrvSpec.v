(* Vocabulary for the retraining command: which model numbers a call is responsible for. *)
Set Warnings "-notation-overridden,-ambiguous-paths".
From mathcomp Require Import all_ssreflect all_algebra.
From Verif Require Import Py DrvModel.
Set Implicit Arguments. Unset Strict Implicit. Unset Printing Implicit Defensive.
Import GRing.Theory Num.Theory.
Local Open Scope ring_scope.

(* the data set has a folder and a configuration *)
Definition known (d : dset) : bool := if d is OtherName then false else true.
(* call c gets to training *)
Definition valid (c : cmd) : bool := [&& ~~ only c, ~~ neg c & ~~ above c].
(* model number k (from 1) belongs to call c and its training does not fail *)
Definition makes (c : cmd) (k : int) : bool :=
  [&& valid c, first c <= k - 1, k - 1 < last_ c, k - 1 < total c & ~~ fails c (k - 1)].
(* the files of the data set *)
Definition same_data (w w' : world) : Prop := [/\ input w' = input w, train w' = train w, val_ w' = val_ w & meta w' = meta w].
(* the last call of the sequence that makes model k *)
Definition maker (cs : seq cmd) (k : int) : option cmd := foldl (fun o c => if makes c k then Some c else o) None cs.
(* a call that is given the text [t] and whose preparation is not interrupted *)
Definition supplies (d : dset) (c : cmd) (t : seq nat) : Prop :=
  (5 <= kill c)%N /\ match d with Shakespeare => dl c = Some t | Tiny => file c = Some t | OtherName => False end.
