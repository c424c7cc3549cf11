(* Specification of the data-set preparation, independent of DataModel. *)
Set Warnings "-notation-overridden,-ambiguous-paths".
From mathcomp Require Import all_ssreflect zify.
Set Implicit Arguments. Unset Strict Implicit. Unset Printing Implicit Defensive.

(* CIFAR-2: cats (3) become 0, dogs (5) become 1 *)
Definition wanted (t : nat) : bool := (t == 3) || (t == 5).
Definition relabel (t : nat) : nat := if t == 3 then 0 else if t == 5 then 1 else t.

(* the positions a window may start at: multiples of the stride that leave room for max_seq tokens and one
   more *)
Definition offsets (max_seq stride : nat) (f : seq nat) : seq nat :=
  [seq o <- iota 0 (size f) | (stride %| o) && (o + max_seq < size f)].
(* inputs and targets of the window starting at o *)
Definition window (max_seq : nat) (f : seq nat) (o : nat) : seq nat * seq nat :=
  (mkseq (fun j => nth 0 f (o + j)) max_seq, mkseq (fun j => nth 0 f (o + j).+1) max_seq).
(* a file too short for a window, padded *)
Definition padded (pad eos max_seq : nat) (f : seq nat) : seq nat * seq nat :=
  (mkseq (fun j => if j < size f then nth 0 f j else pad) max_seq,
   mkseq (fun j => if j.+1 < size f then nth 0 f j.+1 else if j.+1 == size f then eos else pad) max_seq).
