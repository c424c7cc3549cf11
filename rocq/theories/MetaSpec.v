(* What a user relies on: batch b of the metadata owns a range of sample positions. *)
Set Warnings "-notation-overridden,-ambiguous-paths".
From mathcomp Require Import all_ssreflect.
From Verif Require Import Py Dict Tensor MetaModel.
Set Implicit Arguments. Unset Strict Implicit. Unset Printing Implicit Defensive.

Section Spec.
Variable Name : Type.
Notation mstate := (mstate Name). Notation dirst := (dirst Name).

(* number of samples the metadata attributes to batch b (pending entries included) *)
Definition count_of (s : mstate) (b : nat) : option nat :=
  if dget (m_pend s) b is Some i then Some (bi_count i) else omap bi_count (dget (m_info s) b).
(* the range of batch b *)
Definition range_of (s : mstate) (b : nat) : option (nat * nat) :=
  omap (fun i => (bi_start i, bi_start i + bi_count i)) (dget (m_info s) b).
(* the ranges, in batch order, cut 0..total into consecutive pieces *)
Definition partition_of (s : mstate) : Prop :=
  (forall b r, range_of s b = Some r -> r.1 <= r.2 <= m_total s) /\
  (forall i, i < m_total s -> exists! b, exists2 r, range_of s b = Some r & r.1 <= i < r.2) /\
  (forall b b' r r', range_of s b = Some r -> range_of s b' = Some r' -> b < b' -> r.2 <= r'.1).
(* a manager that remembers batches *)
Definition knows (s : mstate) (b : nat) : bool := (count_of s b : bool).
End Spec.
