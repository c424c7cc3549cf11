(* What the nanoGPT scripts should do, without pointers, folds over lines or running minima. *)
Set Warnings "-notation-overridden,-ambiguous-paths".
From mathcomp Require Import all_ssreflect all_algebra.
From Verif Require Import Py.
Set Implicit Arguments. Unset Strict Implicit. Unset Printing Implicit Defensive.
Import GRing.Theory Num.Theory.

(* Position p of batch number k when an epoch has m batches of size b. *)
Definition place (m b k p : nat) : nat := (k %% m) * b + p.
(* The full batches of a list, in order. *)
Definition nth_batch (T : Type) (x0 : T) (s : seq T) (b k : nat) : seq T :=
  mkseq (fun p => nth x0 s (place (size s %/ b) b k p)) b.

(* Number of get_batch calls made before the batch of micro step t is fetched, when each of the iterations
   0, ev, 2 ev, ... evaluates 2 * e batches first and an iteration has acc micro steps. *)
Definition call_no (acc ev e t : nat) : nat :=
  if t is t'.+1 then t + 2 * e * (t' %/ acc %/ ev).+1 else 0.

(* The last q <= n whose value is below [big] and below all earlier values (None: nan). *)
Section Record.
Variables (R : realFieldType) (big : R) (v : nat -> option R).
Definition below (x : option R) (y : R) : bool := if x is Some a then (a < y)%R else false.
Definition is_record (q : nat) : bool :=
  below (v q) big && all (fun p => if v p is Some y then below (v q) y else true) (iota 0 q).
Definition records (n : nat) : seq nat := [seq q <- iota 0 n.+1 | is_record q].
End Record.
