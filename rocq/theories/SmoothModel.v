(* dattri/benchmark/models/MusicTransformer: the label smoothing loss and the warm-up schedule.  No proofs.
   R is a real closed field; [lse] is logsumexp over the last dimension, an arbitrary function of the row.
   A mean over no target (0 / 0, nan) is None.  The logits are finite numbers; vocab_size is not negative;
   steps, dimensions and warm-up are integers.  Not modelled: gradients, rounding. *)
Set Warnings "-notation-overridden,-ambiguous-paths".
From mathcomp Require Import all_ssreflect all_algebra.
From Verif Require Import Py.
Set Implicit Arguments. Unset Strict Implicit. Unset Printing Implicit Defensive.
Import GRing.Theory Num.Theory Order.Theory.
Local Open Scope ring_scope.

Section Smooth.
Variables (R : rcfType) (lse : seq R -> R).

(* loss.py 17-24: the reduction is any string, is_logits is stored and never read *)
Inductive reduction := Mean | Sum | OtherReduction.
Record smooth := Smooth { s_eps : R; s_vocab : nat; s_ignore : int; s_red : reduction }.
Definition make (eps : R) (v : nat) (ignore : int) (red : reduction) : res smooth :=
  if (0 <= eps) && (eps <= 1) then Ok (Smooth eps v ignore red) else Err AssertionError.
(* F.one_hot(target, v): v must be positive, every target a class; eval of 35-39 row by row *)
Definition one_hot (v : nat) (t : seq int) : res (seq (seq R)) :=
  if (v == 0)%N then Err RuntimeError
  else if all (fun c => (0 <= c) && (c < v%:Z)) t then
    Ok [seq [seq (if c == j%:Z then 1 else 0) | j <- iota 0 v] | c <- t]
  else Err RuntimeError.
Definition q_prime (m : smooth) (t : seq int) (q : seq (seq R)) : seq (seq R) :=
  let u := 1 / (s_vocab m)%:R in
  [seq [seq (if p.1 == s_ignore m then 0 else (1 - s_eps m) * x + s_eps m * u) | x <- p.2] | p <- zip t q].
(* broadcasting of one dimension of sizes n and m *)
Definition bsize (n m : nat) : res nat :=
  if n == m then Ok n else if (n == 1)%N then Ok m else if (m == 1)%N then Ok n else Err RuntimeError.
Definition bat {T} (d : T) (s : seq T) (i : nat) : T := nth d s (if size s == 1%N then 0%N else i).
(* 50-51, w the width of the input; p has width v *)
Definition cross_entropy (v : nat) (p : seq (seq R)) (w : nat) (q : seq (seq R)) : res (seq R) :=
  let lp := [seq [seq x - lse r | x <- r] | r <- q] in
  rbind (bsize (size p) (size q)) (fun n =>
  rbind (bsize v w) (fun k =>
  Ok [seq - (\sum_(j <- iota 0 k) bat 0 (bat [::] p i) j * bat 0 (bat [::] lp i) j) | i <- iota 0 n])).
(* 26-48 *)
Definition forward (m : smooth) (w : nat) (input : seq (seq R)) (target : seq int) : res (option R) :=
  rbind (one_hot (s_vocab m) target) (fun q =>
  rbind (cross_entropy (s_vocab m) (q_prime m target q) w input) (fun ce =>
  match s_red m with
  | Mean => let n := count (fun c => c != s_ignore m) target in
            Ok (if n == 0%N then None else Some ((\sum_(x <- ce) x) / n%:R))
  | Sum => Ok (Some (\sum_(x <- ce) x))
  | OtherReduction => Err NotImplementedError
  end)).

(* lr_scheduling.py 31-39 *)
Definition msqrt (x : int) : res R := if x < 0 then Err ValueError else Ok (Num.sqrt x%:~R).
Definition invert (x : R) : res R := if x == 0 then Err ZeroDivisionError else Ok (1 / x).
Record tracker := Tracker { k_warm : int; k_init : int; k_dim : R; k_w : R }.
Definition track (d w init : int) : res tracker :=
  rbind (msqrt d) (fun sd => rbind (invert sd) (fun isd =>
  rbind (msqrt w) (fun sw => rbind (invert (w%:~R * sw)) (fun isw => Ok (Tracker w init isd isw))))).
(* 42-59 *)
Definition step (k : tracker) (s : int) : res R :=
  let s' := s + k_init k in
  if s' <= k_warm k then Ok (k_dim k * k_w k * s'%:~R)
  else rbind (msqrt s') (fun r => rbind (invert r) (fun i => Ok (k_dim k * i))).
(* 62-74: the first parameter group, None when there is none *)
Definition get_lr (groups : seq R) : option R := ohead groups.
(* torch.optim.lr_scheduler.LambdaLR: the rate of the n-th update *)
Definition lambda_lr (base : R) (k : tracker) (n : nat) : res R := rmap (fun f => base * f) (step k n%:Z).
End Smooth.
