(* What label smoothing and the warm-up schedule are, without the code. *)
Set Warnings "-notation-overridden,-ambiguous-paths".
From mathcomp Require Import all_ssreflect all_algebra.
Set Implicit Arguments. Unset Strict Implicit. Unset Printing Implicit Defensive.
Import GRing.Theory Num.Theory Order.Theory.
Local Open Scope ring_scope.
Section S.
Variables (R : rcfType) (lse : seq R -> R).
(* cross entropy of one row of logits against one class *)
Definition ce1 (z : seq R) (c : nat) : R := lse z - nth 0 z c.
(* mixture of the class with the uniform distribution *)
Definition smoothed (eps : R) (z : seq R) (c : nat) : R :=
  (1 - eps) * ce1 z c + eps * ((\sum_(j < size z) ce1 z j) / (size z)%:R).
(* "Attention is all you need", equation 3 *)
Definition noam (d w s : R) : R :=
  (Num.sqrt d)^-1 * Num.min ((Num.sqrt s)^-1) (s * (w * Num.sqrt w)^-1).
End S.
