(* What training means, without gradient accumulators, modes and best-model bookkeeping. *)
Set Warnings "-notation-overridden,-ambiguous-paths".
From mathcomp Require Import all_ssreflect all_algebra.
From Verif Require Import Py TrainModel.
Set Implicit Arguments. Unset Strict Implicit. Unset Printing Implicit Defensive.
Import GRing.Theory Num.Theory.
Local Open Scope ring_scope.

Section Spec.
Variables (V : zmodType) (GT GN GP B O : Type).
Notation gens := (gens GT GN GP).
Notation loader := (loader GT GN GP B).
Variable d : V -> B -> gens -> V * gens.          (* the gradient of one batch at the current parameters *)
Variable ostep : O -> V -> V -> O * V.

(* parameters, optimiser state, generators *)
Definition point := (V * O * gens)%type.
(* one optimiser step per batch, along the gradient of that batch alone *)
Definition descend (x : point) (b : B) : point :=
  let: (dv, g) := d x.1.1 b x.2 in let: (o, w) := ostep x.1.2 x.1.1 dv in (w, o, g).
Definition round (ld : loader) (x : point) : point :=
  let: (bs, g) := l_iter ld x.2 in foldl descend (x.1, g) bs.
(* a pass over the loader that only looks *)
Definition look (ld : loader) (x : point) : point := (x.1, (l_iter ld x.2).2).
Definition seen (ld : loader) (x : point) : seq B := (l_iter ld x.2).1.
End Spec.

(* A function of the generators that does not use numpy's. *)
Section Blind.
Variables (GT GN GP : Type).
Notation gens := (gens GT GN GP).
Definition with_np (g : gens) (n : GN) : gens := Gens (g_t g) n (g_p g).
Definition np_blind (A : Type) (f : gens -> A * gens) : Prop :=
  forall g n, f (with_np g n) = ((f g).1, with_np (f g).2 n).
End Blind.
