(* Independent description of a compressed gradient: a fixed linear image of the exact gradient of one sample. *)
Set Warnings "-notation-overridden,-ambiguous-paths".
From mathcomp Require Import all_ssreflect all_algebra.
From Coq Require ZArith.
From Verif Require Import Py Tensor Seeds SeedSpec ProjModel ProjSpec CompModel.
Set Implicit Arguments. Unset Strict Implicit. Unset Printing Implicit Defensive.
Import GRing.Theory.
Local Open Scope ring_scope.

Section Spec.
Variable F : fieldType.
Variable G : rng F.
Notation row := (seq F).

(* the positions of sample b *)
Definition pos (a : act F) (b : nat) : seq row := match a with A2 r => [:: nth [::] r b] | A3 _ r => nth [::] r b end.
(* m samples of L positions of w features; a 2-d tensor has one position *)
Definition shaped (three : bool) (m L w : nat) (a : act F) : bool :=
  match a with
  | A2 r => [&& ~~ three, L == 1%N, size r == m & all (fun v => size v == w) r]
  | A3 L' r => [&& three, L' == L, size r == m & all (fun p => (size p == L) && all (fun v => size v == w) p) r]
  end.

(* y = x W^T + b.  How much output o changes at one position when weight and bias change by D (column in: bias) *)
Definition layer_change (l : linear) (D : nat -> nat -> F) (x : row) (o : nat) : F :=
  \sum_(i < l_in l) D o i * nth 0 x i + (if l_bias l then D o (l_in l) else 0).
(* Gr is the gradient, with respect to weight and bias, of m times the loss through the positions of one sample:
   its inner product with every change D is the first-order change of m times the loss.  gs are the derivatives of
   the loss in the outputs of the layer, xs the inputs of the layer. *)
Definition param_grad (l : linear) (m : nat) (gs xs : seq row) (Gr : nat -> nat -> F) : Prop :=
  forall D : nat -> nat -> F,
  \sum_(o < l_out l) \sum_(i < l_in l + l_bias l) Gr o i * D o i =
  m%:R * \sum_(s < size xs) \sum_(o < l_out l) nth 0 (nth [::] gs s) o * layer_change l D (nth [::] xs s) o.

(* the matrix of a CPU projection with a given seed *)
Definition out_dim (t : ptype) (pd fd : nat) : nat :=
  match t with PIdentity => fd | PMask => minn pd fd | _ => pd end.
Definition pmatrix (t : ptype) (fd pd : nat) (seed : BinNums.Z) (i j : nat) : F :=
  match t with
  | PIdentity => (i == j)%:R
  | PMask => (i == nth fd (sort leq (take pd (g_perm G seed fd))) j)%:R
  | _ => basic_entry G fd (minn pd 100) seed BinNums.Z0 t i j / g_root G pd
  end.
(* the projection of a layer's sparsifiers and projector as one matrix over (output, input) pairs *)
Definition kron (k1 k2 : nat) (P1 P2 P : nat -> nat -> F) (o i j : nat) : F :=
  \sum_(a < k1) \sum_(c < k2) P1 o a * P2 i c * P (a * k2 + c)%N j.
(* the dimension asked for: a number, or everything with the identity *)
Definition asked (q : pparams) (fd : nat) : nat := odflt fd (q_dim q).
Definition feasible (q : pparams) : bool :=
  match q_type q with
  | PSjlt | PGrass => false
  | PIdentity => if q_dim q is Some d then (0 < d)%N else true
  | _ => if q_dim q is Some d then (0 < d)%N else false
  end.
(* a compressor after any history of batches, well shaped or not *)
Definition life (k : compressor F) (h : seq (act F * act F)) : compressor F := foldl (fun k v => (forward G k v.1 v.2).1) k h.
End Spec.
