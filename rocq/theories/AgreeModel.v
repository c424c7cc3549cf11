(* The influence-function attributors side by side: explicit, conjugate gradient, LiSSA and Arnoldi, with the same task
   and the same data.
   Modelled: dattri/algorithm/influence_function.py 51-132 (IFAttributorExplicit), 177-275 (IFAttributorCG), 478-589
   (IFAttributorLiSSA), 318-475 (IFAttributorArnoldi with its cache), algorithm/base.py 290-452 through AttrModel, the
   solvers through IhvpModel and ArnoldiModel.
   Simplifications: the gradients and the Hessians of the batch losses are given functions (automatic differentiation);
   torch.randperm, the start vector and eigh are given; no rounding.  A transformation that raises or is not finite is
   0 here, which no theorem uses.  The projected rows of the Arnoldi attributor are filled up with zeros.
   No proofs. *)
Set Warnings "-notation-overridden,-ambiguous-paths".
From mathcomp Require Import all_ssreflect all_algebra.
From Verif Require Import Py Tensor AttrModel IhvpModel ArnoldiModel.
Set Implicit Arguments. Unset Strict Implicit. Unset Printing Implicit Defensive.
Import GRing.Theory Num.Theory.
Local Open Scope ring_scope.

Section Agree.
Variables (F : realFieldType) (n : nat) (X : Type).
(* checkpoint index, sample: gradients of the loss and of the target; checkpoint index, batch: Hessian of the loss *)
Variables (gtr gte : nat -> X -> 'rV[F]_n) (hess : nat -> seq X -> 'M[F]_n).

(* the transformation of one test gradient by an inverse for the batches of the full training loader *)
Definition transformed (inv : seq X -> 'rV[F]_n -> res 'rV[F]_n) (full : loader X) (v : 'rV[F]_n) : 'rV[F]_n :=
  if if_transform true inv full v is Ok (Some r) then r else 0.
(* attributor.cache(full); attributor.attribute(tr, te) with C checkpoints *)
Definition scores (inv : nat -> seq X -> 'rV[F]_n -> res 'rV[F]_n) (full tr te : loader X) (C : nat) : res (seq (seq F)) :=
  (base_attribute (Oracles gtr gte (fun _ v => v) (fun l c v => transformed (inv c) l v) (fun _ _ _ _ _ => Err ValueError))
     true true (base_cache None full) tr te None C).2.

(* influence_function.py 81-132 *)
Definition explicit_scores (reg : F) := scores (fun c b => ihvp_explicit (hess c b) reg).
(* 223-275: the Hessian-vector product in mode rev-rev, hessian.py 98-106; nan is an error here *)
Definition cg_inv (reg : F) (max_iter c : nat) (b : seq X) (v : 'rV[F]_n) : res 'rV[F]_n :=
  if cg1 (fun u => (hess c b)^T *m u + reg *: u) max_iter v^T is Some x then Ok x^T else Err ZeroDivisionError.
Definition cg_scores (reg : F) (max_iter : nat) := scores (cg_inv reg max_iter).
(* 538-589; perm c b v r t is the permutation drawn in repeat r, step t for this batch and vector *)
Variables (x0 : X) (perm : nat -> seq X -> 'rV[F]_n -> nat -> nat -> seq nat).
Definition lissa_inv (bs nrep depth : nat) (damping scaling : F) (c : nat) (b : seq X) (v : 'rV[F]_n) : res 'rV[F]_n :=
  rmap (fun x => x^T) (ihvp_lissa x0 (hess c) (perm c b v) b bs nrep depth damping scaling v^T).
Definition lissa_scores bs nrep depth damping scaling := scores (lissa_inv bs nrep depth damping scaling).
End Agree.

Section Arnoldi.
Variables (F : rcfType) (n : nat) (X : Type).
Variables (gtr gte : nat -> X -> 'rV[F]_n) (hess : nat -> seq X -> 'M[F]_n).
Variables (eigh : forall k, 'M[F]_k -> 'rV[F]_k * 'M[F]_k) (start : 'cV[F]_n).
(* what a batch of the loader is *)
Inductive kind := KList | KTuple | KDict.
(* 383-410: the first it batches, concatenated; it is ceil(len(loader) * precompute_data_ratio).  Entries of the first
   batch are assigned (also for the move to the device), which tuples refuse; dicts have no integer keys *)
Definition arnoldi_data (k : kind) (it : nat) (full : loader X) : res (seq X) :=
  let bs := take it (enum_batches full) in
  if bs is [::] then Err IndexError else
  match k with
  | KList => Ok (flatten [seq b.2 | b <- bs])
  | KTuple => Err TypeError
  | KDict => Err KeyError
  end.
(* 412-430, 1009-1067 of projection.py: the pairs of checkpoint c; None is a start vector of length 0 *)
Definition arnoldi_pairs (reg tol : F) (max_iter proj_dim c : nat) (data : seq X) : res (seq (F * 'rV[F]_n)) :=
  rmap (fun o => if o is Some cp then distill eigh cp.1 cp.2 proj_dim else [::])
    (arnoldi_iter (fun u => hess c data *m u + reg *: u) 1 tol start max_iter).
(* 432-475: the same projection on both sides *)
Definition arnoldi_row (ps : res (seq (F * 'rV[F]_n))) (v : 'rV[F]_n) : 'rV[F]_n :=
  if ps is Ok ps' then if arnoldi_project ps' v is Some a then \row_(k < n) nth 0 a k else 0 else 0.
Definition arnoldi_scores (k : kind) (it : nat) (reg tol : F) (max_iter proj_dim : nat) (full tr te : loader X) (C : nat)
    : res (seq (seq F)) :=
  rbind (arnoldi_data k it full) (fun data =>
    let P c := arnoldi_row (arnoldi_pairs reg tol max_iter proj_dim c data) in
    (base_attribute (Oracles gtr gte P (fun _ => P) (fun _ _ _ _ _ => Err ValueError))
       true true (base_cache None full) tr te None C).2).
End Arnoldi.
