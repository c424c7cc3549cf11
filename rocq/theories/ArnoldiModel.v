(* Arnoldi inverse-Hessian products (dattri/func/hessian.py 561-743) and the
   Arnoldi projector (dattri/func/projection.py 836-1067, the same two helper
   functions).  Exact arithmetic over a real closed field; [None] stands for
   inf/nan entries.  Random start vector and torch.linalg.eigh are oracles. *)
Set Warnings "-notation-overridden,-ambiguous-paths".
From mathcomp Require Import all_ssreflect all_algebra.
From Verif Require Import Py IhvpModel.
Set Implicit Arguments. Unset Strict Implicit. Unset Printing Implicit Defensive.
Import GRing.Theory Num.Theory.
Local Open Scope ring_scope.

Section Arnoldi.
Variables (F : rcfType) (n : nat).
Variable hv : 'cV[F]_n -> 'cV[F]_n.              (* hvp_at_x_func *)

(* torch.norm *)
Definition norm (u : 'cV[F]_n) : F := Num.sqrt (dot u u).

(* 655-657: subtract the projection on every basis vector in turn *)
Definition gs_step (nc : F) (st : 'cV[F]_n * seq F) (q : 'cV[F]_n) : 'cV[F]_n * seq F :=
  let c := dot st.1 q / nc ^+ 2 in (st.1 - c *: q, rcons st.2 c).

(* 652-668.  [cols] are the columns of appr_mat (entries below the subdiagonal
   are zero), [proj] the basis so far *)
Fixpoint arnoldi_loop (nc tol : F) (iters : nat) (cols : seq (seq F)) (proj : seq 'cV[F]_n)
    : option (seq (seq F) * seq 'cV[F]_n) :=
  if iters is it.+1 then
    let: (h, cs) := foldl (gs_step nc) (hv (last 0 proj), [::]) proj in
    let nn := norm h in
    if nn < tol then Some (rcons cols (rcons cs 0), rcons proj h)
    else
      let sub := nn / nc in
      if sub == 0 then None                          (* 1.0 / 0 *)
      else arnoldi_loop nc tol it (rcons cols (rcons cs sub)) (rcons proj (sub^-1 *: h))
  else Some (cols, proj).

(* 643-670 _arnoldi_iter *)
Definition arnoldi_iter (nc tol : F) (start : 'cV[F]_n) (n_iters : nat)
    : res (option (seq (seq F) * seq 'cV[F]_n)) :=
  let k := minn n.+1 n_iters in
  if k == 0%N then Err RuntimeError                  (* torch.zeros((0, -1)) *)
  else if norm start == 0 then Ok None
  else Ok (arnoldi_loop nc tol k.-1 [::] [:: (norm start)^-1 *: start]).

(* appr_mat[:-1, :] and proj[:-1] *)
Definition appr (cols : seq (seq F)) : 'M[F]_(size cols) :=
  \matrix_(i, j) nth 0 (nth [::] cols j) i.
Definition basis (k : nat) (proj : seq 'cV[F]_n) : 'M[F]_(k, n) :=
  \matrix_(i, j) (nth 0 proj i) j 0.
(* 700-702: torch.tril(., diagonal=1), then 0.5 * (M + M.T) *)
Definition hermitian k (M : 'M[F]_k) : 'M[F]_k :=
  let L := \matrix_(i < k, j < k) (if (j <= i.+1)%N then M i j else 0) in
  2%:R^-1 *: (L + L^T).

(* torch.linalg.eigh *)
Variable eigh : forall k, 'M[F]_k -> 'rV[F]_k * 'M[F]_k.

(* 706-710: order by absolute value, [-top_k:] (everything when top_k = 0) *)
Definition kept k (lam : 'rV[F]_k) (top_k : nat) : seq 'I_k :=
  let idx := sort (fun i j => `|lam 0 i| <= `|lam 0 j|) (enum 'I_k) in
  if top_k == 0%N then idx else drop (k - top_k) idx.

(* 683-712 _distill: pairs (eigenvalue, row of reduced_projections) *)
Definition distill (cols : seq (seq F)) (proj : seq 'cV[F]_n) (top_k : nat) : seq (F * 'rV[F]_n) :=
  let: (lam, Q) := eigh (hermitian (appr cols)) in
  let W := Q^T *m basis (size cols) proj in
  [seq (lam 0 i, row i W) | i <- kept lam top_k].

(* 740: ((v @ E.T) / eigvals) @ E, one row v *)
Definition arnoldi_apply (ps : seq (F * 'rV[F]_n)) (v : 'rV[F]_n) : option 'rV[F]_n :=
  if has (fun p => p.1 == 0) ps then None
  else Some (\sum_(p <- ps) (((v *m p.2^T) 0 0) / p.1) *: p.2).

Definition ihvp_arnoldi (nc tol : F) (start : 'cV[F]_n) (max_iter top_k : nat) (v : 'rV[F]_n)
    : res (option 'rV[F]_n) :=
  rmap (obind (fun cp => arnoldi_apply (distill cp.1 cp.2 top_k) v))
       (arnoldi_iter nc tol start max_iter).

(* projection.py 1056-1067 ArnoldiProjector.project, one row: features @ E.T /
   sqrt(eigvals); eigenvalues <= 0 are not removed and give nan or inf *)
Definition arnoldi_project (ps : seq (F * 'rV[F]_n)) (v : 'rV[F]_n) : option (seq F) :=
  if has (fun p => p.1 <= 0) ps then None
  else Some [seq ((v *m p.2^T) 0 0) / Num.sqrt p.1 | p <- ps].
End Arnoldi.
