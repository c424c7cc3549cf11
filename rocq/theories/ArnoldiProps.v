(* Property theorems for the Arnoldi inverse-Hessian solver (C12). *)
Set Warnings "-notation-overridden,-ambiguous-paths".
From mathcomp Require Import all_ssreflect all_algebra zify.
From Verif Require Import FieldSupport Py LinAlg IhvpModel IhvpSpec IhvpProof ArnoldiModel ArnoldiSpec ArnoldiProof.
Set Implicit Arguments. Unset Strict Implicit. Unset Printing Implicit Defensive.
Import Order.TTheory GRing.Theory Num.Theory.
Local Open Scope ring_scope.

(* The iteration always succeeds and returns k orthonormal Krylov vectors plus a
   last one orthogonal to them (unit, or smaller than tol); it stops before the
   requested number of iterations only at such a small residual; and the square
   part of the returned matrix is the compression of A to the basis. *)
Theorem C12_arnoldi_basis (F : rcfType) (n : nat) (A : 'M[F]_n) (tol : F) (start : 'cV[F]_n) (max_iter : nat) :
  0 < tol -> start != 0 -> (0 < max_iter)%N ->
  exists cols proj, let k := size cols in
    [/\ arnoldi_iter (mulmx A) 1 tol start max_iter = Ok (Some (cols, proj)),
        size proj = k.+1 /\ (k <= (minn n.+1 max_iter).-1)%N,
        forall i j, (i <= k)%N -> (j <= k)%N -> (i < k)%N || (j < k)%N ->
          dot (nth 0 proj i) (nth 0 proj j) = (i == j)%:R,
        forall i, (i <= k)%N -> krylov A start i.+1 (nth 0 proj i)
      & [/\ norm (nth 0 proj k) = 1 \/ norm (nth 0 proj k) < tol,
           (k < (minn n.+1 max_iter).-1)%N -> norm (nth 0 proj k) < tol
         & forall i j : 'I_k, appr cols i j = dot (A *m nth 0 proj j) (nth 0 proj i)]].
Proof.
move=> t0 s0 m0; have [cols [proj [e fi K [sz1 sz2]]]] := arnoldi_iter_ok A t0 s0 m0.
exists cols, proj; have [sp o ol nl c] := fi; split=> //.
- move=> i j; rewrite leq_eqVlt => /orP [/eqP ->|hi]; rewrite leq_eqVlt => /orP [/eqP ->|hj].
  + by rewrite ltnn.
  + move=> _; rewrite dotC ol //; case: eqP hj => [<-|//]; by rewrite ltnn.
  + move=> _; rewrite ol //; case: eqP hi => [->|//]; by rewrite ltnn.
  + by move=> _; exact: o.
- by move=> i hi; apply: K.2; rewrite sp ltnS.
- by split=> // i j; rewrite mxE (appr_entry fi).
Qed.
Print Assumptions C12_arnoldi_basis.

(* The recorded coefficients reproduce the operator: column m holds the m+2
   coefficients of A q_m on q_0..q_{m+1}.  Only at an early exit is the last one
   recorded as 0 while q_{m+1} is the (small) residual itself. *)
Theorem C12_arnoldi_relation (F : rcfType) (n : nat) (A : 'M[F]_n) (tol : F) (start : 'cV[F]_n) (max_iter : nat) cols proj :
  0 < tol -> start != 0 -> arnoldi_iter (mulmx A) 1 tol start max_iter = Ok (Some (cols, proj)) ->
  forall m, (m < size cols)%N ->
  let c := nth [::] cols m in let rest := A *m nth 0 proj m - \sum_(j < m.+1) nth 0 c j *: nth 0 proj j in
  size c = m.+2 /\
  (rest = nth 0 c m.+1 *: nth 0 proj m.+1 \/
   [/\ m.+1 = size cols, nth 0 c m.+1 = 0, rest = nth 0 proj m.+1 & norm rest < tol]).
Proof.
move=> t0 s0 e m hm.
have m0 : (0 < max_iter)%N by move: e; rewrite /arnoldi_iter; case: (max_iter) => //; rewrite minn0.
have [cols' [proj' [e' fi _ _]]] := arnoldi_iter_ok A t0 s0 m0.
move: e'; rewrite e => -[e1 e2]; subst cols' proj'.
have [_ _ _ _ c] := fi; have [s [s1 s2 s3] s4] := c _ hm.
move=> cm rest; split=> //.
have rE : rest = s *: nth 0 proj m.+1.
  have cE : \sum_(j < m.+1) nth 0 cm j *: nth 0 proj j =
            \sum_(j < m.+1) dot (A *m nth 0 proj m) (nth 0 proj j) *: nth 0 proj j.
    by apply: eq_bigr => j _; rewrite /cm s2 // -ltnS.
  by rewrite /rest {1}s3 cE addrC addrA addNr add0r.
by case: s4 => [<-|[? s1' z ?]]; [left|right; rewrite rE s1' scale1r].
Qed.
Print Assumptions C12_arnoldi_relation.

(* For symmetric A: the distilled pairs are orthonormal Ritz pairs of A itself (not
   only of the small matrix), there are min(k, top_k) of them (all when top_k is 0),
   and they are the ones with the largest absolute Ritz value. *)
Theorem C12_arnoldi_ritz (F : rcfType) (n : nat) (A : 'M[F]_n)
    (eigh : forall k, 'M[F]_k -> 'rV[F]_k * 'M[F]_k) (tol : F) (start : 'cV[F]_n) (max_iter top_k : nat) cols proj :
  symmetric A -> 0 < tol -> start != 0 ->
  arnoldi_iter (mulmx A) 1 tol start max_iter = Ok (Some (cols, proj)) ->
  diagonalises (hermitian (appr cols)) (eigh _ (hermitian (appr cols))) ->
  let all_pairs := distill eigh cols proj 0 in
  let ps := distill eigh cols proj top_k in
  [/\ ritz_pairs A ps,
      size ps = if top_k == 0%N then size cols else minn (size cols) top_k,
      {subset ps <= all_pairs}
    & forall p r, p \in ps -> r \in all_pairs -> r \notin ps -> `|r.1| <= `|p.1|].
Proof.
move=> sA t0 s0 e dg.
have m0 : (0 < max_iter)%N by move: e; rewrite /arnoldi_iter; case: (max_iter) => //; rewrite minn0.
have [cols' [proj' [e' fi _ _]]] := arnoldi_iter_ok A t0 s0 m0.
move: e'; rewrite e => -[e1 e2]; subst cols' proj'.
have rz t : ritz_pairs A (distill eigh cols proj t) := distill_ritz sA fi dg; move=> all_pairs ps; split; first exact: rz.
- by rewrite /ps distillE size_map kept_size.
- move=> p; rewrite /ps /all_pairs !distillE => /mapP [i _ ->]; apply: map_f.
  by rewrite (perm_mem (kept_all _ _)) // mem_enum.
- move=> p r; rewrite /ps /all_pairs !distillE => /mapP [i hi ->] /mapP [j _ ->] hr /=.
  apply: kept_top hi _; apply: contra hr => hj; exact: map_f.
Qed.
Print Assumptions C12_arnoldi_ritz.

(* The product returned for v is the Galerkin solution of x A = v in the span of the
   kept Ritz vectors: x lies in that span and the residual is orthogonal to it.
   Non-finite (None) exactly when a kept Ritz value is zero. *)
Theorem C12_ihvp_galerkin (F : rcfType) (n : nat) (A : 'M[F]_n)
    (eigh : forall k, 'M[F]_k -> 'rV[F]_k * 'M[F]_k) (tol : F) (start : 'cV[F]_n) (max_iter top_k : nat) cols proj v :
  symmetric A -> 0 < tol -> start != 0 ->
  arnoldi_iter (mulmx A) 1 tol start max_iter = Ok (Some (cols, proj)) ->
  diagonalises (hermitian (appr cols)) (eigh _ (hermitian (appr cols))) ->
  let ps := distill eigh cols proj top_k in
  if has (fun p => p.1 == 0) ps
  then ihvp_arnoldi (mulmx A) eigh 1 tol start max_iter top_k v = Ok None
  else exists2 x, ihvp_arnoldi (mulmx A) eigh 1 tol start max_iter top_k v = Ok (Some x) & galerkin A ps v x.
Proof.
move=> sA t0 s0 e dg ps; rewrite /ihvp_arnoldi e /=.
have m0 : (0 < max_iter)%N by move: e; rewrite /arnoldi_iter; case: (max_iter) => //; rewrite minn0.
have [cols' [proj' [e' fi _ _]]] := arnoldi_iter_ok A t0 s0 m0.
move: e'; rewrite e => -[e1 e2]; subst cols' proj'.
have rz : ritz_pairs A ps := distill_ritz sA fi dg.
have := apply_galerkin v rz; case: ifP => _; first by move=> ->.
by case=> x -> g; exists x.
Qed.
Print Assumptions C12_ihvp_galerkin.

(* When the iteration ran on to an exactly zero residual the answer is exact for
   every v in the Krylov space. *)
Theorem C12_ihvp_exact_on_krylov (F : rcfType) (n : nat) (A : 'M[F]_n)
    (eigh : forall k, 'M[F]_k -> 'rV[F]_k * 'M[F]_k) (tol : F) (start : 'cV[F]_n) (max_iter top_k : nat) cols proj v x :
  symmetric A -> 0 < tol -> start != 0 ->
  arnoldi_iter (mulmx A) 1 tol start max_iter = Ok (Some (cols, proj)) ->
  diagonalises (hermitian (appr cols)) (eigh _ (hermitian (appr cols))) ->
  last 0 proj = 0 -> (top_k == 0%N) || (size cols <= top_k)%N ->
  in_span (size cols) proj v ->
  ihvp_arnoldi (mulmx A) eigh 1 tol start max_iter top_k v = Ok (Some x) -> x *m A = v.
Proof.
move=> sA t0 s0 e dg lz ht vs ex.
have := C12_ihvp_galerkin top_k v sA t0 s0 e dg; rewrite /= ex.
have m0 : (0 < max_iter)%N by move: e; rewrite /arnoldi_iter; case: (max_iter) => //; rewrite minn0.
have [cols' [proj' [e' fi _ _]]] := arnoldi_iter_ok A t0 s0 m0.
move: e'; rewrite e => -[e1 e2]; subst cols' proj'.
have z : nth 0 proj (size cols) = 0 by case: fi => sz _ _ _ _; move: lz; rewrite last_q sz.
by case: ifP => // _ [y [<-] g]; apply: galerkin_exact sA fi dg z ht vs g.
Qed.
Print Assumptions C12_ihvp_exact_on_krylov.

(* When the basis is complete (as many columns as parameters) and nothing is
   truncated, the answer is the exact inverse product for every v, and non-finite
   exactly for singular A. *)
Theorem C12_ihvp_exact (F : rcfType) (n : nat) (A : 'M[F]_n)
    (eigh : forall k, 'M[F]_k -> 'rV[F]_k * 'M[F]_k) (tol : F) (start : 'cV[F]_n) (max_iter top_k : nat) cols proj v :
  symmetric A -> 0 < tol -> start != 0 ->
  arnoldi_iter (mulmx A) 1 tol start max_iter = Ok (Some (cols, proj)) ->
  diagonalises (hermitian (appr cols)) (eigh _ (hermitian (appr cols))) ->
  size cols = n -> (top_k == 0%N) || (n <= top_k)%N ->
  ihvp_arnoldi (mulmx A) eigh 1 tol start max_iter top_k v =
    Ok (if A \in unitmx then Some (v *m invmx A) else None).
Proof.
move=> sA t0 s0 e dg sn ht.
have m0 : (0 < max_iter)%N by move: e; rewrite /arnoldi_iter; case: (max_iter) => //; rewrite minn0.
have [cols' [proj' [e' fi _ _]]] := arnoldi_iter_ok A t0 s0 m0.
move: e'; rewrite e => -[e1 e2]; subst cols' proj'.
have ht' : (top_k == 0%N) || (size cols <= top_k)%N by rewrite sn.
have := C12_ihvp_galerkin top_k v sA t0 s0 e dg; rewrite /= (zero_ritz sA fi sn dg ht').
case: (boolP (A \in unitmx)) => //= u [x -> g]; congr (Ok (Some _)).
have [z sp] := complete t0 fi sn.
by rewrite -(galerkin_exact sA fi dg z ht' (sp v) g) mulmxK.
Qed.
Print Assumptions C12_ihvp_exact.

(* Degenerate iteration counts, for every input: one iteration builds no basis and
   every answer is zero; zero iterations fail. *)
Theorem C12_small_max_iter (F : rcfType) (n : nat) (hv : 'cV[F]_n -> 'cV[F]_n)
    (eigh : forall k, 'M[F]_k -> 'rV[F]_k * 'M[F]_k) (nc tol : F) (start : 'cV[F]_n) (top_k : nat) v :
  ihvp_arnoldi hv eigh nc tol start 0 top_k v = Err RuntimeError /\
  (start != 0 -> ihvp_arnoldi hv eigh nc tol start 1 top_k v = Ok (Some 0)).
Proof.
rewrite /ihvp_arnoldi /arnoldi_iter minn0 minnC (minn_idPl _) //=; split=> // s0.
rewrite norm_eq0 (negbTE s0) /= distillE; set K := kept _ _.
have -> : K = [::] by case: (K) => // -[].
by rewrite /= /arnoldi_apply /= big_nil.
Qed.
Print Assumptions C12_small_max_iter.

(* The Arnoldi projector: inner products of projected rows are the inverse-Hessian
   products, provided every kept Ritz value is positive. *)
Theorem C12_project_inner (F : rcfType) (n : nat) (ps : seq (F * 'rV[F]_n)) (u v : 'rV[F]_n) :
  (forall p, p \in ps -> 0 < p.1) ->
  exists x a b, [/\ arnoldi_apply ps u = Some x, arnoldi_project ps u = Some a, arnoldi_project ps v = Some b
                  & \sum_(i < size ps) nth 0 a i * nth 0 b i = ip x v].
Proof.
move=> pos; rewrite /arnoldi_apply /arnoldi_project.
have -> : has (fun p : F * 'rV_n => p.1 == 0) ps = false.
  by apply/hasPn => p /pos; rewrite lt_neqAle eq_sym => /andP [].
have -> : has (fun p : F * 'rV_n => p.1 <= 0) ps = false.
  by apply/hasPn => p /pos; rewrite ltNge.
do 3!eexists; split; try by [].
rewrite ip_suml (big_nth (0, 0)) big_mkord; apply: eq_bigr => i _.
rewrite !(nth_map (0, 0)) // ipZl; have := pos _ (mem_nth (0, 0) (ltn_ord i)).
move: (nth _ _ _) => p p0; rewrite [ip _ v]ipC ipE mulrACA -invfM -expr2 sqr_sqrtr ?ltW //.
by rewrite mulrAC.
Qed.
Print Assumptions C12_project_inner.

(* Concrete run: A swaps the two coordinates (symmetric, eigenvalues 1 and -1), the
   start vector is the first coordinate vector, an eigensolver that is right on the
   matrix it is given.  All hypotheses of the theorems above hold. *)
Section Ex.
Variable F : rcfType.
Definition mk2 (a b : F) : 'cV[F]_2 := \col_i (if (i : nat) == 0%N then a else b).
Definition swap2 : 'M[F]_2 := \matrix_(i, j) (i != j)%:R.
Definition rt : F := (Num.sqrt 2%:R)^-1.
Definition lam2 : 'rV[F]_2 := \row_i (if (i : nat) == 0%N then 1 else -1).
Definition Q2 : 'M[F]_2 := \matrix_(i, j) (if (i : nat) == 1%N then if (j : nat) == 1%N then - rt else rt else rt).
Definition eigh2 k : 'M[F]_k -> 'rV[F]_k * 'M[F]_k :=
  if k is 2 then fun _ => (lam2, Q2) else fun _ => (0, 0).
Definition cols2 : seq (seq F) := [:: [:: 0; 1]; [:: 1; 0; 0]].

Lemma mul2 a b : swap2 *m mk2 a b = mk2 b a.
Proof.
by apply/colP => -[[|[|//]] p]; rewrite !mxE !big_ord_recl big_ord0 !mxE /= ?mul1r ?mul0r ?addr0 ?add0r.
Qed.
Lemma dot2 a b c d : dot (mk2 a b) (mk2 c d) = a * c + b * d.
Proof. by rewrite dotE !big_ord_recl big_ord0 !mxE /= addr0. Qed.
Lemma sub2 a b c d e : mk2 a b - e *: mk2 c d = mk2 (a - e * c) (b - e * d).
Proof. by apply/colP => i; rewrite !mxE; case: ifP. Qed.
Lemma scl2 a b e : e *: mk2 a b = mk2 (e * a) (e * b).
Proof. by apply/colP => i; rewrite !mxE; case: ifP. Qed.
Lemma sym2 : symmetric swap2.
Proof. by apply/matrixP => i j; rewrite !mxE eq_sym. Qed.
Lemma start2 : mk2 1 0 != 0.
Proof. by apply/eqP => /colP /(_ 0); rewrite !mxE /= => /eqP; rewrite oner_eq0. Qed.
Lemma nz2 : norm (mk2 1 0) = 1.
Proof. by rewrite /norm dot2 mulr1 mulr0 addr0 sqrtr1. Qed.

Lemma run2 (tol : F) : 0 < tol <= 1 ->
  arnoldi_iter (mulmx swap2) 1 tol (mk2 1 0) 5 = Ok (Some (cols2, [:: mk2 1 0; mk2 0 1; mk2 0 0])).
Proof.
move=> /andP [t0 t1]; rewrite /arnoldi_iter /= nz2 oner_eq0 invr1 scale1r.
rewrite /gs_step /= mul2 dot2 !(mulr1, mulr0, mul0r, addr0, add0r, expr1n, divr1) scale0r subr0.
have n01 : norm (mk2 0 1) = 1 by rewrite /norm dot2 mulr1 mulr0 add0r sqrtr1.
rewrite n01 ltNge t1 /= oner_eq0 invr1 scale1r mul2 dot2 !(mulr1, mulr0, mul0r, addr0, add0r, expr1n, divr1) sub2.
rewrite !(mulr1, mulr0, subrr, subr0) dot2 !(mulr1, mulr0, mul0r, addr0, add0r, divr1) scale0r subr0.
by rewrite /norm dot2 !(mulr1, mulr0, mul0r, addr0, add0r) sqrtr0 t0.
Qed.

Lemma rt2 : rt * rt = 2%:R^-1.
Proof. by rewrite /rt -invfM -expr2 sqr_sqrtr // ler0n. Qed.
Lemma half2 : 2%:R^-1 + 2%:R^-1 = 1 :> F.
Proof. by rewrite -[_ + _]mulr2n -[_ *+ 2]mulr_natr mulVf // pnatr_eq0. Qed.

Lemma herm2 : hermitian (appr cols2) = swap2.
Proof.
rewrite herm_fix.
- by apply/matrixP => -[[|[|//]] p] [[|[|//]] r]; rewrite !mxE.
- by apply/matrixP => -[[|[|//]] p] [[|[|//]] r]; rewrite !mxE.
- by move=> -[[|[|//]] p] [[|[|//]] r].
Qed.
Lemma diag2 : diagonalises (hermitian (appr cols2)) (eigh2 (hermitian (appr cols2))).
Proof.
rewrite herm2 /=; split => /=.
  apply/matrixP => -[[|[|//]] p] [[|[|//]] r]; rewrite !mxE !big_ord_recl big_ord0 !mxE /= addr0 ?mulNr ?mulrN ?opprK rt2 ?half2 ?subrr //.
apply/matrixP => -[[|[|//]] p] [[|[|//]] r]; rewrite !mxE !big_ord_recl big_ord0 !mxE /=;
 by rewrite !(mulr1n, mulr0n, mul1r, mul0r, mulr1, mulr0, addr0, add0r, mulrN1, opprK, big_ord0).
Qed.

Example C12_exact_nonvacuous (tol : F) (v : 'rV[F]_2) : 0 < tol <= 1 ->
  ihvp_arnoldi (mulmx swap2) eigh2 1 tol (mk2 1 0) 5 0 v = Ok (Some (v *m invmx swap2)).
Proof.
move=> ht; have t0 : 0 < tol by case/andP: ht.
rewrite (C12_ihvp_exact v sym2 t0 start2 (run2 ht) diag2) //.
have -> // : swap2 \in unitmx.
suff /mulmx1_unit [] : swap2 *m swap2 = 1%:M by [].
by apply/matrixP => -[[|[|//]] p] [[|[|//]] r]; rewrite !mxE !big_ord_recl big_ord0 !mxE /=;
   rewrite !(mul1r, mul0r, mulr1, mulr0, addr0, add0r).
Qed.

(* The projector takes the square root of every kept Ritz value, so an indefinite
   Hessian gives non-finite features although the inverse product is fine. *)
Theorem C12_project_indefinite_refuted (v : 'rV[F]_2) :
  exists (A : 'M[F]_2) (eigh : forall k, 'M[F]_k -> 'rV[F]_k * 'M[F]_k) cols proj,
  [/\ symmetric A, arnoldi_iter (mulmx A) 1 1 (mk2 1 0) 5 = Ok (Some (cols, proj)),
      diagonalises (hermitian (appr cols)) (eigh _ (hermitian (appr cols))),
      arnoldi_apply (distill eigh cols proj 0) v = Some (v *m invmx A)
    & arnoldi_project (distill eigh cols proj 0) v = None].
Proof.
exists swap2, eigh2, cols2, [:: mk2 1 0; mk2 0 1; mk2 0 0].
have h1 : 0 < (1 : F) <= 1 by rewrite ltr01 lexx.
split; [exact: sym2|exact: run2|exact: diag2| |].
  by have := C12_exact_nonvacuous v h1; rewrite /ihvp_arnoldi run2 //= => -[].
rewrite /arnoldi_project; have -> // : has (fun p : F * 'rV[F]_2 => p.1 <= 0) (distill eigh2 cols2 [:: mk2 1 0; mk2 0 1; mk2 0 0] 0).
rewrite distillE; apply/hasP; exists (-1, row 1 ((eigh2 (hermitian (appr cols2))).2^T *m basis (size cols2) [:: mk2 1 0; mk2 0 1; mk2 0 0])).
  apply/mapP; exists (1 : 'I_2); last by rewrite /= mxE.
  by rewrite (perm_mem (kept_all _ _)) // mem_enum.
by rewrite /= oppr_le0 ler01.
Qed.

(* A norm_constant other than 1 (which the documentation recommends for large models)
   scales the answer: the start vector keeps norm 1 while coefficients are divided by
   the square of the constant.  With one parameter, Hessian 1 and constant 2 the
   answer is four times the inverse product. *)
Theorem C12_norm_constant_refuted (tol : F) : 0 < tol < 2%:R^-1 ->
  exists (eigh : forall k, 'M[F]_k -> 'rV[F]_k * 'M[F]_k),
    (forall T : 'M[F]_1, diagonalises T (eigh 1%N T)) /\
    forall v : 'rV[F]_1,
      ihvp_arnoldi (mulmx 1%:M) eigh 2%:R tol 1 2 0 v = Ok (Some (4%:R *: v)).
Proof.
move=> /andP [t0 th].
exists (fun k => if k is 1 return 'M[F]_k -> 'rV[F]_k * 'M[F]_k then fun T => (\row_j T 0 0, 1%:M)
              else fun _ => (0, 0)); split.
  move=> T; split=> /=; first by rewrite trmx1 mul1mx.
  by rewrite mulmx1 mul1mx; apply/matrixP => i j; rewrite !ord1 !mxE eqxx mulr1n.
move=> v; rewrite /ihvp_arnoldi /arnoldi_iter /=.
have d11 (a b : F) : dot (a%:M : 'cV_1) (b%:M) = a * b by rewrite dotE big_ord1 !mxE !mulr1n.
have n1 : norm (1 : 'cV[F]_1) = 1 by rewrite /norm d11 mulr1 sqrtr1.
rewrite n1 oner_eq0 invr1 scale1r mul1mx d11 mulr1 mul1r.
have q4 : 1 - (2%:R ^+ 2)^-1 = 3%:R / 4%:R :> F.
  rewrite -natrX; apply: (@mulIf _ (4%:R : F)); first by rewrite pnatr_eq0.
  by rewrite mulrBl mul1r mulVf ?pnatr_eq0 // divfK ?pnatr_eq0 // -(natrB F (n := 1) (m := 4)).
have -> : 1 - (2%:R ^+ 2)^-1 *: 1 = (3%:R / 4%:R)%:M :> 'cV[F]_1.
  by apply/colP => i; rewrite !ord1 !mxE eqxx mulr1n mulr1 q4.
have p34 : 0 < 3%:R / 4%:R :> F by rewrite divr_gt0 // ltr0n.
have n34 : norm ((3%:R / 4%:R)%:M : 'cV[F]_1) = 3%:R / 4%:R.
  by rewrite /norm d11 -expr2 sqrtr_sqr gtr0_norm.
rewrite n34 ltNge (_ : tol <= 3%:R / 4%:R) /=; last first.
  apply: ltW (lt_trans th _); rewrite ltr_pdivl_mulr ?ltr0n // mulrC.
  rewrite ltr_pdivr_mulr ?ltr0n //; by rewrite -natrM ltr_nat.
rewrite mulf_eq0 invr_eq0 pnatr_eq0 orbF gt_eqF //=; congr (Ok _).
rewrite distillE /=; set T := hermitian _.
have -> : T = ((2%:R ^+ 2)^-1)%:M.
  rewrite /T herm_fix; first by apply/matrixP => i j; rewrite !ord1 !mxE mulr1n.
    by apply/matrixP => i j; rewrite !ord1 !mxE.
  by move=> i j; rewrite !ord1.
have kE (lam : 'rV[F]_1) : kept lam 0 = [:: 0].
  by have := kept_size lam 0; case: (kept _ _) => [|x [|//]] //= _; rewrite ord1.
rewrite kE.
have q0 : (2%:R ^+ 2)^-1 != 0 :> F by rewrite invr_eq0 expf_neq0 // pnatr_eq0.
rewrite /arnoldi_apply /= !mxE mulr1n (negbTE q0) /= big_seq1 /=; congr Some.
apply/rowP => i; rewrite !ord1 !mxE big_ord1 !mxE big_ord1 !mxE /= !mulr1n !mulr1 invrK.
by rewrite -natrX mulrC.
Qed.
End Ex.
Print Assumptions C12_project_indefinite_refuted.
Print Assumptions C12_norm_constant_refuted.
