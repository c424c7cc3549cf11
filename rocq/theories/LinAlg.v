(* Linear algebra facts shared by several proofs. Support only; models nothing. *)
Set Warnings "-notation-overridden,-ambiguous-paths".
From mathcomp Require Import all_ssreflect all_algebra.
Set Implicit Arguments. Unset Strict Implicit. Unset Printing Implicit Defensive.
Import Order.TTheory GRing.Theory Num.Theory.
Local Open Scope ring_scope.

Section L.
Variable F : realFieldType.

Lemma sqnorm_ge0 n (v : 'rV[F]_n) : 0 <= (v *m v^T) 0 0.
Proof. by rewrite mxE; apply: sumr_ge0 => i _; rewrite mxE -expr2 sqr_ge0. Qed.

Lemma sqnorm_eq0 n (v : 'rV[F]_n) : ((v *m v^T) 0 0 == 0) = (v == 0).
Proof.
apply/eqP/eqP => [|->]; last by rewrite mul0mx mxE.
rewrite mxE => h; apply/rowP => i; rewrite mxE.
have := psumr_eq0P _ h; move/(_ _ i isT) => H; apply/eqP; rewrite -sqrf_eq0 expr2.
by apply/eqP; rewrite -[RHS]H ?mxE // => k _; rewrite mxE -expr2 sqr_ge0.
Qed.

Lemma sqnorm_gt0 n (v : 'rV[F]_n) : v != 0 -> 0 < (v *m v^T) 0 0.
Proof. by move=> h; rewrite lt_def sqnorm_eq0 h sqnorm_ge0. Qed.

Lemma posdef_unit n (K : 'M[F]_n) :
  (forall v : 'rV[F]_n, v != 0 -> 0 < (v *m K *m v^T) 0 0) -> K \in unitmx.
Proof.
move=> H; rewrite -row_free_unit -kermx_eq0; apply/eqP/row_matrixP => i.
rewrite row0; set v := row i _.
have vK : v *m K = 0 by rewrite /v -row_mul mulmx_ker row0.
apply/eqP; apply: contraTT isT => /H; by rewrite vK mul0mx mxE ltxx.
Qed.

(* v (X'X + r I) v' = |X v'|^2 + r |v|^2 *)
Lemma gram_quad n q (X : 'M[F]_(n, q)) r (v : 'rV[F]_q) :
  (v *m (X^T *m X + r%:M) *m v^T) 0 0
  = ((v *m X^T) *m (v *m X^T)^T) 0 0 + r * (v *m v^T) 0 0.
Proof.
rewrite mulmxDr mulmxDl mxE; congr (_ + _).
  by rewrite trmx_mul trmxK !mulmxA.
by rewrite mul_mx_scalar -scalemxAl mxE.
Qed.

Lemma gram_reg_unit n q (X : 'M[F]_(n, q)) r : 0 < r -> X^T *m X + r%:M \in unitmx.
Proof.
move=> r0; apply: posdef_unit => v v0; rewrite gram_quad.
apply: ltr_paddl; first exact: sqnorm_ge0.
by rewrite mulr_gt0 // sqnorm_gt0.
Qed.
End L.
