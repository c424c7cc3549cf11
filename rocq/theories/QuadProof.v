(* Quadratic functions, their minimisers, and a norm for remainders. *)
Set Warnings "-notation-overridden,-ambiguous-paths".
From mathcomp Require Import all_ssreflect all_algebra.
From Verif Require Import Py LinAlg FieldSupport QuadSpec.
Require Import Field.
Set Implicit Arguments. Unset Strict Implicit. Unset Printing Implicit Defensive.
Import GRing.Theory Num.Theory Order.Theory.
Local Open Scope ring_scope.

Section Norm.
Variable F : realFieldType.
Definition nrm r s (B : 'M[F]_(r, s)) : F := \sum_i \sum_j `|B i j|.
Lemma nrm_ge0 r s (B : 'M[F]_(r, s)) : 0 <= nrm B.
Proof. by apply: sumr_ge0 => i _; apply: sumr_ge0 => j _. Qed.
Lemma nrmD r s (B C : 'M[F]_(r, s)) : nrm (B + C) <= nrm B + nrm C.
Proof.
rewrite /nrm -big_split; apply: ler_sum => i _; rewrite -big_split; apply: ler_sum => j _.
by rewrite mxE ler_norm_add.
Qed.
Lemma nrmZ r s a (B : 'M[F]_(r, s)) : nrm (a *: B) = `|a| * nrm B.
Proof.
by rewrite /nrm mulr_sumr; apply: eq_bigr => i _; rewrite mulr_sumr; apply: eq_bigr => j _; rewrite mxE normrM.
Qed.
Lemma nrm_tr r s (B : 'M[F]_(r, s)) : nrm B^T = nrm B.
Proof. by rewrite /nrm exchange_big; apply: eq_bigr => i _; apply: eq_bigr => j _; rewrite mxE. Qed.
Lemma nrmM r s t (B : 'M[F]_(r, s)) (C : 'M[F]_(s, t)) : nrm (B *m C) <= nrm B * nrm C.
Proof.
rewrite /nrm mulr_suml; apply: ler_sum => i _.
apply: (@le_trans _ _ (\sum_j \sum_k `|B i k| * `|C k j|)).
  apply: ler_sum => j _; rewrite mxE; apply: le_trans (ler_norm_sum _ _ _) _.
  by apply: ler_sum => k _; rewrite normrM.
rewrite exchange_big mulr_suml; apply: ler_sum => k _ /=; rewrite -mulr_sumr.
apply: ler_wpmul2l => //; rewrite (bigD1 k) //= ler_addl.
by apply: sumr_ge0 => k' _; apply: sumr_ge0 => j _.
Qed.
Lemma nrm11 (B : 'M[F]_1) : nrm B = `|B 0 0|.
Proof. by rewrite /nrm !big_ord1. Qed.
End Norm.

Section Quad.
Variables (F : realFieldType) (n : nat).
Implicit Types (S : 'M[F]_n) (t d beta : 'rV[F]_n).
Add Field quadF : (@ffield F).
Definition qf S beta (kap : F) t : F := 2%:R^-1 * (t *m S *m t^T) 0 0 - (beta *m t^T) 0 0 + kap.

Lemma half2 (a : F) : 2%:R^-1 * (a + a) = a.
Proof. by rewrite -mulr2n -(mulr_natl a 2) mulrA mulVf ?mul1r // pnatr_eq0. Qed.
Lemma tr11 (B : 'M[F]_1) : B^T 0 0 = B 0 0. Proof. by rewrite mxE. Qed.
Lemma dotC (u v : 'rV[F]_n) : (u *m v^T) 0 0 = (v *m u^T) 0 0.
Proof. by rewrite -tr11 trmx_mul trmxK. Qed.
Lemma bilC S (u v : 'rV[F]_n) : S^T = S -> (u *m S *m v^T) 0 0 = (v *m S *m u^T) 0 0.
Proof. by move=> sS; rewrite -tr11 !trmx_mul trmxK sS mulmxA. Qed.
Lemma addE (B C : 'M[F]_1) : (B + C) 0 0 = B 0 0 + C 0 0. Proof. by rewrite mxE. Qed.
Lemma oppE (B : 'M[F]_1) : (- B) 0 0 = - B 0 0. Proof. by rewrite mxE. Qed.
Lemma scaleE a (B : 'M[F]_1) : (a *: B) 0 0 = a * B 0 0. Proof. by rewrite mxE. Qed.
Lemma qf_taylor S beta kap t d : S^T = S ->
  qf S beta kap (t + d) = qf S beta kap t + (d *m (t *m S - beta)^T) 0 0 + 2%:R^-1 * (d *m S *m d^T) 0 0.
Proof.
move=> sS; rewrite /qf [(t + d)^T]linearD /= !mulmxDl !mulmxDr [(_ - beta)^T]linearB /= mulmxBr.
rewrite !(addE, oppE) (bilC t d sS) trmx_mul sS mulmxA (dotC beta d).
set a := (t *m S *m t^T) 0 0; set c := (d *m S *m t^T) 0 0; set e := (d *m S *m d^T) 0 0.
set u := (beta *m t^T) 0 0; set v := (d *m beta^T) 0 0.
have K (h a' c' e' u' v' k : F) :
    h * (a' + c' + (c' + e')) - (u' + v') + k = h * a' - u' + k + (h * (c' + c') - v') + h * e'.
  by fnorm; ring.
by rewrite K half2.
Qed.

(* quadratic functions form a linear space *)
Lemma qfD S beta kap S' beta' kap' t :
  qf S beta kap t + qf S' beta' kap' t = qf (S + S') (beta + beta') (kap + kap') t.
Proof.
rewrite /qf mulmxDr !mulmxDl !addE.
have K (h a c u v k k' : F) : h * a - u + k + (h * c - v + k') = h * (a + c) - (u + v) + (k + k') by fnorm; ring.
by rewrite K.
Qed.
Lemma qfZ a S beta kap t : a * qf S beta kap t = qf (a *: S) (a *: beta) (a * kap) t.
Proof. by rewrite /qf -scalemxAr -!scalemxAl !scaleE !mulrDr mulrN mulrCA. Qed.
Lemma qf_sum (X : Type) (xs : seq X) A b k t :
  \sum_(x <- xs) qf (A x) (b x) (k x) t = qf (\sum_(x <- xs) A x) (\sum_(x <- xs) b x) (\sum_(x <- xs) k x) t.
Proof.
elim: xs => [|x xs IH]; last by rewrite !big_cons IH qfD.
by rewrite !big_nil /qf mulmx0 !mul0mx mxE mulr0 subrr addr0.
Qed.
Lemma qf_decay r t : r / 2%:R * (\sum_j t 0 j ^+ 2) = qf r%:M 0 0 t.
Proof.
rewrite /qf mul_mx_scalar -scalemxAl scaleE mul0mx [X in _ - X]mxE oppr0 !addr0 mulrA [r / _]mulrC; congr (_ * _).
by rewrite mxE; apply: eq_bigr => j _; rewrite mxE expr2.
Qed.

Lemma qf_min S beta kap t : S^T = S -> minimises (qf S beta kap) t -> t *m S = beta.
Proof.
move=> sS mn; apply/eqP; rewrite -subr_eq0; set g := _ - _; apply/negPn/negP => g0.
have gg := sqnorm_gt0 g0; set q := (g *m S *m g^T) 0 0.
have tay a : 0 <= 2%:R^-1 * (a ^+ 2 * q) - a * (g *m g^T) 0 0.
  have := mn (t + - a *: g); rewrite qf_taylor // -/g => hh; rewrite -subr_ge0 in hh.
  move: hh.
  rewrite -!scalemxAl [(- a *: g)^T]linearZ /= -scalemxAr !scaleE -/q.
  have K (x y z h : F) : x + - a * y + h * (- a * (- a * z)) - x = h * (a * a * z) - a * y by fnorm; ring.
  by rewrite K expr2.
move: gg tay; move: ((g *m g^T) 0 0) => y y0 tay.
case: (lerP q 0) => hq.
  have := tay 1; rewrite expr1n !mul1r subr_ge0 => h; have := lt_le_trans y0 h.
  by rewrite pmulr_rgt0 ?invr_gt0 ?ltr0n // ltNge hq.
have := tay (y / q); have nq : q != 0 by rewrite gt_eqF.
have -> : 2%:R^-1 * ((y / q) ^+ 2 * q) - y / q * y = - (2%:R^-1 * (y ^+ 2 / q)).
  have -> : (y / q) ^+ 2 * q = y ^+ 2 / q.
    have K (y' q' : F) : q' != 0 -> y' / q' * (y' / q') * q' = y' * y' / q'.
      by move=> q0; rewrite -[LHS]mulrA divfK // mulrAC.
    by rewrite !expr2 K.
  have -> : y / q * y = 2%:R^-1 * (y ^+ 2 / q + y ^+ 2 / q) by rewrite half2 expr2 mulrAC.
  by rewrite mulrDr opprD addNKr.
rewrite oppr_ge0 => h; have : 0 < 2%:R^-1 * (y ^+ 2 / q).
  by rewrite mulr_gt0 ?invr_gt0 ?ltr0n // divr_gt0 // exprn_gt0.
by rewrite ltNge h.
Qed.
Lemma min_qf S beta kap t : S^T = S -> (forall d, 0 <= (d *m S *m d^T) 0 0) -> t *m S = beta ->
  minimises (qf S beta kap) t.
Proof.
move=> sS psd e t'; rewrite -[t'](subrK t) addrC qf_taylor // e subrr trmx0 mulmx0 mxE addr0 ler_addl.
by rewrite mulr_ge0 ?invr_ge0 ?ler0n.
Qed.
Lemma min_eq (f g : 'rV[F]_n -> F) t : f =1 g -> minimises f t -> minimises g t.
Proof. by move=> e h t'; rewrite -!e. Qed.
End Quad.
