(* Lemmas for the line search and representer points. *)
Set Warnings "-notation-overridden,-ambiguous-paths".
From mathcomp Require Import all_ssreflect all_algebra zify.
From Verif Require Import Py RpsModel RpsSpec.
Set Implicit Arguments. Unset Strict Implicit. Unset Printing Implicit Defensive.
Import GRing.Theory Num.Theory Order.Theory.
Local Open Scope ring_scope.

Section Steps.
Variable R : realFieldType.
Lemma pow_lo : (2 ^ 36 <= 10 ^ 11)%N.
Proof. lia. Qed.
Lemma pow_hi : (10 ^ 11 < 2 ^ 37)%N.
Proof. lia. Qed.
Lemma step0 : step R 0 = 10%:R. Proof. by rewrite /step expr0 divr1. Qed.
Lemma stepS k : beta R * step R k = step R k.+1.
Proof. by rewrite /step /beta exprS invfM mulrCA. Qed.
Lemma p10 k : 0 < (10%:R : R) ^+ k. Proof. by rewrite exprn_gt0 // ltr0n. Qed.
Lemma p2 k : 0 < (2%:R : R) ^+ k. Proof. by rewrite exprn_gt0 // ltr0n. Qed.
Lemma step_gt0 k : 0 < step R k. Proof. by rewrite /step divr_gt0 ?ltr0n ?p2. Qed.
Lemma small_step k : (step R k < min_t R) = (36 < k)%N.
Proof.
rewrite /step /min_t ltr_pdivr_mulr ?p2 // mulrC ltr_pdivl_mulr ?p10 // -exprS -!natrX ltr_nat.
apply/idP/idP => h; last by apply: leq_trans pow_hi _; rewrite leq_exp2l.
have h2 := leq_ltn_trans pow_lo h; rewrite -(@ltn_exp2l 2 36 k (isT : 1 < 2)%N); exact: h2.
Qed.
End Steps.

Section Search.
Variables (R : realFieldType) (c d : nat).
Notation T := 'M[R]_(c, d).
Definition arm (f : T -> ext R) theta g val k : bool :=
  ege0 (eadd (eadd (f (theta - step R k *: g)) (eopp val)) (Fin (step R k * norm2 g / 2%:R))).
Lemma searchP fuel (f : T -> ext R) theta g val k : (k <= 37)%N -> (37 < k + fuel)%N ->
  exists K, [/\ (k <= K <= 37)%N, search fuel f theta g val (step R k) = Some (theta - step R K *: g),
    forall j, (k <= j < K)%N -> arm f theta g val j & K = 37%N \/ ~~ arm f theta g val K].
Proof.
elim: fuel k => [|fuel IH] k le lt; first by move: le lt; clear; lia.
rewrite /= small_step; case: ltnP => [h|h].
  have kE : k = 37%N by move: le h; clear; lia.
  by exists 37%N; rewrite kE; split=> // [|]; [move=> j; clear; lia|left].
rewrite -/(arm f theta g val k); case a: (arm _ _ _ _ _).
  have [||K [h1 h2 h3 h4]] := IH k.+1; [by move: h; clear; lia|by move: lt; clear; lia|].
  exists K; split=> //; [by move: h1; clear; lia|by rewrite stepS|].
  move=> j hj; case: (ltngtP k j) => [kj|jk|<-] //; first by apply: h3; move: hj kj; clear; lia.
  by move: hj jk; clear; lia.
exists k; rewrite leqnn le; split=> //; first by move=> j; clear; lia.
by right; rewrite a.
Qed.
Lemma search_more fuel (f : T -> ext R) theta g val t r : search fuel f theta g val t = Some r ->
  forall fuel', (fuel <= fuel')%N -> search fuel' f theta g val t = Some r.
Proof.
elim: fuel t => // fuel IH t /=; move=> h [|fuel'] // le /=; move: h.
by case: ifP => // _; case: ifP => // _ h; apply: IH.
Qed.
Lemma inner_self (g : T) : norm2 g = inner g g. Proof. by []. Qed.
Lemma norm2_ge0 (g : T) : 0 <= norm2 g.
Proof. by apply: sumr_ge0 => i _; apply: sumr_ge0 => j _; exact: sqr_ge0. Qed.

(* ---- fine-tuning *)
Variables (f : T -> ext R) (grd : T -> T).
Definition next (th : T) : T := odflt th (line_search f th (grd th) (f th)).
Lemma line_next th : line_search f th (grd th) (f th) = Some (next th).
Proof.
rewrite /next /line_search -step0.
by have [||K [_ -> _ _]] := @searchP search_fuel f th (grd th) (f th) 0 => //.
Qed.
Definition it theta k := iter k next theta.
Definition ma theta k := mean_abs (grd (it theta k)).
(* epochs from e on, with best j so far *)
Lemma tune_loopP theta (k e j : nat) st : (j < e)%N -> t_best st = Some (it theta j) -> t_min st = ma theta j ->
  t_init st = Some (ma theta 0) -> (forall i, (i < e)%N -> ma theta j <= ma theta i) ->
  (forall i, (i < j)%N -> ma theta j < ma theta i) -> (forall i, (i < e)%N -> ma theta 0 / 200%:R <= ma theta i) ->
  exists K J, [/\ tune_loop f grd k e (it theta e) st = Ok (it theta J), (J <= K)%N,
    (e.-1 <= K < e + k)%N /\ (forall i, (i <= K)%N -> ma theta J <= ma theta i),
    (forall i, (i < J)%N -> ma theta J < ma theta i) &
    (forall i, (i < K)%N -> ma theta 0 / 200%:R <= ma theta i) /\
    (K = (e + k).-1 \/ ma theta K < ma theta 0 / 200%:R)].
Proof.
elim: k e j st => [|k IH] e j st je hb hm hi h1 h2 h3.
  exists e.-1, j; rewrite /= hb; split=> //.
  - by move: je; clear; lia.
  - by split; [move: je; clear; lia|move=> i le; apply: h1; move: je le; clear; lia].
  - by split; [move=> i le; apply: h3; move: le; clear; lia|left; rewrite addn0].
have e0 : (e == 0%N) = false by move: je; clear; lia.
rewrite /= -/(ma theta e) hm e0 hi line_next -/(it theta e) -/(it theta e.+1).
case: ltP => [lt|ge].
  case: ltP => [br|nb].
    exists e, e; split=> //.
    - by split; [move: je; clear; lia|move=> i le; case: (ltngtP i e) le => // [l _|->] //;
         exact: le_trans (ltW lt) (h1 _ l)].
    - by move=> i l; exact: lt_le_trans lt (h1 _ l).
    - by split; [|right].
  have [] := IH e.+1 e (Tune (ma theta e) (Some (it theta e)) (Some (ma theta 0))) => //.
  - by move=> i; rewrite ltnS leq_eqVlt => /orP [/eqP ->|l] //; exact: le_trans (ltW lt) (h1 _ l).
  - by move=> i l; exact: lt_le_trans lt (h1 _ l).
  - by move=> i; rewrite ltnS leq_eqVlt => /orP [/eqP ->|l] //; exact: h3.
  move=> K [J [a1 a2 [a3 a4] a5 [a6 a7]]]; exists K, J; split=> //.
    by split=> //; move: a3; clear; lia.
  by split=> //; case: a7 => [->|]; [left; rewrite addSnnS|right].
have [] := IH e.+1 j st => //.
- by move: je; clear; lia.
- by move=> i; rewrite ltnS leq_eqVlt => /orP [/eqP ->|l] //; exact: h1.
- move=> i; rewrite ltnS leq_eqVlt => /orP [/eqP ->|l] //; last exact: h3.
  by apply: le_trans ge; exact: h3.
move=> K [J [a1 a2 [a3 a4] a5 [a6 a7]]]; exists K, J; split=> //.
  by split=> //; move: a3; clear; lia.
by split=> //; case: a7 => [->|]; [left; rewrite addSnnS|right].
Qed.
Lemma tune_unbound k e theta st : (0 < e)%N -> t_best st = None -> t_init st = None ->
  tune_loop f grd k e theta st = Err UnboundLocalError.
Proof.
elim: k e theta st => [|k IH] e theta st e0 hb hi /=; first by rewrite hb.
rewrite line_next; have -> : (e == 0%N) = false by move: e0; clear; lia.
by rewrite hi; case: ifP => // _; exact: IH.
Qed.
Lemma mean_abs_ge0 (g : T) : 0 <= mean_abs g.
Proof.
by rewrite /mean_abs divr_ge0 ?ler0n //; apply: sumr_ge0 => i _; apply: sumr_ge0 => j _; exact: normr_ge0.
Qed.
End Search.

(* ---- gradients *)
Section Gradient.
Variable R : realFieldType.
Lemma n1_ge0 m n (A : 'M[R]_(m, n)) : 0 <= n1 A.
Proof. by apply: sumr_ge0 => i _; apply: sumr_ge0. Qed.
Lemma inner_add m n (A B C : 'M[R]_(m, n)) : inner (A + B) C = inner A C + inner B C.
Proof. by rewrite /inner -big_split; apply: eq_bigr => i _; rewrite -big_split; apply: eq_bigr => j _; rewrite mxE mulrDl. Qed.
Lemma inner_addr m n (A B C : 'M[R]_(m, n)) : inner C (A + B) = inner C A + inner C B.
Proof. by rewrite /inner -big_split; apply: eq_bigr => i _; rewrite -big_split; apply: eq_bigr => j _; rewrite mxE mulrDr. Qed.
Lemma innerC m n (A B : 'M[R]_(m, n)) : inner A B = inner B A.
Proof. by apply: eq_bigr => i _; apply: eq_bigr => j _; rewrite mulrC. Qed.
Lemma inner_scale m n a (A B : 'M[R]_(m, n)) : inner (a *: A) B = a * inner A B.
Proof. by rewrite /inner mulr_sumr; apply: eq_bigr => i _; rewrite mulr_sumr; apply: eq_bigr => j _; rewrite mxE mulrA. Qed.
Lemma norm2_add m n (A B : 'M[R]_(m, n)) : norm2 (A + B) = norm2 A + 2%:R * inner A B + norm2 B.
Proof. by rewrite !inner_self inner_add !inner_addr (innerC B A) mulr2n mulrDl mul1r !addrA. Qed.
Lemma sqr_sum n (F : 'I_n -> R) : (forall i, 0 <= F i) -> \sum_i F i ^+ 2 <= (\sum_i F i) ^+ 2.
Proof.
move=> h; rewrite [X in _ <= X]expr2 mulr_suml; apply: ler_sum => i _; rewrite expr2.
apply: ler_wpmul2l => //; rewrite (bigD1 i) //= ler_addl; exact: sumr_ge0.
Qed.
Lemma norm2_le m n (A : 'M[R]_(m, n)) : norm2 A <= n1 A ^+ 2.
Proof.
apply: le_trans (sqr_sum _); last by move=> i; apply: sumr_ge0.
apply: ler_sum => i _; apply: le_trans (sqr_sum _); last by [].
by apply: ler_sum => j _; rewrite real_normK ?num_real.
Qed.
Lemma phi_add n c d (X : 'M[R]_(n, d)) (A B : 'M[R]_(c, d)) : phi X (A + B) = phi X A + phi X B.
Proof. by rewrite /phi mulmxDl raddfD. Qed.
Lemma phi_le n c d (X : 'M[R]_(n, d)) (h : 'M[R]_(c, d)) : n1 (phi X h) <= n1 X * n1 h.
Proof.
rewrite /n1 mulr_suml; apply: ler_sum => i _; rewrite mulr_sumr; apply: ler_sum => k _.
rewrite !mxE; apply: (le_trans (ler_norm_sum _ _ _)); rewrite mulr_suml; apply: ler_sum => j _.
rewrite normrM mxE mulrC; apply: ler_wpmul2l => //; rewrite (bigD1 j) //= ler_addl; exact: sumr_ge0.
Qed.
Lemma phi_adj n c d (X : 'M[R]_(n, d)) (G : 'M[R]_(n, c)) (h : 'M[R]_(c, d)) :
  inner G (phi X h) = inner (G^T *m X) h.
Proof.
rewrite /inner.
under eq_bigr => i _ do under eq_bigr => k _ do rewrite !mxE mulr_sumr.
under [RHS]eq_bigr => k _ do under eq_bigr => j _ do rewrite !mxE mulr_suml.
rewrite exchange_big; apply: eq_bigr => k _; rewrite exchange_big; apply: eq_bigr => j _.
by apply: eq_bigr => i _; rewrite !mxE mulrA mulrAC.
Qed.
Lemma grad_unique m n (F : 'M[R]_(m, n) -> R) x g g' : is_grad F x g -> is_grad F x g' -> g = g'.
Proof.
move=> h h'; apply/matrixP => i j; apply/eqP; rewrite -subr_eq0 -normr_le0 leNgt; apply/negP.
set D := `|_| => D0; have e0 : 0 < D / 4%:R by rewrite divr_gt0 ?ltr0n.
have [r r0 H] := h _ e0; have [r' r0' H'] := h' _ e0.
set s := Num.min r r'; have s0 : 0 < s by rewrite /s; case: (leP r r').
set v := s *: delta_mx i j.
have nv : n1 v = s.
  rewrite /n1 (bigD1 i) //= (bigD1 j) //= !mxE !eqxx /= mulr1 ger0_norm ?ltW //.
  rewrite big1 ?addr0; last by move=> k /negbTE e; rewrite !mxE eqxx e /= mulr0 normr0.
  by rewrite big1 ?addr0 // => k /negbTE e; rewrite big1 // => l _; rewrite !mxE e /= mulr0 normr0.
have iv A : inner A v = s * A i j.
  rewrite /inner (bigD1 i) //= (bigD1 j) //= !mxE !eqxx /= mulr1 mulrC.
  rewrite big1 ?addr0; last by move=> k /negbTE e; rewrite !mxE eqxx e /= !mulr0.
  by rewrite big1 ?addr0 // => k /negbTE e; rewrite big1 // => l _; rewrite !mxE e /= !mulr0.
have le1 : n1 v <= r by rewrite nv /s; case: (leP r r') => // /ltW.
have le2 : n1 v <= r' by rewrite nv /s; case: (leP r r').
have := ler_add (H' v le2) (H v le1); rewrite nv => q.
have : s * D <= D / 4%:R * s + D / 4%:R * s.
  apply: le_trans q; apply: le_trans (ler_norm_sub _ _).
  have -> : F (x + v) - F x - inner g' v - (F (x + v) - F x - inner g v) = s * (g i j - g' i j).
    by rewrite mulrBr -!iv opprB addrC addrA subrK.
  by rewrite normrM gtr0_norm.
rewrite -mulrDl [s * D]mulrC ler_pmul2r // -mulr2n -[X in _ *+ X]/(2%N) -mulr_natr -mulrA.
have -> : (4%:R : R)^-1 * 2%:R = 2%:R^-1 by rewrite (natrM _ 2 2) invfM -mulrA mulVf ?mulr1 // pnatr_eq0.
rewrite -{1}[D]mulr1 ler_pmul2l // leNgt => /negP; apply.
by rewrite invf_lt1 ?ltr0n // ltr1n.
Qed.
End Gradient.
