(* Lemmas for the Arnoldi theorems. *)
Set Warnings "-notation-overridden,-ambiguous-paths".
From mathcomp Require Import all_ssreflect all_algebra zify.
From Verif Require Import ArnoldiSpec Py LinAlg IhvpModel IhvpSpec IhvpProof ArnoldiModel.
Set Implicit Arguments. Unset Strict Implicit. Unset Printing Implicit Defensive.
Import Order.TTheory GRing.Theory Num.Theory.
Local Open Scope ring_scope.

Section P.
Variables (F : rcfType) (n : nat).
Variable hv : 'cV[F]_n -> 'cV[F]_n.
Local Notation "<< u , v >>" := (dot u v) (at level 0).
Notation q proj i := (nth (0 : 'cV[F]_n) proj i).

Lemma dot_suml (I : Type) (r : seq I) P (f : I -> 'cV[F]_n) w :
  <<\sum_(i <- r | P i) f i, w>> = \sum_(i <- r | P i) <<f i, w>>.
Proof. by elim/big_rec2: _ => [|i y x _ <-]; rewrite ?dot0l // dotDl. Qed.

Definition orthon (qs : seq 'cV[F]_n) := forall i j, (i < size qs)%N -> (j < size qs)%N ->
  <<q qs i, q qs j>> = (i == j)%:R.
Definition remain (h : 'cV[F]_n) (qs : seq 'cV[F]_n) := h - \sum_(j < size qs) <<h, q qs j>> *: q qs j.

Lemma orthon_rcons qs z : orthon (rcons qs z) -> orthon qs /\ forall i, (i < size qs)%N -> <<q qs i, z>> = 0.
Proof.
move=> o; split=> [i j hi hj|i hi].
  have := o i j; rewrite size_rcons !nth_rcons hi hj; apply; lia.
have := o i (size qs); rewrite size_rcons !nth_rcons hi ltnn eqxx => -> //; try lia.
by have -> : (i == size qs) = false by lia.
Qed.

Lemma gs_fold h cs qs : orthon qs ->
  foldl (gs_step 1) (h, cs) qs = (remain h qs, cs ++ [seq <<h, z>> | z <- qs]).
Proof.
elim/last_ind: qs => [|qs z IH] o.
  by rewrite /= /remain big_ord0 subr0 cats0.
have [o1 o2] := orthon_rcons o; rewrite foldl_rcons IH //= /gs_step /= expr1n divr1.
have e : <<remain h qs, z>> = <<h, z>>.
  rewrite dotBl dot_suml big1 ?subr0 // => i _; rewrite dotZl o2 ?mulr0 //; exact: ltn_ord.
rewrite e map_rcons rcons_cat; congr (_, _).
rewrite /remain size_rcons big_ord_recr /= nth_rcons ltnn eqxx opprD addrA; congr (_ - _ - _).
by apply: eq_bigr => i _; rewrite nth_rcons ltn_ord.
Qed.

Lemma remain_ortho h qs i : orthon qs -> (i < size qs)%N -> <<q qs i, remain h qs>> = 0.
Proof.
move=> o hi; rewrite dotC dotBl dot_suml (bigD1 (Ordinal hi)) //= dotZl o // eqxx mulr1 big1.
  by rewrite addr0 subrr.
move=> j ne; rewrite dotZl o // ?ltn_ord //.
have -> : ((j : nat) == i) = false by exact: negbTE ne.
by rewrite mulr0.
Qed.

Lemma normsq (h : 'cV[F]_n) : norm h ^+ 2 = <<h, h>>.
Proof. by rewrite /norm sqr_sqrtr // dot_ge0. Qed.
Lemma norm_eq0 (h : 'cV[F]_n) : (norm h == 0) = (h == 0).
Proof. by rewrite -sqrf_eq0 normsq dot_eq0. Qed.
Lemma unit_scale (h : 'cV[F]_n) : norm h != 0 -> <<(norm h)^-1 *: h, (norm h)^-1 *: h>> = 1.
Proof. by move=> nz; rewrite dotZl dotZr -normsq expr2 mulKf // mulVf. Qed.

Lemma orthon_snoc qs z : orthon qs -> (forall i, (i < size qs)%N -> <<q qs i, z>> = 0) -> <<z, z>> = 1 ->
  orthon (rcons qs z).
Proof.
move=> o oz zz i j; rewrite size_rcons !ltnS [(i <= _)%N]leq_eqVlt [(j <= _)%N]leq_eqVlt => /orP [/eqP ->|hi] /orP [/eqP ->|hj].
- by rewrite !nth_rcons ltnn eqxx zz.
- rewrite !nth_rcons ltnn eqxx hj dotC oz //.
  by have -> : (size qs == j) = false by lia.
- rewrite !nth_rcons ltnn eqxx hi oz //.
  by have -> : (i == size qs) = false by lia.
- by rewrite !nth_rcons hi hj o.
Qed.

(* column m of the coefficients, with residual coefficient s on q_{m+1} *)
Definition colok (cols : seq (seq F)) (proj : seq 'cV[F]_n) m (s : F) : Prop :=
  let c := nth [::] cols m in
  [/\ size c = m.+2, forall j, (j <= m)%N -> nth 0 c j = <<hv (q proj m), q proj j>>
    & hv (q proj m) = \sum_(j < m.+1) <<hv (q proj m), q proj j>> *: q proj j + s *: q proj m.+1].
Definition Inv (cols : seq (seq F)) (proj : seq 'cV[F]_n) : Prop :=
  [/\ size proj = (size cols).+1, orthon proj
    & forall m, (m < size cols)%N -> colok cols proj m (nth 0 (nth [::] cols m) m.+1)].
(* early exit: the last vector is the small residual itself *)
Definition Brk (tol : F) (cols : seq (seq F)) (proj : seq 'cV[F]_n) : Prop :=
  exists cols0 proj0 cs h, [/\ cols = rcons cols0 (rcons cs 0), proj = rcons proj0 h, Inv cols0 proj0
    & [/\ size cs = (size cols0).+1, h = remain (hv (last 0 proj0)) proj0, norm h < tol
      & forall j, (j <= size cols0)%N -> nth 0 cs j = <<hv (last 0 proj0), q proj0 j>>]].

Lemma last_q proj : last 0 proj = q proj (size proj).-1.
Proof. by rewrite nth_last. Qed.

Lemma loop_inv tol it cols proj : 0 < tol -> Inv cols proj ->
  exists cp, arnoldi_loop hv 1 tol it cols proj = Some cp /\
    ((Inv cp.1 cp.2 /\ size cp.1 = (size cols + it)%N) \/
     (Brk tol cp.1 cp.2 /\ (size cols < size cp.1 <= size cols + it)%N)).
Proof.
move=> t0; elim: it cols proj => [|it IH] cols proj I.
  by exists (cols, proj); split=> //; left; rewrite addn0.
case: (I) => sz o cok; rewrite /= gs_fold //=.
set h := remain _ _; set cs := [seq _ | _ <- _]; case: ltP => hn.
  eexists; split; first by []; right; split; last by rewrite size_rcons /=; lia.
  exists cols, proj, cs, h; split=> //; split=> //; first by rewrite size_map.
  by move=> j hj; rewrite (nth_map 0) //; rewrite sz.
have np : 0 < norm h by apply: lt_le_trans hn.
rewrite divr1 gt_eqF //.
have ho i : (i < size proj)%N -> <<q proj i, (norm h)^-1 *: h>> = 0.
  by move=> hi; rewrite dotZr remain_ortho // mulr0.
have o' : orthon (rcons proj ((norm h)^-1 *: h)).
  by apply: orthon_snoc => //; rewrite unit_scale // gt_eqF.
have I' : Inv (rcons cols (rcons cs (norm h))) (rcons proj ((norm h)^-1 *: h)).
  split=> //; first by rewrite !size_rcons sz.
  move=> m; rewrite size_rcons ltnS leq_eqVlt => /orP [/eqP ->|hm].
    have scs : size cs = (size cols).+1 by rewrite size_map.
    have e1 : nth [::] (rcons cols (rcons cs (norm h))) (size cols) = rcons cs (norm h).
      by rewrite nth_rcons ltnn eqxx.
    have e2 j : (j <= size cols)%N -> q (rcons proj ((norm h)^-1 *: h)) j = q proj j.
      by move=> hj; rewrite nth_rcons sz ltnS hj.
    have e3 : q (rcons proj ((norm h)^-1 *: h)) (size cols).+1 = (norm h)^-1 *: h.
      by rewrite nth_rcons sz ltnn eqxx.
    rewrite /colok e1 e2 // e3 nth_rcons scs ltnn eqxx; split.
    - by rewrite size_rcons scs.
    - move=> j hj; rewrite e2 // nth_rcons scs ltnS hj (nth_map 0) ?sz //.
      by rewrite last_q sz.
    rewrite scalerA mulfV ?gt_eqF // scale1r.
    rewrite -[LHS](subrK (\sum_(j < (size cols).+1) <<hv (q proj (size cols)), q proj j>> *: q proj j)).
    rewrite addrC; congr (_ + _).
      by apply: eq_bigr => j _; rewrite e2 // -ltnS ltn_ord.
    by rewrite /h /remain last_q sz.
  case: (cok _ hm) => s1 s2 s3; rewrite /colok !nth_rcons hm.
  have -> : (m < size proj)%N by lia.
  have -> : (m.+1 < size proj)%N by lia.
  split=> // [j hj|].
    by rewrite nth_rcons (_ : (j < size proj)%N); [exact: s2 | lia].
  rewrite {1}s3; congr (_ + _); apply: eq_bigr => j _; rewrite nth_rcons.
  by have -> : (j < size proj)%N by have := ltn_ord j; lia.
have [cp [-> H]] := IH _ _ I'; exists cp; split=> //; rewrite size_rcons in H.
by case: H => [[H1 H2]|[H1 H2]]; [left|right]; split=> //; lia.
Qed.

Definition Fin (tol : F) cols proj : Prop :=
  [/\ size proj = (size cols).+1,
      forall i j, (i < size cols)%N -> (j < size cols)%N -> <<q proj i, q proj j>> = (i == j)%:R,
      forall i, (i < size cols)%N -> <<q proj i, q proj (size cols)>> = 0,
      norm (q proj (size cols)) = 1 \/ norm (q proj (size cols)) < tol
    & forall m, (m < size cols)%N ->
      exists2 s, colok cols proj m s &
        s = nth 0 (nth [::] cols m) m.+1 \/
        [/\ m.+1 = size cols, s = 1, nth 0 (nth [::] cols m) m.+1 = 0 & norm (q proj m.+1) < tol]].

Lemma Inv_Fin tol cols proj : Inv cols proj -> Fin tol cols proj.
Proof.
move=> [sz o c]; split=> //.
- by move=> i j hi hj; apply: o; lia.
- move=> i hi; rewrite o; try lia.
  by have -> : (i == size cols) = false by lia.
- left; rewrite /norm o ?eqxx ?sqrtr1 //; lia.
- by move=> m hm; exists (nth 0 (nth [::] cols m) m.+1); [exact: c|left].
Qed.

Lemma Brk_Fin tol cols proj : Brk tol cols proj -> Fin tol cols proj.
Proof.
move=> [cols0 [proj0 [cs [h [-> -> [sz o c] [scs hE hn hc]]]]]].
have qL j : (j <= size cols0)%N -> q (rcons proj0 h) j = q proj0 j.
  by move=> hj; rewrite nth_rcons sz ltnS hj.
have qh : q (rcons proj0 h) (size cols0).+1 = h by rewrite nth_rcons sz ltnn eqxx.
have ch : nth [::] (rcons cols0 (rcons cs 0)) (size cols0) = rcons cs 0.
  by rewrite nth_rcons ltnn eqxx.
have cL j : (j < size cols0)%N -> nth [::] (rcons cols0 (rcons cs 0)) j = nth [::] cols0 j.
  by move=> hj; rewrite nth_rcons hj.
rewrite /Fin !size_rcons; split.
- by rewrite sz.
- move=> i j hi hj; rewrite !qL //; apply: o; rewrite sz //.
- by move=> i hi; rewrite qL // qh hE remain_ortho // sz.
- by right; rewrite qh.
- move=> m; rewrite ltnS leq_eqVlt => /orP [/eqP ->|hm].
    exists 1; last first.
      right; split=> //; last by rewrite qh.
      by rewrite ch nth_rcons scs ltnn eqxx.
    rewrite /colok ch qL // qh; split.
    - by rewrite size_rcons scs.
    - move=> j hj; rewrite qL // nth_rcons scs ltnS hj hc // last_q sz //.
    rewrite scale1r; transitivity (\sum_(j < (size cols0).+1) <<hv (q proj0 (size cols0)), q proj0 j>> *: q proj0 j + h).
      by rewrite hE /remain last_q sz /= addrC subrK.
    by congr (_ + _); apply: eq_bigr => j _; rewrite qL // -ltnS.
  have [s1 s2 s3] := c _ hm; exists (nth 0 (nth [::] cols0 m) m.+1); last by left; rewrite cL.
  rewrite /colok cL // (qL m) ?(ltnW hm) // (qL m.+1) //; split=> // [j hj|].
    by rewrite qL; [exact: s2 | exact: leq_trans hj (ltnW hm)].
  rewrite {1}s3; congr (_ + _); apply: eq_bigr => j _; rewrite qL //.
  by apply: leq_trans (ltnW hm); rewrite -ltnS.
Qed.

(* entries of the projected matrix *)
Lemma appr_entry tol cols proj i j : Fin tol cols proj -> (i < size cols)%N -> (j < size cols)%N ->
  nth 0 (nth [::] cols j) i = <<hv (q proj j), q proj i>>.
Proof.
move=> [sz o ol _ c] hi hj; have [s [s1 s2 s3] s4] := c _ hj.
have [le|gt] := leqP i j; first exact: s2.
rewrite s3 dotDl dot_suml big1 ?add0r => [|l _]; last first.
  rewrite dotZl o //; try by have := ltn_ord l; lia.
  have -> : ((l : nat) == i) = false by have := ltn_ord l; lia.
  by rewrite mulr0.
rewrite dotZl; have [->|ne] := eqVneq i j.+1.
  have jl : (j.+1 < size cols)%N by lia.
  rewrite o // eqxx mulr1; case: s4 => [->//|[e]]; lia.
have i2 : (j.+1 < size cols)%N by lia.
rewrite o //; have -> : (j.+1 == i) = false by lia.
by rewrite mulr0 nth_default // s1; lia.
Qed.
End P.

Lemma herm_fix (F : rcfType) k (M : 'M[F]_k) : M^T = M -> (forall i j : 'I_k, (j.+1 < i)%N -> M i j = 0) ->
  hermitian M = M.
Proof.
move=> sM z; rewrite /hermitian.
have -> : (\matrix_(i < k, j < k) (if (j <= i.+1)%N then M i j else 0)) = M.
  apply/matrixP => i j; rewrite mxE; case: leqP => // h.
  by rewrite -sM mxE z.
by rewrite sM -mulr2n -scaler_nat scalerA mulVf ?scale1r // pnatr_eq0.
Qed.

Section Sym.
Variables (F : rcfType) (n : nat) (A : 'M[F]_n).
Local Notation "<< u , v >>" := (dot u v) (at level 0).
Notation q proj i := (nth (0 : 'cV[F]_n) proj i).

Lemma basis_gram k proj : (forall i j, (i < k)%N -> (j < k)%N -> <<q proj i, q proj j>> = (i == j)%:R) ->
  basis k proj *m (basis k proj)^T = 1%:M.
Proof.
move=> o; apply/matrixP => i j; rewrite !mxE -(o i j) // dotE.
by apply: eq_bigr => l _; rewrite !mxE.
Qed.

Lemma proj_entry k proj (i j : 'I_k) :
  (basis k proj *m A *m (basis k proj)^T) i j = <<A *m q proj j, q proj i>>.
Proof.
rewrite -mulmxA mxE dotC dotE; apply: eq_bigr => l _; rewrite !mxE; congr (_ * _).
by apply: eq_bigr => r _; rewrite !mxE.
Qed.

Lemma appr_proj tol cols proj : Fin (mulmx A) tol cols proj ->
  appr cols = basis (size cols) proj *m A *m (basis (size cols) proj)^T.
Proof. by move=> fi; apply/matrixP => i j; rewrite proj_entry mxE (appr_entry fi). Qed.

Lemma appr_hess tol cols proj : Fin (mulmx A) tol cols proj ->
  forall i j : 'I_(size cols), (j.+1 < i)%N -> appr cols i j = 0.
Proof.
move=> [_ _ _ _ c] i j h; rewrite mxE nth_default //.
by have [s [-> _ _] _] := c _ (ltn_ord j); lia.
Qed.

Lemma herm_appr tol cols proj : A^T = A -> Fin (mulmx A) tol cols proj ->
  hermitian (appr cols) = appr cols.
Proof.
move=> sA fi; apply: herm_fix; last exact: appr_hess fi.
by rewrite (appr_proj fi) !trmx_mul trmxK sA mulmxA.
Qed.

(* the basis lies in the Krylov space of the start vector *)
Lemma gs_krylov nc r K ps st : (forall p, p \in ps -> krylov A r K p) -> krylov A r K st.1 ->
  krylov A r K (foldl (gs_step nc) st ps).1.
Proof.
elim: ps st => //= p ps IH st hp hs; apply: IH => [x xp|]; first by apply: hp; rewrite inE xp orbT.
rewrite /= -scaleN1r scalerA; apply: kr_add => //; apply: kr_scale; apply: hp; exact: mem_head.
Qed.

Lemma kr_le r K K' u : (K <= K')%N -> krylov A r K u -> krylov A r K' u.
Proof.
move=> le kr; elim: kr K' le => {K u}.
- by move=> K K' _; apply: kr_zero.
- by move=> K [|K'] // _; apply: kr_start.
- by move=> K u w _ IH _ IH2 K' le; apply: kr_add; [exact: IH|exact: IH2].
- by move=> K c u _ IH K' le; apply: kr_scale; exact: IH.
- by move=> K u _ IH [|K'] // le; apply: kr_mul; exact: IH.
Qed.

Definition KInv r proj := (0 < size proj)%N /\ forall i, (i < size proj)%N -> krylov A r i.+1 (q proj i).
Lemma KInv_rcons r proj z : KInv r proj -> krylov A r (size proj).+1 z -> KInv r (rcons proj z).
Proof.
move=> [s0 k] kz; split; rewrite size_rcons // => i; rewrite ltnS leq_eqVlt => /orP [/eqP ->|hi].
  by rewrite nth_rcons ltnn eqxx.
by rewrite nth_rcons hi; exact: k.
Qed.

Lemma loop_krylov nc tol r it cols proj cp : KInv r proj ->
  arnoldi_loop (mulmx A) nc tol it cols proj = Some cp -> KInv r cp.2.
Proof.
elim: it cols proj => [|it IH] cols proj K /=; first by case=> <-.
have kh : krylov A r (size proj).+1 (foldl (gs_step nc) (A *m last 0 proj, [::]) proj).1.
  apply: gs_krylov => [p /(nthP 0) [i hi <-]|/=]; first by apply: kr_le (K.2 i hi); exact: ltnW.
  rewrite last_q; apply: kr_mul; have [s0 kq] := K; have := kq (size proj).-1; rewrite prednK //; exact.
move: kh; case: foldl => h cs /= kh; case: ifP => _.
  by case=> <- /=; apply: KInv_rcons.
case: ifP => // _; apply: IH; apply: KInv_rcons => //; exact: kr_scale.
Qed.

Lemma arnoldi_iter_ok tol start n_iters : 0 < tol -> start != 0 -> (0 < n_iters)%N ->
  exists cols proj, [/\ arnoldi_iter (mulmx A) 1 tol start n_iters = Ok (Some (cols, proj)),
    Fin (mulmx A) tol cols proj, KInv start proj
    & (size cols <= (minn n.+1 n_iters).-1)%N /\
      ((size cols < (minn n.+1 n_iters).-1)%N -> norm (q proj (size cols)) < tol)].
Proof.
move=> t0 s0 i0; rewrite /arnoldi_iter.
have -> : (minn n.+1 n_iters == 0)%N = false by lia.
rewrite norm_eq0 (negbTE s0).
have I0 : Inv (mulmx A) [::] [:: (norm start)^-1 *: start].
  split=> // i j /=; rewrite !ltnS !leqn0 => /eqP -> /eqP ->.
  by rewrite unit_scale // norm_eq0.
have K0 : KInv start [:: (norm start)^-1 *: start].
  split=> //= i; rewrite ltnS leqn0 => /eqP ->; apply: kr_scale; exact: kr_start.
have [[cols proj] [e h]] := loop_inv (minn n.+1 n_iters).-1 t0 I0.
exists cols, proj; rewrite e; split=> //; last 2 first.
- exact: loop_krylov K0 e.
- case: h => /= -[].
    by move=> _ ->; rewrite add0n ltnn.
  rewrite add0n => B /andP [_ le]; split=> // _.
  have [c0 [p0 [cs [hh [-> -> [sz _ _] [_ _ hn _]]]]]] := B.
  by rewrite size_rcons nth_rcons sz ltnn eqxx.
by case: h => /= -[h _]; [exact: Inv_Fin | exact: Brk_Fin].
Qed.

(* eigenvalue selection *)
Lemma kept_uniq k (lam : 'rV[F]_k) t : uniq (kept lam t).
Proof. by rewrite /kept; case: ifP => _; rewrite ?drop_uniq // sort_uniq enum_uniq. Qed.
Lemma kept_size k (lam : 'rV[F]_k) t : size (kept lam t) = if t == 0%N then k else minn k t.
Proof.
by rewrite /kept; case: ifP => _; rewrite ?size_drop size_sort size_enum_ord //; lia.
Qed.
Lemma kept_top k (lam : 'rV[F]_k) t i j : i \in kept lam t -> j \notin kept lam t ->
  `|lam 0 j| <= `|lam 0 i|.
Proof.
rewrite /kept; set le := fun _ _ => _; set s := sort _ _.
have ms x : x \in s by rewrite mem_sort mem_enum.
case: ifP => _ hi hj; first by rewrite ms in hj.
have ss : sorted le s by apply: sort_sorted => x y; exact: le_total.
have tr : transitive le by move=> y x z; exact: le_trans.
move: ss; rewrite (sorted_pairwise tr) -(cat_take_drop (k - t) s) pairwise_cat => /and3P [/allrelP h _ _].
apply: h => //; move: (ms j); rewrite -{1}(cat_take_drop (k - t) s) mem_cat (negbTE hj) orbF //.
Qed.
Lemma kept_all k (lam : 'rV[F]_k) t : (t == 0%N) || (k <= t)%N -> perm_eq (kept lam t) (enum 'I_k).
Proof.
rewrite /kept => h; case: ifP h => _ //= h; first by rewrite perm_sort.
by rewrite (eqP h) drop0 perm_sort.
Qed.

(* Ritz pairs *)
Lemma ipE (u w : 'rV[F]_n) : ip u w = (u *m w^T) 0 0.
Proof. by rewrite mxE; apply: eq_bigr => i _; rewrite mxE. Qed.
Lemma ip_row m (W V : 'M[F]_(m, n)) i j : ip (row i W) (row j V) = (W *m V^T) i j.
Proof. by rewrite mxE; apply: eq_bigr => l _; rewrite !mxE. Qed.

Variable eigh : forall k, 'M[F]_k -> 'rV[F]_k * 'M[F]_k.

Lemma ritz_mx tol cols proj lam Q : A^T = A -> Fin (mulmx A) tol cols proj ->
  diagonalises (hermitian (appr cols)) (lam, Q) ->
  let W := Q^T *m basis (size cols) proj in
  W *m W^T = 1%:M /\ W *m A *m W^T = diag_mx lam.
Proof.
move=> sA fi [/= qq tq]; rewrite !trmx_mul trmxK; split.
  rewrite mulmxA -[_ *m (basis _ _)^T]mulmxA basis_gram ?mulmx1 //; by case: fi.
rewrite -!mulmxA [_ *m (_ *m Q)]mulmxA [basis _ _ *m (_ *m Q)]mulmxA [basis _ _ *m (_ *m _)]mulmxA.
by rewrite -(appr_proj fi) -(herm_appr sA fi) tq mulmxA qq mul1mx.
Qed.

Lemma distillE cols (proj : seq 'cV[F]_n) t : distill eigh cols proj t =
  [seq ((eigh (hermitian (appr cols))).1 0 i, row i ((eigh (hermitian (appr cols))).2^T *m basis (size cols) proj))
   | i <- kept (eigh (hermitian (appr cols))).1 t].
Proof. by rewrite /distill; case: eigh. Qed.

Lemma distill_ritz tol cols proj t : A^T = A -> Fin (mulmx A) tol cols proj ->
  diagonalises (hermitian (appr cols)) (eigh (hermitian (appr cols))) ->
  ritz_pairs A (distill eigh cols proj t).
Proof.
move=> sA fi dg; rewrite distillE; move: dg; set e := eigh _; case: e => lam Q /= dg.
have [w1 w2] := ritz_mx sA fi dg; set W := Q^T *m _ in w1 w2 *.
move=> i j; rewrite size_map => hi hj /=.
have [x0 _] : exists x : 'I_(size cols), true by case: (kept lam t) hi => [|x ?] //; exists x.
rewrite !(nth_map x0) //= -row_mul !ip_row w1 w2 !mxE nth_uniq ?kept_uniq //.
by split=> //; rewrite mulr_natl.
Qed.

(* solving in the span of the pairs *)
Lemma ip_suml (I : Type) (r : seq I) P (f : I -> 'rV[F]_n) w :
  ip (\sum_(i <- r | P i) f i) w = \sum_(i <- r | P i) ip (f i) w.
Proof. by rewrite ipE mulmx_suml summxE; apply: eq_bigr => i _; rewrite ipE. Qed.
Lemma ipZl a (u w : 'rV[F]_n) : ip (a *: u) w = a * ip u w.
Proof. by rewrite !ipE -scalemxAl mxE. Qed.
Lemma ipBl (u v w : 'rV[F]_n) : ip (u - v) w = ip u w - ip v w.
Proof. by rewrite !ipE mulmxBl !mxE. Qed.
Lemma ipC (u w : 'rV[F]_n) : ip u w = ip w u.
Proof. by apply: eq_bigr => i _; rewrite mulrC. Qed.

Lemma apply_galerkin (ps : seq (F * 'rV[F]_n)) v : ritz_pairs A ps ->
  if has (fun p => p.1 == 0) ps then arnoldi_apply ps v = None
  else exists2 x, arnoldi_apply ps v = Some x & galerkin A ps v x.
Proof.
move=> rz; rewrite /arnoldi_apply; case: ifP => nz; rewrite nz //.
eexists; first by []; split.
  exists (fun i => (v *m (nth (0, 0) ps i).2^T) 0 0 / (nth (0, 0) ps i).1).
  by rewrite (big_nth (0, 0)) big_mkord.
move=> p /(nthP (0, 0)) [j hj <-]; rewrite ipBl mulmx_suml ip_suml (big_nth (0, 0)) big_mkord.
rewrite (bigD1 (Ordinal hj)) //= [X in _ + X - _]big1 => [|i ne].
  rewrite addr0 -scalemxAl ipZl (rz _ _ hj hj).2 eqxx mul1r -ipE divfK ?subrr //.
  by apply: contraFN nz => z; apply/hasP; exists (nth (0, 0) ps j) => //; exact: mem_nth.
rewrite -scalemxAl ipZl (rz _ _ (ltn_ord i) hj).2.
have -> : ((i : nat) == j) = false by apply: contraNF ne => /eqP e; apply/eqP/val_inj.
by rewrite mul0r mulr0.
Qed.

(* exactness on an invariant subspace *)
Lemma inv_sub tol cols proj : Fin (mulmx A) tol cols proj -> A^T = A -> q proj (size cols) = 0 ->
  (basis (size cols) proj *m A <= basis (size cols) proj)%MS.
Proof.
move=> [sz o ol _ c] sA z; set P := basis _ _.
have qr (j : 'I_(size cols)) : (q proj j)^T = row j P by apply/rowP => l; rewrite !mxE.
have qs j : (j <= size cols)%N -> ((q proj j)^T <= P)%MS.
  rewrite leq_eqVlt => /orP [/eqP ->|hj]; first by rewrite z trmx0 sub0mx.
  by rewrite (qr (Ordinal hj)) row_sub.
apply/row_subP => j; rewrite row_mul -qr -{1}sA -trmx_mul.
have [s [s1 s2 ->] _] := c _ (ltn_ord j).
rewrite raddfD /= linear_sum /= addmx_sub //.
  apply: summx_sub => i _; rewrite linearZ /= scalemx_sub // qs //.
  exact: leq_trans (leq_ord i) (ltnW (ltn_ord j)).
by rewrite linearZ /= scalemx_sub // qs.
Qed.

Lemma span_sub k (proj : seq 'cV[F]_n) v : in_span k proj v -> (v <= basis k proj)%MS.
Proof.
move=> [c ->]; apply: summx_sub => i _; rewrite scalemx_sub //.
have -> : (q proj i)^T = row i (basis k proj) by apply/rowP => l; rewrite !mxE.
exact: row_sub.
Qed.

Lemma galerkin_exact tol cols proj t v x : A^T = A -> Fin (mulmx A) tol cols proj ->
  diagonalises (hermitian (appr cols)) (eigh (hermitian (appr cols))) ->
  q proj (size cols) = 0 -> (t == 0%N) || (size cols <= t)%N -> in_span (size cols) proj v ->
  galerkin A (distill eigh cols proj t) v x -> x *m A = v.
Proof.
move=> sA fi dg z ht hv [[cx xE] go]; have isub := inv_sub fi sA z; have vs := span_sub hv.
move: xE go; rewrite distillE; move: dg; set e := eigh _; case: e => lam Q /= dg.
set P := basis _ _ in isub vs *; set W := Q^T *m P => xE go.
have QQ : Q *m Q^T = 1%:M by case: dg => /mulmx1C.
have PE : P = Q *m W by rewrite mulmxA QQ mul1mx.
have ps : (W <= P)%MS by exact: submxMl.
have xs : (x <= P)%MS.
  rewrite xE; apply: summx_sub => i _; rewrite scalemx_sub //.
  move: (nat_of_ord i) (ltn_ord i); rewrite size_map => {}i hi.
  have [x0 _] : exists x : 'I_(size cols), true by case: (kept lam t) hi => [|y ?] //; exists y.
  by rewrite (nth_map x0) //=; apply: submx_trans ps; exact: row_sub.
have : (x *m A - v <= P)%MS.
  by rewrite addmx_sub // ?eqmx_opp //; apply: submx_trans isub; exact: submxMr.
move=> /submxP [b yE].
have yW : (x *m A - v) *m W^T = 0.
  apply/rowP => i; rewrite [RHS]mxE -(go (lam 0 i, row i W)).
    by rewrite mxE; apply: eq_bigr => l _; rewrite !mxE.
  apply: map_f; rewrite (perm_mem (kept_all lam ht)) mem_enum //.
have [ww _] := ritz_mx sA fi dg.
move: yW; rewrite yE PE mulmxA -[_ *m W *m _]mulmxA ww mulmx1 => bq.
by apply/eqP; rewrite -subr_eq0 yE PE mulmxA bq mul0mx.
Qed.

(* a complete basis *)
Lemma complete tol cols proj : 0 < tol -> Fin (mulmx A) tol cols proj -> size cols = n ->
  q proj (size cols) = 0 /\ forall v, in_span (size cols) proj v.
Proof.
move=> t0 [sz o ol _ _] e; have g := basis_gram o.
have pp : (basis (size cols) proj)^T *m basis (size cols) proj = 1%:M.
  by move: (basis _ _) g; rewrite e => P /mulmx1C.
split.
  suff: (q proj (size cols))^T = 0 by move/(congr1 trmx); rewrite trmxK trmx0.
  rewrite -[LHS]mulmx1 -pp mulmxA (_ : _ *m _^T = 0) ?mul0mx //.
  apply/rowP => i; rewrite [RHS]mxE mxE; apply: etrans (ol i (ltn_ord i)).
  by rewrite dotC dotE; apply: eq_bigr => l _; rewrite !mxE.
move=> v; exists (fun i => ip v (q proj i)^T).
rewrite -[LHS]mulmx1 -pp mulmxA mulmx_sum_row; apply: eq_bigr => i _; congr (_ *: _).
  by rewrite mxE; apply: eq_bigr => l _; rewrite !mxE.
by apply/rowP => l; rewrite !mxE.
Qed.

(* singular exactly when an eigenvalue vanishes *)
Lemma zero_ritz tol cols proj t : A^T = A -> Fin (mulmx A) tol cols proj -> size cols = n ->
  diagonalises (hermitian (appr cols)) (eigh (hermitian (appr cols))) ->
  (t == 0%N) || (size cols <= t)%N ->
  has (fun p => p.1 == 0) (distill eigh cols proj t) = (A \notin unitmx).
Proof.
move=> sA fi e dg ht; rewrite distillE; move: dg; set ee := eigh _; case: ee => lam Q /= dg.
have [w1 w2] := ritz_mx sA fi dg; move: w1 w2; set W := Q^T *m _ => w1 w2.
rewrite has_map (eq_has_r (perm_mem (kept_all lam ht))).
have -> : (A \notin unitmx) = (diag_mx lam \notin unitmx).
  rewrite -w2; move: (W) w1; rewrite e => V /mulmx1_unit [u1 u2].
  by rewrite !unitmx_mul u1 u2 andbT.
rewrite unitmxE det_diag unitfE; apply/hasP/idP => [[i _ /= z]|].
  by rewrite negbK; apply/prodf_eq0; exists i.
by rewrite negbK => /prodf_eq0 [i _ z]; exists i => //; rewrite mem_enum.
Qed.
End Sym.
