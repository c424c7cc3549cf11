(* Lemmas for the agreement of the influence-function attributors. *)
Set Warnings "-notation-overridden,-ambiguous-paths".
From mathcomp Require Import all_ssreflect all_algebra zify.
From Verif Require Import Py Tensor LinAlg FieldSupport AttrModel AttrProps IhvpModel IhvpSpec IhvpProof IhvpProps AgreeModel AgreeSpec.
Set Implicit Arguments. Unset Strict Implicit. Unset Printing Implicit Defensive.
Import GRing.Theory Num.Theory Order.Theory.
Local Open Scope ring_scope.
Require Import Field.

Section Scal.
Variable F : realFieldType.
Add Field agF : (@ffield F).
Lemma contract_id (a b c q : F) : a - (b * q + b * q) + c * (q * q) = (a - b * q) - q * (b - c * q).
Proof. by fnorm; ring. Qed.
Lemma sq_add (s a : F) : (s + a) ^+ 2 = s ^+ 2 + (s * a + s * a) + a ^+ 2.
Proof. by rewrite !expr2; fnorm; ring. Qed.
Lemma sq_step (m M : F) : m ^+ 2 * M + (m * M + m * M) + M = (m + 1) ^+ 2 * M.
Proof. by rewrite !expr2; fnorm; ring. Qed.
Lemma sum_sq (m : nat) (a : 'I_m -> F) (M : F) : 0 <= M -> (forall i, a i ^+ 2 <= M) -> (\sum_i a i) ^+ 2 <= m%:R ^+ 2 * M.
Proof.
move=> M0; elim: m a => [|m IH] a h; first by rewrite big_ord0 !expr2 !mul0r.
have -> : m.+1%:R = m%:R + 1 :> F by rewrite -addn1 natrD.
rewrite big_ord_recr /= sq_add -sq_step; set s := \sum_(_ < _) _.
have hs : s ^+ 2 <= m%:R ^+ 2 * M by apply: IH.
have hx : s * a ord_max <= m%:R * M.
  apply: (le_trans (ler_norm _)); have p : 0 <= m%:R * M by rewrite mulr_ge0 ?ler0n.
  rewrite -(@ler_pexpn2r _ 2) ?nnegrE ?normr_ge0 // -normrX ger0_norm ?sqr_ge0 //.
  have -> : (m%:R * M) ^+ 2 = m%:R ^+ 2 * M * M by rewrite exprMn [M ^+ 2]expr2 mulrA.
  by rewrite exprMn; apply: ler_pmul; rewrite ?sqr_ge0 ?h.
by apply: ler_add (h _); apply: ler_add => //; apply: ler_add.
Qed.
End Scal.

Section Spd.
Variables (F : realFieldType) (n : nat) (A : 'M[F]_n) (mu L : F).
Local Notation "<< u , v >>" := (IhvpModel.dot u v) (at level 0).
Hypotheses (sA : symmetric A) (mu0 : 0 < mu) (muL : mu <= L).
Hypothesis lo : forall w, mu * <<w, w>> <= <<w, A *m w>>.
Hypothesis hi : forall w, <<w, A *m w>> <= L * <<w, w>>.

Lemma L0 : 0 < L. Proof. exact: lt_le_trans mu0 muL. Qed.
Lemma e_ge0 w : 0 <= <<w, A *m w>>.
Proof. by apply: le_trans (lo w); rewrite mulr_ge0 ?dot_ge0 // ltW. Qed.
(* Cauchy-Schwarz for the form of a symmetric matrix without negative values *)
Lemma cs_gen (B : 'M[F]_n) u w : symmetric B -> (forall z, 0 <= <<z, B *m z>>) -> (<<w, B *m w>> = 0 -> <<u, B *m w>> = 0) ->
  <<u, B *m w>> ^+ 2 <= <<u, B *m u>> * <<w, B *m w>>.
Proof.
move=> sB p z0; case: (<<w, B *m w>> =P 0) => [e|/eqP ne]; first by rewrite z0 // e mulr0 expr2 mulr0.
have pw : 0 < <<w, B *m w>> by rewrite lt_def ne p.
have := p (<<w, B *m w>> *: u - <<u, B *m w>> *: w).
rewrite mulmxBr -!scalemxAr dotBl !dotBr !dotZl !dotZr.
have -> : <<w, B *m u>> = <<u, B *m w>> by rewrite (dot_sym _ _ sB) dotC.
move: (<<w, B *m w>>) (<<u, B *m w>>) (<<u, B *m u>>) pw => c b a c0.
have -> : c * (c * a) - c * (b * b) - (b * (c * b) - b * (b * c)) = c * (a * c - b ^+ 2).
  by rewrite [b * (b * c)]mulrA [b * (c * b)]mulrCA [c * (b * b)]mulrC subrr subr0 mulrBr expr2 [a * c]mulrC [b * b * c]mulrC.
by rewrite pmulr_rge0 // subr_ge0.
Qed.
Lemma dot1 (u w : 'cV[F]_n) : <<u, 1%:M *m w>> = <<u, w>>. Proof. by rewrite mul1mx. Qed.
Lemma cs (u w : 'cV[F]_n) : <<u, w>> ^+ 2 <= <<u, u>> * <<w, w>>.
Proof.
have := @cs_gen 1%:M u w (trmx1 _ _); rewrite !dot1; apply; first by move=> z; rewrite dot1 dot_ge0.
by move=> /eqP; rewrite dot_eq0 => /eqP ->; rewrite dot0r.
Qed.
Lemma csA u w : <<u, A *m w>> ^+ 2 <= <<u, A *m u>> * <<w, A *m w>>.
Proof.
apply: cs_gen => //; first exact: e_ge0.
move=> e; have : <<w, w>> == 0.
  have := lo w; rewrite e pmulr_rle0 // => h; by rewrite eq_le h dot_ge0.
by rewrite dot_eq0 => /eqP ->; rewrite mulmx0 dot0r.
Qed.
Lemma lo2 w : mu * <<w, A *m w>> <= <<A *m w, A *m w>>.
Proof.
case: (<<w, A *m w>> =P 0) => [->|/eqP ne]; first by rewrite mulr0 dot_ge0.
have p : 0 < <<w, A *m w>> by rewrite lt_def ne e_ge0.
rewrite -(ler_pmul2l p) mulrCA -expr2; apply: le_trans (_ : mu * (<<w, w>> * <<A *m w, A *m w>>) <= _).
  by rewrite ler_pmul2l // cs.
by rewrite mulrA ler_wpmul2r ?dot_ge0.
Qed.
Lemma hi2 w : <<A *m w, A *m w>> <= L * <<w, A *m w>>.
Proof.
have aw : <<w, A *m (A *m w)>> = <<A *m w, A *m w>> by rewrite dot_sym.
case: (<<A *m w, A *m w>> =P 0) => [->|/eqP ne]; first by rewrite mulr_ge0 ?e_ge0 // ltW // L0.
have p : 0 < <<A *m w, A *m w>> by rewrite lt_def ne dot_ge0.
rewrite -(ler_pmul2r p) -expr2 -{1}aw; apply: le_trans (csA _ _) _.
by rewrite [X in _ <= X * _]mulrC -mulrA ler_wpmul2l ?e_ge0 ?hi.
Qed.
Definition ctr : 'M[F]_n := 1%:M - L^-1 *: A.
Lemma ctrE (w : 'cV[F]_n) : ctr *m w = w - L^-1 *: (A *m w). Proof. by rewrite /ctr mulmxBl mul1mx -scalemxAl. Qed.
Lemma ctr_step w : <<ctr *m w, A *m (ctr *m w)>> <= (1 - mu / L) * <<w, A *m w>>.
Proof.
have li : 0 < L^-1 by rewrite invr_gt0 L0.
rewrite ctrE mulmxBr -scalemxAr dotBl !dotBr !dotZl !dotZr.
have -> : <<w, A *m (A *m w)>> = <<A *m w, A *m w>> by rewrite dot_sym.
set a := <<w, A *m w>>; set b := <<A *m w, A *m w>>; set c := <<A *m w, A *m (A *m w)>>.
have -> : a - L^-1 * b - (L^-1 * b - L^-1 * (L^-1 * c)) = a - (b * L^-1 + b * L^-1) + c * (L^-1 * L^-1).
  by rewrite opprB [L^-1 * b]mulrC [X in _ + X]addrC !addrA -[a - _ - _]addrA -opprD [L^-1 * (L^-1 * c)]mulrA [_ * c]mulrC.
rewrite contract_id; have h1 : 0 <= b - c / L.
  by rewrite subr_ge0 ler_pdivr_mulr ?L0 // mulrC hi.
apply: le_trans (_ : a - b / L <= _); first by rewrite ler_subl_addr ler_addl mulr_ge0 // ltW.
by rewrite mulrBl mul1r ler_add2l ler_opp2 mulrAC ler_pmul2r // lo2.
Qed.
Lemma ctr_iter k w : <<iter k (mulmx ctr) w, A *m iter k (mulmx ctr) w>> <= (1 - mu / L) ^+ k * <<w, A *m w>>.
Proof.
elim: k => [|k IH]; first by rewrite expr0 mul1r.
rewrite iterS; apply: le_trans (ctr_step _) _; rewrite exprS -mulrA ler_wpmul2l //.
by rewrite subr_ge0 ler_pdivr_mulr ?L0 // mul1r.
Qed.
Lemma q_ge0 : 0 <= 1 - mu / L. Proof. by rewrite subr_ge0 ler_pdivr_mulr ?L0 // mul1r. Qed.
Lemma spd_unit : A \in unitmx.
Proof.
apply: posdef_unit => w w0; have := lo w^T; rewrite /IhvpModel.dot trmxK mulmxA; apply: lt_le_trans.
rewrite mulr_gt0 //; have := dot_ge0 w^T; rewrite /IhvpModel.dot trmxK le_eqVlt => /orP [|//].
rewrite eq_sym -[_ == 0]/(((w *m w^T) 0 0) == 0) => h; case/negP: w0; rewrite -(inj_eq (@trmx_inj _ _ _)) trmx0.
by rewrite -dot_eq0 /IhvpModel.dot trmxK.
Qed.
Lemma spd_posdef : posdef A.
Proof.
move=> w w0; have := lo w^T; rewrite /IhvpModel.dot trmxK mulmxA; apply: lt_le_trans.
rewrite mulr_gt0 // lt_def; have := dot_ge0 w^T; rewrite /IhvpModel.dot trmxK => -> ; rewrite andbT.
by apply: contra w0 => h; rewrite -(inj_eq (@trmx_inj _ _ _)) trmx0 -dot_eq0 /IhvpModel.dot trmxK.
Qed.
Lemma len_le w : <<w, w>> <= mu^-1 * <<w, A *m w>>.
Proof. by rewrite mulrC ler_pdivl_mulr // mulrC. Qed.

(* conjugate gradient *)
Lemma cg_close v xs x k : A *m xs = v -> cg1 (mulmx A) k v = Some x ->
  <<xs - x, xs - x>> <= mu^-1 ^+ 2 * (1 + L ^+ 2) * (1 - mu / L) ^+ k * <<v, v>>.
Proof.
move=> hx hc; have [_ best] := C10_cg_optimal sA spd_posdef hx hc.
pose e j := iter j (mulmx ctr) (xs - v).
have kr j : krylov A (v - A *m v) j (xs - v - e j).
  elim: j => [|j IH]; first by rewrite /e /= subrr; exact: kr_zero.
  have -> : xs - v - e j.+1 = (xs - v - e j) + L^-1 *: ((v - A *m v) + - 1 *: (A *m (xs - v - e j))).
    rewrite scaleN1r {1}/e iterS -/(e j) ctrE opprB addrA addrAC; congr (_ + _ *: _).
    by rewrite [in RHS]mulmxBr [A *m (xs - v)]mulmxBr hx opprB addrC subrK.
  apply: kr_add; first by apply: krylov_le IH.
  by apply: kr_scale; apply: kr_add; [exact: kr_start|apply: kr_scale; apply: kr_mul].
have := best _ (kr k); have -> : xs - (v + (xs - v - e k)) = e k.
  by rewrite [v + _]addrC addrAC subrK opprB addrC subrK.
rewrite !energyE => h.
apply: le_trans (len_le _) _; rewrite expr2 -!mulrA ler_pmul2l ?invr_gt0 //.
apply: (le_trans h); apply: le_trans (ctr_iter _ _) _.
have aw : A *m (xs - v) = v - A *m v by rewrite mulmxBr hx.
have b1 : <<xs - v, A *m (xs - v)>> <= mu^-1 * ((1 + L ^+ 2) * <<v, v>>).
  rewrite [mu^-1 * _]mulrC ler_pdivl_mulr // mulrC; apply: le_trans (lo2 _) _; rewrite aw dotBl !dotBr.
  have -> : <<A *m v, v>> = <<v, A *m v>> by rewrite dotC.
  rewrite mulrDl mul1r -[X in X <= _]addrA ler_add2l; apply: le_trans (_ : <<A *m v, A *m v>> <= _).
    by rewrite opprB addrCA ger_addl -opprD oppr_le0 addr_ge0 ?e_ge0.
  by apply: le_trans (hi2 _) _; rewrite expr2 -mulrA ler_pmul2l ?L0 // hi.
by rewrite [(1 + _) * (_ * _)]mulrCA [mu^-1 * (_ * _)]mulrCA ler_wpmul2l // exprn_ge0 // q_ge0.
Qed.
(* the Neumann series with scaling L *)
Lemma neumann_close v xs T x : A *m xs = v -> x = L^-1 *: neumann ctr T v ->
  <<xs - x, xs - x>> <= mu^-1 ^+ 2 * (1 - mu / L) ^+ T.+1 * <<v, v>>.
Proof.
move=> hx xE; have cA (w : 'cV[F]_n) : A *m (ctr *m w) = ctr *m (A *m w) by rewrite !ctrE mulmxBr -scalemxAr.
have cAi k (w : 'cV[F]_n) : A *m iter k (mulmx ctr) w = iter k (mulmx ctr) (A *m w) by elim: k => //= k IH; rewrite cA IH.
have ax : A *m x = v - iter T.+1 (mulmx ctr) v.
  have L1 : L != 0 by rewrite gt_eqF // L0.
  rewrite -neumann_residual xE -scalemxAr scalemxAl; congr (_ *m _).
  by rewrite /ctr opprB addrC subrK.
have ex : xs - x = iter T.+1 (mulmx ctr) xs.
  apply: (can_inj (mulKmx spd_unit)); rewrite mulmxBr ax hx opprB addrC subrK cAi hx //.
rewrite ex; apply: le_trans (len_le _) _; rewrite expr2 -!mulrA ler_pmul2l ?invr_gt0 //.
apply: le_trans (ctr_iter _ _) _; rewrite [X in _ <= X]mulrCA ler_wpmul2l ?exprn_ge0 ?q_ge0 //.
by rewrite [X in _ <= X]mulrC ler_pdivl_mulr // mulrC -hx lo2.
Qed.
End Spd.
