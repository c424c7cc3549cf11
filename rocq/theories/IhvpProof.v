(* Lemmas for the inverse Hessian product theorems. *)
Set Warnings "-notation-overridden,-ambiguous-paths".
From mathcomp Require Import all_ssreflect all_algebra zify.
Require Import Field.
From Verif Require Import Py Tensor TensorProof FieldSupport LinAlg IhvpModel IhvpSpec.
Set Implicit Arguments. Unset Strict Implicit. Unset Printing Implicit Defensive.
Import Order.TTheory GRing.Theory Num.Theory.
Local Open Scope ring_scope.

Section Dot.
Variables (F : fieldType) (n : nat).
Implicit Types (u v w : 'cV[F]_n).
Local Notation "<< u , v >>" := (dot u v) (at level 0).

Lemma dotE u v : <<u, v>> = \sum_k u k 0 * v k 0.
Proof. by rewrite /dot mxE; apply: eq_bigr => k _; rewrite mxE. Qed.
Lemma dotC u v : <<u, v>> = <<v, u>>.
Proof. by rewrite !dotE; apply: eq_bigr => k _; rewrite mulrC. Qed.
Lemma dotDl u v w : <<u + v, w>> = <<u, w>> + <<v, w>>.
Proof. by rewrite /dot linearD mulmxDl mxE. Qed.
Lemma dotDr u v w : <<w, u + v>> = <<w, u>> + <<w, v>>.
Proof. by rewrite dotC dotDl !(dotC w). Qed.
Lemma dotNl u v : <<- u, v>> = - <<u, v>>.
Proof. by rewrite /dot linearN mulNmx mxE. Qed.
Lemma dotNr u v : <<u, - v>> = - <<u, v>>.
Proof. by rewrite dotC dotNl dotC. Qed.
Lemma dotBl u v w : <<u - v, w>> = <<u, w>> - <<v, w>>.
Proof. by rewrite dotDl dotNl. Qed.
Lemma dotBr u v w : <<w, u - v>> = <<w, u>> - <<w, v>>.
Proof. by rewrite dotDr dotNr. Qed.
Lemma dotZl a u v : <<a *: u, v>> = a * <<u, v>>.
Proof. by rewrite /dot linearZ -scalemxAl mxE. Qed.
Lemma dotZr a u v : <<u, a *: v>> = a * <<u, v>>.
Proof. by rewrite dotC dotZl dotC. Qed.
Lemma dot0l v : <<0, v>> = 0. Proof. by rewrite /dot trmx0 mul0mx mxE. Qed.
Lemma dot0r v : <<v, 0>> = 0. Proof. by rewrite dotC dot0l. Qed.
Lemma dot_sym (A : 'M[F]_n) u v : A^T = A -> <<u, A *m v>> = <<A *m u, v>>.
Proof. by move=> sA; rewrite /dot trmx_mul sA mulmxA. Qed.
End Dot.

Lemma dot_eq0 (F : realFieldType) n (u : 'cV[F]_n) : (dot u u == 0) = (u == 0).
Proof.
have := sqnorm_eq0 u^T; rewrite trmxK -/(dot u u) => ->.
by rewrite -(inj_eq (@trmx_inj _ _ _)) trmx0 trmxK -(inj_eq (@trmx_inj _ _ _)) trmx0.
Qed.
Lemma dot_ge0 (F : realFieldType) n (u : 'cV[F]_n) : 0 <= dot u u.
Proof. by have := sqnorm_ge0 u^T; rewrite trmxK. Qed.

(* pairwise orthogonal non-zero vectors: at most n of them *)
Lemma ortho_card (F : realFieldType) n k (r : 'I_k -> 'cV[F]_n) :
  (forall i, r i != 0) -> (forall i j, i != j -> dot (r i) (r j) = 0) -> (k <= n)%N.
Proof.
move=> nz ort; pose M : 'M[F]_(k, n) := \matrix_(i, j) r i j 0.
have G : M *m M^T = diag_mx (\row_i dot (r i) (r i)).
  apply/matrixP => i j; rewrite !mxE; have [<-|ne] := eqVneq i j.
    by rewrite mulr1n dotE; apply: eq_bigr => l _; rewrite !mxE.
  by rewrite mulr0n; apply: etrans (ort _ _ ne); rewrite dotE; apply: eq_bigr => l _; rewrite !mxE.
have U : M *m M^T \in unitmx.
  rewrite G unitmxE det_diag unitfE; apply/prodf_neq0 => i _; by rewrite mxE dot_eq0.
have : (\rank (M *m M^T) <= n)%N.
  by apply: leq_trans (mxrankM_maxl _ _) _; exact: rank_leq_col.
by rewrite (mxrank_unit U).
Qed.

(* ---- conjugate gradient ---- *)
Section CGproof.
Variables (F : realFieldType) (n : nat) (A : 'M[F]_n).
Hypothesis sA : symmetric A.
Hypothesis pA : posdef A.
Add Field mcF : (@ffield F).
Local Notation "<< u , v >>" := (dot u v) (at level 0).
Notation hv := (mulmx A).

Lemma Apos (d : 'cV[F]_n) : d != 0 -> 0 < <<d, A *m d>>.
Proof.
move=> d0; have := pA (v := d^T); rewrite trmxK -mulmxA; apply.
by rewrite -trmx0 (inj_eq (@trmx_inj _ _ _)).
Qed.

(* total version of the iteration: x/0 = 0 *)
Definition tstep (s : cgst F n) : cgst F n :=
  let alpha := <<cg_g s, cg_g s>> / <<cg_d s, A *m cg_d s>> in
  let g := cg_g s - alpha *: (A *m cg_d s) in
  CG (cg_x s + alpha *: cg_d s) g (g + (<<g, g>> / <<cg_g s, cg_g s>>) *: cg_d s).
Variable v : 'cV[F]_n.
Definition tst k := iter k tstep (cg_init hv v).
Notation x k := (cg_x (tst k)).
Notation g k := (cg_g (tst k)).
Notation d k := (cg_d (tst k)).
Definition al k := <<g k, g k>> / <<d k, A *m d k>>.
Definition be k := <<g k.+1, g k.+1>> / <<g k, g k>>.

Lemma gS k : g k.+1 = g k - al k *: (A *m d k). Proof. by []. Qed.
Lemma dS k : d k.+1 = g k.+1 + be k *: d k. Proof. by []. Qed.
Lemma xS k : x k.+1 = x k + al k *: d k. Proof. by []. Qed.

Lemma res_inv k : g k = v - A *m x k.
Proof.
elim: k => // k IH; rewrite gS xS {1}IH mulmxDr -scalemxAr opprD addrA //.
Qed.

Definition inv k : Prop :=
  [/\ forall i, (i < k)%N -> <<g k, g i>> = 0,
      forall i, (i < k)%N -> <<d k, A *m d i>> = 0
    & <<g k, d k>> = <<g k, g k>> ].

Lemma all_inv m : (forall i, (i < m)%N -> g i != 0) -> forall k, (k <= m)%N -> inv k.
Proof.
move=> nz k; elim/ltn_ind: k => k IH hk.
case: k => [|k] in IH hk *; first by split.
have hk1 : (k < m)%N by lia.
have [o c e] := IH k (ltnSn k) (ltnW hk).
have gk0 := nz _ hk1; have ggk0 : <<g k, g k>> != 0 by rewrite dot_eq0.
have dnz i : (i <= k)%N -> d i != 0.
  move=> hi; have [_ _ e'] := IH i hi (ltac:(lia)).
  apply: contraTneq isT => d0; move: e'; rewrite d0 dot0r => /esym/eqP; rewrite dot_eq0.
  by rewrite (negbTE (nz _ _)) //; lia.
have pk := Apos (dnz k (leqnn k)); have pk0 := lt0r_neq0 pk.
have aln i : (i <= k)%N -> al i != 0.
  move=> hi; rewrite /al mulf_neq0 ?dot_eq0 ?nz ?invr_eq0 ?lt0r_neq0 ?Apos ?dnz //; lia.
have Adi i : (i <= k)%N -> A *m d i = (al i)^-1 *: (g i - g i.+1).
  by move=> hi; rewrite gS opprB addrCA subrr addr0 scalerA mulVf ?aln // scale1r.
(* g_k . A d_k = d_k . A d_k *)
have gAd : <<g k, A *m d k>> = <<d k, A *m d k>>.
  case: k => [//|k'] in hk hk1 o c e gk0 ggk0 dnz pk pk0 aln Adi IH *.
  have -> : g k'.+1 = d k'.+1 - be k' *: d k' by rewrite dS addrK.
  by rewrite dotBl dotZl (dot_sym (d k') _ sA) (dotC (A *m d k')) (c k') // mulr0 subr0.
have alk : al k * <<d k, A *m d k>> = <<g k, g k>> by rewrite /al divfK.
have O i : (i < k.+1)%N -> <<g k.+1, g i>> = 0.
  rewrite ltnS leq_eqVlt => /orP [/eqP ->|hi].
    by rewrite gS dotBl dotZl (dotC (A *m d k)) gAd alk subrr.
  rewrite gS dotBl dotZl o // sub0r.
  suff -> : <<A *m d k, g i>> = 0 by rewrite mulr0 oppr0.
  case: i hi => [|i] hi.
    by rewrite -(dot_sym _ _ sA) (c 0%N hi).
  have -> : g i.+1 = d i.+1 - be i *: d i by rewrite dS addrK.
  by rewrite dotBr dotZr -!(dot_sym _ _ sA) !c ?mulr0 ?subrr //; lia.
have DE : <<g k.+1, d k>> = 0.
  rewrite gS dotBl dotZl (dotC (A *m d k)) alk e subrr //.
split=> [|i|]; first exact: O.
  rewrite ltnS leq_eqVlt => /orP [/eqP ->|hi]; rewrite dS dotDl dotZl.
    rewrite {1}Adi // dotZr dotBr O // sub0r /be /al.
    by fnorm; field; split; apply/eqP.
  have o1 : <<g k.+1, g i>> = 0 by apply: O; lia.
  have o2 : <<g k.+1, g i.+1>> = 0 by apply: O; lia.
  by rewrite c // mulr0 addr0 Adi 1?ltnW // dotZr dotBr o1 o2 subrr mulr0.
by rewrite dS dotDr dotZr DE mulr0 addr0.
Qed.

Lemma cg_loopSr k (s : cgst F n) : cg_loop hv k.+1 s = obind (cg_step hv) (cg_loop hv k s).
Proof.
elim: k s => [|k IH] s; first by rewrite /=; case: cg_step.
rewrite -[RHS]/(obind (cg_step hv) (obind (cg_loop hv k) (cg_step hv s))).
rewrite -[LHS]/(obind (cg_loop hv k.+1) (cg_step hv s)); case: (cg_step hv s) => //= s'; exact: IH.
Qed.

Lemma dk0 m : (forall i, (i < m)%N -> g i != 0) -> forall k, (k < m)%N -> d k != 0.
Proof.
move=> nz k hk; have [_ _ e] := all_inv nz (ltnW hk).
apply: contraTneq isT => d0; move: e; rewrite d0 dot0r => /esym/eqP; rewrite dot_eq0.
by rewrite (negbTE (nz _ hk)).
Qed.

Lemma loopE k : (forall i, (i < k)%N -> g i != 0) -> cg_loop hv k (cg_init hv v) = Some (tst k).
Proof.
elim: k => // k IH nz; rewrite cg_loopSr IH => [|i hi]; last by apply: nz; lia.
have p := lt0r_neq0 (Apos (dk0 nz (ltnSn k))).
by rewrite /= /cg_step (negbTE p) dot_eq0 (negbTE (nz k _)).
Qed.

Lemma loop_stop k : (forall i, (i < k)%N -> g i != 0) -> g k = 0 ->
  forall j, (k < j)%N -> cg_loop hv j (cg_init hv v) = None.
Proof.
move=> nz gk j; elim: j => // j IH; rewrite ltnS leq_eqVlt => /orP [/eqP <-|h].
  rewrite cg_loopSr loopE //= /cg_step.
  have -> : d k = 0.
    case: k nz gk {IH} => [//|k] nz gk; rewrite dS gk add0r /be gk dot0l mul0r scale0r //.
  by rewrite mulmx0 dot0l eqxx.
by rewrite cg_loopSr IH.
Qed.

Lemma stop_ex : exists2 k, (k <= n)%N & g k = 0 /\ forall i, (i < k)%N -> g i != 0.
Proof.
have [/existsP [k0 /eqP h0]|] := boolP [exists k : 'I_n.+1, g k == 0]; last first.
  rewrite negb_exists => /forallP h.
  have nz i : (i < n.+1)%N -> g i != 0 by move=> hi; have := h (Ordinal hi).
  suff : (n.+1 <= n)%N by rewrite ltnn.
  apply: (@ortho_card _ _ _ (fun i : 'I_n.+1 => g i)) => [i|i j]; first exact: nz.
  rewrite neq_ltn => /orP [] hij.
    have [o _ _] := all_inv nz (ltnW (ltn_ord j)); rewrite dotC; exact: o.
  have [o _ _] := all_inv nz (ltnW (ltn_ord i)); exact: o.
have ex : exists k, g k == 0 by exists k0; rewrite h0.
case: (ex_minnP ex) => k /eqP gk mn; exists k.
  by apply: leq_trans (mn k0 _) _; rewrite ?h0 // -ltnS ltn_ord.
by split=> // i hi; apply: contraTneq hi => g0; rewrite -leqNgt; apply: mn; rewrite g0.
Qed.

Lemma energyE (e : 'cV[F]_n) : energy A e = <<e, A *m e>>.
Proof. by rewrite /energy /dot mulmxA. Qed.

Lemma energy_step xs k : A *m xs = v -> (forall i, (i < k.+1)%N -> g i != 0) ->
  energy A (xs - x k.+1) = energy A (xs - x k) - al k * <<g k, g k>> /\ 0 < al k * <<g k, g k>>.
Proof.
move=> hx nz; have gk := nz k (ltnSn k).
have dk := dk0 nz (ltnSn k); have p := Apos dk.
have gg : 0 < <<g k, g k>> by rewrite lt_def dot_eq0 gk dot_ge0.
split; last by rewrite mulr_gt0 ?divr_gt0.
have [_ _ e] := all_inv nz (leqnSn k).
have gE : A *m (xs - x k) = g k by rewrite mulmxBr hx res_inv.
rewrite !energyE xS opprD addrA mulmxBr -scalemxAr gE.
move: (xs - x k) gE => ee gE.
rewrite !dotBl !dotBr !dotZl !dotZr (dot_sym ee _ sA) gE (dotC (d k) (g k)) e.
have -> : al k * <<d k, A *m d k>> = <<g k, g k>> by rewrite /al divfK ?lt0r_neq0.
by rewrite subrr subr0.
Qed.

(* optimality over the Krylov space *)
Lemma krylov_le r (w : 'cV[F]_n) k j : (k <= j)%N -> krylov A r k w -> krylov A r j w.
Proof.
move=> le h; elim: h j le => {k w}.
- by move=> *; exact: kr_zero.
- by move=> k [|j] // _; exact: kr_start.
- by move=> k u w _ IHu _ IHw j le; apply: kr_add; [exact: IHu|exact: IHw].
- by move=> k c u _ IH j le; apply: kr_scale; exact: IH.
- by move=> k u _ IH [|j] // le; apply: kr_mul; exact: IH.
Qed.

Lemma krylov_gd k : krylov A (g 0) k.+1 (g k) /\ krylov A (g 0) k.+1 (d k).
Proof.
elim: k => [|k [IHg IHd]]; first by split; exact: kr_start.
have hg : krylov A (g 0) k.+2 (g k.+1).
  rewrite gS -scaleNr; apply: kr_add; first exact: krylov_le IHg.
  by apply: kr_scale; exact: kr_mul.
split=> //; rewrite dS; apply: kr_add => //; apply: kr_scale; exact: krylov_le IHd.
Qed.

Lemma krylov_x k : krylov A (g 0) k (x k - v).
Proof.
elim: k => [|k IH]; first by rewrite subrr; exact: kr_zero.
rewrite xS addrAC; apply: kr_add; first exact: krylov_le IH.
by apply: kr_scale; case: (krylov_gd k).
Qed.

Lemma Ag m u j : (forall i, (i < m)%N -> g i != 0) -> (j.+1 < m.+1)%N ->
  (forall i, (i <= j.+1)%N -> <<u, g i>> = 0) -> <<u, A *m g j>> = 0.
Proof.
move=> nz hj hu.
have Adi i : (i <= j)%N -> <<u, A *m d i>> = 0.
  move=> hi; have an : al i != 0.
    rewrite mulf_neq0 ?invr_eq0 ?lt0r_neq0 ?Apos ?(dk0 nz) //; try lia.
    by rewrite lt_def dot_eq0 nz ?dot_ge0 //; lia.
  have -> : A *m d i = (al i)^-1 *: (g i - g i.+1).
    by rewrite gS opprB addrCA subrr addr0 scalerA mulVf // scale1r.
  by rewrite dotZr dotBr !hu ?subrr ?mulr0 //; lia.
case: j hj hu Adi => [|j] hj hu Adi; first exact: (Adi 0%N).
have -> : g j.+1 = d j.+1 - be j *: d j by rewrite dS addrK.
by rewrite mulmxBr -scalemxAr dotBr dotZr !Adi ?mulr0 ?subrr.
Qed.

Lemma krylov_ortho m k w : (forall i, (i < m)%N -> g i != 0) -> (k <= m)%N ->
  krylov A (g 0) k w -> forall u, (forall i, (i < k)%N -> <<u, g i>> = 0) -> <<u, w>> = 0.
Proof.
move=> nz hk h; elim: h hk => {k w}.
- by move=> k _ u _; rewrite dot0r.
- by move=> k _ u hu; exact: hu.
- by move=> k u w _ IHu _ IHw hk z hz; rewrite dotDr IHu ?IHw ?addr0.
- by move=> k c u _ IH hk z hz; rewrite dotZr IH ?mulr0.
- move=> k u _ IH hk z hz; rewrite (dot_sym _ _ sA); apply: IH; first by lia.
  move=> j hj; rewrite -(dot_sym _ _ sA); apply: (Ag (m := m)) => // [|i hi]; first by lia.
  by apply: hz; lia.
Qed.

Lemma cg_best xs m k y : A *m xs = v -> (forall i, (i < m)%N -> g i != 0) -> (k <= m)%N ->
  krylov A (g 0) k y -> energy A (xs - x k) <= energy A (xs - (v + y)).
Proof.
move=> hx nz hk hy; set z := (x k - v) - y.
have kz : krylov A (g 0) k z.
  by apply: kr_add; [exact: krylov_x|rewrite -scaleN1r; exact: kr_scale].
have gz : <<g k, z>> = 0.
  have [o _ _] := all_inv nz hk; exact: (krylov_ortho nz hk kz).
have gE : A *m (xs - x k) = g k by rewrite mulmxBr hx res_inv.
have -> : xs - (v + y) = (xs - x k) + z.
  by rewrite /z opprD [RHS]addrA [_ + (x k - v)]addrA subrK addrA.
move: (xs - x k) gE z kz gz => ee gE z kz gz.
rewrite !energyE mulmxDr gE dotDl !dotDr (dot_sym ee _ sA) gE (dotC z) gz.
rewrite add0r addr0 ler_addl; have [->|z0] := eqVneq z 0; first by rewrite dot0l.
exact: ltW (Apos z0).
Qed.
End CGproof.

(* ---- hvp, explicit inverse ---- *)
Lemma patched_same (F : fieldType) k (dims : 'I_k -> nat) a (v : 'cV[F]_(dims a)) : patched v a = v.
Proof.
rewrite /patched; case: {-}_ / altP => [e|/eqP //].
by rewrite castmx_id.
Qed.
Lemma patched_other (F : fieldType) k (dims : 'I_k -> nat) a (v : 'cV[F]_(dims a)) i :
  i != a -> patched v i = 0.
Proof. by move=> ne; rewrite /patched; case: {-}_ / altP => // e; case/eqP: ne. Qed.

Lemma patched_sum (F : fieldType) k (dims : 'I_k -> nat) a (J : forall i : 'I_k, 'M[F]_(dims a, dims i))
    (v : 'cV[F]_(dims a)) : \sum_(i < k) J i *m patched v i = J a *m v.
Proof.
rewrite (bigD1 a) //= patched_same big1 ?addr0 // => i ia.
by rewrite patched_other // mulmx0.
Qed.

(* ---- LiSSA ---- *)
Section LissaProof.
Variables (F : fieldType) (n : nat) (d s : F) (vec : 'cV[F]_n).
Definition contraction (H : 'M[F]_n) : 'M[F]_n := (1 - d)%:M - s^-1 *: H.

Lemma lissa_stepE H cur : lissa_step d s vec H cur = vec + contraction H *m cur.
Proof. by rewrite /lissa_step /contraction mulmxBl mul_scalar_mx -scalemxAl addrA. Qed.

Lemma neumannS (A : 'M[F]_n) T : neumann A T.+1 vec = vec + A *m neumann A T vec.
Proof. by rewrite /neumann big_ord_recl mulmx_sumr. Qed.

Lemma iotaS_rcons m k : iota m k.+1 = rcons (iota m k) (m + k)%N.
Proof. by rewrite -addn1 iotaD cats1. Qed.

Lemma lissa_fold H T a : (forall t, H t = a) ->
  foldl (fun cur t => lissa_step d s vec (H t) cur) vec (iota 0 T) = neumann (contraction a) T vec.
Proof.
move=> hH; elim: T => [|T IH]; first by rewrite /neumann big_ord1.
by rewrite iotaS_rcons -cats1 foldl_cat IH /= lissa_stepE hH neumannS.
Qed.

Lemma neumann_residual (A : 'M[F]_n) T :
  (1%:M - A) *m neumann A T vec = vec - iter T.+1 (mulmx A) vec.
Proof.
elim: T => [|T IH]; first by rewrite /neumann big_ord1 mulmxBl mul1mx.
rewrite neumannS mulmxDr mulmxA.
have -> : (1%:M - A) *m A = A *m (1%:M - A) by rewrite mulmxBl mulmxBr mul1mx mulmx1.
rewrite -mulmxA IH mulmxBr mulmxBl mul1mx [RHS]/= addrA subrK //.
Qed.

Lemma iter_eigen (A : 'M[F]_n) mu k : A *m vec = mu *: vec -> iter k (mulmx A) vec = mu ^+ k *: vec.
Proof.
move=> h; elim: k => [|k IH]; first by rewrite expr0 scale1r.
by rewrite iterS IH -scalemxAr h scalerA -exprSr.
Qed.

(* the estimate for a random sequence of Hessians *)
Definition run (hs : seq 'M[F]_n) := foldl (fun cur H => lissa_step d s vec H cur) vec hs.

Lemma size_draws (A : Type) (Hs : seq A) T : size (draws Hs T) = (size Hs ^ T)%N.
Proof. by elim: T => //= T IH; rewrite size_allpairs IH -expnSr. Qed.

Lemma average_run Hs T : (size Hs)%:R != 0 :> F ->
  average [seq run hs | hs <- draws Hs T] = neumann (contraction (average Hs)) T vec.
Proof.
move=> nz; elim: T => [|T IH].
  by rewrite /average /= big_cons big_nil addr0 invr1 scale1r /neumann big_ord1.
rewrite neumannS -IH {IH}.
rewrite {1 3}/average !size_map !size_draws expnSr !big_map [draws _ T.+1]/= big_allpairs_dep /=.
have inner hs : \sum_(h <- Hs) run (rcons hs h)
    = (size Hs)%:R *: vec + (size Hs)%:R *: (contraction (average Hs) *m run hs).
  transitivity (\sum_(h <- Hs) (vec + contraction h *m run hs)).
    by apply: eq_bigr => h _; rewrite /run foldl_rcons lissa_stepE.
  rewrite big_split /= big_const_seq count_predT iter_addr_0 scaler_nat; congr (_ + _).
  rewrite -mulmx_suml scalemxAl; congr (_ *m _).
  rewrite /contraction sumrB big_const_seq count_predT iter_addr_0 scalerBr scaler_nat; congr (_ - _).
  by rewrite -scaler_sumr /average !scalerA mulrAC mulfV // mul1r.
transitivity (((size Hs ^ T * size Hs)%N%:R)^-1 *: \sum_(i <- draws Hs T)
    ((size Hs)%:R *: vec + (size Hs)%:R *: (contraction (average Hs) *m run i))).
  by congr (_ *: _); apply: eq_bigr => hs _; exact: inner.
have pn : (size Hs ^ T)%N%:R != 0 :> F by rewrite natrX expf_neq0.
rewrite big_split /= big_const_seq count_predT iter_addr_0 size_draws -scaler_sumr -mulmx_sumr.
rewrite scalerDr -scaler_nat !scalerA natrM invfM; congr (_ + _).
  by rewrite -invfM mulVf ?scale1r // mulf_neq0.
by rewrite divfK // -scalemxAr.
Qed.
End LissaProof.

(* ---- input sizes ---- *)
Lemma check_input_sizeP (shapes : seq (seq nat)) (dims : seq (option nat)) b :
  check_input_size shapes (Some dims) = Ok b <->
  size dims = size shapes /\
  (forall i d, nth None dims i = Some d -> (d < size (nth [::] shapes i))%N /\ nth 0%N (nth [::] shapes i) d = b) /\
  (all (fun d => d == None) dims -> b = 1%N).
Proof.
rewrite /check_input_size [odflt _ _]/=; case: eqP => [sz|ne]; last by split=> // [] [].
set f := (fun b sd => _) => /=.
pose ok (dm : seq (option nat)) (sh : seq (seq nat)) c := forall i d, nth None dm i = Some d ->
  (d < size (nth [::] sh i))%N /\ nth 0%N (nth [::] sh i) d = c.
have G (dm : seq (option nat)) (sh : seq (seq nat)) st r : size dm = size sh ->
    rfold f st (zip sh dm) = Ok r <->
    match r with
    | Some c => ok dm sh c /\ (if st is Some c0 then c = c0 else ~~ all (fun d => d == None) dm)
    | None => st = None /\ all (fun d => d == None) dm
    end.
  elim: dm sh st r => [|d dm IH] [|s0 sh] st r //= => [_|[szs]].
    case: r => [c|]; split.
    - by move=> [->]; split=> // i d; rewrite nth_nil.
    - by case=> _; case: st => // c0 ->.
    - by move=> [->].
    - by case=> ->.
  have okc c : ok (d :: dm) (s0 :: sh) c <->
      (forall d', d = Some d' -> (d' < size s0)%N /\ nth 0%N s0 d' = c) /\ ok dm sh c.
    split=> [h|[h1 h2] [|i] d' //=]; last exact: h2.
      by split=> [d' e|i d' e]; [exact: (h 0%N) | exact: (h i.+1)].
    exact: h1.
  case: d okc => [d|] okc; rewrite {1}/f /=; last first.
    rewrite IH //; case: r => [c|] //; rewrite okc; split=> [[h1 h2]|[[_ h1] h2]]; by split.
  case: ltnP => hd; last first.
    split=> //; case: r => [c|[]] //; rewrite okc => [] [[h _] _].
    by have [] := h d erefl; rewrite ltnNge hd.
  case: st => [c0|] /=.
    case: eqP => [e0|ne] /=.
      rewrite IH //; case: r => [c|]; last by split=> [] [].
      rewrite okc; split=> [[h1 h2]|[[h0 h1] h2]]; split=> //; split=> // d' [<-].
      by rewrite h2.
    split=> //; case: r => [c|[]] //; rewrite okc => [] [[h _] e].
    by have [_] := h d erefl; rewrite e => /esym.
  rewrite IH //; case: r => [c|]; last by split=> [] [].
  rewrite okc; split=> [[h1 h2]|[[h0 h1] _]]; last by split=> //; have [_ ->] := h0 d erefl.
  by split=> //; split=> // d' [<-]; rewrite h2.
case E : (rfold f None (zip shapes dims)) => [r|e] /=.
  have [/(_ E) h _] := G dims shapes None r sz; case: r E h => [c|] E /= [h1 h2].
    split=> [[<-]|[_ [h3 h4]]]; first by split=> //; split=> //; rewrite (negbTE h2).
    congr Ok; move: h2; rewrite -has_predC => /(has_nthP None) [i hi] /=.
    case ei : (nth None dims i) => [d|] // _.
    by have [_ <-] := h1 _ _ ei; have [_ <-] := h3 _ _ ei.
  split=> [[<-]|[_ [_ /(_ h2) ->]] //]; split=> //; split=> // i d ei.
  have hi : (i < size dims)%N by rewrite ltnNge; apply/negP => le; rewrite nth_default in ei.
  by move/allP: h2 => /(_ _ (mem_nth None hi)); rewrite ei.
split=> // [] [_ [h3 h4]].
have [a2|a2] := boolP (all (fun d => d == None) dims).
  have [_ /(_ (conj erefl a2))] := G dims shapes None None sz; by rewrite E.
have [_] := G dims shapes None (Some b) sz; rewrite E => H; by have := H (conj h3 a2).
Qed.

(* ---- sums over batches ---- *)
Section IFproof.
Variables (F : fieldType) (n m : nat) (X : Type).
Lemma if_transform_sum (inv : seq X -> 'M[F]_(m, n) -> res 'M[F]_(m, n)) (f : seq X -> 'M[F]_(m, n))
    (l : loader X) rep :
  (forall k, (k < nbatches l)%N -> inv (batch l k) rep = Ok (f (batch l k))) ->
  if_transform true inv l rep
  = Ok (if nbatches l is 0%N then None else Some (\sum_(k < nbatches l) f (batch l k))).
Proof.
rewrite /if_transform /enum_batches; elim: (nbatches l) => // k IH hk.
rewrite iotaS_rcons map_rcons -cats1 rfold_cat IH => [|i hi]; last by apply: hk; lia.
rewrite /= add0n hk //=; case: k {IH hk} => [|k]; first by rewrite big_ord1.
by rewrite [in RHS]big_ord_recr.
Qed.

Lemma if_transform_singular (H : seq X -> 'M[F]_n) (reg : F) (l : loader X) (rep : 'M[F]_(m, n)) k :
  (k < nbatches l)%N -> H (batch l k) + reg%:M \notin unitmx ->
  if_transform true (fun b => ihvp_explicit (H b) reg) l rep = Err RuntimeError.
Proof.
rewrite /if_transform /enum_batches; move: None.
have : forall s acc, k \in s -> H (batch l k) + reg%:M \notin unitmx ->
   rfold (fun acc0 b => rmap (fun r => Some (if acc0 is Some a then a + r else r)) (ihvp_explicit (H b.2) reg rep))
     acc [seq (i, batch l i) | i <- s] = Err RuntimeError.
  elim=> // i s IH acc; rewrite inE => /orP [/eqP <-|h] hu /=.
    by rewrite /ihvp_explicit (negbTE hu).
  rewrite {1}/ihvp_explicit; case: ifP => //= _; exact: IH.
move=> G acc hk hu; apply: G => //; by rewrite mem_iota.
Qed.
End IFproof.
