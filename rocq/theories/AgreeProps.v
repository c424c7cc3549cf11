(* C68: the influence-function attributors agree where their approximations end. *)
Set Warnings "-notation-overridden,-ambiguous-paths".
From mathcomp Require Import all_ssreflect all_algebra zify.
From Verif Require Import Py Tensor LinAlg AttrModel AttrProps IhvpModel IhvpSpec IhvpProof IhvpProps
  ArnoldiModel ArnoldiSpec ArnoldiProps OffProof2 AgreeModel AgreeSpec AgreeProof.
Set Implicit Arguments. Unset Strict Implicit. Unset Printing Implicit Defensive.
Import GRing.Theory Num.Theory Order.Theory.
Local Open Scope ring_scope.

Lemma dot_row (F : realFieldType) n (u v : 'rV[F]_n) : IhvpModel.dot u^T v^T = \sum_j u 0 j * v 0 j.
Proof. by rewrite /IhvpModel.dot trmxK mxE; apply: eq_bigr => j _; rewrite mxE. Qed.
Lemma sqlenE (F : realFieldType) n (v : 'rV[F]_n) : sqlen v = IhvpModel.dot v^T v^T.
Proof. by rewrite dot_row; apply: eq_bigr => j _; rewrite expr2. Qed.
Lemma dot_col (F : realFieldType) n (A : 'M[F]_n) (w : 'cV[F]_n) : IhvpModel.dot w (A *m w) = (w^T *m A *m (w^T)^T) 0 0.
Proof. by rewrite /IhvpModel.dot trmxK mulmxA. Qed.
Lemma dot_ip (F : rcfType) n (A : 'M[F]_n) (v : 'rV[F]_n) : IhvpModel.dot v^T (A *m v^T) = ip (v *m A) v.
Proof. by rewrite /IhvpModel.dot trmxK mulmxA mxE; apply: eq_bigr => j _; rewrite [v^T _ _]mxE. Qed.
Lemma boundedP (F : realFieldType) n mu L (A : 'M[F]_n) : bounded mu L A ->
  [/\ symmetric A, 0 < mu, mu <= L,
      forall w, mu * IhvpModel.dot w w <= IhvpModel.dot w (A *m w) & forall w, IhvpModel.dot w (A *m w) <= L * IhvpModel.dot w w].
Proof.
move=> [sA /andP [m0 mL] h]; split=> // w; have /andP [] := h w^T; by rewrite sqlenE dot_col !trmxK.
Qed.
Lemma cg_ext (F : fieldType) n (hv hv' : 'cV[F]_n -> 'cV[F]_n) k v : hv =1 hv' -> cg1 hv k v = cg1 hv' k v.
Proof.
move=> e; rewrite /cg1 /cg_init e; congr (omap _ _); move: (CG _ _ _) => s.
by elim: k s => //= k IH s; rewrite /cg_step e; case: ifP => // _; case: ifP => //= _; exact: IH.
Qed.
Lemma arnoldi_ext (F : rcfType) n (hv hv' : 'cV[F]_n -> 'cV[F]_n) nc tol start k : hv =1 hv' ->
  arnoldi_iter hv nc tol start k = arnoldi_iter hv' nc tol start k.
Proof.
move=> e; rewrite /arnoldi_iter; case: ifP => // _; case: ifP => // _; congr Ok.
move: (_.-1) [::] [:: _] => it; elim: it => //= it IH cs ps; rewrite e.
by case: (foldl _ _ _) => h c; case: ifP => // _; case: ifP => // _; exact: IH.
Qed.

Section Agree.
Variables (F : realFieldType) (n : nat) (X : Type).
Variables (gtr gte : nat -> X -> 'rV[F]_n) (hess : nat -> seq X -> 'M[F]_n) (x0 : X).
Variables (full tr te : loader X) (C : nat).
Hypotheses (btr : (0 < ld_bs tr)%N) (bte : (0 < ld_bs te)%N) (dtr : ld_drop tr = false) (dte : ld_drop te = false).
Hypotheses (C0 : (0 < C)%N) (nb0 : (0 < nbatches full)%N).
Local Notation xi i := (nth x0 (ld_data tr) i).
Local Notation yj j := (nth x0 (ld_data te) j).
Local Notation scores inv := (AgreeModel.scores gtr gte inv full tr te C).

Lemma scoresE inv : scores inv = Ok [seq [seq (\sum_(c < C) \sum_k gtr c x 0 k * transformed (inv c) full (gte c y) 0 k) / C%:R
     | y <- ld_data te] | x <- ld_data tr].
Proof. by rewrite /AgreeModel.scores C03_attribute_is_checkpoint_mean. Qed.
Lemma transformedE inv (f : seq X -> 'rV[F]_n) v : (forall b, (b < nbatches full)%N -> inv (batch full b) v = Ok (f (batch full b))) ->
  transformed inv full v = \sum_(b < nbatches full) f (batch full b).
Proof. by move=> h; rewrite /transformed (C13_if_sums_batches nb0 (f := f)). Qed.

(* two inverses that are close for every checkpoint, batch and test gradient give close scores *)
Lemma agree_gen inv inv' (f f' : nat -> nat -> seq X -> 'rV[F]_n) (K : F) (G H : nat -> F) : 0 <= K ->
  (forall c b j, (c < C)%N -> (b < nbatches full)%N -> (j < size (ld_data te))%N ->
    [/\ inv c (batch full b) (gte c (yj j)) = Ok (f c j (batch full b)),
        inv' c (batch full b) (gte c (yj j)) = Ok (f' c j (batch full b))
      & sqlen (f c j (batch full b) - f' c j (batch full b)) <= K * sqlen (gte c (yj j))]) ->
  (forall c i, (c < C)%N -> (i < size (ld_data tr))%N -> sqlen (gtr c (xi i)) <= G i) ->
  (forall c j, (c < C)%N -> (j < size (ld_data te))%N -> sqlen (gte c (yj j)) <= H j) ->
  exists S S', [/\ scores inv = Ok S, scores inv' = Ok S' & close (size (ld_data tr)) (size (ld_data te))
    (fun i j => (nbatches full)%:R ^+ 2 * K * G i * H j) S S'].
Proof.
move=> K0 hf hG hH; rewrite !scoresE; do 2 eexists; split; [reflexivity|reflexivity|split].
- by rewrite size_map.
- by rewrite size_map.
- by move=> i hi; rewrite !(nth_map x0) // !size_map.
move=> i j hi hj; rewrite !(nth_map x0) // -mulrBl -sumrB.
have G0 : 0 <= G i by apply: le_trans (hG 0%N i C0 hi); rewrite sqlenE dot_ge0.
have H0 : 0 <= H j by apply: le_trans (hH 0%N j C0 hj); rewrite sqlenE dot_ge0.
set M := _ * H j; have M0 : 0 <= M by rewrite /M !mulr_ge0 // ?exprn_ge0 // ler0n.
have Cn : 0 < C%:R :> F by rewrite ltr0n.
rewrite expr_div_n ler_pdivr_mulr ?exprn_gt0 // [M * _]mulrC; apply: sum_sq => // c.
rewrite (@transformedE (inv c) (f c j)); last by move=> b hb; have [] := hf c b j (ltn_ord c) hb hj.
rewrite (@transformedE (inv' c) (f' c j)); last by move=> b hb; have [] := hf c b j (ltn_ord c) hb hj.
rewrite -sumrB; under eq_bigr => k _ do rewrite -mulrBr.
have -> : \sum_(k < n) gtr c (xi i) 0 k * ((\sum_(b < nbatches full) f' c j (batch full b)) 0 k - (\sum_(b < nbatches full) f c j (batch full b)) 0 k)
    = \sum_(b < nbatches full) IhvpModel.dot (gtr c (xi i))^T (f' c j (batch full b) - f c j (batch full b))^T.
  under [RHS]eq_bigr => b _ do rewrite dot_row; rewrite exchange_big /=; apply: eq_bigr => k _.
  by rewrite -mulr_sumr !summxE -sumrB; congr (_ * _); apply: eq_bigr => b _; rewrite !mxE.
have -> : M = (nbatches full)%:R ^+ 2 * (K * G i * H j) by rewrite /M !mulrA.
apply: sum_sq => [|b]; first by rewrite !mulr_ge0.
have [_ _ h] := hf c b j (ltn_ord c) (ltn_ord b) hj.
apply: le_trans (cs _ _) _; rewrite -!sqlenE -[f' c j _ - _]opprB.
have -> : sqlen (- (f c j (batch full b) - f' c j (batch full b))) = sqlen (f c j (batch full b) - f' c j (batch full b)).
  by move: (_ - _) => w; apply: eq_bigr => k _; rewrite mxE sqrrN.
rewrite [X in _ <= X]mulrAC mulrC; apply: ler_pmul; rewrite ?sqlenE ?dot_ge0 //; rewrite -?sqlenE ?hG //.
by apply: le_trans h _; rewrite ler_wpmul2l // hH.
Qed.

Variables (mu L : F) (G H : nat -> F).
Hypothesis hG : forall c i, (c < C)%N -> (i < size (ld_data tr))%N -> sqlen (gtr c (xi i)) <= G i.
Hypothesis hH : forall c j, (c < C)%N -> (j < size (ld_data te))%N -> sqlen (gte c (yj j)) <= H j.

(* Conjugate gradient: whenever the scores are finite (no iteration after the exact solution), they approach the
   explicit ones geometrically; after as many iterations as parameters they are equal. *)
Theorem C68_cg (reg : F) (k : nat) :
  (forall c b, (c < C)%N -> (b < nbatches full)%N -> bounded mu L (hess c (batch full b) + reg%:M)) ->
  (forall c b j, (c < C)%N -> (b < nbatches full)%N -> (j < size (ld_data te))%N ->
     exists r, cg_inv hess reg k c (batch full b) (gte c (yj j)) = Ok r) ->
  exists S S', [/\ explicit_scores gtr gte hess reg full tr te C = Ok S, cg_scores gtr gte hess reg k full tr te C = Ok S',
    close (size (ld_data tr)) (size (ld_data te))
      (fun i j => (nbatches full)%:R ^+ 2 * (mu^-1 ^+ 2 * (1 + L ^+ 2) * (1 - mu / L) ^+ k) * G i * H j) S S'
    & (n <= k)%N -> S' = S].
Proof.
move=> hb fin.
have key c b j : (c < C)%N -> (b < nbatches full)%N -> (j < size (ld_data te))%N -> let A := hess c (batch full b) + reg%:M in
    exists x, [/\ cg_inv hess reg k c (batch full b) (gte c (yj j)) = Ok x^T, A \in unitmx, cg1 (mulmx A) k (gte c (yj j))^T = Some x
      & (n <= k)%N -> A *m x = (gte c (yj j))^T].
  move=> hc hbb hj A; have [sA m0 mL lo hi] := boundedP (hb c b hc hbb); have [r] := fin c b j hc hbb hj.
  have e (u : 'cV[F]_n) : (hess c (batch full b))^T *m u + reg *: u = A *m u.
    rewrite /A mulmxDl mul_scalar_mx; congr (_ *m _ + _).
    by move: sA; rewrite /symmetric linearD /= tr_scalar_mx => /addIr.
  rewrite /cg_inv (cg_ext _ _ e); case e1: (cg1 _ _ _) => [x|] // _; exists x; split=> //; first exact: spd_unit lo.
  move=> hn; have [ks le hk] := C10_cg_exact_count (gte c (yj j))^T sA (spd_posdef m0 lo).
  have [h1 [h2 h3]] := hk k; have [h|h|h] := ltngtP k ks; first by move: hn le h; clear; lia.
    by move: (h3 h); rewrite e1.
  by have [y] := h2 h; rewrite e1 => -[<-].
have K0 : 0 <= mu^-1 ^+ 2 * (1 + L ^+ 2) * (1 - mu / L) ^+ k.
  have [_ m0 mL _ _] := boundedP (hb 0%N 0%N C0 nb0).
  apply: mulr_ge0; last by apply: exprn_ge0; exact: q_ge0 m0 mL.
  by apply: mulr_ge0; [exact: sqr_ge0|apply: addr_ge0; [exact: ler01|exact: sqr_ge0]].
pose f c j b := (invmx (hess c b + reg%:M) *m (gte c (yj j))^T)^T.
pose f' c j b := if cg_inv hess reg k c b (gte c (yj j)) is Ok r then r else 0.
have hf c b j : (c < C)%N -> (b < nbatches full)%N -> (j < size (ld_data te))%N ->
    [/\ ihvp_explicit (hess c (batch full b)) reg (gte c (yj j)) = Ok (f c j (batch full b)),
        cg_inv hess reg k c (batch full b) (gte c (yj j)) = Ok (f' c j (batch full b))
      & sqlen (f c j (batch full b) - f' c j (batch full b)) <= mu^-1 ^+ 2 * (1 + L ^+ 2) * (1 - mu / L) ^+ k * sqlen (gte c (yj j))].
  move=> hc hbb hj; have [x [e1 u e2 _]] := key c b j hc hbb hj; have [sA m0 mL lo hi] := boundedP (hb c b hc hbb).
  rewrite /ihvp_explicit u /f' e1; split=> //; rewrite !sqlenE /f linearB /= !trmxK.
  by apply: (cg_close sA m0 mL lo hi) e2; rewrite mulKVmx.
have [S [S' [h1 h2 h3]]] := agree_gen (inv := fun c b => ihvp_explicit (hess c b) reg) K0 hf hG hH; exists S, S'; rewrite /explicit_scores /cg_scores; split; [by rewrite h1|by rewrite h2|exact: h3|move=> hn].
move: h1 h2; rewrite !scoresE => -[<-] [<-]; clear h3.
apply: (@eq_from_nth _ [::]); rewrite !size_map // => i hi; rewrite !(nth_map x0) //.
apply: (@eq_from_nth _ 0); rewrite !size_map // => j hj; rewrite !(nth_map x0) //; congr (_ / _).
apply: eq_bigr => c _; apply: eq_bigr => o _; congr (_ * _).
rewrite (@transformedE (fun b => ihvp_explicit (hess c b) reg) (f c j)); last by move=> b hbb; have [] := hf c b j (ltn_ord c) hbb hj.
rewrite (@transformedE (cg_inv hess reg k c) (f' c j)); last by move=> b hbb; have [] := hf c b j (ltn_ord c) hbb hj.
rewrite !summxE; apply: eq_bigr => b _; rewrite /f /f'.
have [x [e1 u _ /(_ hn) <-]] := key c b j (ltn_ord c) (ltn_ord b) hj.
by rewrite e1 mulKmx.
Qed.

(* LiSSA on complete batches: the explicit scores with regularization damping * scaling, approached geometrically *)
Theorem C68_lissa perm (bs R T : nat) (d : F) :
  (forall c b v r t, perm_eq (perm c b v r t) (iota 0 (size b))) ->
  (forall c b p, perm_eq p (iota 0 (size b)) -> hess c [seq nth x0 b i | i <- p] = hess c b) ->
  (forall b, (b < nbatches full)%N -> (size (batch full b) <= bs)%N) ->
  (forall c b, (c < C)%N -> (b < nbatches full)%N -> bounded mu L (hess c (batch full b) + (d * L)%:M)) ->
  exists S S', [/\ explicit_scores gtr gte hess (d * L) full tr te C = Ok S,
    lissa_scores gtr gte hess x0 perm bs R.+1 T d L full tr te C = Ok S'
    & close (size (ld_data tr)) (size (ld_data te))
      (fun i j => (nbatches full)%:R ^+ 2 * (mu^-1 ^+ 2 * (1 - mu / L) ^+ T.+1) * G i * H j) S S'].
Proof.
move=> hp hinv hs hb.
have K0 : 0 <= mu^-1 ^+ 2 * (1 - mu / L) ^+ T.+1.
  have [_ m0 mL _ _] := boundedP (hb 0%N 0%N C0 nb0).
  by apply: mulr_ge0; [exact: sqr_ge0|apply: exprn_ge0; exact: q_ge0 m0 mL].
pose f c j b := (invmx (hess c b + (d * L)%:M) *m (gte c (yj j))^T)^T.
pose f' c j b := (L^-1 *: neumann ((1 - d)%:M - L^-1 *: hess c b) T (gte c (yj j))^T)^T.
apply: (agree_gen K0 (f := f) (f' := f')) => // c b j hc hbb hj.
have [sA m0 mL lo hi] := boundedP (hb c b hc hbb); have l0 : L != 0 by rewrite gt_eqF // (L0 m0 mL).
rewrite /ihvp_explicit (spd_unit m0 lo); split=> //.
  rewrite /lissa_inv /ihvp_lissa.
  have r0 : R.+1%:R != 0 :> F by rewrite pnatr_eq0.
  have [|x -> [-> _]] := @C11_lissa_series F n d L (hess c (batch full b))
    (fun r t => hess c (sample_batch x0 (perm c (batch full b) (gte c (yj j)) r t) bs (batch full b))) R T (gte c (yj j))^T r0 l0; last by [].
  move=> r t; rewrite /sample_batch take_oversize; first exact: hinv.
  by rewrite (perm_size (hp _ _ _ _ _)) size_iota hs.
rewrite !sqlenE /f /f' linearB /= !trmxK; apply: (neumann_close sA m0 mL lo hi); first by rewrite mulKVmx // (spd_unit m0 lo).
congr (_ *: neumann _ _ _); rewrite /ctr scalerDr opprD addrA addrAC; congr (_ - _).
by rewrite scale_scalar_mx mulrCA mulVf // mulr1 raddfB.
Qed.
End Agree.

Section Arnoldi.
Variables (F : rcfType) (n : nat) (X : Type).
Variables (gtr gte : nat -> X -> 'rV[F]_n) (hess : nat -> seq X -> 'M[F]_n).
Variables (eigh : forall k, 'M[F]_k -> 'rV[F]_k * 'M[F]_k) (start : 'cV[F]_n).

(* Arnoldi: with a complete basis, nothing cut off and all batches used, the scores are the explicit ones for the same
   data in one batch *)
Theorem C68_arnoldi (full tr te : loader X) (C it max_iter proj_dim : nat) (reg tol mu L : F) :
  (0 < ld_bs tr)%N -> (0 < ld_bs te)%N -> ld_drop tr = false -> ld_drop te = false -> (0 < C)%N ->
  (0 < ld_bs full)%N -> ld_drop full = false -> (0 < size (ld_data full))%N -> (nbatches full <= it)%N ->
  0 < tol -> start != 0 -> (proj_dim == 0%N) || (n <= proj_dim)%N ->
  (forall c, (c < C)%N -> bounded mu L (hess c (ld_data full) + reg%:M) /\
    exists cols proj, [/\ arnoldi_iter (mulmx (hess c (ld_data full) + reg%:M)) 1 tol start max_iter = Ok (Some (cols, proj)),
      size cols = n & diagonalises (hermitian (appr cols)) (eigh (hermitian (appr cols)))]) ->
  arnoldi_scores gtr gte hess eigh start KList it reg tol max_iter proj_dim full tr te C
  = explicit_scores gtr gte hess reg (Loader (ld_data full) (size (ld_data full)) false) tr te C.
Proof.
move=> h1 h2 h3 h4 C0 b0 df s0 hit t0 st0 hp hc.
have ed : arnoldi_data KList it full = Ok (ld_data full).
  rewrite /arnoldi_data take_oversize; last by rewrite size_map size_iota.
  case eb: (enum_batches full) => [|b bs].
    move: eb (nbatches_ceil (ld_data full) b0); rewrite /enum_batches; case: (full) df s0 => [xs m d] /= -> s0.
    by case: (nbatches _) => // _; move: s0; clear; lia.
  rewrite -eb /enum_batches -map_comp /=; case: (full) df b0 => [xs m d] /= -> b0.
  by rewrite (eq_map (f2 := batch (Loader xs m false))) // flatten_all_batches.
rewrite /arnoldi_scores ed [rbind _ _]/(rbind (Ok _) _) /explicit_scores /AgreeModel.scores.
rewrite !C03_attribute_is_checkpoint_mean //; congr Ok; apply: eq_map => x; apply: eq_map => y; congr (_ / _); apply: eq_bigr => c _.
have [hb [cols [proj [e sn dg]]]] := hc c (ltn_ord c); have [sA m0 mL lo hi] := boundedP hb.
set A := hess c _ + _ in hb e sA lo hi.
rewrite /= /transformed C13_if_single_batch ?s0 ?leqnn // /ihvp_explicit (spd_unit m0 lo) /=.
rewrite /arnoldi_pairs (arnoldi_ext (hv' := mulmx A)); last by move=> u; rewrite /A mulmxDl mul_scalar_mx.
rewrite e /=; set ps := distill _ _ _ _.
have [rz sz _ _] := C12_arnoldi_ritz proj_dim sA t0 st0 e dg.
have pos p : p \in ps -> 0 < p.1.
  move=> /(nthP (0, 0)) [i hi' <-]; have [o1 o2] := rz i i hi' hi'; rewrite eqxx mul1r in o1 o2; rewrite -o2.
  have := lo (nth (0, 0) ps i).2^T; rewrite -sqlenE /sqlen.
  under eq_bigr => l _ do rewrite expr2; rewrite -/(ip _ _) o1 mulr1 => h; apply: (lt_le_trans m0); apply: (le_trans h).
  by rewrite (dot_ip A).
have [z [a [b [ez ea eb es]]]] := C12_project_inner (gte c y) (gtr c x) pos.
have hz : z = gte c y *m invmx A.
  have := C12_ihvp_exact (gte c y) sA t0 st0 e dg sn hp; rewrite /ihvp_arnoldi e /= -/ps ez (spd_unit m0 lo).
  by move=> -[].
have sp : size ps = n.
  by rewrite /ps sz sn; case: eqP hp => //= _ hp; apply/minn_idPl.
rewrite ea eb; transitivity (\sum_(i < size ps) nth 0 a i * nth 0 b i).
  by rewrite sp; apply: eq_bigr => k _; rewrite !mxE mulrC.
rewrite es hz /ip; apply: eq_bigr => k _; rewrite mulrC; congr (_ * _).
by rewrite -[in LHS](trmxK (gte c y)) -[in LHS](trmxK (invmx A)) -trmx_mul trmx_inv sA.
Qed.
End Arnoldi.

Section ArnoldiKinds.
Variables (F : rcfType) (n : nat) (X : Type).
Variables (gtr gte : nat -> X -> 'rV[F]_n) (hess : nat -> seq X -> 'M[F]_n).
Variables (eigh : forall k, 'M[F]_k -> 'rV[F]_k * 'M[F]_k) (start : 'cV[F]_n).

(* The explicit attributor takes any batch the loss takes; Arnoldi writes into the first batch, so tuples and dicts are
   refused, and so is a data ratio of 0. *)
Theorem C68_arnoldi_batches_refuted (full tr te : loader X) (C it max_iter proj_dim : nat) (reg tol : F) :
  (0 < ld_bs tr)%N -> (0 < ld_bs te)%N -> ld_drop tr = false -> ld_drop te = false -> (0 < C)%N ->
  let A k i := arnoldi_scores gtr gte hess eigh start k i reg tol max_iter proj_dim full tr te C in
  [/\ exists S, explicit_scores gtr gte hess reg full tr te C = Ok S,
      (0 < it)%N -> (0 < nbatches full)%N -> A KTuple it = Err TypeError,
      (0 < it)%N -> (0 < nbatches full)%N -> A KDict it = Err KeyError
    & forall k, A k 0%N = Err IndexError].
Proof.
move=> h1 h2 h3 h4 C0 A.
have ne : (0 < it)%N -> (0 < nbatches full)%N -> exists b bs, take it (enum_batches full) = b :: bs.
  case: (it) => // i _; rewrite /enum_batches; case: (nbatches full) => // m _ /=; by do 2 eexists.
split.
- by rewrite /explicit_scores /AgreeModel.scores C03_attribute_is_checkpoint_mean //; eexists.
- by move=> i0 b0; have [b [bs e]] := ne i0 b0; rewrite /A /arnoldi_scores /arnoldi_data e.
- by move=> i0 b0; have [b [bs e]] := ne i0 b0; rewrite /A /arnoldi_scores /arnoldi_data e.
by move=> k; rewrite /A /arnoldi_scores /arnoldi_data take0.
Qed.
End ArnoldiKinds.

(* One parameter, Hessian 1, regularization 1, two batches; the eigenvalue is 2 = mu, and L = 3. *)
Section Examples.
Variable F : rcfType.
Let full := Loader [:: 1; 2; 3]%N 2 false.
Let te := Loader [:: 4; 5]%N 2 false.
Let g (c : nat) (x : nat) : 'rV[F]_1 := x.+1%:R%:M.
Let hess (c : nat) (b : seq nat) : 'M[F]_1 := 1%:M.
Let A2 : hess 0 [::] + 1%:M = 2%:R%:M.
Proof. by rewrite /hess -(raddfD (scalar_mx_additive F 1)). Qed.
Let quad (a : F) (v : 'rV[F]_1) : (v *m a%:M *m v^T) 0 0 = a * sqlen v.
Proof. by rewrite mul_mx_scalar -scalemxAl !mxE /sqlen !big_ord1 mxE expr2. Qed.
Let bnd c b : bounded 2%:R 3%:R (hess c b + 1%:M).
Proof.
rewrite (_ : hess c b = hess 0 [::]) // A2; split; first by rewrite tr_scalar_mx.
  by rewrite ltr0n ler_nat.
move=> v; rewrite quad lexx /=; apply: ler_wpmul2r; last by rewrite ler_nat.
by rewrite /sqlen big_ord1 sqr_ge0.
Qed.
Let cgfin c b x : exists r, cg_inv hess 1 1 c b (g c x) = Ok r.
Proof.
have [sA m0 _ lo _] := boundedP (bnd 0 [::]).
rewrite /cg_inv (cg_ext _ _ (hv' := mulmx (hess 0 [::] + 1%:M))); last first.
  by move=> u; rewrite /hess trmx1 mulmxDl mul1mx scale1r.
have [ks le hk] := C10_cg_exact_count (g c x)^T sA (spd_posdef m0 lo).
have [h1 [h2 _]] := hk 1%N; have [_ [h3 _]] := hk 0%N.
case: ks le hk h1 h2 h3 => [|[|//]] _ _ h1 h2 h3; last by have [//|y -> _] := h2; eexists.
have [//|y] := h3; rewrite /cg1 /= => -[<-] /matrixP /(_ 0 0); rewrite A2 mul_scalar_mx /g !mxE /= mulr1n => /eqP.
by rewrite -natrM eqr_nat; lia.
Qed.
Let eigh1 k : 'M[F]_k -> 'rV[F]_k * 'M[F]_k :=
  if k is 1 return 'M[F]_k -> 'rV[F]_k * 'M[F]_k then fun T => (\row_j T 0 0, 1%:M) else fun _ => (0, 0).

Example C68_cg_nonvacuous : exists S, explicit_scores g g hess 1 full full te 2 = Ok S /\
  cg_scores g g hess 1 1 full full te 2 = Ok S.
Proof.
have [||||||||||S [S' [h1 h2 _ h]]] := @C68_cg F 1 nat g g hess 0%N full full te 2 _ _ _ _ _ _ 2%:R 3%:R
  (fun i => sqlen (g 0 (nth 0%N [:: 1; 2; 3]%N i))) (fun i => sqlen (g 0 (nth 0%N [:: 4; 5]%N i))) _ _ 1 1%N _ _ => //.
by exists S; split=> //; rewrite h2 h.
Qed.

(* damping 1/3 and scaling 3 give the same regularization *)
Example C68_lissa_nonvacuous (R T : nat) : exists S S',
  [/\ explicit_scores g g hess (3%:R^-1 * 3%:R) full full te 2 = Ok S,
      lissa_scores g g hess 0%N (fun _ b _ _ _ => rev (iota 0 (size b))) 2 R.+1 T 3%:R^-1 3%:R full full te 2 = Ok S'
    & close 3 2 (fun i j => 2%:R ^+ 2 * (2%:R^-1 ^+ 2 * (1 - 2%:R / 3%:R) ^+ T.+1)
        * sqlen (g 0 (nth 0%N [:: 1; 2; 3]%N i)) * sqlen (g 0 (nth 0%N [:: 4; 5]%N j))) S S'].
Proof.
apply: (@C68_lissa F 1 nat g g hess 0%N full full te 2) => //.
- by move=> c b v r t; rewrite perm_rev.
- by case=> [|[|//]].
- by move=> c b _ _; rewrite mulVf ?pnatr_eq0 //; exact: bnd.
Qed.

Let run1 (tol : F) : 0 < tol -> arnoldi_iter (mulmx (2%:R%:M : 'M[F]_1)) 1 tol 1%:M 3 = Ok (Some ([:: [:: 2%:R; 0]], [:: 1%:M; 0])).
Proof.
move=> t0.
have n1 : ArnoldiModel.norm (1%:M : 'cV[F]_1) = 1.
  by rewrite /ArnoldiModel.norm /IhvpModel.dot trmx1 mul1mx mxE eqxx sqrtr1.
rewrite /arnoldi_iter /= n1 oner_eq0 invr1 scale1r /= mulmx1.
have -> : IhvpModel.dot (2%:R%:M : 'cV[F]_1) 1%:M = 2%:R by rewrite /IhvpModel.dot tr_scalar_mx mulmx1 mxE eqxx mulr1n.
rewrite expr1n divr1 scale_scalar_mx mulr1 subrr.
have n0 : ArnoldiModel.norm (0 : 'cV[F]_1) = 0 by rewrite /ArnoldiModel.norm /IhvpModel.dot mulmx0 mxE sqrtr0.
by rewrite n0 t0.
Qed.

Example C68_arnoldi_nonvacuous (tol : F) : 0 < tol ->
  arnoldi_scores g g hess eigh1 1%:M KList 2 1 tol 3 1 full full te 2 = explicit_scores g g hess 1 (Loader [:: 1; 2; 3]%N 3 false) full te 2.
Proof.
move=> t0; apply: (@C68_arnoldi F 1 nat g g hess eigh1 1%:M full full te 2 2 3 1 1 tol 2%:R 3%:R) => //.
  by apply/eqP => /matrixP /(_ 0 0); rewrite !mxE => /eqP; rewrite oner_eq0.
move=> c _; split; first exact: bnd.
exists [:: [:: 2%:R; 0]], [:: 1%:M; 0]; rewrite (_ : hess c _ = hess 0 [::]) // A2 run1 //; split=> //.
split=> /=; first by rewrite trmx1 mul1mx.
rewrite mulmx1 mul1mx; move: (hermitian _) => M; apply/matrixP => i j; by rewrite !ord1 !mxE eqxx mulr1n.
Qed.
End Examples.

Print Assumptions C68_cg.
Print Assumptions C68_lissa.
Print Assumptions C68_arnoldi.
Print Assumptions C68_arnoldi_batches_refuted.
