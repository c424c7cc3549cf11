(* C48: the backtracking line search.  C52: representer point selection. *)
Set Warnings "-notation-overridden,-ambiguous-paths".
From mathcomp Require Import all_ssreflect all_algebra zify.
From Verif Require Import Py FieldSupport RpsModel RpsSpec RpsProof.
Require Import Field.
Set Implicit Arguments. Unset Strict Implicit. Unset Printing Implicit Defensive.
Import GRing.Theory Num.Theory Order.Theory.
Local Open Scope ring_scope.

Section Algebra.
Variable F : fieldType.
Add Field mcF : (@ffield F).
Lemma alg_grad (a w b p q r : F) : a + w + b + p - (a + q) - (w + r) = b + (p - q - r).
Proof. by fnorm; ring. Qed.
Lemma alg_smooth (h L t g : F) : h + h = 1 -> - (t * g * h) - (- (t * g) + L * t ^+ 2 * g * h) = (1 - L * t) * (t * g * h).
Proof.
move=> hh; have e : - (t * g) = - (t * g * h + t * g * h) by rewrite -mulrDr hh mulr1.
rewrite e; clear e hh.
by fnorm; ring.
Qed.
Lemma alg_subset (G r1 r2 n1 n2 l : F) : l != 0 -> n1 != 0 -> n2 != 0 -> r1 != 0 ->
  - (r2 * G) / (l * n2) = - (r1 * G) / (l * n1) * (n1 / n2 * (r2 / r1)).
Proof. by move=> /eqP l0 /eqP h1 /eqP h2 /eqP h3; fnorm; field. Qed.
Lemma alg_square (t w : F) : 2%:R != 0 :> F ->
  (1 - 2%:R * t) ^+ 2 * w = w - t * (2%:R ^+ 2 * w) + 2%:R * t ^+ 2 * (2%:R ^+ 2 * w) / 2%:R.
Proof. by rewrite mulr2n => /eqP h; fnorm; field. Qed.
End Algebra.

Section LineSearch.
Variables (R : realFieldType) (c d : nat).
Notation T := 'M[R]_(c, d).
Implicit Types (f : T -> ext R) (theta g : T).

(* Whatever the objective (infinite and undefined values included), the loop ends after at most 38 evaluations
   with the first of the steps 10, 5, 2.5, ... that fails the test "no sufficient decrease", or with the first one
   below 1e-10, which is the 38th. *)
Theorem C48_terminates f theta g val :
  [/\ step R 37 < (10%:R ^+ 10)^-1, (10%:R ^+ 10)^-1 <= step R 36 &
  exists k, [/\ (k <= 37)%N,
    forall fuel, (38 <= fuel)%N -> search fuel f theta g val 10%:R = Some (theta - step R k *: g),
    line_search f theta g val = Some (theta - step R k *: g),
    forall j, (j < k)%N ->
      ege0 (eadd (eadd (f (theta - step R j *: g)) (eopp val)) (Fin (step R j * norm2 g / 2%:R))) &
    k = 37%N \/
      ~~ ege0 (eadd (eadd (f (theta - step R k *: g)) (eopp val)) (Fin (step R k * norm2 g / 2%:R)))]].
Proof.
split; [by have := small_step R 37|by rewrite leNgt -/(min_t R) small_step|].
rewrite -step0; have [||k [k1 k2 k3 k4]] := @searchP R c d 38 f theta g val 0 => //.
exists k; split=> //.
  by move=> fuel; exact: search_more k2 _.
by rewrite /line_search -step0; exact: search_more k2 _ _.
Qed.

(* Finite values: the accepted point decreases the objective by at least t|g|^2/2 unless the step fell below the
   floor; every larger step failed to. *)
Theorem C48_decrease (F : T -> R) theta g v :
  exists k, [/\ (k <= 37)%N, line_search (fun th => Fin (F th)) theta g (Fin v) = Some (theta - step R k *: g),
    forall j, (j < k)%N -> v - step R j * norm2 g / 2%:R <= F (theta - step R j *: g) &
    k = 37%N \/ F (theta - step R k *: g) < v - step R k * norm2 g / 2%:R].
Proof.
have [_ _ [k [k1 _ k2 k3 k4]]] := C48_terminates (fun th => Fin (F th)) theta g (Fin v).
exists k; split=> // [j lt|].
  by have := k3 j lt; rewrite /= -addrA [- v + _]addrC -opprB subr_ge0.
case: k4 => [->|h]; [by left|right].
by move: h; rewrite /= -addrA [- v + _]addrC -opprB subr_ge0 -ltNge.
Qed.

(* A value that is not a number is accepted at once. *)
Theorem C48_nan_accepted f theta g val : f (theta - 10%:R *: g) = NaN R \/ val = NaN R ->
  line_search f theta g val = Some (theta - 10%:R *: g).
Proof.
move=> h; rewrite /line_search -step0 /search_fuel /= small_step /= step0.
suff -> : eadd (eadd (f (theta - 10%:R *: g)) (eopp val)) (Fin (10%:R * norm2 g / 2%:R)) = NaN R by [].
by case: h => [->|->] //=; case: (f _).
Qed.

(* An objective that is smooth along the gradient (curvature at most L, L below 2^36/10): the objective strictly
   decreases and the step is at least half of 1/L, or the first one. *)
Theorem C48_smooth (F : T -> R) theta g L : 0 < L -> L * step R 36 < 1 -> 0 < norm2 g ->
  (forall t, 0 <= t -> F (theta - t *: g) <= F theta - t * norm2 g + L * t ^+ 2 * norm2 g / 2%:R) ->
  exists k, [/\ line_search (fun th => Fin (F th)) theta g (Fin (F theta)) = Some (theta - step R k *: g),
    F (theta - step R k *: g) < F theta - step R k * norm2 g / 2%:R,
    F (theta - step R k *: g) < F theta & k = 0%N \/ 1 <= 2%:R * L * step R k].
Proof.
move=> L0 Ls g0 H; have [k [k1 k2 k3 k4]] := C48_decrease F theta g (F theta).
have good j : L * step R j < 1 -> F (theta - step R j *: g) < F theta - step R j * norm2 g / 2%:R.
  move=> h; apply: le_lt_trans (H _ (ltW (step_gt0 R j))) _.
  rewrite -addrA ltr_add2l -subr_gt0; set t := step R j in h *.
  have -> : - (t * norm2 g / 2%:R) - (- (t * norm2 g) + L * t ^+ 2 * norm2 g / 2%:R) = (1 - L * t) * (t * norm2 g / 2%:R).
    by apply: alg_smooth; rewrite [RHS](@splitr R 1) !mul1r.
  by rewrite mulr_gt0 ?subr_gt0 // divr_gt0 ?ltr0n // mulr_gt0 ?step_gt0.
have dec : F (theta - step R k *: g) < F theta - step R k * norm2 g / 2%:R.
  case: k4 => // e; apply: good; apply: le_lt_trans Ls; rewrite ler_pmul2l // e -stepS /beta.
  by rewrite ler_pimull ?ltW ?step_gt0 // invf_lt1 ?ltr0n // ltr1n.
exists k; split=> //; first by apply: lt_trans dec _; rewrite ltr_subl_addr ltr_addl divr_gt0 ?ltr0n // mulr_gt0 ?step_gt0.
case: k k1 k2 k3 {k4} dec => [|k] k1 k2 k3 dec; [by left|right].
rewrite -stepS /beta mulrACA divff ?pnatr_eq0 // mul1r leNgt; apply/negP => h.
by have := le_lt_trans (k3 k (ltnSn _)) (good k h); rewrite ltxx.
Qed.

(* ---- fine-tuning *)
Variables (f : T -> ext R) (grd : T -> T).
Definition iterate theta k : T := iter k (fun th => odflt th (line_search f th (grd th) (f th))) theta.
(* It fails exactly when there is no epoch or the first mean absolute gradient is 10000 or more. *)
Theorem C52_finetune_fails num theta : (num == 0%N) || (10%:R ^+ 4 <= mean_abs (grd theta)) ->
  finetune f grd num theta = Err UnboundLocalError.
Proof.
rewrite /finetune; case: num => [|num] //= ge; rewrite line_next ltNge ge /=.
exact: tune_unbound.
Qed.
(* Otherwise the result is the first of the visited iterates with the smallest mean absolute gradient; the visit
   stops after [num] iterates or as soon as this is below 1/200 of the first one. *)
Theorem C52_finetune num theta : (0 < num)%N -> mean_abs (grd theta) < 10%:R ^+ 4 ->
  let m k := mean_abs (grd (iterate theta k)) in
  exists K J, [/\ finetune f grd num theta = Ok (iterate theta J), (J <= K < num)%N,
    (forall i, (i <= K)%N -> m J <= m i) /\ (forall i, (i < J)%N -> m J < m i),
    forall i, (i < K)%N -> m 0%N / 200%:R <= m i &
    K = num.-1 \/ m K < m 0%N / 200%:R].
Proof.
case: num => // num _ lt /=; rewrite /finetune /= line_next lt.
have z : mean_abs (grd theta) / 200%:R <= mean_abs (grd theta).
  by apply: ler_pimulr; [exact: mean_abs_ge0|rewrite invf_le1 ?ltr0n // ler1n].
rewrite ltNge z /=.
have [|||||||K [J [a1 a2 [a3 a4] a5 [a6 a7]]]] := @tune_loopP R c d f grd theta num 1 0
   (Tune (mean_abs (grd theta)) (Some theta) (Some (mean_abs (grd theta)))) => //.
- by case.
- by case.
by exists K, J; split=> //; move: a2 a3; rewrite add1n; clear; lia.
Qed.
End LineSearch.

Section Representer.
Variables (R : realFieldType) (n c d : nat) (X : 'M[R]_(n, d)) (lam : R).
(* The gradient used for fine-tuning is the gradient of the objective, and there is no other. *)
Theorem C52_gradient (L : 'M[R]_(n, c) -> R) (gl : 'M[R]_(n, c) -> 'M[R]_(n, c)) (theta : 'M[R]_(c, d)) :
  is_grad L (phi X theta) (gl (phi X theta)) ->
  let F th := norm2 th * lam + L (phi X th) in
  (forall th, objective X lam (fun p => Fin (L p)) th = Fin (F th)) /\
  forall g, is_grad F theta g <-> g = grad_theta X lam gl theta.
Proof.
move=> H F; split=> // g.
suff S : is_grad F theta (grad_theta X lam gl theta) by split=> [h|->] //; exact: grad_unique h S.
move=> e e0; set C := n1 X + 1; have C0 : 0 < C by rewrite ltr_spaddr ?ltr01 ?n1_ge0.
have e2 : 0 < e / 2%:R by rewrite divr_gt0 ?ltr0n.
have [r r0 Hr] := H _ (divr_gt0 e2 C0).
set l := `|lam| + 1; have l0 : 0 < l by rewrite ltr_spaddr ?ltr01.
exists (Num.min (r / C) (e / 2%:R / l)); first by rewrite lt_minr (divr_gt0 r0 C0) (divr_gt0 e2 l0).
move=> h; rewrite le_minr => /andP [h1 h2].
have nphi : n1 (phi X h) <= C * n1 h.
  by apply: (le_trans (phi_le _ _)); apply: ler_wpmul2r; [exact: n1_ge0|rewrite ler_addl ler01].
have := Hr (phi X h) _; rewrite -phi_add => Hh.
have {}Hh : `|L (phi X (theta + h)) - L (phi X theta) - inner (gl (phi X theta)) (phi X h)| <= e / 2%:R * n1 h.
  apply: (le_trans (Hh _)); first by apply: (le_trans nphi); rewrite mulrC -ler_pdivl_mulr.
  apply: (le_trans (ler_wpmul2l _ nphi)); first by rewrite ltW // divr_gt0.
  by rewrite mulrA divfK // lt0r_neq0.
have -> : F (theta + h) - F theta - inner (grad_theta X lam gl theta) h =
  norm2 h * lam + (L (phi X (theta + h)) - L (phi X theta) - inner (gl (phi X theta)) (phi X h)).
  rewrite /F /grad_theta inner_add inner_scale -phi_adj norm2_add.
  rewrite [(_ + norm2 h) * lam]mulrDl [(norm2 theta + _) * lam]mulrDl [2%:R * _ * lam]mulrAC.
  exact: alg_grad.
rewrite [e]splitr mulrDl; apply: (le_trans (ler_norm_add _ _)); apply: ler_add => //.
rewrite normrM [`|norm2 h|]ger0_norm ?norm2_ge0 //.
apply: (@le_trans _ _ (n1 h ^+ 2 * l)).
  by apply: ler_pmul; rewrite ?norm2_ge0 ?norm2_le // ler_addl.
rewrite expr2 -mulrA mulrC; apply: ler_wpmul2r; first exact: n1_ge0.
by rewrite -ler_pdivl_mulr.
Qed.

(* At a stationary point of the fine-tuning objective the weighted training features add up to the fine-tuned
   layer divided by the number of samples. *)
Theorem C52_representer (gl : 'M[R]_(n, c) -> 'M[R]_(n, c)) (theta : 'M[R]_(c, d)) :
  lam != 0 -> (0 < n)%N -> grad_theta X lam gl theta = 0 ->
  (alpha X lam gl theta)^T *m X = n%:R^-1 *: theta.
Proof.
move=> l0 n0 /eqP; rewrite /grad_theta addr_eq0 => /eqP st.
have e : (gl (phi X theta))^T *m X = - ((2%:R * lam) *: theta) by rewrite st opprK.
have -> : alpha X lam gl theta = (- 2%:R * lam * n%:R)^-1 *: gl (phi X theta).
  by rewrite /alpha /phi trmx_mul trmxK.
have nn : n%:R != 0 :> R by rewrite pnatr_eq0 -lt0n.
have t0 : 2%:R != 0 :> R by rewrite pnatr_eq0.
rewrite linearZ /= -scalemxAl e scalerN -scaleNr scalerA; congr (_ *: _).
rewrite !mulNr invrN mulNr opprK invfM -mulrA; rewrite [_^-1 * (2%:R * lam)]mulrC mulrA.
by rewrite mulVf ?mul1r // mulf_neq0.
Qed.
End Representer.

Section Attributor.
Variables (R : realFieldType) (c d : nat).
Variables (loss : forall n, 'M[R]_(n, c) -> 'M[R]_(n, c) -> ext R).
Variables (gloss : forall n, 'M[R]_(n, c) -> 'M[R]_(n, c) -> 'M[R]_(n, c)).
Variables (activate : forall n, 'M[R]_(n, c) -> 'M[R]_(n, c)).
Variables (lam : R) (epochs : nat) (w0 : 'M[R]_(c, d)) (nrm : 'rV[R]_d -> R) (normed : bool).
Notation loader := (seq (seq (sample R c d))).
Notation cache := (cache loss gloss activate lam epochs w0).
Notation attribute := (attribute loss gloss activate lam epochs w0 nrm normed).
Notation tune_on := (tune_on loss gloss activate lam epochs w0).
Definition s0 : sample R c d := Sample 0 0 0.
(* the features entering the products *)
Definition scaled (x : 'rV[R]_d) : 'rV[R]_d := if normed then (Num.max (nrm x) (eps R))^-1 *: x else x.
Definition column (y : nat) : nat := if c == 1%N then 0%N else y.
Lemma feats_row (s : seq (sample R c d)) i : row i (feats s) = sm_x (nth s0 s i).
Proof. by apply/rowP => k; rewrite !mxE (nth_map s0). Qed.
Lemma xs_entry (s : seq (sample R c d)) i k :
  (if normed then normalize nrm (feats s) else feats s) i k = scaled (sm_x (nth s0 s i)) 0 k.
Proof.
by rewrite /scaled -feats_row /normalize; case: normed; rewrite !mxE.
Qed.
(* the scores with fine-tuned layer theta *)
Definition scores (theta : 'M[R]_(c, d)) (tr te : seq (sample R c d)) : seq (seq R) :=
  let al := alpha (feats tr) lam (fun p => gloss p (activate (outs tr))) theta in
  let xt := if normed then normalize nrm (feats tr) else feats tr in
  let xe := if normed then normalize nrm (feats te) else feats te in
  [seq [seq (xt *m xe^T) i j * weight al i (nth 0%N (map (@sm_y R c d) te) j) | j : 'I_(size te) <- enum 'I_(size te)]
  | i : 'I_(size tr) <- enum 'I_(size tr)].
Lemma scores_shape theta tr te : size (scores theta tr te) = size tr /\
  forall i, (i < size tr)%N -> size (nth [::] (scores theta tr te) i) = size te.
Proof.
rewrite size_map size_enum_ord; split=> // i lt.
by rewrite (nth_map (Ordinal lt)) ?size_enum_ord // size_map size_enum_ord.
Qed.
Lemma scores_entry theta tr te (i : 'I_(size tr)) (j : 'I_(size te)) (y : 'I_c) : y = column (sm_y (nth s0 te j)) :> nat ->
  nth 0 (nth [::] (scores theta tr te) i) j =
  (\sum_k scaled (sm_x (nth s0 tr i)) 0 k * scaled (sm_x (nth s0 te j)) 0 k) *
  (- (gloss (feats tr *m theta^T) (activate (outs tr)) i y) / (2%:R * lam * (size tr)%:R)).
Proof.
move=> ye; rewrite /scores (nth_map i) ?size_enum_ord // nth_ord_enum (nth_map j) ?size_enum_ord // nth_ord_enum.
congr (_ * _); first by rewrite mxE; apply: eq_bigr => k _; rewrite [in X in _ * X]mxE !xs_entry.
rewrite /weight (nth_map s0) // -/(column _) -ye valK /alpha mxE !mulNr invrN mulNr -mulrN mulrC.
by rewrite mulNr.
Qed.
Definition labels_ok (te : seq (sample R c d)) := (c == 1%N) || all (fun s => (sm_y s < c)%N) te.
Lemma attribute_cached a train test theta : a_full a -> a_theta a = Some theta -> (0 < size train)%N -> (0 < size test)%N ->
  labels_ok (flatten test) -> attribute a train test = (a, Ok (scores theta (flatten train) (flatten test))).
Proof.
rewrite /RpsModel.attribute /labels_ok => -> ->; case: train => // b train _; case: test => // b' test _ /=.
by rewrite -[_ && _]negbK negb_and !negbK => ->.
Qed.
Lemma attribute_fresh a train test theta : a_full a = false -> tune_on (flatten train) = Ok theta ->
  (0 < size train)%N -> (0 < size test)%N -> labels_ok (flatten test) ->
  attribute a train test = (Rps false (Some theta), Ok (scores theta (flatten train) (flatten test))).
Proof.
rewrite /RpsModel.attribute /labels_ok => ->; case: train => // b train; case: test => // b' test /= -> _ _ /=.
by rewrite -[_ && _]negbK negb_and !negbK => ->.
Qed.

(* After a successful cache call the scores are, for every training sample i and test sample j, the product of the
   features times the negative gradient of the loss at the fine-tuned layer in the class of j, over twice the
   regularisation times the number of samples of the loader passed. *)
Theorem C52_scores a full train test : (cache a full).2 = Ok tt -> (0 < size train)%N -> (0 < size test)%N ->
  labels_ok (flatten test) ->
  let a' := (cache a full).1 in let tr := flatten train in let te := flatten test in
  exists theta M, [/\ tune_on (flatten full) = Ok theta, attribute a' train test = (a', Ok M),
    size M = size tr, forall i, (i < size tr)%N -> size (nth [::] M i) = size te &
    forall (i : 'I_(size tr)) (j : 'I_(size te)) (y : 'I_c), y = column (sm_y (nth s0 te j)) :> nat ->
    nth 0 (nth [::] M i) j =
    (\sum_k scaled (sm_x (nth s0 tr i)) 0 k * scaled (sm_x (nth s0 te j)) 0 k) *
    (- (gloss (feats tr *m theta^T) (activate (outs tr)) i y) / (2%:R * lam * (size tr)%:R))].
Proof.
move=> h s1 s2 lb a' tr te.
have [theta t1 t2] : exists2 theta, tune_on (flatten full) = Ok theta & a' = Rps true (Some theta).
  move: h; rewrite /a' /RpsModel.cache /final_layer_io; clear a'; case: full => //= b full.
  by case: (RpsModel.tune_on _ _ _ _ _ _ _) => // theta _; exists theta.
exists theta, (scores theta tr te); have [z1 z2] := scores_shape theta tr te.
split=> //; first by rewrite (@attribute_cached _ _ _ theta) // t2.
exact: scores_entry.
Qed.

(* Without a cache call the layer is fine-tuned on the training loader passed. *)
Theorem C52_uncached a train test theta : a_full a = false -> tune_on (flatten train) = Ok theta ->
  (0 < size train)%N -> (0 < size test)%N -> labels_ok (flatten test) ->
  (attribute a train test).2 = (attribute (cache a train).1 train test).2.
Proof.
move=> h t s1 s2 lb; rewrite (attribute_fresh h t) //.
have e : cache a train = (Rps true (Some theta), Ok tt).
  by rewrite /RpsModel.cache /final_layer_io; case: train s1 t => // b tr _ /= ->.
by rewrite e (@attribute_cached _ _ _ theta).
Qed.

(* If the fine-tuned layer is a stationary point on the training samples, the scores of a test sample add up to its
   fine-tuned output divided by the number of training samples. *)
Theorem C52_column_sums a train test theta : normed = false -> lam != 0 ->
  a_full a -> a_theta a = Some theta -> (0 < size train)%N -> (0 < size test)%N -> (0 < size (flatten train))%N ->
  labels_ok (flatten test) ->
  let tr := flatten train in let te := flatten test in
  grad_theta (feats tr) lam (fun p => gloss p (activate (outs tr))) theta = 0 ->
  exists2 M, (attribute a train test).2 = Ok M &
  forall (j : 'I_(size te)) (y : 'I_c), y = column (sm_y (nth s0 te j)) :> nat ->
  \sum_(i < size tr) nth 0 (nth [::] M i) j = (sm_x (nth s0 te j) *m theta^T) 0 y / (size tr)%:R.
Proof.
move=> nf l0 h t s1 s2 s3 lb tr te st; exists (scores theta tr te); first by rewrite (attribute_cached h t).
move=> j y ye; have := C52_representer l0 s3 st; set gl := (fun p => _) => /matrixP e.
under eq_bigr => i _ do rewrite (scores_entry _ _ ye).
have E (i : 'I_(size tr)) : - gloss (feats tr *m theta^T) (activate (outs tr)) i y / (2%:R * lam * (size tr)%:R) =
    alpha (feats tr) lam gl theta i y.
  by rewrite /alpha mxE !mulNr invrN mulNr mulrC.
have S x : scaled x = x by rewrite /scaled nf.
transitivity (\sum_(i < size tr) \sum_k sm_x (nth s0 tr i) 0 k * sm_x (nth s0 te j) 0 k * alpha (feats tr) lam gl theta i y).
  apply: eq_bigr => i _; rewrite -E mulr_suml; apply: eq_bigr => k _; by rewrite !S.
rewrite exchange_big /= mxE mulr_suml; apply: eq_bigr => k _.
have := e y k; rewrite !mxE => ek.
rewrite -mulrA [theta y k / _]mulrC -ek mulr_sumr; apply: eq_bigr => i _.
by rewrite !mxE (nth_map s0) // mulrAC mulrC; congr (_ * _); rewrite mulrC.
Qed.

(* A loss that treats samples one by one, with a factor rho depending on their number (1 for a sum, 1/n for a
   mean): the score of one training sample depends on which loader it is passed in, through the number of samples.
   Passing k of the n training samples multiplies the scores by n/k for a sum and by (n/k)^2 for a mean. *)
Theorem C52_subset_scale rho (g : 'rV[R]_c -> 'rV[R]_c -> 'I_c -> R) act a train1 train2 test theta :
  (forall n (p y : 'M[R]_(n, c)) i k, gloss p y i k = rho n * g (row i p) (row i y) k) ->
  (forall n (o : 'M[R]_(n, c)) i, row i (activate o) = act (row i o)) ->
  a_full a -> a_theta a = Some theta -> (0 < size train1)%N -> (0 < size train2)%N -> (0 < size test)%N ->
  labels_ok (flatten test) -> lam != 0 ->
  let tr1 := flatten train1 in let tr2 := flatten train2 in let te := flatten test in
  (forall n, (0 < n)%N -> rho n != 0) ->
  exists M1 M2, [/\ (attribute a train1 test).2 = Ok M1, (attribute a train2 test).2 = Ok M2 &
    forall (i1 : 'I_(size tr1)) (i2 : 'I_(size tr2)) (j : 'I_(size te)) (y : 'I_c),
      y = column (sm_y (nth s0 te j)) :> nat -> nth s0 tr1 i1 = nth s0 tr2 i2 ->
      nth 0 (nth [::] M2 i2) j =
      nth 0 (nth [::] M1 i1) j * ((size tr1)%:R / (size tr2)%:R * (rho (size tr2) / rho (size tr1)))].
Proof.
move=> Hg Ha h t s1 s2 s3 lb l0 tr1 tr2 te r0.
exists (scores theta tr1 te), (scores theta tr2 te); split; try by rewrite (attribute_cached h t).
move=> i1 i2 j y ye e; rewrite !(scores_entry _ _ ye) !Hg e.
set x := (\sum_k _); rewrite -[x * _ * _]mulrA; congr (x * _); clear x.
have rw (s : seq (sample R c d)) (i : 'I_(size s)) : row i (feats s *m theta^T) = sm_x (nth s0 s i) *m theta^T.
  by rewrite row_mul feats_row.
have ro (s : seq (sample R c d)) (i : 'I_(size s)) : row i (activate (outs s)) = act (sm_out (nth s0 s i)).
  by rewrite Ha; congr act; apply/rowP => k; rewrite !mxE (nth_map s0).
rewrite !rw !ro e; set G := g _ _ _.
have n1 : (size tr1)%:R != 0 :> R by rewrite pnatr_eq0 -lt0n (leq_ltn_trans _ (ltn_ord i1)).
have n2 : (size tr2)%:R != 0 :> R by rewrite pnatr_eq0 -lt0n (leq_ltn_trans _ (ltn_ord i2)).
have t0 : 2%:R != 0 :> R by rewrite pnatr_eq0.
have q1 : rho (size tr1) != 0 by apply: r0; exact: leq_ltn_trans (leq0n _) (ltn_ord i1).
exact: (@alg_subset R G (rho (size tr1)) (rho (size tr2)) (size tr1)%:R (size tr2)%:R (2%:R * lam) (mulf_neq0 t0 l0) n1 n2 q1).
Qed.

(* With normalised features, rescaling a feature vector changes nothing, as long as its norm stays above 1e-12. *)
Theorem C52_normalised (x : 'rV[R]_d) k : normed -> 0 < k -> nrm (k *: x) = k * nrm x ->
  eps R <= nrm x -> eps R <= k * nrm x -> scaled (k *: x) = scaled x.
Proof.
move=> nt k0 hk h1 h2; rewrite /scaled nt hk !max_l // scalerA; congr (_ *: _).
by rewrite invfM mulrC mulrA divff ?mul1r // lt0r_neq0.
Qed.

(* ---- histories *)
Inductive op := OCache of loader | OAttr of loader & loader.
Definition is_cache (o : op) := if o is OCache _ then true else false.
Definition do_op (a : attributor R c d) (o : op) : attributor R c d :=
  match o with OCache l => (cache a l).1 | OAttr tr te => (attribute a tr te).1 end.
Lemma attr_state a train test : a_full a -> (attribute a train test).1 = a.
Proof. by rewrite /RpsModel.attribute => h; case: (final_layer_io train) => //= tr; rewrite h. Qed.
Lemma attr_full a train test : a_full (attribute a train test).1 = a_full a.
Proof.
case h : (a_full a); first by rewrite attr_state.
rewrite /RpsModel.attribute h; case: (final_layer_io train) => //= tr.
by case: (RpsModel.tune_on _ _ _ _ _ _ _).
Qed.
Lemma attr_fresh_same a train test : a_full a = false -> (attribute a train test).2 = (attribute (init R c d) train test).2.
Proof.
rewrite /RpsModel.attribute => ->; case: (final_layer_io train) => //= tr.
by case: (RpsModel.tune_on _ _ _ _ _ _ _).
Qed.
Lemma no_cache_full a ops : ~~ has is_cache ops -> a_full (foldl do_op a ops) = a_full a.
Proof. by elim: ops a => //= -[l|tr te] ops IH a //= h; rewrite IH // attr_full. Qed.
Lemma no_cache_state a ops : ~~ has is_cache ops -> a_full a -> foldl do_op a ops = a.
Proof. by elim: ops a => //= -[l|tr te] ops IH a //= h f; rewrite attr_state // IH. Qed.

(* After any calls without a cache call (failing ones included), attribute answers as a new attributor would. *)
Theorem C52_history_uncached ops train test : ~~ has is_cache ops ->
  (attribute (foldl do_op (init R c d) ops) train test).2 = (attribute (init R c d) train test).2.
Proof. by move=> h; apply: attr_fresh_same; rewrite no_cache_full. Qed.
(* After a successful cache call only this one matters, whatever came before and whatever attribute calls follow. *)
Theorem C52_history_cached ops1 full ops2 train test : ~~ has is_cache ops2 ->
  (cache (init R c d) full).2 = Ok tt ->
  attribute (foldl do_op (init R c d) (ops1 ++ OCache full :: ops2)) train test =
  attribute (cache (init R c d) full).1 train test.
Proof.
move=> h ok; rewrite foldl_cat /=; set b := foldl _ _ ops1.
have -> : (cache b full).1 = (cache (init R c d) full).1.
  by move: ok; rewrite /RpsModel.cache; case: (rbind _ _).
rewrite no_cache_state //; move: ok; rewrite /RpsModel.cache; by case: (rbind _ _).
Qed.
(* A failing cache call leaves the attributor marked as cached: with an earlier fine-tuned layer that one is used
   from then on, even one fine-tuned by an earlier attribute call; without one attribute fails. *)
Theorem C52_failed_cache a full e train test : (cache a full).2 = Err e ->
  (0 < size train)%N -> (0 < size test)%N -> labels_ok (flatten test) ->
  (attribute (cache a full).1 train test).2 =
  if a_theta a is Some theta then Ok (scores theta (flatten train) (flatten test)) else Err AttributeError.
Proof.
move=> h s1 s2 lb; have -> : (cache a full).1 = Rps true (a_theta a).
  by move: h; rewrite /RpsModel.cache; case: (rbind _ _).
case t : (a_theta a) => [theta|]; first by rewrite (@attribute_cached _ _ _ theta).
by rewrite /RpsModel.attribute; case: train s1 => // b tr _; case: test s2 lb.
Qed.
(* cache fails exactly on an empty loader, with no epochs, or when the gradient at the initial layer is large *)
Theorem C52_cache_fails a full : let s := flatten full in
  let g := grad_theta (feats s) lam (fun p => gloss p (activate (outs s))) w0 in
  (cache a full).2 = if full is [::] then Err RuntimeError
    else if (epochs == 0%N) || (10%:R ^+ 4 <= mean_abs g) then Err UnboundLocalError else Ok tt.
Proof.
rewrite /RpsModel.cache /final_layer_io; case: full => //= b full; rewrite /RpsModel.tune_on.
case: ifP => [h|/norP []]; first by rewrite C52_finetune_fails.
rewrite -lt0n -ltNge => e0 lt.
by have [K [J [-> _ _ _ _]]] := C52_finetune (objective (feats (b ++ flatten full)) lam (fun p => loss p (activate (outs (b ++ flatten full))))) e0 lt.
Qed.
End Attributor.

Section Examples.
Variable R : realFieldType.
(* minimising the squared norm from any starting point but the minimum *)
Example C48_smooth_example c d (theta : 'M[R]_(c, d)) : 0 < norm2 theta ->
  let g := 2%:R *: theta in
  exists k, line_search (fun th => Fin (norm2 th)) theta g (Fin (norm2 theta)) = Some (theta - step R k *: g) /\
    norm2 (theta - step R k *: g) < norm2 theta.
Proof.
move=> h0 g; have t0 : 0 < 2%:R :> R by rewrite ltr0n.
have h1 : 2%:R * step R 36 < 1.
  rewrite /step mulrA ltr_pdivr_mulr ?p2 // mul1r -natrX -natrM ltr_nat; lia.
have nk k : norm2 (k *: theta) = k ^+ 2 * norm2 theta.
  by rewrite inner_self inner_scale innerC inner_scale mulrA -expr2.
have [|t _|k [k1 _ k2 _]] := @C48_smooth R c d (@norm2 R c d) theta g 2%:R t0 h1; last by exists k.
  by rewrite nk mulr_gt0 ?exprn_gt0.
have -> : theta - t *: g = (1 - 2%:R * t) *: theta by rewrite /g scalerA scalerBl scale1r mulrC.
by rewrite !nk (alg_square _ _ (lt0r_neq0 t0)) lexx.
Qed.
(* a linear loss: every layer of this form is stationary *)
Example C52_representer_example n c d (X : 'M[R]_(n.+1, d)) (B : 'M[R]_(n.+1, c)) (lam : R) : lam != 0 ->
  let theta := - ((2%:R * lam)^-1 *: (B^T *m X)) in
  is_grad (inner B) (phi X theta) B /\
  (alpha X lam (fun=> B) theta)^T *m X = n.+1%:R^-1 *: theta.
Proof.
move=> l0 theta; split.
  move=> e e0; exists 1 => [|h _]; first exact: ltr01.
  rewrite inner_addr [_ + inner B h]addrC addrK subrr normr0; apply: mulr_ge0; [exact: ltW|exact: n1_ge0].
apply: C52_representer => //; rewrite /grad_theta /theta scalerN scalerA divff ?scale1r ?addNr //.
by rewrite mulf_neq0 // pnatr_eq0.
Qed.
End Examples.
Print Assumptions C48_terminates.
Print Assumptions C48_decrease.
Print Assumptions C48_nan_accepted.
Print Assumptions C48_smooth.
Print Assumptions C52_finetune_fails.
Print Assumptions C52_finetune.
Print Assumptions C52_gradient.
Print Assumptions C52_representer.
Print Assumptions C52_scores.
Print Assumptions C52_uncached.
Print Assumptions C52_column_sums.
Print Assumptions C52_subset_scale.
Print Assumptions C52_normalised.
Print Assumptions C52_history_uncached.
Print Assumptions C52_history_cached.
Print Assumptions C52_failed_cache.
Print Assumptions C52_cache_fails.
