(* C66: what influence scores and TracIn scores predict, for quadratic losses. *)
Set Warnings "-notation-overridden,-ambiguous-paths".
From mathcomp Require Import all_ssreflect all_algebra zify.
From Verif Require Import Py Tensor LinAlg FieldSupport AttrModel AttrProps IhvpModel IhvpProps QuadModel QuadSpec QuadProof.
Set Implicit Arguments. Unset Strict Implicit. Unset Printing Implicit Defensive.
Import GRing.Theory Num.Theory Order.Theory.
Local Open Scope ring_scope.
Require Import Field.

Section Influence.
Variables (F : realFieldType) (n : nat) (X : Type).
Variables (A : X -> 'M[F]_n) (b : X -> 'rV[F]_n) (k : X -> F).
Add Field qpF : (@ffield F).
Hypothesis sA : forall x, (A x)^T = A x.
Local Notation loss := (loss A b k).
Local Notation grad := (grad A b).
Local Notation hess := (hess A).
Local Notation objective := (objective loss).
Local Notation influence := (influence A b).

(* The derivatives used by the model are those of the loss. *)
Theorem C66_derivatives x t d :
  loss x (t + d) = loss x t + (d *m (grad x t)^T) 0 0 + 2%:R^-1 * (d *m A x *m d^T) 0 0.
Proof. exact: qf_taylor. Qed.

Definition Mx xs (reg : F) := hess xs + reg%:M.
Definition bbar (xs : seq X) : 'rV[F]_n := (size xs)%:R^-1 *: \sum_(x <- xs) b x.
Definition kbar (xs : seq X) : F := (size xs)%:R^-1 * \sum_(x <- xs) k x.
Lemma objectiveE xs reg z e :
  objective xs reg z e =1 qf (Mx xs reg + e *: A z) (bbar xs + e *: b z) (kbar xs + e * k z).
Proof.
move=> t; rewrite /QuadSpec.objective [_ / _]mulrC qf_decay.
under eq_bigr => x _ do rewrite -/(qf (A x) (b x) (k x) t).
by rewrite qf_sum -/(qf (A z) (b z) (k z) t) !qfZ !qfD !addr0.
Qed.
Lemma hess_sym xs : (hess xs)^T = hess xs.
Proof. by rewrite /QuadModel.hess linearZ /= linear_sum; congr (_ *: _); apply: eq_bigr => x _ /=; rewrite sA. Qed.
Lemma Mx_sym xs reg : (Mx xs reg)^T = Mx xs reg.
Proof. by rewrite /Mx linearD /= tr_scalar_mx hess_sym. Qed.
Lemma Sx_sym xs reg z e : (Mx xs reg + e *: A z)^T = Mx xs reg + e *: A z.
Proof. by rewrite linearD linearZ /= sA Mx_sym. Qed.
Lemma stationary xs reg z e t : minimises (objective xs reg z e) t -> t *m (Mx xs reg + e *: A z) = bbar xs + e *: b z.
Proof. by move/(min_eq (objectiveE xs reg z e))/(qf_min (Sx_sym xs reg z e)). Qed.
Lemma objective0 xs reg z z' t : minimises (objective xs reg z 0) t -> minimises (objective xs reg z' 0) t.
Proof. by apply: min_eq => u; rewrite /QuadSpec.objective !mul0r. Qed.

(* the scores *)
Lemma influenceE xs bs reg t0 tr te : (0 < size xs <= bs)%N -> Mx xs reg \in unitmx ->
  (0 < ld_bs tr)%N -> (0 < ld_bs te)%N -> ld_drop tr = false -> ld_drop te = false ->
  influence reg t0 (Loader xs bs false) tr te
  = Ok [seq [seq (grad x t0 *m invmx (Mx xs reg) *m (grad y t0)^T) 0 0 | y <- ld_data te] | x <- ld_data tr].
Proof.
move=> hs hu h1 h2 h3 h4; rewrite /QuadModel.influence C03_attribute_is_checkpoint_mean //; congr Ok.
apply: eq_map => x; apply: eq_map => y; rewrite big_ord1 divr1 /= /transform C13_if_single_batch //.
rewrite /ihvp_explicit -/(Mx xs reg) hu /= -mulmxA [RHS]mxE; apply: eq_bigr => j _.
by rewrite [X in _ * X]mxE.
Qed.

(* the parameters of the model trained again *)
Lemma delta xs reg z e t0 t : Mx xs reg \in unitmx ->
  minimises (objective xs reg z 0) t0 -> minimises (objective xs reg z e) t ->
  t - t0 = - e *: ((grad z t0 + (t - t0) *m A z) *m invmx (Mx xs reg)).
Proof.
move=> hu /stationary; rewrite !scale0r !addr0 => e0 /stationary; rewrite mulmxDr -scalemxAr => e1.
rewrite scalemxAl; apply: (canRL (mulmxK hu)); rewrite mulmxBl e0.
have -> : t *m Mx xs reg = bbar xs + e *: b z - e *: (t *m A z) by rewrite -e1 addrK.
rewrite /QuadModel.grad mulmxBl scaleNr scalerDr !scalerBr.
have V (a p q r : 'rV[F]_n) : a + q - r - a = - (p - q + (r - p)).
  by rewrite [p - q + _]addrC addrA subrK opprB addrAC [a + q]addrC addrK.
exact: V.
Qed.

Theorem C66_influence xs bs reg tr te t0 i j x0 : (0 < size xs <= bs)%N -> hess xs + reg%:M \in unitmx ->
  (0 < ld_bs tr)%N -> (0 < ld_bs te)%N -> ld_drop tr = false -> ld_drop te = false ->
  (i < size (ld_data tr))%N -> (j < size (ld_data te))%N ->
  let z := nth x0 (ld_data tr) i in let y := nth x0 (ld_data te) j in
  minimises (objective xs reg z 0) t0 ->
  exists2 out, influence reg t0 (Loader xs bs false) tr te = Ok out &
    first_order (fun e v => exists2 t, minimises (objective xs reg z e) t & v = loss y t - loss y t0)
                (- nth 0 (nth [::] out i) j).
Proof.
move=> hs hu h1 h2 h3 h4 hi hj z y m0; rewrite -/(Mx xs reg) in hu; eexists; first exact: influenceE.
rewrite (nth_map x0) // (nth_map x0) // -/z -/y.
set M' := invmx (Mx xs reg); set g := grad z t0; set h := grad y t0.
pose D := nrm M' * nrm g + nrm M' * nrm g.
pose r := (2%:R * (nrm (A z) * nrm M') + 1)^-1.
have r0 : 0 < r by rewrite invr_gt0 ltr_spaddr ?ltr01 // mulr_ge0 ?ler0n // mulr_ge0 ?nrm_ge0.
exists (D * nrm (A z *m M' *m h^T) + 2%:R^-1 * (D * nrm (A y) * D)), r; split=> // e v er [t mt ->].
set d := t - t0; have de := delta hu m0 mt; rewrite -/d -/g -/M' in de.
have dn : nrm d <= `|e| * D.
  have q : `|e| * (nrm (A z) * nrm M') <= 2%:R^-1.
    apply: le_trans (ler_wpmul2r _ (ltW er)) _; first by rewrite mulr_ge0 ?nrm_ge0.
    rewrite /r mulrC; set c := nrm _ * _; have c0 : 0 <= c by rewrite mulr_ge0 ?nrm_ge0.
    rewrite ler_pdivr_mulr; last by rewrite ltr_spaddr ?ltr01 // mulr_ge0 ?ler0n.
    by rewrite mulrDr mulrA mulVf ?pnatr_eq0 // mul1r mulr1 ler_addl invr_ge0 ler0n.
  have K : nrm d <= `|e| * (nrm g * nrm M') + 2%:R^-1 * nrm d.
    rewrite {1}de nrmZ normrN.
    apply: (@le_trans _ _ (`|e| * ((nrm g + nrm d * nrm (A z)) * nrm M'))).
      apply: ler_wpmul2l => //; apply: le_trans (nrmM _ _) _; apply: ler_wpmul2r; first exact: nrm_ge0.
      by apply: le_trans (nrmD _ _) _; rewrite ler_add2l nrmM.
    rewrite mulrDl mulrDr ler_add2l -mulrA mulrCA [X in _ <= X]mulrC.
    by apply: ler_wpmul2l; rewrite ?nrm_ge0.
  rewrite -(ler_add2r (nrm d)); apply: le_trans (ler_add K K) _.
  by rewrite addrACA -(mulrDr 2%:R^-1) half2 ler_add2r /D mulrDr [nrm M' * _]mulrC.
have -> : loss y t - loss y t0 = (d *m h^T) 0 0 + 2%:R^-1 * (d *m A y *m d^T) 0 0.
  have -> : t = t0 + d by rewrite /d addrC subrK.
  by rewrite C66_derivatives -/h -[_ + _ + _ * _]addrA [loss _ _ + _]addrC addrK.
have -> : (d *m h^T) 0 0 + 2%:R^-1 * (d *m A y *m d^T) 0 0 - - (g *m M' *m h^T) 0 0 * e
   = - e * (d *m (A z *m M' *m h^T)) 0 0 + 2%:R^-1 * (d *m A y *m d^T) 0 0.
  rewrite addrAC; congr (_ + _); rewrite {1}de -scalemxAl scaleE mulmxDl mulmxDl addE !mulmxA.
  by rewrite mulrDr mulNr opprK [_ * e]mulrC mulNr addrAC addNr add0r.
have e0 := normr_ge0 e.
have V1 (p q u : F) : p * q * (u * u) = u * ((u * p) * q) by fnorm; ring.
have V2 (p q u : F) : p * q * p * (u * u) = (u * p) * q * (u * p) by fnorm; ring.
have E2 : e ^+ 2 = `|e| * `|e| by rewrite -normrM -expr2 ger0_norm ?sqr_ge0.
rewrite E2 (le_trans (ler_norm_add _ _)) // mulrDl; apply: ler_add.
  rewrite normrM normrN -nrm11.
  have -> : D * nrm (A z *m M' *m h^T) * (`|e| * `|e|) = `|e| * ((`|e| * D) * nrm (A z *m M' *m h^T)).
    exact: V1.
  apply: ler_wpmul2l => //; apply: le_trans (nrmM _ _) _; apply: ler_wpmul2r => //; exact: nrm_ge0.
rewrite normrM -nrm11 ger0_norm ?invr_ge0 ?ler0n // -[X in _ <= X]mulrA; apply: ler_wpmul2l; first by rewrite invr_ge0 ler0n.
have -> : D * nrm (A y) * D * (`|e| * `|e|) = (`|e| * D) * nrm (A y) * (`|e| * D) by exact: V2.
apply: le_trans (nrmM _ _) _; rewrite nrm_tr; apply: ler_pmul => //; try exact: nrm_ge0.
by apply: le_trans (nrmM _ _) _; apply: ler_wpmul2r => //; exact: nrm_ge0.
Qed.

(* Training again is well defined: convex losses with a weight decay have a minimiser for every weight at or above the
   one that removes the sample, and only one. *)
Definition convex (x : X) := forall d : 'rV[F]_n, 0 <= (d *m A x *m d^T) 0 0.
Lemma pair_sum (xs : seq X) (d : 'rV[F]_n) :
  (d *m hess xs *m d^T) 0 0 = (size xs)%:R^-1 * \sum_(x <- xs) (d *m A x *m d^T) 0 0.
Proof.
rewrite /QuadModel.hess -scalemxAr -scalemxAl scaleE mulmx_sumr mulmx_suml; congr (_ * _).
by elim: xs => [|x xs IH]; rewrite ?big_nil ?mxE // !big_cons addE IH.
Qed.
Lemma sum_ge (x0 : X) (f : X -> F) xs i : (forall j, (j < size xs)%N -> 0 <= f (nth x0 xs j)) -> (i < size xs)%N ->
  f (nth x0 xs i) <= \sum_(x <- xs) f x.
Proof.
move=> f0 hi; rewrite (big_nth x0) big_mkord (bigD1 (Ordinal hi)) //= ler_addl.
by apply: sumr_ge0 => j _; exact: f0.
Qed.
Lemma pd xs reg x0 i e : (forall j, (j < size xs)%N -> convex (nth x0 xs j)) -> 0 < reg -> (i < size xs)%N ->
  - (size xs)%:R^-1 <= e -> forall d : 'rV[F]_n, d != 0 ->
  0 < (d *m (Mx xs reg + e *: A (nth x0 xs i)) *m d^T) 0 0.
Proof.
move=> cx r0 hi he d d0; rewrite /Mx !mulmxDr !mulmxDl !addE pair_sum mul_mx_scalar -scalemxAr -!scalemxAl !scaleE; set q := \sum_(x <- _) _; set a := (d *m A _ *m _) 0 0.
have qa : a <= q by apply: (sum_ge (f := fun x => (d *m A x *m d^T) 0 0)) => // j hj; exact: cx.
have a0 : 0 <= a by exact: cx.
have n0 : 0 < (size xs)%:R :> F by rewrite ltr0n; case: (size xs) hi.
rewrite addrAC; apply: ltr_paddl; last by rewrite mulr_gt0 // sqnorm_gt0.
apply: (@le_trans _ _ ((size xs)%:R^-1 * a + e * a)); first by rewrite -mulrDl mulr_ge0 // -ler_subl_addl sub0r.
by rewrite ler_add2r ler_pmul2l ?invr_gt0.
Qed.
Theorem C66_trained xs reg x0 i e : (forall j, (j < size xs)%N -> convex (nth x0 xs j)) -> 0 < reg ->
  (i < size xs)%N -> - (size xs)%:R^-1 <= e ->
  exists t, minimises (objective xs reg (nth x0 xs i) e) t /\
    forall t', minimises (objective xs reg (nth x0 xs i) e) t' -> t' = t.
Proof.
move=> cx r0 hi he; have hp := pd cx r0 hi he; have hu := posdef_unit hp.
exists ((bbar xs + e *: b (nth x0 xs i)) *m invmx (Mx xs reg + e *: A (nth x0 xs i))); split.
  have E : qf (Mx xs reg + e *: A (nth x0 xs i)) (bbar xs + e *: b (nth x0 xs i)) (kbar xs + e * k (nth x0 xs i))
      =1 objective xs reg (nth x0 xs i) e by move=> t; rewrite objectiveE.
  apply: (min_eq E); apply: min_qf; [exact: Sx_sym| |by rewrite mulmxKV].
  by move=> d; case: (d =P 0) => [->|/eqP/hp/ltW //]; rewrite !mul0mx mxE.
by move=> t' /stationary e'; rewrite -e' mulmxK.
Qed.

(* Removing a sample is training with weight -1/n on it. *)
Theorem C66_remove xs reg x0 i t : (i < size xs)%N ->
  without loss xs reg i t = objective xs reg (nth x0 xs i) (- (size xs)%:R^-1) t.
Proof.
move=> hi; rewrite /without /QuadSpec.objective.
have -> : \sum_(x <- xs) loss x t
  = \sum_(x <- take i xs) loss x t + (loss (nth x0 xs i) t + \sum_(x <- drop i.+1 xs) loss x t).
  by rewrite -{1}(cat_take_drop i xs) (drop_nth x0) // big_cat big_cons.
rewrite big_cat /=; move: (\sum_(x <- take _ _) _) (\sum_(x <- drop _ _) _) => p q.
have V (c w l : F) : (p + q) * c + w = (p + (l + q)) * c + w + - c * l by fnorm; ring.
exact: V.
Qed.

(* Least squares: removing the sample moves the parameters exactly along the influence direction. *)
Theorem C66_loo xs bs reg tr te t0 t i i' j x0 (u : 'rV[F]_n) c :
  (0 < size xs <= bs)%N -> (forall j, (j < size xs)%N -> convex (nth x0 xs j)) -> 0 < reg ->
  (0 < ld_bs tr)%N -> (0 < ld_bs te)%N -> ld_drop tr = false -> ld_drop te = false ->
  (i' < size (ld_data tr))%N -> (j < size (ld_data te))%N -> (i < size xs)%N ->
  nth x0 (ld_data tr) i' = nth x0 xs i ->
  A (nth x0 xs i) = u^T *m u -> b (nth x0 xs i) = c *: u ->
  minimises (objective xs reg (nth x0 xs i) 0) t0 -> minimises (without loss xs reg i) t ->
  let y := nth x0 (ld_data te) j in
  let h := (u *m invmx (hess xs + reg%:M) *m u^T) 0 0 / (size xs)%:R in
  0 <= h < 1 /\
  exists2 out, influence reg t0 (Loader xs bs false) tr te = Ok out &
    loss y t - loss y t0 = nth 0 (nth [::] out i') j / ((size xs)%:R * (1 - h))
      + 2%:R^-1 * ((t - t0) *m A y *m (t - t0)^T) 0 0.
Proof.
move=> hs cx r0 h1 h2 h3 h4 hi' hj hi eqz Az bz m0 mt y h.
set z := nth x0 xs i in Az bz m0 mt; set N := (size xs)%:R.
have N0 : 0 < N :> F by rewrite ltr0n; case/andP: hs.
have mt' : minimises (objective xs reg z (- N^-1)) t by apply: min_eq mt => v; rewrite (@C66_remove _ _ x0).
have p1 := pd cx r0 hi (lexx _); rewrite -/z -/N in p1.
have p0 : forall d : 'rV[F]_n, d != 0 -> 0 < (d *m Mx xs reg *m d^T) 0 0.
  move=> d d0; have := pd cx r0 hi (e := 0); rewrite scale0r addr0; apply=> //.
  by rewrite oppr_le0 invr_ge0 ler0n.
have hu := posdef_unit p0.
have hh : 0 <= h < 1.
  case: (u =P 0) => [u0|/eqP u0]; first by rewrite /h u0 !mul0mx mxE mul0r lexx ltr01.
  pose v := u *m invmx (Mx xs reg).
  have v0 : v != 0 by apply: contra u0 => /eqP v0; rewrite -[u](mulmxKV hu) -/v v0 mul0mx.
  have hv : (v *m u^T) 0 0 = N * h by rewrite /h mulrC divfK ?gt_eqF.
  have := p0 v v0; rewrite {1}/v mulmxKV // -dotC => q0.
  have := p1 v v0; rewrite mulmxDr mulmxDl addE {1}/v mulmxKV // -scalemxAr -scalemxAl scaleE Az.
  have -> : (v *m (u^T *m u) *m v^T) 0 0 = (v *m u^T) 0 0 * (u *m v^T) 0 0.
    by rewrite mulmxA -mulmxA [LHS]mxE big_ord1.
  rewrite [(u *m v^T) 0 0]dotC hv => q1.
  rewrite hv pmulr_rgt0 // in q0; rewrite ltW //= -subr_gt0 -(pmulr_rgt0 _ (mulr_gt0 N0 q0)).
  have V (p q : F) : p != 0 -> p * q + - p^-1 * (p * q * (p * q)) = p * q * (1 - q).
    move=> pn; have -> : - p^-1 * (p * q * (p * q)) = - (p^-1 * p) * (q * (p * q)) by fnorm; ring.
    by rewrite mulVf //; fnorm; ring.
  by rewrite -V ?gt_eqF.
split=> //; eexists; first exact: influenceE.
rewrite (nth_map x0) // (nth_map x0) // eqz -/z -/y; set M' := invmx _.
have dd := delta hu m0 mt'; set d := t - t0 in dd *; rewrite opprK -/M' in dd.
have -> : loss y t - loss y t0 = (d *m (grad y t0)^T) 0 0 + 2%:R^-1 * (d *m A y *m d^T) 0 0.
  have -> : t = t0 + d by rewrite /d addrC subrK.
  by rewrite C66_derivatives -[_ + _ + _ * _]addrA [loss _ _ + _]addrC addrK.
congr (_ + _); pose r := (t0 *m u^T) 0 0 - c; pose al := (d *m u^T) 0 0.
have gz : grad z t0 = r *: u.
  by rewrite /QuadModel.grad Az bz mulmxA [t0 *m _]mx11_scalar mul_scalar_mx scalerBl.
have dz : d *m A z = al *: u by rewrite Az mulmxA [d *m u^T]mx11_scalar mul_scalar_mx.
rewrite gz dz -scalerDl -scalemxAl scalerA in dd.
have ea : al = (r + al) * h.
  by rewrite {1}/al dd -scalemxAl scaleE /h -/(Mx xs reg) -/M' [N^-1 * _]mulrC -!mulrA [N^-1 * _]mulrC.
have hn : 1 - h != 0 by rewrite subr_eq0 eq_sym; case/andP: hh => _ /lt_eqF ->.
have er : r + al = r / (1 - h).
  by apply: (canRL (mulfK hn)); rewrite mulrBr mulr1 -ea addrK.
rewrite dd gz er -!scalemxAl !scaleE; have nn : N != 0 by rewrite gt_eqF.
by rewrite invfM; move: N^-1 (1 - h)^-1 => p q; move: (_ 0 0) => w; have V (a : F) : p * (a * q) * w = a * w * (p * q) by [fnorm; ring]; exact: V.
Qed.
Lemma step_ring (p q r h e : F) : p - (p + - e * q + h * (- e * (- e * r))) + h * (e ^+ 2 * r) = e * q.
Proof. by rewrite expr2; fnorm; ring. Qed.
End Influence.

Section Tracin.
Variables (F : rcfType) (n : nat) (X : Type).
Variables (A : X -> 'M[F]_n) (b : X -> 'rV[F]_n) (k : X -> F) (eps : F).
Hypothesis sA : forall x, (A x)^T = A x.
Local Notation loss := (loss A b k).
Local Notation grad := (grad A b).
Local Notation tracin := (tracin A b eps).

(* a step of gradient descent on z *)
Definition gstep (eta : F) (z : X) (t : 'rV[F]_n) := t - eta *: grad z t.
Lemma gstep_loss eta z y t :
  loss y t - loss y (gstep eta z t) + 2%:R^-1 * (eta ^+ 2 * (grad z t *m A y *m (grad z t)^T) 0 0)
  = eta * (grad z t *m (grad y t)^T) 0 0.
Proof.
rewrite /gstep -scaleNr C66_derivatives // !linearZ /= -!scalemxAl -?scalemxAr !scaleE.
exact: step_ring.
Qed.
Lemma tracinE ts ws tr te :
  (0 < ld_bs tr)%N -> (0 < ld_bs te)%N -> ld_drop tr = false -> ld_drop te = false ->
  tracin ts ws tr te
  = Ok [seq [seq \sum_(c < size ws) ws`_c * (grad x (ts c) *m (grad y (ts c))^T) 0 0 | y <- ld_data te] | x <- ld_data tr].
Proof.
move=> h1 h2 h3 h4; rewrite /QuadModel.tracin C05_tracin_weighted_sum //; congr Ok.
apply: eq_map => x; apply: eq_map => y; apply: eq_bigr => c _; congr (_ * _).
rewrite [RHS]mxE; apply: eq_bigr => j _; congr (_ * _); by rewrite [RHS]mxE.
Qed.

(* The score is the decrease of the test loss by one step on the training sample at every checkpoint, up to the
   second order terms. *)
Theorem C66_tracin ts ws tr te i j x0 :
  (0 < ld_bs tr)%N -> (0 < ld_bs te)%N -> ld_drop tr = false -> ld_drop te = false ->
  (i < size (ld_data tr))%N -> (j < size (ld_data te))%N ->
  let z := nth x0 (ld_data tr) i in let y := nth x0 (ld_data te) j in
  exists2 out, tracin ts ws tr te = Ok out &
    nth 0 (nth [::] out i) j
    = \sum_(c < size ws) (loss y (ts c) - loss y (ts c - ws`_c *: grad z (ts c)))
      + 2%:R^-1 * \sum_(c < size ws) ws`_c ^+ 2 * (grad z (ts c) *m A y *m (grad z (ts c))^T) 0 0.
Proof.
move=> h1 h2 h3 h4 hi hj z y; eexists; first exact: tracinE.
rewrite (nth_map x0) // (nth_map x0) // -/z -/y mulr_sumr -big_split; apply: eq_bigr => c _ /=.
by rewrite gstep_loss.
Qed.

(* Training by single samples: the scores of the samples, each with the rates of the steps taken on it, share out
   the whole decrease of the test loss. *)
Theorem C66_tracin_run (ts : nat -> 'rV[F]_n) (eta : nat -> F) (sg : nat -> nat) T tr te j x0 :
  (0 < ld_bs tr)%N -> (0 < ld_bs te)%N -> ld_drop tr = false -> ld_drop te = false ->
  (j < size (ld_data te))%N -> (forall c, (c < T)%N -> (sg c < size (ld_data tr))%N) ->
  (forall c, (c < T)%N -> ts c.+1 = ts c - eta c *: grad (nth x0 (ld_data tr) (sg c)) (ts c)) ->
  let y := nth x0 (ld_data te) j in
  let rates i := mkseq (fun c => if sg c == i then eta c else 0) T in
  exists2 outs, forall i, (i < size (ld_data tr))%N -> tracin ts (rates i) tr te = Ok (outs i) &
    \sum_(i < size (ld_data tr)) nth 0 (nth [::] (outs i) i) j
    = loss y (ts 0%N) - loss y (ts T)
      + 2%:R^-1 * \sum_(c < T) ((ts c.+1 - ts c) *m A y *m (ts c.+1 - ts c)^T) 0 0.
Proof.
move=> h1 h2 h3 h4 hj hsg hts y rates.
exists (fun i => [seq [seq \sum_(c < size (rates i)) (rates i)`_c * (grad x (ts c) *m (grad y (ts c))^T) 0 0
   | y <- ld_data te] | x <- ld_data tr]) => [i _|]; first exact: tracinE.
transitivity (\sum_(c < T) eta c * (grad (nth x0 (ld_data tr) (sg c)) (ts c) *m (grad y (ts c))^T) 0 0).
  under eq_bigr => i _.
    rewrite (nth_map x0) // (nth_map x0) // -/y size_mkseq.
    under eq_bigr => c _ do rewrite nth_mkseq //.
    over.
  rewrite exchange_big; apply: eq_bigr => c _ /=.
  rewrite (bigD1 (Ordinal (hsg c (ltn_ord c)))) //= eqxx big1 ?addr0 // => i ne.
  by rewrite ifN ?mul0r // eq_sym.
have -> : loss y (ts 0%N) - loss y (ts T) = \sum_(c < T) (loss y (ts c) - loss y (ts c.+1)).
  elim: (T) => [|m IH]; first by rewrite big_ord0 subrr.
  by rewrite big_ord_recr /= -IH addrA subrK.
rewrite mulr_sumr -big_split; apply: eq_bigr => c _ /=; rewrite -gstep_loss hts //.
congr (_ - _ + _ * _); rewrite addrC addKr -scaleNr !linearZ /= -!scalemxAl -?scalemxAr !scaleE mulrA.
by rewrite mulrNN expr2.
Qed.
End Tracin.

(* The coefficient in first_order is determined. *)
Lemma first_order_unique (F : realFieldType) (P : F -> F -> Prop) a a' :
  first_order P a -> first_order P a' -> (forall e, 0 < e -> exists v, P e v) -> a = a'.
Proof.
move=> [K [r [r0 hK]]] [K' [r' [r0' hK']]] ex; apply/eqP; case: (a =P a') => // /eqP ne.
have c0 : 0 < `|a - a'| by rewrite normr_gt0 subr_eq0.
set c := `|a - a'| in c0 *.
pose q := r^-1 + (r'^-1 + (1 + (`|K| + `|K'|) / c)); pose e := q^-1.
have k0 : 0 <= (`|K| + `|K'|) / c by rewrite divr_ge0 ?addr_ge0 // ltW.
have i1 : 0 < r^-1 by rewrite invr_gt0.
have i2 : 0 < r'^-1 by rewrite invr_gt0.
have q0 : 0 < q by rewrite addr_gt0 // addr_gt0 // ltr_spaddl ?ltr01.
have e0 : 0 < e by rewrite invr_gt0.
have er : `|e| < r by rewrite gtr0_norm // -[r]invrK ltf_pinv ?posrE // ltr_addl addr_gt0 // ltr_spaddl ?ltr01.
have er' : `|e| < r'.
  rewrite gtr0_norm // -[r']invrK ltf_pinv ?posrE // /q addrCA ltr_addl addr_gt0 // ltr_spaddl ?ltr01 //.
have ek : (`|K| + `|K'|) * e < c.
  rewrite /e ltr_pdivr_mulr // mulrC -ltr_pdivr_mulr // /q !addrA ltr_addr addr_gt0 ?ltr01 // addr_gt0 //.
have [v Pv] := ex e e0.
have := ler_add (hK e v er Pv) (hK' e v er' Pv); rewrite -mulrDl leNgt => /negP [].
apply: (@lt_le_trans _ _ (c * e)).
  rewrite expr2 mulrA ltr_pmul2r //; apply: le_lt_trans ek; rewrite ler_pmul2r //.
  by rewrite ler_add ?ler_norm.
have -> : c * e = `|(v - a' * e) - (v - a * e)|.
  have -> : v - a' * e - (v - a * e) = (a - a') * e by rewrite mulrBl opprB addrCA [v - _]addrC addrK [RHS]addrC addrC.
  by rewrite normrM /c (gtr0_norm e0).
by rewrite (le_trans (ler_norm_sub _ _)) // addrC.
Qed.

Section Refuted.
Variable F : realFieldType.
(* least squares in one dimension, samples (input 1, label c) *)
Let A (_ : F) : 'M[F]_1 := 1%:M.
Let b (c : F) : 'rV[F]_1 := c%:M.
Let k (c : F) : F := c ^+ 2 / 2%:R.
Let xs : seq F := [:: 1; -1].
Let sA c : (A c)^T = A c. Proof. exact: trmx1. Qed.
Let xs_cx j : (j < size xs)%N -> convex A (nth 0 xs j).
Proof. by move=> _ d; rewrite mulmx1 sqnorm_ge0. Qed.
Let hessE ys : (0 < size ys)%N -> hess A ys = 1%:M.
Proof.
move=> h; rewrite /hess big_const_seq count_predT iter_addr_0 -scaler_nat scalerA mulVf ?scale1r //.
by rewrite pnatr_eq0 -lt0n.
Qed.
Let uM : hess A xs + 1%:M \in unitmx.
Proof. by rewrite hessE // -raddfD unitmxE det_scalar1 unitfE (_ : 1 + 1 = 2%:R) // pnatr_eq0. Qed.
Let ex_min e : 0 <= e -> exists t, minimises (objective (loss A b k) xs 1 1 e) t.
Proof.
move=> e0; have [||t [mt _]] := @C66_trained F 1 F A b k sA xs 1 0 0 e xs_cx ltr01; last by exists t.
  by [].
by apply: le_trans e0; rewrite oppr_le0 invr_ge0 ler0n.
Qed.
Let xs_min : minimises (objective (loss A b k) xs 1 1 0) 0.
Proof.
have [t mt] := ex_min (lexx 0); suff e : t = 0 by rewrite -e.
have := stationary sA mt; rewrite !scale0r !addr0 /bbar !big_cons big_nil addr0 /b -raddfD addrN raddf0 scaler0.
by move=> h; rewrite -[t](mulmxK uM) h mul0mx.
Qed.

(* With several batches the scores are not the derivatives any more: the same data and model, batch size 1. *)
Theorem C66_batches_refuted :
  exists (A : F -> 'M[F]_1) (b : F -> 'rV[F]_1) (k : F -> F) (xs : seq F) (reg : F) t0 z out,
    [/\ forall x, (A x)^T = A x, 0 < reg, minimises (objective (loss A b k) xs reg z 0) t0,
        influence A b reg t0 (Loader xs 1 false) (Loader [:: z] 1 false) (Loader [:: z] 1 false) = Ok out
      & ~ first_order (fun e v => exists2 t, minimises (objective (loss A b k) xs reg z e) t
                                           & v = loss A b k z t - loss A b k z t0)
                      (- nth 0 (nth [::] out 0) 0)].
Proof.
have [o oE fo] := C66_influence (bs := 2) (reg := 1) (tr := Loader [:: 1] 1 false) (te := Loader [:: 1] 1 false)
   (i := 0) (j := 0) (x0 := 0) (xs := xs) sA isT uM isT isT erefl erefl isT isT xs_min.
exists A, b, k, xs, 1, 0, 1, [:: [:: nth 0 (nth [::] o 0) 0 + nth 0 (nth [::] o 0) 0]]; split=> //.
- exact: ltr01.
- have E v : transform A 1 (Loader xs 1 false) v = 2%:R *: (invmx (hess A xs + 1%:M) *m v^T)^T.
    rewrite /transform (@C13_if_equal_batches _ _ _ _ _ _ _ _ 1%:M) //.
    + by rewrite (hessE (ys := xs)).
    + by move=> [|[|i]] // _; rewrite hessE.
    by rewrite -{1}(hessE (ys := xs)).
  move: oE; rewrite influenceE // => -[<-] /=.
  rewrite /influence C03_attribute_is_checkpoint_mean //; congr Ok; rewrite /= big_ord1 divr1.
  congr [:: [:: _]]; rewrite E -mulmxA.
  have D (w : F) : w + w = 2%:R * w by rewrite mulrDl mul1r.
  rewrite [RHS]D [X in _ = _ * X]mxE mulr_sumr.
  by apply: eq_bigr => i _; rewrite [X in _ * X = _]mxE [X in _ * (_ * X) = _]mxE mulrCA.
move=> fo'; have h := first_order_unique fo fo'.
have {h} /oppr_inj /= : - (nth [::] o 0)`_0 = - ((nth [::] o 0)`_0 + (nth [::] o 0)`_0).
  apply: h => e /ltW /ex_min [t mt]; eexists; exists t; [exact: mt|reflexivity].
move: oE; rewrite influenceE // => -[<-] /=.
rewrite /Mx hessE // -raddfD invmx_scalar /grad mul0mx sub0r /b mulNmx mulNmx linearN /= mulmxN opprK.
rewrite tr_scalar_mx mul1mx mulmx1 !mxE eqxx mulr1n => /eqP.
by rewrite -subr_eq subrr eq_sym invr_eq0 (_ : 1 + 1 = 2%:R) // pnatr_eq0.
Qed.

(* Non-vacuity: the hypotheses of C66_influence, C66_trained and C66_loo hold for these two samples. *)
Example C66_nonvacuous :
  [/\ forall x, (A x)^T = A x,
      forall j, (j < size xs)%N -> convex A (nth 0 xs j),
      hess A xs + 1%:M \in unitmx, minimises (objective (loss A b k) xs 1 1 0) 0
    & exists t, minimises (without (loss A b k) xs 1 0) t] /\
  A 1 = (1%:M : 'rV[F]_1)^T *m 1%:M /\ b 1 = 1 *: (1%:M : 'rV[F]_1) /\ grad A b 1 0 != 0.
Proof.
split; [split=> //|].
  have [||t [mt _]] := @C66_trained F 1 F A b k sA xs 1 0 0 (- (size xs)%:R^-1) xs_cx ltr01; rewrite ?lexx //.
  by exists t => t'; rewrite !(@C66_remove _ _ _ A b k _ _ 0 0).
rewrite trmx1 mulmx1 scale1r /grad mul0mx sub0r oppr_eq0 /b; do 2 (split=> //).
by apply/eqP => /matrixP /(_ 0 0); rewrite !mxE eqxx mulr1n => /eqP; rewrite oner_eq0.
Qed.
End Refuted.
(* a run of two steps on samples 0 and 1 *)
Example C66_run_nonvacuous (F : rcfType) :
  let A (_ : F) : 'M[F]_1 := 1%:M in let b (c : F) : 'rV[F]_1 := c%:M in
  exists ts : nat -> 'rV[F]_1, ts 0%N = 0 /\
    forall c, (c < 2)%N -> ts c.+1 = ts c - 2%:R^-1 *: grad A b (nth 0 [:: 1; -1] c) (ts c).
Proof.
move=> A b; exists (nat_rect (fun=> 'rV[F]_1) 0 (fun c t => t - 2%:R^-1 *: grad A b (nth 0 [:: 1; -1] c) t)).
by split.
Qed.

Print Assumptions C66_derivatives.
Print Assumptions C66_influence.
Print Assumptions C66_trained.
Print Assumptions C66_remove.
Print Assumptions C66_loo.
Print Assumptions C66_tracin.
Print Assumptions C66_tracin_run.
Print Assumptions C66_batches_refuted.
