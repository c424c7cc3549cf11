(* C09 explicit products, C10 conjugate gradient, C11 LiSSA, C13 influence
   functions over batches. *)
Set Warnings "-notation-overridden,-ambiguous-paths".
From mathcomp Require Import all_ssreflect all_algebra zify.
From Verif Require Import Py Tensor LinAlg IhvpModel IhvpSpec IhvpProof.
Set Implicit Arguments. Unset Strict Implicit. Unset Printing Implicit Defensive.
Import Order.TTheory GRing.Theory Num.Theory.
Local Open Scope ring_scope.

(* ---------- C09 ---------- *)

(* Both differentiation modes give H v + reg v, whichever of the k arguments is
   differentiated, provided the Hessian block is symmetric (equality of mixed
   partial derivatives); any other mode is an error *)
Theorem C09_hvp_modes_agree (F : fieldType) k (dims : 'I_k -> nat) (a : 'I_k)
    (J : forall i : 'I_k, 'M[F]_(dims a, dims i)) (reg : F) (v : 'cV[F]_(dims a)) :
  symmetric (J a) ->
  hvp J RevRev reg v = Ok ((J a + reg%:M) *m v) /\
  hvp J RevFwd reg v = Ok ((J a + reg%:M) *m v) /\
  hvp J OtherMode reg v = Err IHVPUsageError.
Proof.
by move=> sJ; rewrite /hvp patched_sum sJ mulmxDl mul_scalar_mx.
Qed.
Print Assumptions C09_hvp_modes_agree.

Lemma rowT_solve (F : fieldType) n m (A : 'M[F]_n) (v : 'M[F]_(m, n)) i :
  (row i (invmx A *m v^T)^T)^T = invmx A *m (row i v)^T.
Proof. by apply/colP => k; rewrite !mxE; apply: eq_bigr => j _; rewrite !mxE. Qed.

(* every row of the result solves the damped system for that row of v, and it is
   the only solution; a singular system raises *)
Theorem C09_explicit_solves (F : fieldType) n m (H : 'M[F]_n) (reg : F) (v : 'M[F]_(m, n)) :
  match ihvp_explicit H reg v with
  | Ok r => forall i (y : 'cV[F]_n), (H + reg%:M) *m y = (row i v)^T <-> y = (row i r)^T
  | Err e => e = RuntimeError /\ exists2 y : 'cV[F]_n, y != 0 & (H + reg%:M) *m y = 0
  end.
Proof.
rewrite /ihvp_explicit; case: ifP => [u|/negbT nu].
  move=> i y; rewrite rowT_solve; split=> [<-|->]; first by rewrite mulKmx.
  by rewrite mulKVmx.
split=> //; move: nu; rewrite -unitmx_tr -row_free_unit -kermx_eq0 => /rowV0Pn [w].
move=> /sub_kermxP hw w0; exists w^T; first by rewrite -trmx0 (inj_eq (@trmx_inj _ _ _)).
by apply: trmx_inj; rewrite trmx_mul trmxK hw trmx0.
Qed.
Print Assumptions C09_explicit_solves.

(* positive damping of a positive semi-definite Hessian never raises *)
Theorem C09_explicit_damped (F : realFieldType) n m (H : 'M[F]_n) (reg : F) (v : 'M[F]_(m, n)) :
  (forall w : 'rV[F]_n, 0 <= (w *m H *m w^T) 0 0) -> 0 < reg ->
  exists r, ihvp_explicit H reg v = Ok r.
Proof.
move=> psd r0; rewrite /ihvp_explicit ifT; first by eexists.
apply: posdef_unit => w w0; rewrite mulmxDr mulmxDl mxE mul_mx_scalar -scalemxAl.
by apply: ltr_paddl => //; rewrite mxE mulr_gt0 // sqnorm_gt0.
Qed.
Print Assumptions C09_explicit_damped.

(* the explicit inverse-Fisher product does not use g'g: its matrix has |g|^2 in
   every entry. With g = (1, 0) and reg = 1 the answers differ *)
Theorem C09_ifvp_refuted :
  exists (g v : 'rV[rat]_2) (r : 'M[rat]_(1, 2)),
    ifvp_explicit g 1 v = Ok r /\
    (g^T *m g + 1%:M) *m r^T <> v^T.
Proof.
pose g : 'rV[rat]_2 := \row_(j < 2) (j == 0)%:R.
exists g, g; pose A := \matrix_(i < 2, j < 2) (1 + (1%:M : 'M[rat]_2) i j).
have gg : (g *m g^T) 0 0 = 1 by rewrite mxE !big_ord_recl big_ord0 !mxE.
have AE : (\matrix_(i, j) ((g *m g^T) 0 0 + (1%:M : 'M[rat]_2) i j)) = A by rewrite gg.
have dA : \det A = 3%:R.
  by rewrite (expand_det_row _ ord0) !big_ord_recl big_ord0 /cofactor !det_mx11 !mxE.
have uA : A \in unitmx by rewrite unitmxE unitfE dA.
rewrite /ifvp_explicit AE uA; eexists; split; first by [].
rewrite trmxK => e.
have rE : invmx A *m g^T = \col_(i < 2) (if i == 0 then 2%:R / 3%:R else - (1 / 3%:R)).
  apply: (can_inj (mulKmx uA)); rewrite mulKVmx //; apply/colP => i.
  rewrite !mxE !big_ord_recl big_ord0 !mxE; case: i => [[|[|i]]] hi //=; apply/eqP; by vm_compute.
move/colP/(_ 0): e; rewrite rE !mxE !big_ord_recl !big_ord0 !mxE !big_ord1 !mxE => /eqP.
by vm_compute.
Qed.
Print Assumptions C09_ifvp_refuted.

(* ---------- C10 ---------- *)

(* For a symmetric positive definite matrix there is one iteration count
   k* <= dim at which the loop holds the exact solution: fewer iterations give a
   finite vector that is not the solution, exactly k* give it, more give nan *)
Theorem C10_cg_exact_count (F : realFieldType) n (A : 'M[F]_n) (v : 'cV[F]_n) :
  symmetric A -> posdef A ->
  exists2 ks, (ks <= n)%N &
    forall k,
      ((k < ks)%N -> exists2 x, cg1 (mulmx A) k v = Some x & A *m x <> v) /\
      (k = ks -> exists2 x, cg1 (mulmx A) k v = Some x & A *m x = v) /\
      ((ks < k)%N -> cg1 (mulmx A) k v = None).
Proof.
move=> sA pA; have [ks le [g0 nz]] := stop_ex sA pA v.
exists ks => // k; split=> [h|]; last split=> [->|h].
- have e := @loopE _ _ _ sA pA v k (fun i hi => nz i (ltn_trans hi h)).
  rewrite /cg1 e /=; eexists; first by [].
  move=> hx; have := nz _ h; by rewrite (res_inv A v) hx subrr eqxx.
- rewrite /cg1 (loopE sA pA nz) /=; eexists; first by [].
  by have := res_inv A v ks; rewrite g0 => /esym/eqP; rewrite subr_eq0 => /eqP <-.
- by rewrite /cg1 (loop_stop sA pA nz g0 h).
Qed.
Print Assumptions C10_cg_exact_count.

(* While finite, the k-th iterate is the best approximation from
   v + Krylov_k(A, v - A v) in the energy norm: it lies in that space and beats
   every other member *)
Theorem C10_cg_optimal (F : realFieldType) n (A : 'M[F]_n) (v xs x : 'cV[F]_n) k :
  symmetric A -> posdef A -> A *m xs = v ->
  cg1 (mulmx A) k v = Some x ->
  krylov A (v - A *m v) k (x - v) /\
  forall y, krylov A (v - A *m v) k y -> energy A (xs - x) <= energy A (xs - (v + y)).
Proof.
move=> sA pA hx; have [ks le [g0 nz]] := stop_ex sA pA v.
have [h|h] := leqP k ks; last by rewrite /cg1 (loop_stop sA pA nz g0 h).
rewrite /cg1 (loopE sA pA) => [|i hi]; last by apply: nz; lia.
move=> [<-]; split; first exact: krylov_x.
by move=> y hy; apply: (cg_best sA pA hx nz h).
Qed.
Print Assumptions C10_cg_optimal.

(* every further iteration strictly reduces the energy of the error *)
Theorem C10_cg_monotone (F : realFieldType) n (A : 'M[F]_n) (v xs x y : 'cV[F]_n) k :
  symmetric A -> posdef A -> A *m xs = v ->
  cg1 (mulmx A) k v = Some x -> cg1 (mulmx A) k.+1 v = Some y ->
  energy A (xs - y) < energy A (xs - x).
Proof.
move=> sA pA hx; have [ks le [g0 nz]] := stop_ex sA pA v.
have [h|h] := leqP k.+1 ks; last by rewrite /cg1 (loop_stop sA pA nz g0 h) => _.
have nz' i : (i < k.+1)%N -> cg_g (tst A v i) != 0 by move=> hi; apply: nz; lia.
rewrite /cg1 !(loopE sA pA) //= => [|i hi]; last by apply: nz; lia.
move=> [<-] [<-]; have [-> p] := energy_step sA pA hx nz'.
by rewrite ltr_subl_addr ltr_addl.
Qed.
Print Assumptions C10_cg_monotone.

(* H = I: the start vector already is the solution, and one iteration destroys it;
   in general this happens whenever v - H v = 0 *)
Theorem C10_cg_identity_refuted (F : realFieldType) n (v : 'cV[F]_n) k :
  cg1 (mulmx 1%:M) 0 v = Some v /\ cg1 (mulmx 1%:M) k.+1 v = None.
Proof.
split=> //; rewrite /cg1 /= /cg_step /= mul1mx subrr mulmx0.
by rewrite /dot trmx0 mul0mx mxE eqxx.
Qed.
Print Assumptions C10_cg_identity_refuted.

(* rows of a batch of vectors are treated separately *)
Theorem C10_cg_rowwise (F : fieldType) n (hv : 'cV[F]_n -> 'cV[F]_n) k (us ws : seq 'cV[F]_n) :
  ihvp_cg hv k (us ++ ws) = ihvp_cg hv k us ++ ihvp_cg hv k ws /\
  forall i, (i < size us)%N -> nth None (ihvp_cg hv k us) i = cg1 hv k (nth 0 us i).
Proof. by split=> [|i hi]; [exact: map_cat | rewrite (nth_map 0)]. Qed.
Print Assumptions C10_cg_rowwise.

(* ---------- C11 ---------- *)

(* all batches have the same Hessian: the truncated Neumann series *)
Theorem C11_lissa_series (F : fieldType) n (d s : F) (H : 'M[F]_n) hess R T (v : 'cV[F]_n) :
  R.+1%:R != 0 :> F -> s != 0 -> (forall r t, hess r t = H) ->
  exists2 x, lissa d s hess R.+1 T v = Ok x &
    x = s^-1 *: neumann ((1 - d)%:M - s^-1 *: H) T v /\
    (H + (d * s)%:M) *m x = v - iter T.+1 (mulmx ((1 - d)%:M - s^-1 *: H)) v.
Proof.
move=> nz s0 hH; eexists; first by rewrite /lissa.
have -> : R.+1%:R^-1 *: (\sum_(r < R.+1) lissa_repeat d s (hess r) T v)
   = s^-1 *: neumann (contraction d s H) T v.
  rewrite (eq_bigr (fun=> s^-1 *: neumann (contraction d s H) T v)).
    by rewrite sumr_const card_ord -scaler_nat scalerA mulVf // scale1r.
  by move=> r _; rewrite /lissa_repeat (lissa_fold _ _ _ _ (hH r)).
split=> //; rewrite -neumann_residual -/(contraction d s H) -scalemxAr scalemxAl; congr (_ *m _).
have dE : (1 - d)%:M = 1%:M - d%:M :> 'M[F]_n by rewrite raddfB.
have sE : s^-1 *: (d * s)%:M = d%:M :> 'M[F]_n by rewrite scale_scalar_mx mulrC mulfK.
rewrite scalerDr sE /contraction dE opprB opprB [RHS]addrCA; congr (_ + _).
by rewrite addrCA subrr addr0.
Qed.
Print Assumptions C11_lissa_series.

(* along an eigenvector the error is a power: this is what makes it converge iff
   |1 - d - lambda/s| < 1 *)
Theorem C11_lissa_eigen (F : fieldType) n (d s lam : F) (H : 'M[F]_n) hess R T (v : 'cV[F]_n) :
  R.+1%:R != 0 :> F -> s != 0 -> (forall r t, hess r t = H) -> lam + d * s != 0 ->
  H *m v = lam *: v ->
  lissa d s hess R.+1 T v
  = Ok (((1 - (1 - d - lam / s) ^+ T.+1) / (lam + d * s)) *: v).
Proof.
move=> nz s0 hH l0 e; have [x -> [-> _]] := C11_lissa_series d T v nz s0 hH.
congr Ok; have ev : contraction d s H *m v = (1 - d - lam / s) *: v.
  by rewrite /contraction mulmxBl mul_scalar_mx -scalemxAl e scalerA -scalerBl mulrC.
rewrite -/(contraction d s H) /neumann; under eq_bigr do rewrite (iter_eigen _ ev).
rewrite -scaler_suml scalerA; congr (_ *: _).
set q := 1 - d - _; have q1 : 1 - q = (lam + d * s) / s.
  by rewrite /q -addrA -opprD opprB addrCA subrr addr0 mulrDl mulfK // addrC.
have := subrX1 q T.+1; rewrite -[q ^+ T.+1 - 1]opprB -[q - 1]opprB mulNr => /oppr_inj ->.
rewrite q1 mulrC; set S := \sum_(_ < _) _.
by move: S => S; rewrite -(mulrA _ s^-1) mulrAC mulfV // mul1r mulrC.
Qed.
Print Assumptions C11_lissa_eigen.

(* randomly drawn batches: averaged over all equally likely sequences of T draws,
   one repeat gives the series for the average Hessian *)
Theorem C11_lissa_unbiased (F : fieldType) n (d s : F) (Hs : seq 'M[F]_n) T (v : 'cV[F]_n) :
  (size Hs)%:R != 0 :> F ->
  average [seq lissa_repeat d s (nth 0 hs) T v | hs <- draws Hs T]
  = s^-1 *: neumann ((1 - d)%:M - s^-1 *: average Hs) T v.
Proof.
move=> nz; rewrite -/(contraction d s (average Hs)) -(average_run _ _ _ _ nz).
rewrite /average !size_map !big_map [RHS]scalerA [s^-1 * _]mulrC -[RHS]scalerA; congr (_ *: _); rewrite scaler_sumr.
have : all (fun hs => size hs == T) (draws Hs T).
  elim: T => //= T IH; apply/allP => hs /allpairsP [[a b] [/= ha _ ->]].
  by rewrite size_rcons eqSS (allP IH).
move=> /allP hs; rewrite !big_seq; apply: eq_bigr => h /hs /eqP hT.
rewrite /lissa_repeat /run; congr (_ *: _).
rewrite -[in RHS](mkseq_nth 0 h) hT /mkseq; move: {2 4}v => w.
by elim: (iota 0 T) w => //= t l IH w; exact: IH.
Qed.
Print Assumptions C11_lissa_unbiased.

(* what a draw is: min(batch_size, n) distinct samples; all of them (permuted)
   when batch_size >= n *)
Theorem C11_sample_batch (X : eqType) (x0 : X) (perm : seq nat) (bs : nat) (xs : seq X) :
  perm_eq perm (iota 0 (size xs)) ->
  exists2 idx, sample_batch x0 perm bs xs = [seq nth x0 xs i | i <- idx] &
    [/\ uniq idx, all (fun i => (i < size xs)%N) idx, size idx = minn bs (size xs)
      & ((size xs <= bs)%N -> perm_eq (sample_batch x0 perm bs xs) xs)].
Proof.
move=> hp; exists (take bs perm) => //; have sz := perm_size hp; rewrite size_iota in sz.
split.
- by rewrite take_uniq // (perm_uniq hp) iota_uniq.
- apply/allP => i /mem_take; by rewrite (perm_mem hp) mem_iota.
- by rewrite size_take_min sz.
- move=> le; rewrite /sample_batch take_oversize ?sz //.
  by apply: perm_trans (perm_map _ hp) _; rewrite map_nth_iota0 // take_size.
Qed.
Print Assumptions C11_sample_batch.

(* full batch: with a permutation-invariant loss the random order is irrelevant *)
Theorem C11_lissa_full_batch (F : fieldType) n (X : eqType) (x0 : X) (bhess : seq X -> 'M[F]_n)
    perm (xs : seq X) bs R T (d s : F) (v : 'cV[F]_n) :
  (forall a b, perm_eq a b -> bhess a = bhess b) ->
  (forall r t, perm_eq (perm r t) (iota 0 (size xs))) ->
  (size xs <= bs)%N -> R.+1%:R != 0 :> F -> s != 0 ->
  exists2 x, ihvp_lissa x0 bhess perm xs bs R.+1 T d s v = Ok x &
    (bhess xs + (d * s)%:M) *m x
    = v - iter T.+1 (mulmx ((1 - d)%:M - s^-1 *: bhess xs)) v.
Proof.
move=> inv hp le nz s0; rewrite /ihvp_lissa.
have [|x -> [_ hx]] := @C11_lissa_series F n d s (bhess xs)
  (fun r t => bhess (sample_batch x0 (perm r t) bs xs)) R T v nz s0; last by exists x.
by move=> r t; apply: inv; have [idx _ [_ _ _]] := C11_sample_batch x0 bs (hp r t); apply.
Qed.
Print Assumptions C11_lissa_full_batch.

(* num_repeat = 0 raises *)
Theorem C11_lissa_no_repeat (F : fieldType) n (d s : F) hess T (v : 'cV[F]_n) :
  lissa d s hess 0 T v = Err RuntimeError.
Proof. by []. Qed.
Print Assumptions C11_lissa_no_repeat.

(* ihvp_at_x_lissa swaps batch_size and num_repeat: asked for one repeat on the
   full batch of two samples it runs single-sample batches *)
Theorem C11_at_x_swapped_refuted :
  exists (xs : seq rat) (bhess : seq rat -> 'M[rat]_1) (perm : nat -> nat -> seq nat) x y (v : 'cV[rat]_1),
    (forall r t, perm_eq (perm r t) (iota 0 (size xs))) /\
    ihvp_lissa 0 bhess perm xs (size xs) 1 1 0 1 v = Ok x /\
    ihvp_at_x_lissa 0 bhess perm xs (size xs) 1 1 0 1 v = Ok y /\ x <> y.
Proof.
exists [:: 0; 2%:R], (fun b => ((\sum_(h <- b) h) / (size b)%:R)%:M), (fun _ _ => [:: 0; 1]%N).
do 2 eexists; exists (const_mx 1); split; first by [].
split; first by []; split; first by [].
move/matrixP/(_ 0 0); rewrite !big_ord_recl !big_ord0 /lissa_repeat /= /lissa_step /sample_batch /=.
rewrite !big_cons !big_nil /= !mul_scalar_mx !mxE => /eqP; by vm_compute.
Qed.
Print Assumptions C11_at_x_swapped_refuted.

(* the sample count LiSSA uses: the common size of all batched arguments, 1 when
   no argument is batched, an error when they differ *)
Theorem C11_check_input_size (shapes : seq (seq nat)) (dims : seq (option nat)) b :
  check_input_size shapes (Some dims) = Ok b <->
  size dims = size shapes /\
  (forall i d, nth None dims i = Some d -> (d < size (nth [::] shapes i))%N /\ nth 0%N (nth [::] shapes i) d = b) /\
  (all (fun d => d == None) dims -> b = 1%N).
Proof. exact: check_input_sizeP. Qed.
Print Assumptions C11_check_input_size.
(* without in_dims every argument is batched along its first dimension *)
Theorem C11_default_dims (shapes : seq (seq nat)) b : shapes <> [::] ->
  check_input_size shapes None = Ok b <-> all (fun s => if s is n :: _ then n == b else false) shapes.
Proof.
move=> ne; have -> : check_input_size shapes None = check_input_size shapes (Some (nseq (size shapes) (Some 0%N))) by [].
rewrite check_input_sizeP; split.
  move=> [_ [H _]]; apply/(all_nthP [::]) => i hi.
  by have := H i 0%N; rewrite nth_nseq hi => /(_ erefl) []; case: (nth _ _ _) => //= n s _ ->.
move=> /(all_nthP [::]) H; split; first by rewrite size_nseq.
split; last by case: shapes ne H.
move=> i d; rewrite nth_nseq; case: ifP => // hi [<-].
by have := H i hi; case: (nth _ _ _) => //= n s /eqP ->.
Qed.
Print Assumptions C11_default_dims.
Example ex_default_dims : check_input_size [:: [:: 5; 2]; [:: 5]]%N None = Ok 5%N.
Proof. by apply/C11_default_dims. Qed.

(* ---------- C13 ---------- *)

(* the transformed test rows are the sum of the per-batch results, in every
   implementation (explicit, CG, LiSSA) *)
Theorem C13_if_sums_batches (F : fieldType) n m (X : Type)
    (inv : seq X -> 'M[F]_(m, n) -> res 'M[F]_(m, n)) (f : seq X -> 'M[F]_(m, n)) (l : loader X) rep :
  (0 < nbatches l)%N ->
  (forall k, (k < nbatches l)%N -> inv (batch l k) rep = Ok (f (batch l k))) ->
  if_transform true inv l rep = Ok (Some (\sum_(k < nbatches l) f (batch l k))).
Proof.
move=> h0 hf; have := if_transform_sum hf.
by case: (nbatches l) h0.
Qed.
Print Assumptions C13_if_sums_batches.

(* hence for the explicit inverse: if every batch has an invertible damped
   Hessian, each row is multiplied by the sum of the batch inverses *)
Theorem C13_if_explicit (F : fieldType) n m (X : Type) (H : seq X -> 'M[F]_n) (reg : F) (l : loader X)
    (rep : 'M[F]_(m, n)) :
  (0 < nbatches l)%N ->
  (forall k, (k < nbatches l)%N -> H (batch l k) + reg%:M \in unitmx) ->
  if_transform true (fun b => ihvp_explicit (H b) reg) l rep
  = Ok (Some (((\sum_(k < nbatches l) invmx (H (batch l k) + reg%:M)) *m rep^T)^T)).
Proof.
move=> h0 hu; rewrite (@C13_if_sums_batches _ _ _ _ _ (fun b => (invmx (H b + reg%:M) *m rep^T)^T)) //.
  by congr (Ok (Some _)); rewrite mulmx_suml linear_sum.
by move=> k hk; rewrite /ihvp_explicit hu.
Qed.
Print Assumptions C13_if_explicit.

(* one batch: the inverse for the whole data.  Equal batches: that inverse times
   the number of batches, so the scale of all scores depends on the batch size *)
Theorem C13_if_single_batch (F : fieldType) n m (X : Type) (H : seq X -> 'M[F]_n) (reg : F) (xs : seq X)
    (rep : 'M[F]_(m, n)) bs :
  (0 < size xs <= bs)%N ->
  if_transform true (fun b => ihvp_explicit (H b) reg) (Loader xs bs false) rep
  = rmap Some (ihvp_explicit (H xs) reg rep).
Proof.
move=> /andP [h0 hb].
have e : nbatches (Loader xs bs false) = 1%N.
  rewrite /nbatches /=; apply/eqP; rewrite eqn_leq; apply/andP; split.
    by rewrite -ltnS ltn_divLR; lia.
  by rewrite leq_divRL; lia.
rewrite /if_transform /enum_batches e /= /batch /= mul0n drop0 take_oversize //.
by case: ihvp_explicit.
Qed.
Print Assumptions C13_if_single_batch.

Theorem C13_if_equal_batches (F : fieldType) n m (X : Type) (H : seq X -> 'M[F]_n) (reg : F) (l : loader X)
    (rep : 'M[F]_(m, n)) (H0 : 'M[F]_n) :
  (0 < nbatches l)%N -> (forall k, (k < nbatches l)%N -> H (batch l k) = H0) -> H0 + reg%:M \in unitmx ->
  if_transform true (fun b => ihvp_explicit (H b) reg) l rep
  = Ok (Some ((nbatches l)%:R *: (invmx (H0 + reg%:M) *m rep^T)^T)).
Proof.
move=> h0 hH u; rewrite (@C13_if_sums_batches _ _ _ _ _ (fun=> (invmx (H0 + reg%:M) *m rep^T)^T)) //.
  by rewrite sumr_const card_ord scaler_nat.
by move=> k hk; rewrite hH // /ihvp_explicit u.
Qed.
Print Assumptions C13_if_equal_batches.

(* two identical samples, mean loss: batch size 1 doubles the result *)
Theorem C13_if_batch_size_refuted :
  exists (xs : seq rat) (H : seq rat -> 'M[rat]_1) (rep : 'M[rat]_(1, 1)) a b,
    if_transform true (fun c => ihvp_explicit (H c) 0) (Loader xs 2 false) rep = Ok (Some a) /\
    if_transform true (fun c => ihvp_explicit (H c) 0) (Loader xs 1 false) rep = Ok (Some b) /\
    a <> b.
Proof.
pose H (b : seq rat) : 'M[rat]_1 := ((\sum_(h <- b) h) / (size b)%:R)%:M.
have HE k (l : loader rat) : (forall k, batch l k = nseq (size (batch l k)) 1) -> (0 < size (batch l k))%N ->
    H (batch l k) = 1%:M.
  move=> -> ; rewrite size_nseq => h; rewrite /H big_nseq size_nseq iter_addr_0 mulfV //.
  by rewrite pnatr_eq0 -lt0n.
have u : (1%:M + 0%:M : 'M[rat]_1) \in unitmx.
  by rewrite (_ : 0%:M = 0) ?addr0 ?unitmx1 //; apply/matrixP => i j; rewrite !mxE mul0rn.
exists [:: 1; 1], H, 1%:M; do 2 eexists.
split; first by rewrite (@C13_if_equal_batches _ _ _ _ _ _ _ _ 1%:M) // => [[|k]] //; rewrite /H /batch /= !big_cons big_nil.
split; first by rewrite (@C13_if_equal_batches _ _ _ _ _ _ _ _ 1%:M) // => [[|[|k]]] //; rewrite /H /batch /= !big_cons big_nil.
rewrite (_ : 0%:M = 0) ?addr0 ?invmx1 ?trmx1 ?mul1mx; last by apply/matrixP => i j; rewrite !mxE mul0rn.
by move/matrixP/(_ 0 0); rewrite !mxE => /eqP; vm_compute.
Qed.
Print Assumptions C13_if_batch_size_refuted.

(* one singular batch makes the whole call raise, even when the whole-data
   Hessian is invertible; an empty loader gives no tensor at all *)
Theorem C13_if_singular_batch (F : fieldType) n m (X : Type) (H : seq X -> 'M[F]_n) (reg : F) (l : loader X)
    (rep : 'M[F]_(m, n)) k :
  (k < nbatches l)%N -> H (batch l k) + reg%:M \notin unitmx ->
  if_transform true (fun b => ihvp_explicit (H b) reg) l rep = Err RuntimeError.
Proof. exact: if_transform_singular. Qed.
Print Assumptions C13_if_singular_batch.

(* ---------- non-vacuity ---------- *)
Example C10_nonvacuous : exists A : 'M[rat]_2,
  [/\ symmetric A, posdef A & exists v : 'cV[rat]_2, v - A *m v != 0].
Proof.
exists (2%:R)%:M; split.
- by rewrite /symmetric tr_scalar_mx.
- by move=> v v0; rewrite mul_mx_scalar -scalemxAl mxE mulr_gt0 // sqnorm_gt0.
- exists (const_mx 1); apply/eqP => /colP /(_ 0); rewrite mul_scalar_mx !mxE => /eqP; by vm_compute.
Qed.
Example C11_nonvacuous : (3%:R != 0 :> rat) /\ perm_eq [:: 1; 0; 2]%N (iota 0 3)
  /\ check_input_size [:: [:: 5; 2]; [:: 3; 5]]%N (Some [:: Some 0; Some 1]%N) = Ok 5%N.
Proof. by []. Qed.
Example C13_nonvacuous : nbatches (Loader [:: 1; 2; 3; 4; 5]%N 2 false) = 3%N /\
  ((1%:M : 'M[rat]_2) \in unitmx).
Proof. by split; rewrite ?unitmx1. Qed.
