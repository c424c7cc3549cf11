(* C07: TRAK. *)
Set Warnings "-notation-overridden,-ambiguous-paths".
From mathcomp Require Import all_ssreflect all_algebra zify.
From Verif Require Import Py Tensor TensorProof AttrModel AttrProof LinAlg TrakModel TrakSpec TrakProof.
Set Implicit Arguments. Unset Strict Implicit. Unset Printing Implicit Defensive.
Import Order.TTheory GRing.Theory Num.Theory.
Local Open Scope ring_scope.

(* cache(train) then attribute(test) = attribute(test, train) on a fresh object,
   for every earlier state of the object, every loader (drop_last, empty or badly
   typed test loaders included: then both raise the same exception) *)
Theorem C07_trak_cache_agrees
    (F : realFieldType) (X : Type) (p q : nat) (gl gt : nat -> X -> 'rV[F]_p) (prob : nat -> X -> F)
    (proj : nat -> 'rV[F]_p -> 'rV[F]_q) (scaler reg : F) (C : nat)
    (ok_tr ok_te : bool) (s s' : tstate F X q) (te l : loader X) :
  trak_cache gl prob proj scaler reg C ok_tr s l = (s', Ok tt) ->
  trak_attribute gl gt prob proj scaler reg C ok_tr ok_te s' te None
  = trak_attribute gl gt prob proj scaler reg C ok_tr ok_te (t_init F X q) te (Some l).
Proof.
rewrite /trak_cache; case e: (trak_cache_run _ _ _ _ _ _ _ _) => [m|] //= [<-].
have s1 := cached_size e.
rewrite /trak_attribute /= (cached_fold (L := m.1) gt ok_te te e) ?s1 //.
by case: (rfold _ None _).
Qed.
Print Assumptions C07_trak_cache_agrees.

(* the returned (num_train, num_test) matrix is the TRAK estimator *)
Theorem C07_trak_score
    (F : realFieldType) (X : Type) (p q : nat) (gl gt : nat -> X -> 'rV[F]_p) (prob : nat -> X -> F)
    (proj : nat -> 'rV[F]_p -> 'rV[F]_q) (scaler reg : F) (C : nat) (x0 : X) (te l : loader X) :
  (0 < ld_bs l)%N -> (0 < ld_bs te)%N -> ld_drop l = false -> ld_drop te = false ->
  ld_data l <> [::] -> ld_data te <> [::] -> (0 < C)%N ->
  let n := size (ld_data l) in let m := size (ld_data te) in
  let Phi (c : 'I_C) : 'M[F]_(n, q) := \matrix_(i, k) (proj c (scaler^-1 *: gl c (nth x0 (ld_data l) i))) 0 k in
  let Psi (c : 'I_C) : 'M[F]_(m, q) := \matrix_(j, k) (proj c (scaler^-1 *: gt c (nth x0 (ld_data te) j))) 0 k in
  let P (c : 'I_C) : 'cV[F]_n := \col_i prob c (nth x0 (ld_data l) i) in
  (forall c, (Phi c)^T *m Phi c + reg%:M \in unitmx) ->
  exists M, trak_attribute gl gt prob proj scaler reg C true true (t_init F X q) te (Some l) = Ok M /\
    size M = n /\
    forall (i : 'I_n), size (nth [::] M i) = m /\
      forall j : 'I_m, nth 0 (nth [::] M i) j = trak_score Phi Psi P reg i j.
Proof.
move=> b1 b2 d1 d2 n1 n2 hC n m Phi Psi P hu.
have kE (c : 'I_C) : kern gl proj scaler reg l c = (Phi c)^T *m Phi c + reg%:M.
  by rewrite /kern (kernelE _ x0).
rewrite (uncached_closed gt prob x0 b1 b2 d1 d2 n1 n2); last first.
  by move=> c hc; rewrite (kE (Ordinal hc)).
have mE (A B : res (seq (seq F))) : match C with 0%N => B | _.+1 => A end = A by case: (C) hC.
rewrite mE; eexists; split; first by []; split; first by rewrite size_mkseq.
move=> i; rewrite nth_mkseq ?ltn_ord //; split; first by rewrite size_mkseq.
move=> j; rewrite nth_mkseq ?ltn_ord // /trak_score /trak_q /mean.
congr (_ / _ * (_ / _)); apply: eq_bigr => c _.
  by rewrite /hent kE /trak_ckpt (entryE (fun i => phi_tr gl proj scaler c (nth x0 (ld_data l) i))
    (fun j => phi_te gt proj scaler c (nth x0 (ld_data te) j))).
by rewrite /qent !mxE.
Qed.
Print Assumptions C07_trak_score.

(* a positive regularization makes every kernel matrix invertible, so the
   hypothesis above is satisfied and cache/attribute never fail on it *)
Theorem C07_trak_regularized_total
    (F : realFieldType) (X : Type) (p q : nat) (gl : nat -> X -> 'rV[F]_p) (prob : nat -> X -> F)
    (proj : nat -> 'rV[F]_p -> 'rV[F]_q) (scaler reg : F) (C : nat) (s : tstate F X q) (l : loader X) :
  0 < reg -> (0 < ld_bs l)%N -> ld_drop l = false -> ld_data l <> [::] ->
  exists s', trak_cache gl prob proj scaler reg C true s l = (s', Ok tt).
Proof.
move=> r0 b1 d1 n1; rewrite /trak_cache.
have [x0 _] : {x : X | True} by case: (ld_data l) n1 => // x; exists x.
suff [m ->] : exists m, trak_cache_run gl prob proj scaler reg C true l = Ok m by eexists.
rewrite /trak_cache_run; elim: C => [|C [m IH]]; first by eexists.
rewrite iotaSr rfold_rcons IH /= !cat_batches_ok //= /solve_cols.
by rewrite (kernelE _ x0) gram_reg_unit //=; eexists.
Qed.
Print Assumptions C07_trak_regularized_total.

(* independence of both batch sizes, errors included *)
Theorem C07_trak_batching
    (F : realFieldType) (X : Type) (p q : nat) (gl gt : nat -> X -> 'rV[F]_p) (prob : nat -> X -> F)
    (proj : nat -> 'rV[F]_p -> 'rV[F]_q) (scaler reg : F) (C : nat)
    (xs ys : seq X) (b b' c c' : nat) :
  (0 < b)%N -> (0 < b')%N -> (0 < c)%N -> (0 < c')%N -> xs <> [::] -> ys <> [::] ->
  trak_attribute gl gt prob proj scaler reg C true true (t_init F X q)
    (Loader ys c false) (Some (Loader xs b false))
  = trak_attribute gl gt prob proj scaler reg C true true (t_init F X q)
    (Loader ys c' false) (Some (Loader xs b' false)).
Proof.
move=> hb hb' hc hc' nx ny; rewrite /trak_attribute /=; congr rbind.
elim: C => [//|C IH]; rewrite iotaSr !rfold_rcons IH.
case: (rfold _ _ _) => //= st.
by rewrite !cat_batches_ok.
Qed.
Print Assumptions C07_trak_batching.

(* after any history: a training loader is refused iff cache() was ever called
   (even if that call failed), and missing iff it was never called *)
Theorem C07_trak_value_errors
    (F : realFieldType) (X : Type) (p q : nat) (gl gt : nat -> X -> 'rV[F]_p) (prob : nat -> X -> F)
    (proj : nat -> 'rV[F]_p -> 'rV[F]_q) (scaler reg : F) (C : nat) (h : seq (top X)) (te l : loader X) :
  let s := foldl (tstep gl prob proj scaler reg C) (t_init F X q) h in
  let cached := has (fun o => if o is TCache _ _ then true else false) h in
  (cached -> trak_attribute gl gt prob proj scaler reg C true true s te (Some l) = Err ValueError /\
             trak_self_attribute gl prob proj scaler reg C true s (Some l) = Err ValueError) /\
  (~~ cached -> trak_attribute gl gt prob proj scaler reg C true true s te None = Err ValueError /\
     trak_attribute gl gt prob proj scaler reg C true true s te (Some l)
     = trak_attribute gl gt prob proj scaler reg C true true (t_init F X q) te (Some l)) /\
  trak_self_attribute gl prob proj scaler reg C true s None = Err AttributeError.
Proof.
move=> s cached.
have H : if cached then exists l', t_full s = Some l' else s = t_init F X q.
  rewrite /s /cached; elim/last_ind: h {s cached} => [//|h o IH].
  rewrite foldl_rcons has_rcons; case: o => [okb l'|te' tr'|tr'] /=.
  - by exists l'; rewrite /trak_cache; case: (trak_cache_run _ _ _ _ _ _ _ _).
  - exact: IH.
  - exact: IH.
split; first by move=> hc; move: H; rewrite hc => -[l' e]; rewrite /trak_attribute /trak_self_attribute e.
by split=> // /negbTE hc; move: H; rewrite hc => ->.
Qed.
Print Assumptions C07_trak_value_errors.

(* a loader without batches: torch.cat of nothing is a RuntimeError, wherever it is first needed *)
Theorem C07_trak_empty_loader
    (F : realFieldType) (X : Type) (p q : nat) (gl gt : nat -> X -> 'rV[F]_p) (prob : nat -> X -> F)
    (proj : nat -> 'rV[F]_p -> 'rV[F]_q) (scaler reg : F) (C : nat) (o ok_te : bool)
    (s : tstate F X q) (te l : loader X) :
  (0 < C)%N ->
  [/\ nbatches l = 0%N -> (trak_cache gl prob proj scaler reg C o s l).2 = Err RuntimeError,
      nbatches l = 0%N -> trak_attribute gl gt prob proj scaler reg C o ok_te (t_init F X q) te (Some l) = Err RuntimeError,
      nbatches l = 0%N -> trak_self_attribute gl prob proj scaler reg C o (t_init F X q) (Some l) = Err RuntimeError &
      t_full s <> None -> nbatches te = 0%N ->
        trak_attribute gl gt prob proj scaler reg C o ok_te s te None = Err RuntimeError].
Proof.
case: C => // C _; rewrite /trak_cache /trak_cache_run /trak_attribute /trak_self_attribute /cat_batches.
split; try by move=> /= ->.
by case: (t_full s) => // l' _ /= ->.
Qed.
Print Assumptions C07_trak_empty_loader.

(* a failing cache() call leaves the matrices of the previous one in place, and
   attribute() then silently answers for the previous training set *)
Theorem C07_trak_failed_recache_stale
    (F : realFieldType) (X : Type) (p q : nat) (gl gt : nat -> X -> 'rV[F]_p) (prob : nat -> X -> F)
    (proj : nat -> 'rV[F]_p -> 'rV[F]_q) (scaler reg : F) (C : nat)
    (o1 o2 ok_te : bool) (s s1 s2 : tstate F X q) (te l1 l2 : loader X) (e : exn) :
  trak_cache gl prob proj scaler reg C o1 s l1 = (s1, Ok tt) ->
  trak_cache gl prob proj scaler reg C o2 s1 l2 = (s2, Err e) ->
  trak_attribute gl gt prob proj scaler reg C o1 ok_te s2 te None
  = trak_attribute gl gt prob proj scaler reg C o1 ok_te (t_init F X q) te (Some l1).
Proof.
move=> h1 h2; rewrite -(C07_trak_cache_agrees gt ok_te te h1).
move: h2; rewrite /trak_cache; case: (trak_cache_run _ _ _ _ _ _ _ _) => // e' [<- _].
by move: h1; rewrite /trak_cache; case: (trak_cache_run _ _ _ _ _ _ _ _) => // m [<-].
Qed.
Print Assumptions C07_trak_failed_recache_stale.

(* self_attribute(train): the diagonal of attribute(train, train) when target and
   loss gradients agree, as a column of shape (n, 1) *)
Theorem C07_trak_self_diagonal
    (F : realFieldType) (X : Type) (p q : nat) (gl : nat -> X -> 'rV[F]_p) (prob : nat -> X -> F)
    (proj : nat -> 'rV[F]_p -> 'rV[F]_q) (scaler reg : F) (C : nat) (l : loader X) :
  (0 < ld_bs l)%N -> ld_drop l = false -> ld_data l <> [::] -> (0 < C)%N -> 0 < reg ->
  exists M V, trak_attribute gl gl prob proj scaler reg C true true (t_init F X q) l (Some l) = Ok M /\
    trak_self_attribute gl prob proj scaler reg C true (t_init F X q) (Some l) = Ok V /\
    size V = size (ld_data l) /\
    forall i, (i < size (ld_data l))%N -> nth [::] V i = [:: nth 0 (nth [::] M i) i].
Proof.
move=> b1 d1 n1 hC r0.
have [x0 _] : {x : X | True} by case: (ld_data l) n1 => // x; exists x.
have hu c : (c < C)%N -> kern gl proj scaler reg l c \in unitmx.
  by move=> _; rewrite /kern (kernelE _ x0) gram_reg_unit.
rewrite (uncached_closed gl prob x0) // (self_closed prob x0 b1 b1 d1 d1 n1) //.
case: C hC {hu} => // C _; do 2 eexists; do 2 (split; first by []).
split=> [|i hi]; first by rewrite size_mkseq.
by rewrite !nth_mkseq.
Qed.
Print Assumptions C07_trak_self_diagonal.

(* non-vacuity: one checkpoint, two samples, one-dimensional gradients, and a
   second cache() call that fails on a singular kernel matrix *)
Example C07_nonvacuous :
  let gl := fun (c x : nat) => (const_mx x%:R : 'rV[rat]_1) in
  let cache := trak_cache gl (fun _ _ => 2%:R^-1) (fun=> id) 1 0 1 true in
  exists s1 s2, cache (t_init _ nat 1) (Loader [:: 1%N; 2%N] 1 false) = (s1, Ok tt) /\
    cache s1 (Loader [:: 0%N] 1 false) = (s2, Err RuntimeError).
Proof.
move=> gl cache.
have k1 : kernel 0 [seq phi_tr gl (fun=> id) 1 0 x | x <- [:: 1%N; 2%N]] \in unitmx.
  rewrite unitmxE det_mx11 unitfE /kernel mxE big_map !big_cons big_nil.
  by rewrite /phi_tr /gl !mxE !big_ord1 !mxE.
have k2 : kernel 0 [seq phi_tr gl (fun=> id) 1 0 x | x <- [:: 0%N]] \notin unitmx.
  rewrite unitmxE det_mx11 unitfE /kernel mxE big_map !big_cons big_nil.
  by rewrite /phi_tr /gl !mxE !big_ord1 !mxE.
rewrite /cache /trak_cache /trak_cache_run /= /solve_cols.
by rewrite k1 (negbTE k2) /=; do 2 eexists.
Qed.
