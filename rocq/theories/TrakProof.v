(* Lemmas about the TRAK model. *)
Set Warnings "-notation-overridden,-ambiguous-paths".
From mathcomp Require Import all_ssreflect all_algebra zify.
From Verif Require Import Py Tensor TensorProof AttrModel AttrProof TrakModel TrakSpec.
Set Implicit Arguments. Unset Strict Implicit. Unset Printing Implicit Defensive.
Import Order.TTheory GRing.Theory Num.Theory.
Local Open Scope ring_scope.

Lemma foldl_batches (X A : Type) (f : X -> A) (L : loader X) : (0 < ld_bs L)%N ->
  foldl (fun acc b => acc ++ [seq f x | x <- b.2]) [::] (enum_batches L)
  = [seq f x | x <- take (covered L) (ld_data L)].
Proof.
move=> hL.
suff H k : (k <= nbatches L)%N ->
  foldl (fun acc b => acc ++ [seq f x | x <- b.2]) [::] [seq (k, batch L k) | k <- iota 0 k]
  = [seq f x | x <- take (upto L k) (ld_data L)].
  by rewrite /enum_batches H // upto_all.
elim: k => [|k IH] hk; first by rewrite upto0 take0.
rewrite iotaSr map_rcons foldl_rcons IH; last by lia.
have hst := nbatches_st hL hk.
rewrite -map_cat; congr map.
have e : upto L k = (k * ld_bs L)%N by move: hst; rewrite /upto /st /ed; lia.
rewrite e /batch /upto -takeD mulSn.
case: (leqP (ld_bs L + k * ld_bs L) (size (ld_data L))) => h.
  by congr take; lia.
by rewrite take_size take_oversize //; lia.
Qed.

Lemma nbatches_neq0 (X : Type) (L : loader X) : (0 < ld_bs L)%N -> ld_drop L = false ->
  ld_data L <> [::] -> nbatches L != 0%N.
Proof.
move=> hb nd ne; rewrite /nbatches nd -lt0n divn_gt0 //.
by case: (ld_data L) ne => //= x s _; lia.
Qed.

Section P.
Variables (F : realFieldType) (X : Type) (p q : nat).
Variables (gl gt : nat -> X -> 'rV[F]_p) (prob : nat -> X -> F).
Variables (proj : nat -> 'rV[F]_p -> 'rV[F]_q) (scaler reg : F).

Lemma cat_batches_ok (A : Type) (f : X -> A) l : (0 < ld_bs l)%N -> ld_drop l = false ->
  ld_data l <> [::] -> cat_batches true f l = Ok [seq f x | x <- ld_data l].
Proof.
move=> hb nd ne; rewrite /cat_batches /= foldl_batches // covered_nodrop // take_size.
by rewrite (negbTE (nbatches_neq0 hb nd ne)).
Qed.

Section Cached.
Variables (ok_tr ok_te : bool) (te l : loader X).
Let cbody := fun (s : seq (seq 'cV[F]_q) * option (seq F)) c =>
    rbind (cat_batches ok_tr (phi_tr gl proj scaler c) l) (fun xs =>
    rbind (cat_batches ok_tr (fun x => 1 - prob c x) l) (fun qs =>
    rbind (solve_cols reg xs) (fun cols =>
      Ok (rcons s.1 cols, Some (ravg s.2 c qs))))).
Let ubody := fun (st : option (seq (seq F)) * option (seq F)) c =>
      rbind (cat_batches ok_tr (phi_tr gl proj scaler c) l) (fun xs =>
      rbind (cat_batches ok_tr (fun x => 1 - prob c x) l) (fun qs =>
      rbind (cat_batches ok_te (phi_te gt proj scaler c) te) (fun ys =>
      rbind (solve_cols reg xs) (fun cols =>
        Ok (Some (ravg2 st.1 c (test_block ys cols)), Some (ravg st.2 c qs)))))).
Let abody := fun (L : seq (seq 'cV[F]_q)) st c =>
      rbind (cat_batches ok_te (phi_te gt proj scaler c) te) (fun ys =>
          if (c < size L)%N
          then Ok (Some (ravg2 st c (test_block ys (nth [::] L c))))
          else Err IndexError).

Lemma cached_size k m : rfold cbody ([::], None) (iota 0 k) = Ok m -> size m.1 = k.
Proof.
elim: k m => [|k IH] m; first by case=> <-.
rewrite iotaSr rfold_rcons; case ec: (rfold cbody _ _) => [m'|] //=.
rewrite /cbody; case exs: (cat_batches _ _ l) => [xs|] //=.
case eqs: (cat_batches _ _ l) => [qs|] //=.
by case esol: (solve_cols reg xs) => [cols|] //= [<-] /=; rewrite size_rcons (IH _ ec).
Qed.

Lemma cached_fold k m L : rfold cbody ([::], None) (iota 0 k) = Ok m ->
  (k <= size L)%N -> (forall c, (c < k)%N -> nth [::] L c = nth [::] m.1 c) ->
  rfold ubody (None, None) (iota 0 k) = rmap (fun x => (x, m.2)) (rfold (abody L) None (iota 0 k)).
Proof.
elim: k m => [|k IH] m; first by case=> <-.
rewrite iotaSr !rfold_rcons; case ec: (rfold cbody _ _) => [m'|] //=.
have s1 := cached_size ec.
rewrite {1}/cbody; case exs: (cat_batches _ _ l) => [xs|] //=.
case eqs: (cat_batches _ _ l) => [qs|] //=.
case esol: (solve_cols reg xs) => [cols|] //= [<-] /= hk hL.
rewrite (IH m' ec); [|by lia|]; last first.
  by move=> c hc; rewrite hL; [rewrite nth_rcons s1 hc|lia].
case: (rfold (abody L) _ _) => [st|] //=.
rewrite /ubody /abody exs /= eqs /=.
case: (cat_batches ok_te _ te) => [ys|] //=.
by rewrite esol /= hk hL // nth_rcons s1 ltnn eqxx.
Qed.
End Cached.

Lemma ravg_step (g h : nat -> F) n k :
  ravg (Some (mkseq g n)) k (mkseq h n) = mkseq (fun i => (g i * k%:R + h i) / k.+1%:R) n.
Proof.
rewrite /ravg; rewrite /mkseq; elim: (iota 0 n) => //= a s ->; by [].
Qed.

Lemma ravg_first (h : nat -> F) n : ravg None 0 (mkseq h n) = mkseq h n.
Proof. by rewrite /ravg /mkseq -map_comp; apply: eq_map => i /=; rewrite divr1. Qed.

Definition mean (h : nat -> nat -> F) k i := (\sum_(c < k) h c i) / k%:R.

Lemma mean_step h k i : (0 < k)%N -> (mean h k i * k%:R + h k i) / k.+1%:R = mean h k.+1 i.
Proof.
move=> hk; rewrite /mean divfK ?pnatr_eq0 -?lt0n // big_ord_recr /=. by [].
Qed.

Lemma mean1 h i : mean h 1 i = h 0%N i.
Proof. by rewrite /mean big_ord1 divr1. Qed.

Lemma ravg_mean h n k :
  ravg (if k is 0%N then None else Some (mkseq (mean h k) n)) k (mkseq (h k) n)
  = mkseq (mean h k.+1) n.
Proof.
case: k => [|k]; first by rewrite ravg_first; apply: eq_mkseq => i; rewrite mean1.
by rewrite ravg_step; apply: eq_mkseq => i; rewrite mean_step.
Qed.

Lemma ravg2_mean (h : nat -> nat -> nat -> F) n m k :
  ravg2 (if k is 0%N then None else Some (mk m n (fun j => mean (fun c => h c j) k))) k
        (mk m n (fun j i => h k j i))
  = mk m n (fun j => mean (fun c => h c j) k.+1).
Proof.
case: k => [|k]; rewrite /ravg2 /mk /mkseq; elim: (iota 0 m) => //= a s ->; congr cons.
  exact: (ravg_mean (fun c => h c a) n 0).
exact: (ravg_mean (fun c => h c a) n k.+1).
Qed.

Section Closed.
Variables (te l : loader X) (x0 : X).
Hypotheses (b1 : (0 < ld_bs l)%N) (b2 : (0 < ld_bs te)%N) (d1 : ld_drop l = false)
  (d2 : ld_drop te = false) (n1 : ld_data l <> [::]) (n2 : ld_data te <> [::]).
Let xs := ld_data l.
Let ys := ld_data te.
Definition kern c := kernel reg [seq phi_tr gl proj scaler c x | x <- xs].
Definition hent c j i : F :=
  (phi_te gt proj scaler c (nth x0 ys j) *m (invmx (kern c) *m (phi_tr gl proj scaler c (nth x0 xs i))^T)) 0 0.
Definition hself c i : F :=
  (phi_tr gl proj scaler c (nth x0 xs i) *m (invmx (kern c) *m (phi_tr gl proj scaler c (nth x0 xs i))^T)) 0 0.
Definition qent c i : F := 1 - prob c (nth x0 xs i).

Lemma test_blockE c : test_block [seq phi_te gt proj scaler c x | x <- ys]
    [seq invmx (kern c) *m x^T | x <- [seq phi_tr gl proj scaler c x | x <- xs]]
  = mk (size ys) (size xs) (hent c).
Proof.
rewrite /test_block -map_comp /mk.
rewrite -{1}(mkseq_nth x0 ys) /mkseq -map_comp; apply: eq_map => j /=.
rewrite -!map_comp -[in LHS](mkseq_nth x0 xs) /mkseq -map_comp; exact: eq_map.
Qed.

Lemma qsE c : [seq 1 - prob c x | x <- xs] = mkseq (qent c) (size xs).
Proof. by rewrite -{1}(mkseq_nth x0 xs) /mkseq -map_comp; apply: eq_map. Qed.

Lemma uncached_closed C : (forall c, (c < C)%N -> kern c \in unitmx) ->
  trak_attribute gl gt prob proj scaler reg C true true (t_init F X q) te (Some l)
  = if C is 0%N then Err AttributeError
    else Ok (mkseq (fun i => mkseq (fun j => mean (fun c => hent c j) C i * mean qent C i) (size ys)) (size xs)).
Proof.
move=> hK; rewrite /trak_attribute /=.
set body := (fun _ c => rbind _ _).
have -> : rfold body (None, None) (iota 0 C)
   = Ok (if C is 0%N then (None, None) else
     (Some (mk (size ys) (size xs) (fun j => mean (fun c => hent c j) C)),
      Some (mkseq (mean qent C) (size xs)))).
  elim: C hK => [//|C IH] hK.
  rewrite iotaSr rfold_rcons IH /=; last by move=> c hc; apply: hK; lia.
  rewrite {1}/body !cat_batches_ok //= -/xs -/ys /solve_cols -/(kern C) hK //=.
  rewrite test_blockE qsE -(ravg2_mean hent) -(ravg_mean qent); by case: (C).
case: C hK => [//|C] hK /=; congr Ok; rewrite size_mkseq.
apply: eq_mkseq_lt => i hi; rewrite /mk /mkseq -map_comp; apply: eq_map => j /=.
by rewrite !nth_mkseq.
Qed.

Lemma self_closed C : (forall c, (c < C)%N -> kern c \in unitmx) ->
  trak_self_attribute gl prob proj scaler reg C true (t_init F X q) (Some l)
  = if C is 0%N then Err AttributeError
    else Ok (mkseq (fun i => [:: mean hself C i * mean qent C i]) (size xs)).
Proof.
move=> hK; rewrite /trak_self_attribute /=.
set body := (fun _ c => rbind _ _).
have -> : rfold body (None, None) (iota 0 C)
   = Ok (if C is 0%N then (None, None) else
     (Some (mkseq (mean hself C) (size xs)), Some (mkseq (mean qent C) (size xs)))).
  elim: C hK => [//|C IH] hK.
  rewrite iotaSr rfold_rcons IH /=; last by move=> c hc; apply: hK; lia.
  rewrite {1}/body !cat_batches_ok //= -/xs /solve_cols -/(kern C) hK //=.
  have -> : [seq (xu.1 *m xu.2) 0 0 | xu <- zip [seq phi_tr gl proj scaler C x | x <- xs]
      [seq invmx (kern C) *m x^T | x <- [seq phi_tr gl proj scaler C x | x <- xs]]]
      = mkseq (hself C) (size xs).
    rewrite -map_comp zip_map2 -map_comp -{1}(mkseq_nth x0 xs) /mkseq -map_comp.
    exact: eq_map.
  rewrite qsE -(ravg_mean hself) -(ravg_mean qent); by case: (C).
case: C hK => [//|C] hK /=; congr Ok.
by rewrite /mkseq zip_map2 -map_comp; apply: eq_map.
Qed.
End Closed.
End P.

Section SpecLink.
Variables (F : realFieldType) (q : nat).
Lemma sum_outer n (f : 'I_n -> 'rV[F]_q) :
  \sum_i (f i)^T *m f i = (\matrix_(i, k) f i 0 k)^T *m (\matrix_(i, k) f i 0 k).
Proof.
apply/matrixP => a b; rewrite summxE mxE; apply: eq_bigr => i _.
by rewrite !mxE big_ord1 !mxE.
Qed.

Lemma kernelE reg (X : Type) (x0 : X) (xs : seq X) (f : X -> 'rV[F]_q) :
  kernel reg [seq f x | x <- xs]
  = (\matrix_(i < size xs, k < q) f (nth x0 xs i) 0 k)^T *m (\matrix_(i < size xs, k < q) f (nth x0 xs i) 0 k) + reg%:M.
Proof. by rewrite /kernel big_map (big_nth x0) big_mkord sum_outer. Qed.

Lemma entryE n m (f : 'I_n -> 'rV[F]_q) (g : 'I_m -> 'rV[F]_q) (K : 'M[F]_q) i j :
  (g j *m (K *m (f i)^T)) 0 0
  = ((\matrix_(j, k) g j 0 k) *m K *m (\matrix_(i, k) f i 0 k)^T) j i.
Proof.
rewrite -mulmxA !mxE; apply: eq_bigr => k _; rewrite !mxE; congr (_ * _).
by apply: eq_bigr => k' _; rewrite !mxE.
Qed.
End SpecLink.
