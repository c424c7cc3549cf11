(* Property theorems C03, C04, C05, C06, C14 (attribution loops). *)
Set Warnings "-notation-overridden,-ambiguous-paths".
From mathcomp Require Import all_ssreflect all_algebra.
From mathcomp Require Import realalg.
From Verif Require Import Py Tensor AttrModel AttrSpec TensorProof AttrProof.
Set Implicit Arguments. Unset Strict Implicit. Unset Printing Implicit Defensive.
Import Order.TTheory GRing.Theory Num.Theory.
Local Open Scope ring_scope.

(* ---- C03 ----
   attribute(train, test) without relatIF: entry (x,y) is the checkpoint mean of
   <train representation of x, transformed test representation of y>; the
   expression mentions no batch size. *)
Theorem C03_attribute_is_checkpoint_mean
    (F : realFieldType) (X : Type) (p q : nat) (O : oracles F X p q)
    (s : bstate X) (tr te : loader X) (C : nat) :
  (0 < ld_bs tr)%N -> (0 < ld_bs te)%N -> ld_drop tr = false -> ld_drop te = false ->
  (0 < C)%N ->
  (base_attribute O true true s tr te None C).2 =
  Ok [seq [seq (\sum_(c < C)
       \sum_k (trans_train O c (gen_train O c x)) 0 k *
              (trans_test O (odflt tr s) c (gen_test O c y)) 0 k) / C%:R
     | y <- ld_data te] | x <- ld_data tr].
Proof.
move=> h1 h2 h3 h4 _.
rewrite /= (@base_attribute_seq _ _ _ _ O _ tr te None C h1 h2 (fun _ _ => 1)) //; congr Ok.
apply: eq_map => x; apply: eq_map => y; congr (_ / _).
by apply: eq_bigr => c _; rewrite /score divr1.
Qed.
Print Assumptions C03_attribute_is_checkpoint_mean.

(* with relatIF: each row is divided by the sample's (non-zero) denominator *)
Theorem C03_attribute_relatif
    (F : realFieldType) (X : Type) (p q : nat) (O : oracles F X p q)
    (s : bstate X) (tr te : loader X) (r : relatif) (C : nat) (d : nat -> X -> F) :
  (0 < ld_bs tr)%N -> (0 < ld_bs te)%N -> ld_drop tr = false -> ld_drop te = false ->
  (0 < C)%N ->
  (forall c x, (c < C)%N -> d c x != 0 /\
     comp_denom O (odflt tr s) c (gen_train O c x)
       (match r with RelL => Some (gen_test O c x) | _ => None end) r = Ok (d c x)) ->
  (base_attribute O true true s tr te (Some r) C).2 =
  Ok [seq [seq (\sum_(c < C)
       (\sum_k (trans_train O c (gen_train O c x)) 0 k *
              (trans_test O (odflt tr s) c (gen_test O c y)) 0 k) / d c x) / C%:R
     | y <- ld_data te] | x <- ld_data tr].
Proof.
move=> h1 h2 h3 h4 _ hd.
by rewrite /= (@base_attribute_seq _ _ _ _ O _ tr te (Some r) C h1 h2 d) // => c x /(hd c x) [].
Qed.
Print Assumptions C03_attribute_relatif.

(* batching independence: loaders over the same samples give the same matrix *)
Theorem C03_attribute_batching_independent
    (F : realFieldType) (X : Type) (p q : nat) (O : oracles F X p q)
    (full tr tr' te te' : loader X) (C : nat) :
  (0 < ld_bs tr)%N -> (0 < ld_bs te)%N -> (0 < ld_bs tr')%N -> (0 < ld_bs te')%N ->
  ld_drop tr = false -> ld_drop te = false -> ld_drop tr' = false -> ld_drop te' = false ->
  ld_data tr = ld_data tr' -> ld_data te = ld_data te' ->
  (base_attribute O true true (Some full) tr te None C).2 =
  (base_attribute O true true (Some full) tr' te' None C).2.
Proof.
move=> h1 h2 h3 h4 d1 d2 d3 d4 e1 e2 /=.
rewrite (@base_attribute_seq _ _ _ _ O _ tr te None C h1 h2 (fun _ _ => 1)) //.
by rewrite (@base_attribute_seq _ _ _ _ O _ tr' te' None C h3 h4 (fun _ _ => 1)) // e1 e2.
Qed.
Print Assumptions C03_attribute_batching_independent.

(* drop_last: samples that are in no batch keep the score 0, all others get the mean *)
Theorem C03_attribute_drop_last
    (F : realFieldType) (X : Type) (p q : nat) (O : oracles F X p q)
    (full tr te : loader X) (C : nat) (x0 : X) (i j : nat) :
  (0 < ld_bs tr)%N -> (0 < ld_bs te)%N -> ld_drop tr = true -> ld_drop te = false ->
  (0 < C)%N -> (i < size (ld_data tr))%N -> (j < size (ld_data te))%N ->
  exists out, (base_attribute O true true (Some full) tr te None C).2 = Ok out /\
    size out = size (ld_data tr) /\
    nth 0 (nth [::] out i) j =
      if (i < size (ld_data tr) %/ ld_bs tr * ld_bs tr)%N
      then (\sum_(c < C) \sum_k (trans_train O c (gen_train O c (nth x0 (ld_data tr) i))) 0 k *
              (trans_test O full c (gen_test O c (nth x0 (ld_data te) j))) 0 k) / C%:R
      else 0.
Proof.
move=> h1 h2 h3 h4 _ hi hj; eexists; split.
  rewrite /= (@base_attribute_entries _ _ _ _ O _ tr te None C h1 h2 (fun _ _ => 1) _ x0) //.
rewrite size_mkseq; split=> //.
rewrite nth_mkseq // nth_mkseq // /covered h3 h4 hj andbT; case: ifP => // _.
by congr (_ / _); apply: eq_bigr => c _; rewrite /score divr1.
Qed.
Print Assumptions C03_attribute_drop_last.

(* unsupported batch types raise TypeError *)
Theorem C03_attribute_type_error
    (F : realFieldType) (X : Type) (p q : nat) (O : oracles F X p q)
    (s : bstate X) (tr te : loader X) (rel : option relatif) (C : nat) (ok_te : bool) :
  (0 < ld_bs tr)%N -> ld_drop tr = false -> (0 < C)%N -> ld_data tr <> [::] ->
  (base_attribute O false ok_te s tr te rel C).2 = Err TypeError.
Proof.
move=> h1 h3 h5 h6; apply: base_attribute_type_error_tr => //.
by rewrite covered_nodrop //; case: (ld_data tr) h6.
Qed.
Print Assumptions C03_attribute_type_error.

(* history: the full training loader in use is the last cached one, otherwise
   the training loader of the FIRST attribute/self_attribute call *)
Theorem C03_full_loader_history
    (F : realFieldType) (X : Type) (p q : nat) (O : oracles F X p q) (h : seq (bop X)) :
  foldl (bstep O) None h = full_spec h.
Proof. exact: bstate_hist. Qed.
Print Assumptions C03_full_loader_history.

(* concrete instance: 5 training samples in batches of 2, 3 test samples in
   batches of 2, 3 checkpoints, relatIF denominators 2 *)
Definition exO : oracles rat_realFieldType nat 1 1 := Oracles
  (fun c x => (const_mx (c + x)%:R : 'rV_1)) (fun c x => (const_mx (c + x)%:R : 'rV_1))
  (fun _ v => v) (fun _ _ v => v + v) (fun _ _ _ _ _ => Ok 2%:R).
Definition ex_tr : loader nat := Loader [:: 3; 1; 4; 1; 5]%N 2 false.
Definition ex_te : loader nat := Loader [:: 2; 7; 1]%N 2 false.
Example C03_nonvacuous :
  [/\ (0 < ld_bs ex_tr)%N, (0 < ld_bs ex_te)%N, ld_drop ex_tr = false & ld_drop ex_te = false]
  /\ (forall c x, (c < 3)%N -> (2%:R : rat) != 0 /\
       comp_denom exO ex_tr c (gen_train exO c x) None RelTheta = Ok 2%:R)
  /\ nbatches ex_tr = 3%N /\ nbatches ex_te = 2%N.
Proof. by []. Qed.
Example C03_history_nonvacuous :
  full_spec [:: OpAttr ex_te ex_tr None 1; OpAttr ex_tr ex_te None 1] = Some ex_te /\
  full_spec [:: OpAttr ex_te ex_tr None 1; OpCache ex_tr] = Some ex_tr.
Proof. by []. Qed.

(* ---- C04 ----
   complete description of self_attribute without relatIF *)
Theorem C04_self_attribute_single_batch
    (F : realFieldType) (X : Type) (p q : nat) (O : oracles F X p q)
    (s : bstate X) (tr : loader X) (C : nat) :
  ld_drop tr = false -> (0 < size (ld_data tr) <= ld_bs tr)%N ->
  (base_self_attribute O true s tr None C).2 =
  Ok [seq (\sum_(c < C) \sum_k (trans_train O c (gen_train O c x)) 0 k *
              (trans_test O (odflt tr s) c (gen_test O c x)) 0 k) / C%:R | x <- ld_data tr].
Proof.
move=> nd h /=; apply: base_self_single => //.
by case/andP: h => h1 h2; apply: leq_trans h2.
Qed.
Print Assumptions C04_self_attribute_single_batch.

(* and that is the diagonal of attribute(train, train) *)
Theorem C04_self_attribute_single_batch_is_diagonal
    (F : realFieldType) (X : Type) (p q : nat) (O : oracles F X p q)
    (s : bstate X) (tr : loader X) (C : nat) (i : nat) :
  ld_drop tr = false -> (0 < size (ld_data tr) <= ld_bs tr)%N -> (i < size (ld_data tr))%N ->
  exists v m, (base_self_attribute O true s tr None C).2 = Ok v /\
    (base_attribute O true true s tr tr None C).2 = Ok m /\
    nth 0 v i = nth 0 (nth [::] m i) i.
Proof.
move=> nd h hi.
have hb : (0 < ld_bs tr)%N by case/andP: h => h1 h2; apply: leq_trans h2.
have [x0 _] : exists x0 : X, True by move: hi; case: (ld_data tr) => // x0 ? _; exists x0.
do 2 eexists; split; first by rewrite /= base_self_single.
split.
  by rewrite /= (@base_attribute_seq _ _ _ _ O _ tr tr None C hb hb (fun _ _ => 1)).
rewrite !(nth_map x0) //; congr (_ / _); apply: eq_bigr => c _.
by rewrite /score /self_score divr1.
Qed.
Print Assumptions C04_self_attribute_single_batch_is_diagonal.

(* batch size 1: every entry is the total self-influence *)
Theorem C04_self_attribute_batch_size_one
    (F : realFieldType) (X : Type) (p q : nat) (O : oracles F X p q)
    (s : bstate X) (tr : loader X) (C : nat) :
  ld_drop tr = false -> ld_bs tr = 1%N ->
  (base_self_attribute O true s tr None C).2 =
  Ok (nseq (size (ld_data tr)) ((\sum_(c < C) \sum_(x <- ld_data tr)
        \sum_k (trans_train O c (gen_train O c x)) 0 k *
               (trans_test O (odflt tr s) c (gen_test O c x)) 0 k) / C%:R)).
Proof. by move=> nd e; apply: base_self_bs1 => //; rewrite e. Qed.
Print Assumptions C04_self_attribute_batch_size_one.

(* several batches of more than one sample: shape error *)
Theorem C04_self_attribute_several_batches
    (F : realFieldType) (X : Type) (p q : nat) (O : oracles F X p q)
    (s : bstate X) (tr : loader X) (C : nat) :
  ld_drop tr = false -> (1 < ld_bs tr < size (ld_data tr))%N -> (0 < C)%N ->
  (base_self_attribute O true s tr None C).2 = Err RuntimeError.
Proof.
move=> nd h hC; apply: base_self_other => //.
by case/andP: h => h1 _; apply: leq_trans h1.
Qed.
Print Assumptions C04_self_attribute_several_batches.

(* relatIF: always a shape error *)
Theorem C04_self_attribute_relatif_always_fails
    (F : realFieldType) (X : Type) (p q : nat) (O : oracles F X p q)
    (s : bstate X) (tr : loader X) (C : nat) (r : relatif) (d : nat -> X -> F) :
  ld_drop tr = false -> (0 < ld_bs tr)%N -> ld_data tr <> [::] -> (0 < C)%N ->
  (forall c x, (c < C)%N ->
     comp_denom O (odflt tr s) c (gen_train O c x)
       (match r with RelL => Some (gen_test O c x) | _ => None end) r = Ok (d c x)) ->
  (base_self_attribute O true s tr (Some r) C).2 = Err RuntimeError.
Proof.
move=> nd hb hne hC hd; apply: (@base_self_relatif _ _ _ _ O _ tr C _ _ r d) => //.
by case: (ld_data tr) hne.
Qed.
Print Assumptions C04_self_attribute_relatif_always_fails.

(* finding: self_attribute is not the diagonal of attribute in general *)
Theorem C04_self_attribute_is_diagonal_refuted :
  exists (tr : loader nat) v m,
    (base_self_attribute exO true None tr None 1).2 = Ok v /\
    (base_attribute exO true true None tr tr None 1).2 = Ok m /\
    size v = 2%N /\ nth 0 v 0 != nth 0 (nth [::] m 0) 0.
Proof.
exists (Loader [:: 1; 2]%N 1 false); do 2 eexists; split; first by rewrite /= base_self_bs1.
split.
  by rewrite /= (@base_attribute_seq _ _ _ _ exO _ _ _ None 1 _ _ (fun _ _ => 1)).
split=> //=.
by rewrite !big_ord1 !big_cons big_nil /self_score /score /dot !big_ord1 !mxE.
Qed.
Print Assumptions C04_self_attribute_is_diagonal_refuted.

Example C04_nonvacuous :
  (0 < size (ld_data (Loader [:: 3; 1; 4]%N 5 false)) <= ld_bs (Loader [:: 3; 1; 4]%N 5 false))%N
  /\ (1 < ld_bs ex_tr < size (ld_data ex_tr))%N
  /\ (forall c x, (c < 2)%N -> comp_denom exO ex_tr c (gen_train exO c x)
        (Some (gen_test exO c x)) RelL = Ok 2%:R).
Proof. by []. Qed.

(* ---- C05 ---- *)
Theorem C05_tracin_value_error_iff
    (F : rcfType) (X : Type) (p q : nat) (gl gt : nat -> X -> 'rV[F]_p)
    (proj : nat -> 'rV[F]_p -> 'rV[F]_q) (eps : F) (nrm : bool) (C : nat) (ws : seq F)
    (tr te : loader X) :
  (0 < ld_bs tr)%N -> (0 < ld_bs te)%N ->
  (tracin_attribute gl gt proj eps true true nrm C ws tr te = Err ValueError <-> C <> size ws).
Proof.
move=> h1 h2; split; last by move/eqP; rewrite /tracin_attribute => ->.
move=> H e; move: H; rewrite e.
case etr: (ld_data tr) => [|x0 xs]; last by rewrite (tracin_attribute_mk _ _ _ _ h1 h2 x0).
rewrite /tracin_attribute etr eqxx /= rfold_const // => c /=.
by rewrite /enum_batches (nbatches_nil h1) ?etr.
Qed.
Print Assumptions C05_tracin_value_error_iff.

Theorem C05_tracin_weighted_sum
    (F : rcfType) (X : Type) (p q : nat) (gl gt : nat -> X -> 'rV[F]_p)
    (proj : nat -> 'rV[F]_p -> 'rV[F]_q) (eps : F) (ws : seq F) (tr te : loader X) :
  (0 < ld_bs tr)%N -> (0 < ld_bs te)%N -> ld_drop tr = false -> ld_drop te = false ->
  tracin_attribute gl gt proj eps true true false (size ws) ws tr te
  = Ok [seq [seq \sum_(c < size ws) nth 0 ws c *
        (\sum_k (proj c (gl c x)) 0 k * (proj c (gt c y)) 0 k) | y <- ld_data te] | x <- ld_data tr].
Proof. by move=> h1 h2 h3 h4; rewrite tracin_attribute_seq. Qed.
Print Assumptions C05_tracin_weighted_sum.

(* normalised gradients: cosine similarity of the projected gradients whenever
   both norms are at least eps *)
Theorem C05_tracin_normalized_is_cosine
    (F : rcfType) (X : Type) (p q : nat) (gl gt : nat -> X -> 'rV[F]_p)
    (proj : nat -> 'rV[F]_p -> 'rV[F]_q) (eps : F) (ws : seq F) (tr te : loader X) :
  let norm (u : 'rV[F]_q) := Num.sqrt (\sum_k u 0 k ^+ 2) in
  (0 < ld_bs tr)%N -> (0 < ld_bs te)%N -> ld_drop tr = false -> ld_drop te = false ->
  0 < eps ->
  (forall c x, eps <= norm (proj c (gl c x)) /\ eps <= norm (proj c (gt c x))) ->
  tracin_attribute gl gt proj eps true true true (size ws) ws tr te
  = Ok [seq [seq \sum_(c < size ws) nth 0 ws c *
        ((\sum_k (proj c (gl c x)) 0 k * (proj c (gt c y)) 0 k)
         / (norm (proj c (gl c x)) * norm (proj c (gt c y)))) | y <- ld_data te] | x <- ld_data tr].
Proof.
move=> norm h1 h2 h3 h4 he hn; rewrite tracin_attribute_seq //; congr Ok.
apply: eq_map => x; apply: eq_map => y; apply: eq_bigr => c _; congr (_ * _).
have E (u : 'rV[F]_q) : norm u = Num.sqrt (dot u u).
  by rewrite /norm /dot; congr Num.sqrt; apply: eq_bigr => k _; rewrite expr2.
have [hx _] := hn c x; have [_ hy] := hn c y.
rewrite /tscore /normalize dotZ -!E !max_l // mulrC; congr (_ * _).
by rewrite invfM.
Qed.
Print Assumptions C05_tracin_normalized_is_cosine.

Theorem C05_tracin_batching_independent
    (F : rcfType) (X : Type) (p q : nat) (gl gt : nat -> X -> 'rV[F]_p)
    (proj : nat -> 'rV[F]_p -> 'rV[F]_q) (eps : F) (nrm : bool) (C : nat) (ws : seq F)
    (tr tr' te te' : loader X) :
  (0 < ld_bs tr)%N -> (0 < ld_bs te)%N -> (0 < ld_bs tr')%N -> (0 < ld_bs te')%N ->
  ld_drop tr = false -> ld_drop te = false -> ld_drop tr' = false -> ld_drop te' = false ->
  ld_data tr = ld_data tr' -> ld_data te = ld_data te' ->
  tracin_attribute gl gt proj eps true true nrm C ws tr te
  = tracin_attribute gl gt proj eps true true nrm C ws tr' te'.
Proof.
move=> h1 h2 h3 h4 d1 d2 d3 d4 e1 e2.
case: (C =P size ws) => [->|/eqP hC]; last by rewrite /tracin_attribute hC.
by rewrite !tracin_attribute_seq // e1 e2.
Qed.
Print Assumptions C05_tracin_batching_independent.

(* ---- C06 ---- *)
Theorem C06_tracin_self_is_squared_norm
    (F : rcfType) (X : Type) (p q : nat) (gl : nat -> X -> 'rV[F]_p)
    (proj : nat -> 'rV[F]_p -> 'rV[F]_q) (ws : seq F) (tr : loader X) :
  (0 < ld_bs tr)%N -> ld_drop tr = false ->
  tracin_self_attribute gl proj true false (size ws) ws tr
  = Ok [seq \sum_(c < size ws) nth 0 ws c * (\sum_k (proj c (gl c x)) 0 k ^+ 2) | x <- ld_data tr].
Proof.
by move=> h1 h2; rewrite tracin_self_seq.
Qed.
Print Assumptions C06_tracin_self_is_squared_norm.

(* it is the diagonal of attribute(train,train) when the target function has the
   same gradients as the loss *)
Theorem C06_tracin_self_is_diagonal
    (F : rcfType) (X : Type) (p q : nat) (gl : nat -> X -> 'rV[F]_p)
    (proj : nat -> 'rV[F]_p -> 'rV[F]_q) (eps : F) (ws : seq F) (tr : loader X) (i : nat) :
  (0 < ld_bs tr)%N -> ld_drop tr = false -> (i < size (ld_data tr))%N ->
  exists v m, tracin_self_attribute gl proj true false (size ws) ws tr = Ok v /\
    tracin_attribute gl gl proj eps true true false (size ws) ws tr tr = Ok m /\
    nth 0 v i = nth 0 (nth [::] m i) i.
Proof.
move=> h1 h2 hi.
have [x0 _] : exists x0 : X, True by move: hi; case: (ld_data tr) => // x0 ? _; exists x0.
do 2 eexists; split; first by rewrite tracin_self_seq.
split; first by rewrite tracin_attribute_seq.
by rewrite !(nth_map x0).
Qed.
Print Assumptions C06_tracin_self_is_diagonal.

(* normalised: the sum of the weights for every sample; equal to the diagonal for
   samples whose projected gradients have norm at least eps at every checkpoint,
   and strictly larger for a sample with a shorter one (one checkpoint, positive
   weight) *)
Theorem C06_tracin_self_normalized
    (F : rcfType) (X : Type) (p q : nat) (gl : nat -> X -> 'rV[F]_p)
    (proj : nat -> 'rV[F]_p -> 'rV[F]_q) (ws : seq F) (tr : loader X) :
  (0 < ld_bs tr)%N -> ld_drop tr = false ->
  tracin_self_attribute gl proj true true (size ws) ws tr
  = Ok (nseq (size (ld_data tr)) (\sum_(w <- ws) w)).
Proof.
move=> h1 h2; rewrite tracin_self_seq //; congr Ok.
have E x : \sum_(c < size ws) nth 0 ws c * tself gl proj true c x = \sum_(w <- ws) w.
  by rewrite (big_nth 0) big_mkord; apply: eq_bigr => c _; rewrite mulr1.
by elim: (ld_data tr) => //= x s ->; rewrite E.
Qed.
Print Assumptions C06_tracin_self_normalized.

Theorem C06_tracin_self_normalized_vs_diagonal
    (F : rcfType) (X : Type) (p q : nat) (gl : nat -> X -> 'rV[F]_p)
    (proj : nat -> 'rV[F]_p -> 'rV[F]_q) (eps : F) (ws : seq F) (tr : loader X) (i : nat) (x0 : X) :
  let norm (u : 'rV[F]_q) := Num.sqrt (\sum_k u 0 k ^+ 2) in
  (0 < ld_bs tr)%N -> ld_drop tr = false -> (i < size (ld_data tr))%N -> 0 < eps ->
  (forall w, w \in ws -> 0 < w) ->
  exists v m, tracin_self_attribute gl proj true true (size ws) ws tr = Ok v /\
    tracin_attribute gl gl proj eps true true true (size ws) ws tr tr = Ok m /\
    (nth 0 v i = nth 0 (nth [::] m i) i <->
     forall c, (c < size ws)%N -> eps <= norm (proj c (gl c (nth x0 (ld_data tr) i)))).
Proof.
move=> norm h1 h2 hi he hw.
do 2 eexists; split; first by rewrite tracin_self_seq.
split; first by rewrite tracin_attribute_seq.
rewrite !(nth_map x0) //; set x := nth x0 _ i.
have E (u : 'rV[F]_q) : norm u = Num.sqrt (dot u u).
  by rewrite /norm /dot; congr Num.sqrt; apply: eq_bigr => k _; rewrite expr2.
have L (c : 'I_(size ws)) : nth 0 ws c * tscore gl gl proj eps true c x x
     <= nth 0 ws c * tself gl proj true c x.
  rewrite ler_pmul2l; last by apply: hw; rewrite mem_nth.
  rewrite /tscore /tself; case: (lerP eps (Num.sqrt (dot (proj c (gl c x)) (proj c (gl c x))))) => h.
    by rewrite normalize_unit.
  by rewrite ltW // normalize_small.
split=> [e c hc|H]; last first.
  apply: eq_bigr => c _; congr (_ * _); rewrite /tscore /tself normalize_unit //.
  by rewrite -E H.
rewrite E leNgt; apply/negP => hlt.
have := lt_irreflexive (\sum_(c < size ws) nth 0 ws c * tself gl proj true c x).
rewrite {1}e => /negP; apply.
rewrite (bigD1 (Ordinal hc)) //= [X in _ < X](bigD1 (Ordinal hc)) //=.
apply: ltr_le_add; last by apply: ler_sum => c' _; apply: L.
rewrite ltr_pmul2l; last by apply: hw; rewrite mem_nth.
by rewrite /tscore /tself normalize_small.
Qed.
Print Assumptions C06_tracin_self_normalized_vs_diagonal.

(* finding: when target and loss gradients differ, self_attribute is not the
   diagonal of attribute(train,train) (it uses the loss gradient on both sides) *)
Theorem C06_tracin_self_is_diagonal_refuted :
  exists (gl gt : nat -> nat -> 'rV[realalg]_1) (tr : loader nat) v m,
    tracin_self_attribute gl (fun _ u => u) true false 1 [:: 1] tr = Ok v /\
    tracin_attribute gl gt (fun _ u => u) 1 true true false 1 [:: 1] tr tr = Ok m /\
    nth 0 v 0 != nth 0 (nth [::] m 0) 0.
Proof.
exists (fun _ _ => const_mx 1), (fun _ _ => const_mx 2%:R), (Loader [:: 0%N; 1%N] 1 false).
do 2 eexists; split; first by apply: (@tracin_self_seq _ _ _ _ _ _ _ _ false [:: 1]).
split; first by apply: (@tracin_attribute_seq _ _ _ _ _ _ _ _ _ _ _ _ false [:: 1]).
rewrite /= !big_ord1 /tself /tscore /dot !big_ord1 !mxE /=.
by rewrite !mul1r -[X in X != _]/(1%:R) eqr_nat.
Qed.
Print Assumptions C06_tracin_self_is_diagonal_refuted.

Example C05_C06_nonvacuous :
  let gl := fun (c x : nat) => (const_mx (c + x).+1%:R : 'rV[realalg]_1) in
  (forall c x, (1 : realalg) <= Num.sqrt (\sum_k (gl c x) 0 k ^+ 2)) /\
  (forall w, w \in [:: 1; 2%:R : realalg] -> 0 < w) /\ (0 : realalg) < 1.
Proof.
split=> [c x|]; last first.
  split; last exact: ltr01.
  by move=> w; rewrite !inE => /orP [] /eqP ->; rewrite ?ltr01 ?ltr0n.
by rewrite big_ord1 mxE sqrtr_sqr ger0_norm ?ler0n // -[X in X <= _]/(1%:R) ler_nat.
Qed.

(* ---- C14 ---- *)
Theorem C14_relatif_denominator_positive
    (F : rcfType) (p : nat) (eps : F) (transformed : 'rV[F]_p) (test_rep : 'rV[F]_p) (r : relatif) :
  0 < eps ->
  match if_denom eps transformed (match r with RelL => Some test_rep | _ => None end) r with
  | Ok v => 0 < v /\ r <> RelOther
  | Err e => e = ValueError /\ r = RelOther
  end.
Proof.
move=> he; case: r => //=.
- by split=> //; rewrite sqrtr_gt0 lt_maxr he orbT.
- by split=> //; rewrite lt_maxr he orbT.
Qed.
Print Assumptions C14_relatif_denominator_positive.

(* zero gradients and negative curvature included; and above the clamp the
   documented values are returned *)
Theorem C14_relatif_denominator_value
    (F : rcfType) (p : nat) (eps : F) (u t : 'rV[F]_p) :
  (eps <= \sum_k t 0 k * u 0 k ->
     if_denom eps u (Some t) RelL = Ok (Num.sqrt (\sum_k t 0 k * u 0 k))) /\
  (eps <= Num.sqrt (\sum_k u 0 k * u 0 k) ->
     if_denom eps u None RelTheta = Ok (Num.sqrt (\sum_k u 0 k * u 0 k))).
Proof. by split=> h; rewrite /if_denom max_l. Qed.
Print Assumptions C14_relatif_denominator_value.

Example C14_nonvacuous :
  (0 : realalg) < 1 /\ if_denom (1 : realalg) (0 : 'rV_3) None RelTheta = Ok 1.
Proof.
split; first exact: ltr01. rewrite /if_denom /dot big1 => [|k _]; last by rewrite mxE mul0r.
by rewrite sqrtr0 max_r // ler01.
Qed.
