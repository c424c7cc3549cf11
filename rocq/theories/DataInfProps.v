(* C08: DataInf. *)
Set Warnings "-notation-overridden,-ambiguous-paths".
From mathcomp Require Import all_ssreflect all_algebra zify.
From Verif Require Import Py Tensor TensorProof AttrProof TrakProof LinAlg DataInfModel DataInfSpec DataInfProof.
Set Implicit Arguments. Unset Strict Implicit. Unset Printing Implicit Defensive.
Import Order.TTheory GRing.Theory Num.Theory.
Local Open Scope ring_scope.

(* For a positive regularization (0.1 when None is passed) every block of every
   transformed row is the average over the cached gradients g of
   v (g'g + reg I)^-1, whatever the number of test rows (which is also the chunk
   size for the gradients); rows keep their length as far as the layers reach *)
Theorem C08_datainf_exact
    (F : realFieldType) (reg : option F) (sizes : seq nat) (gs vs : seq (seq F)) :
  let r := odflt (1 / 10%:R) reg in
  0 < r -> vs <> [::] ->
  let len := size (head [::] vs) in
  exists out, datainf_transform reg sizes (Some gs) vs = Ok (Some out) /\
    size out = size vs /\
    forall i, (i < size vs)%N ->
      size (nth [::] out i) = minn (sumn sizes) len /\
      forall sl, sl \in layer_slices len 0 sizes ->
        block (nth [::] out i) sl.1 sl.2
        = datainf_spec r [seq block g sl.1 sl.2 | g <- gs] (block (nth [::] vs i) sl.1 sl.2).
Proof.
move=> r r0 nv len; rewrite datainf_rows //; eexists; split; first by [].
split=> [|i hi]; first by rewrite size_map.
rewrite (nth_map [::]) //; set T := (fun a d => _).
have hT a d : size (T a d) = d by rewrite size_unrow.
split=> [|sl hsl]; first by rewrite size_glue //; lia.
apply/rowP => k; rewrite [LHS]mxE.
have := nth_glue hT hsl (ltn_ord k); rewrite min0n subn0 => ->.
by rewrite nth_unrow.
Qed.
Print Assumptions C08_datainf_exact.

(* a row does not depend on the other rows of the test batch *)
Theorem C08_datainf_row_local
    (F : realFieldType) (reg : option F) (sizes : seq nat) (gs vs ws : seq (seq F)) a b :
  0 < odflt (1 / 10%:R) reg -> vs <> [::] -> ws <> [::] ->
  size (head [::] vs) = size (head [::] ws) ->
  datainf_transform reg sizes (Some gs) vs = Ok (Some a) ->
  datainf_transform reg sizes (Some gs) ws = Ok (Some b) ->
  datainf_transform reg sizes (Some gs) (vs ++ ws) = Ok (Some (a ++ b)).
Proof.
move=> r0 nv nw e; rewrite !datainf_rows //; last by case: vs nv {e}.
move=> [<-] [<-]; have -> : head [::] (vs ++ ws) = head [::] vs by case: vs nv {e}.
by rewrite map_cat e.
Qed.
Print Assumptions C08_datainf_row_local.

(* the constructor's default regularization 0.0 always yields non-finite
   numbers, and without cache() there is nothing to average *)
Theorem C08_datainf_default_regularization
    (F : realFieldType) (sizes : seq nat) (gs vs : seq (seq F)) (reg : option F) :
  datainf_transform (Some 0) sizes (Some gs) vs = Ok None /\
  datainf_transform reg sizes None vs = Err AttributeError.
Proof. by rewrite /datainf_transform /= eqxx. Qed.
Print Assumptions C08_datainf_default_regularization.

(* what cache() stores: one gradient per batch, for exactly the first
   min(len(loader), ceil(len(loader) * ratio)) batches *)
Theorem C08_datainf_cache_batches
    (F : realFieldType) (X : Type) (bgrad : seq X -> seq F) (num den : nat) (l : loader X) :
  (0 < den)%N ->
  let m := nbatches l in
  exists k, (k <= m)%N /\
    (* k is the number of batches used *)
    ((num <= den)%N -> (m * num <= k * den)%N /\ (forall k', (m * num <= k' * den)%N -> (k <= k')%N)) /\
    ((den <= num)%N -> k = m) /\
    datainf_cache bgrad true num den l
    = if k is 0%N then Err RuntimeError else Ok (mkseq (fun i => bgrad (batch l i)) k).
Proof.
move=> hd m; exists (minn (iter_number m num den) m); split; first by lia.
have em : iter_number m num den = ((m * num + den.-1) %/ den)%N by [].
have [h1 h2] : (m * num <= iter_number m num den * den)%N /\ (iter_number m num den * den < m * num + den)%N.
  have := divn_eq (m * num + den.-1) den; have := ltn_pmod (m * num + den.-1) hd; rewrite -em; lia.
split=> [hr|].
  have le : (iter_number m num den <= m)%N.
    rewrite -ltnS -(ltn_pmul2r hd); apply: leq_trans h2 _; rewrite mulSn addnC leq_add2l leq_mul2l hr; lia.
  split=> [|k' hk']; first by rewrite (minn_idPl le).
  rewrite (minn_idPl le) -ltnS -(ltn_pmul2r hd); apply: leq_trans h2 _; rewrite mulSn; lia.
split=> [hr|].
  have : (m * den <= iter_number m num den * den)%N by apply: leq_trans h1; rewrite leq_mul2l hr orbT.
  by rewrite leq_pmul2r //; lia.
rewrite /datainf_cache /enum_batches -map_take take_iota -/m.
case e : (minn _ _) => [|k] //=; congr Ok; congr cons.
by rewrite /mkseq -map_comp.
Qed.
Print Assumptions C08_datainf_cache_batches.

(* layers: parameters with equal prefix in a row share a layer; the sizes add up *)
Theorem C08_layer_split (N : eqType) (ps : seq (N * nat)) (p0 : N * nat) :
  ps <> [::] ->
  let m := layer_map ps in
  [/\ size m = size ps, nth 0%N m 0 = 0%N,
      (forall i, (i.+1 < size ps)%N ->
         nth 0%N m i.+1 = (nth 0 m i + ((nth p0 ps i.+1).1 != (nth p0 ps i).1))%N),
      (forall k, nth 0%N (split_sizes ps) k
         = (\sum_(i < size ps | nth 0%N m i == k) (nth p0 ps i).2)%N)
    & sumn (split_sizes ps) = sumn (unzip2 ps)].
Proof.
move=> ne m; split.
- exact: size_layer_map.
- by case: ps @m ne => // p ps' m _; rewrite /m (layer_map_nth p0).
- by move=> i hi; rewrite /m (layer_map_nth p0).
- move=> k; rewrite (split_sizesP ne).2; apply: eq_bigr => i _.
  by rewrite (nth_map p0).
- exact: sumn_split_sizes.
Qed.
Print Assumptions C08_layer_split.

(* the stored gradients are batch gradients, so the result depends on how the
   training data are batched: gradients 1 and -1, mean loss *)
Definition mean1 (b : seq rat) : seq rat := [:: (\sum_(x <- b) x) / (size b)%:R].

Theorem C08_datainf_depends_on_batch_size_refuted :
  exists (xs : seq rat) (g1 g2 : seq (seq rat)) o1 o2,
    datainf_cache mean1 true 1 1 (Loader xs 1 false) = Ok g1 /\
    datainf_cache mean1 true 1 1 (Loader xs 2 false) = Ok g2 /\
    datainf_transform (Some 1) [:: 1%N] (Some g1) [:: [:: 1]] = Ok (Some o1) /\
    datainf_transform (Some 1) [:: 1%N] (Some g2) [:: [:: 1]] = Ok (Some o2) /\ o1 <> o2.
Proof.
exists [:: 1; -1]; do 4 eexists; split; first by [].
split; first by [].
rewrite !datainf_rows //; do 2 (split; first by []).
have ltr01' : 0 < 1 :> rat by [].
move=> /(congr1 (fun o => nth 0 (nth [::] o 0) 0)) /=.
rewrite /glue /= !cats0 !(nth_unrow _ (ord0 : 'I_1)) /datainf_spec !mxE /=.
rewrite !summxE !big_cons !big_nil -!single_inv // /single !mxE !big_ord1 !mxE /=.
rewrite /mean1 !big_cons !big_nil => /eqP; vm_compute; discriminate.
Qed.
Print Assumptions C08_datainf_depends_on_batch_size_refuted.

(* layer_name is ignored when rows are split: representations of the single
   selected layer b (3 parameters) are cut into blocks 2 + 1 *)
Theorem C08_datainf_layer_name_refuted :
  exists (out : seq (seq rat)),
    let u := [:: 1; 1; 1 : rat] in
    split_sizes [:: (0%N, 2%N); (1%N, 3%N)] = [:: 2; 3]%N /\
    datainf_transform (Some 1) (split_sizes [:: (0%N, 2%N); (1%N, 3%N)]) (Some [:: u]) [:: u] = Ok (Some out) /\
    block (nth [::] out 0) 0 3 <> datainf_spec 1 [:: block u 0 3] (block u 0 3).
Proof.
eexists; split; first by []; split; first by rewrite datainf_rows.
have ltr01' : 0 < 1 :> rat by [].
move=> /rowP /(_ ord0); rewrite [LHS]mxE /=.
rewrite /glue /= (nth_cat) size_unrow /= (nth_unrow _ (ord0 : 'I_2)) /datainf_spec !mxE /=.
rewrite !big_cons !big_nil !addr0 -!single_inv // /single !mxE !big_ord_recl !big_ord0 !mxE /=.
move=> /eqP; vm_compute; discriminate.
Qed.
Print Assumptions C08_datainf_layer_name_refuted.

Example C08_nonvacuous :
  (0 : rat) < odflt (1 / 10%:R) None /\ [:: [:: 1; 2%:R; 3%:R : rat]] <> [::] /\
  layer_slices 3 0 [:: 2; 1]%N = [:: (0, 2); (2, 1)]%N.
Proof. by []. Qed.
