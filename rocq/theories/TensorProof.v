(* Block assembly: adding one block per pair of batches adds every pairwise
   value to exactly its cell. *)
Set Warnings "-notation-overridden,-ambiguous-paths".
From mathcomp Require Import all_ssreflect all_algebra zify.
From Verif Require Import Py Tensor.
Set Implicit Arguments. Unset Strict Implicit. Unset Printing Implicit Defensive.
Import GRing.Theory.
Local Open Scope ring_scope.

Lemma rfold_cat (S B : Type) (f : S -> B -> res S) s (l1 l2 : seq B) :
  rfold f s (l1 ++ l2) = rbind (rfold f s l1) (fun s' => rfold f s' l2).
Proof. by elim: l1 s => [|b l1 IH] s //=; case: (f s b) => //= s'. Qed.

Lemma rfold_rcons (S B : Type) (f : S -> B -> res S) s (l : seq B) b :
  rfold f s (rcons l b) = rbind (rfold f s l) (fun s' => f s' b).
Proof. rewrite -cats1 rfold_cat; case: (rfold f s l) => //= s'; by case: (f s' b). Qed.

Lemma eq_rfold (S B : eqType) (f g : S -> B -> res S) s (l : seq B) :
  (forall s b, b \in l -> f s b = g s b) -> rfold f s l = rfold g s l.
Proof.
elim: l s => [|b l IH] s H //=.
rewrite H ?inE ?eqxx //; case: (g s b) => //= s'.
by apply: IH => s'' b' hb; apply: H; rewrite inE hb orbT.
Qed.

Section MapI.
Variables (A B : Type).
Lemma size_mapi (f : nat -> A -> B) s : size (mapi f s) = size s.
Proof. by rewrite /mapi size_map size_zip size_iota minnn. Qed.

Lemma nth_mapi (f : nat -> A -> B) s a b i : (i < size s)%N ->
  nth b (mapi f s) i = f i (nth a s i).
Proof.
move=> h; rewrite /mapi (nth_map (0%N, a)) ?size_zip ?size_iota ?minnn //.
by rewrite nth_zip ?size_iota //= nth_iota.
Qed.

Lemma mapi_mkseq (f : nat -> A -> B) g n :
  mapi f (mkseq g n) = mkseq (fun i => f i (g i)) n.
Proof.
case: n => [//|n].
have a : A := g 0%N. have b : B := f 0%N a.
apply: (@eq_from_nth _ b); first by rewrite size_mapi !size_mkseq.
move=> i; rewrite size_mapi size_mkseq => h.
by rewrite (nth_mapi _ a) ?size_mkseq // !nth_mkseq.
Qed.
End MapI.

Lemma eq_mkseq_lt (A : Type) (f g : nat -> A) n :
  (forall i, (i < n)%N -> f i = g i) -> mkseq f n = mkseq g n.
Proof.
move=> H; rewrite /mkseq; apply/eq_in_map => i; rewrite mem_iota add0n /= => h.
exact: H.
Qed.

Lemma iotaSr n : iota 0 n.+1 = rcons (iota 0 n) n.
Proof. by rewrite -addn1 iotaD cats1. Qed.

Lemma nseq_mkseq (A : Type) n (x : A) : nseq n x = mkseq (fun=> x) n.
Proof.
apply: (@eq_from_nth _ x); first by rewrite size_nseq size_mkseq.
by move=> i; rewrite size_nseq => h; rewrite nth_nseq nth_mkseq // h.
Qed.

Section Blocks.
Variable V : zmodType.
Definition mk n m (g : nat -> nat -> V) : seq (seq V) :=
  mkseq (fun i => mkseq (g i) m) n.

Lemma eq_mk n m g g' : (forall i j, (i < n)%N -> (j < m)%N -> g i j = g' i j) ->
  mk n m g = mk n m g'.
Proof.
by move=> H; apply: eq_mkseq_lt => i hi; apply: eq_mkseq_lt => j hj; apply: H.
Qed.

Lemma zeros2_mk n m : zeros2 V n m = mk n m (fun _ _ => 0).
Proof. by rewrite /zeros2 /mk !nseq_mkseq. Qed.

Lemma head_mk n m g : (0 < n)%N -> head [::] (mk n m g) = mkseq (g 0%N) m.
Proof. by case: n. Qed.

Lemma add_block_mk n m r0 r1 c0 c1 g b :
  (r0 < r1 <= n)%N -> (c0 < c1 <= m)%N ->
  add_block r0 r1 c0 c1 (mk (r1 - r0) (c1 - c0) b) (mk n m g)
  = Ok (mk n m (fun i j => if in_slice r0 r1 i && in_slice c0 c1 j
                           then g i j + b (i - r0)%N (j - c0)%N else g i j)).
Proof.
move=> hr hc; rewrite /add_block.
have e1 : size (mk (r1 - r0) (c1 - c0) b) = (r1 - r0)%N by rewrite size_mkseq.
have e2 : size (head [::] (mk (r1 - r0) (c1 - c0) b)) = (c1 - c0)%N.
  by rewrite head_mk ?size_mkseq //; lia.
have e3 : size (mk n m g) = n by rewrite size_mkseq.
have e4 : size (head [::] (mk n m g)) = m by rewrite head_mk ?size_mkseq //; lia.
rewrite e1 e2 e3 e4.
have -> : all (fun r => size r == (c1 - c0)%N) (mk (r1 - r0) (c1 - c0) b).
  by apply/allP => r /mapP [i _ ->]; rewrite size_mkseq.
have -> /= : bc_ok (r1 - r0) (slice_len n r0 r1) by rewrite /bc_ok /slice_len; lia.
have -> /= : bc_ok (c1 - c0) (slice_len m c0 c1) by rewrite /bc_ok /slice_len; lia.
congr Ok; rewrite /mk mapi_mkseq; apply: eq_mkseq_lt => i hi.
rewrite mapi_mkseq; apply: eq_mkseq_lt => j hj.
case: ifP => //; rewrite /in_slice => /andP [hi' hj'].
have -> : bc_idx (r1 - r0) (i - r0) = (i - r0)%N by rewrite /bc_idx; case: eqP; lia.
have -> : bc_idx (c1 - c0) (j - c0) = (j - c0)%N by rewrite /bc_idx; case: eqP; lia.
rewrite nth_mkseq; last by lia.
by rewrite nth_mkseq //; lia.
Qed.

Definition mk1 n (g : nat -> V) : seq V := mkseq g n.

Lemma add_vec_mk n r0 r1 (g b : nat -> V) :
  (r0 < r1 <= n)%N ->
  add_vec r0 r1 (mkseq b (r1 - r0)) (mkseq g n)
  = Ok (mkseq (fun i => if in_slice r0 r1 i then g i + b (i - r0)%N else g i) n).
Proof.
move=> hr; rewrite /add_vec !size_mkseq.
have -> /= : bc_ok (r1 - r0) (slice_len n r0 r1) by rewrite /bc_ok /slice_len; lia.
congr Ok; rewrite mapi_mkseq; apply: eq_mkseq_lt => i hi.
case: ifP => //; rewrite /in_slice => hi'.
have -> : bc_idx (r1 - r0) (i - r0) = (i - r0)%N by rewrite /bc_idx; case: eqP; lia.
by rewrite nth_mkseq //; lia.
Qed.
End Blocks.

(* number of samples that appear in some batch *)
Definition covered (X : Type) (L : loader X) : nat :=
  if ld_drop L then (size (ld_data L) %/ ld_bs L * ld_bs L)%N else size (ld_data L).

Section LoaderFacts.
Variable X : Type.
Variable L : loader X.
Hypothesis bs_gt0 : (0 < ld_bs L)%N.
Let n := size (ld_data L).

Lemma nbatches_st k : (k < nbatches L)%N -> (st L k < ed L k <= n)%N.
Proof.
rewrite /nbatches /st /ed -/n => hk.
have h : (k * ld_bs L < n)%N.
  move: hk; case: ifP => _ hk.
    have := leq_trunc_div n (ld_bs L); nia.
  have := leq_trunc_div (n + (ld_bs L).-1) (ld_bs L); nia.
rewrite mulSn; lia.
Qed.

Lemma size_batch k : size (batch L k) = (ed L k - st L k)%N.
Proof. rewrite /batch size_take size_drop /ed /st mulSn -/n; case: ifP; lia. Qed.

Lemma nth_batch x0 k i : (i < size (batch L k))%N ->
  nth x0 (batch L k) i = nth x0 (ld_data L) (st L k + i).
Proof.
rewrite size_batch => h; rewrite /batch nth_take ?nth_drop //.
by move: h; rewrite /ed /st mulSn; lia.
Qed.

(* after k batches exactly the first (ed (k-1)) samples are done *)
Definition upto k := minn (k * ld_bs L) n.

Lemma upto0 : upto 0 = 0%N. Proof. by rewrite /upto mul0n min0n. Qed.
Lemma ed_upto k : ed L k = upto k.+1. Proof. by []. Qed.
Lemma upto_step k i : (k < nbatches L)%N ->
  in_slice (st L k) (ed L k) i = (upto k <= i < upto k.+1)%N.
Proof. by move=> /nbatches_st; rewrite /in_slice /upto /ed /st -/n; lia. Qed.

Lemma upto_mono k : (upto k <= upto k.+1)%N.
Proof. rewrite /upto mulSn; lia. Qed.

Lemma upto_all : upto (nbatches L) = covered L.
Proof.
rewrite /upto /nbatches /covered -/n; case: ifP => _.
  by have := leq_trunc_div n (ld_bs L); lia.
have := divn_eq (n + (ld_bs L).-1) (ld_bs L).
have := ltn_pmod (n + (ld_bs L).-1) bs_gt0. lia.
Qed.

Lemma covered_le : (covered L <= n)%N.
Proof. by rewrite /covered -/n; case: ifP => // _; apply: leq_trunc_div. Qed.
End LoaderFacts.

Section Assembly.
Variables (V : zmodType) (X Y : Type) (tr : loader X) (te : loader Y).
Hypothesis htr : (0 < ld_bs tr)%N.
Hypothesis hte : (0 < ld_bs te)%N.
Variable f : X -> Y -> V.
Let n := size (ld_data tr).
Let m := size (ld_data te).

Lemma pairwise_mk (x0 : X) (y0 : Y) k l :
  [seq [seq f x y | y <- batch te l] | x <- batch tr k]
  = mk (ed tr k - st tr k) (ed te l - st te l)
      (fun i j => f (nth x0 (ld_data tr) (st tr k + i)) (nth y0 (ld_data te) (st te l + j))).
Proof.
apply: (@eq_from_nth _ [::]); first by rewrite size_map size_mkseq size_batch.
move=> i; rewrite size_map => hi.
rewrite (nth_map x0) // nth_mkseq -?size_batch //.
apply: (@eq_from_nth _ 0); first by rewrite size_map size_mkseq size_batch.
move=> j; rewrite size_map => hj.
by rewrite (nth_map y0) // nth_mkseq -?size_batch // !nth_batch.
Qed.

Lemma block_loop_mk x0 y0 g :
  block_loop tr te (fun xb yb => [seq [seq f x y | y <- yb] | x <- xb]) (mk n m g)
  = Ok (mk n m (fun i j => if (i < covered tr)%N && (j < covered te)%N
        then g i j + f (nth x0 (ld_data tr) i) (nth y0 (ld_data te) j) else g i j)).
Proof.
set val := fun i j => f (nth x0 (ld_data tr) i) (nth y0 (ld_data te) j).
rewrite /block_loop /enum_batches.
have inner k g0 l : (k < nbatches tr)%N -> (l <= nbatches te)%N ->
  rfold (fun o' qb => add_block (st tr k) (ed tr k) (st te qb.1) (ed te qb.1)
      [seq [seq f x y | y <- qb.2] | x <- batch tr k] o')
    (mk n m g0) [seq (k0, batch te k0) | k0 <- iota 0 l]
  = Ok (mk n m (fun i j => if in_slice (st tr k) (ed tr k) i && (j < upto te l)%N
                           then g0 i j + val i j else g0 i j)).
  move=> hk; elim: l => [|l IH] hl.
    congr Ok; apply: eq_mk => i j _ _; by rewrite upto0 ltn0 andbF.
  rewrite iotaSr map_rcons rfold_rcons IH; last by lia.
  rewrite [rbind _ _]/= (pairwise_mk x0 y0) add_block_mk; last 2 first.
  - exact: nbatches_st.
  - exact: nbatches_st.
  congr Ok; apply: eq_mk => i j hi hj.
  have h1 := upto_step hte j hl.
  have h2 := upto_mono hte l.
  rewrite h1; case: (boolP (in_slice _ _ _)) => //= hin.
  have e1 : (st tr k + (i - st tr k) = i)%N by move: hin; rewrite /in_slice; lia.
  case: (boolP (upto te l <= j < upto te l.+1)%N) => h3.
    have -> : (j < upto te l)%N = false by lia.
    have -> : (j < upto te l.+1)%N by lia.
    rewrite e1; congr (_ + _).
    have -> : (st te l + (j - st te l) = j)%N by move: h3; rewrite -h1 /in_slice; lia.
    by [].
  have -> : (j < upto te l.+1)%N = (j < upto te l)%N by lia.
  by [].
suff outer k : (k <= nbatches tr)%N ->
  rfold (fun o pb => rfold (fun o' qb =>
      add_block (st tr pb.1) (ed tr pb.1) (st te qb.1) (ed te qb.1)
                [seq [seq f x y | y <- qb.2] | x <- pb.2] o')
    o [seq (k, batch te k) | k <- iota 0 (nbatches te)]) (mk n m g)
    [seq (k, batch tr k) | k <- iota 0 k]
  = Ok (mk n m (fun i j => if (i < upto tr k)%N && (j < upto te (nbatches te))%N
                           then g i j + val i j else g i j)).
  by rewrite outer // !upto_all.
elim: k => [|k IH] hk.
  congr Ok; apply: eq_mk => i j _ _; by rewrite upto0 ltn0.
rewrite iotaSr map_rcons rfold_rcons IH; last by lia.
rewrite [rbind _ _]/= inner //.
congr Ok; apply: eq_mk => i j hi hj.
have h1 := upto_step htr i hk.
have h2 := upto_mono htr k.
rewrite h1; case: (j < upto te (nbatches te))%N; rewrite ?andbF ?andbT //.
case: (boolP (upto tr k <= i < upto tr k.+1)%N) => h3.
  have -> : (i < upto tr k)%N = false by lia.
  by have -> : (i < upto tr k.+1)%N by lia.
by have -> : (i < upto tr k.+1)%N = (i < upto tr k)%N by lia.
Qed.
End Assembly.
