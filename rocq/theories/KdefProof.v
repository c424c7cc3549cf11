(* Lemmas for C69. *)
Set Warnings "-notation-overridden,-ambiguous-paths".
From mathcomp Require Import all_ssreflect all_algebra zify.
From Verif Require Import Py Tensor TensorProof AttrModel KnnModel KnnSpec KnnProof KnnProps KdefModel KdefSpec.
Set Implicit Arguments. Unset Strict Implicit. Unset Printing Implicit Defensive.
Import Order.TTheory GRing.Theory Num.Theory.
Local Open Scope ring_scope.

(* the recursion from the farthest sample to the nearest *)
Section Rec.
Variables (F : realFieldType) (n K : nat) (a : nat -> F) (m : nat -> bool).
Let w i : F := (maxn K i.+1)%:R^-1.
Hypothesis K0 : (0 < K)%N.
Hypothesis rec : forall i, (i.+1 < n)%N -> a i = a i.+1 + ((m i)%:R - (m i.+1)%:R) * w i.

Lemma w_mono i k : (i <= k)%N -> w k <= w i.
Proof. by move=> h; rewrite /w lef_pinv ?posrE ?ltr0n ?ler_nat; lia. Qed.
Lemma w_ge0 i : 0 <= w i. Proof. by rewrite /w invr_ge0 ler0n. Qed.

Lemma rec_bounds : (K <= n)%N -> a n.-1 = (m n.-1)%:R / n%:R -> forall i, (i < n)%N -> signed (m i) (w i) (a i).
Proof.
move=> Kn a0; suff H k i : (i + k = n.-1)%N -> (i < n)%N -> signed (m i) (w i) (a i).
  by move=> i hi; apply: (H (n.-1 - i)%N); lia.
elim: k i => [|k IH] i e hi.
  have -> : i = n.-1 by lia.
  rewrite /signed a0 /w; have -> : (maxn K n.-1.+1 = n)%N by lia.
  by case: (m _); rewrite ?mul1r ?mul0r ?lexx ?oppr_le0 ?invr_ge0 ?ler0n.
have := IH i.+1; rewrite addSnnS => /(_ e); have hi1 : (i.+1 < n)%N by lia.
move=> /(_ hi1); rewrite (rec hi1) /signed; have wm := w_mono (leqnSn i); have w0 := w_ge0 i.
case: (m i); case: (m i.+1) => /= /andP [h1 h2]; rewrite ?subrr ?mul0r ?addr0 ?subr0 ?sub0r ?mul1r ?mulN1r.
- by rewrite h1 (le_trans h2).
- by rewrite -ler_subl_addr sub0r (le_trans _ h1) ?ler_opp2 //= -ler_subr_addr subrr.
- by rewrite -ler_subl_addr opprK addNr h1 /= subr_le0 (le_trans h2).
- by rewrite h2 andbT (le_trans _ h1) ?ler_opp2.
Qed.

Lemma rec_mono i j : (i <= j < n)%N ->
  (m j -> if m i then a j <= a i else a j - w i <= a i) /\ (~~ m j -> if m i then a i <= a j + w i else a i <= a j).
Proof.
move=> /andP [le lj]; suff H k i' : (i' + k = j)%N ->
    (m j -> if m i' then a j <= a i' else a j - w i' <= a i') /\ (~~ m j -> if m i' then a i' <= a j + w i' else a i' <= a j).
  by apply: (H (j - i)%N); lia.
elim: k i' => [|k IH] i' e.
  have -> : i' = j by lia.
  by case: (m j).
have := IH i'.+1; rewrite addSnnS => /(_ e) [h1 h2]; have hi1 : (i'.+1 < n)%N by lia.
rewrite (rec hi1); have wm := w_mono (leqnSn i'); have w0 := w_ge0 i'.
split=> mj; [move: (h1 mj)|move: (h2 mj)]; case: (m i'); case: (m i'.+1) => /= h; rewrite ?subrr ?mul0r ?addr0 ?subr0 ?sub0r ?mul1r ?mulN1r //.
- by rewrite -ler_subl_addr (le_trans _ h) // ler_add2l ler_opp2.
- by rewrite ler_add2r.
- by rewrite (le_trans _ h) // ler_add2l ler_opp2.
- by rewrite (le_trans h) // ler_add2l.
- by rewrite ler_add2r.
- by rewrite ler_subl_addr (le_trans h) // ler_add2l.
Qed.
End Rec.

(* the number of strictly nearer samples is at most the position *)
Lemma nearer_rank (F : realFieldType) (argsort : seq F -> seq nat) (d : seq F) (i : nat) : is_argsort argsort -> (i < size d)%N ->
  (nearer (size d) (nth 0%R d) i <= index i (argsort d))%N.
Proof.
move=> so hi; have [hp _] := so d; have [_ mono] := argsort_rank so (erefl (size d)).
rewrite /nearer; move/permP: (hp) => <-.
have mi : i \in argsort d by rewrite (perm_mem hp) mem_iota.
rewrite -{1}(cat_take_drop (index i (argsort d)) (argsort d)) count_cat.
have -> : count (fun k => nth 0 d k < nth 0 d i) (drop (index i (argsort d)) (argsort d)) = 0%N.
  apply/eqP; rewrite -leqn0 leqNgt -has_count; apply/hasPn => k hk; apply/negP => lt.
  have kin : k \in argsort d by exact: mem_drop hk.
  have hk' : (k < size d)%N by move: kin; rewrite (perm_mem hp) mem_iota.
  have lti := mono (Ordinal hk') (Ordinal hi) lt.
  have un : uniq (argsort d) by rewrite (perm_uniq hp) iota_uniq.
  move: un; rewrite -{1}(cat_take_drop (index i (argsort d)) (argsort d)) cat_uniq => /and3P [_ /hasPn /(_ _ hk) /= nk _].
  by move: nk; rewrite in_take // lti.
by rewrite addn0; apply: leq_trans (count_size _ _) _; rewrite size_take; case: ltnP.
Qed.

(* two argsorts of rows in the same strict order without ties *)
Lemma argsort_same (F : realFieldType) (s s' : seq F -> seq nat) (d d' : seq F) : is_argsort s -> is_argsort s' ->
  size d = size d' -> (forall i k, (i < size d)%N -> (k < size d)%N -> (nth 0 d i < nth 0 d k) = (nth 0 d' i < nth 0 d' k)) ->
  (forall i k, (i < size d)%N -> (k < size d)%N -> nth 0 d i = nth 0 d k -> i = k) -> s d = s' d'.
Proof.
move=> so so' e ord inj; have [hp hs] := so d; have [hp' hs'] := so' d'.
have strict (t : seq F -> seq nat) (v : seq F) : perm_eq (t v) (iota 0 (size v)) -> sorted <=%O [seq nth 0 v i | i <- t v] ->
    (forall i k, (i < size v)%N -> (k < size v)%N -> nth 0 v i = nth 0 v k -> i = k) ->
    sorted (fun i k => nth 0 v i < nth 0 v k) (t v).
  move=> p st inj'; have : sorted <%O [seq nth 0 v i | i <- t v]; last by rewrite sorted_map.
  rewrite lt_sorted_uniq_le st andbT.
  rewrite map_inj_in_uniq ?(perm_uniq p) ?iota_uniq // => i k; rewrite !(perm_mem p) !mem_iota /= add0n => hi hk; exact: inj'.
have inj' i k : (i < size d')%N -> (k < size d')%N -> nth 0 d' i = nth 0 d' k -> i = k.
  rewrite -e => hi hk eq; apply: inj => //; apply/eqP; rewrite eq_le !leNgt !ord // eq !ltxx //.
have h1 := strict s d hp hs inj; have h2 := strict s' d' hp' hs' inj'.
apply: (@irr_sorted_eq _ (fun i k => nth 0 d i < nth 0 d k)) => //.
- by move=> y x z; exact: lt_trans.
- apply: (sub_in_sorted (P := fun i => (i < size d)%N) (e := fun i k => nth 0 d' i < nth 0 d' k)) h2.
    by move=> i k hi hk /=; rewrite ord.
  by apply/allP => i; rewrite (perm_mem hp') mem_iota -e.
- by move=> i; rewrite (perm_mem hp) (perm_mem hp') e.
Qed.

Lemma rigid_dist (F : rcfType) (d : nat) (Q : 'M[F]_d) t (u u' v v' : seq F) : rigid Q t u u' -> rigid Q t v v' ->
  \sum_(k < d) (nth 0 u' k - nth 0 v' k) ^+ 2 = \sum_(k < d) (nth 0 u k - nth 0 v k) ^+ 2.
Proof.
move=> [hQ h1] [_ h2].
have sq (x : 'rV[F]_d) : \sum_k x 0 k ^+ 2 = (x *m x^T) 0 0 by rewrite mxE; apply: eq_bigr => k _; rewrite mxE expr2.
have E (p q : seq F) : \sum_(k < d) (nth 0 p k - nth 0 q k) ^+ 2
    = ((\row_(k < d) nth 0 p k - \row_(k < d) nth 0 q k) *m (\row_(k < d) nth 0 p k - \row_(k < d) nth 0 q k)^T) 0 0.
  by rewrite -sq; apply: eq_bigr => k _; rewrite !mxE.
rewrite !E h1 h2 opprD addrACA subrr addr0 -mulmxBl trmx_mul mulmxA -(mulmxA _ Q) hQ mulmx1 //.
Qed.
