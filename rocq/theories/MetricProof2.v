(* lds and loo_corr evaluated; ranks without ties. *)
Set Warnings "-notation-overridden,-ambiguous-paths".
From mathcomp Require Import all_ssreflect all_algebra zify.
From Verif Require Import Py Tensor MetricModel MetricSpec MetricProof FieldSupport.
Require Import Field.
Set Implicit Arguments. Unset Strict Implicit. Unset Printing Implicit Defensive.
Import Order.TTheory GRing.Theory Num.Theory.
Local Open Scope ring_scope.

Section P.
Variable R : rcfType.
Implicit Types x y : seq R.
Add Field mcF : (@ffield R).

Lemma torch_indexE n z : in_range n z ->
  exists2 k, (k < n)%N & torch_index n z = Ok k /\
    forall j, (j < n)%N -> ((z == j%:Z) || (z == j%:Z - n%:Z)) = (j == k).
Proof.
rewrite /in_range; case: z => k /= h.
  exists k; first by lia.
  split; first by case: ltnP => //; lia.
  by move=> j jn; apply/idP/idP; lia.
exists (n - k.+1)%N; first by lia.
split; first by case: ltnP => //; lia.
by move=> j jn; apply/idP/idP; lia.
Qed.

Lemma torch_index_err n z : ~~ in_range n z -> torch_index n z = Err IndexError.
Proof. by rewrite /in_range; case: z => k /= h; case: ltnP => //; lia. Qed.

Lemma torch_indicesE n zs (f : nat -> R) : all (in_range n) zs ->
  exists2 js, torch_indices n zs = Ok js &
    \sum_(j <- js) f j = \sum_(j < n) (multiplicity n zs j)%:R * f j.
Proof.
elim: zs => [|z zs IH] /= => [_|/andP[iz izs]].
  by exists [::]; rewrite // big_nil big1 // => j _; rewrite mul0r.
have [k kn [-> kj]] := torch_indexE iz; have [js -> e] := IH izs.
exists (k :: js) => //; rewrite big_cons e.
rewrite [RHS](eq_bigr (fun j : 'I_n => (j == Ordinal kn)%:R * f j + (multiplicity n zs j)%:R * f j)).
  rewrite big_split /=; congr (_ + _).
  rewrite (bigD1 (Ordinal kn)) //= eqxx mul1r big1 ?addr0 // => j.
  by move/negbTE->; rewrite mul0r.
move=> j _; rewrite -mulrDl /multiplicity /= kj // natrD.
by rewrite -(inj_eq val_inj).
Qed.

Lemma torch_indices_err n zs : ~~ all (in_range n) zs -> torch_indices n zs = Err IndexError.
Proof.
elim: zs => //= z zs IH; rewrite negb_and.
case iz: (in_range n z) => /= h; last by rewrite torch_index_err ?iz.
by have [k _ [-> _]] := torch_indexE iz; rewrite /= IH.
Qed.

Lemma subset_sumsE (score : mat R) zs : all (in_range (size (mrows score))) zs ->
  subset_sums score zs = Ok [seq predicted (mrows score) zs t | t <- iota 0 (mcols score)].
Proof.
move=> h; rewrite /subset_sums.
have [js e _] := torch_indicesE (fun _ => 0) h.
rewrite e /=; congr Ok; apply: eq_map => t.
have [js' e'] := torch_indicesE (fun j => nth 0 (nth [::] (mrows score) j) t) h.
by move: e'; rewrite e => -[<-].
Qed.

Lemma all_sumsE (score : mat R) idx : all (all (in_range (size (mrows score)))) idx ->
  all_sums score idx = Ok [seq [seq predicted (mrows score) zs t | t <- iota 0 (mcols score)] | zs <- idx].
Proof.
elim: idx => //= zs idx IH /andP[h1 h2].
by rewrite subset_sumsE // IH.
Qed.

Lemma all_sums_err (score : mat R) idx : ~~ all (all (in_range (size (mrows score)))) idx ->
  all_sums score idx = Err IndexError.
Proof.
elim: idx => //= zs idx IH; rewrite negb_and.
case iz: (all _ zs) => /= h; last by rewrite /subset_sums torch_indices_err ?iz.
by rewrite subset_sumsE //= IH.
Qed.

Lemma stack_fromE (A : Type) (f : nat -> res A) (g : nat -> A) ts :
  (forall t, t \in ts -> f t = Ok (g t)) -> stack_from f ts = Ok (map g ts).
Proof.
elim: ts => //= t ts IH h; rewrite h ?mem_head //= IH // => u uts.
by apply: h; rewrite in_cons uts orbT.
Qed.

Lemma stackE (A : Type) (f : nat -> res A) (g : nat -> A) m : (0 < m)%N ->
  (forall t, (t < m)%N -> f t = Ok (g t)) -> stack f m = Ok (map g (iota 0 m)).
Proof.
move=> m0 h; rewrite /stack (@stack_fromE _ _ g) => [|t]; last by rewrite mem_iota add0n => /h.
by case: m m0 h.
Qed.

Definition spec_spearman x y : option R :=
  if constant x || constant y then None else Some (rank_correlation x y).
Definition spec_pearson x y : option R :=
  if constant x || constant y then None else Some (correlation x y).

Lemma size1_constant x : (size x <= 1)%N -> constant x.
Proof. by case: x => [|a [|]] //= _; rewrite /constant /= eqxx. Qed.

Lemma spearmanrE x y : size x = size y -> spearmanr x y = Ok (spec_spearman x y).
Proof.
move=> sxy; rewrite /spearmanr sxy eqxx /spec_spearman /=.
case: (leqP (size y) 1) => [s1|s1] /=; first by rewrite [constant x]size1_constant ?sxy.
case: ifP => // _; rewrite corrcoefE ?size_rank ?sxy //.
by rewrite /rank_correlation !rankE.
Qed.

Lemma pearsonrE x y : size x = size y -> (1 < size x)%N -> pearsonr x y = Ok (spec_pearson x y).
Proof.
move=> sxy s1; rewrite /pearsonr -sxy eqxx /spec_pearson /= leqNgt s1 /=.
by case: ifP => // _; rewrite corrcoefE.
Qed.

Lemma col_sums (score : mat R) idx t : (t < mcols score)%N ->
  col (Mat [seq [seq predicted (mrows score) zs t | t <- iota 0 (mcols score)] | zs <- idx] (mcols score)) t
  = predictions (mrows score) idx t.
Proof.
move=> tm; rewrite /col /predictions -map_comp; apply: eq_map => zs /=.
by rewrite (nth_map 0%N) ?size_iota // nth_iota.
Qed.

Variable pv : seq R -> seq R -> option R.

Lemma ldsE (score gt : mat R) idx :
  lds_shapes (mrows score) (mrows gt) (mcols score) (mcols gt) idx ->
  lds pv score gt idx =
   Ok ([seq spec_spearman (predictions (mrows score) idx t) (column (mrows gt) t) | t <- iota 0 (mcols score)],
       [seq pv (predictions (mrows score) idx t) (column (mrows gt) t) | t <- iota 0 (mcols score)]).
Proof.
case=> h1 h2 h3 /andP[m0 mm]; rewrite /lds all_sumsE //=.
case e: (map _ idx) => [|r rs].
  by move: h3; move/(congr1 size): e; rewrite size_map => ->.
rewrite -{}e.
have sz t : size (predictions (mrows score) idx t) = size (column (mrows gt) t).
  by rewrite !size_map h2.
have gc t : (t < mcols score)%N -> gcol gt t = Ok (column (mrows gt) t).
  by move=> tm; rewrite /gcol (leq_trans tm mm).
rewrite (@stackE _ _ (fun t => spec_spearman (predictions (mrows score) idx t) (column (mrows gt) t))) //; last first.
  by move=> t tm; rewrite gc //= col_sums // spearmanrE.
rewrite /= (@stackE _ _ (fun t => pv (predictions (mrows score) idx t) (column (mrows gt) t))) // => t tm.
by rewrite gc //= col_sums // spearmanrE.
Qed.

Lemma loo_corrE (score gt : mat R) rm : size (mrows gt) = size (mrows score) ->
  (1 < size (mrows score))%N -> (0 < mcols score <= mcols gt)%N ->
  loo_corr pv score gt rm =
   Ok ([seq spec_pearson (column (mrows score) t) (column (mrows gt) t) | t <- iota 0 (mcols score)],
       [seq pv (column (mrows score) t) (column (mrows gt) t) | t <- iota 0 (mcols score)]).
Proof.
move=> h2 h3 /andP[m0 mm]; rewrite /loo_corr.
have sz t : size (column (mrows score) t) = size (column (mrows gt) t).
  by rewrite !size_map h2.
have s1 t : (1 < size (column (mrows score) t))%N by rewrite size_map.
have gc t : (t < mcols score)%N -> gcol gt t = Ok (column (mrows gt) t).
  by move=> tm; rewrite /gcol (leq_trans tm mm).
rewrite (@stackE _ _ (fun t => spec_pearson (column (mrows score) t) (column (mrows gt) t))) //; last first.
  by move=> t tm; rewrite gc //= -[col score t]/(column (mrows score) t) pearsonrE.
rewrite /= (@stackE _ _ (fun t => pv (column (mrows score) t) (column (mrows gt) t))) // => t tm.
by rewrite gc //= -[col score t]/(column (mrows score) t) pearsonrE.
Qed.

(* without ties the ranks are 1..n *)
Lemma perm_rank x : uniq x -> perm_eq (rankdata x) [seq i%:R | i <- iota 1 (size x)].
Proof.
move=> ux; set s := sort <=%R x.
have px : perm_eq s x by rewrite perm_sort.
have ss : sorted <%O s by rewrite lt_sorted_uniq_le sort_uniq ux (sort_le_sorted x).
have -> : rankdata x = map (rk x) x by [].
suff -> : [seq i%:R | i <- iota 1 (size x)] = map (rk x) s by rewrite perm_sym; exact: perm_map.
have sz : size s = size x by rewrite size_sort.
apply: (@eq_from_nth _ 0); rewrite !size_map size_iota ?sz // => i ix.
rewrite (nth_map 0%N) ?size_iota // nth_iota // [RHS](nth_map 0) ?sz // /rk.
have -> : count (fun b => b <= nth 0 s i) x = i.+1.
  by rewrite -(permP px) -[RHS](count_le_nth 0 ss) ?sz.
have -> : count (fun b => b < nth 0 s i) x = i.
  by rewrite -(permP px) -[RHS](count_lt_nth 0 ss) ?sz.
rewrite add1n (natS _ i); move: (@two0 R); rewrite twoE; move: (i%:R) => u t0.
by fnorm; field; exact/eqP.
Qed.

Lemma sum_nat6 n : \sum_(i <- iota 1 n) (i%:R : R) ^+ 2 * 6%:R = n%:R * (n%:R + 1) * (2%:R * n%:R + 1).
Proof.
have six : 6%:R = (1 + 1) * (1 + 1 + 1) :> R.
  by rewrite -[6%N]/(2 * 3)%N natrM twoE (natS R 2) twoE.
elim: n => [|n IH]; first by rewrite big_nil !mul0r.
rewrite -[n.+1]addn1 iotaD big_cat /= IH big_seq1 add1n addn1 (natS R n) six twoE expr2.
by move: (n%:R) => u; fnorm; ring.
Qed.

Lemma gap_aux (u g s t w : R) : u != 0 -> w != 0 -> s != 0 -> t != 0 ->
  u * g / t / (u ^+ 2 * w / (s * t)) = s * g / (u * w).
Proof.
move=> u0 w0 s0 t0; rewrite expr2; fnorm; field; repeat split; exact/eqP.
Qed.

(* the textbook formula for ranks without ties *)
Lemma rank_corr_no_ties x y : size x = size y -> (1 < size x)%N -> uniq x -> uniq y ->
  rank_correlation x y
  = 1 - 6%:R * rank_gap x y / ((size x)%:R * ((size x)%:R ^+ 2 - 1)).
Proof.
move=> sxy n1 ux uy.
have px := perm_rank ux; have py := perm_rank uy; rewrite -sxy in py.
rewrite /rank_correlation -!rankE.
have gapE : rank_gap x y = \sum_(i < size x) (nth 0 (rankdata x) i - nth 0 (rankdata y) i) ^+ 2.
  apply: eq_bigr => i _; rewrite !nth_rank -?sxy //.
  by rewrite !midrankE ?mem_nth -?sxy.
have sx : sum (rankdata x) * 2%:R = (size x)%:R * ((size x)%:R + 1).
  rewrite /sum (perm_big _ px) /= big_map mulr_suml sum_iota; congr (_ * _).
  by rewrite mulr1 twoE; move: ((size x)%:R) => u; fnorm; ring.
have sy : sum (rankdata y) = sum (rankdata x).
  by rewrite /sum (perm_big _ py) (perm_big _ px).
have q (z : seq R) : perm_eq (rankdata z) [seq i%:R | i <- iota 1 (size x)] -> size z = size x ->
   sum2 (rankdata z) (rankdata z) * 6%:R = (size x)%:R * ((size x)%:R + 1) * (2%:R * (size x)%:R + 1).
  move=> pz sz; rewrite /sum2 -sum_nat6 mulr_suml.
  have -> : \sum_(i <- iota 1 (size x)) (i%:R : R) ^+ 2 * 6%:R
      = \sum_(r <- rankdata z) r ^+ 2 * 6%:R by rewrite (perm_big _ pz) /= big_map.
  by rewrite (big_nth 0) big_mkord; apply: eq_bigr => i _; rewrite expr2.
have qx := q x px erefl; have qy := q y py (esym sxy).
have gap2 : rank_gap x y = sum2 (rankdata x) (rankdata x) + sum2 (rankdata y) (rankdata y)
     - 2%:R * sum2 (rankdata x) (rankdata y).
  rewrite gapE /sum2 !size_rank -sxy mulr_sumr -sumrN -!big_split /=.
  by apply: eq_bigr => i _; rewrite expr2 twoE; move: (nth _ _ _) (nth _ _ _) => u v; fnorm; ring.
set n := (size x)%:R in sx qx qy *.
have n0 : n != 0 :> R by rewrite pnatr_eq0 -lt0n ltnW.
have n2 : n ^+ 2 - 1 != 0 :> R.
  rewrite subr_eq0 sqrf_eq1 negb_or; apply/andP; split.
    by rewrite /n pnatr_eq1; case: eqP n1 => // ->.
  by rewrite gt_eqF // (lt_le_trans (ltrN10 R)) // ler0n.
have vx : varies x.
  exists 0%N, 1%N; split; first by rewrite ltnW. split=> //.
  by rewrite nth_uniq //; exact: ltnW n1.
have dx := varies_dev (varies_rank vx).
have six0 : 6%:R != 0 :> R by rewrite pnatr_eq0.
have two0' : 2%:R != 0 :> R by rewrite pnatr_eq0.
have dyx : dev (rankdata y) (rankdata y) = dev (rankdata x) (rankdata x).
  rewrite /dev !size_rank -sxy sy; congr (_ * _ - _).
  by apply: (mulIf six0); rewrite qx qy.
rewrite /correlation dyx -expr2 sqrtr_sqr ger0_norm ?ltW //.
have {gapE} dE : dev (rankdata x) (rankdata x) * 12%:R = n ^+ 2 * (n ^+ 2 - 1).
  rewrite /dev size_rank -/n.
  have -> : 12%:R = 6%:R * 2%:R :> R by rewrite -natrM.
  rewrite mulrBl mulrA -[n * _ * 6%:R]mulrA qx.
  have -> : sum (rankdata x) * sum (rankdata x) * (6%:R * 2%:R)
    = (sum (rankdata x) * 2%:R) ^+ 2 * 3%:R.
    by rewrite -[6%N]/(2 * 3)%N natrM expr2; move: (sum _) (2%:R) (3%:R) => a b c; fnorm; ring.
  rewrite sx (natS R 2) twoE !expr2; move: (n) => u; fnorm; ring.
have dC : dev (rankdata x) (rankdata y) = dev (rankdata x) (rankdata x) - n * rank_gap x y / 2%:R.
  rewrite /dev size_rank -/n sy gap2.
  have -> : sum2 (rankdata y) (rankdata y) = sum2 (rankdata x) (rankdata x).
    by apply: (mulIf six0); rewrite qx qy.
  move: (@two0 R); rewrite twoE; move: (sum2 _ _) (sum2 _ _) (sum _) => a b c t0.
  by move: (n) => u; fnorm; field; exact/eqP.
rewrite dC mulrBl mulfV ?gt_eqF //; congr (1 - _).
have -> : dev (rankdata x) (rankdata x) = n ^+ 2 * (n ^+ 2 - 1) / 12%:R.
  by rewrite -dE mulfK // pnatr_eq0.
have -> : 12%:R = 6%:R * 2%:R :> R by rewrite -natrM.
by rewrite expr2 -[n * n]/(n ^+ 2) gap_aux.
Qed.
End P.
