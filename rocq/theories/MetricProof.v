(* Ranks and correlations. *)
Set Warnings "-notation-overridden,-ambiguous-paths".
From mathcomp Require Import all_ssreflect all_algebra.
From Verif Require Import Py Tensor MetricModel MetricSpec FieldSupport.
Require Import Field.
Set Implicit Arguments. Unset Strict Implicit. Unset Printing Implicit Defensive.
Import Order.TTheory GRing.Theory Num.Theory.
Local Open Scope ring_scope.

Section P.
Variable R : rcfType.
Implicit Types x y : seq R.
Add Field mcF : (@ffield R).

Lemma two0 : (2%:R : R) != 0. Proof. by rewrite pnatr_eq0. Qed.

Lemma twoE : (2%:R : R) = 1 + 1. Proof. by rewrite -[2%N]/(1 + 1)%N natrD. Qed.
Lemma natS k : k.+1%:R = k%:R + 1 :> R. Proof. by rewrite -addn1 natrD. Qed.

Lemma filter_iota_range (lo hi n : nat) : (hi <= n)%N ->
  [seq i <- iota 0 n | (lo <= i < hi)%N] = iota lo (hi - lo).
Proof.
move=> hn; case: (leqP lo hi) => [lh|hl]; last first.
  rewrite (eqP (_ : hi - lo == 0)%N) ?subn_eq0 1?ltnW //=.
  apply/eqP; rewrite -[_ == _]negbK -has_filter; apply/hasPn => i _.
  by apply/negP=> /andP[a b]; move: (leq_ltn_trans a b); rewrite ltnNge (ltnW hl).
have -> : n = (lo + (hi - lo) + (n - hi))%N by rewrite subnKC // subnKC.
rewrite !iotaD !filter_cat add0n.
have -> : [seq i <- iota 0 lo | (lo <= i < hi)%N] = [::].
  apply/eqP; rewrite -[_ == _]negbK -has_filter; apply/hasPn => i.
  by rewrite mem_iota add0n /= => il; rewrite leqNgt il.
have -> : [seq i <- iota (lo + (hi - lo)) (n - hi) | (lo <= i < hi)%N] = [::].
  apply/eqP; rewrite -[_ == _]negbK -has_filter; apply/hasPn => i.
  by rewrite mem_iota subnKC // => /andP[hi_i _]; rewrite [(i < hi)%N]ltnNge hi_i andbF.
rewrite cats0 /=; apply/all_filterP/allP => i.
by rewrite mem_iota subnKC.
Qed.

Lemma sum_iota (a n : nat) : \sum_(i <- iota a n) (i%:R : R) * 2%:R = n%:R * (2%:R * a%:R + n%:R - 1).
Proof.
elim: n a => [|n IH] a; first by rewrite big_nil mul0r.
rewrite /= big_cons IH (natS a) (natS n) twoE; move: (a%:R) (n%:R) => u v; fnorm; ring.
Qed.

(* the mean of the positions is the model's rank *)
Lemma midrankE x a : a \in x ->
  midrank x a = ((count (fun b => b <= a) x)%:R + (count (fun b => b < a) x)%:R + 1) / 2%:R.
Proof.
move=> ax; set s := sort <=%R x.
have ss : sorted <=%O s by exact: (sort_le_sorted x).
have px : perm_eq s x by rewrite perm_sort.
have cle : count (<= a)%O s = count (fun b => b <= a) x by rewrite (permP px).
have clt : count (< a)%O s = count (fun b => b < a) x by rewrite (permP px).
set l := count _ x in cle *; set h := count _ x in clt *.
have hl : (h < l)%N by rewrite -clt -cle count_lt_le_mem (perm_mem px).
have ls : (l <= size x)%N by rewrite /l count_size.
have pos : positions x a = [seq i.+1 | i <- iota h (l - h)].
  rewrite /positions -/s; congr map; rewrite -(@filter_iota_range h l (size x)) //.
  apply/eq_in_filter => i; rewrite mem_iota add0n /= => ix.
  case: (ltnP i h) => [ih|hi] /=.
    have : nth 0 s i < a by apply: nth_count_lt => //; rewrite clt.
    by move/lt_eqF.
  case: (ltnP i l) => [il|li].
    have : nth 0 s i = a by apply: nth_count_eq => //; rewrite clt cle hi il.
    by move->; rewrite eqxx.
  have : a < nth 0 s i by apply: nth_count_gt => //; rewrite ?cle ?li ?(perm_size px).
  by move/gt_eqF.
rewrite /midrank pos size_map size_iota big_map.
have n0 : ((l - h)%:R : R) != 0 by rewrite pnatr_eq0 -lt0n subn_gt0.
apply: (mulIf n0); rewrite mulfVK //; apply: (mulIf two0).
rewrite mulrAC mulfVK ?two0 // big_distrl /=.
have -> : \sum_(i <- iota h (l - h)) (i.+1%:R : R) * 2%:R
        = \sum_(i <- iota h.+1 (l - h)) (i%:R : R) * 2%:R.
  by rewrite -[h.+1]add1n iotaDl big_map.
rewrite sum_iota (natrB _ (ltnW hl)) (natS h) twoE; move: (l%:R) (h%:R) => u v; fnorm; ring.
Qed.

Lemma rankE x : rankdata x = [seq midrank x a | a <- x].
Proof. by apply/eq_in_map => a ax; rewrite midrankE. Qed.

Lemma size_rank x : size (rankdata x) = size x. Proof. by rewrite size_map. Qed.

Definition rk x (a : R) : R :=
  ((count (fun b => b <= a) x)%:R + (count (fun b => b < a) x)%:R + 1) / 2%:R.

Lemma rk_lt x a b : a \in x -> b \in x -> a < b -> rk x a < rk x b.
Proof.
move=> ax bx ab; rewrite /rk ltr_pmul2r ?invr_gt0 ?ltr0n // ltr_add2r ltr_le_add //.
  rewrite ltr_nat.
  have -> : count (fun c => c <= b) x = (count (fun c : R => (c <= a)%R) x + count (fun c : R => (a < c <= b)%R) x)%N.
    rewrite -count_predUI; set e := count (predI _ _) _.
    have -> : e = 0%N.
      apply/eqP; rewrite -leqn0 leqNgt -has_count; apply/hasPn => c _ /=.
      by rewrite leNgt; case: (a < c).
    rewrite addn0; apply: eq_count => c /=; case: (leP c a) => //= ca.
    by rewrite (le_trans ca) // ltW.
  rewrite -[X in (X < _)%N]addn0 ltn_add2l -has_count; apply/hasP; exists b => //.
  by rewrite ab lexx.
by rewrite ler_nat; apply: sub_count => c ca; apply: lt_trans ab.
Qed.

Lemma rk_mono x a b : a \in x -> b \in x -> (rk x a < rk x b) = (a < b).
Proof.
move=> ax bx; case: (ltgtP a b) => [ab|ba|->]; last by rewrite ltxx.
  by rewrite rk_lt.
by rewrite ltNge le_eqVlt rk_lt ?orbT.
Qed.

Lemma rk_inj x a b : a \in x -> b \in x -> (rk x a == rk x b) = (a == b).
Proof. by move=> ax bx; rewrite !eq_le ![_ <= _]leNgt !rk_mono. Qed.

Lemma nth_rank x i : (i < size x)%N -> nth 0 (rankdata x) i = rk x (nth 0 x i).
Proof. by move=> ix; rewrite (nth_map 0). Qed.

(* concordant lists have the same ranks *)
Lemma count_nth (p : pred R) x : count p x = count (fun i => p (nth 0 x i)) (iota 0 (size x)).
Proof. by rewrite -{1}[x](mkseq_nth 0) count_map. Qed.

Lemma rank_concordant x y : size x = size y -> concordant x y -> rankdata x = rankdata y.
Proof.
move=> sxy cxy; apply: (@eq_from_nth _ 0); rewrite ?size_rank // => i ix.
rewrite !nth_rank -?sxy // /rk.
congr ((_%:R + _%:R + 1) / 2%:R); rewrite !count_nth -sxy; apply: eq_in_count => j;
  rewrite mem_iota add0n /= => jx.
  by rewrite !leNgt cxy.
by rewrite cxy.
Qed.

Lemma rank_discordant x y : size x = size y -> discordant x y ->
  rankdata y = [seq (size x)%:R + 1 - r | r <- rankdata x].
Proof.
move=> sxy cxy; apply: (@eq_from_nth _ 0); rewrite ?size_map // => i; rewrite -sxy => ix.
rewrite [RHS](nth_map 0) ?size_rank // !nth_rank -?sxy // /rk.
have e1 : count (fun b => b <= nth 0 y i) y = (size x - count (fun b : R => (b < nth 0 x i)%R) x)%N.
  rewrite -[X in (_ = X - _)%N](count_predC (fun b => b < nth 0 x i)) addKn !count_nth -sxy.
  apply: eq_in_count => j; rewrite mem_iota add0n /= => jx.
  by rewrite leNgt cxy.
have e2 : count (fun b => b < nth 0 y i) y = (size x - count (fun b : R => (b <= nth 0 x i)%R) x)%N.
  rewrite -[X in (_ = X - _)%N](count_predC (fun b => b <= nth 0 x i)) addKn !count_nth -sxy.
  apply: eq_in_count => j; rewrite mem_iota add0n /= => jx.
  by rewrite -ltNge cxy.
rewrite e1 e2 !natrB ?count_size //; set c := (count _ x)%:R; set d := (count _ x)%:R.
move: two0; rewrite twoE; clearbody c d; move: ((size x)%:R) => n t0.
by fnorm; field; exact/eqP.
Qed.

(* the centred products *)
Lemma sumE (n : nat) x : size x = n -> \sum_(a <- x) a = \sum_(i < n) nth 0 x i.
Proof. by move=> <-; rewrite (big_nth 0) big_mkord. Qed.

Lemma sdotE x y : size x = size y -> sdot x y = \sum_(i < size x) nth 0 x i * nth 0 y i.
Proof.
move=> sxy; rewrite /sdot (big_nth (0, 0)) big_mkord size_zip -sxy minnn.
by apply: eq_bigr => i _; rewrite nth_zip.
Qed.

Lemma size_centre x : size (centre x) = size x. Proof. by rewrite size_map. Qed.

Lemma sdot_centre x y : size x = size y -> (0 < size x)%N ->
  (size x)%:R * sdot (centre x) (centre y) = dev x y.
Proof.
move=> sxy n0; rewrite sdotE ?size_centre //.
have nz : ((size x)%:R : R) != 0 by rewrite pnatr_eq0 -lt0n.
have -> : \sum_(i < size x) nth 0 (centre x) i * nth 0 (centre y) i
  = \sum_(i < size x) (nth 0 x i * nth 0 y i - mean y * nth 0 x i - mean x * nth 0 y i + mean x * mean y).
  apply: eq_bigr => i _; rewrite !(nth_map 0) -?sxy //.
  by move: (nth 0 x i) (nth 0 y i) (mean x) (mean y) => u v a b; fnorm; ring.
rewrite !big_split /= !sumrN -!mulr_sumr sumr_const cardT size_enum_ord.
rewrite -(sumE (erefl (size x))) -(sumE (esym sxy)) /dev /sum2 /sum /mean -sxy.
have -> : (size x)%:R^-1 *+ size x = 1 :> R by rewrite -[_ *+ _]mulr_natr mulVf.
rewrite mulr1; move: nz; move: ((size x)%:R) (\sum_(a <- x) a) (\sum_(a <- y) a) => n u v nz.
move: (\sum_(i < _) _) => w.
by fnorm; field; exact/eqP.
Qed.

Lemma dev_ge0 x : 0 <= dev x x.
Proof.
case: (posnP (size x)) => [n0|n0].
  by rewrite /dev /sum2 /sum n0 mul0r; move/size0nil: n0 => ->; rewrite big_nil mul0r subr0.
rewrite -sdot_centre // mulr_ge0 ?ler0n // sdotE ?size_centre //.
by apply: sumr_ge0 => i _; rewrite -expr2 sqr_ge0.
Qed.

Lemma corr_aux1 (a m p q s : R) : a / m * (p * s) * (q * s) = a * p * q * (m^-1 * (s * s)).
Proof. by fnorm; ring. Qed.
Lemma corr_aux2 (a n p q : R) : n != 0 -> n * a * (n^-1 * (p * q)) = a * p * q.
Proof. by move=> nz; fnorm; field; exact/eqP. Qed.

Lemma corrcoefE x y : size x = size y -> (1 < size x)%N -> corrcoef x y = correlation x y.
Proof.
move=> sxy n1; have n0 := ltnW n1.
rewrite /corrcoef /cov /correlation -!sdot_centre -?sxy //.
set a := sdot _ _; set b := sdot (centre x) (centre x); set c := sdot (centre y) (centre y).
set n := (size x)%:R; set m := (size x).-1%:R.
have n0' : 0 < n :> R by rewrite ltr0n.
have m0 : 0 < m :> R by rewrite ltr0n -subn1 subn_gt0.
have b0 : 0 <= b by rewrite /b sdotE ?size_centre //; apply: sumr_ge0 => i _; rewrite -expr2 sqr_ge0.
have c0 : 0 <= c by rewrite /c sdotE ?size_centre //; apply: sumr_ge0 => i _; rewrite -expr2 sqr_ge0.
clearbody a b c.
have -> : n * b * (n * c) = (n ^+ 2) * (b * c) by rewrite expr2 mulrACA.
rewrite [Num.sqrt (n ^+ 2 * _)]sqrtrM ?sqr_ge0 // sqrtr_sqr ger0_norm ?(ltW n0') //.
rewrite [Num.sqrt (b * c)]sqrtrM // [Num.sqrt (b / m)]sqrtrM // [Num.sqrt (c / m)]sqrtrM // !invfM.
set p := (Num.sqrt b)^-1; set q := (Num.sqrt c)^-1; set s := (Num.sqrt m^-1)^-1.
have ss : s * s = m.
  by rewrite /s -invfM -expr2 sqr_sqrtr ?invr_ge0 ?(ltW m0) // invrK.
have nz : n != 0 by rewrite gt_eqF.
have mz : m != 0 by rewrite gt_eqF.
transitivity (a * p * q).
  rewrite corr_aux1.
  by rewrite ss mulVf // mulr1.
by rewrite corr_aux2.
Qed.

(* Cauchy-Schwarz, with the equality case *)
Lemma cs (n : nat) (a b : 'I_n -> R) :
  let A := \sum_i a i * a i in let B := \sum_i b i * b i in let C := \sum_i a i * b i in
  0 < A -> C ^+ 2 <= A * B /\ (C ^+ 2 = A * B -> forall i, A * b i = C * a i).
Proof.
move=> A B C A0.
have key : \sum_i (A * b i - C * a i) ^+ 2 = A * (A * B - C ^+ 2).
  have gen (u v : R) : \sum_i (u * b i - v * a i) ^+ 2 = u * u * B - 2%:R * (u * v) * C + v * v * A.
    rewrite /A /B /C !mulr_sumr -sumrB -big_split /=.
    by apply: eq_bigr => i _; rewrite expr2 twoE; move: (a i) (b i) => c d; fnorm; ring.
  by rewrite gen expr2 twoE; clearbody A B C; fnorm; ring.
split.
  rewrite -subr_ge0 -(pmulr_rge0 _ A0) -key.
  by apply: sumr_ge0 => i _; rewrite sqr_ge0.
move=> e i; move: key; rewrite -e subrr mulr0 => /eqP.
rewrite psumr_eq0 => [/allP/(_ i)|j _]; last by rewrite sqr_ge0.
by rewrite mem_index_enum => /(_ isT); rewrite implyTb sqrf_eq0 subr_eq0 => /eqP.
Qed.

Lemma varies_dev x : varies x -> 0 < dev x x.
Proof.
case=> i [j [ix [jx ne]]].
have n0 : (0 < size x)%N by case: (size x) ix.
rewrite lt_def dev_ge0 andbT; apply: contra ne => /eqP d0.
have : sdot (centre x) (centre x) == 0.
  by rewrite -(inj_eq (mulfI (_ : (size x)%:R != 0 :> R))) ?pnatr_eq0 -?lt0n // mulr0 sdot_centre // d0.
rewrite sdotE ?size_centre // psumr_eq0 => [/allP z|k _]; last by rewrite -expr2 sqr_ge0.
have zz k : (k < size x)%N -> nth 0 x k = mean x.
  move=> kx; have := z (Ordinal kx); rewrite mem_index_enum => /(_ isT) /=.
  by rewrite mulf_eq0 orbb (nth_map 0) // subr_eq0 => /eqP.
by rewrite !zz.
Qed.

Lemma constantPn x : ~~ constant x -> varies x.
Proof.
move/allPn => [a ax ne]; case: x ax ne => // b x /= ax ne.
exists (index a (b :: x)), 0%N; split; first by rewrite index_mem.
by split=> //; rewrite nth_index.
Qed.
Lemma variesP x : varies x -> ~~ constant x.
Proof.
case=> i [j [ix [jx ne]]]; apply/negP => /allP c.
move: ne; rewrite (eqP (c _ (mem_nth 0 ix))) (eqP (c _ (mem_nth 0 jx))) eqxx //.
Qed.

Lemma varies_rank x : varies x -> varies (rankdata x).
Proof.
case=> i [j [ix [jx ne]]]; exists i, j; rewrite !size_rank; split=> //; split=> //.
by rewrite !nth_rank // rk_inj ?mem_nth.
Qed.

Lemma varies_size x : varies x -> (1 < size x)%N.
Proof.
case=> i [j [ix [jx ne]]]; case: (ltnP 1 (size x)) => // s1.
have z k : (k < size x)%N -> k = 0%N by move=> kx; apply/eqP; rewrite -leqn0 -ltnS (leq_trans kx).
by move: ne; rewrite (z _ ix) (z _ jx) eqxx.
Qed.

(* bounds and equality cases of the correlation *)
Lemma dev_centre x y : size x = size y -> (0 < size x)%N ->
  dev x y = (size x)%:R * \sum_(i < size x) nth 0 (centre x) i * nth 0 (centre y) i.
Proof. by move=> sxy n0; rewrite -sdot_centre // sdotE ?size_centre. Qed.

Lemma corr_bound x y : size x = size y -> varies x -> varies y ->
  -1 <= correlation x y <= 1.
Proof.
move=> sxy vx vy; have n0 := ltnW (varies_size vx).
have dx := varies_dev vx; have dy := varies_dev vy.
set d := Num.sqrt (dev x x * dev y y).
have d0 : 0 < d by rewrite sqrtr_gt0 mulr_gt0.
rewrite /correlation -/d ler_pdivl_mulr // ler_pdivr_mulr // mul1r mulN1r -ler_norml.
have -> : d = `|d| by rewrite ger0_norm ?ltW.
have sq : d ^+ 2 = dev x x * dev y y by rewrite sqr_sqrtr // mulr_ge0 ?ltW.
rewrite -(@ler_pexpn2r _ 2) ?nnegrE // !real_normK ?num_real // sq.
move: dx dy; rewrite !dev_centre -?sxy // => dx dy.
set n := (size x)%:R in dx dy *.
have n0' : 0 < n :> R by rewrite ltr0n.
rewrite exprMn [X in _ <= X]mulrACA -[n * n]/(n ^+ 2) ler_pmul2l ?exprn_gt0 //.
have A0 : 0 < \sum_(i < size x) nth 0 (centre x) i * nth 0 (centre x) i.
  by move: dx; rewrite pmulr_rgt0.
by have [] := @cs _ (fun i : 'I_(size x) => nth 0 (centre x) i) (fun i => nth 0 (centre y) i) A0.
Qed.

Lemma corr_eq x y (e : R) : size x = size y -> varies x -> varies y -> e ^+ 2 = 1 ->
  correlation x y = e -> exists2 c, 0 < c & forall i, (i < size x)%N ->
   nth 0 (centre y) i = e * c * nth 0 (centre x) i.
Proof.
move=> sxy vx vy e2 ce; have n0 := ltnW (varies_size vx).
have dx := varies_dev vx; have dy := varies_dev vy.
set d := Num.sqrt (dev x x * dev y y).
have d0 : 0 < d by rewrite sqrtr_gt0 mulr_gt0.
have {}ce : dev x y = e * d by rewrite -ce /correlation -/d mulfVK ?gt_eqF.
have sq : dev x y ^+ 2 = dev x x * dev y y.
  by rewrite ce exprMn e2 mul1r sqr_sqrtr // mulr_ge0 ?ltW.
have cxy := dev_centre sxy n0; have cxx := dev_centre (erefl (size x)) n0.
have cyy := dev_centre (erefl (size y)) _; rewrite -sxy in cyy; move/(_ n0): cyy => cyy.
set n := (size x)%:R in cxy cxx cyy.
have n0' : 0 < n :> R by rewrite ltr0n.
have A0 : 0 < \sum_(i < size x) nth 0 (centre x) i * nth 0 (centre x) i.
  by move: dx; rewrite cxx pmulr_rgt0.
have [_ eqc] := @cs _ (fun i : 'I_(size x) => nth 0 (centre x) i) (fun i => nth 0 (centre y) i) A0.
have {}eqc := eqc _.
move: sq; rewrite cxy cxx cyy exprMn [RHS]mulrACA -[n * n]/(n ^+ 2) => /(mulfI (_ : n ^+ 2 != 0)) => sq.
have {eqc sq} := eqc (sq _); rewrite expf_eq0 /= gt_eqF // => /(_ isT) eqc.
exists (d / n / \sum_(i < size x) nth 0 (centre x) i * nth 0 (centre x) i).
  by rewrite !divr_gt0.
move=> i ix; have := eqc (Ordinal ix) => /= h.
have sC : \sum_(i < size x) nth 0 (centre x) i * nth 0 (centre y) i = e * d / n.
  by rewrite -ce cxy mulrC mulKf // gt_eqF.
rewrite sC in h; apply: (mulfI (_ : \sum_(i < size x) nth 0 (centre x) i * nth 0 (centre x) i != 0)).
  by rewrite gt_eqF.
rewrite h; set A := \sum_(i0 < _) _ in A0 *; clearbody A.
rewrite -!mulrA; rewrite [A * _]mulrCA; congr (e * _).
rewrite [A * _]mulrCA; congr (d * _); rewrite [A * _]mulrCA; congr (_ * _).
by rewrite mulVKf // gt_eqF.
Qed.

Lemma corr_self x (e b : R) : varies x -> e ^+ 2 = 1 ->
  correlation x [seq e * a + b | a <- x] = e.
Proof.
move=> vx e2; have n0 := ltnW (varies_size vx); have dx := varies_dev vx.
set y := map _ x; have sxy : size x = size y by rewrite size_map.
have nz : ((size x)%:R : R) != 0 by rewrite pnatr_eq0 -lt0n.
have cy i : (i < size x)%N -> nth 0 (centre y) i = e * nth 0 (centre x) i.
  move=> ix; rewrite !(nth_map 0) ?size_map // /mean -sxy !(sumE (erefl (size x))) (sumE (esym sxy)).
  have -> : \sum_(i < size x) nth 0 y i = e * (\sum_(i < size x) nth 0 x i) + b * (size x)%:R.
    rewrite -[b * _](_ : \sum_(i < size x) b = _); last by rewrite sumr_const cardT size_enum_ord mulr_natr.
    by rewrite mulr_sumr -big_split /=; apply: eq_bigr => j _; rewrite (nth_map 0).
  by move: nz; move: ((size x)%:R) => n nz; fnorm; field; exact/eqP.
have dxy : dev x y = e * dev x x.
  rewrite !dev_centre // [RHS]mulrCA [X in _ = _ * X]mulr_sumr; congr (_ * _); apply: eq_bigr => i _.
  by rewrite cy // mulrCA.
have dyy : dev y y = dev x x.
  rewrite !dev_centre -?sxy //; congr (_ * _); apply: eq_bigr => i _.
  by rewrite !cy // mulrACA -expr2 e2 mul1r.
rewrite /correlation dxy dyy -expr2 sqrtr_sqr ger0_norm ?ltW // mulfK // gt_eqF //.
Qed.

End P.
