(* C69: signs, bounds and order of KNN-Shapley values; what the default distance depends on. *)
Set Warnings "-notation-overridden,-ambiguous-paths".
From mathcomp Require Import all_ssreflect all_algebra zify.
From Verif Require Import Py Tensor TensorProof AttrModel AttrProof KnnModel KnnSpec KnnProof KnnProps OffProof2 KdefModel KdefSpec KdefProof.
Set Implicit Arguments. Unset Strict Implicit. Unset Printing Implicit Defensive.
Import Order.TTheory GRing.Theory Num.Theory.
Local Open Scope ring_scope.

Section Shape.
Variables (F : realFieldType) (X Lab : Type) (lab_eq : Lab -> Lab -> bool).
Variables (dist : X -> X -> F) (lab : X -> Lab) (argsort : seq F -> seq nat) (K : nat).
Variables (tr te : loader X) (trl tel : option (seq Lab)).
Let n := size (ld_data tr).

(* the entries of one row along the order of the distances *)
Lemma along (x0 : X) (l0 : Lab) M : knn_ok argsort tr te trl tel -> (0 < K)%N ->
  knn_attribute lab_eq dist lab argsort K tr te trl tel = Ok M -> forall j, (j < size (ld_data te))%N ->
  let s := argsort [seq dist (nth x0 (ld_data te) j) x | x <- ld_data tr] in
  let m k := lab_eq (nth l0 (odflt [seq lab x | x <- ld_data tr] trl) k) (nth l0 (odflt [seq lab y | y <- ld_data te] tel) j) in
  let a k := nth 0 (nth [::] M j) (nth 0%N s k) in
  (forall i, (i.+1 < n)%N -> a i = a i.+1 + ((m (nth 0%N s i))%:R - (m (nth 0%N s i.+1))%:R) * (maxn K i.+1)%:R^-1)
  /\ a n.-1 = (m (nth 0%N s n.-1))%:R / n%:R.
Proof.
move=> ok K0 e j hj s m a.
have [M' [e' [s1 s2 s3]]] := knn_entries lab_eq dist lab ok K0; move: e'; rewrite e => -[eM]; subst M'.
have hp : perm_eq s (iota 0 n) by have := (ko_sort ok [seq dist (nth x0 (ld_data te) j) x | x <- ld_data tr]).1; rewrite size_map.
have n0 : (0 < n)%N by rewrite /n; case: (ld_data tr) (ko_ne ok).
have E i (hi : (i < n)%N) : a i = shapley (knn_utility F K (rk s (n := n)) (fun i : 'I_n => m i)) (Ordinal (srt_nth hp hi)) + shift F K n s m.
  by rewrite /a (s3 x0 l0 j hj (Ordinal (srt_nth hp hi))).
have R i (hi : (i < n)%N) : rk s (Ordinal (srt_nth hp hi)) = i by rewrite /rk /= index_uniq ?(srt_uniq hp) ?(srt_size hp).
split=> [i hi|].
  have hi0 : (i < n)%N by lia.
  rewrite (E _ hi0) (E _ hi).
  have := @knn_shapley_diff F _ K (rk s (n := n)) (fun i : 'I_n => m i) (rk_inj hp) (rk_card hp K0) (Ordinal (srt_nth hp hi0)) (Ordinal (srt_nth hp hi)).
  rewrite !R => /(_ erefl) /= h.
  have -> : ((m (nth 0%N s i))%:R - (m (nth 0%N s i.+1))%:R) * (maxn K i.+1)%:R^-1
     = ((m (nth 0%N s i))%:R - (m (nth 0%N s i.+1))%:R) / K%:R * (minn K i.+1)%:R / i.+1%:R :> F.
    rewrite -!mulrA; congr (_ * _); have [le|lt] := leqP K i.+1.
      by rewrite mulrA mulVf ?mul1r // pnatr_eq0; lia.
    by rewrite mulfV ?mulr1 // pnatr_eq0.
  by rewrite -h addrAC addrCA subrr addr0.
have hl : (n.-1 < n)%N by lia.
rewrite (E _ hl) knn_shapley_last; last 2 first.
- exact: (rk_inj hp).
- move=> k; rewrite R -ltnS prednK //; rewrite /rk -[X in (_ < X)%N](srt_size hp) index_mem (srt_mem hp); exact: ltn_ord.
by rewrite card_ord /= /shift (last_srt hp n0) addrC subrK.
Qed.

(* For 1 <= K <= number of training samples: samples with the label of the test sample have values from 0 to
   1/max(K, 1 + number of nearer samples), the others from minus that bound to 0. *)
Theorem C69_bounds : knn_ok argsort tr te trl tel -> (0 < K <= size (ld_data tr))%N ->
  exists M, knn_attribute lab_eq dist lab argsort K tr te trl tel = Ok M /\
  forall (x0 : X) (l0 : Lab) i j, (i < size (ld_data tr))%N -> (j < size (ld_data te))%N ->
    signed (lab_eq (nth l0 (odflt [seq lab x | x <- ld_data tr] trl) i) (nth l0 (odflt [seq lab y | y <- ld_data te] tel) j))
      ((maxn K (nearer (size (ld_data tr)) (fun k => dist (nth x0 (ld_data te) j) (nth x0 (ld_data tr) k)) i).+1)%:R^-1)
      (nth 0 (nth [::] M j) i).
Proof.
move=> ok /andP [K0 Kn]; have [M [e _]] := knn_entries lab_eq dist lab ok K0; exists M; split=> // x0 l0 i j hi hj.
pose d := [seq dist (nth x0 (ld_data te) j) x | x <- ld_data tr]; pose s := argsort d.
pose m k := lab_eq (nth l0 (odflt [seq lab x | x <- ld_data tr] trl) k) (nth l0 (odflt [seq lab y | y <- ld_data te] tel) j).
have [h1 h2] := along x0 l0 ok K0 e hj.
have hp : perm_eq s (iota 0 n) by have := (ko_sort ok d).1; rewrite size_map.
have mi : i \in s by rewrite (srt_mem hp).
have hx : (index i s < n)%N by rewrite -(srt_size hp) index_mem.
have := rec_bounds (a := fun k => nth 0 (nth [::] M j) (nth 0%N s k)) (m := fun k => m (nth 0%N s k)) K0 h1 Kn h2 hx.
rewrite nth_index // -/(m i).
have nr : (nearer n (fun k => dist (nth x0 (ld_data te) j) (nth x0 (ld_data tr) k)) i <= index i s)%N.
  have sd : size d = n by rewrite size_map.
  have hi' : (i < size d)%N by rewrite sd.
  apply: leq_trans (nearer_rank (ko_sort ok) hi'); rewrite sd /nearer; apply/eq_leq/eq_in_count => k; rewrite mem_iota /= => hk.
  by rewrite !(nth_map x0).
have w : (maxn K (index i s).+1)%:R^-1 <= (maxn K (nearer n (fun k => dist (nth x0 (ld_data te) j) (nth x0 (ld_data tr) k)) i).+1)%:R^-1 :> F.
  by rewrite lef_pinv ?posrE ?ltr0n ?ler_nat; move: nr K0; clear; lia.
rewrite /signed; case: (m i) => /andP [a1 a2]; first by rewrite a1 (le_trans a2).
by rewrite a2 andbT (le_trans _ a1) // ler_opp2.
Qed.

(* For every K > 0: of two training samples with the label of the test sample the nearer one has at least the value of
   the other; of two with another label at most. *)
Theorem C69_monotone : knn_ok argsort tr te trl tel -> (0 < K)%N ->
  exists M, knn_attribute lab_eq dist lab argsort K tr te trl tel = Ok M /\
  forall (x0 : X) (l0 : Lab) i k j, (i < size (ld_data tr))%N -> (k < size (ld_data tr))%N -> (j < size (ld_data te))%N ->
    let m p := lab_eq (nth l0 (odflt [seq lab x | x <- ld_data tr] trl) p) (nth l0 (odflt [seq lab y | y <- ld_data te] tel) j) in
    dist (nth x0 (ld_data te) j) (nth x0 (ld_data tr) i) < dist (nth x0 (ld_data te) j) (nth x0 (ld_data tr) k) ->
    m i = m k ->
    if m i then nth 0 (nth [::] M j) k <= nth 0 (nth [::] M j) i else nth 0 (nth [::] M j) i <= nth 0 (nth [::] M j) k.
Proof.
move=> ok K0; have [M [e _]] := knn_entries lab_eq dist lab ok K0; exists M; split=> // x0 l0 i k j hi hk hj m.
pose d := [seq dist (nth x0 (ld_data te) j) x | x <- ld_data tr]; pose s := argsort d.
have [h1 h2] := along x0 l0 ok K0 e hj; move=> lt em.
have sd : size d = n by rewrite size_map.
have hp : perm_eq s (iota 0 n) by have := (ko_sort ok d).1; rewrite size_map.
have mi : i \in s by rewrite (srt_mem hp).
have mk : k \in s by rewrite (srt_mem hp).
have [_ mono] := argsort_rank (ko_sort ok) sd.
have lts : (index i s < index k s)%N by apply: (mono (Ordinal hi) (Ordinal hk)); rewrite !(nth_map x0).
have hx : (index i s <= index k s < n)%N by rewrite (ltnW lts) -(srt_size hp) index_mem.
have [g1 g2] := rec_mono (a := fun k => nth 0 (nth [::] M j) (nth 0%N s k)) (m := fun k => m (nth 0%N s k)) K0 h1 hx.
move: g1 g2; rewrite !nth_index // em; case: (m k) => [g _|_ g]; exact: g.
Qed.
End Shape.

(* with more neighbours than training samples the sign says nothing: a sample with another label gets 1/6 *)
Theorem C69_large_k_refuted : exists (tr te : loader nat) (M : seq (seq rat)),
  let run := knn_attribute (fun a b => odd a == odd b) (fun y x => (y - x)%:R : rat) id (@argsort_ins _) 3 tr te None None in
  [/\ knn_ok (@argsort_ins rat_realFieldType) tr te (None : option (seq nat)) None, run = Ok M,
      odd (nth 0%N (ld_data tr) 0) != odd (nth 0%N (ld_data te) 0) & nth 0 (nth [::] M 0) 0 = 6%:R^-1].
Proof.
exists (Loader [:: 3; 2]%N 2 false), (Loader [:: 4]%N 2 false); eexists; split.
- by split=> //; exact: argsort_ins_ok.
- by vm_compute; reflexivity.
- by [].
- by apply/eqP; vm_compute.
Qed.

Lemma eq_rmapM_nth (A R : Type) (f g : A -> res R) (s : seq A) :
  (forall a0 i, (i < size s)%N -> f (nth a0 s i) = g (nth a0 s i)) -> rmapM f s = rmapM g s.
Proof.
elim: s => //= a s IH h; rewrite (h a 0%N) // IH // => a0 i hi; exact: (h a0 i.+1).
Qed.
Lemma rmapM_map (A A' R : Type) (f : A' -> res R) (h : A -> A') (s : seq A) : rmapM f (map h s) = rmapM (fun x => f (h x)) s.
Proof. by elim: s => //= a s ->. Qed.

(* Only the order of the distances matters: two distances that order the training samples of every test sample alike,
   without ties, give the same table, with any two implementations of argsort. *)
Theorem C69_order (F : realFieldType) (X Lab : Type) (lab_eq : Lab -> Lab -> bool) (dist dist' : X -> X -> F) (lab : X -> Lab)
    (argsort argsort' : seq F -> seq nat) (K : nat) (tr te : loader X) (trl tel : option (seq Lab)) (x0 : X) :
  knn_ok argsort tr te trl tel -> is_argsort argsort' ->
  (forall j i k, (j < size (ld_data te))%N -> (i < size (ld_data tr))%N -> (k < size (ld_data tr))%N ->
     let y := nth x0 (ld_data te) j in let x := nth x0 (ld_data tr) i in let x' := nth x0 (ld_data tr) k in
     (dist y x < dist y x') = (dist' y x < dist' y x') /\ (dist y x = dist y x' -> i = k)) ->
  knn_attribute lab_eq dist lab argsort K tr te trl tel = knn_attribute lab_eq dist' lab argsort' K tr te trl tel.
Proof.
move=> ok so' h; have so := ko_sort ok.
have sl : size (lte lab te tel) = size (ld_data te) by rewrite /lte; case: (tel) (ko_l2 ok) => [l|] //= _; rewrite size_map.
have n0 : (0 < size (ld_data tr))%N by case: (ld_data tr) (ko_ne ok).
rewrite (knn_attribute_gen _ _ _ _ (fun v => (so v).1) (ko_bs1 ok) (ko_bs2 ok) (ko_d1 ok) (ko_d2 ok) (ko_ne ok) (ko_l1 ok) (ko_l2 ok)).
rewrite (knn_attribute_gen _ _ _ _ (fun v => (so' v).1) (ko_bs1 ok) (ko_bs2 ok) (ko_d1 ok) (ko_d2 ok) (ko_ne ok) (ko_l1 ok) (ko_l2 ok)).
apply: eq_rmapM_nth => -[y0 l0] j; rewrite size_zip sl minnn nth_zip // => hj /=.
have -> : argsort (drow dist tr (nth y0 (ld_data te) j)) = argsort' (drow dist' tr (nth y0 (ld_data te) j)); last by [].
rewrite (set_nth_default x0) //; apply: argsort_same => //; rewrite ?size_map // => i k hi hk.
  by rewrite /drow !(nth_map x0) //; have [] := h j i k hj hi hk.
by rewrite /drow !(nth_map x0) //; have [_ g] := h j i k hj hi hk.
Qed.

(* a loader whose samples are translated one by one *)
Lemma knn_natural (F : realFieldType) (X X' Lab : Type) (lab_eq : Lab -> Lab -> bool) (dist : X -> X -> F) (dist' : X' -> X' -> F)
    (lab : X -> Lab) (lab' : X' -> Lab) (argsort : seq F -> seq nat) K (tr te : loader X) (trl tel : option (seq Lab)) (f : X -> X') :
  knn_ok argsort tr te trl tel -> (forall y x, dist' (f y) (f x) = dist y x) -> (forall x, lab' (f x) = lab x) ->
  knn_attribute lab_eq dist' lab' argsort K (Loader (map f (ld_data tr)) (ld_bs tr) false) (Loader (map f (ld_data te)) (ld_bs te) false) trl tel
  = knn_attribute lab_eq dist lab argsort K tr te trl tel.
Proof.
move=> ok hd hl; have so := ko_sort ok; have [_ b1 b2 d1 d2 ne l1 l2] := ok.
rewrite [RHS](knn_attribute_gen _ _ _ _ (fun v => (so v).1)) //.
rewrite (knn_attribute_gen _ _ _ _ (fun v => (so v).1)) //=; last 3 first.
- by case: (ld_data tr) ne.
- by case: (trl) l1 => // l; rewrite size_map.
- by case: (tel) l2 => // l; rewrite size_map.
have e (L : loader X) : [seq lab' x | x <- map f (ld_data L)] = [seq lab x | x <- ld_data L].
  by rewrite -map_comp; apply: eq_map => x /=; rewrite hl.
rewrite /lte /ltr /= !e size_map.
have -> (ls : seq Lab) : zip (map f (ld_data te)) ls = [seq (f p.1, p.2) | p <- zip (ld_data te) ls].
  by elim: (ld_data te) ls => [|y ys IH] [|l ls] //=; rewrite IH.
rewrite rmapM_map; apply: eq_rmapM => -[y l] /=; congr (knn_row _ _ _ (argsort _) _).
by rewrite /drow /= -map_comp; apply: eq_map => x /=; rewrite hd.
Qed.

Section Default.
Variables (F : rcfType) (Lab : Type) (lab_eq : Lab -> Lab -> bool) (argsort : seq F -> seq nat) (K : nat).
Local Notation sample := (sample F Lab).
Variables (tr te : loader sample) (trl tel : option (seq Lab)).
Hypothesis ok : knn_ok argsort tr te trl tel.

Lemma nb_pos (L : loader sample) : (0 < ld_bs L)%N -> ld_drop L = false -> (nbatches L == 0%N) = (size (ld_data L) == 0%N).
Proof.
move=> b0; case: L b0 => xs m d /= b0 ->; apply/eqP/eqP => h.
  by have := nbatches_ceil xs b0; rewrite h; lia.
by apply: nbatches_nil => //=; apply: size0nil.
Qed.

(* Rigid motions: rotating, reflecting and translating all features changes nothing, ties included. *)
Theorem C69_rigid (d : nat) (Q : 'M[F]_d) (t : 'rV[F]_d) (f : sample -> sample) :
  (forall x, rigid Q t (feat x) (feat (f x)) /\ slab (f x) = slab x) ->
  let moved L := Loader (map f (ld_data L)) (ld_bs L) false in
  knn_user lab_eq argsort false None K [:: d] [:: d] (moved tr) (moved te) trl tel
  = knn_user lab_eq argsort false None K [:: d] [:: d] tr te trl tel.
Proof.
move=> hf moved; rewrite /knn_user /knn_default /= !size_map; case: ifP => // _.
have [so b1 b2 d1 d2 ne l1 l2] := ok.
rewrite !nb_pos //= !size_map; case: ifP => _.
  by apply: (@knn_natural F sample sample Lab lab_eq (fun _ _ => 0) (fun _ _ => 0) (@slab F Lab) (@slab F Lab)) => // x; case: (hf x).
rewrite eqxx /=; apply: knn_natural => // [y x|x]; last by case: (hf x).
by rewrite /cdist1 (rigid_dist (hf y).1 (hf x).1).
Qed.

(* The square root is immaterial, and so is a common rescaling of all features, as long as no two training samples are
   equally far from a test sample. *)
Theorem C69_scale (d : nat) (a : F) (f : sample -> sample) : 0 < a ->
  (forall x k, (k < d)%N -> nth 0 (feat (f x)) k = a * nth 0 (feat x) k) -> (forall x, slab (f x) = slab x) ->
  (forall (x0 : sample) j i k, (j < size (ld_data te))%N -> (i < size (ld_data tr))%N -> (k < size (ld_data tr))%N ->
     let sq p := \sum_(l < d) (nth 0 (feat (nth x0 (ld_data te) j)) l - nth 0 (feat (nth x0 (ld_data tr) p)) l) ^+ 2 in
     sq i = sq k -> i = k) ->
  let moved L := Loader (map f (ld_data L)) (ld_bs L) false in
  let sqd (y x : sample) := \sum_(l < d) (nth 0 (feat y) l - nth 0 (feat x) l) ^+ 2 in
  knn_user lab_eq argsort false None K [:: d] [:: d] (moved tr) (moved te) trl tel
    = knn_user lab_eq argsort false None K [:: d] [:: d] tr te trl tel
  /\ knn_user lab_eq argsort false (Some sqd) K [:: d] [:: d] tr te trl tel
    = knn_user lab_eq argsort false None K [:: d] [:: d] tr te trl tel.
Proof.
move=> a0 hf hl inj moved sqd; have [so b1 b2 d1 d2 ne l1 l2] := ok.
have x0 : sample by case: (ld_data tr) ne.
have sq0 y x : 0 <= sqd y x by apply: sumr_ge0 => l _; exact: sqr_ge0.
have root y x x' : (Num.sqrt (sqd y x) < Num.sqrt (sqd y x')) = (sqd y x < sqd y x').
  by apply/idP/idP; [rewrite !ltNge; apply: contra => h; rewrite ler_wsqrtr|move=> h; rewrite ltr_sqrt //; apply: le_lt_trans h].
have bad (o : option (seq Lab)) m : (if o is Some l then size l = m else True) -> (if o is Some l then size l != m else false) = false.
  by case: o => // l ->; rewrite eqxx.
split; rewrite /knn_user /knn_default /= ?size_map !bad //= !nb_pos //= ?size_map ?eqxx /=.
  case: ifP => _; first by apply: (@knn_natural F sample sample Lab lab_eq (fun _ _ => 0) (fun _ _ => 0) (@slab F Lab) (@slab F Lab)).
  rewrite (@knn_natural F sample sample Lab lab_eq (fun y x => a * cdist1 d y x) (cdist1 d) (@slab F Lab) (@slab F Lab) argsort K tr te trl tel f) //.
    apply: (@C69_order F sample Lab lab_eq (fun y x => a * cdist1 d y x) (cdist1 d) (@slab F Lab) argsort argsort K tr te trl tel x0) => // j i k hj hi hk /=.
    split; first by rewrite ltr_pmul2l.
    move=> /(mulfI (lt0r_neq0 a0)) h; apply: (inj x0 j) => //; apply/eqP; move/eqP: h; rewrite /cdist1 eqr_sqrt //; exact: sq0.
  move=> y x; rewrite /cdist1.
  have -> : \sum_(k < d) (nth 0 (feat (f y)) k - nth 0 (feat (f x)) k) ^+ 2 = a ^+ 2 * sqd y x.
    by rewrite mulr_sumr; apply: eq_bigr => k _; rewrite !hf // -mulrBr exprMn.
  by rewrite sqrtrM ?sqr_ge0 // sqrtr_sqr ger0_norm // ltW.
case te0: (size (ld_data te) == 0%N); last first.
  have -> : size (ld_data tr) == 0%N = false by case: (ld_data tr) ne.
  apply: (@C69_order F sample Lab lab_eq sqd (cdist1 d) (@slab F Lab) argsort argsort K tr te trl tel x0) => // j i k hj hi hk /=.
  by split; [rewrite /cdist1 -root|exact: inj].
rewrite orbT !(knn_attribute_gen _ _ _ _ (fun v => (so v).1)) //.
by move: te0; case: (ld_data te) => // _; case: (lte _ _ _).
Qed.

(* Anything but rows of equal length is refused, for every labelling; a task is refused always. *)
Theorem C69_shapes (str ste : seq nat) : (0 < size (ld_data te))%N -> (0 < K)%N ->
  ((exists d, str = [:: d] /\ ste = [:: d]) -> exists M, knn_user lab_eq argsort false None K str ste tr te trl tel = Ok M)
  /\ (~ (exists d, str = [:: d] /\ ste = [:: d]) -> knn_user lab_eq argsort false None K str ste tr te trl tel = Err RuntimeError)
  /\ forall df, knn_user lab_eq argsort true df K str ste tr te trl tel = Err NotImplementedError.
Proof.
move=> t0 K0; have [so b1 b2 d1 d2 ne l1 l2] := ok.
have bad (o : option (seq Lab)) m : (if o is Some l then size l = m else True) -> (if o is Some l then size l != m else false) = false.
  by case: o => // l ->; rewrite eqxx.
have n0 : (size (ld_data tr) == 0%N) = false by case: (ld_data tr) ne.
have n1 : (size (ld_data te) == 0%N) = false by case: (ld_data te) t0.
rewrite /knn_user /knn_default /= !bad //= !nb_pos // n0 n1 /=; split; [|split=> //].
  move=> [d [-> ->]]; rewrite /= eqxx /=.
  by have [M [e _]] := knn_entries lab_eq (cdist1 d) (@slab F Lab) ok K0; exists M.
move=> h; rewrite /cdist_cols; case: ste h => [|d' [|? ?]] h //; case: str h => [|d [|? ?]] h //.
by case: eqP => // e; case: h; exists d; rewrite e.
Qed.
End Default.

Section Examples.
Variable F : rcfType.
Let xs : seq (sample F bool) := [:: Sample [:: 1; 0] true; Sample [:: 0; 2%:R] false; Sample [:: 3%:R; 0] true].
Let ys : seq (sample F bool) := [:: Sample [:: 0; 0] true; Sample [:: 1; 1] false].
(* a quarter turn and a translation; the hypotheses of C69_bounds, C69_monotone and C69_rigid *)
Example C69_nonvacuous : knn_ok (@argsort_ins F) (Loader xs 2 false) (Loader ys 1 false) (None : option (seq bool)) None /\
  exists (Q : 'M[F]_2) t (f : sample F bool -> sample F bool), Q != 1%:M /\ forall x, rigid Q t (feat x) (feat (f x)) /\ slab (f x) = slab x.
Proof.
split; first by split=> //; exact: argsort_ins_ok.
exists (\matrix_(i, j) (if (i == 0) && (j == 1) then 1 else if (i == 1) && (j == 0) then -1 else 0)), (const_mx 1),
  (fun x => Sample [:: 1 - nth 0 (feat x) 1; 1 + nth 0 (feat x) 0] (slab x)); split.
  by apply/eqP => /matrixP /(_ 0 0); rewrite !mxE /= => /eqP; rewrite eq_sym oner_eq0.
move=> x; split=> //; split; apply/matrixP => i j.
  by rewrite !mxE !big_ord_recl big_ord0 !mxE; case: i => -[|[|//]] ?; case: j => -[|[|//]] ? /=;
     rewrite !(mulr0, mul0r, mulr1, mulrN1, opprK, addr0, add0r).
by rewrite !mxE !big_ord_recl big_ord0 !mxE; case: j => -[|[|//]] ? /=;
     rewrite !(mulr0, mul0r, mulr1, mulrN1, addr0, add0r) addrC.
Qed.
(* two different distances from the one test sample; the hypotheses of C69_scale, C69_order and C69_shapes *)
Let us : seq (sample F bool) := [:: Sample [:: 3%:R] true; Sample [:: 1] false].
Let vs : seq (sample F bool) := [:: Sample [:: 0] true].
Example C69_scale_nonvacuous :
  let moved L := Loader (map (fun x : sample F bool => Sample [:: 2%:R * nth 0 (feat x) 0] (slab x)) (ld_data L)) (ld_bs L) false in
  knn_user eqb (@argsort_ins F) false None 1 [:: 1]%N [:: 1]%N (moved (Loader us 1 false)) (moved (Loader vs 1 false)) None None
  = knn_user eqb (@argsort_ins F) false None 1 [:: 1]%N [:: 1]%N (Loader us 1 false) (Loader vs 1 false) None None.
Proof.
have ok : knn_ok (@argsort_ins F) (Loader us 1 false) (Loader vs 1 false) (None : option (seq bool)) None.
  by split=> //; exact: argsort_ins_ok.
have a0 : 0 < 2%:R :> F by rewrite ltr0n.
have [|//||h _] := C69_scale eqb 1 ok (d := 1%N) (f := fun x => Sample [:: 2%:R * nth 0 (feat x) 0] (slab x)) a0; last exact: h.
  by move=> x [|k].
move=> x0 j i k hj hi hk; have -> : j = 0%N by move: hj; rewrite /=; lia.
cbv beta zeta; rewrite !big_ord1 /= !sub0r !sqrrN; case: i hi => [|[|//]] _; case: k hk => [|[|//]] _ //=;
  by rewrite expr1n -natrX => /eqP; rewrite -[1]/(1%:R) eqr_nat.
Qed.
End Examples.

Print Assumptions C69_bounds.
Print Assumptions C69_monotone.
Print Assumptions C69_large_k_refuted.
Print Assumptions C69_order.
Print Assumptions C69_rigid.
Print Assumptions C69_scale.
Print Assumptions C69_shapes.
