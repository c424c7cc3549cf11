(* C27 linear datamodeling score, C28 mislabel detection, C29 brittleness. *)
Set Warnings "-notation-overridden,-ambiguous-paths".
From mathcomp Require Import all_ssreflect all_algebra zify.
From Verif Require Import Py Tensor MetricModel MetricSpec MetricProof MetricProof2 MetricProof3 MetricProof4.
Set Implicit Arguments. Unset Strict Implicit. Unset Printing Implicit Defensive.
Import Order.TTheory GRing.Theory Num.Theory.
Local Open Scope ring_scope.

(* ------------------------------------------------------------------ C27 *)
Section C27.
Variable R : rcfType.
Variable pv : seq R -> seq R -> option R.
Implicit Types score gt : mat R.

(* With the documented shapes lds returns one entry per test sample: the
   Spearman correlation between the sums of the members' scores and the ground
   truth over the subsets; nan (None) exactly when one of the two is constant. *)
Theorem C27_value score gt idx :
  lds_shapes (mrows score) (mrows gt) (mcols score) (mcols gt) idx ->
  exists c p, [/\ lds pv score gt idx = Ok (c, p), size c = mcols score, size p = mcols score &
    forall t, (t < mcols score)%N ->
      let x := predictions (mrows score) idx t in let y := column (mrows gt) t in
      (varies x /\ varies y -> nth None c t = Some (rank_correlation x y)) /\
      (~ (varies x /\ varies y) -> nth None c t = None)].
Proof.
move=> h; rewrite ldsE //; do 2!eexists; split; first by reflexivity.
- by rewrite size_map size_iota.
- by rewrite size_map size_iota.
move=> t tm x y; rewrite (nth_map 0%N) ?size_iota // nth_iota // add0n -/x -/y /spec_spearman.
split=> [[vx vy]|nv]; first by rewrite (negbTE (variesP vx)) (negbTE (variesP vy)).
case: ifPn => //; rewrite negb_or => /andP[nx ny]; case: nv.
by split; apply: constantPn.
Qed.

Lemma at_t score gt idx c p t : lds_shapes (mrows score) (mrows gt) (mcols score) (mcols gt) idx ->
  lds pv score gt idx = Ok (c, p) -> (t < mcols score)%N ->
  nth None c t = spec_spearman (predictions (mrows score) idx t) (column (mrows gt) t).
Proof.
move=> h; rewrite ldsE // => -[<- _] tm.
by rewrite (nth_map 0%N) ?size_iota // nth_iota.
Qed.

(* every entry lies between -1 and 1 *)
Theorem C27_bounds score gt idx c p t r :
  lds_shapes (mrows score) (mrows gt) (mcols score) (mcols gt) idx ->
  lds pv score gt idx = Ok (c, p) -> (t < mcols score)%N -> nth None c t = Some r -> -1 <= r <= 1.
Proof.
move=> h e tm; rewrite (at_t h e tm) /spec_spearman; case: ifPn => // /norP[nx ny] [<-].
have [_ h2 _ _] := h.
rewrite /rank_correlation -!rankE; apply: corr_bound; rewrite ?size_rank ?size_map //.
  exact/varies_rank/constantPn.
exact/varies_rank/constantPn.
Qed.

Lemma ncr (x : seq R) i : (i < size x)%N ->
  nth 0 (centre (rankdata x)) i = rk x (nth 0 x i) - mean (rankdata x).
Proof. by move=> ix; rewrite (nth_map 0) ?size_rank // nth_rank. Qed.

(* the score is 1 exactly when the predictions order the subsets as the ground
   truth does, ties included, and -1 exactly when they reverse the order *)
Theorem C27_perfect score gt idx c p t :
  lds_shapes (mrows score) (mrows gt) (mcols score) (mcols gt) idx ->
  lds pv score gt idx = Ok (c, p) -> (t < mcols score)%N ->
  let x := predictions (mrows score) idx t in let y := column (mrows gt) t in
  varies x -> varies y ->
  (nth None c t = Some 1 <-> concordant x y) /\ (nth None c t = Some (-1) <-> discordant x y).
Proof.
move=> h e tm x y vx vy; rewrite (at_t h e tm) -/x -/y /spec_spearman.
rewrite (negbTE (variesP vx)) (negbTE (variesP vy)) /=.
have sxy : size x = size y by have [_ h2 _ _] := h; rewrite !size_map.
have srk : size (rankdata x) = size (rankdata y) by rewrite !size_rank.
have vrx := varies_rank vx; have vry := varies_rank vy.
have ord u : u ^+ 2 = 1 -> correlation (rankdata x) (rankdata y) = u ->
    exists2 k, 0 < k & forall i j, (i < size x)%N -> (j < size x)%N ->
      rk y (nth 0 y i) - rk y (nth 0 y j) = u * k * (rk x (nth 0 x i) - rk x (nth 0 x j)).
  move=> u2 /(corr_eq srk vrx vry u2)[k k0 ek]; exists k => // i j ix jx.
  have := ek i; have := ek j; rewrite !size_rank => /(_ jx) ej /(_ ix) ei.
  rewrite !ncr -?sxy // in ei ej.
  set my := mean (rankdata y) in ei ej; set mx := mean (rankdata x) in ei ej.
  transitivity ((rk y (nth 0 y i) - my) - (rk y (nth 0 y j) - my)).
    by rewrite opprB addrA subrK.
  by rewrite ei ej -mulrBr; congr (_ * _); rewrite opprB addrA subrK.
rewrite /rank_correlation -!rankE; split; split.
- case=> c1; have [k k0 ek] := ord 1 (expr1n _ 2) c1; move=> i j ix jx.
  have := ek j i jx ix; rewrite mul1r => d.
  rewrite -(@rk_mono _ x) ?mem_nth // -[RHS](@rk_mono _ y) ?mem_nth -?sxy //.
  by rewrite -subr_gt0 -[RHS]subr_gt0 d pmulr_rgt0.
- move=> cc; have -> : rankdata y = [seq 1 * r + 0 | r <- rankdata x].
    rewrite -(rank_concordant sxy cc) -[LHS]map_id; apply: eq_map => r.
    by rewrite mul1r addr0.
  by rewrite corr_self ?expr1n.
- case=> c1; have n1 : (-1) ^+ 2 = 1 :> R by rewrite sqrrN expr1n.
  have [k k0 ek] := ord (-1) n1 c1; move=> i j ix jx.
  have := ek i j ix jx; rewrite mulN1r mulNr -mulrN opprB => d.
  rewrite -(@rk_mono _ x) ?mem_nth // -[RHS](@rk_mono _ y) ?mem_nth -?sxy //.
  by rewrite -subr_gt0 -[RHS]subr_gt0 d pmulr_rgt0.
- move=> cc; have -> : rankdata y = [seq -1 * r + ((size x)%:R + 1) | r <- rankdata x].
    rewrite (rank_discordant sxy cc); apply: eq_map => r.
    by rewrite mulN1r addrC.
  by rewrite corr_self // sqrrN expr1n.
Qed.

(* only the order of the ground truth and of the predictions matters *)
Theorem C27_order_only score score' gt gt' idx idx' c p c' p' t :
  lds_shapes (mrows score) (mrows gt) (mcols score) (mcols gt) idx ->
  lds_shapes (mrows score') (mrows gt') (mcols score') (mcols gt') idx' ->
  lds pv score gt idx = Ok (c, p) -> lds pv score' gt' idx' = Ok (c', p') ->
  (t < mcols score)%N -> (t < mcols score')%N -> size idx = size idx' ->
  concordant (predictions (mrows score) idx t) (predictions (mrows score') idx' t) ->
  concordant (column (mrows gt) t) (column (mrows gt') t) ->
  nth None c t = nth None c' t.
Proof.
move=> h h' e e' tm tm' si cx cy; rewrite (at_t h e tm) (at_t h' e' tm') /spec_spearman.
have [_ h2 _ _] := h; have [_ h2' _ _] := h'.
have sx : size (predictions (mrows score) idx t) = size (predictions (mrows score') idx' t) by rewrite !size_map.
have sy : size (column (mrows gt) t) = size (column (mrows gt') t) by rewrite !size_map h2 h2'.
have cst (a b : seq R) : size a = size b -> concordant a b -> constant a -> constant b.
  move=> sab cab /allP ca; apply: contraT => /constantPn[i [j [ib [jb ne]]]].
  have := cab i j; have := cab j i; rewrite sab => /(_ jb ib) e1 /(_ ib jb) e2.
  move: ne; rewrite neq_lt -e1 -e2.
  by rewrite (eqP (ca _ (mem_nth 0 (_ : (i < size a)%N)))) ?sab //
             (eqP (ca _ (mem_nth 0 (_ : (j < size a)%N)))) ?sab // ltxx.
have sym (a b : seq R) : size a = size b -> concordant a b -> concordant b a.
  by move=> sab cab i j ib jb; rewrite cab // sab.
have -> : constant (predictions (mrows score) idx t) = constant (predictions (mrows score') idx' t).
  by apply/idP/idP; apply: cst => //; apply: sym.
have -> : constant (column (mrows gt) t) = constant (column (mrows gt') t).
  by apply/idP/idP; apply: cst => //; apply: sym.
by rewrite /rank_correlation -!rankE (rank_concordant sx cx) (rank_concordant sy cy).
Qed.

(* Rescaling the scores by a positive factor and adding a constant per test
   sample leaves the result unchanged, subsets having equal sizes. *)
Theorem C27_affine score score' gt idx c p c' p' (a : R) (b : nat -> R) k t :
  lds_shapes (mrows score) (mrows gt) (mcols score) (mcols gt) idx ->
  mcols score' = mcols score -> size (mrows score') = size (mrows score) -> 0 < a ->
  (forall j t', (j < size (mrows score))%N -> (t' < mcols score)%N ->
     nth 0 (nth [::] (mrows score') j) t' = a * nth 0 (nth [::] (mrows score) j) t' + b t') ->
  all (fun zs => size zs == k) idx ->
  lds pv score gt idx = Ok (c, p) -> lds pv score' gt idx = Ok (c', p') -> (t < mcols score)%N ->
  nth None c t = nth None c' t.
Proof.
move=> h mm ss a0 ab kk e e' tm.
have h' : lds_shapes (mrows score') (mrows gt) (mcols score') (mcols gt) idx by rewrite mm /lds_shapes ss.
apply: (C27_order_only h h' e e') => //; first by rewrite mm.
have [ri _ _ _] := h.
have mult n zs : all (in_range n) zs -> (\sum_(j < n) multiplicity n zs j = size zs)%N.
  elim: zs => [|z zs IH] /=; first by move=> _; rewrite big1.
  case/andP=> iz izs; rewrite big_split /= IH //.
  have [q qn [_ qj]] := torch_indexE iz.
  rewrite (eq_bigr (fun j : 'I_n => (j == Ordinal qn : nat))) => [|j _]; last first.
    by rewrite qj // -(inj_eq val_inj).
  by rewrite (bigD1 (Ordinal qn)) //= eqxx big1 ?addn0 // => j /negbTE->.
have pe zs : zs \in idx -> predicted (mrows score') zs t = a * predicted (mrows score) zs t + k%:R * b t.
  move=> zi; rewrite /predicted ss mulr_sumr.
  rewrite -(eqP (allP kk _ zi)) -(mult _ _ (allP ri _ zi)) natr_sum mulr_suml -big_split /=.
  by apply: eq_bigr => j _; rewrite ab // mulrDr mulrCA.
move=> i j; rewrite !size_map => ix jx.
rewrite !(nth_map [::]) // !pe ?mem_nth // ltr_add2r ltr_pmul2l //.
Qed.

(* the entry for a test sample depends only on that sample's column *)
Theorem C27_local score score' gt gt' idx c p c' p' t :
  lds_shapes (mrows score) (mrows gt) (mcols score) (mcols gt) idx ->
  lds_shapes (mrows score') (mrows gt') (mcols score') (mcols gt') idx ->
  lds pv score gt idx = Ok (c, p) -> lds pv score' gt' idx = Ok (c', p') ->
  (t < mcols score)%N -> (t < mcols score')%N ->
  column (mrows score) t = column (mrows score') t -> column (mrows gt) t = column (mrows gt') t ->
  nth None c t = nth None c' t /\ nth None p t = nth None p' t.
Proof.
move=> h h' e e' tm tm' cs cg.
have ss : size (mrows score) = size (mrows score') by rewrite -(size_map (fun r => nth 0 r t)) [LHS](congr1 size cs) size_map.
have pe : predictions (mrows score) idx t = predictions (mrows score') idx t.
  apply: eq_map => zs; rewrite /predicted ss; apply: eq_bigr => j _; congr (_ * _).
  have := congr1 (fun s => nth 0 s j) cs.
  by rewrite !(nth_map [::]) ?ss.
rewrite (at_t h e tm) (at_t h' e' tm') pe cg; split=> //.
move: e e'; rewrite !ldsE // => -[_ <-] [_ <-].
by rewrite !(nth_map 0%N) ?size_iota // !nth_iota // pe cg.
Qed.

(* without ties it is 1 - 6 sum d^2 / (k (k^2 - 1)) *)
Theorem C27_no_ties score gt idx c p t :
  lds_shapes (mrows score) (mrows gt) (mcols score) (mcols gt) idx ->
  lds pv score gt idx = Ok (c, p) -> (t < mcols score)%N -> (1 < size idx)%N ->
  let x := predictions (mrows score) idx t in let y := column (mrows gt) t in
  uniq x -> uniq y ->
  nth None c t = Some (1 - 6%:R * rank_gap x y / ((size idx)%:R * ((size idx)%:R ^+ 2 - 1))).
Proof.
move=> h e tm n1 x y ux uy; rewrite (at_t h e tm) -/x -/y /spec_spearman.
have sx : size x = size idx by rewrite size_map.
have sy : size x = size y by have [_ h2 _ _] := h; rewrite !size_map.
have nc z : uniq z -> (1 < size z)%N -> constant z = false.
  case: z => [|a [|b z]] //= /andP[]; rewrite in_cons negb_or => /andP[ne _] _ _.
  by rewrite /constant /= [b == a]eq_sym (negbTE ne) andbF.
rewrite nc ?sx // nc -?sy ?sx //=; congr Some.
by rewrite -sx rank_corr_no_ties // sx.
Qed.

(* the exceptions, in the order in which they are raised *)
Theorem C27_errors score gt idx :
  (~~ all (all (in_range (size (mrows score)))) idx -> lds pv score gt idx = Err IndexError) /\
  (idx = [::] -> lds pv score gt idx = Err RuntimeError) /\
  (all (all (in_range (size (mrows score)))) idx -> mcols score = 0%N -> lds pv score gt idx = Err RuntimeError) /\
  (all (all (in_range (size (mrows score)))) idx -> idx != [::] -> (0 < mcols score)%N ->
     (mcols gt = 0%N -> lds pv score gt idx = Err IndexError) /\
     ((0 < mcols gt)%N -> size (mrows gt) <> size idx -> lds pv score gt idx = Err ValueError)).
Proof.
split; [by move=> h; rewrite /lds all_sums_err|split; [by move=> ->|split]].
  by move=> h m0; rewrite /lds all_sumsE //= m0; case: idx h.
move=> h i0 m0; split=> [g0|g0 ne]; rewrite /lds all_sumsE //=.
  case: idx h i0 => // zs idx _ _; rewrite /stack.
  by case: (mcols score) m0 => // m _ /=; rewrite /gcol g0.
case: idx h i0 ne => // zs idx _ _ ne; rewrite /stack.
case: (mcols score) m0 => // m _ /=; rewrite /gcol g0 /= /spearmanr !size_map /=.
by rewrite size_map; case: eqP => // /esym.
Qed.

(* loo_corr: the Pearson correlation of column t of the scores with column t of
   the ground truth, row by row; the tensor of removed indices is not used *)
Theorem C27_loo_corr score gt removed :
  size (mrows gt) = size (mrows score) -> (1 < size (mrows score))%N -> (0 < mcols score <= mcols gt)%N ->
  exists c p, [/\ loo_corr pv score gt removed = Ok (c, p), size c = mcols score &
    forall t, (t < mcols score)%N ->
      let x := column (mrows score) t in let y := column (mrows gt) t in
      (varies x /\ varies y -> nth None c t = Some (correlation x y)) /\
      (~ (varies x /\ varies y) -> nth None c t = None)].
Proof.
move=> h1 h2 h3; rewrite loo_corrE //; do 2!eexists; split; first by reflexivity.
  by rewrite size_map size_iota.
move=> t tm x y; rewrite (nth_map 0%N) ?size_iota // nth_iota // add0n -/x -/y /spec_pearson.
split=> [[vx vy]|nv]; first by rewrite (negbTE (variesP vx)) (negbTE (variesP vy)).
case: ifPn => //; rewrite negb_or => /andP[nx ny]; case: nv.
by split; apply: constantPn.
Qed.

Theorem C27_loo_corr_removed_unused score gt removed removed' :
  loo_corr pv score gt removed = loo_corr pv score gt removed'.
Proof. by []. Qed.

(* Leave-one-out values of a strict subset of the training samples cannot be
   used: the call raises instead of selecting the rows named by the indices. *)
Theorem C27_loo_corr_subset_refuted score gt removed :
  size (mrows gt) = size removed -> (size removed < size (mrows score))%N ->
  (0 < mcols score <= mcols gt)%N ->
  loo_corr pv score gt removed = Err ValueError.
Proof.
move=> sg lt /andP[m0 mm]; rewrite /loo_corr /stack.
case: (mcols score) m0 mm => // m _ mm /=; rewrite /gcol (leq_trans _ mm) //= /pearsonr !size_map sg.
by case: eqP lt => // ->; rewrite ltnn.
Qed.

(* three training samples, three subsets of two, one test sample: the
   predictions 1+2, 1+4, 2+4 order the subsets as the ground truth does *)
Definition ex_score := Mat [:: [:: 1%:R]; [:: 2%:R]; [:: 4%:R]] 1 : mat R.
Definition ex_gt := Mat [:: [:: 5%:R]; [:: 6%:R]; [:: 9%:R]] 1 : mat R.
Definition ex_idx : seq (seq int) := [:: [:: 0; 1]; [:: 0; 2]; [:: 1; 2]].
Example C27_example :
  [/\ lds_shapes (mrows ex_score) (mrows ex_gt) (mcols ex_score) (mcols ex_gt) ex_idx,
      predictions (mrows ex_score) ex_idx 0 = [:: 3%:R; 5%:R; 6%:R],
      varies (predictions (mrows ex_score) ex_idx 0), varies (column (mrows ex_gt) 0) &
      concordant (predictions (mrows ex_score) ex_idx 0) (column (mrows ex_gt) 0)].
Proof.
have pe : predictions (mrows ex_score) ex_idx 0 = [:: 3%:R; 5%:R; 6%:R].
  rewrite /predictions /= /predicted /= !big_ord_recl !big_ord0 /multiplicity /=.
  by rewrite !(mul0r, mul1r, addr0, add0r) -!natrD.
split=> //.
- by rewrite pe; exists 0%N, 1%N; rewrite /= eqr_nat.
- by exists 0%N, 1%N; rewrite /= eqr_nat.
rewrite pe /= => i j; case: i => [|[|[|i]]] // _; case: j => [|[|[|j]]] // _ /=;
  by rewrite ?ltxx // !ltr_nat.
Qed.
End C27.
Print Assumptions C27_value.
Print Assumptions C27_bounds.
Print Assumptions C27_perfect.
Print Assumptions C27_order_only.
Print Assumptions C27_affine.
Print Assumptions C27_local.
Print Assumptions C27_no_ties.
Print Assumptions C27_errors.
Print Assumptions C27_loo_corr.
Print Assumptions C27_loo_corr_subset_refuted.

(* ------------------------------------------------------------------ C28 *)
Section C28.
Variable R : realFieldType.
Implicit Types (score : seq R) (gt : seq bool) (asc : seq nat).

(* the AUC is the fraction of (noisy, clean) pairs whose noisy member is
   inspected first *)
Theorem C28_value asc score gt :
  sorts asc score -> size gt = size score -> (0 < noisy gt)%N -> (0 < clean gt)%N ->
  exists roc, mislabel_detection_auc asc score gt =
    Ok ((noisy_clean gt (inspected_before asc))%:R / ((noisy gt)%:R * (clean gt)%:R), roc).
Proof. by case=> pa _ sg n0 c0; rewrite aucE //; eexists. Qed.

Lemma before_le asc score i j : sorts asc score -> (i < size score)%N -> (j < size score)%N ->
  inspected_before asc i j -> nth 0 score j <= nth 0 score i.
Proof.
case=> pa so is' js; rewrite /inspected_before => lt.
have mi : i \in asc by rewrite (perm_mem pa) mem_iota.
have mj : j \in asc by rewrite (perm_mem pa) mem_iota.
have st : transitive (fun i j => nth 0 score i <= nth 0 score j).
  by move=> a b c; apply: le_trans.
have := @sorted_ltn_nth _ _ st 0%N _ so (index j asc) (index i asc).
rewrite !inE !index_mem => /(_ mj mi lt).
by rewrite !nth_index.
Qed.

Lemma lt_before asc score i j : sorts asc score -> (i < size score)%N -> (j < size score)%N ->
  nth 0 score j < nth 0 score i -> inspected_before asc i j.
Proof.
move=> so is' js lt; rewrite /inspected_before; have [pa _] := so.
have mi : i \in asc by rewrite (perm_mem pa) mem_iota.
have mj : j \in asc by rewrite (perm_mem pa) mem_iota.
case: (ltngtP (index j asc) (index i asc)) => // [lt'|e].
  by have := before_le so js is' lt'; rewrite leNgt lt.
by move: lt; rewrite -(nth_index 0%N mi) -e nth_index // ltxx.
Qed.

(* in terms of the scores: between the strict and the weak Mann-Whitney
   statistic, whatever the tie-breaking of the sort; exact without ties
   between a noisy and a clean sample *)
Theorem C28_scores asc score gt auc roc :
  sorts asc score -> size gt = size score -> (0 < noisy gt)%N -> (0 < clean gt)%N ->
  mislabel_detection_auc asc score gt = Ok (auc, roc) ->
  let pairs P := (noisy_clean gt P)%:R / ((noisy gt)%:R * (clean gt)%:R) in
  pairs (fun i j => nth 0 score j < nth 0 score i) <= auc <= pairs (fun i j => nth 0 score j <= nth 0 score i)
  /\ ((forall i j, (i < size gt)%N -> (j < size gt)%N -> nth false gt i -> ~~ nth false gt j ->
         nth 0 score i != nth 0 score j) ->
      auc = pairs (fun i j => nth 0 score j < nth 0 score i)).
Proof.
move=> so sg n0 c0; have [pa _] := so; rewrite aucE // => -[<- _] pairs.
have d0 : 0 < ((noisy gt)%:R * (clean gt)%:R)^-1 :> R by rewrite invr_gt0 mulr_gt0 // ltr0n.
split.
  apply/andP; split; rewrite ler_pmul2r // ler_nat; apply: le_noisy_clean => i j; rewrite sg => ig jg _ _.
    by move=> lt; apply: lt_before so _ _ lt.
  by apply: before_le.
move=> nt; congr (_%:R / _); apply: eq_noisy_clean => i j ig jg ni cj.
apply/idP/idP; rewrite sg in ig jg.
  move=> b; rewrite lt_neqAle (before_le so) // andbT eq_sym; apply: nt; rewrite ?sg //.
by move=> lt; apply: lt_before so _ _ lt.
Qed.

(* 0 <= AUC <= 1; it is 1 exactly when every noisy sample is inspected before
   every clean one *)
Theorem C28_bounds asc score gt auc roc :
  sorts asc score -> size gt = size score -> (0 < noisy gt)%N -> (0 < clean gt)%N ->
  mislabel_detection_auc asc score gt = Ok (auc, roc) ->
  0 <= auc <= 1 /\
  (auc = 1 <-> forall i j, (i < size gt)%N -> (j < size gt)%N -> nth false gt i -> ~~ nth false gt j ->
               inspected_before asc i j).
Proof.
move=> so sg n0 c0; have [pa _] := so; rewrite aucE // => -[<- _].
have d0 : 0 < (noisy gt)%:R * (clean gt)%:R :> R by rewrite mulr_gt0 // ltr0n.
have le : (noisy_clean gt (inspected_before asc) <= noisy gt * clean gt)%N.
  by rewrite -noisy_clean_all; apply: le_noisy_clean.
split.
  by rewrite divr_ge0 ?ler0n ?(ltW d0) //= ler_pdivr_mulr // mul1r -natrM ler_nat.
rewrite -(noisy_clean_full gt (inspected_before asc)); split=> [e|->]; last first.
  by rewrite natrM mulfV // gt_eqF.
apply/eqP; rewrite -(@eqr_nat R) natrM; apply/eqP.
by move/(congr1 (fun z => z * ((noisy gt)%:R * (clean gt)%:R))): e; rewrite mulfVK ?gt_eqF // mul1r.
Qed.

(* the curve: at threshold k the shares of noisy and of clean samples among the
   first k inspected; it starts at (0,0), ends at (1,1) and never decreases *)
Theorem C28_roc asc score gt auc fpr tpr thr :
  sorts asc score -> size gt = size score -> (0 < noisy gt)%N -> (0 < clean gt)%N ->
  mislabel_detection_auc asc score gt = Ok (auc, (fpr, tpr, thr)) ->
  [/\ size fpr = (size score).+1, size tpr = (size score).+1,
      thr = None :: [seq Some k | k <- iota 1 (size score)],
      (forall k, (k <= size score)%N ->
        let first := take k (rev asc) in
        nth 0 tpr k = (count (nth false gt) first)%:R / (noisy gt)%:R /\
        nth 0 fpr k = (count (fun i => ~~ nth false gt i) first)%:R / (clean gt)%:R) &
      [/\ nth 0 fpr 0 = 0 /\ nth 0 tpr 0 = 0, nth 0 fpr (size score) = 1 /\ nth 0 tpr (size score) = 1 &
          sorted <=%R fpr /\ sorted <=%R tpr]].
Proof.
move=> so sg n0 c0; have [pa _] := so; rewrite aucE //.
have [F Fe] : {F | F = [seq MetricProof3.fpr R gt (rev asc) k | k <- iota 0 (size gt).+1]} by eexists.
have [T Te] : {T | T = [seq MetricProof3.tpr R gt (rev asc) k | k <- iota 0 (size gt).+1]} by eexists.
rewrite -Fe -Te => -[_ <- <- <-].
have pl : perm_eq (rev asc) (iota 0 (size gt)) by rewrite perm_rev sg.
have sl := size_low pl.
have sF : size F = (size score).+1 by rewrite Fe size_map size_iota sg.
have sT : size T = (size score).+1 by rewrite Te size_map size_iota sg.
have pt k : (k <= size score)%N -> let first := take k (rev asc) in
   nth 0 T k = (count (nth false gt) first)%:R / (noisy gt)%:R /\
   nth 0 F k = (count (fun i => ~~ nth false gt i) first)%:R / (clean gt)%:R.
  move=> kn first; rewrite Te Fe !(nth_map 0%N) ?size_iota ?sg ?ltnS // !nth_iota ?ltnS // !add0n; split=> //.
  rewrite /MetricProof3.fpr; congr (_ / _); apply/eqP; rewrite subr_eq -natrD eqr_nat.
  rewrite addnC /tp -/first (count_predC (nth false gt) first).
  by rewrite size_take sl sg; case: ltnP => // h; rewrite eqn_leq kn h.
move: F T {Fe Te} sF sT pt => F T sF sT pt.
have nz : (noisy gt)%:R != 0 :> R by rewrite pnatr_eq0 -lt0n.
have cz : (clean gt)%:R != 0 :> R by rewrite pnatr_eq0 -lt0n.
split=> //; first by rewrite sg.
split.
- by have [-> ->] := pt 0%N isT; rewrite !take0 /= !mul0r.
- have [-> ->] := pt (size score) (leqnn _); rewrite -sg -sl take_size.
  have -> : count (nth false gt) (rev asc) = noisy gt by rewrite -(tpn pl) /tp -sl take_size.
  have -> : count (fun i => ~~ nth false gt i) (rev asc) = clean gt.
    apply/eqP; rewrite -(eqn_add2l (count (nth false gt) (rev asc))).
    rewrite (count_predC (nth false gt)) sl -(noisy_cleanN gt) eqn_add2r.
    by rewrite -(tpn pl) /tp -sl take_size.
  by rewrite !mulfV.
have mono (P : pred nat) (d : nat) (f : seq R) : (0 < d)%N -> size f = (size score).+1 ->
   (forall k, (k <= size score)%N -> nth 0 f k = (count P (take k (rev asc)))%:R / d%:R) ->
   sorted <=%R f.
  move=> d0 sf fk; apply/(sortedP 0) => i; rewrite sf ltnS => ik.
  rewrite (fk _ (ltnW ik)) (fk _ ik) ler_pmul2r ?invr_gt0 ?ltr0n // ler_nat.
  rewrite -[i.+1]addn1 takeD count_cat.
  exact: leq_addr.
by split; [apply: (mono (fun i => ~~ nth false gt i) (clean gt))|apply: (mono (nth false gt) (noisy gt))] => // k kn;
  have [] := pt k kn.
Qed.

(* no noisy or no clean sample: ZeroDivisionError, unless the score is empty *)
Theorem C28_degenerate asc score gt :
  sorts asc score -> size gt = size score -> (noisy gt = 0%N \/ clean gt = 0%N) ->
  mislabel_detection_auc asc score gt =
    if score is [::] then Ok (0, ([:: 0], [:: 0], [:: None])) else Err ZeroDivisionError.
Proof.
case=> pa _ sg nc; rewrite /mislabel_detection_auc size_noise size_rev.
have cE : (size score)%:R - (noisy gt)%:R = (clean gt)%:R :> R.
  by rewrite -sg -(noisy_cleanN gt) natrD addrC addKr.
have sa : size asc = size score by rewrite (perm_size pa) size_iota.
rewrite cE sa; case: score sa {pa sg cE} => [|a score] sa.
  by rewrite /= /trapz big_nil.
by rewrite /= (_ : (_ == 0) || _) //; case: nc => ->; rewrite eqxx ?orbT.
Qed.
End C28.
Print Assumptions C28_value.
Print Assumptions C28_scores.
Print Assumptions C28_bounds.
Print Assumptions C28_roc.
Print Assumptions C28_degenerate.

(* four samples, two noisy; one of the four pairs is in the wrong order *)
Example C28_example :
  let score := [:: 3%:R; 1; 2%:R; 0] : seq rat in let gt := [:: true; false; false; true] in
  let asc := [:: 3; 1; 2; 0]%N in
  [/\ perm_eq asc (iota 0 4), sorted (fun i j => nth 0 score i <= nth 0 score j) asc,
      noisy gt = 2%N, clean gt = 2%N &
      if mislabel_detection_auc asc score gt is Ok r then r.1 == 2%:R^-1 else false].
Proof.
split=> //.
have -> : mislabel_detection_auc [:: 3; 1; 2; 0]%N ([:: 3%:R; 1; 2%:R; 0] : seq rat) [:: true; false; false; true]
  = Ok ((noisy_clean [:: true; false; false; true] (inspected_before [:: 3; 1; 2; 0]%N))%:R / (2%:R * 2%:R),
        ([seq MetricProof3.fpr rat_realFieldType [:: true; false; false; true] (rev [:: 3; 1; 2; 0]%N) k | k <- iota 0 5],
         [seq MetricProof3.tpr rat_realFieldType [:: true; false; false; true] (rev [:: 3; 1; 2; 0]%N) k | k <- iota 0 5],
         None :: [seq Some k | k <- iota 1 4])) by rewrite aucE.
have -> : noisy_clean [:: true; false; false; true] (inspected_before [:: 3; 1; 2; 0]%N) = 2%N.
  by rewrite /noisy_clean !big_ord_recl !big_ord0.
by rewrite [fst _]/= invfM mulVKf.
Qed.

(* ------------------------------------------------------------------ C29 *)
Section C29.
Variables (R : realFieldType) (Lab : eqType) (Net : Type).
Variables (it : seq nat -> seq nat) (train : nat -> seq nat -> Net) (pr : Net -> Lab).
Hypothesis itP : forall s, perm_eq (it s) s.   (* a set is iterated in some order *)
Let predict (m : Net) : res Lab := Ok (pr m).

(* With 1-d scores and a sampler holding a list of indices: pass i of the
   search trains on exactly the sampler's indices outside a set A i of the k
   highest-scored positions, and the result is the first k of the search space
   whose retrained model mispredicts the label of the last test batch. *)
Theorem C29_first (asc : seq nat) (score : seq R) (o : seq nat) (test : seq (seq Lab)) (l : Lab)
    (space : seq int) :
  sorts asc score -> last [::] test = [:: l] ->
  exists A d : nat -> seq nat,
    let flips i := pr (train i (d i)) != l in
    [/\ forall i k, (i < size space)%N -> nth 0 space i = Posz k -> top_scored score k (A i),
        forall i, (i < size space)%N -> uniq (d i) /\ (forall j, (j \in d i) = (j \in o) && (j \notin A i)) &
        exists r, brittleness it train predict asc (S1 score) (IdxList o) test (Some space) = Ok r /\
          match r with
          | None => forall i, (i < size space)%N -> ~~ flips i
          | Some k => exists i, [/\ (i < size space)%N, nth 0 space i = k, flips i &
                                    forall i', (i' < i)%N -> ~~ flips i']
          end].
Proof.
move=> so tl.
pose A i := slice_to (rev asc) (nth 0 space i).
pose d i := it [seq j <- undup o | j \notin A i].
exists A, d => flips; split.
- move=> i k _ e; rewrite /A e; exact: top_scoredE.
- move=> i _; split.
    by rewrite (perm_uniq (itP _)) filter_uniq // undup_uniq.
  by move=> j; rewrite (perm_mem (itP _)) mem_filter mem_undup andbC.
have tE : last_label test = Ok l.
  case: test tl => [|b bs] //= e; rewrite /last_label.
  by rewrite e.
rewrite /brittleness (@loopE _ _ _ _ _ _ _ _ _ _ (fun i _ => flips i)) //; last first.
  by move=> i ik; rewrite /to_remove /= /check_if_flip /= tE.
eexists; split; first by reflexivity.
case: hasP => [ex|nex].
  have hs : has id [seq flips i | i <- iota 0 (size space)] by apply/hasP.
  set f := find _ _.
  have fs : (f < size space)%N by move: hs; rewrite has_find size_map size_iota.
  exists f; split=> //.
    have := nth_find false hs; rewrite -/f (nth_map 0%N) ?size_iota // nth_iota //.
  move=> i' lt; have := before_find false lt.
  by rewrite (nth_map 0%N) ?size_iota ?(ltn_trans lt) // nth_iota ?(ltn_trans lt) // => ->.
move=> i ik; apply/negP => fi; apply: nex; exists (flips i) => //.
by apply/mapP; exists i => //; rewrite mem_iota.
Qed.

(* in an increasing search space the value returned is the smallest one that
   flips *)
Theorem C29_smallest (asc : seq nat) (score : seq R) (o : seq nat) (test : seq (seq Lab)) (l : Lab)
    (space : seq int) (train0 : seq nat -> Net) k :
  sorts asc score -> last [::] test = [:: l] -> sorted <=%R space ->
  (forall n d, train n d = train0 d) ->      (* retraining is deterministic *)
  brittleness it train predict asc (S1 score) (IdxList o) test (Some space) = Ok (Some k) ->
  let flips k' := pr (train0 (it [seq j <- undup o | j \notin slice_to (rev asc) k'])) != l in
  [/\ k \in space, flips k & forall k', k' \in space -> flips k' -> k <= k'].
Proof.
move=> so tl ss tr; rewrite /brittleness.
have tE : last_label test = Ok l.
  by case: test tl => [|b bs] //= e; rewrite /last_label e.
pose fl k' := pr (train0 (it [seq j <- undup o | j \notin slice_to (rev asc) k'])) != l.
rewrite (@loopE _ _ _ _ _ _ _ _ _ _ (fun _ k' => fl k')) //; last first.
  by move=> i ik; rewrite /to_remove /= /check_if_flip /= tr tE.
have -> : [seq fl (nth 0 space i) | i <- iota 0 (size space)] = [seq fl k' | k' <- space].
  by rewrite -[in RHS](mkseq_nth 0 space) -map_comp.
rewrite has_map find_map; case: ifP => // hs [<-].
set f0 := find _ _; have {f0} -> : f0 = find fl space by [].
have {}hs : has fl space := hs; have fs : (find fl space < size space)%N by rewrite -has_find.
split; [exact: mem_nth|exact: (nth_find 0 hs)|move=> k' /(nthP 0)[i ik <-] fk].
rewrite leNgt; apply/negP => lt.
have : (i < find fl space)%N; last by move/(before_find 0); rewrite [fl _]fk.
rewrite ltnNge; apply/negP => le; move: lt; rewrite ltNge.
have := @sorted_leq_nth _ _ le_trans lexx 0 _ ss (find fl space) i.
by rewrite !inE => /(_ fs ik le) ->.
Qed.

(* the labels of all test batches but the last are irrelevant; a last batch
   with several labels, or none at all, raises *)
Theorem C29_test_label (asc : seq nat) (a : score_arr R) s (test : seq (seq Lab)) space :
  (forall bs, brittleness it train predict asc a s (rcons bs (last [::] test)) (Some space)
     = brittleness it train predict asc a s [:: last [::] test] (Some space)) /\
  (forall o k score, a = S1 score -> s = IdxList o -> space = k :: behead space ->
     (size (last [::] test) != 1%N -> test != [::] ->
        brittleness it train predict asc a s test (Some space) = Err RuntimeError) /\
     (test = [::] -> brittleness it train predict asc a s test (Some space) = Err UnboundLocalError)).
Proof.
split=> [bs|o k score -> -> ->].
  have lE : last_label (rcons bs (last [::] test)) = last_label [:: last [::] test].
    by rewrite /last_label; case: bs => // b bs; rewrite /= last_rcons.
  rewrite /brittleness; elim: space 0%N => [|k ks IH] n //.
  by rewrite /brittle_loop -/(brittle_loop it train predict) /check_if_flip lE (IH n.+1).
split=> [s1 t0|->] //; rewrite /brittleness /= /check_if_flip /=.
by case: test t0 s1 => // b bs _ /=; case: (last b bs) => [|x [|]].
Qed.

(* A plain DataLoader's sampler has no .indices: AttributeError. *)
Theorem C29_plain_sampler (asc : seq nat) (a : score_arr R) (test : seq (seq Lab)) k space :
  brittleness it train predict asc a NoIndices test (Some (k :: space)) = Err AttributeError.
Proof. by []. Qed.

(* Scores of the documented shape (n, m): the search fails with TypeError at
   the first k that removes anything; with the default search space the only
   possible value is 0. *)
Theorem C29_documented_shape_refuted (asc : seq nat) (rows : seq (seq R)) (o : seq nat)
    (test : seq (seq Lab)) (l : Lab) :
  rows != [::] -> last [::] test = [:: l] ->
  brittleness it train predict asc (S2 rows) (IdxList o) test None =
    if pr (train 0%N (it (undup o))) != l then Ok (Some 0) else Err TypeError.
Proof.
move=> r0 tl; have tE : last_label test = Ok l.
  by case: test tl => [|b bs] //= e; rewrite /last_label e.
rewrite /brittleness /default_space /= muln0 /= take0 /= /check_if_flip /= tE /=.
have -> : [seq j <- undup o | j \notin [::]] = undup o by apply/all_filterP/allP.
by case: (_ != l) => //=; case: rows r0.
Qed.

(* Sampler indices kept as a tensor: nothing is ever removed. *)
Theorem C29_tensor_indices_refuted (asc : seq nat) (score : seq R) (o : seq nat)
    (test : seq (seq Lab)) (l : Lab) (train0 : seq nat -> Net) space :
  last [::] test = [:: l] -> (forall n d, train n d = train0 d) ->
  brittleness it train predict asc (S1 score) (IdxTensor o) test (Some space) =
    Ok (if pr (train0 (it o)) != l then ohead space else None).
Proof.
move=> tl tr; have tE : last_label test = Ok l.
  by case: test tl => [|b bs] //= e; rewrite /last_label e.
rewrite /brittleness; elim: space 0%N => [|k ks IH] n /=; first by case: ifP.
rewrite /check_if_flip /= tr tE /=; case e: (_ != l) => //.
by move: (IH n.+1); rewrite e => ->.
Qed.
End C29.
Print Assumptions C29_first.
Print Assumptions C29_smallest.
Print Assumptions C29_test_label.
Print Assumptions C29_documented_shape_refuted.
Print Assumptions C29_tensor_indices_refuted.

(* The scores' rows are positions in the training loader, but the removal is by
   the values in sampler.indices: with indices [10; 20] and scores [5; 1] the
   model flips once sample 10, the top-scored one, is left out, yet k = 1 leaves
   both samples in and k = None is reported. *)
Theorem C29_positions_refuted :
  let it := (fun s => s : seq nat) in
  let train := (fun (_ : nat) (d : seq nat) => d) in
  let pr := (fun d : seq nat => Ok (10%N \notin d)) in
  let score := [:: 5%:R; 1] : seq rat in
  [/\ sorts [:: 1; 0]%N score, top_scored score 1 [:: 0%N],
      brittleness it train pr [:: 1; 0]%N (S1 score) (IdxList [:: 10; 20]%N) [:: [:: false]] (Some [:: 1]) = Ok None &
      (* leaving out the sample at the top-scored position does flip *)
      pr [seq nth 0%N [:: 10; 20]%N i | i <- [:: 1%N]] = Ok true].
Proof.
split=> //; split=> // i j; rewrite inE => /eqP-> ; case: j => [|[|j]] //.
Qed.
Print Assumptions C29_positions_refuted.

Example C29_example :
  let it := (fun s => s : seq nat) in
  let train := (fun (_ : nat) (d : seq nat) => d) in
  let pr := (fun d : seq nat => Ok (1%N \notin d)) in
  brittleness it train pr [:: 0; 2; 1]%N (S1 ([:: 0; 2%:R; 1] : seq rat)) (IdxList [:: 0; 1; 2]%N)
    [:: [:: true]; [:: false]] (Some [:: 0; 1; 2]) = Ok (Some (Posz 1)).
Proof. by []. Qed.
