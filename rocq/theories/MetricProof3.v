(* The area under the ROC curve counts (noisy, clean) pairs. *)
Set Warnings "-notation-overridden,-ambiguous-paths".
From mathcomp Require Import all_ssreflect all_algebra zify.
From Verif Require Import Py Tensor MetricModel MetricSpec FieldSupport.
Require Import Field.
Set Implicit Arguments. Unset Strict Implicit. Unset Printing Implicit Defensive.
Import Order.TTheory GRing.Theory Num.Theory.
Local Open Scope ring_scope.

Section Auc.
Variable R : realFieldType.
Add Field mcF : (@ffield R).

Lemma mem_noise gt i : (i \in noise_index gt) = nth false gt i.
Proof.
rewrite mem_filter mem_iota add0n leq0n /=.
by case: (ltnP i (size gt)) => h; rewrite ?andbT ?andbF // nth_default.
Qed.

Lemma size_noise gt : size (noise_index gt) = noisy gt.
Proof.
rewrite size_filter /noisy; rewrite -[in RHS](mkseq_nth false gt) count_map.
by apply: eq_count.
Qed.

Lemma noisy_cleanN gt : (noisy gt + clean gt = size gt)%N.
Proof. by rewrite /noisy /clean -(count_predC id gt); congr addn; apply: eq_count. Qed.

Section Perm.
Variables (gt : seq bool) (low : seq nat).
Hypothesis plow : perm_eq low (iota 0 (size gt)).
Let n := size gt.

Lemma size_low : size low = n. Proof. by rewrite (perm_size plow) size_iota. Qed.
Lemma uniq_low : uniq low. Proof. by rewrite (perm_uniq plow) iota_uniq. Qed.
Lemma mem_low i : (i \in low) = (i < n)%N. Proof. by rewrite (perm_mem plow) mem_iota. Qed.

Definition tp k := count (nth false gt) (take k low).

Lemma true_posE k : true_pos low (noise_index gt) k = tp k.
Proof.
rewrite /true_pos undup_id ?take_uniq ?uniq_low //.
by apply: eq_count => i; rewrite -mem_noise.
Qed.

Lemma tp0 : tp 0 = 0%N. Proof. by rewrite /tp take0. Qed.
Lemma tpS k : (k < n)%N -> tp k.+1 = (tp k + nth false gt (nth 0%N low k))%N.
Proof.
by move=> kn; rewrite /tp (take_nth 0%N) ?size_low // -cats1 count_cat /= addn0.
Qed.
Lemma tpn : tp n = noisy gt.
Proof.
rewrite /tp -size_low take_size -size_noise size_filter (permP plow).
by apply: eq_count.
Qed.
Lemma tp_le k : (k <= n)%N -> (tp k <= k)%N.
Proof. by move=> kn; rewrite (leq_trans (count_size _ _)) // size_take size_low; case: ltnP. Qed.

Lemma by_pos (F : nat -> nat) : (\sum_(i < n) F i = \sum_(k < n) F (nth 0%N low k))%N.
Proof.
rewrite -(big_mkord xpredT F) -(perm_big _ (_ : perm_eq low _)) /=; last first.
  by rewrite /index_iota subn0.
by rewrite (big_nth 0%N) size_low big_mkord.
Qed.

Lemma index_low k : (k < n)%N -> index (nth 0%N low k) low = k.
Proof. by move=> kn; rewrite index_uniq ?size_low ?uniq_low. Qed.

(* noisy samples among the first k *)
Lemma tp_sum k : (k <= n)%N ->
  tp k = (\sum_(i < n) (nth false gt i && (index (val i) low < k)))%N.
Proof.
rewrite (by_pos (fun i => nat_of_bool (nth false gt i && (index i low < k)%N))).
elim: k => [|k IH] kn.
  by rewrite tp0 big1 // => i _; rewrite andbF.
rewrite tpS // IH 1?ltnW //.
rewrite [RHS](eq_bigr (fun i : 'I_n =>
   (nth false gt (nth 0%N low i) && (index (nth 0%N low i) low < k)%N)
   + (i == Ordinal kn) * nth false gt (nth 0%N low k))%N) => [|i _]; last first.
  rewrite index_low // ltnS leq_eqVlt -(inj_eq val_inj) /=.
  by case: eqP => [->|_] /=; rewrite ?ltnn ?andbF ?andbT ?mul0n ?addn0 ?mul1n.
rewrite big_split /=; congr addn.
by rewrite (bigD1 (Ordinal kn)) //= eqxx mul1n big1 ?addn0 // => i /negbTE->.
Qed.

Definition pairs : nat := noisy_clean gt (fun i j => (index i low < index j low)%N).

Lemma pairsE : (\sum_(k < n) (~~ nth false gt (nth 0%N low k)) * tp k = pairs)%N.
Proof.
rewrite /pairs /noisy_clean exchange_big /= -/n.
rewrite (by_pos (fun j => \sum_(i < n)
   (nth false gt i && ~~ nth false gt j && (index (val i) low < index j low)))%N).
apply: eq_bigr => k _; rewrite tp_sum 1?ltnW // big_distrr /=; apply: eq_bigr => i _.
by rewrite index_low // mulnb andbA [~~ _ && _]andbC.
Qed.

(* the ROC points *)
Definition tpr k : R := (tp k)%:R / (noisy gt)%:R.
Definition fpr k : R := (k%:R - (tp k)%:R) / (clean gt)%:R.

Lemma trapz_map (y x : nat -> R) m :
  trapz [seq y k | k <- iota 0 m.+1] [seq x k | k <- iota 0 m.+1]
  = \sum_(k < m) (x k.+1 - x k) * (y k + y k.+1) / 2%:R.
Proof.
rewrite /trapz size_map size_iota [m.+1.-1]/= -(big_mkord xpredT (fun k => (x k.+1 - x k) * (y k + y k.+1) / 2%:R)).
rewrite /index_iota subn0 big_seq [RHS]big_seq; apply: eq_bigr => k; rewrite mem_iota add0n => km.
have nx (f : nat -> R) j : (j < m.+1)%N -> nth 0 [seq f k | k <- iota 0 m.+1] j = f j.
  by move=> jm; rewrite (nth_map 0%N) ?size_iota // nth_iota.
by rewrite !nx // ltnS 1?ltnW.
Qed.

Lemma two0 : (2%:R : R) != 0. Proof. by rewrite pnatr_eq0. Qed.

Lemma area : \sum_(k < n) (fpr k.+1 - fpr k) * (tpr k + tpr k.+1) / 2%:R
  = pairs%:R / ((noisy gt)%:R * (clean gt)%:R).
Proof.
rewrite -pairsE natr_sum mulr_suml; apply: eq_bigr => k _.
rewrite /fpr /tpr tpS // -mulrBl.
have nS j : j.+1%:R = j%:R + 1 :> R by rewrite -addn1 natrD.
case: (nth false gt _) => /=.
  by rewrite addn1 !nS opprD addrACA subrr addr0 subrr !mul0r.
rewrite addn0 mul1n nS.
have -> (a b : R) : a + 1 - b - (a - b) = 1 by fnorm; ring.
have -> (a : R) : a + a = a * 2%:R by rewrite mulr_natr mulr2n.
by rewrite mulrA mulfK ?two0 // mul1r invfM mulrC mulrA.
Qed.
End Perm.

Lemma index_rev (s : seq nat) i : uniq s -> i \in s -> index i (rev s) = ((size s).-1 - index i s)%N.
Proof.
move=> us is'; have ii : (index i s < size s)%N by rewrite index_mem.
have e : nth 0%N (rev s) ((size s).-1 - index i s) = i.
  rewrite nth_rev; last by lia.
  by rewrite (_ : (size s - _)%N = index i s) ?nth_index //; lia.
have lt : ((size s).-1 - index i s < size s)%N by move: ii; move: (index i s) (size s) => a b; lia.
by rewrite -[X in index X (rev s)]e index_uniq ?size_rev ?rev_uniq.
Qed.

Lemma index_rev_lt (s : seq nat) i j : uniq s -> i \in s -> j \in s ->
  (index i (rev s) < index j (rev s))%N = (index j s < index i s)%N.
Proof.
move=> us is' js; rewrite !index_rev //.
have := index_mem i s; have := index_mem j s; rewrite is' js.
by move: (index i s) (index j s) (size s) => a b c; lia.
Qed.

Lemma eq_noisy_clean gt (P Q : rel nat) :
  (forall i j, (i < size gt)%N -> (j < size gt)%N -> nth false gt i -> ~~ nth false gt j -> P i j = Q i j) ->
  noisy_clean gt P = noisy_clean gt Q.
Proof.
move=> h; apply: eq_bigr => i _; apply: eq_bigr => j _; congr nat_of_bool.
by case gi: (nth false gt i) => //=; case gj: (nth false gt j) => //=; apply: h; rewrite ?gj.
Qed.

Lemma le_noisy_clean gt (P Q : rel nat) :
  (forall i j, (i < size gt)%N -> (j < size gt)%N -> nth false gt i -> ~~ nth false gt j -> P i j -> Q i j) ->
  (noisy_clean gt P <= noisy_clean gt Q)%N.
Proof.
move=> h; apply: leq_sum => i _; apply: leq_sum => j _.
case gi: (nth false gt i) => //=; case gj: (nth false gt j) => //=.
by case p: (P i j) => //; rewrite (h i j) ?gj.
Qed.

Lemma noisy_clean_all gt : noisy_clean gt (fun _ _ => true) = (noisy gt * clean gt)%N.
Proof.
have nE : noisy gt = (\sum_(i < size gt) nth false gt i)%N.
  rewrite /noisy -sum1_count (big_nth false) big_mkord [LHS]big_mkcond.
  by apply: eq_bigr => i _; case: (nth _ _ _).
have cE : clean gt = (\sum_(i < size gt) ~~ nth false gt i)%N.
  rewrite /clean -sum1_count (big_nth false) big_mkord [LHS]big_mkcond.
  by apply: eq_bigr => i _; case: (nth _ _ _).
rewrite nE cE big_distrl /=; apply: eq_bigr => i _; rewrite big_distrr /=.
by apply: eq_bigr => j _; rewrite andbT mulnb.
Qed.

(* equality of the count with the number of all pairs *)
Lemma noisy_clean_full gt (P : rel nat) :
  noisy_clean gt P = (noisy gt * clean gt)%N <->
  (forall i j, (i < size gt)%N -> (j < size gt)%N -> nth false gt i -> ~~ nth false gt j -> P i j).
Proof.
rewrite -noisy_clean_all; split=> [e i j ig jg ni cj|h]; last first.
  by apply: eq_noisy_clean => i j *; rewrite h.
apply: contraT => np.
have lt : (noisy_clean gt P < noisy_clean gt (fun _ _ => true))%N.
  rewrite /noisy_clean (bigD1 (Ordinal ig)) // [X in (_ < X)%N](bigD1 (Ordinal ig)) //=.
  rewrite -addSn leq_add //.
    rewrite (bigD1 (Ordinal jg)) // [X in (_ < X)%N](bigD1 (Ordinal jg)) //=.
    rewrite ni cj (negbTE np) add0n add1n ltnS; apply: leq_sum => k _.
    by rewrite andbT; case: (~~ _) => //=; case: (P _ _).
  apply: leq_sum => k _; apply: leq_sum => l _; rewrite andbT.
  by case: (P _ _); rewrite ?andbT ?andbF.
by move: lt; rewrite e ltnn.
Qed.

Lemma aucE (asc : seq nat) (score : seq R) (gt : seq bool) :
  perm_eq asc (iota 0 (size score)) -> size gt = size score -> (0 < noisy gt)%N -> (0 < clean gt)%N ->
  mislabel_detection_auc asc score gt =
    Ok ((noisy_clean gt (inspected_before asc))%:R / ((noisy gt)%:R * (clean gt)%:R),
        ([seq fpr gt (rev asc) k | k <- iota 0 (size gt).+1],
         [seq tpr gt (rev asc) k | k <- iota 0 (size gt).+1],
         None :: [seq Some k | k <- iota 1 (size gt)])).
Proof.
move=> pa sg n0 c0; rewrite /mislabel_detection_auc size_noise.
have pl : perm_eq (rev asc) (iota 0 (size gt)) by rewrite perm_rev sg.
have cE : (size score)%:R - (noisy gt)%:R = (clean gt)%:R :> R.
  by rewrite -sg -(noisy_cleanN gt) natrD addrC addKr.
have nz : (noisy gt)%:R != 0 :> R by rewrite pnatr_eq0 -lt0n.
have cz : (clean gt)%:R != 0 :> R by rewrite pnatr_eq0 -lt0n.
rewrite cE (negbTE nz) (negbTE cz) andbF.
rewrite (size_low pl).
have tE : (0 : R) :: [seq (true_pos (rev asc) (noise_index gt) i)%:R / (noisy gt)%:R | i <- iota 1 (size gt)]
   = [seq tpr gt (rev asc) k | k <- iota 0 (size gt).+1].
  rewrite /= {1}/tpr tp0 mul0r; congr cons; apply: eq_map => k; rewrite /tpr true_posE //.
have fE : (0 : R) :: [seq (i%:R - (true_pos (rev asc) (noise_index gt) i)%:R) / (clean gt)%:R | i <- iota 1 (size gt)]
   = [seq fpr gt (rev asc) k | k <- iota 0 (size gt).+1].
  rewrite /= {1}/fpr tp0 subrr mul0r; congr cons; apply: eq_map => k; rewrite /fpr true_posE //.
rewrite tE fE trapz_map area //; congr Ok; congr pair; congr (_%:R / _).
apply: eq_noisy_clean => i j ig jg _ _; rewrite /inspected_before.
have ua : uniq asc by rewrite (perm_uniq pa) iota_uniq.
by apply: index_rev_lt => //; rewrite (perm_mem pa) mem_iota add0n -sg.
Qed.
End Auc.
