(* C01, C02: KNN-Shapley. *)
Set Warnings "-notation-overridden,-ambiguous-paths".
From mathcomp Require Import all_ssreflect all_algebra zify.
From Verif Require Import Py Tensor TensorProof AttrModel AttrProof KnnModel KnnSpec KnnProof.
Set Implicit Arguments. Unset Strict Implicit. Unset Printing Implicit Defensive.
Import Order.TTheory GRing.Theory Num.Theory.
Local Open Scope ring_scope.

Section C01.
Variables (F : realFieldType) (X Lab : Type) (lab_eq : Lab -> Lab -> bool).
Variables (dist : X -> X -> F) (lab : X -> Lab) (argsort : seq F -> seq nat) (K : nat).
Variables (tr te : loader X) (trl tel : option (seq Lab)).

(* the hypotheses of every C01/C02 statement: torch's argsort, well formed
   loaders without drop_last, a non-empty training set and label lists of the
   right length whenever they are given *)
Record knn_ok : Prop := KnnOk {
  ko_sort : is_argsort argsort;
  ko_bs1 : (0 < ld_bs tr)%N;
  ko_bs2 : (0 < ld_bs te)%N;
  ko_d1 : ld_drop tr = false;
  ko_d2 : ld_drop te = false;
  ko_ne : ld_data tr <> [::];
  ko_l1 : if trl is Some l then size l = size (ld_data tr) else True;
  ko_l2 : if tel is Some l then size l = size (ld_data te) else True }.

Let n := size (ld_data tr).
Let trlab := odflt [seq lab x | x <- ld_data tr] trl.
Let telab := odflt [seq lab y | y <- ld_data te] tel.

Lemma knn_entries : knn_ok -> (0 < K)%N ->
  exists M, knn_attribute lab_eq dist lab argsort K tr te trl tel = Ok M /\
  [/\ size M = size (ld_data te), (forall j, (j < size (ld_data te))%N -> size (nth [::] M j) = n) &
  forall (x0 : X) (l0 : Lab) j, (j < size (ld_data te))%N -> forall i : 'I_n,
    let s := argsort [seq dist (nth x0 (ld_data te) j) x | x <- ld_data tr] in
    let m k := lab_eq (nth l0 trlab k) (nth l0 telab j) in
    nth 0 (nth [::] M j) i
    = shapley (knn_utility F K (fun i : 'I_n => index (val i) s) (fun i : 'I_n => m i)) i + shift F K n s m].
Proof.
move=> [so b1 b2 d1 d2 ne l1 l2] K0.
rewrite (knn_attribute_ok _ _ _ (fun d => (so d).1)) //.
have st1 : size trlab = n by rewrite /trlab; case: trl l1 => [l|] //= _; rewrite size_map.
have st2 : size telab = size (ld_data te).
  by rewrite /telab; case: tel l2 => [l|] //= _; rewrite size_map.
have sz : size (zip (ld_data te) telab) = size (ld_data te) by rewrite size_zip st2 minnn.
eexists; split; first by []; split.
- by rewrite size_map sz.
- move=> j hj; have l0 : Lab by case: telab st2 => [|l]; [case: (ld_data te) hj|].
  have x0 : X by case: (ld_data te) hj.
  by rewrite (nth_map (x0, l0)) ?sz // size_map size_enum_ord.
move=> x0 l0 j hj i; cbv zeta.
rewrite (nth_map (x0, l0)) ?sz // nth_zip ?st2 //=.
rewrite (nth_map i) ?size_enum_ord // nth_ord_enum.
have em k : (k < n)%N -> lab_eq (nth (nth l0 telab j) trlab k) (nth l0 telab j)
   = lab_eq (nth l0 trlab k) (nth l0 telab j).
  by move=> hk; rewrite (set_nth_default l0) // st1.
congr (_ + _); first by apply: eq_shapley => S; apply: eq_knn_utility => k; rewrite em.
have hp := (so [seq dist (nth x0 (ld_data te) j) x | x <- ld_data tr]).1.
rewrite size_map -/n in hp.
have hn : (0 < n)%N by rewrite /n; case: (ld_data tr) ne.
by rewrite /shift em // (last_srt hp) // (srt_nth hp) // prednK.
Qed.
End C01.

Lemma argsort_rank (F : realFieldType) (argsort : seq F -> seq nat) n (d : seq F) :
  is_argsort argsort -> size d = n ->
  injective (fun i : 'I_n => index (val i) (argsort d)) /\
  forall i j : 'I_n, nth 0 d i < nth 0 d j -> (index (val i) (argsort d) < index (val j) (argsort d))%N.
Proof.
move=> so sd; have [hp hs] := so d; rewrite sd in hp; split; first exact: (rk_inj hp).
have mi (i : 'I_n) : val i \in argsort d by rewrite (srt_mem hp); apply: ltn_ord.
have sm : size [seq nth 0 d i | i <- argsort d] = n by rewrite size_map (srt_size hp).
move=> i j; apply: contraTltn => le; rewrite -leNgt.
have := sorted_leq_nth le_trans le_refl 0 hs _ _ _ _ le.
rewrite !inE size_map !index_mem => /(_ (mi _) (mi _)).
by rewrite !(nth_map 0%N) ?index_mem ?mi // !nth_index ?mi.
Qed.

(* C01: for 1 <= K <= number of training samples, entry (j, i) of the returned
   (num_test, num_train) matrix is exactly the Shapley value of training sample
   i in the game "value of a coalition = fraction 1/K per matching label among
   its K members nearest to test sample j", where "nearest" is by the distance
   function and ties are broken by some fixed order *)
Theorem C01_knn_shapley_exact
    (F : realFieldType) (X Lab : Type) (lab_eq : Lab -> Lab -> bool)
    (dist : X -> X -> F) (lab : X -> Lab) (argsort : seq F -> seq nat) (K : nat)
    (tr te : loader X) (trl tel : option (seq Lab)) :
  knn_ok argsort tr te trl tel -> (0 < K <= size (ld_data tr))%N ->
  exists M, knn_attribute lab_eq dist lab argsort K tr te trl tel = Ok M /\
  size M = size (ld_data te) /\
  forall (x0 : X) (l0 : Lab) j, (j < size (ld_data te))%N ->
    size (nth [::] M j) = size (ld_data tr) /\
    exists rank : 'I_(size (ld_data tr)) -> nat,
      [/\ injective rank,
          forall i k : 'I_(size (ld_data tr)), dist (nth x0 (ld_data te) j) (nth x0 (ld_data tr) i)
                      < dist (nth x0 (ld_data te) j) (nth x0 (ld_data tr) k) -> (rank i < rank k)%N
        & forall i : 'I_(size (ld_data tr)), nth 0 (nth [::] M j) i
            = shapley (knn_utility F K rank (fun i : 'I_(size (ld_data tr)) =>
                lab_eq (nth l0 (odflt [seq lab x | x <- ld_data tr] trl) i)
                       (nth l0 (odflt [seq lab y | y <- ld_data te] tel) j))) i].
Proof.
move=> ok hK; have K0 : (0 < K)%N by case/andP: hK.
have [M [e [s1 s2 s3]]] := knn_entries lab_eq dist lab ok K0.
exists M; split=> //; split=> // x0 l0 j hj; split; first exact: s2.
set d := [seq dist (nth x0 (ld_data te) j) x | x <- ld_data tr].
have sd : size d = size (ld_data tr) by rewrite size_map.
have [inj mono] := argsort_rank (ko_sort ok) sd.
exists (fun i => index (val i) (argsort d)); split=> //.
  by move=> i k h; apply: mono; rewrite !(nth_map x0).
by move=> i; rewrite (s3 x0 l0) // shift0 // addr0.
Qed.
Print Assumptions C01_knn_shapley_exact.

(* without ties the game mentions nothing but the distances *)
Theorem C01_knn_shapley_distinct
    (F : realFieldType) (X Lab : Type) (lab_eq : Lab -> Lab -> bool)
    (dist : X -> X -> F) (lab : X -> Lab) (argsort : seq F -> seq nat) (K : nat)
    (tr te : loader X) (trl tel : option (seq Lab)) :
  knn_ok argsort tr te trl tel -> (0 < K <= size (ld_data tr))%N ->
  exists M, knn_attribute lab_eq dist lab argsort K tr te trl tel = Ok M /\
  forall (x0 : X) (l0 : Lab) j, (j < size (ld_data te))%N ->
    let d i := dist (nth x0 (ld_data te) j) (nth x0 (ld_data tr) i) in
    (forall i k : 'I_(size (ld_data tr)), d i = d k -> i = k) ->
    forall i : 'I_(size (ld_data tr)), nth 0 (nth [::] M j) i
      = shapley (nn_utility K (fun i : 'I_(size (ld_data tr)) => d i)
          (fun i : 'I_(size (ld_data tr)) =>
                lab_eq (nth l0 (odflt [seq lab x | x <- ld_data tr] trl) i)
                       (nth l0 (odflt [seq lab y | y <- ld_data te] tel) j))) i.
Proof.
move=> ok hK; have [M [e [_ H]]] := C01_knn_shapley_exact lab_eq dist lab ok hK.
exists M; split=> // x0 l0 j hj d inj i.
have [_ [rank [rinj mono ->]]] := H x0 l0 j hj.
apply: eq_shapley => S; congr (_ / _); apply: eq_bigl => k; congr (_ && (_ < _)%N).
apply: eq_card => l; rewrite !inE; congr (_ && _).
apply/idP/idP; last exact: mono.
apply: contraTT; rewrite -leNgt -leqNgt le_eqVlt => /orP [/eqP/inj -> //|/mono /ltnW //].
Qed.
Print Assumptions C01_knn_shapley_distinct.

(* efficiency axiom of the specification's Shapley value: the values add up to
   the value of the grand coalition; hence every row of the result sums to the
   leave-nothing-out K-NN utility *)
Lemma shapley_efficiency (F : realFieldType) (T : finType) (v : {set T} -> F) :
  (0 < #|T|)%N -> \sum_i shapley v i = v setT - v set0.
Proof.
move=> T0; pose N := #|T|.
pose w s : F := (s`! * (N - s - 1)`!)%:R / (N`!)%:R.
have fN : (N`!)%:R != 0 :> F by exact: fact_neq0.
have wn s k : w s *+ k = (s`! * (N - s - 1)`! * k)%:R / (N`!)%:R.
  by rewrite /w -mulrnAl -mulr_natr -natrM.
have -> : \sum_i shapley v i = \sum_(S : {set T}) \sum_(i in S) w #|S|.-1 * v S
      - \sum_(S : {set T}) \sum_(i in ~: S) w #|S| * v S.
  have -> : \sum_i shapley v i = \sum_i \sum_(S : {set T} | i \notin S) w #|S| * v (i |: S)
      - \sum_i \sum_(S : {set T} | i \notin S) w #|S| * v S.
    rewrite -sumrB; apply: eq_bigr => i _; rewrite -sumrB; apply: eq_bigr => S _.
    by rewrite mulrBr.
  congr (_ - _).
    rewrite [RHS](exchange_big_dep xpredT) //=; apply: eq_bigr => i _.
    rewrite [RHS](reindex_onto (fun S => i |: S) (fun S => S :\ i)) /=; last first.
      by move=> S iS; rewrite setD1K.
    apply: eq_big => S.
      rewrite setU11 /=; apply/idP/eqP => [h|<-]; first by rewrite setU1K.
      by rewrite !inE eqxx.
    by move=> h; rewrite cardsU1 h.
  rewrite [RHS](exchange_big_dep xpredT) //=; apply: eq_bigr => i _.
  by apply: eq_bigl => S; rewrite inE.
rewrite -sumrB.
have term (S : {set T}) : \sum_(i in S) w #|S|.-1 * v S - \sum_(i in ~: S) w #|S| * v S
   = (if S == setT then v setT else 0) - (if S == set0 then v set0 else 0).
  rewrite !sumr_const -mulrnAl -[X in _ - X]mulrnAl -mulrBl.
  have cS : (#|S| + #|~: S| = N)%N by rewrite cardsC.
  case: (S =P setT) => [->|/eqP nT].
    rewrite setCT cards0 mulr0n subr0 cardsT -/N.
    have -> /= : (setT == set0 :> {set T}) = false.
      by rewrite -cards_eq0 cardsT; case: #|T| T0.
    rewrite subr0 wn.
    have -> : ((N.-1)`! * (N - N.-1 - 1)`! * N = N`!)%N.
      have -> : (N - N.-1 - 1 = 0)%N by lia.
      by rewrite fact0 muln1 mulnC -{1 3}(prednK (T0 : (0 < N)%N)) factS prednK.
    by rewrite divff // mul1r.
  case: (S =P set0) => [->|/eqP n0].
    rewrite setC0 cards0 mulr0n sub0r cardsT -/N sub0r mulNr wn.
    have -> : (0`! * (N - 0 - 1)`! * N = N`!)%N.
      by rewrite fact0 mul1n subn0 subn1 mulnC -{1 3}(prednK (T0 : (0 < N)%N)) factS.
    by rewrite divff // mul1r.
  rewrite subr0; have s0 : (0 < #|S|)%N by rewrite card_gt0.
  have s1 : (0 < #|~: S|)%N by rewrite card_gt0; apply: contraNneq nT => /(congr1 (@setC T)); rewrite setCK setC0 => ->.
  rewrite !wn.
  have -> : ((#|S|.-1)`! * (N - #|S|.-1 - 1)`! * #|S| = #|S|`! * (N - #|S| - 1)`! * #|~: S|)%N.
    have -> : (N - #|S|.-1 - 1 = #|~: S|)%N by lia.
    have -> : (N - #|S| - 1 = #|~: S|.-1)%N by lia.
    rewrite mulnAC -[RHS]mulnA; congr (_ * _)%N.
      by rewrite mulnC -{1 3}(prednK s0) factS prednK.
    by rewrite mulnC -{1 2}(prednK s1) factS prednK.
  by rewrite subrr mul0r.
rewrite (eq_bigr _ (fun S _ => term S)) sumrB.
by rewrite -big_mkcond big_pred1_eq -big_mkcond big_pred1_eq.
Qed.

Theorem C01_knn_shapley_efficiency
    (F : realFieldType) (X Lab : Type) (lab_eq : Lab -> Lab -> bool)
    (dist : X -> X -> F) (lab : X -> Lab) (argsort : seq F -> seq nat) (K : nat)
    (tr te : loader X) (trl tel : option (seq Lab)) :
  knn_ok argsort tr te trl tel -> (0 < K <= size (ld_data tr))%N ->
  exists M, knn_attribute lab_eq dist lab argsort K tr te trl tel = Ok M /\
  forall (x0 : X) (l0 : Lab) j, (j < size (ld_data te))%N ->
    let s := argsort [seq dist (nth x0 (ld_data te) j) x | x <- ld_data tr] in
    \sum_(x <- nth [::] M j) x
    = (count (fun i => lab_eq (nth l0 (odflt [seq lab x | x <- ld_data tr] trl) i)
                       (nth l0 (odflt [seq lab y | y <- ld_data te] tel) j))
             (take K s))%:R / K%:R.
Proof.
move=> ok hK; have K0 : (0 < K)%N by case/andP: hK.
have [M [e [s1 s2 s3]]] := knn_entries lab_eq dist lab ok K0.
exists M; split=> // x0 l0 j hj; cbv zeta; set s := argsort _.
rewrite (big_nth 0) s2 // big_mkord.
under eq_bigr => i _ do rewrite (s3 x0 l0) // shift0 // addr0.
have n0 : (0 < size (ld_data tr))%N by case: (ld_data tr) (ko_ne ok).
rewrite shapley_efficiency ?card_ord //.
rewrite [X in _ - X]/knn_utility big1 ?mul0r ?subr0; last by move=> i; rewrite inE.
rewrite /knn_utility; congr (_ / _).
have [hp _] := ko_sort ok [seq dist (nth x0 (ld_data te) j) x | x <- ld_data tr].
rewrite -/s size_map in hp.
set m := fun i => lab_eq _ _.
transitivity (\sum_(i < size (ld_data tr)) ((index (val i) s < K)%N && m i)%:R : F).
  rewrite [LHS]big_mkcond; apply: eq_bigr => i _; rewrite inE /=.
  set A := [set _ in _ | _]; have -> : #|A| = index (val i) s.
    by rewrite -[RHS](rk_card hp K0); apply: eq_card => k; rewrite !inE.
  by case: ifP.
rewrite -(big_mkord xpredT (fun i => ((index i s < K)%N && m i)%:R)) /index_iota subn0.
rewrite -(perm_big _ hp) /= -natr_sum; congr (_%:R).
rewrite -[LHS]/(\sum_(i <- s) nat_of_bool ((index i s < K)%N && m i))%N.
rewrite -{1}(cat_take_drop K s) big_cat /=.
have us := srt_uniq hp; have ss := srt_size hp.
have -> : (\sum_(i <- drop K s) nat_of_bool ((index i s < K) && m i) = 0)%N.
  rewrite big_seq big1 // => i hi; case: ltnP => // h.
  by move: us; rewrite -{1}(cat_take_drop K s) cat_uniq => /and3P [_ /hasPn /(_ i hi) /= /negP []];
     rewrite in_take ?mem_index ?(mem_drop hi).
rewrite addn0 -sum1_count [RHS]big_mkcond big_seq [RHS]big_seq; apply: eq_bigr => i hi.
have -> : (index i s < K)%N by rewrite -in_take ?(mem_take hi).
by case: (m i).
Qed.
Print Assumptions C01_knn_shapley_efficiency.

(* the exact result for every K >= 1: when K exceeds the number n of training
   samples each entry of row j is too large by the same amount,
   (1/n - 1/K) if the farthest sample matches and 0 otherwise *)
Theorem C01_knn_large_k
    (F : realFieldType) (X Lab : Type) (lab_eq : Lab -> Lab -> bool)
    (dist : X -> X -> F) (lab : X -> Lab) (argsort : seq F -> seq nat) (K : nat)
    (tr te : loader X) (trl tel : option (seq Lab)) :
  knn_ok argsort tr te trl tel -> (size (ld_data tr) <= K)%N ->
  exists M, knn_attribute lab_eq dist lab argsort K tr te trl tel = Ok M /\
  forall (x0 : X) (l0 : Lab) j, (j < size (ld_data te))%N -> forall i : 'I_(size (ld_data tr)),
    let s := argsort [seq dist (nth x0 (ld_data te) j) x | x <- ld_data tr] in
    let m k := lab_eq (nth l0 (odflt [seq lab x | x <- ld_data tr] trl) k)
                      (nth l0 (odflt [seq lab y | y <- ld_data te] tel) j) in
    nth 0 (nth [::] M j) i
    = shapley (knn_utility F K (fun i : 'I_(size (ld_data tr)) => index (val i) s)
                 (fun i : 'I_(size (ld_data tr)) => m i)) i
      + (m (last 0%N s))%:R * ((size (ld_data tr))%:R^-1 - K%:R^-1).
Proof.
move=> ok hK; have n0 : (0 < size (ld_data tr))%N by case: (ld_data tr) (ko_ne ok).
have K0 : (0 < K)%N by apply: leq_trans hK.
have [M [e [s1 s2 s3]]] := knn_entries lab_eq dist lab ok K0.
exists M; split=> // x0 l0 j hj i s m.
rewrite (s3 x0 l0) //; congr (_ + _); rewrite /shift.
have -> : minn K (size (ld_data tr)) = size (ld_data tr) by lia.
by rewrite mulfK ?pnatr_eq0 -?lt0n // mulrBr.
Qed.
Print Assumptions C01_knn_large_k.

(* an executable argsort, to exhibit instances *)
Definition argsort_ins (F : realFieldType) (d : seq F) : seq nat :=
  sort (fun i j => nth 0 d i <= nth 0 d j) (iota 0 (size d)).

Lemma argsort_ins_ok (F : realFieldType) : is_argsort (@argsort_ins F).
Proof.
move=> d; split; first by rewrite perm_sort.
rewrite sorted_map; apply: sort_sorted => i j; exact: le_total.
Qed.

(* one training sample, K = 2, matching labels: the code returns 1, the Shapley
   value of the documented utility is 1/2 *)
Theorem C01_knn_large_k_refuted :
  exists (tr te : loader nat) (argsort : seq rat -> seq nat),
    knn_ok argsort tr te (None : option (seq nat)) None /\
    knn_attribute eqn (fun _ _ => 0) id argsort 2 tr te None None = Ok [:: [:: 1]] /\
    shapley (knn_utility rat_realFieldType 2 (fun i : 'I_1 => val i) (fun=> true)) ord0 = 1 / 2%:R.
Proof.
exists (Loader [:: 7%N] 1 false), (Loader [:: 7%N] 1 false), (@argsort_ins _).
have ok : knn_ok (@argsort_ins rat_realFieldType) (Loader [:: 7%N] 1 false)
   (Loader [:: 7%N] 1 false) (None : option (seq nat)) None.
  by split=> //; exact: argsort_ins_ok.
split=> //; split; first by vm_compute.
pose v := knn_utility rat_realFieldType 2 (fun i : 'I_1 => val i) (fun=> true).
have := @shapley_efficiency _ _ v; rewrite card_ord big_ord1 => -> //.
rewrite /v /knn_utility [X in _ - X / _]big1 ?mul0r ?subr0; last by move=> i; rewrite inE.
rewrite (big_pred1 ord0) // => i; rewrite (ord1 i) !inE eqxx.
by rewrite (leq_ltn_trans (max_card _)) ?card_ord.
Qed.
Print Assumptions C01_knn_large_k_refuted.

(* k_neighbors = 0 is rejected only by the division *)
Theorem C01_knn_zero_k
    (F : realFieldType) (X Lab : Type) (lab_eq : Lab -> Lab -> bool)
    (dist : X -> X -> F) (lab : X -> Lab) (argsort : seq F -> seq nat)
    (tr te : loader X) (trl tel : option (seq Lab)) :
  knn_ok argsort tr te trl tel -> (1 < size (ld_data tr))%N -> ld_data te <> [::] ->
  knn_attribute lab_eq dist lab argsort 0 tr te trl tel = Err ZeroDivisionError.
Proof.
move=> ok n1 tne.
rewrite (knn_attribute_gen lab_eq dist lab 0 (fun d => (ko_sort ok d).1)
   (ko_bs1 ok) (ko_bs2 ok) (ko_d1 ok) (ko_d2 ok) (ko_ne ok) (ko_l1 ok) (ko_l2 ok)).
have : size (lte lab te tel) = size (ld_data te).
  by case: ok => _ _ _ _ _ _ _; rewrite /lte; case: tel => [l|] /= hl; rewrite ?size_map.
case: (ld_data te) tne => // y ys _; case: (lte lab te tel) => //= l ls _.
by rewrite /knn_row eqxx n1; case: eqP => [e|//]; rewrite e in n1.
Qed.
Print Assumptions C01_knn_zero_k.

Example C01_C02_nonvacuous :
  knn_ok (@argsort_ins rat_realFieldType) (Loader [:: 1%N; 2%N; 3%N] 2 false)
    (Loader [:: 5%N; 6%N] 1 false) (None : option (seq nat)) (Some [:: 1%N; 3%N]) /\
  knn_attribute eqn (fun y x => (y - x)%:R : rat) id (@argsort_ins _) 2
    (Loader [:: 1%N; 2%N; 3%N] 2 false) (Loader [:: 5%N; 6%N] 1 false) None (Some [:: 1%N; 3%N])
  = Ok [:: [:: 3%:R^-1; - 6%:R^-1; - 6%:R^-1]; [:: 0; 0; 2%:R^-1]].
Proof.
split; first by split=> //; exact: argsort_ins_ok.
by vm_compute.
Qed.

(* ---- C02 ---- *)
(* the result does not depend on the batch sizes of either loader *)
Theorem C02_knn_batching
    (F : realFieldType) (X Lab : Type) (lab_eq : Lab -> Lab -> bool)
    (dist : X -> X -> F) (lab : X -> Lab) (argsort : seq F -> seq nat) (K : nat)
    (tr te tr' te' : loader X) (trl tel : option (seq Lab)) :
  knn_ok argsort tr te trl tel -> knn_ok argsort tr' te' trl tel ->
  ld_data tr = ld_data tr' -> ld_data te = ld_data te' ->
  knn_attribute lab_eq dist lab argsort K tr te trl tel
  = knn_attribute lab_eq dist lab argsort K tr' te' trl tel.
Proof.
move=> [so b1 b2 d1 d2 ne l1 l2] [_ b1' b2' d1' d2' ne' l1' l2'] e1 e2.
rewrite !(knn_attribute_gen _ _ _ _ (fun d => (so d).1)) //.
by rewrite /lte /ltr /drow e1 e2.
Qed.
Print Assumptions C02_knn_batching.

(* labels taken from the batches = the same labels passed explicitly *)
Theorem C02_knn_default_labels
    (F : realFieldType) (X Lab : Type) (lab_eq : Lab -> Lab -> bool)
    (dist : X -> X -> F) (lab : X -> Lab) (argsort : seq F -> seq nat) (K : nat)
    (tr te : loader X) :
  knn_ok argsort tr te (None : option (seq Lab)) None ->
  knn_attribute lab_eq dist lab argsort K tr te None None
  = knn_attribute lab_eq dist lab argsort K tr te
      (Some [seq lab x | x <- ld_data tr]) (Some [seq lab y | y <- ld_data te]).
Proof.
move=> [so b1 b2 d1 d2 ne l1 l2].
by rewrite !(knn_attribute_gen _ _ _ _ (fun d => (so d).1)) // ?size_map.
Qed.
Print Assumptions C02_knn_default_labels.

(* a row depends only on its own test sample: attributing a concatenation is
   concatenating the attributions *)
Theorem C02_knn_row_locality
    (F : realFieldType) (X Lab : Type) (lab_eq : Lab -> Lab -> bool)
    (dist : X -> X -> F) (lab : X -> Lab) (argsort : seq F -> seq nat) (K b b1 b2 : nat)
    (tr : loader X) (trl : option (seq Lab)) (ys1 ys2 : seq X) M1 M2 :
  (0 < b)%N -> (0 < b1)%N -> (0 < b2)%N ->
  knn_ok argsort tr (Loader ys1 b1 false) trl (None : option (seq Lab)) ->
  knn_attribute lab_eq dist lab argsort K tr (Loader ys1 b1 false) trl None = Ok M1 ->
  knn_attribute lab_eq dist lab argsort K tr (Loader ys2 b2 false) trl None = Ok M2 ->
  knn_attribute lab_eq dist lab argsort K tr (Loader (ys1 ++ ys2) b false) trl None = Ok (M1 ++ M2).
Proof.
move=> h h1 h2 [so hb1 _ d1 _ ne l1 _].
rewrite !(knn_attribute_gen _ _ _ _ (fun d => (so d).1)) //.
rewrite /lte /= map_cat zip_cat ?size_map // => e1 e2.
exact: rmapM_cat e1 e2.
Qed.
Print Assumptions C02_knn_row_locality.

(* label lists of the wrong length are refused, whatever else is passed *)
Theorem C02_knn_label_length
    (F : realFieldType) (X Lab : Type) (lab_eq : Lab -> Lab -> bool)
    (dist : X -> X -> F) (lab : X -> Lab) (argsort : seq F -> seq nat) (K : nat)
    (tr te : loader X) (trl tel : option (seq Lab)) :
  (exists2 l, trl = Some l & size l <> size (ld_data tr)) \/
  (exists2 l, tel = Some l & size l <> size (ld_data te)) ->
  knn_attribute lab_eq dist lab argsort K tr te trl tel = Err ValueError.
Proof.
move=> [] [l -> /eqP h]; rewrite /knn_attribute /=; first by rewrite h.
by case: ifP => // _; rewrite h.
Qed.
Print Assumptions C02_knn_label_length.

(* drop_last training loaders: no error, but the result is wrong.  The dropped
   sample keeps distance 0, and the label list, extended again by every test
   batch, gives it the label of another sample *)
Theorem C02_knn_drop_last_refuted :
  exists (xs ys : seq nat) (M M' : seq (seq rat)),
    let run drop := knn_attribute eqn (fun y x => (y - x).+1%:R : rat) id (@argsort_ins _) 1
       (Loader xs 2 drop) (Loader ys 1 false) None None in
    run true = Ok M /\ run false = Ok M' /\
    nth 0 (nth [::] M 1) 2 = 2%:R^-1 /\ nth 0 (nth [::] M' 1) 2 = 0.
Proof.
exists [:: 5%N; 1%N; 2%N], [:: 6%N; 5%N].
by do 2 eexists; split; [vm_compute; reflexivity|split; [vm_compute; reflexivity|by vm_compute]].
Qed.
Print Assumptions C02_knn_drop_last_refuted.
