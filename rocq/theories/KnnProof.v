Set Warnings "-notation-overridden,-ambiguous-paths".
From mathcomp Require Import all_ssreflect all_algebra zify.
From Verif Require Import Py Tensor TensorProof AttrModel AttrProof KnnModel KnnSpec FieldSupport.
Set Implicit Arguments. Unset Strict Implicit. Unset Printing Implicit Defensive.
Import Order.TTheory GRing.Theory Num.Theory.
Local Open Scope ring_scope.

Section Beta.
Variable F : realFieldType.
(* Beta weight a! b! / (a+b+1)! *)
Definition B (a b : nat) : F := (a`! * b`!)%:R / ((a + b).+1)`!%:R.

Lemma fact_neq0 n : (n`!)%:R != 0 :> F.
Proof. by rewrite pnatr_eq0 -lt0n fact_gt0. Qed.

Lemma B_split a b : B a.+1 b + B a b.+1 = B a b.
Proof.
rewrite /B addSn addnS -mulrDl -natrD.
apply/eqP; rewrite eqr_div ?fact_neq0 // -!natrM eqr_nat; apply/eqP.
rewrite (factS (a + b).+1) !factS -!mulnA; move: (_`!) (_`!) (_`!) => x y z; nia.
Qed.
End Beta.

Section Sets.
Variables (F : realFieldType) (T : finType).
Implicit Types (S A : {set T}) (i j f : T).
Notation B := (@B F).

Lemma sum_split_in (P : pred {set T}) (G : {set T} -> F) j :
  (forall S, P (j |: S) = P S) ->
  \sum_(S : {set T} | P S) G S = \sum_(S : {set T} | P S && (j \notin S)) (G S + G (j |: S)).
Proof.
move=> HP; rewrite (bigID (fun S => j \notin S)) /= big_split /=; congr (_ + _).
rewrite (reindex_onto (fun S => j |: S) (fun S => S :\ j)) /=; last first.
  by move=> S /andP [_ /negPn hj]; rewrite setD1K.
apply: eq_bigl => S; rewrite HP setU11 /= andbT; congr (_ && _).
apply/eqP/idP => [<-|hj]; first by rewrite !inE eqxx.
by rewrite setU1K.
Qed.

(* sum out one irrelevant element *)
Lemma sum_out1 A f (g : {set T} -> F) : f \notin A -> (forall S, g (f |: S) = g S) ->
  \sum_(S : {set T} | S \subset f |: A) B #|S| (#|f |: A| - #|S|) * g S
  = \sum_(S : {set T} | S \subset A) B #|S| (#|A| - #|S|) * g S.
Proof.
move=> hf hg; rewrite (@sum_split_in _ _ f); last first.
  by move=> S; rewrite subUset sub1set setU11.
apply: eq_big => [S|S /andP [hS hfS]].
  apply/andP/idP => [[hS hfS]|hS].
    apply/subsetP => x hx; move/subsetP: hS => /(_ x hx); rewrite in_setU1.
    by case/orP => // /eqP e; rewrite e (negPf hfS) in hx *.
  by split; [exact: subset_trans hS (subsetUr _ _) | apply: contra hf; apply: (subsetP hS)].
have hSA : S \subset A.
  apply/subsetP => x hx; move/subsetP: hS => /(_ x hx); rewrite in_setU1.
  by case/orP => // /eqP e; rewrite e (negPf hfS) in hx *.
have hle := subset_leq_card hSA.
rewrite hg -mulrDl !cardsU1 hf hfS !add1n; congr (_ * g S).
rewrite subSS subSn //; rewrite addrC; exact: B_split.
Qed.

Lemma sum_out A (Fr : {set T}) (g : {set T} -> F) : [disjoint A & Fr] ->
  (forall f S, f \in Fr -> g (f |: S) = g S) ->
  \sum_(S : {set T} | S \subset A :|: Fr) B #|S| (#|A :|: Fr| - #|S|) * g S
  = \sum_(S : {set T} | S \subset A) B #|S| (#|A| - #|S|) * g S.
Proof.
move: {2}(#|Fr|) (erefl #|Fr|) => n; elim: n Fr => [|n IH] Fr.
  by move/eqP; rewrite cards_eq0 => /eqP ->; rewrite setU0.
move=> hn hd hg.
have [f hf] : exists f, f \in Fr by apply/set0Pn; rewrite -card_gt0 hn.
have e : A :|: Fr = f |: (A :|: (Fr :\ f)).
  apply/setP => x; rewrite !inE; case: (x =P f) => [->|] //=; first by rewrite hf orbT.
rewrite e sum_out1; last 2 first.
- by rewrite !inE eqxx /= orbF; apply: contraL hd => hA; apply/pred0Pn; exists f; rewrite /= hA hf.
- by move=> S; apply: hg.
apply: IH.
- by move: hn; rewrite (cardsD1 f) hf; case.
- by apply: disjointWr hd; apply: subsetDl.
- by move=> f' S; rewrite !inE => /andP [_]; apply: hg.
Qed.

(* all subsets of A of size < K, weighted *)
Lemma sum_lt A K :
  \sum_(S : {set T} | S \subset A) B #|S| (#|A| - #|S|) * ((#|S| < K)%N)%:R
  = (minn K #|A|.+1)%:R / #|A|.+1%:R.
Proof.
set a := #|A|.
rewrite (partition_big (fun S : {set T} => inord #|S| : 'I_a.+1) predT) //=.
have E (k : 'I_a.+1) :
  \sum_(S : {set T} | (S \subset A) && (inord #|S| == k)) B #|S| (a - #|S|) * ((#|S| < K)%N)%:R
  = ((k < K)%N)%:R / a.+1%:R.
  rewrite (eq_bigr (fun=> B k (a - k) * ((k < K)%N)%:R)); last first.
    move=> S /andP [hS /eqP <-]; rewrite inordK // ltnS; exact: subset_leq_card.
  rewrite (eq_bigl (fun S : {set T} => S \in [set S : {set T} | (S \subset A) && (#|S| == k)])).
    rewrite sumr_const cards_draws -/a.
    have hk : (k <= a)%N by rewrite -ltnS.
    have hb := bin_fact hk.
    rewrite /B subnKC // -mulr_natr mulrAC [RHS]mulrC; congr (_ * _).
    rewrite mulrAC -natrM mulnC hb factS natrM invfM mulrCA mulfV ?mulr1 //.
    exact: fact_neq0.
  move=> S; rewrite inE; case hS: (S \subset A) => //=.
  have h := subset_leq_card hS.
  apply/eqP/eqP => [<-|e]; first by rewrite inordK // ltnS.
  by apply: val_inj; rewrite /= inordK e.
rewrite (eq_bigr _ (fun k _ => E k)) -mulr_suml -natr_sum; congr (_%:R / _).
rewrite -(big_mkord predT (fun k => nat_of_bool (k < K)%N)) /=.
elim: a {E} => [|a' IH]; first by rewrite big_nat1; case: K => //= K'; rewrite min1n.
by rewrite big_nat_recr //= IH; lia.
Qed.
End Sets.

Section Game.
Variables (F : realFieldType) (T : finType).
Implicit Types (S : {set T}) (i j : T) (v : {set T} -> F).
Notation B := (@B F).

Add Field mcF : (@ffield F).

Lemma subC1 S i : (S \subset ~: [set i]) = (i \notin S).
Proof. by rewrite -disjoints_subset disjoint_sym disjoints1. Qed.
Lemma subC2 S i j : (S \subset ~: [set i; j]) = (i \notin S) && (j \notin S).
Proof. by rewrite setCU subsetI !subC1. Qed.

Lemma shapleyE v i :
  shapley v i = \sum_(S : {set T} | S \subset ~: [set i])
     B #|S| (#|~: [set i]| - #|S|) * (v (i |: S) - v S).
Proof.
rewrite /shapley; apply: eq_big => S; first by rewrite subC1.
move=> hi; congr (_ * _); rewrite /B.
have hT := cardsC1 i; rewrite hT.
have hS : (#|S| <= #|T|.-1)%N.
  by rewrite -hT subset_leq_card // subC1.
have hT0 : (0 < #|T|)%N by apply/card_gt0P; exists i.
by congr (_%:R / _%:R); [congr (_ * _`!)%N | congr (_`!)]; lia.
Qed.

Lemma shapley_diff v i j : i != j ->
  shapley v i - shapley v j =
  \sum_(S : {set T} | S \subset ~: [set i; j])
     B #|S| (#|~: [set i; j]| - #|S|) * (v (i |: S) - v (j |: S)).
Proof.
move=> hij.
have half a b : a != b -> shapley v a =
  \sum_(S : {set T} | S \subset ~: [set a; b])
     (B #|S| (#|~: [set a]| - #|S|) * (v (a |: S) - v S)
      + B #|S|.+1 (#|~: [set a]| - #|S|.+1) * (v (a |: (b |: S)) - v (b |: S))).
  move=> hab; rewrite shapleyE (@sum_split_in _ _ _ _ b); last first.
    by move=> S; rewrite subUset sub1set !inE eq_sym hab.
  apply: eq_big => S.
    by rewrite subC1 subC2.
  by move=> /andP [_ hb]; rewrite cardsU1 hb add1n.
rewrite (half i j hij) (half j i); last by rewrite eq_sym.
rewrite [[set j; i]]setUC -sumrB; apply: eq_bigr => S hS.
have [hi hj] : i \notin S /\ j \notin S.
  by move: hS; rewrite subC2 => /andP.
have c1 : #|~: [set i]| = #|~: [set i; j]|.+1.
  by have := cardsC1 i; have := cardsC [set i; j]; rewrite cards2 hij; lia.
have c2 : #|~: [set j]| = #|~: [set i; j]|.+1 by rewrite cardsC1 -(cardsC1 i).
have hle := subset_leq_card hS.
rewrite c1 c2 subSS subSn // (setUCA [set j]).
set a := #|S|; set b := (_ - a)%N; rewrite -(B_split F a b).
set x := B _ _; set y := B _ _.
move: (v (i |: S)) (v (j |: S)) (v S) (v _) => p q r s.
fnorm. ring.
Qed.
End Game.

Section KnnGame.
Variables (F : realFieldType) (T : finType) (K : nat) (rank : T -> nat) (m : T -> bool).
Hypothesis rank_inj : injective rank.
Hypothesis rank_card : forall i, #|[set y | (rank y < rank i)%N]| = rank i.
Implicit Types (S : {set T}) (i j : T).
Notation v := (@knn_utility F T K rank m).
Definition near S i := [set y in S | (rank y < rank i)%N].

Lemma utilityE S : v S = (\sum_(i in S | (#|near S i| < K)%N) (m i)%:R) / K%:R.
Proof. by []. Qed.

Lemma near_self S i : near (i |: S) i = near S i.
Proof.
apply/setP => y; rewrite !inE; case: (y =P i) => [->|_] //=.
by rewrite ltnn !andbF.
Qed.

Lemma utility_swap S i j : i \notin S -> j \notin S -> rank j = (rank i).+1 ->
  v (i |: S) - v (j |: S) = ((#|near S i| < K)%N)%:R * (((m i)%:R - (m j)%:R) / K%:R).
Proof.
move=> hi hj e.
have hij : i != j by apply: contra_eq_neq e => ->; rewrite -addn1; lia.
have near_j : near S j = near S i.
  apply/setP => y; rewrite !inE e; case hy: (y \in S) => //=.
  have : y != i by apply: contraNneq hi => <-.
  rewrite ltnS leq_eqVlt => hne; case: eqP => // /rank_inj e'; by rewrite e' eqxx in hne.
have big_U a : a \notin S ->
  \sum_(x in a |: S | (#|near (a |: S) x| < K)%N) (m x)%:R
  = ((#|near S a| < K)%N)%:R * (m a)%:R + \sum_(x in S | (#|near (a |: S) x| < K)%N) (m x)%:R :> F.
  move=> ha; rewrite !big_mkcondr /= big_setU1 //= near_self; congr (_ + _).
  by case: ifP => _; rewrite ?mul1r ?mul0r.
rewrite !utilityE !big_U // near_j.
have -> : \sum_(x in S | (#|near (j |: S) x| < K)%N) (m x)%:R
        = \sum_(x in S | (#|near (i |: S) x| < K)%N) (m x)%:R :> F.
  apply: eq_bigl => x; case hx: (x \in S) => //=.
  have hxi : x != i by apply: contraNneq hi => <-.
  have hxj : x != j by apply: contraNneq hj => <-.
  have h : (rank i < rank x)%N = (rank j < rank x)%N.
    rewrite e [RHS]ltn_neqAle; case: eqP => // e'.
    by rewrite -e in e'; move: (rank_inj e') hxj => ->; rewrite eqxx.
  congr (_ < K)%N.
  have E a : a \notin S -> #|near (a |: S) x| = (((rank a < rank x)%N) + #|near S x|)%N.
    move=> ha; case: (boolP (rank a < rank x)%N) => hr.
      have -> : near (a |: S) x = a |: near S x.
        by apply/setP => y; rewrite !inE; case: (y =P a) => [->|_] //=; rewrite hr.
      by rewrite cardsU1 !inE (negPf ha).
    congr #|pred_of_set _|; apply/setP => y; rewrite !inE.
    by case: (y =P a) => [->|_] //=; rewrite (negPf hr) andbF.
  by rewrite !E // h.
rewrite -mulrBl opprD addrACA subrr addr0 -mulrBr mulrA. by [].
Qed.

Lemma utility_last S i : i \notin S -> (forall j, (rank j <= rank i)%N) ->
  v (i |: S) - v S = ((#|S| < K)%N)%:R * ((m i)%:R / K%:R).
Proof.
move=> hi hmax; rewrite !utilityE -mulrBl mulrA; congr (_ / _).
rewrite !big_mkcondr /= big_setU1 //= near_self.
have -> : near S i = S.
  apply/setP => y; rewrite !inE; case hy: (y \in S) => //=.
  rewrite ltn_neqAle hmax andbT; apply/eqP => /rank_inj e; by rewrite -e hy in hi.
rewrite -addrA; have -> : \sum_(x in S) (if (#|near S x| < K)%N then (m x)%:R else 0)
  = \sum_(x in S) (if (#|near (i |: S) x| < K)%N then (m x)%:R else 0) :> F.
  apply: eq_bigr => x hx; congr (if (_ < K)%N then _ else _).
  congr #|pred_of_set _|; apply/setP => y; rewrite !inE.
  case: (y =P i) => [->|_] //=; first by rewrite (negPf hi) /= ltnNge hmax.
rewrite subrr addr0.
by case: ifP => _; rewrite ?mul1r ?mul0r.
Qed.

Lemma knn_shapley_diff i j : rank j = (rank i).+1 ->
  shapley v i - shapley v j =
  ((m i)%:R - (m j)%:R) / K%:R * (minn K (rank i).+1)%:R / (rank i).+1%:R.
Proof.
move=> e.
have hij : i != j by apply: contra_eq_neq e => ->; lia.
rewrite shapley_diff //.
pose N := [set y | (rank y < rank i)%N].
pose Fr := [set y | (rank j < rank y)%N].
have eU : ~: [set i; j] = N :|: Fr.
  by apply/setP => y; rewrite !inE negb_or -!(inj_eq rank_inj) e; lia.
rewrite eU.
rewrite (eq_bigr (fun S : {set T} => B F #|S| (#|N :|: Fr| - #|S|)
   * (((#|near S i| < K)%N)%:R * (((m i)%:R - (m j)%:R) / K%:R)))); last first.
  by move=> S; rewrite -eU subC2 => /andP [hi hj]; rewrite utility_swap.
rewrite sum_out; last 2 first.
- apply/pred0P => y /=; rewrite !inE e; lia.
- move=> f S; rewrite !inE e => hf; congr (((_ < K)%N)%:R * _).
  congr #|pred_of_set _|; apply/setP => y; rewrite !inE; case: (y =P f) => [->|_] //=.
  have -> : (rank f < rank i)%N = false by lia.
  by rewrite andbF.
rewrite (eq_bigr (fun S : {set T} => B F #|S| (#|N| - #|S|) * ((#|S| < K)%N)%:R
    * (((m i)%:R - (m j)%:R) / K%:R))); last first.
  move=> S hS; suff -> : near S i = S by rewrite -[RHS]mulrA.
  apply/setP => y; rewrite !inE; case hy: (y \in S) => //=.
  by move/subsetP: hS => /(_ y hy); rewrite inE.
by rewrite -mulr_suml sum_lt rank_card mulrC mulrA.
Qed.

Lemma knn_shapley_last i : (forall j, (rank j <= rank i)%N) ->
  shapley v i = (m i)%:R / K%:R * (minn K #|T|)%:R / #|T|%:R.
Proof.
move=> hmax; rewrite shapleyE.
rewrite (eq_bigr (fun S : {set T} => B F #|S| (#|~: [set i]| - #|S|) * ((#|S| < K)%N)%:R
    * ((m i)%:R / K%:R))); last first.
  by move=> S; rewrite subC1 => hS; rewrite utility_last // -[RHS]mulrA.
rewrite -mulr_suml sum_lt cardsC1 prednK; last by apply/card_gt0P; exists i.
by rewrite mulrC mulrA.
Qed.
End KnnGame.

(* ---------- the recursion ---------- *)
Section Row.
Variables (F : realFieldType) (K n : nat) (srt : seq nat) (m : nat -> bool).
Hypothesis srt_perm : perm_eq srt (iota 0 n).
Hypothesis K_gt0 : (0 < K)%N.
Definition rk (i : 'I_n) : nat := index (val i) srt.

Lemma srt_uniq : uniq srt. Proof. by rewrite (perm_uniq srt_perm) iota_uniq. Qed.
Lemma srt_size : size srt = n. Proof. by rewrite (perm_size srt_perm) size_iota. Qed.
Lemma srt_mem i : (i \in srt) = (i < n)%N.
Proof. by rewrite (perm_mem srt_perm) mem_iota. Qed.
Lemma srt_nth k : (k < n)%N -> (nth 0%N srt k < n)%N.
Proof. by move=> h; rewrite -srt_mem mem_nth ?srt_size. Qed.

Lemma rk_inj : injective rk.
Proof.
move=> i j e; apply: val_inj.
have hi : val i \in srt by rewrite srt_mem; apply: ltn_ord.
have hj : val j \in srt by rewrite srt_mem; apply: ltn_ord.
by rewrite -(nth_index 0%N hi) -(nth_index 0%N hj) -/(rk i) -/(rk j) e.
Qed.

Lemma count_iota_lt r k : (r <= k)%N -> count (fun x => x < r)%N (iota 0 k) = r.
Proof.
move=> h; rewrite -(subnKC h) iotaD count_cat.
have -> : count (fun x => x < r)%N (iota 0 r) = size (iota 0 r).
  by apply/eqP; rewrite -all_count; apply/allP => x; rewrite mem_iota.
have -> : count (fun x => x < r)%N (iota (0 + r) (k - r)) = 0%N.
  apply/eqP; rewrite -leqn0 leqNgt -has_count; apply/hasPn => x; rewrite mem_iota; lia.
by rewrite size_iota addn0.
Qed.

Lemma rk_card i : #|[set y | (rk y < rk i)%N]| = rk i.
Proof.
rewrite cardsE cardE size_filter -[RHS](count_iota_lt (k := n)); last first.
  by apply: ltnW; rewrite -[X in (_ < X)%N]srt_size index_mem srt_mem; apply: ltn_ord.
transitivity (count (fun y => index y srt < rk i)%N (iota 0 n)).
  by rewrite -val_enum_ord count_map enumT.
transitivity (count (fun y => index y srt < rk i)%N (mkseq (nth 0%N srt) (size srt))).
  by rewrite mkseq_nth (permP srt_perm).
rewrite srt_size /mkseq count_map.
apply: eq_in_count => k; rewrite mem_iota /= => hk.
by rewrite index_uniq ?srt_uniq ?srt_size.
Qed.

(* difference between the code's start value and the true value of the farthest sample *)
Definition shift : F :=
  (m (last 0%N srt))%:R / n%:R - (m (last 0%N srt))%:R / K%:R * (minn K n)%:R / n%:R.

Lemma aux_add (x s y : F) : x + s + (y - x) = y + s.
Proof. by rewrite addrAC addrCA subrr addr0. Qed.

Definition tgt (i : 'I_n) : F :=
  shapley (knn_utility F K rk (fun i : 'I_n => m i)) i + shift.

Lemma last_srt : (0 < n)%N -> last 0%N srt = nth 0%N srt n.-1.
Proof. by rewrite -srt_size -nth_last. Qed.

Lemma knn_row_ok : (0 < n)%N -> knn_row F K n srt m = Ok [seq tgt i | i <- enum 'I_n].
Proof.
move=> n0; rewrite /knn_row.
have -> : (n == 0%N) = false by lia.
have -> /= : (K == 0%N) = false by lia.
set row0 := set_nth _ _ _ _; set f := (fun row i => set_nth _ _ _ _).
suff H k t : (t + k = n.-1)%N -> let r := foldl f row0 (rev (iota t k)) in
    size r = n /\ forall k (hk : (k < n)%N), (t <= k)%N ->
      nth 0 r (nth 0%N srt k) = tgt (Ordinal (srt_nth hk)).
  have [//|e1 e2] := H n.-1 0%N; congr Ok.
  apply: (@eq_from_nth _ 0); first by rewrite size_map size_enum_ord e1.
  move=> i; rewrite e1 => hi.
  rewrite (nth_map (Ordinal hi)) ?size_enum_ord //.
  have hm : i \in srt by rewrite srt_mem.
  have hx : (index i srt < n)%N by rewrite -srt_size index_mem.
  have := e2 _ hx (leq0n _); rewrite {1}nth_index // => ->; congr tgt.
  by apply: val_inj; rewrite /= nth_index // nth_enum_ord.
have lt_last : (last 0%N srt < n)%N by rewrite last_srt // srt_nth // prednK.
elim: k t => [|k IH] t ht.
  rewrite /= /row0 size_set_nth size_nseq; split; first by lia.
  move=> k hk htk; have ek : k = n.-1 by lia.
  have el : nth 0%N srt k = last 0%N srt by rewrite last_srt // ek.
  rewrite {1}el nth_set_nth /= eqxx /tgt knn_shapley_last; last 2 first.
  - exact: rk_inj.
  - move=> j; have := ltn_ord j => _; rewrite /rk /= index_uniq ?srt_uniq ?srt_size //.
    have hj : (index (val j) srt < size srt)%N by rewrite index_mem srt_mem; apply: ltn_ord.
    by rewrite ek -ltnS prednK //; move: hj; rewrite srt_size.
  by rewrite card_ord /= el /shift addrC subrK.
rewrite /= rev_cons foldl_rcons; set r := foldl _ _ _.
have [|hs hv] := IH t.+1; first by lia.
split; first by rewrite /f size_set_nth hs; apply/maxn_idPr; rewrite srt_nth //; lia.
move=> k' hk' htk; rewrite /f nth_set_nth /=.
have hu : (nth 0%N srt k' == nth 0%N srt t) = (k' == t).
  by rewrite nth_uniq ?srt_uniq ?srt_size //; lia.
rewrite hu; case: eqP => [ek|hne]; last by apply: hv; lia.
have ht1 : (t.+1 < n)%N by lia.
rewrite (hv _ ht1) //.
have ht0 : (t < n)%N by lia.
have -> : tgt (Ordinal (srt_nth hk')) = tgt (Ordinal (srt_nth ht0)).
  by congr tgt; apply: val_inj; rewrite /= ek.
have := @knn_shapley_diff F _ K rk (fun i : 'I_n => m i) rk_inj rk_card
   (Ordinal (srt_nth ht0)) (Ordinal (srt_nth ht1)).
have e0 : rk (Ordinal (srt_nth ht0)) = t by rewrite /rk /= index_uniq ?srt_uniq ?srt_size.
have e1 : rk (Ordinal (srt_nth ht1)) = t.+1 by rewrite /rk /= index_uniq ?srt_uniq ?srt_size.
rewrite e0 e1 => /(_ erefl) /= <-.
by rewrite /tgt; exact: aux_add.
Qed.
End Row.

(* ---------- scanning the loaders ---------- *)
Lemma rfold_prod (S L Bt : Type) (f : S -> Bt -> res S) (g : L -> Bt -> L) s l (bs : seq Bt) :
  rfold (fun sl b => rmap (fun s' => (s', g sl.2 b)) (f sl.1 b)) (s, l) bs
  = rmap (fun s' => (s', foldl g l bs)) (rfold f s bs).
Proof. by elim: bs s l => [|b bs IH] s l //=; case: (f s b) => //= s'; rewrite IH. Qed.

Section Scan.
Variables (F : realFieldType) (X Lab : Type) (dist : X -> X -> F) (lab : X -> Lab).
Variables (tr te : loader X).
Hypothesis htr : (0 < ld_bs tr)%N.
Hypothesis hte : (0 < ld_bs te)%N.
Hypothesis ntr : ld_drop tr = false.
Hypothesis nte : ld_drop te = false.

Definition ext (L : loader X) (l : seq Lab) (b : nat * seq X) : seq Lab :=
  if size l != size (ld_data L) then l ++ [seq lab x | x <- b.2] else l.

Lemma ext_full (L : loader X) l bs : size l = size (ld_data L) -> foldl (ext L) l bs = l.
Proof. by move=> e; elim: bs => //= b bs IH; rewrite {2}/ext e eqxx /= IH. Qed.

Lemma ext_empty (L : loader X) : (0 < ld_bs L)%N -> ld_drop L = false ->
  foldl (ext L) [::] (enum_batches L) = [seq lab x | x <- ld_data L].
Proof.
move=> hL nL.
suff H k : (k <= nbatches L)%N ->
  foldl (ext L) [::] [seq (k, batch L k) | k <- iota 0 k] = [seq lab x | x <- take (upto L k) (ld_data L)].
  by rewrite /enum_batches H // upto_all // covered_nodrop // take_size.
elim: k => [|k IH] hk; first by rewrite upto0 take0.
rewrite iotaSr map_rcons foldl_rcons IH; last by lia.
have hst := nbatches_st hL hk.
rewrite /ext size_map size_take.
have -> : ((if (upto L k < size (ld_data L))%N then upto L k else size (ld_data L)) != size (ld_data L)).
  have : (upto L k < size (ld_data L))%N by move: hst; rewrite /upto /st /ed; lia.
  by move=> h; rewrite h; lia.
rewrite -map_cat; congr map.
have e : upto L k = (k * ld_bs L)%N by move: hst; rewrite /upto /st /ed; lia.
rewrite e /batch /upto -takeD mulSn.
case: (leqP (ld_bs L + k * ld_bs L) (size (ld_data L))) => h.
  by congr take; lia.
by rewrite take_size take_oversize //; lia.
Qed.

Lemma knn_scan_ok trl tel : ld_data tr <> [::] ->
  (size trl = size (ld_data tr) \/ trl = [::]) -> (size tel = size (ld_data te) \/ tel = [::]) ->
  exists ltr, knn_scan dist lab tr te trl tel
  = Ok ([seq [seq dist y x | x <- ld_data tr] | y <- ld_data te], ltr,
        if size tel == size (ld_data te) then tel else [seq lab y | y <- ld_data te])
  /\ (ld_data te <> [::] ->
      ltr = if size trl == size (ld_data tr) then trl else [seq lab x | x <- ld_data tr]).
Proof.
move=> hne h1 h2.
pose inner (d : seq (seq F)) (qb : nat * seq X) := rfold (fun o' pb =>
      add_block (st te qb.1) (ed te qb.1) (st tr pb.1) (ed tr pb.1)
        [seq [seq dist y x | x <- pb.2] | y <- qb.2] o') d (enum_batches tr).
pose g (l : seq Lab * seq Lab) (qb : nat * seq X) := (foldl (ext tr) l.1 (enum_batches tr), ext te l.2 qb).
have E : knn_scan dist lab tr te trl tel =
  rmap (fun sl : seq (seq F) * (seq Lab * seq Lab) => (sl.1, sl.2.1, sl.2.2))
   (rfold (fun sl b => rmap (fun s' => (s', g sl.2 b)) (inner sl.1 b))
      (zeros2 F (size (ld_data te)) (size (ld_data tr)), (trl, tel)) (enum_batches te)).
  rewrite /knn_scan; move: (zeros2 _ _ _) => z; clear h1 h2; move: trl tel z.
  elim: (enum_batches te) => [|b bs IH] l1 l2 z //=.
  set r := rfold _ _ _.
  have -> : r = rmap (fun d => (d, foldl (ext tr) l1 (enum_batches tr), l2)) (inner z b).
    rewrite /r /inner; elim: (enum_batches tr) l1 z {r} => [|pb pbs IHp] l1 z //=.
    by case: (add_block _ _ _ _ _ _) => //= d; rewrite IHp.
  by case: (inner z b) => //= d; rewrite IH.
rewrite E rfold_prod.
have -> : rfold inner (zeros2 F (size (ld_data te)) (size (ld_data tr))) (enum_batches te)
   = block_loop te tr (fun xb yb => [seq [seq dist x y | y <- yb] | x <- xb])
       (zeros2 F (size (ld_data te)) (size (ld_data tr))) by [].
have -> : block_loop te tr (fun xb yb => [seq [seq dist x y | y <- yb] | x <- xb])
       (zeros2 F (size (ld_data te)) (size (ld_data tr)))
   = Ok [seq [seq dist y x | x <- ld_data tr] | y <- ld_data te].
  case ete: (ld_data te) => [|y0 ys]; last first.
    rewrite -ete zeros2_mk (block_loop_mk hte htr _ y0 y0); congr Ok.
    rewrite -(mk_of_seq _ _ _ y0 y0); apply: eq_mk => i j hi hj.
    by rewrite !covered_nodrop // hi hj add0r.
  by rewrite /block_loop /enum_batches (nbatches_nil hte) ?ete.
have F1 l0 : (size l0 = size (ld_data tr) \/ l0 = [::]) ->
     foldl (ext tr) l0 (enum_batches tr) =
     if size l0 == size (ld_data tr) then l0 else [seq lab x | x <- ld_data tr].
  case=> [e|->]; first by rewrite ext_full // e eqxx.
  rewrite ext_empty // eq_sym; case: eqP => // /size0nil; by move/hne.
have F2 bs : foldl g (trl, tel) bs = (if bs is [::] then trl
     else if size trl == size (ld_data tr) then trl else [seq lab x | x <- ld_data tr],
     foldl (ext te) tel bs).
  have G l1 l2 : size l1 = size (ld_data tr) -> foldl g (l1, l2) bs = (l1, foldl (ext te) l2 bs).
    move=> e; elim: bs l2 => [|b bs IH] l2 //=.
    by rewrite {2}/g /= ext_full // IH.
  case: bs G => [|b bs] G //=.
  rewrite {2}/g /= F1 //.
  set l1 := (if _ then _ else _).
  have e1 : size l1 = size (ld_data tr) by rewrite /l1; case: eqP => //; rewrite size_map.
  elim: bs (ext te tel b) {G} => [|b' bs IH] l2 //=.
  by rewrite {2}/g /= ext_full // IH.
rewrite /= F2 /=; eexists; split.
  congr (Ok (_, _, _)).
  case: eqP => [e|hn]; first by rewrite ext_full.
  by case: h2 => [//|->]; rewrite ext_empty.
move=> hn; have hc : (0 < covered te)%N.
  by rewrite covered_nodrop //; case: (ld_data te) hn.
by case: (enum_batches_cons hte hc) => l ->.
Qed.
End Scan.

Lemma rmapM_zip_label (A D R L : Type) (h : D -> option L -> res R) (r : A -> D) (ys : seq A) a (ls : seq L) :
  size (drop a ls) = size ys ->
  rmapM (fun jd : nat * D => h jd.2 (ohead (drop jd.1 ls))) (zip (iota a (size ys)) (map r ys))
  = rmapM (fun yl : A * L => h (r yl.1) (Some yl.2)) (zip ys (drop a ls)).
Proof.
elim: ys a => [|y ys IH] a; first by case: (drop a ls).
case e: (drop a ls) => [|l l'] //= [hs].
have e' : drop a.+1 ls = l' by rewrite -add1n -drop_drop e /= drop0.
by rewrite e /= IH ?e'.
Qed.

Lemma eq_rmapM (A R : Type) (f g : A -> res R) s : (forall a, f a = g a) -> rmapM f s = rmapM g s.
Proof. by move=> H; elim: s => //= a s ->; rewrite H. Qed.

Lemma rmapM_cat (A B : Type) (f : A -> res B) (s t : seq A) a b :
  rmapM f s = Ok a -> rmapM f t = Ok b -> rmapM f (s ++ t) = Ok (a ++ b).
Proof.
elim: s a => [|x s IH] a /=; first by case=> <-.
case: (f x) => //= r; case: (rmapM f s) IH => //= M IH [<-] h.
by rewrite (IH _ erefl h).
Qed.

Lemma eq_shapley (F : realFieldType) (T : finType) (v w : {set T} -> F) i :
  (forall S, v S = w S) -> shapley v i = shapley w i.
Proof. by move=> H; apply: eq_bigr => S _; rewrite !H. Qed.

Lemma eq_knn_utility (F : realFieldType) (T : finType) K (rank : T -> nat) (m m' : T -> bool) S :
  (forall i, m i = m' i) -> knn_utility F K rank m S = knn_utility F K rank m' S.
Proof. by move=> H; congr (_ / _); apply: eq_bigr => i _; rewrite H. Qed.

Lemma shift0 (F : realFieldType) K n srt m : (0 < K <= n)%N -> shift F K n srt m = 0.
Proof.
move=> /andP [h1 h2]; rewrite /shift; have -> : minn K n = K by lia.
by rewrite divfK ?subrr // pnatr_eq0 -lt0n.
Qed.

Lemma knn_row_chkE (F : realFieldType) K n srt (m : nat -> option bool) m' :
  perm_eq srt (iota 0 n) -> (0 < n)%N -> (forall i, (i < n)%N -> m i = Some (m' i)) ->
  knn_row_chk F K n srt m = knn_row F K n srt (fun i => odflt false (m i)).
Proof.
move=> hp hn hm; rewrite /knn_row_chk.
have -> : (n == 0%N) = false by lia.
rewrite (last_srt hp) // hm ?(srt_nth hp) ?prednK //=.
have -> /= : (1 < n)%N && (m (nth 0%N srt n.-2) == None) = false.
  case: (leqP n 1) => //= h; rewrite hm //; apply: (srt_nth hp); lia.
have -> : has (fun i => m i == None) srt = false.
  by apply/hasPn => i; rewrite (srt_mem hp) => /hm ->.
rewrite /knn_row; have -> : (n == 0%N) = false by lia.
by rewrite [X in if X then _ else _]andbC; case: ((K == 0%N) && (1 < n)%N).
Qed.

Lemma eq_knn_row (F : realFieldType) K n srt (m m' : nat -> bool) :
  perm_eq srt (iota 0 n) -> (0 < n)%N -> (forall i, (i < n)%N -> m i = m' i) ->
  knn_row F K n srt m = knn_row F K n srt m'.
Proof.
move=> hp hn hm; rewrite /knn_row (last_srt hp) // hm; last by apply: (srt_nth hp); lia.
case: ifP => // _; case: ifP => // _; congr Ok.
have : all (fun i => i < n.-1)%N (rev (iota 0 n.-1)).
  by apply/allP => i; rewrite mem_rev mem_iota.
elim: (rev _) (set_nth _ _ _ _) => //= i l IH row /andP [hi hl]; rewrite IH //.
by rewrite !hm //; apply: (srt_nth hp); lia.
Qed.

Section Attr.
Variables (F : realFieldType) (X Lab : Type) (lab_eq : Lab -> Lab -> bool).
Variables (dist : X -> X -> F) (lab : X -> Lab) (argsort : seq F -> seq nat) (K : nat).
Hypothesis argsort_perm : forall d, perm_eq (argsort d) (iota 0 (size d)).
Variables (tr te : loader X) (trl tel : option (seq Lab)).
Hypothesis htr : (0 < ld_bs tr)%N.
Hypothesis hte : (0 < ld_bs te)%N.
Hypothesis ntr : ld_drop tr = false.
Hypothesis nte : ld_drop te = false.
Hypothesis hne : ld_data tr <> [::].
Hypothesis htrl : if trl is Some l then size l = size (ld_data tr) else True.
Hypothesis htel : if tel is Some l then size l = size (ld_data te) else True.

Let n := size (ld_data tr).
Definition ltr := odflt [seq lab x | x <- ld_data tr] trl.
Definition lte := odflt [seq lab y | y <- ld_data te] tel.
Definition drow y := [seq dist y x | x <- ld_data tr].

Lemma knn_attribute_gen :
  knn_attribute lab_eq dist lab argsort K tr te trl tel
  = rmapM (fun yl => knn_row F K n (argsort (drow yl.1)) (fun i => lab_eq (nth yl.2 ltr i) yl.2))
     (zip (ld_data te) lte).
Proof.
rewrite /knn_attribute.
have -> : (if trl is Some l then size l != size (ld_data tr) else false) = false.
  by case: trl htrl => // l ->; rewrite eqxx.
have -> : (if tel is Some l then size l != size (ld_data te) else false) = false.
  by case: tel htel => // l ->; rewrite eqxx.
have [||lt [-> hlt]] := @knn_scan_ok F X Lab dist lab tr te htr hte ntr nte
    (odflt [::] trl) (odflt [::] tel) hne.
- by case: trl htrl => [l|] /=; [left|right].
- by case: tel htel => [l|] /=; [left|right].
have -> : (if size (odflt [::] tel) == size (ld_data te) then odflt [::] tel
           else [seq lab y | y <- ld_data te]) = lte.
  rewrite /lte; case: tel htel => [l|] /=; first by move=> ->; rewrite eqxx.
  by move=> _; case: eqP => // /esym /size0nil ->.
rewrite /= size_map.
rewrite (@rmapM_zip_label X (seq F) (seq F) Lab (fun d ol => knn_row_chk F K n (argsort d)
   (fun i => match ohead (drop i lt), ol with Some a, Some b => Some (lab_eq a b) | _, _ => None end))
   drow (ld_data te) 0 lte); last first.
  by rewrite drop0 /lte; case: tel htel => [l|] //= _; rewrite size_map.
rewrite drop0.
case ete: (ld_data te) => [|y0 ys]; first by case: lte.
have {hlt} elt : lt = ltr.
  rewrite hlt ?ete // /ltr; case: trl htrl => [l|] /=; first by move=> ->; rewrite eqxx.
  by move=> _; case: eqP => // /esym /size0nil.
have sl : size ltr = n by rewrite /ltr; case: trl htrl => [l|] //= _; rewrite size_map.
rewrite -ete elt; apply: eq_rmapM => -[y l] /=.
have hn : (0 < n)%N by rewrite /n; case: (ld_data tr) hne.
have hp : perm_eq (argsort (drow y)) (iota 0 n).
  by have := argsort_perm (drow y); rewrite size_map.
have em k : (k < n)%N -> match ohead (drop k ltr) with Some a => Some (lab_eq a l) | None => None end
   = Some (lab_eq (nth l ltr k) l).
  by move=> hk; rewrite (drop_nth l) ?sl.
rewrite (knn_row_chkE _ _ hp hn em); apply: (eq_knn_row _ _ hp) => // k hk.
by rewrite em.
Qed.

Lemma knn_attribute_ok : (0 < K)%N ->
  knn_attribute lab_eq dist lab argsort K tr te trl tel
  = Ok [seq [seq shapley (knn_utility F K (fun i : 'I_n => index (val i) (argsort (drow yl.1)))
                 (fun i : 'I_n => lab_eq (nth yl.2 ltr i) yl.2)) i
             + shift F K n (argsort (drow yl.1)) (fun i => lab_eq (nth yl.2 ltr i) yl.2)
            | i <- enum 'I_n] | yl <- zip (ld_data te) lte].
Proof.
move=> K_gt0; rewrite knn_attribute_gen; apply: rmapM_ok => -[y l] /=.
have hn : (0 < n)%N by rewrite /n; case: (ld_data tr) hne.
have hp : perm_eq (argsort (drow y)) (iota 0 n).
  by have := argsort_perm (drow y); rewrite size_map.
by rewrite (knn_row_ok _ _ hp K_gt0 hn).
Qed.
End Attr.
