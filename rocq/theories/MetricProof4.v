(* Brittleness. *)
Set Warnings "-notation-overridden,-ambiguous-paths".
From mathcomp Require Import all_ssreflect all_algebra zify.
From Verif Require Import Py Tensor MetricModel MetricSpec.
Set Implicit Arguments. Unset Strict Implicit. Unset Printing Implicit Defensive.
Import Order.TTheory GRing.Theory Num.Theory.
Local Open Scope ring_scope.

Section B.
Variables (R : realFieldType) (Lab : eqType) (Net : Type).
Variables (it : seq nat -> seq nat) (train : nat -> seq nat -> Net) (predict : Net -> res Lab).

(* the loop, once every pass is known to succeed *)
Lemma loopE (asc : seq nat) (a : score_arr R) s test (fl : nat -> int -> bool) n0 ks :
  s <> NoIndices ->
  (forall i, (i < size ks)%N ->
     rbind (to_remove asc a (nth 0 ks i)) (check_if_flip it train predict (n0 + i) s test)
       = Ok (fl i (nth 0 ks i))) ->
  let bs := [seq fl i (nth 0 ks i) | i <- iota 0 (size ks)] in
  brittle_loop it train predict n0 asc a s test ks
  = Ok (if has id bs then Some (nth 0 ks (find id bs)) else None).
Proof.
move=> sN; elim: ks n0 fl => [|k ks IH] n0 fl h //=.
have h0 := h 0%N isT; rewrite addn0 /= in h0.
have sE B (f : unit -> res B) : rbind (if s is NoIndices then Err AttributeError else Ok tt) f = f tt by case: s sN {h IH h0}.
rewrite sE; case e: (to_remove asc a k) h0 => [rm|x] //= h0.
rewrite h0 /=; case: (fl 0%N k) => //=.
have := IH n0.+1 (fun i => fl i.+1); rewrite /= => -> //; last first.
  by move=> i ik; have := h i.+1 ik; rewrite /= addnS.
have -> : [seq fl i (nth 0 (k :: ks) i) | i <- iota 1 (size ks)]
        = [seq fl i.+1 (nth 0 ks i) | i <- iota 0 (size ks)].
  by rewrite -[1%N]/(1 + 0)%N iotaDl -map_comp; apply: eq_map.
by case: (has _ _).
Qed.

(* reading the argsort from its end gives top-scored sets *)
Lemma top_scoredE (asc : seq nat) (score : seq R) k : sorts asc score ->
  top_scored score k (take k (rev asc)).
Proof.
case=> pa so; have ua : uniq (rev asc) by rewrite rev_uniq (perm_uniq pa) iota_uniq.
have sz : size (rev asc) = size score by rewrite size_rev (perm_size pa) size_iota.
have mm i : (i \in rev asc) = (i < size score)%N by rewrite mem_rev (perm_mem pa) mem_iota.
split.
- exact: take_uniq.
- by rewrite size_take sz; case: ltnP => h; apply/eqP; rewrite eqn_leq; lia.
- by apply/allP => i /mem_take; rewrite mm.
move=> i j ik jn jk; rewrite -mm in jn.
have im := mem_take ik.
have ii : (index i (rev asc) < k)%N by rewrite -in_take.
have ji : (k <= index j (rev asc))%N by rewrite leqNgt -in_take.
have st : transitive (fun i j => nth 0 score i <= nth 0 score j).
  by move=> a b c; apply: le_trans.
have sr : sorted (fun i j => nth 0 score j <= nth 0 score i) (rev asc) by rewrite rev_sorted.
have tr : transitive (fun i j => nth 0 score j <= nth 0 score i).
  by move=> a b c h1 h2; apply: le_trans h2 h1.
have := @sorted_ltn_nth _ _ tr 0%N _ sr (index i (rev asc)) (index j (rev asc)).
rewrite !inE !index_mem => /(_ im jn (leq_trans ii ji)).
by rewrite !nth_index.
Qed.
End B.
