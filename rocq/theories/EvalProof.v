(* Lemmas about the evaluation functions. *)
Set Warnings "-notation-overridden,-ambiguous-paths".
From mathcomp Require Import all_ssreflect all_algebra zify.
From Verif Require Import Py EvalModel EvalSpec.
Set Implicit Arguments. Unset Strict Implicit. Unset Printing Implicit Defensive.
Import GRing.Theory Num.Theory.
Local Open Scope ring_scope.

Section Collect.
Variables (A B : Type).
Implicit Type (f : A -> res B).

Lemma collect_cat f s t :
  collect f (s ++ t) = rbind (collect f s) (fun a => rmap (cat a) (collect f t)).
Proof.
elim: s => [|x s IH] /=; first by case: (collect f t).
by rewrite IH; case: (f x) => //= y; case: (collect f s) => //= a; case: (collect f t).
Qed.
Lemma collect_flat f l : rmap flatten (collect (collect f) l) = collect f (flatten l).
Proof.
elim: l => //= b l IH; rewrite collect_cat -IH.
by case: (collect f b) => //= a; case: (collect _ l).
Qed.
Lemma collect_map f (g : A -> B) s (p : pred A) : (forall x, p x -> f x = Ok (g x)) -> all p s ->
  collect f s = Ok (map g s).
Proof. by move=> h; elim: s => //= x s IH /andP [px ps]; rewrite h // IH. Qed.
Lemma collect_err f s (p : pred A) e : (forall x, p x -> exists y, f x = Ok y) ->
  (forall x, ~~ p x -> f x = Err e) -> ~~ all p s -> collect f s = Err e.
Proof.
move=> h1 h2; elim: s => //= x s IH; case px: (p x) => /= np; last by rewrite h2 ?px.
by have [y ->] := h1 x px; rewrite /= IH.
Qed.
Lemma collect_size f s r : collect f s = Ok r -> size r = size s.
Proof.
elim: s r => [|x s IH] r /=; first by case=> <-.
by case: (f x) => //= y; case: (collect f s) IH => //= a IH [<-] /=; rewrite (IH a).
Qed.
Lemma collect_eq f f' s : (forall x, f x = f' x) -> collect f s = collect f' s.
Proof. by move=> h; elim: s => //= x s ->; rewrite h. Qed.
Lemma collect_rmap C (h : B -> C) f s : collect (fun x => rmap h (f x)) s = rmap (map h) (collect f s).
Proof. by elim: s => //= x s ->; case: (f x) => //= y; case: (collect f s). Qed.
End Collect.

Lemma collect_torch_cat (A B : Type) (f : A -> res B) l : l <> [::] ->
  rbind (collect (collect f) l) (@torch_cat B) = collect f (flatten l).
Proof.
move=> ln; rewrite -collect_flat; case e: (collect (collect f) l) => [a|] //=.
by move/collect_size: e; case: a => //; case: l ln.
Qed.

Section Sums.
Variable R : realFieldType.
Lemma uniform_total (T : Type) n (l : seq (seq T)) : uniform n l -> size (flatten l) = (n * size l)%N.
Proof.
by elim: l => [|b l IH] /=; [rewrite muln0 | move=> /andP [/eqP sb /IH e]; rewrite size_cat sb e mulnS].
Qed.
Lemma sum_flatten (l : seq (seq R)) : \sum_(x <- flatten l) x = \sum_(b <- l) \sum_(x <- b) x.
Proof. by elim: l => [|b l IH] /=; rewrite ?big_nil ?big_cons // big_cat /= IH. Qed.
Lemma mean_const_batches n (l : seq (seq R)) : uniform n l -> (0 < n)%N ->
  mean (flatten l) = mean (map (@mean R) l).
Proof.
move=> u n0; rewrite /mean (uniform_total u) size_map natrM invfM mulrA; congr (_ / _).
rewrite sum_flatten big_map mulr_suml; elim: l u => [|b l IH] /=; rewrite ?big_nil ?big_cons //.
by move=> /andP [/eqP sb /IH ->]; rewrite sb.
Qed.
End Sums.
