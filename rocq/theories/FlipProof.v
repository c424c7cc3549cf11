(* Lemmas about label flipping. *)
Set Warnings "-notation-overridden,-ambiguous-paths".
From mathcomp Require Import all_ssreflect all_algebra zify.
From Verif Require Import Py FlipModel.
Set Implicit Arguments. Unset Strict Implicit. Unset Printing Implicit Defensive.
Import Order.TTheory GRing.Theory Num.Theory.

Section Flip.
Variable pick : nat -> seq elt -> elt.
Hypothesis pick_in : forall t l, l <> [::] -> List.In (pick t l) l.

Lemma In_filter (T : Type) (a : pred T) (l : seq T) x : List.In x [seq y <- l | a y] -> List.In x l /\ a x.
Proof.
elim: l => //= y l IH; case: ifP => ay; last by move=> /IH []; split=> //; right.
by case=> [<-|/IH []]; split=> //; [left|right].
Qed.
Lemma In_rcons (T : Type) (l : seq T) y x : List.In x (rcons l y) -> List.In x l \/ x = y.
Proof.
elim: l => [|z l IH] /=; first by case=> // ->; right.
by case=> [->|/IH [|->]]; [left; left|left; right|right].
Qed.

Lemma elt_eqb_refl e : elt_eqb e e. Proof. by case: e => [v|i v] /=. Qed.

Lemma In_set_add l e x : List.In x (set_add l e) -> List.In x l \/ x = e.
Proof. rewrite /set_add; case: ifP => _; [by left|exact: In_rcons]. Qed.
Lemma In_set_of l x : List.In x (set_of l) -> List.In x l.
Proof.
rewrite /set_of -[l in List.In x l]cats0.
have: (forall a b, List.In x (foldl set_add a b) -> List.In x a \/ List.In x b); last first.
  by move=> H; rewrite cats0 => /H [].
move=> a b; elim: b a => [|e b IH] a /=; first by left.
by case/IH; [case/In_set_add => [|->]; [left|right; left]|right; right].
Qed.
Lemma has_set_add (a : pred elt) l e : has a l -> has a (set_add l e).
Proof. by rewrite /set_add; case: ifP => // _; rewrite has_rcons orbC => ->. Qed.
Lemma mem_set_add l e : has (elt_eqb e) (set_add l e).
Proof. by rewrite /set_add; case: ifP => // _; rewrite has_rcons elt_eqb_refl. Qed.

Lemma has_foldl (a : pred elt) s l : has a s -> has a (foldl set_add s l).
Proof. by elim: l s => //= e l IH s h; apply/IH/has_set_add. Qed.
Lemma has_set_of v l : has (fun x => ~~ elt_eqb x (Num v)) (set_of l) = has (fun x => ~~ elt_eqb x (Num v)) l.
Proof.
apply/idP/idP.
  have In_has (a : pred elt) (s : seq elt) : has a s <-> exists2 x, List.In x s & a x.
    elim: s => [|y s IH] /=; first by split=> // -[].
    split=> [/orP [ay|/IH [x xi ax]]|[x [<-|xi] ax]].
    - by exists y => //; left.
    - by exists x => //; right.
    - by rewrite ax.
    by apply/orP; right; apply/IH; exists x.
  by move/In_has => [x /In_set_of xi ax]; apply/In_has; exists x.
rewrite /set_of; move: [::] => s; elim: l s => //= e l IH s /orP [ne|h]; last exact: IH.
apply: has_foldl; rewrite /set_add; case: ifP => [h|_]; last by rewrite has_rcons ne.
elim: s h => //= y s IHs /orP [ey|/IHs ->]; last by rewrite orbT.
by apply/orP; left; apply: contra ne => yv; move: ey yv; case: (e) (y) => [a|i a] [b|j b] //= /eqP -> .
Qed.

Definition other (l : int) (s : seq elt) := has (fun x => ~~ elt_eqb x (Num l)) s.

Lemma random_flipE l st :
  (other l st.1 -> exists v st', random_flip pick l st = Ok (v, st') /\
     [/\ forall l', other l' st'.1,
         (forall x, List.In x st'.1 -> List.In x st.1 \/ x = Num l) &
         (exists2 x, List.In x st.1 & elt_val x = v /\ ~~ elt_eqb x (Num l))]) /\
  (~~ other l st.1 -> random_flip pick l st = Err ValueError).
Proof.
rewrite /other /random_flip /set_discard; split=> [ot|]; last first.
  rewrite -all_predC => al; rewrite /nilp size_filter; have -> : count (fun x => ~~ elt_eqb x (Num l)) st.1 = 0%N; last by [].
  by apply/eqP; rewrite -leqn0 leqNgt -has_count -all_predC.
have nn : [seq x <- st.1 | ~~ elt_eqb x (Num l)] <> [::].
  by move=> e; move: ot; rewrite has_count -size_filter e.
have /negbTE -> : ~~ nilp [seq x <- st.1 | ~~ elt_eqb x (Num l)] by case: filter nn.
eexists _, _; split; first by reflexivity.
have [pi px] := In_filter (pick_in st.2 nn).
split=> /=.
- move=> l'; case: (l' =P l) => [->|/eqP ne].
    apply: has_set_add; case e: filter nn => [//|y s] _ /=; apply/orP; left.
    have : List.In y [seq x <- st.1 | ~~ elt_eqb x (Num l)] by rewrite e; left.
    by move=> /(@In_filter _ _ _ _) [].
  have := mem_set_add [seq x <- st.1 | ~~ elt_eqb x (Num l)] (Num l).
  elim: (set_add _ _) => //= y s IH /orP [e|/IH ->]; last by rewrite orbT.
  by case: y e => //= b /eqP <-; rewrite eq_sym ne.
- by move=> x /In_set_add [/(@In_filter _ _ _ _) []|]; [left|right].
by exists (pick st.2 [seq x <- st.1 | ~~ elt_eqb x (Num l)]).
Qed.

Lemma flip_allE (ls : seq int) st : (forall l, other l st.1) ->
  exists vs, [/\ flip_all pick ls st = Ok vs, size vs = size ls &
    forall i, (i < size ls)%N -> exists2 x, elt_val x = nth 0%R vs i /\ ~~ elt_eqb x (Num (nth 0%R ls i)) &
      List.In x st.1 \/ exists2 l, l \in ls & x = Num l].
Proof.
elim: ls st => [|l ls IH] st ot; first by exists [::].
have [/(_ (ot l)) [v [st' [e [ot' sub [x xi [xv xn]]]]]] _] := random_flipE l st.
have [vs [e1 s1 H]] := IH st' ot'.
exists (v :: vs); split=> /=; rewrite ?s1 //; first by rewrite e /= e1.
case=> [|i] il /=; first by exists x => //; left.
have [y hy [/sub [|e']|[l' ll e']]] := H i il; exists y => //.
- by left.
- by right; exists l => //; rewrite mem_head.
by right; exists l' => //; rewrite inE ll orbT.
Qed.

Lemma vectorizedE (l0 : int) ls st :
  (other l0 st.1 -> exists vs, [/\ vectorized pick (l0 :: ls) st = Ok vs, size vs = (size ls).+1 &
    forall i, (i < (size ls).+1)%N ->
      exists2 x, elt_val x = nth 0%R vs i /\ ~~ elt_eqb x (Num (nth 0%R (l0 :: ls) i)) &
      List.In x st.1 \/ exists2 l, l \in l0 :: ls & x = Num l]) /\
  (~~ other l0 st.1 -> vectorized pick (l0 :: ls) st = Err ValueError).
Proof.
have [h1 h2] := random_flipE l0 st; split=> ot; last by rewrite /vectorized h2.
have [v [st' [e [ot' sub _]]]] := h1 ot.
have [vs [e1 s1 H]] := flip_allE (l0 :: ls) ot'.
exists vs; split=> // [|i il]; first by rewrite /vectorized e.
have [y hy [/sub [|e']|[l' ll e']]] := H i il; exists y => //.
- by left.
- by right; exists l0 => //; rewrite mem_head.
by right; exists l'.
Qed.

Lemma size_put l idx vals : all (fun i => i < size l)%N idx -> size (put_at l idx vals) = size l.
Proof.
rewrite /put_at; elim: idx vals l => [|i idx IH] [|v vals] l //= /andP [il al].
have s1 : size (set_nth 0%R l i v) = size l by rewrite size_set_nth; apply/maxn_idPr.
by rewrite IH s1.
Qed.
Lemma put_out l idx vals i : i \notin idx -> nth 0%R (put_at l idx vals) i = nth 0%R l i.
Proof.
rewrite /put_at; elim: idx vals l => [|j idx IH] [|v vals] l //=.
by rewrite inE negb_or => /andP [ij ni]; rewrite IH // nth_set_nth /= (negbTE ij).
Qed.
Lemma put_in l idx vals k : uniq idx -> (k < size idx)%N -> size vals = size idx ->
  nth 0%R (put_at l idx vals) (nth 0%N idx k) = nth 0%R vals k.
Proof.
rewrite /put_at; elim: idx vals l k => [|j idx IH] [|v vals] l k //= /andP [nj u] kl [sv].
case: k kl => [|k] kl /=; last exact: IH.
have := @put_out (set_nth 0%R l j v) idx vals j nj; rewrite /put_at => ->.
by rewrite nth_set_nth /= eqxx.
Qed.
End Flip.
