(* Lemmas about flattened parameters and partial functions. *)
Set Warnings "-notation-overridden,-ambiguous-paths".
From mathcomp Require Import all_ssreflect all_algebra zify.
From Verif Require Import Py Dict TaskModel TaskSpec.
Set Implicit Arguments. Unset Strict Implicit. Unset Printing Implicit Defensive.

Lemma prodE sh : prod sh = volume sh.
Proof. by rewrite /prod /volume; elim: sh => [|n sh IH]; rewrite ?big_nil ?big_cons //= IH. Qed.

Section Utils.
Variables (A : eqType) (F : Type).
Local Notation name := (name A).
Local Notation params := (params A F).
Local Notation arch := (arch A).
Implicit Types (m : arch) (ps : params) (L : seq name) (x v : seq F).

Definition build m (g : name -> seq F) : params :=
  [seq (p.1, Tensor (p_shape p.2) (g p.1)) | p <- m].
Definition sized m (g : name -> seq F) := all (fun p => size (g p.1) == volume (p_shape p.2)) m.

Lemma build_cons a q m g : build ((a, q) :: m) g = (a, Tensor (p_shape q) (g a)) :: build m g.
Proof. by []. Qed.
Lemma sized_cons a q m g : sized ((a, q) :: m) g = (size (g a) == volume (p_shape q)) && sized m g.
Proof. by []. Qed.
Lemma dkeys_build m g : dkeys (build m g) = dkeys m.
Proof. by rewrite /dkeys /build -map_comp. Qed.
Lemma data_cons (p : name * tensor F) ps k : data (p :: ps) k = if p.1 == k then t_data p.2 else data ps k.
Proof. by case: p => a t; rewrite /data dget_cons; case: ifP. Qed.
Lemma data_out ps k : k \notin dkeys ps -> data ps k = [::].
Proof.
elim: ps => // -[a t] ps IH /=; rewrite data_cons /= inE negb_or eq_sym => /andP [/negbTE -> h].
exact: IH.
Qed.
Lemma data_build m g k : data (build m g) k = if k \in dkeys m then g k else [::].
Proof.
elim: m => //= -[a p] m IH; rewrite data_cons /= inE [k == a]eq_sym.
by case: (a =P k) => [->|].
Qed.

Lemma eq_build m g1 g2 : {in dkeys m, g1 =1 g2} -> build m g1 = build m g2.
Proof.
elim: m => //= -[a p] m IH h; congr ((_, Tensor _ _) :: _); first by apply: h; rewrite inE eqxx.
by apply: IH => k hk; apply: h; rewrite inE hk orbT.
Qed.
Lemma eq_sized m g1 g2 : {in dkeys m, g1 =1 g2} -> sized m g1 = sized m g2.
Proof.
elim: m => //= -[a p] m IH h; rewrite (h a) ?inE ?eqxx //; congr (_ && _).
by apply: IH => k hk; apply: h; rewrite inE hk orbT.
Qed.
Lemma eq_size_sized m g1 g2 : {in dkeys m, forall k, size (g1 k) = size (g2 k)} -> sized m g1 = sized m g2.
Proof.
elim: m => //= -[a p] m IH h; rewrite (h a) ?inE ?eqxx //; congr (_ && _).
by apply: IH => k hk; apply: h; rewrite inE hk orbT.
Qed.

(* parameters that fit a model are determined by their data *)
Lemma fits_build m ps : uniq (dkeys m) -> fits m ps ->
  ps = build m (data ps) /\ sized m (data ps).
Proof.
elim: m ps => [|[a q] m IH] [|[b t] ps]; rewrite /fits //=; try by move=> ? [].
case/andP=> na u [[eb es hs] /andP [h1 h2]]; subst b.
have [e1 e2] := IH ps u (conj hs h2).
have hin : {in dkeys m, data ((a, t) :: ps) =1 data ps}.
  by move=> k hk; rewrite data_cons /=; case: (a =P k) na => // ->; rewrite hk.
rewrite /build /= -/(build m _) (eq_build hin) -e1 /sized /= -/(sized m _) (eq_sized hin) e2.
rewrite data_cons /= eqxx -es h1; split=> //; by case: t {hin h1 es}.
Qed.
Lemma build_fits m g : sized m g -> fits m (build m g).
Proof.
move=> h; split; first by rewrite /build -map_comp.
by elim: m h => //= -[a q] m IH /= /andP [-> /IH].
Qed.

Lemma flattenE ps : ps <> [::] -> flatten_params ps = Ok (flatten [seq t_data p.2 | p <- ps]).
Proof. by case: ps. Qed.
Lemma flat_build m g : flatten [seq t_data p.2 | p <- build m g] = flatten [seq g p.1 | p <- m].
Proof. by rewrite /build -map_comp. Qed.

Lemma unflatten_fromE m g cur pre post : size pre = cur -> sized m g ->
  unflatten_from m cur (pre ++ flatten [seq g p.1 | p <- m] ++ post) = Ok (build m g).
Proof.
elim: m cur pre => //= -[a q] m IH cur pre hc /= /andP [/eqP h1 h2].
rewrite prodE -h1 drop_cat hc ltnn subnn drop0 -!catA take_size_cat // eqxx.
rewrite [pre ++ _]catA IH //; by rewrite size_cat hc.
Qed.
Lemma unflatten_build m g post : sized (trainable m) g ->
  unflatten_params m (flatten [seq g p.1 | p <- trainable m] ++ post) = Ok (build (trainable m) g).
Proof. by move=> h; rewrite /unflatten_params -[_ ++ post]cat0s; apply: unflatten_fromE. Qed.

Lemma size_flat m g : sized m g -> size (flatten [seq g p.1 | p <- m]) = \sum_(p <- m) volume (p_shape p.2).
Proof.
elim: m => [|p m IH] /=; first by rewrite big_nil.
by case/andP => /eqP h /IH e; rewrite size_cat big_cons e h.
Qed.
Lemma totalE m : total m = \sum_(p <- trainable m) volume (p_shape p.2).
Proof. by rewrite /total /trainable big_filter. Qed.

Fixpoint total_l m : nat := if m is p :: m' then volume (p_shape p.2) + total_l m' else 0.
Lemma total_lE m : total_l m = \sum_(p <- m) volume (p_shape p.2).
Proof. by elim: m => [|p m IH]; rewrite ?big_nil // big_cons /= IH. Qed.

Lemma unflatten_short m cur v : size v < cur + total_l m -> cur <= size v ->
  unflatten_from m cur v = Err RuntimeError.
Proof.
elim: m cur => [|[a q] m IH] cur /=; first by lia.
move=> h hc; rewrite prodE size_take size_drop.
case: ifP => // /eqP h1; rewrite IH //; move: h1; case: ifP => h1; lia.
Qed.

Definition cut m v (cur : nat) (k : name) : seq F :=
  take (if dget m k is Some q then volume (p_shape q) else 0)
       (drop (cur + total_l (take (index k (dkeys m)) m)) v).
Lemma unflatten_enough m cur v : uniq (dkeys m) -> cur + total_l m <= size v ->
  unflatten_from m cur v = Ok (build m (cut m v cur)) /\ sized m (cut m v cur)
  /\ flatten [seq cut m v cur p.1 | p <- m] = take (total_l m) (drop cur v).
Proof.
elim: m cur => [|[a q] m IH] cur /=; first by rewrite take0.
case/andP=> na u h; rewrite prodE.
have hs : size (take (volume (p_shape q)) (drop cur v)) = volume (p_shape q).
  by rewrite size_take size_drop; case: ltnP => //; lia.
rewrite hs eqxx.
have [| e1 [e2 e3]] := IH (cur + volume (p_shape q)) u; first by lia.
have hin : {in dkeys m, cut ((a, q) :: m) v cur =1 cut m v (cur + volume (p_shape q))}.
  move=> k hk; rewrite /cut dget_cons /=.
  case: (a =P k) na hk => [->|ak na hk]; first by move/negbTE=> ->.
  by rewrite /= addnA.
have ha : cut ((a, q) :: m) v cur a = take (volume (p_shape q)) (drop cur v).
  by rewrite /cut dget_cons /= eqxx /= addn0.
rewrite -/(sized m _) ha hs eqxx (eq_build hin) (eq_sized hin) e1 e2.
split=> //; split=> //.
have -> : [seq cut ((a, q) :: m) v cur p.1 | p <- m] = [seq cut m v (cur + volume (p_shape q)) p.1 | p <- m].
  have E : forall f : name -> seq F, [seq f p.1 | p <- m] = map f (dkeys m) by move=> f; rewrite /dkeys -map_comp.
  by rewrite !E; apply/eq_in_map.
rewrite e3 [RHS]takeD; congr (_ ++ take _ _); by rewrite drop_drop addnC.
Qed.

Lemma unflatten_tupleE m g extra : sized m g ->
  unflatten_tuple m ([seq g p.1 | p <- m] ++ extra) = Ok (build m g).
Proof. by elim: m => //= -[a q] m IH /= /andP [h /IH ->]; rewrite prodE h. Qed.

(* ---- partial functions *)
Section Partial.
Variables (V : Type) (val : name -> V -> tensor F) (mk : tensor F -> V).
Hypothesis val_mk : forall k t, val k (mk t) = t.
Implicit Type full : dict [eqType of name] V.

Lemma dkeys_view full : dkeys (view val full) = dkeys full.
Proof. by rewrite /dkeys /view -map_comp. Qed.
Lemma dget_view full k : dget (view val full) k = omap (val k) (dget full k).
Proof.
elim: full => //= -[a r] full IH; rewrite /view /= !dget_cons -/(view val full) IH.
by case: (a =P k) => [->|].
Qed.

Definition vec (s : seq F) : tensor F := Tensor [:: size s] s.
(* overwriting several entries at once *)
Definition over full L (g : name -> seq F) : dict [eqType of name] V :=
  [seq (p.1, if p.1 \in L then mk (vec (g p.1)) else p.2) | p <- full].
Lemma dkeys_over full L g : dkeys (over full L g) = dkeys full.
Proof. by rewrite /dkeys /over -map_comp. Qed.
Lemma dget_over full L g k :
  dget (over full L g) k = omap (fun r => if k \in L then mk (vec (g k)) else r) (dget full k).
Proof.
elim: full => // -[a r] full IH; rewrite /over /= !dget_cons -/(over full L g) IH.
by case: (a =P k) => [->|].
Qed.
Lemma data_over full L g k :
  data (view val (over full L g)) k
  = if (k \in L) && (k \in dkeys full) then g k else data (view val full) k.
Proof.
elim: full => [|[a r] full IH] /=; first by rewrite andbF.
rewrite !data_cons /= inE [k == a]eq_sym IH; case: (a =P k) => [->|_] //=.
by rewrite andbT; case: ifP => //; rewrite val_mk.
Qed.

Lemma loop_over full L idx v : uniq (dkeys full) -> uniq L -> {subset L <= dkeys full} ->
  partial_loop val mk full L idx v
  = (over full L (fun k => take (size (data (view val full) k))
                             (drop (idx + offset (view val full) L k) v)), Ok tt).
Proof.
elim: L full idx => [|l L IH] full idx u /=.
  move=> _ _; rewrite /over /=; congr (_, _); elim: full {u} => //= -[a r] full <- //.
case/andP=> nl uL sub.
have hl : l \in dkeys full by apply: sub; rewrite inE eqxx.
have := dget_has full l; rewrite /dhas -/(dkeys full) hl; case e: (dget full l) => [r|] // _.
have sz : size (data (view val full) l) = numel (val l r) by rewrite /data dget_view e.
set s := take _ _; set full1 := dset _ _ _.
have e1 : full1 = over full [:: l] (fun=> s).
  rewrite /full1 /dset /dhas -/(dkeys full) hl /over; apply: eq_map => -[a q] /=; rewrite inE.
  by case: (a =P l) => [->|].
have k1 : dkeys full1 = dkeys full by rewrite e1 dkeys_over.
have d1 k : k \in L -> data (view val full1) k = data (view val full) k.
  move=> hk; rewrite e1 data_over inE; case: (k =P l) => // ekl.
  by move: nl; rewrite -ekl hk.
rewrite IH ?k1 //; last by move=> k hk; apply: sub; rewrite inE hk orbT.
congr (_, _); rewrite /over [X in map _ X = _]e1 /over -map_comp; apply: eq_map => -[a q] /=.
congr (_, _); rewrite !inE; case: (a =P l) => [->|al] /=.
  rewrite (negbTE nl) /offset /= eqxx take0 big_nil addn0 sz; by [].
case: ifP => // aL; congr (mk (vec _)).
rewrite d1 // /offset /= [l == a]eq_sym; move/eqP/negbTE: al => ->.
rewrite big_cons sz addnA; congr (take _ (drop (_ + _) _)).
rewrite !big_seq; apply: eq_bigr => k hk; rewrite d1 //; exact: (mem_take hk).
Qed.

Lemma dkeys_dset_in full k r : k \in dkeys full -> dkeys (dset full k r) = dkeys full.
Proof. by move=> h; rewrite dkeys_set /dhas -/(dkeys full) h. Qed.

(* whatever the arguments, the names stay and no entry grows *)
Lemma loop_shrinks full L idx v : uniq (dkeys full) ->
  dkeys (partial_loop val mk full L idx v).1 = dkeys full
  /\ forall k, size (data (view val (partial_loop val mk full L idx v).1) k) <= size (data (view val full) k).
Proof.
elim: L full idx => [|l L IH] full idx u //=.
case e: (dget full l) => [r|] //.
set full1 := dset _ _ _.
have hl := dget_mem e.
have k1 : dkeys full1 = dkeys full by exact: dkeys_dset_in.
have [|e1 e2] := IH full1 (idx + numel (val l r)); first by rewrite k1.
split=> [|k]; first by rewrite e1.
apply: leq_trans (e2 k) _; rewrite /data !dget_view dgetE.
case: (k =P l) => [->|//]; rewrite e /= val_mk /= size_take size_drop /numel; case: ifP => //; lia.
Qed.
End Partial.
End Utils.

