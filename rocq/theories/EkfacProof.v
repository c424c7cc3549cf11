(* Lemmas for the EK-FAC theorems. *)
Set Warnings "-notation-overridden,-ambiguous-paths".
From mathcomp Require Import all_ssreflect all_algebra zify.
From Verif Require Import Py TensorProof EkfacModel EkfacSpec.
Set Implicit Arguments. Unset Strict Implicit. Unset Printing Implicit Defensive.
Import Order.TTheory GRing.Theory Num.Theory.
Local Open Scope ring_scope.

Section P.
Variables (F : realFieldType) (L : eqType) (X : Type).
Variables (two_d : L -> bool) (inp : L -> X -> seq F) (grads : L -> X -> seq (seq F)).

Lemma nat_unit n : (0 < n)%N -> n%:R != 0 :> F.
Proof. by move=> h; rewrite pnatr_eq0 -lt0n. Qed.

Lemma wavg (T B SA SB : F) : T != 0 -> B != 0 ->
  T / (T + B) * (SA / T) + B / (T + B) * (B^-1 * SB) = (SA + SB) / (T + B).
Proof.
move=> t0 b0.
have -> : T / (T + B) * (SA / T) = SA / (T + B) by rewrite mulrC mulrA divfK.
have -> : B / (T + B) * (B^-1 * SB) = SB / (T + B) by rewrite mulrC [B^-1 * SB]mulrC mulrA divfK.
by rewrite -mulrDl.
Qed.

Lemma run_avgE (dn b : seq X) (f : X -> F) (old : option (mat F)) (new : mat F) i j : (0 < size b)%N ->
  (old = None -> dn = [::]) -> (forall m, old = Some m -> m i j = avg dn f /\ (0 < size dn)%N) ->
  new i j = (size b)%:R^-1 * (\sum_(x <- b) f x) ->
  run_avg (size dn) (size b) old new i j = avg (dn ++ b) f.
Proof.
move=> b0 hN hS nE; rewrite /avg big_cat size_cat /=; case: old hN hS => [m|] hN hS /=.
  have [mE d0] := hS _ erefl; rewrite /madd /mscale mE nE /avg.
  by rewrite natrD wavg // nat_unit.
by rewrite hN //= big_nil add0r add0n nE mulrC.
Qed.

(* the layer whose input the loop variable holds after a prefix of layers *)
Definition src (l0 : L) (p : seq L) : L := last l0 (filter two_d p).
Lemma src_rcons l0 p l : src l0 (rcons p l) = if two_d l then l else src l0 p.
Proof. by rewrite /src filter_rcons; case: ifP => // _; rewrite last_rcons. Qed.
Lemma bind_src l0 b p l : has two_d (rcons p l) ->
  bind_a two_d inp b (if has two_d p then Some [seq inp (src l0 p) x | x <- b] else None) l =
    Some [seq inp (src l0 (rcons p l)) x | x <- b].
Proof.
by rewrite /bind_a src_rcons has_rcons; case: ifP => //= _ ->.
Qed.

(* the layer each layer's statistics are computed from *)
Definition src_of (layers : seq L) (l : L) : L := src l (take (index l layers).+1 layers).
Lemma src_l0 l0 l1 p : has two_d p -> src l0 p = src l1 p.
Proof. by rewrite /src has_filter; case: (filter _ _). Qed.

Definition covI (layers : seq L) (dn : seq X) (est : L -> option (mat F * mat F)) (l : L) : Prop :=
  exists m1 m2, [/\ est l = Some (m1, m2),
    forall i j, m1 i j = avg dn (fun x => nth 0 (inp (src_of layers l) x) i * nth 0 (inp (src_of layers l) x) j)
  & forall i j, m2 i j = avg dn (fun x => \sum_(r <- grads l x) nth 0 r i * nth 0 r j)].

Lemma cov_step layers est dn b : uniq layers -> (0 < size b)%N ->
  (if layers is l :: _ then two_d l else true) ->
  (forall l, if nilp dn then est l = None else l \in layers -> covI layers dn est l) ->
  (forall l, l \notin layers -> est l = None) ->
  exists est', [/\ update_covariance two_d inp grads layers est (size dn) b = Ok est',
    forall l, l \in layers -> covI layers (dn ++ b) est' l & forall l, l \notin layers -> est' l = None].
Proof.
move=> un b0 hd hI hN; rewrite /update_covariance.
suff: forall (l0 : L) p r, layers = p ++ r -> exists est',
   [/\ rfold (cov_layer two_d inp grads (size dn) b) (None, est) p =
        Ok (if has two_d p then Some [seq inp (src l0 p) x | x <- b] else None, est'),
     forall l, l \in p -> covI layers (dn ++ b) est' l & forall l, l \notin p -> est' l = est l].
  case: layers hd hI hN un => [|l0 ls] hd hI hN un; first by move=> _; exists est.
  move=> /(_ l0 (l0 :: ls) [::]); rewrite cats0 => /(_ erefl) [est' [-> h1 h2]].
  exists est'; split=> // l hl; by rewrite h2 // hN.
move=> l0; elim/last_ind => [|p l IH] r e; first by exists est.
have [|est' [e' h1 h2]] := IH (l :: r); first by rewrite e cat_rcons.
rewrite rfold_rcons e' /= /cov_layer.
have hp : has two_d (rcons p l).
  by move: hd; rewrite e; case: (p) => [|z p'] /= ->.
have lp : l \notin p.
  by move: un; rewrite e cat_uniq rcons_uniq => /andP [/andP []].
have ll : l \in layers by rewrite e mem_cat mem_rcons mem_head.
have lt : take (index l layers).+1 layers = rcons p l.
  rewrite e cat_rcons index_cat (negbTE lp) /= eqxx addn0.
  by rewrite take_cat ltnNge leqnSn /= subSnn /= take0 cats1.
rewrite (bind_src l0 b hp) hp.
have sE : src l0 (rcons p l) = src_of layers l by rewrite /src_of lt; exact: src_l0.
eexists; split; first by [].
- move=> k; rewrite mem_rcons inE => kp; rewrite /covI /upd.
  case: eqP kp => [-> _|/= _ kp]; last exact: h1.
  rewrite /= (h2 l lp) sE; do 2!eexists; split; first by [].
    move=> i j; have := hI l; case: nilP => [d0|dn0] hl.
      rewrite hl d0 /= /avg /mscale /gram big_map mulrC //.
    have [m1 [m2 [eE a1 a2]]] := hl ll; rewrite eE; apply: run_avgE => //.
    + move=> m [<-]; split; [exact: a1 | by case: (dn) dn0].
    + by rewrite /mscale /gram big_map.
  move=> i j; have := hI l; case: nilP => [d0|dn0] hl.
    by rewrite hl d0 /= /avg /mscale /gram big_flatten big_map mulrC.
  have [m1 [m2 [eE a1 a2]]] := hl ll; rewrite eE; apply: run_avgE => //.
  + move=> m [<-]; split; [exact: a2 | by case: (dn) dn0].
  + by rewrite /mscale /gram big_flatten big_map.
- move=> k; rewrite mem_rcons inE negb_or => /andP [nk kp]; rewrite /upd (negbTE nk); exact: h2.
Qed.

Variable cached_q : L -> (nat * mat F) * (nat * mat F).
Definition lamI (layers : seq L) (dn : seq X) (est : L -> option (mat F)) (l : L) : Prop :=
  exists m, est l = Some m /\
    forall i j, m i j = avg dn (fun x => sample_lambda grads cached_q l (inp (src_of layers l) x) x i j).

Lemma zip_map_l (A B : Type) (f : B -> A) (b : seq B) : zip (map f b) b = [seq (f x, x) | x <- b].
Proof. by elim: b => //= x b ->. Qed.

Lemma lam_step layers est dn b : uniq layers -> (0 < size b)%N ->
  (if layers is l :: _ then two_d l else true) ->
  (forall l, if nilp dn then est l = None else l \in layers -> lamI layers dn est l) ->
  (forall l, l \notin layers -> est l = None) ->
  exists est', [/\ update_lambda two_d inp grads cached_q layers est (size dn) b = Ok est',
    forall l, l \in layers -> lamI layers (dn ++ b) est' l & forall l, l \notin layers -> est' l = None].
Proof.
move=> un b0 hd hI hN; rewrite /update_lambda.
suff: forall (l0 : L) p r, layers = p ++ r -> exists est',
   [/\ rfold (lambda_layer two_d inp grads cached_q (size dn) b) (None, est) p =
        Ok (if has two_d p then Some [seq inp (src l0 p) x | x <- b] else None, est'),
     forall l, l \in p -> lamI layers (dn ++ b) est' l & forall l, l \notin p -> est' l = est l].
  case: layers hd hI hN un => [|l0 ls] hd hI hN un; first by move=> _; exists est.
  move=> /(_ l0 (l0 :: ls) [::]); rewrite cats0 => /(_ erefl) [est' [-> h1 h2]].
  exists est'; split=> // l hl; by rewrite h2 // hN.
move=> l0; elim/last_ind => [|p l IH] r e; first by exists est.
have [|est' [e' h1 h2]] := IH (l :: r); first by rewrite e cat_rcons.
rewrite rfold_rcons e' /= /lambda_layer.
have hp : has two_d (rcons p l).
  by move: hd; rewrite e; case: (p) => [|z p'] /= ->.
have lp : l \notin p.
  by move: un; rewrite e cat_uniq rcons_uniq => /andP [/andP []].
have ll : l \in layers by rewrite e mem_cat mem_rcons mem_head.
have lt : take (index l layers).+1 layers = rcons p l.
  rewrite e cat_rcons index_cat (negbTE lp) /= eqxx addn0.
  by rewrite take_cat ltnNge leqnSn /= subSnn /= take0 cats1.
rewrite (bind_src l0 b hp) hp.
have sE : src l0 (rcons p l) = src_of layers l by rewrite /src_of lt; exact: src_l0.
eexists; split; first by [].
- move=> k; rewrite mem_rcons inE => kp; rewrite /lamI /upd.
  case: eqP kp => [-> _|/= _ kp]; last exact: h1.
  rewrite /= (h2 l lp) sE; eexists; split; first by [].
  move=> i j; have := hI l; case: nilP => [d0|dn0] hl.
    by rewrite hl d0 /= /avg zip_map_l big_map mulrC.
  have [m1 [eE a1]] := hl ll; rewrite eE; apply: run_avgE => //.
  + move=> m [<-]; split; [exact: a1 | by case: (dn) dn0].
  + by rewrite zip_map_l big_map.
- move=> k; rewrite mem_rcons inE negb_or => /andP [nk kp]; rewrite /upd (negbTE nk); exact: h2.
Qed.

(* the loop over batches *)
Lemma loop_avg (S : Type) (step : S -> nat -> seq X -> res S) (I : seq X -> S -> Prop) m i dn bs s :
  (forall s dn b, I dn s -> (0 < size b)%N -> exists2 s', step s (size dn) b = Ok s' & I (dn ++ b) s') ->
  I dn s -> all (fun b => 0 < size b)%N bs -> ((i < m)%N \/ m = 0%N) ->
  exists2 s', est_loop step m i (size dn) bs s = Ok s' &
    I (dn ++ flatten (if m == 0%N then bs else take (m - i) bs)) s'.
Proof.
move=> hs; elim: bs i dn s => [|b bs IH] i dn s hI /=; first by move=> _ _; exists s => //; case: ifP => _; rewrite cats0.
case/andP => b0 al hm; have [s' -> hI'] := hs _ _ _ hI b0; rewrite /=.
case: eqP => [<-|ne].
  exists s' => //=; by rewrite subSnn /= take0 cats0.
have hm' : (i.+1 < m)%N \/ m = 0%N by lia.
have [s'' e hI''] := IH i.+1 _ _ hI' al hm'; rewrite -size_cat; exists s'' => //.
move: hI''; rewrite -catA; case: eqP hm' => [//|m0] [hm'|//].
by rewrite -[(m - i)%N]prednK ?subn_gt0 /=; last lia; rewrite (_ : (m - i).-1 = (m - i.+1)%N) //; lia.
Qed.

Lemma est_cov layers bs m : uniq layers -> (if layers is l :: _ then two_d l else true) ->
  all (fun b => 0 < size b)%N bs -> (0 < size bs)%N ->
  exists2 est, estimate_covariance two_d inp grads layers bs m = Ok est &
    (forall l, l \in layers -> covI layers (flatten (selected (odflt (size bs) m) bs)) est l) /\
    (forall l, l \notin layers -> est l = None).
Proof.
move=> un hd al s0; rewrite /estimate_covariance; set mm := odflt _ _.
pose I (dn : seq X) (est : L -> option (mat F * mat F)) :=
  (forall l, if nilp dn then est l = None else l \in layers -> covI layers dn est l) /\
  (forall l, l \notin layers -> est l = None).
have hm : (0 < mm)%N \/ mm = 0%N by lia.
have I0 : I [::] (fun=> None) by [].
have hs est dn b : I dn est -> (0 < size b)%N ->
   exists2 est', update_covariance two_d inp grads layers est (size dn) b = Ok est' & I (dn ++ b) est'.
  move=> [h1 h2] b0; have [est' [e a1 a2]] := cov_step un b0 hd h1 h2; exists est' => //; split=> // l.
  by rewrite (_ : nilp _ = false); [exact: a1|apply/nilP; case: (dn) (b) b0 => // -[]].
have [est' e [a1 a2]] := loop_avg hs I0 al hm; exists est' => //; split=> // l ll.
move: (a1 l); rewrite subn0 /=; rewrite /selected; case: nilP => [z|_]; last exact.
exfalso; move: z; clearbody mm; clear -al s0; case: bs al s0 => // b bs /= /andP [b0 _] _.
by case: b b0 => // x b _; case: mm.
Qed.

Lemma est_lam layers bs m : uniq layers -> (if layers is l :: _ then two_d l else true) ->
  all (fun b => 0 < size b)%N bs -> (0 < size bs)%N ->
  exists2 est, estimate_lambda two_d inp grads cached_q layers bs m = Ok est &
    (forall l, l \in layers -> lamI layers (flatten (selected (odflt (size bs) m) bs)) est l) /\
    (forall l, l \notin layers -> est l = None).
Proof.
move=> un hd al s0; rewrite /estimate_lambda; set mm := odflt _ _.
pose I (dn : seq X) (est : L -> option (mat F)) :=
  (forall l, if nilp dn then est l = None else l \in layers -> lamI layers dn est l) /\
  (forall l, l \notin layers -> est l = None).
have hm : (0 < mm)%N \/ mm = 0%N by lia.
have I0 : I [::] (fun=> None) by [].
have hs est dn b : I dn est -> (0 < size b)%N ->
   exists2 est', update_lambda two_d inp grads cached_q layers est (size dn) b = Ok est' & I (dn ++ b) est'.
  move=> [h1 h2] b0; have [est' [e a1 a2]] := lam_step un b0 hd h1 h2; exists est' => //; split=> // l.
  by rewrite (_ : nilp _ = false); [exact: a1|apply/nilP; case: (dn) (b) b0 => // -[]].
have [est' e [a1 a2]] := loop_avg hs I0 al hm; exists est' => //; split=> // l ll.
move: (a1 l); rewrite subn0 /=; rewrite /selected; case: nilP => [z|_]; last exact.
exfalso; move: z; clearbody mm; clear -al s0; case: bs al s0 => // b bs /= /andP [b0 _] _.
by case: b b0 => // x b _; case: mm.
Qed.

(* with only 2-d layers every layer uses its own input *)
Lemma src_of_id layers l : all two_d layers -> l \in layers -> src_of layers l = l.
Proof.
move=> al ll; rewrite /src_of /src (take_nth l) ?index_mem // nth_index // filter_rcons.
by rewrite (allP al _ ll) last_rcons.
Qed.
End P.
