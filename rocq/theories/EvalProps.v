(* C55: what the benchmark's evaluation functions return. *)
Set Warnings "-notation-overridden,-ambiguous-paths".
From mathcomp Require Import all_ssreflect all_algebra zify.
From Verif Require Import Py EvalModel EvalSpec EvalProof.
Set Implicit Arguments. Unset Strict Implicit. Unset Printing Implicit Defensive.
Import GRing.Theory Num.Theory.
Local Open Scope ring_scope.

Section C55.
Variables (R : realFieldType) (X SD : Type) (lse : seq R -> R) (fits : SD -> bool).
Notation arg := (target_arg SD).
Notation saved sd := (APath (Some (CkState sd))).

Section Classes.
Variable logits : SD -> X -> seq R.
Notation loss_each := (loss_each lse fits logits).
Notation loss_imagenet := (loss_imagenet lse fits logits).
Let labelled sd (s : X * int) := is_class (logits sd s.1) s.2.
Let point sd (s : X * int) := nll lse (logits sd s.1) `|s.2|%N.

Lemma ce1_ok sd s : labelled sd s -> ce1 lse logits sd s = Ok (point sd s).
Proof.
case: s => x [] // k; rewrite /labelled /ce1 /cross_entropy /= => lt.
by rewrite ltz_nat lt.
Qed.
Lemma ce1_err sd s : ~~ labelled sd s && (s.2 != ign_default) -> ce1 lse logits sd s = Err IndexError.
Proof.
case: s => x t /andP [nl /negbTE ni]; rewrite /ce1 /cross_entropy ni; move: nl; rewrite /labelled /=.
by case: t {ni} => k //=; rewrite ltz_nat => /negbTE ->.
Qed.

(* One value per sample, in the order of the loader: the negative log-likelihood of the sample's own label. *)
Theorem C55_per_example sd loader :
  fits sd -> loader <> [::] -> all (labelled sd) (flatten loader) ->
  loss_each (saved sd) loader = Ok [seq point sd s | s <- flatten loader].
Proof.
move=> fi ln al; rewrite /loss_each /= fi /= collect_torch_cat //.
exact: collect_map (@ce1_ok sd) al.
Qed.

(* The result, exceptions included, does not depend on how the samples are cut into batches. *)
Theorem C55_batching (a : arg) l1 l2 : l1 <> [::] -> l2 <> [::] -> flatten l1 = flatten l2 ->
  loss_each a l1 = loss_each a l2.
Proof.
by move=> n1 n2 e; rewrite /EvalModel.loss_each; case: load_weights => //= sd; rewrite !collect_torch_cat // e.
Qed.

(* A label that is neither a class nor -100 makes the call raise; the label -100 silently contributes 0. *)
Theorem C55_bad_label sd loader : fits sd -> loader <> [::] ->
  (has (fun s => ~~ labelled sd s && (s.2 != ign_default)) (flatten loader) ->
     loss_each (saved sd) loader = Err IndexError) /\
  (all (fun s => labelled sd s || (s.2 == ign_default)) (flatten loader) ->
     loss_each (saved sd) loader =
       Ok [seq if s.2 == ign_default then 0 else point sd s | s <- flatten loader]).
Proof.
move=> fi ln; rewrite /EvalModel.loss_each /= fi /= collect_torch_cat //; split.
  move=> h; apply: (collect_err (p := fun s => labelled sd s || (s.2 == ign_default))).
  - move=> s; case e: (s.2 == ign_default); first by exists 0; rewrite /ce1 /cross_entropy e.
    by rewrite orbF => /ce1_ok ->; eexists.
  - by move=> s; rewrite negb_or => /ce1_err.
  by rewrite -has_predC; apply: sub_has h => s /=; rewrite negb_or.
apply: collect_map => s; case e: (s.2 == ign_default); first by rewrite /ce1 /cross_entropy e.
by rewrite orbF => /ce1_ok ->.
Qed.

(* The ImageNet function: each batch's sum is weighted by the batch's size once more, and the total is divided
   by the number of samples. *)
Theorem C55_imagenet sd loader : fits sd -> all (labelled sd) (flatten loader) ->
  loss_imagenet (saved sd) loader =
  if size (flatten loader) == 0%N then Err ZeroDivisionError
  else Ok ((\sum_(b <- loader) (\sum_(s <- b) point sd s) * (size b)%:R) / (size (flatten loader))%:R).
Proof.
move=> fi al; rewrite /EvalModel.loss_imagenet /= fi /=.
have -> : forall t n, rfold (fun (acc : R * nat) b =>
    rmap (fun ls => (acc.1 + (\sum_(x <- ls) x) * (size b)%:R, (acc.2 + size b)%N)) (collect (ce1 lse logits sd) b))
    (t, n) loader = Ok (t + \sum_(b <- loader) (\sum_(s <- b) point sd s) * (size b)%:R, (n + size (flatten loader))%N).
  elim: loader al => [|b l IH] al t n /=; first by rewrite big_nil addr0 addn0.
  move: al; rewrite /= all_cat => /andP [ab al].
  rewrite (collect_map (@ce1_ok sd) ab) /= IH // big_cons size_cat big_map.
  by rewrite addrA addnA.
by rewrite /= add0r add0n; case: eqP.
Qed.

(* With batches of one size n it is n times the mean loss: the mean for n = 1, the documented sum only when the
   whole loader is one batch. *)
Theorem C55_imagenet_uniform sd loader n : fits sd -> all (labelled sd) (flatten loader) ->
  (0 < n)%N -> (0 < size loader)%N -> uniform n loader ->
  loss_imagenet (saved sd) loader = Ok (n%:R * mean [seq point sd s | s <- flatten loader]).
Proof.
move=> fi al n0 l0 u; rewrite C55_imagenet // (uniform_total u) muln_eq0 !eqn0Ngt n0 l0 /=.
congr Ok; rewrite /mean size_map (uniform_total u) mulrA; congr (_ / _).
rewrite big_map; elim: loader u {al l0} => [|b l IH] /=; first by rewrite !big_nil mulr0.
by move=> /andP [/eqP sb /IH e]; rewrite big_cons big_cat /= e sb mulrDr mulrC.
Qed.

(* Whatever the data, a checkpoint saved as a whole model (retrain_loo) or a model object (what the reader of
   leave-one-out results passes) is refused by every evaluation function. *)
Theorem C55_refuses_models (a : arg) : a = AObject SD \/ a = APath (Some (CkObject SD)) ->
  (forall l, loss_each a l = Err TypeError) /\ (forall l, loss_imagenet a l = Err TypeError).
Proof. by case=> ->. Qed.

(* A missing file, a checkpoint of another architecture, an empty loader. *)
Theorem C55_other_errors sd :
  [/\ (forall l, loss_each (APath None) l = Err FileNotFoundError /\ loss_imagenet (APath None) l = Err FileNotFoundError),
      (fits sd = false -> forall l, loss_each (saved sd) l = Err RuntimeError /\
                                    loss_imagenet (saved sd) l = Err RuntimeError) &
      (fits sd -> loss_each (saved sd) [::] = Err RuntimeError /\
                  loss_imagenet (saved sd) [::] = Err ZeroDivisionError)].
Proof. by rewrite /EvalModel.loss_each /EvalModel.loss_imagenet /=; split=> [//|->|->]; rewrite ?eqxx. Qed.
End Classes.

Section Music.
Variables (pad : int) (logits : SD -> X -> seq (seq R)) (argmax : seq R -> int).
Notation loss_maestro := (loss_maestro lse fits pad logits).
Notation eval_model := (eval_model lse pad logits argmax).
(* the logits at the last position and the target there *)
Let zlast sd (s : X * seq int) := last [::] (logits sd s.1).
Let tlast (s : X * seq int) : int := last pad s.2.
Let playable sd s := (tlast s == pad) || is_class (zlast sd s) (tlast s).
(* the loss of the last token, zero where the target is padding *)
Let lastloss sd s : R := if tlast s == pad then 0 else nll lse (zlast sd s) `|tlast s|%N.

Lemma ce_last sd s : playable sd s ->
  cross_entropy lse pad (last_logits logits sd s) (last_target pad s) = Ok (lastloss sd s).
Proof.
rewrite /playable /lastloss /cross_entropy -[last_target pad s]/(tlast s) -[last_logits logits sd s]/(zlast sd s).
case: ifP => //= _.
by case: (tlast s) => //= k lt; rewrite ltz_nat lt.
Qed.

(* The music function returns the negated loss of the last position of every sample. *)
Theorem C55_maestro sd loader : fits sd -> loader <> [::] -> all (playable sd) (flatten loader) ->
  loss_maestro (saved sd) loader = Ok [seq - lastloss sd s | s <- flatten loader].
Proof.
move=> fi ln al; rewrite /loss_maestro /= fi /=.
pose f s := rmap -%R (cross_entropy lse pad (last_logits logits sd s) (last_target pad s)).
rewrite (@collect_eq _ _ _ (collect f)); last by move=> b; rewrite /f collect_rmap.
by rewrite collect_torch_cat //; apply: collect_map al => s h; rewrite /f ce_last.
Qed.
Theorem C55_maestro_batching (a : arg) l1 l2 : l1 <> [::] -> l2 <> [::] -> flatten l1 = flatten l2 ->
  loss_maestro a l1 = loss_maestro a l2.
Proof.
move=> n1 n2 e; rewrite /loss_maestro; case: load_weights => //= sd.
pose f s := rmap -%R (cross_entropy lse pad (last_logits logits sd s) (last_target pad s)).
have h l : collect (fun b => rmap (map -%R)
    (collect (fun s => cross_entropy lse pad (last_logits logits sd s) (last_target pad s)) b)) l =
    collect (collect f) l by apply: collect_eq => b; rewrite /f collect_rmap.
by rewrite !h !collect_torch_cat // e.
Qed.
(* Only the last position counts: changing the other targets changes nothing. *)
Theorem C55_maestro_last (a : arg) l1 l2 :
  [seq [seq (s.1, tlast s) | s <- b] | b <- l1] = [seq [seq (s.1, tlast s) | s <- b] | b <- l2] ->
  loss_maestro a l1 = loss_maestro a l2.
Proof.
move=> e; rewrite /loss_maestro; case: load_weights => //= sd.
pose h (p : X * int) := cross_entropy lse pad (last [::] (logits sd p.1)) p.2.
have H l : collect (fun b => rmap (map -%R)
    (collect (fun s => cross_entropy lse pad (last_logits logits sd s) (last_target pad s)) b)) l =
    collect (fun b => rmap (map -%R) (collect h b)) [seq [seq (s.1, tlast s) | s <- b] | b <- l].
  elim: l => //= b l ->; congr (rbind (rmap _ _) _); elim: b => //= s b ->.
  by [].
by rewrite !H e.
Qed.

(* The evaluation pass used during training: with batches of one size and no padded target, the mean loss and
   the fraction of right predictions over all samples. *)
Theorem C55_eval_model sd loader n : (0 < n)%N -> (0 < size loader)%N -> uniform n loader ->
  all (fun s => (tlast s != pad) && is_class (zlast sd s) (tlast s)) (flatten loader) ->
  eval_model sd loader =
  Ok (Some (mean [seq nll lse (zlast sd s) `|tlast s|%N | s <- flatten loader]),
      (count (fun s => argmax (zlast sd s) == tlast s) (flatten loader))%:R / (size (flatten loader))%:R).
Proof.
move=> n0 l0 u al.
pose B b := [seq nll lse (zlast sd s) `|tlast s|%N | s <- b].
pose C b := (count (fun s => argmax (zlast sd s) == tlast s) b)%:R / n%:R : R.
have eb b : size b = n -> all (fun s => (tlast s != pad) && is_class (zlast sd s) (tlast s)) b ->
    eval_batch lse pad logits argmax sd b = Ok (Some (mean (B b)), C b).
  move=> sb ab; rewrite /eval_batch /ce_mean.
  have -> : zip [seq last_logits logits sd s | s <- b] [seq last_target pad s | s <- b] =
            [seq (zlast sd s, tlast s) | s <- b] by elim: b {sb ab} => //= s b ->.
  have -> : collect (fun p => cross_entropy lse pad p.1 p.2) [seq (zlast sd s, tlast s) | s <- b] = Ok (B b).
    elim: b ab {sb} => //= s b IH /andP [/andP [np ic] /IH ->]; rewrite /= /cross_entropy (negbTE np).
    by case: (tlast s) ic {np} => //= k lt; rewrite ltz_nat lt.
  have -> : count (predC (pred1 pad)) [seq last_target pad s | s <- b] = n.
    rewrite -sb; elim: b ab {sb} => //= s b IH /andP [/andP [np _] /IH ->].
    by rewrite -[last_target pad s]/(tlast s) np.
  rewrite /= eqn0Ngt n0 /=; congr (Ok (Some _, _)); first by rewrite /mean /B size_map sb.
  rewrite /accuracy /C.
  have -> : [seq p <- zip [seq argmax z | z <- [seq last_logits logits sd s | s <- b]]
             [seq last_target pad s | s <- b] | p.2 != pad] = [seq (argmax (zlast sd s), tlast s) | s <- b].
    elim: b ab {sb} => //= s b IH /andP [/andP [np _] /IH ->].
    by rewrite -[last_target pad s]/(tlast s) np.
  case: b sb ab => [|s b] sb ab; first by rewrite -sb in n0.
  rewrite [in size _]size_map sb; congr (_%:R / _).
  by rewrite count_map; apply: eq_count => x.
rewrite /EvalModel.eval_model.
have -> : forall x y, rfold (fun acc b => rmap (fun la => (oadd acc.1 la.1, acc.2 + la.2))
    (eval_batch lse pad logits argmax sd b)) (Some x, y) loader =
    Ok (Some (x + \sum_(b <- loader) mean (B b)), y + \sum_(b <- loader) C b).
  elim: loader u al {l0} => [|b l IH] /= u al x y; first by rewrite !big_nil !addr0.
  move: u al => /andP [/eqP sb u]; rewrite all_cat => /andP [ab al].
  by rewrite eb //= IH // !big_cons !addrA.
rewrite /=; case e: loader l0 => [//|b0 l'] _; rewrite -e !add0r /=; congr (Ok (Some _, _)).
  have -> : [seq nll lse (zlast sd s) `|tlast s|%N | s <- flatten loader] = flatten (map B loader).
    by rewrite map_flatten.
  rewrite (@mean_const_batches _ n) //; last first.
    by rewrite /uniform all_map; apply: sub_all u => b /= /eqP <-; rewrite size_map.
  by rewrite -map_comp /mean size_map big_map.
rewrite (uniform_total u) natrM invfM mulrA; congr (_ / _).
rewrite /C -mulr_suml; congr (_ / _); elim: loader {u al e} => [|b l IH]; first by rewrite big_nil.
by rewrite big_cons IH /= count_cat natrD.
Qed.

(* One batch whose last targets are all padding makes the average loss nan. *)
Theorem C55_eval_nan sd l1 b l2 r : all (fun s => tlast s == pad) b ->
  eval_model sd (l1 ++ b :: l2) = Ok r -> r.1 = None.
Proof.
move=> ab; rewrite /EvalModel.eval_model.
set F := fun acc b => _.
have nanF : forall l a r, rfold F (None, a) l = Ok r -> r.1 = None.
  elim=> [|b' l IH] a r' /=; first by case=> <-.
  by rewrite /F /=; case: eval_batch => //= x /IH.
have cF : forall l acc r, rfold F acc (l ++ b :: l2) = Ok r -> r.1 = None.
  elim=> [|b' l IH] acc r' /=.
    rewrite {1}/F /eval_batch /ce_mean.
    have -> : count (predC (pred1 pad)) [seq last_target pad s | s <- b] = 0%N.
      by rewrite count_map; apply/eqP; rewrite -leqn0 leqNgt -has_count -all_predC; apply: sub_all ab => s /= ->.
    case: (collect _ _) => //= x; case: acc.1 => [y|] /= /nanF //.
  by case: (F acc b') => //= s /IH.
case e: (rfold _ _ _) => [p|//] /=; have := cF _ _ _ e.
by case: p {e} => p1 p2 /= ->; case: l1 => [|? ?] /= [<-].
Qed.

(* The average is over batches, not over samples: it depends on how the samples are cut. *)
Theorem C55_eval_empty sd : eval_model sd [::] = Err ZeroDivisionError.
Proof. by []. Qed.
Theorem C55_maestro_refuses_models (a : arg) l :
  a = AObject SD \/ a = APath (Some (CkObject SD)) -> loss_maestro a l = Err TypeError.
Proof. by case=> ->. Qed.
End Music.

Section Text.
Variable token_losses : SD -> X -> seq R.
Notation loss_wikitext := (loss_wikitext fits token_losses).
(* The language-model function returns one value per batch, not one per sample ... *)
Theorem C55_wikitext_length sd loader r : all (fun b => 0 < size b)%N loader ->
  loss_wikitext (saved sd) loader = Ok r ->
  size r = size loader /\ (size r = size (flatten loader) <-> uniform 1 loader).
Proof.
move=> pos; rewrite /loss_wikitext /=; case: ifP => //= _.
case e: loader => [//|b l]; rewrite -e => h.
have {h} -> : r = [seq text_loss token_losses sd b | b <- loader].
  by move: h; rewrite e /= => -[<-]; congr (_ :: _); elim: l {e} => //= b' l ->.
rewrite size_map; split=> //; move: pos {e b l}.
have ge l : all (fun b : seq X => 0 < size b)%N l -> (size l <= size (flatten l))%N.
  by elim: l => //= c l IH /andP [c0 /IH]; rewrite size_cat; move: c0; clear; lia.
elim: loader => //= b l IH /andP [b0 al]; have {}IH := IH al; have {al} g := ge l al.
rewrite size_cat; case: (size b =P 1%N) => [->|ne] /=.
  by rewrite -IH; split=> [[]|->].
by split=> // e; move: e b0 ne g; clear; lia.
Qed.

(* ... the mean over the predicted tokens of the batch: the mean of the samples' own losses when all samples
   have the same number of tokens, hence the per-sample losses when the batches have one sample. *)
Theorem C55_wikitext_mean sd loader k : fits sd -> (0 < k)%N -> loader <> [::] ->
  all (fun b => 0 < size b)%N loader -> all (fun x => size (token_losses sd x) == k) (flatten loader) ->
  loss_wikitext (saved sd) loader =
  Ok [seq Some (mean [seq mean (token_losses sd x) | x <- b]) | b <- loader].
Proof.
move=> fi k0 ln pos al; rewrite /EvalModel.loss_wikitext /= fi /=.
have -> : [seq [:: text_loss token_losses sd b] | b <- loader] =
    [seq [:: x] | x <- [seq Some (mean [seq mean (token_losses sd x) | x <- b]) | b <- loader]].
  elim: loader pos al {ln} => //= b l IH /andP [b0 pl]; rewrite all_cat => /andP [ab al]; rewrite IH //.
  congr ([:: _] :: _); rewrite /text_loss.
  have u : uniform k [seq token_losses sd x | x <- b] by rewrite /uniform all_map.
  have := uniform_total u; rewrite size_map.
  case e: flatten => [|t ts]; rewrite -?e => sz.
    by move/esym/eqP: sz; rewrite e /= muln_eq0 !eqn0Ngt k0 b0.
  by congr Some; rewrite -[LHS]/(mean _) (mean_const_batches u) // -map_comp.
case: loader ln {pos al} => //= b l _; congr (Ok (_ :: _)).
by elim: l => //= c l ->.
Qed.
Theorem C55_wikitext_single sd (xs : seq X) k : fits sd -> (0 < k)%N -> xs <> [::] ->
  all (fun x => size (token_losses sd x) == k) xs ->
  loss_wikitext (saved sd) [seq [:: x] | x <- xs] = Ok [seq Some (mean (token_losses sd x)) | x <- xs].
Proof.
move=> fi k0 xn al; have fl : flatten [seq [:: x] | x <- xs] = xs by elim: xs {xn al} => //= x s ->.
rewrite (@C55_wikitext_mean sd _ k) ?fl //; last first.
- by rewrite all_map; elim: xs {xn al fl}.
- by case: xs xn {al fl}.
congr Ok; rewrite -map_comp; apply: eq_map => x /=; congr Some.
by rewrite {1}/mean big_cons big_nil addr0 divr1.
Qed.
Theorem C55_wikitext_refuses_models (a : arg) l :
  a = AObject SD \/ a = APath (Some (CkObject SD)) -> loss_wikitext a l = Err TypeError.
Proof. by case=> ->. Qed.
End Text.
End C55.

(* ---- concrete cases: samples are their own logits, logsumexp is replaced by the sum of the entries *)
Section Ex.
Let Q := [realFieldType of rat].
Let sm (z : seq rat) : rat := foldr +%R 0 z.
Let net (sd : unit) (z : seq rat) := z.
Let all_fit (sd : unit) := true.
Let ck : target_arg unit := APath (Some (CkState tt)).
Notation imagenet := (@loss_imagenet Q (seq rat) unit sm all_fit net).
Notation each := (@loss_each Q (seq rat) unit sm all_fit net).
Let a : seq rat * int := ([:: 1; 2%:R], 0).      (* loss 2 *)
Let b : seq rat * int := ([:: 3%:R; 1], 1).      (* loss 3 *)
Let c : seq rat * int := ([:: 4%:R; 0], 0).      (* loss 0 *)

Example C55_example_each : each ck [:: [:: a; b]; [:: c]] = Ok [:: 2%:R; 3%:R; 0] /\
                           each ck [:: [:: a]; [:: b; c]] = Ok [:: 2%:R; 3%:R; 0].
Proof. by split; vm_compute. Qed.
Example C55_example_bad : each ck [:: [:: a; ([:: 1; 2%:R], 2%:Z)]] = Err IndexError /\
                          each ck [:: [:: a; ([:: 1; 2%:R], - 100%:Z)]] = Ok [:: 2%:R; 0].
Proof. by split; vm_compute. Qed.

(* The same samples in one batch, in two, and one by one: three different answers, and only the first is the
   sum the documentation promises. *)
Theorem C55_imagenet_batching_refuted :
  [/\ imagenet ck [:: [:: a; b; c]] = Ok 5%:R,
      imagenet ck [:: [:: a; b]; [:: c]] = Ok (10%:R / 3%:R) &
      imagenet ck [:: [:: a]; [:: b]; [:: c]] = Ok (5%:R / 3%:R)].
Proof.
have p1 : nll (R := Q) sm (net tt a.1) `|a.2|%N = 2%:R by apply/eqP; vm_compute.
have p2 : nll (R := Q) sm (net tt b.1) `|b.2|%N = 3%:R by apply/eqP; vm_compute.
have p3 : nll (R := Q) sm (net tt c.1) `|c.2|%N = 0 by apply/eqP; vm_compute.
by split; rewrite C55_imagenet // /= !big_cons !big_nil p1 p2 p3; congr Ok; apply/eqP; vm_compute.
Qed.

(* The evaluation pass of the music transformer averages over batches. *)
Let mnet (sd : unit) (z : seq rat) := [:: [::]; z].
Notation emod := (@eval_model Q (seq rat) unit sm 9%:Z mnet (fun=> 0)).
Let ma : seq rat * seq int := ([:: 1; 2%:R], [:: 5%:Z; 0]).
Let mb : seq rat * seq int := ([:: 3%:R; 1], [:: 5%:Z; 1]).
Let mp : seq rat * seq int := ([:: 3%:R; 1], [:: 1; 9%:Z]).
Theorem C55_eval_batching_refuted :
  [/\ emod tt [:: [:: ma; ma; mb]] = Ok (Some (7%:R / 3%:R), 2%:R / 3%:R),
      emod tt [:: [:: ma; ma]; [:: mb]] = Ok (Some (5%:R / 2%:R), 1 / 2%:R) &
      emod tt [:: [:: ma; ma; mb]; [:: mp]] = Ok (None, 5%:R / 6%:R)].
Proof.
have E (rows : seq (seq rat)) ts : @ce_mean Q sm 9%:Z rows ts =
    rmap (fun ls => let n := count (predC (pred1 9%:Z)) ts in
                    if n == 0%N then None else Some (foldr +%R 0 ls / n%:R))
         (collect (fun p => @cross_entropy Q sm 9%:Z p.1 p.2) (zip rows ts)).
  rewrite /ce_mean; case: (collect _ _) => //= ls; congr Ok; case: (count _ ts) => //= n; congr (Some (_ / _)).
  by elim: ls => [|x l IH]; rewrite ?big_nil ?big_cons //= IH.
by split; rewrite /eval_model; cbn [rfold]; rewrite /eval_batch !E; vm_compute.
Qed.
Example C55_example_maestro : @loss_maestro Q (seq rat) unit sm all_fit 9%:Z mnet ck [:: [:: ma; mp]; [:: mb]] =
  Ok [:: - 2%:R; 0; - 3%:R].
Proof. by vm_compute. Qed.
Example C55_example_text : @loss_wikitext Q (seq rat) unit all_fit net ck [:: [:: [:: 1; 3%:R]; [:: 5%:R; 7%:R]]; [:: [:: 2%:R; 2%:R]]] =
  Ok [:: Some 4%:R; Some 2%:R].
Proof.
rewrite (@C55_wikitext_mean _ _ _ _ _ _ _ 2) //=; congr (Ok [:: Some _; Some _]);
  by rewrite /mean !big_cons !big_nil; apply/eqP; vm_compute.
Qed.
End Ex.

Print Assumptions C55_per_example.
Print Assumptions C55_batching.
Print Assumptions C55_bad_label.
Print Assumptions C55_imagenet.
Print Assumptions C55_imagenet_uniform.
Print Assumptions C55_refuses_models.
Print Assumptions C55_other_errors.
Print Assumptions C55_maestro.
Print Assumptions C55_maestro_batching.
Print Assumptions C55_maestro_last.
Print Assumptions C55_eval_model.
Print Assumptions C55_eval_nan.
Print Assumptions C55_eval_empty.
Print Assumptions C55_maestro_refuses_models.
Print Assumptions C55_wikitext_length.
Print Assumptions C55_wikitext_mean.
Print Assumptions C55_wikitext_single.
Print Assumptions C55_wikitext_refuses_models.
Print Assumptions C55_imagenet_batching_refuted.
Print Assumptions C55_eval_batching_refuted.
