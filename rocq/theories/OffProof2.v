(* Lemmas about the gradient dataloader and the two collate functions. *)
Set Warnings "-notation-overridden,-ambiguous-paths".
From mathcomp Require Import all_ssreflect all_algebra zify.
From Verif Require Import Py Dict Tensor TensorProof OffModel OffSpec OffProof.
Set Implicit Arguments. Unset Strict Implicit. Unset Printing Implicit Defensive.

(* chunking a list *)
Section Chunks.
Variable X : Type.
Lemma flatten_batches (s : seq X) bs d m :
  flatten [seq batch (Loader s bs d) k | k <- iota 0 m] = take (m * bs) s.
Proof.
elim: m => [|m IH]; first by rewrite take0.
rewrite iotaSr map_rcons flatten_rcons IH /batch /= mulSn addnC.
by rewrite -[X in _ = take _ X](cat_take_drop (m * bs)) takeD cat_take_drop.
Qed.
Lemma nbatches_ceil (s : seq X) bs : 0 < bs -> size s <= nbatches (Loader s bs false) * bs.
Proof. by move=> b; rewrite /nbatches /=; have := divn_eq (size s + bs.-1) bs; have := ltn_pmod (size s + bs.-1) b; lia. Qed.
Lemma flatten_all_batches (s : seq X) bs : 0 < bs ->
  flatten [seq batch (Loader s bs false) k | k <- iota 0 (nbatches (Loader s bs false))] = s.
Proof. by move=> b; rewrite flatten_batches take_oversize // nbatches_ceil. Qed.
Lemma size_chunk (s : seq X) bs k : size (batch (Loader s bs false) k) = minn bs (size s - k * bs).
Proof. by rewrite /batch /= size_take size_drop; case: ltnP; lia. Qed.
Lemma chunk_gt0 (s : seq X) bs k : 0 < bs -> k < nbatches (Loader s bs false) ->
  0 < size (batch (Loader s bs false) k).
Proof.
move=> b kn; rewrite size_chunk; have : k * bs < size s; last by lia.
have := leq_div2r bs; move: kn; rewrite /nbatches /=.
have := divn_eq (size s + bs.-1) bs; have := ltn_pmod (size s + bs.-1) b.
move: (_ %/ bs) (_ %% bs) => q r; nia.
Qed.
Lemma map_batch (Y : Type) (f : X -> Y) (s : seq X) bs d k :
  batch (Loader [seq f x | x <- s] bs d) k = [seq f x | x <- batch (Loader s bs d) k].
Proof. by rewrite /batch /= -map_drop -map_take. Qed.
Lemma map_nbatches (Y : Type) (f : X -> Y) (s : seq X) bs d :
  nbatches (Loader [seq f x | x <- s] bs d) = nbatches (Loader s bs d).
Proof. by rewrite /nbatches /= size_map. Qed.
End Chunks.

Section Collate.
Variable T : Type.
Notation t2 := (t2 T). Notation item := (item T).
Implicit Types (its : seq item) (it : item).

(* number of rows of the items before position i *)
Definition offset its i : nat := sumn [seq nrows it.1 | it <- take i its].

Lemma rows_cat (ts : seq t2) i c (se : nat * nat) :
  i < size ts -> se.2 <= nrows (nth (T2 0 [::]) ts i) ->
  let o := sumn [seq nrows t | t <- take i ts] in
  rows_at (T2 c (flatten [seq t2r t | t <- ts])) (o + se.1, o + se.1 + (se.2 - se.1)) =
  rows_at (nth (T2 0 [::]) ts i) se.
Proof.
rewrite /rows_at /=; elim: ts i => // t ts IH [|i] /= h1 h2.
  rewrite !add0n drop_cat; case: ltnP => h.
    have -> : se.1 + (se.2 - se.1) - se.1 = se.2 - se.1 by lia.
    by rewrite takel_cat // size_drop; move: h2; rewrite /nrows; lia.
  have e0 : se.2 - se.1 = 0 by move: h2 h; rewrite /nrows; lia.
  by rewrite e0 addn0 subnn !take0.
rewrite -(IH i) //= -!addnA drop_cat /nrows ltnNge leq_addr /= addKn.
congr (take _ (drop _ _)); lia.
Qed.

(* folding an entry list into the combined mapping *)
Lemma dget_fold (g : nat * nat -> nat * nat) (es m : dict nat_eqType (nat * nat)) b :
  uniq (dkeys es) ->
  dget (foldl (fun m e => dset m e.1 (g e.2)) m es) b =
  if dget es b is Some se then Some (g se) else dget m b.
Proof.
elim: es m => [|[k se] es IH] m //= /andP [nk u]; rewrite IH // dget_cons dgetE /=.
case e : (dget es b) => [se'|].
  by case: eqP => [kb|//]; case/negP: nk; rewrite kb; have := dget_mem e.
by rewrite eq_sym; case: eqP.
Qed.
Lemma dkeys_fold (g : nat * nat -> nat * nat) (es m : dict nat_eqType (nat * nat)) :
  uniq (dkeys m ++ dkeys es) ->
  dkeys (foldl (fun m e => dset m e.1 (g e.2)) m es) = dkeys m ++ dkeys es.
Proof.
elim: es m => [|[k se] es IH] m /=; first by rewrite cats0.
move=> u; have nk : dhas m k = false.
  by apply/negP => h; move: u; rewrite cat_uniq => /and3P [_ /hasPn /(_ k)]; rewrite inE eqxx => /(_ isT) /negP.
by rewrite IH dkeys_set nk cat_rcons.
Qed.

Section Fold.
(* [g o se]: range of an entry with rows se of an item starting at row o *)
Variable g : nat -> nat * nat -> nat * nat.
Definition cfold its o m := foldl (fun (om : nat * dict nat_eqType (nat * nat)) it =>
   (om.1 + nrows it.1, foldl (fun m e => dset m e.1 (g om.1 e.2)) om.2 it.2)) (o, m) its.
Lemma cfold_get its o m b :
  (forall it, List.In it its -> uniq (dkeys it.2)) ->
  (forall i, i < size its -> ~~ dhas (nth (T2 0 [::], [::]) its i).2 b) ->
  dget (cfold its o m).2 b = dget m b.
Proof.
rewrite /cfold; elim: its o m => //= it its IH o m u n.
rewrite IH; [|by move=> x xi; apply: u; right|by move=> i; exact: (n i.+1)].
rewrite dget_fold; last by apply: u; left.
by have := n 0 isT; rewrite dget_has /=; case: (dget it.2 b).
Qed.
Lemma cfold_at its o m i b se :
  (forall it, List.In it its -> uniq (dkeys it.2)) ->
  i < size its -> dget (nth (T2 0 [::], [::]) its i).2 b = Some se ->
  (forall i', i < i' -> i' < size its -> ~~ dhas (nth (T2 0 [::], [::]) its i').2 b) ->
  dget (cfold its o m).2 b = Some (g (o + offset its i) se).
Proof.
rewrite /cfold /offset; elim: its o m i => //= it its IH o m [|i] /= u li e last.
  rewrite -/(cfold its _ _) cfold_get.
  - by rewrite dget_fold ?e ?addn0 //; apply: u; left.
  - by move=> x xi; apply: u; right.
  - by move=> i; exact: (last i.+1).
rewrite (IH _ _ i) //; first by rewrite addnA.
- by move=> x xi; apply: u; right.
- by move=> i' h1 h2; exact: (last i'.+1).
Qed.
Lemma cfold_keys its o m :
  uniq (dkeys m ++ flatten [seq dkeys it.2 | it <- its]) ->
  dkeys (cfold its o m).2 = dkeys m ++ flatten [seq dkeys it.2 | it <- its].
Proof.
rewrite /cfold; elim: its o m => [|it its IH] o m /=; first by rewrite cats0.
rewrite catA => u; have u1 : uniq (dkeys m ++ dkeys it.2).
  by have := u; rewrite (cat_uniq (_ ++ _)); case/andP.
by rewrite IH dkeys_fold.
Qed.
End Fold.

Lemma cat0_ok (ts : seq t2) n : 0 < size ts -> all (fun t => t2c t == n) ts ->
  cat0 ts = Ok (T2 n (flatten [seq t2r t | t <- ts])).
Proof.
case: ts => // t ts _ h; rewrite /cat0.
have /eqP e : t2c t == n by case/andP: h.
by rewrite e h.
Qed.
Lemma In_nth its i x0 : i < size its -> List.In (nth x0 its i) its.
Proof. by elim: its i => // it its IH [|i] /= h; [left|right; apply: IH]. Qed.

(* one chunk of the in-memory loader *)
Variable c : dict nat_eqType t2.
Variable n : nat.
Hypothesis cols_c : forall b t, dget c b = Some t -> t2c t = n.

Lemma collate_memE bl : uniq bl -> 0 < size bl -> (forall b, b \in bl -> dhas c b) ->
  exists t m, [/\ collate_mem [seq get_item c b | b <- bl] = Ok (t, m), t2c t = n,
    dkeys m = bl, t2r t = flatten [seq t2r (get_item c b).1 | b <- bl] &
    forall b, b \in bl -> exists2 se, dget m b = Some se & rows_at t se = t2r (get_item c b).1].
Proof.
move=> u pos inc.
have cn b : b \in bl -> t2c (get_item c b).1 == n.
  by move/inc; rewrite dget_has /get_item; case e : (dget c b) => [t|//] _; rewrite /= (cols_c e).
have one b : rows_at (get_item c b).1 (0, nrows (get_item c b).1) = t2r (get_item c b).1.
  by rewrite /rows_at /= subn0 drop0 /nrows take_size.
case: bl u pos inc cn => // b0 [|b1 bl] u _ inc cn.
  exists (get_item c b0).1, (get_item c b0).2; split=> //=.
  - exact/eqP/cn/mem_head.
  - by rewrite cats0.
  by move=> b; rewrite inE => /eqP ->; exists (0, nrows (get_item c b0).1); rewrite ?one // dget_cons eqxx.
move: u inc cn; set l := [:: b0, b1 & bl] => u inc cn.
pose its := [seq get_item c b | b <- l].
have ce : collate_mem its = rbind (cat0 [seq it.1 | it <- its])
   (fun t => Ok (t, (cfold (fun o se => (o, o + (se.2 - se.1))) its 0 [::]).2)) by [].
have c0 : cat0 [seq it.1 | it <- its] = Ok (T2 n (flatten [seq t2r t | t <- [seq it.1 | it <- its]])).
  by apply: cat0_ok => //; rewrite all_map all_map; apply/allP => b bl'; exact: cn.
rewrite ce c0 /=; set m := (cfold _ _ _ _).2.
have fk : flatten [seq dkeys it.2 | it <- its] = l.
  by rewrite /its -map_comp; elim: (l) => //= b l' ->.
exists (T2 n (flatten [seq t2r t | t <- [seq it.1 | it <- its]])), m; split=> //.
- by rewrite /m cfold_keys fk ?cats0.
- by rewrite /= /its -!map_comp.
move=> b bl'; have il : index b l < size l by rewrite index_mem.
have nb : nth (T2 0 [::], [::]) its (index b l) = get_item c b.
  by rewrite (nth_map 0) // nth_index.
have gm : dget m b = Some (offset its (index b l), offset its (index b l) + nrows (get_item c b).1).
  rewrite /m (@cfold_at _ its 0 [::] (index b l) b (0, nrows (get_item c b).1)) ?size_map //.
  - by rewrite add0n subn0.
  - by move=> it; rewrite /its; elim: (l) => //= b' l' IH [<-|].
  - by rewrite nb /= dget_cons eqxx.
  move=> i' h1 h2; rewrite (nth_map 0) // /dhas /= inE; apply/eqP => e.
  by move: h1; rewrite e index_uniq // ltnn.
exists (offset its (index b l), offset its (index b l) + nrows (get_item c b).1) => //.
have := @rows_cat [seq it.1 | it <- its] (index b l) n (0, nrows (get_item c b).1).
rewrite !size_map (nth_map (T2 0 [::], [::])) ?size_map // nb => /(_ il (leqnn _)).
have -> : sumn [seq nrows t | t <- take (index b l) [seq it.1 | it <- its]] = offset its (index b l).
  by rewrite /offset -map_take -map_comp.
by rewrite one /= addn0 subn0.
Qed.
End Collate.
