Set Warnings "-notation-overridden,-ambiguous-paths".
From mathcomp Require Import all_ssreflect all_algebra zify.
From Verif Require Import Py Tensor TensorProof AttrProof FieldSupport LinAlg DataInfModel DataInfSpec.
Set Implicit Arguments. Unset Strict Implicit. Unset Printing Implicit Defensive.
Import Order.TTheory GRing.Theory Num.Theory.
Local Open Scope ring_scope.

Section S.
Variable F : realFieldType.

Lemma rank1_mul d (v g h : 'rV[F]_d) : v *m (g^T *m h) = (v *m g^T) 0 0 *: h.
Proof. by rewrite mulmxA {1}[v *m g^T]mx11_scalar mul_scalar_mx. Qed.

Lemma single_inv d (reg : F) (v g : 'rV[F]_d) : 0 < reg ->
  single reg v g = v *m invmx (g^T *m g + reg%:M).
Proof.
move=> r0; have hu : g^T *m g + reg%:M \in unitmx by exact: gram_reg_unit.
suff H : single reg v g *m (g^T *m g + reg%:M) = v by rewrite -{2}H mulmxK.
have r1 : reg != 0 by rewrite gt_eqF.
have r2 : reg + (g *m g^T) 0 0 != 0 by rewrite gt_eqF // ltr_paddr // sqnorm_ge0.
rewrite /single -scalemxAl mulmxDr mul_mx_scalar rank1_mul mulmxBl.
have mE (A B : 'M[F]_1) c : (A - c *: B) 0 0 = A 0 0 - c * B 0 0 by rewrite !mxE.
rewrite -scalemxAl mE; move: r2; set a := (v *m g^T) 0 0; set b := (g *m g^T) 0 0 => r2.
set c := a / _; rewrite [reg *: _]scalerBr addrCA !scalerA -scalerBl scalerDr !scalerA mulVf // scale1r.
suff -> : a - c * b - reg * c = 0 by rewrite mulr0 scale0r addr0.
by rewrite -addrA -opprD [reg * c]mulrC -mulrDr [b + _]addrC divfK // subrr.
Qed.

Lemma split_cat A b (s : seq A) : (0 < b)%N -> flatten (split b s) = s.
Proof.
move=> hb; rewrite /split; move: (leqnn (size s)); move: {2 3}(size s) => f.
elim: f s => [|f IH] [|x s] //= h; rewrite IH; first by rewrite cat_take_drop.
by rewrite size_drop /=; lia.
Qed.

Lemma layer_transform_ok d (reg : F) (vs gs : seq 'rV[F]_d) : 0 < reg -> vs <> [::] ->
  layer_transform reg vs gs = [seq datainf_spec reg gs v | v <- vs].
Proof.
move=> r0 nv; rewrite /layer_transform.
have hb : (0 < size vs)%N by case: vs nv.
set f := (fun run chunk => _).
have H chs (w : 'rV[F]_d -> 'rV[F]_d) :
   foldl f [seq w v | v <- vs] chs
   = [seq w v + \sum_(g <- flatten chs) single reg v g | v <- vs].
  elim: chs w => [|c chs IH] w /=; first by apply: eq_map => v; rewrite big_nil addr0.
  rewrite {2}/f zip_map2 -map_comp (IH (fun v => w v + \sum_(g <- c) single reg v g)).
  by apply: eq_map => v; rewrite big_cat addrA.
have -> : nseq (size vs) 0 = [seq (fun=> 0) v | v <- vs] :> seq 'rV[F]_d by elim: (vs) => //= a s ->.
rewrite H -map_comp split_cat //; apply: eq_map => v /=; rewrite add0r /datainf_spec.
by congr (_ *: _); apply: eq_bigr => g _; rewrite single_inv.
Qed.

Lemma size_unrow d (u : 'rV[F]_d) : size (unrow u) = d.
Proof. by rewrite size_map size_enum_ord. Qed.
Lemma nth_unrow d (u : 'rV[F]_d) (k : 'I_d) : nth 0 (unrow u) k = u 0 k.
Proof. by rewrite (nth_map k) ?size_enum_ord // nth_ord_enum. Qed.

(* what the glued rows look like *)
Definition glue (T : nat -> nat -> seq F) (sls : seq (nat * nat)) : seq F :=
  flatten [seq T sl.1 sl.2 | sl <- sls].

Lemma datainf_rows reg sizes gs vs : 0 < odflt (1 / 10%:R) reg -> vs <> [::] ->
  datainf_transform reg sizes (Some gs) vs
  = Ok (Some [seq glue (fun a d => unrow (datainf_spec (odflt (1 / 10%:R) reg)
                 [seq slice g a d | g <- gs] (slice v a d)))
               (layer_slices (size (head [::] vs)) 0 sizes) | v <- vs]).
Proof.
move=> r0 nv; rewrite /datainf_transform gt_eqF //; congr (Ok (Some _)).
elim: (layer_slices _ _ _) => [|[a d] sls IH] /=.
  by elim: (vs) => //= v s ->.
rewrite IH layer_transform_ok //; last by case: (vs) nv.
by rewrite -!map_comp zip_map2 -map_comp; apply: eq_map.
Qed.

(* consecutive slices: the blocks of the glued row sit where the slices say *)
Lemma layer_slices_le len cur sizes sl : sl \in layer_slices len cur sizes ->
  (minn cur len <= sl.1)%N /\ (sl.1 + sl.2 <= len)%N.
Proof.
elim: sizes cur => //= s sizes IH cur; rewrite inE => /orP [/eqP -> /=|/IH []]; lia.
Qed.

Lemma size_glue T len cur sizes : (forall a d, size (T a d) = d) ->
  size (glue T (layer_slices len cur sizes)) = (minn (cur + sumn sizes) len - minn cur len)%N.
Proof.
move=> hT; elim: sizes cur => [|s sizes IH] cur; first by rewrite addn0 subnn.
rewrite /glue /= size_cat hT -[size (flatten _)]/(size (glue T _)) IH; lia.
Qed.

Lemma nth_glue T len cur sizes sl k : (forall a d, size (T a d) = d) ->
  sl \in layer_slices len cur sizes -> (k < sl.2)%N ->
  nth 0 (glue T (layer_slices len cur sizes)) (sl.1 + k - minn cur len) = nth 0 (T sl.1 sl.2) k.
Proof.
move=> hT; elim: sizes cur => //= s sizes IH cur; rewrite inE => /orP [/eqP -> /= hk|hin hk].
  by rewrite /glue /= nth_cat hT; case: ifP => [_|]; [congr (nth _ _ _)|]; lia.
have [h1 h2] := layer_slices_le hin.
rewrite /glue /= nth_cat hT -[flatten _]/(glue T _).
have -> : (sl.1 + k - minn cur len < minn (cur + s) len - minn cur len)%N = false by lia.
rewrite -(IH (cur + s)%N) //; congr (nth _ _ _); lia.
Qed.
End S.

Section LM.
Variable N : eqType.
Implicit Type ps : seq (N * nat).

Definition lm_step := (fun (st : option N * nat * seq nat) (p : N * nat) =>
     let: (cur, idx, out) := st in
     let idx' := if Some p.1 == cur then idx else idx.+1 in
     (Some p.1, idx', rcons out idx'.-1)).

Lemma lm_fold ps : foldl lm_step (None, 0%N, [::]) ps
  = (if ps is p :: ps' then Some (last p ps').1 else None,
     if ps is p :: ps' then (last 0%N (layer_map ps)).+1 else 0%N, layer_map ps).
Proof.
rewrite /layer_map -/lm_step.
have H : forall qs, (foldl lm_step (None, 0%N, [::]) qs).1.1
    = (if qs is p :: ps' then Some (last p ps').1 else None).
  by elim/last_ind => // qs q _; rewrite foldl_rcons; case: (foldl _ _ _) => [[c i] o] /=;
     case: qs => //= p ps'; rewrite last_rcons.
have K : forall qs, qs <> [::] -> (foldl lm_step (None, 0%N, [::]) qs).1.2
    = (last 0%N (foldl lm_step (None, 0%N, [::]) qs).2).+1.
  elim/last_ind => // qs q IH _; rewrite foldl_rcons.
  case: qs IH => [|p ps'] IH; first by [].
  have {IH} := IH (fun e => match e with end).
  move: (foldl _ _ (p :: ps')) => -[[c i] o] /= ->; rewrite last_rcons.
  by case: ifP.
case: ps => // p ps'; move: (H (p :: ps')) (K (p :: ps') (fun e => match e with end)).
by move: (foldl _ _ (p :: ps')) => -[[c i] o] /= -> ->.
Qed.

Lemma layer_map_rcons ps p : layer_map (rcons ps p)
  = rcons (layer_map ps) (if ps is q :: ps' then (last 0 (layer_map ps) + (p.1 != (last q ps').1))%N else 0%N).
Proof.
rewrite {1}/layer_map -/lm_step foldl_rcons lm_fold /=; congr rcons.
case: ps => //= q ps'; rewrite -[Some p.1 == _]/(p.1 == _).
by case: eqP => /= _; rewrite ?addn0 ?addn1.
Qed.

Lemma size_layer_map ps : size (layer_map ps) = size ps.
Proof. by elim/last_ind: ps => // ps p IH; rewrite layer_map_rcons !size_rcons IH. Qed.

Lemma layer_map_nth ps p0 i : (i < size ps)%N ->
  nth 0%N (layer_map ps) i
  = if i is j.+1 then (nth 0 (layer_map ps) j + ((nth p0 ps j.+1).1 != (nth p0 ps j).1))%N else 0%N.
Proof.
elim/last_ind: ps i => // ps p IH i; rewrite size_rcons ltnS leq_eqVlt => /orP [/eqP ->|h].
  rewrite layer_map_rcons nth_rcons size_layer_map ltnn eqxx.
  case: ps {IH} => // q ps' /=.
  have -> : nth p0 (q :: rcons ps' p) (size ps') = last q ps'.
    by rewrite -rcons_cons nth_rcons /= ltnSn (last_nth q) (set_nth_default q) /=.
  rewrite [nth p0 _ _]nth_rcons ltnn eqxx nth_rcons size_layer_map /= ltnSn; congr (_ + _)%N.
  by rewrite -nth_last size_layer_map.
rewrite layer_map_rcons nth_rcons size_layer_map h IH //; case: i h => // j h.
by rewrite !nth_rcons size_layer_map h (ltnW h).
Qed.

Lemma layer_map_bound ps i : (i < size ps)%N -> (nth 0%N (layer_map ps) i <= last 0%N (layer_map ps))%N.
Proof.
elim/last_ind: ps i => // ps p IH i; rewrite size_rcons ltnS leq_eqVlt => /orP [/eqP ->|h].
  by rewrite layer_map_rcons nth_rcons size_layer_map ltnn eqxx last_rcons.
rewrite layer_map_rcons nth_rcons size_layer_map h last_rcons.
apply: leq_trans (IH _ h) _; case: (ps) => // q ps'; exact: leq_addr.
Qed.

Lemma fold_add (zs : seq (nat * nat)) acc : all (fun z => z.1 < size acc)%N zs ->
  let r := foldl (fun acc im => set_nth 0%N acc im.1 (nth 0%N acc im.1 + im.2)%N) acc zs in
  size r = size acc /\ forall k, nth 0%N r k = (nth 0%N acc k + \sum_(z <- zs | z.1 == k) z.2)%N.
Proof.
elim: zs acc => [|z zs IH] acc /=; first by split=> // k; rewrite big_nil addn0.
move=> /andP [h1 h2]; have e : size (set_nth 0%N acc z.1 (nth 0%N acc z.1 + z.2)%N) = size acc.
  by rewrite size_set_nth; apply/maxn_idPr.
have [|s1 s2] := IH (set_nth 0%N acc z.1 (nth 0%N acc z.1 + z.2)%N); first by rewrite e.
split=> [|k]; first by rewrite s1 e.
rewrite s2 nth_set_nth /= big_cons eq_sym; case: eqP => [->|_] //; by rewrite addnA.
Qed.

Lemma split_sizesP ps : ps <> [::] ->
  size (split_sizes ps) = (last 0%N (layer_map ps)).+1 /\
  forall k, nth 0%N (split_sizes ps) k
    = (\sum_(i < size ps | nth 0%N (layer_map ps) i == k) nth 0%N (unzip2 ps) i)%N.
Proof.
move=> ne; have hz : size (zip (layer_map ps) (unzip2 ps)) = size ps.
  by rewrite size_zip size_layer_map size_map minnn.
have [|s1 s2] := @fold_add (zip (layer_map ps) (unzip2 ps)) (nseq (last 0%N (layer_map ps)).+1 0%N).
  rewrite size_nseq; apply/(all_nthP (0%N, 0%N)) => i; rewrite hz => hi.
  by rewrite nth_zip ?size_layer_map ?size_map //= ltnS layer_map_bound.
rewrite /split_sizes; split; first by rewrite s1 size_nseq.
move=> k; rewrite s2 nth_nseq if_same add0n (big_nth (0%N, 0%N)) hz big_mkord.
by apply: eq_big => i; rewrite nth_zip ?size_layer_map ?size_map.
Qed.

Lemma fold_add_sum (zs : seq (nat * nat)) acc : all (fun z => z.1 < size acc)%N zs ->
  sumn (foldl (fun acc im => set_nth 0%N acc im.1 (nth 0%N acc im.1 + im.2)%N) acc zs)
  = (sumn acc + \sum_(z <- zs) z.2)%N.
Proof.
elim: zs acc => [|z zs IH] acc /=; first by rewrite big_nil addn0.
move=> /andP [h1 h2]; have e : size (set_nth 0%N acc z.1 (nth 0%N acc z.1 + z.2)%N) = size acc.
  by rewrite size_set_nth; apply/maxn_idPr.
rewrite IH ?e // big_cons addnA; congr (_ + _)%N.
by elim: acc (z.1) h1 {IH h2 e} => //= a acc IH [|k] /= h; [lia|rewrite IH; lia].
Qed.

Lemma sumn_split_sizes ps : ps <> [::] -> sumn (split_sizes ps) = sumn (unzip2 ps).
Proof.
move=> ne; have hz : size (zip (layer_map ps) (unzip2 ps)) = size ps.
  by rewrite size_zip size_layer_map size_map minnn.
rewrite /split_sizes fold_add_sum; last first.
  rewrite size_nseq; apply/(all_nthP (0%N, 0%N)) => i; rewrite hz => hi.
  by rewrite nth_zip ?size_layer_map ?size_map //= ltnS layer_map_bound.
rewrite sumn_nseq mul0n add0n -(big_map snd xpredT id) -/(unzip2 _) unzip2_zip ?size_map ?size_layer_map //.
by rewrite sumnE.
Qed.
End LM.
