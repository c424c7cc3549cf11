(* C61, continued: generation, parameter count and optimiser groups. *)
Set Warnings "-notation-overridden,-ambiguous-paths".
From mathcomp Require Import all_ssreflect all_algebra zify.
From Verif Require Import Py MtModel MtProof EvalModel GptModel GptSpec GptProof GptProps.
Set Implicit Arguments. Unset Strict Implicit. Unset Printing Implicit Defensive.
Import GRing.Theory Num.Theory Order.Theory.
Local Open Scope ring_scope.

Section Generation.
Variables (R : realFieldType) (ex gelu : R -> R) (lse : seq R -> R) (G : Type).
Variable multinomial : G -> seq (seq R) -> seq nat * G.
Notation vec := (seq R).
Notation gen := (generate ex gelu lse multinomial).

Lemma sorted_kth (s : vec) k x : sorted (fun a b => b <= a) s -> (0 < k <= size s)%N ->
  (x < nth 0 s k.-1) = (k <= count (fun y => (x < y)%R) s)%N.
Proof.
elim: s k => [|y s IH] [|k] //= ps; rewrite ltnS => hk.
have le_y i : (i < size s)%N -> nth 0 s i <= y.
  move=> hi; have tr : transitive (fun a b : R => b <= a) by move=> a b c ab bc; exact: le_trans bc ab.
  by move: ps; rewrite (path_sortedE tr) => /andP [/(all_nthP 0) h _]; exact: h.
case: (ltP x y) => xy /=.
  case: k hk => [|k] hk /=; first by rewrite xy.
  by rewrite add1n ltnS -(IH k.+1) //; exact: path_sorted ps.
have -> : count (fun y0 : R => x < y0) s = 0%N.
  apply/eqP; rewrite -leqn0 leqNgt -has_count; apply/negP => /(has_nthP 0) [i hi].
  by rewrite ltNge (le_trans (le_y _ hi) xy).
rewrite addn0 ltn0; apply/negbTE; rewrite -leNgt; case: k hk => [//|k] hk /=; exact: le_trans (le_y _ hk) xy.
Qed.
Lemma kthP k (z : vec) x : (0 < k <= size z)%N -> (x < kth k z) = (k <= better z x)%N.
Proof.
move=> hk; rewrite /kth sorted_kth ?size_sort //; last by apply: sort_sorted => a b; exact: le_total.
by rewrite /better (permP (permEl (perm_sort _ z))).
Qed.
Lemma better_lt (z : vec) c : (c < size z)%N -> (better z (nth 0%R z c) < size z)%N.
Proof.
move=> hc; rewrite /better -(count_predC (fun y => nth 0 z c < y) z) -[X in (X < _)%N]addn0 ltn_add2l -has_count.
by apply/(has_nthP 0); exists c => //=; rewrite ltxx.
Qed.
(* a token is kept when fewer than k logits are strictly larger; the kept ones share the probability *)
Lemma softmax_crop top_k (z : vec) : top_k != Some 0%N -> softmax ex (crop_logits top_k z) = dist ex top_k z.
Proof.
move=> tk; rewrite /softmax /dist; set e := [seq _ | o <- crop_logits top_k z].
pose w c := if eligible top_k z c then ex (nth 0 z c) else 0.
have ee : e = [seq w c | c <- iota 0 (size z)].
  rewrite /e; apply: (@eq_from_nth _ 0); first by rewrite !size_map size_iota /crop_logits; case: top_k {tk w e} => [k|]; rewrite ?size_map.
  rewrite size_map => i; have -> : size (crop_logits top_k z) = size z by rewrite /crop_logits; case: (top_k) => [k|]; rewrite size_map.
  move=> hi; rewrite [RHS](nth_map 0%N) ?size_iota // nth_iota // add0n /w /eligible /crop_logits.
  case: top_k tk {w e} => [k|_]; last by rewrite (nth_map None) ?size_map // (nth_map 0).
  rewrite (inj_eq Some_inj) => k0; rewrite (nth_map None) ?size_map // (nth_map 0) // kthP; last first.
    by rewrite leq_min lt0n k0 geq_minr /= (leq_ltn_trans _ hi).
  have := better_lt hi; rewrite geq_min => bl; rewrite [(size z <= _)%N]leqNgt bl orbF ltnNge; by case: leqP.
rewrite ee -map_comp; apply: eq_map => c /=; congr (_ / _).
by rewrite big_map -[size z in LHS]subn0 -/(index_iota 0 (size z)) big_mkord.
Qed.

Lemma len_minn (b t : nat) : (0 < b)%N -> (if (t <= b)%N then t else if b == 0%N then t else b) = minn t b.
Proof. by case: b => // b _; rewrite minnC /minn; case: leqP => // h; case: ltnP h => //; lia. Qed.
Lemma last_tokens_ok (n : gpt R) t idx : (0 < g_block n)%N -> tokens_ok n t idx ->
  tokens_ok n (minn t (g_block n)) [seq last_tokens (g_block n) r | r <- idx].
Proof.
move=> b0 h; rewrite /tokens_ok all_map; apply: sub_all h => r /= /andP [/eqP sr vr].
rewrite /last_tokens eqn0Ngt b0 size_drop sr.
apply/andP; split; first by rewrite minnE; apply/eqP; lia.
by apply/allP => c /mem_drop; exact: (allP vr).
Qed.
Lemma gen_stepP n temp top_k t g idx : wf_gpt n -> (0 < g_block n)%N -> (0 < t)%N -> tokens_ok n t idx ->
  temp != 0 -> top_k != Some 0%N ->
  let sg := multinomial g [seq dist ex top_k [seq x / temp | x <- next_logits ex gelu n r] | r <- idx] in
  gen_step ex gelu lse multinomial n temp top_k t g idx = Ok (sg.2, [seq rcons p.1 p.2 | p <- zip idx sg.1]).
Proof.
move=> wf b0 t0 ht hT tk /=; rewrite /gen_step.
have -> : (if (t <= g_block n)%N then idx else [seq last_tokens (g_block n) r | r <- idx]) = [seq last_tokens (g_block n) r | r <- idx].
  case: leqP => // tb; rewrite -[LHS]map_id; apply/eq_in_map => r /(allP ht) /andP [/eqP sr _].
  by rewrite /last_tokens sr (eqP tb) drop0 if_same.
rewrite len_minn // C61_inference //; last 2 first.
- by rewrite leq_min t0 b0 geq_minr.
- exact: last_tokens_ok.
cbn [rbind]; rewrite (negbTE tk) (negbTE hT) /= -!map_comp.
set ps := [seq _ | r <- idx]; set ps' := [seq _ | r <- idx].
have -> : ps = ps'; last by case: (multinomial g ps').
apply/eq_in_map => r hr /=; rewrite softmax_crop //; congr (dist _ _ (map _ _)).
have /andP [/eqP sr _] := allP ht _ hr.
by rewrite /next_logits /last_tokens eqn0Ngt b0 size_drop sr; congr gref; rewrite minnE; lia.
Qed.
Hypothesis ex0 : forall x, 0 < ex x.
Lemma best (z : vec) : (0 < size z)%N -> exists2 c, (c < size z)%N & better z (nth 0 z c) = 0%N.
Proof.
elim: z => [//|x z IH] _; case: z IH => [|y z] IH; first by exists 0%N; rewrite // /better /= ltxx.
have [c hc bc] := IH isT; have [h|h] := ltP (nth 0 (y :: z) c) x.
  exists 0%N => //; move: bc; rewrite /better [nth 0 (x :: _) 0]/= => bc; apply/eqP; rewrite -leqn0 -bc -[X in (_ <= X)%N]add0n.
  rewrite [X in (X <= _)%N](_ : _ = ((x < x)%R + count (fun y0 => (x < y0)%R) (y :: z))%N) // ltxx !add0n.
  by apply: sub_count => u /= hu; exact: lt_trans hu.
exists c.+1 => //; rewrite /better [nth 0 (x :: _) c.+1]/=.
rewrite [LHS](_ : _ = (nth 0%R (y :: z) c < x)%R + better (y :: z) (nth 0%R (y :: z) c))%N // bc addn0.
by rewrite ltNge h.
Qed.
Lemma dist_weights top_k (z : vec) : top_k != Some 0%N -> (0 < size z)%N -> weights (dist ex top_k z).
Proof.
move=> tk sz; rewrite /dist; pose w c := if eligible top_k z c then ex (nth 0 z c) else 0.
have w0 c : 0 <= w c by rewrite /w; case: ifP => // _; exact: ltW.
have [b hb e] := best sz.
have wb : 0 < w b by rewrite /w /eligible; case: (top_k) tk => [k|_] //; rewrite (inj_eq Some_inj) e lt0n => ->.
have s0 : 0 < \sum_(d < size z) w d.
  by rewrite (bigD1 (Ordinal hb)) //=; apply: ltr_paddr wb; apply: sumr_ge0.
rewrite /weights; apply/andP; split.
  by rewrite all_map; apply/allP => c _ /=; exact: divr_ge0 (w0 c) (ltW s0).
by rewrite has_map; apply/hasP; exists b; rewrite ?mem_iota //=; exact: divr_gt0 wb s0.
Qed.
Lemma rows_weights (n : gpt R) (temp : R) top_k t idx : (0 < t)%N -> tokens_ok n t idx -> top_k != Some 0%N ->
  all (@weights R) [seq dist ex top_k [seq x / temp | x <- next_logits ex gelu n r] | r <- idx].
Proof.
move=> t0 ht tk; rewrite all_map; apply/allP => r hr /=; apply: dist_weights => //; rewrite !size_map.
have /andP [/eqP sr] := allP ht _ hr; case: r sr {hr} => [|c r] /=; first by move=> e; move: t0; rewrite -e.
by move=> _ /andP [h _]; apply: leq_ltn_trans h.
Qed.
Lemma next_ok n temp top_k t g idx : draws multinomial -> (0 < t)%N -> top_k != Some 0%N -> tokens_ok n t idx ->
  let sg := multinomial g [seq dist ex top_k [seq x / temp | x <- next_logits ex gelu n r] | r <- idx] in
  size sg.1 = size idx /\ tokens_ok n t.+1 [seq rcons p.1 p.2 | p <- zip idx sg.1].
Proof.
move=> hm t0 tk ht /=; set ps := [seq _ | r <- idx]; have [] := hm g ps; first exact: (rows_weights _ t0).
rewrite size_map => sm hp; split=> //.
rewrite /tokens_ok all_map; apply/(all_nthP ([::], 0%N)) => i; rewrite size_zip sm minnn => hi /=.
rewrite nth_zip ?sm //= size_rcons all_rcons.
have /andP [/eqP -> ->] := all_nthP [::] ht i hi; rewrite eqxx andbT /=.
have [+ _] := hp i hi; rewrite mem_iota add0n /= => h; apply: leq_trans h _.
by rewrite (nth_map [::]) // /dist !size_map size_iota ?size_map.
Qed.

(* every new token is drawn from the distribution given by at most block_size preceding tokens *)
Theorem C61_generate n f temp top_k t g idx : wf_gpt n -> (0 < g_block n)%N -> (0 < t)%N -> tokens_ok n t idx ->
  draws multinomial -> temp != 0 -> top_k != Some 0%N ->
  gen n f temp top_k t g idx = Ok (ref_generate ex gelu multinomial n f temp top_k g idx).
Proof.
move=> wf b0 t0 ht hm hT tk; elim: f t g idx t0 ht => [|f IH] t g idx t0 ht //=.
rewrite gen_stepP //; cbn [rbind fst snd]; apply: IH => //; by have [] := next_ok temp g hm t0 tk ht.
Qed.
(* the prompt is kept, the new tokens are of the vocabulary, and each was eligible when it was drawn *)
Theorem C61_generated n f temp top_k t g idx g' out : wf_gpt n -> (0 < g_block n)%N -> (0 < t)%N -> tokens_ok n t idx ->
  draws multinomial -> temp != 0 -> top_k != Some 0%N -> gen n f temp top_k t g idx = Ok (g', out) ->
  [/\ size out = size idx, tokens_ok n (t + f) out, (forall i, take t (nth [::] out i) = nth [::] idx i)
    & forall i j, (i < size idx)%N -> (t <= j < t + f)%N ->
      let r := nth [::] out i in
      eligible top_k [seq x / temp | x <- next_logits ex gelu n (take j r)] (nth 0%N r j)].
Proof.
move=> wf b0 t0 ht hm hT tk; rewrite C61_generate // => -[].
elim: f t g idx t0 ht => [|f IH] t g idx t0 ht /=.
  move=> [_ <-]; split; rewrite ?addn0 //; last by move=> i j _; rewrite ltnNge; case: leqP.
  move=> i; have [hi|hi] := ltnP i (size idx); last by rewrite nth_default.
  by have /andP [/eqP <- _] := all_nthP [::] ht i hi; rewrite take_size.
set sg := multinomial g _ => e.
have [sz ok] := next_ok temp g hm t0 tk ht; rewrite -/sg in sz ok.
have [so to pr el] := IH t.+1 _ _ isT ok e.
have so' : size out = size idx by rewrite so size_map size_zip sz minnn.
have srow i : (i < size idx)%N -> size (nth [::] out i) = (t + f.+1)%N.
  by move=> hi; rewrite addnS -addSn; apply/eqP; have /andP [] := all_nthP [::] to i ltac:(by rewrite so').
have row i : (i < size idx)%N -> take t.+1 (nth [::] out i) = rcons (nth [::] idx i) (nth 0%N sg.1 i).
  by move=> hi; rewrite pr (nth_map ([::], 0%N)) ?size_zip ?sz ?minnn // nth_zip.
have pre i : (i < size idx)%N -> take t (nth [::] out i) = nth [::] idx i.
  move=> hi; have := row i hi; have /andP [/eqP sr _] := all_nthP [::] ht i hi.
  move=> h; have := congr1 (take t) h; rewrite take_take // -cats1 takel_cat ?sr // -sr take_size.
  by rewrite sr.
split=> //; first by rewrite addnS -addSn.
  move=> i; have [hi|hi] := ltnP i (size idx); first exact: pre.
  by rewrite !nth_default ?so'.
move=> i j hi /andP []; rewrite leq_eqVlt => /orP [/eqP <- _|tj jf] /=; last first.
  by apply: el; rewrite ?size_map ?size_zip ?sz ?minnn // tj addSnnS.
have /andP [/eqP sr _] := all_nthP [::] ht i hi.
have nt : nth 0%N (nth [::] out i) t = nth 0%N sg.1 i.
  by have := congr1 (fun s => nth 0%N s t) (row i hi); rewrite nth_take // nth_rcons sr ltnn eqxx.
rewrite pre // nt; have [_ hp] := hm g _ (rows_weights temp t0 ht tk).
have := hp i; rewrite size_map -/sg => /(_ hi) []; rewrite (nth_map [::]) // {1}/dist size_map size_iota mem_iota add0n => /= hc.
rewrite /dist (nth_map 0%N) ?size_iota // nth_iota // add0n; case: ifP => //; by rewrite mul0r eqxx.
Qed.
(* only the last block_size tokens of the prompt matter *)
Theorem C61_window n f temp top_k t t' g idx idx' : wf_gpt n -> (0 < g_block n)%N -> (g_block n <= t)%N -> (g_block n <= t')%N ->
  tokens_ok n t idx -> tokens_ok n t' idx' -> draws multinomial -> temp != 0 -> top_k != Some 0%N ->
  [seq drop (t - g_block n) r | r <- idx] = [seq drop (t' - g_block n) r | r <- idx'] ->
  exists g' new, gen n f temp top_k t g idx = Ok (g', [seq p.1 ++ p.2 | p <- zip idx new]) /\
                 gen n f temp top_k t' g idx' = Ok (g', [seq p.1 ++ p.2 | p <- zip idx' new]) /\ size new = size idx.
Proof.
move=> wf b0 bt bt' ht ht' hm hT tk; rewrite !C61_generate //; last 2 first.
- exact: leq_trans bt'.
- exact: leq_trans bt.
elim: f t t' g idx idx' bt bt' ht ht' => [|f IH] t t' g idx idx' bt bt' ht ht' e.
  have si : size idx = size idx' by have := congr1 size e; rewrite !size_map.
  have nil (s : seq (seq nat)) : [seq p.1 ++ p.2 | p <- zip s (nseq (size s) [::])] = s.
    by elim: s => [|r s IH] //=; rewrite cats0 IH.
  by exists g, (nseq (size idx) [::]); rewrite /= size_nseq nil {1}si nil.
have si : size idx = size idx' by have := congr1 size e; rewrite !size_map.
rewrite /=; set ps := [seq _ | r <- idx]; set ps' := [seq _ | r <- idx'].
have eps : ps = ps'.
  have nl u v w : (g_block n <= u)%N -> tokens_ok n u v -> w \in v -> next_logits ex gelu n w =
     gref ex gelu n (drop (u - g_block n) w) (g_block n).-1.
    move=> bu hv hw; have /andP [/eqP sw _] := allP hv _ hw; rewrite /next_logits sw; congr gref.
    by rewrite size_drop sw subKn.
  pose F c := dist ex top_k [seq x / temp | x <- gref ex gelu n c (g_block n).-1].
  have -> : ps = map F [seq drop (t - g_block n) r | r <- idx].
    by rewrite -map_comp; apply/eq_in_map => r hr /=; rewrite (nl t idx).
  have -> : ps' = map F [seq drop (t' - g_block n) r | r <- idx'].
    by rewrite -map_comp; apply/eq_in_map => r hr /=; rewrite (nl t' idx').
  by rewrite e.
rewrite -eps; set sg := multinomial g ps.
have [sz ok] := next_ok temp g hm (leq_trans b0 bt) tk ht; have [sz' ok'] := next_ok temp g hm (leq_trans b0 bt') tk ht'.
rewrite -/ps -/sg in sz ok; rewrite -/ps' -eps -/sg in sz' ok'.
have step u v : (g_block n <= u)%N -> tokens_ok n u v -> size sg.1 = size v ->
    [seq drop (u.+1 - g_block n) r | r <- [seq rcons p.1 p.2 | p <- zip v sg.1]]
    = [seq behead (rcons p.1 p.2) | p <- zip [seq drop (u - g_block n) r | r <- v] sg.1].
  move=> bu hv sv; apply: (@eq_from_nth _ [::]); first by rewrite !size_map !size_zip size_map.
  move=> i; rewrite !size_map size_zip sv minnn => hi.
  rewrite (nth_map [::]) ?size_map ?size_zip ?sv ?minnn // (nth_map ([::], 0%N)) ?size_zip ?sv ?minnn //.
  rewrite (nth_map ([::], 0%N)) ?size_zip ?size_map ?sv ?minnn // !nth_zip ?size_map //= (nth_map [::]) //.
  have /andP [/eqP sr _] := all_nthP [::] hv i hi; set r := nth [::] v i.
  rewrite -drop1 subSn // -addn1 addnC -drop_drop; congr drop; rewrite -!cats1 drop_cat sr.
  case: ltnP => // h; have -> : (u - g_block n = u)%N by move: h; clear; lia.
  by move: b0 h bu; clear; lia.
have [|g' [new [e1 [e2 sn]]]] := IH t.+1 t'.+1 sg.2 _ _ (leqW bt) (leqW bt') ok ok'.
  by rewrite !step // e.
exists g', [seq p.1 :: p.2 | p <- zip sg.1 new].
have join v : size sg.1 = size v -> [seq p.1 ++ p.2 | p <- zip [seq rcons p.1 p.2 | p <- zip v sg.1] new]
   = [seq p.1 ++ p.2 | p <- zip v [seq p.1 :: p.2 | p <- zip sg.1 new]].
  elim: v (sg.1) new {e1 e2 sn} => [|r v IHv] [|c s] [|w new] //= [sv]; by rewrite cat_rcons IHv.
rewrite e1 e2 !join ?sz ?sz' //; split=> //; split=> //.
by rewrite size_map size_zip sn size_map size_zip sz minnn minnn.
Qed.
(* top_k at least the vocabulary is no restriction; 0 and temperature 0 are errors *)
Theorem C61_topk_all n f temp k t g idx : wf_gpt n -> (0 < g_block n)%N -> (0 < t)%N -> tokens_ok n t idx ->
  draws multinomial -> temp != 0 -> (0 < k)%N -> (size (g_wte n) <= k)%N ->
  gen n f temp (Some k) t g idx = gen n f temp None t g idx.
Proof.
move=> wf b0 t0 ht hm hT k0 hk; rewrite !C61_generate //; last by rewrite (inj_eq Some_inj) -lt0n.
congr Ok; elim: f g idx {t t0 ht} => [|f IH] g idx //=.
have -> : [seq dist ex (Some k) [seq x / temp | x <- next_logits ex gelu n r] | r <- idx]
        = [seq dist ex None [seq x / temp | x <- next_logits ex gelu n r] | r <- idx]; last exact: IH.
apply: eq_map => r; set z := [seq x / temp | x <- next_logits ex gelu n r]; rewrite /dist.
have sz : size z = size (g_wte n) by rewrite !size_map.
have el c : (c < size z)%N -> eligible (Some k) z c by move=> hc; apply: leq_trans (better_lt hc) _; rewrite sz.
have -> : \sum_(d < size z) (if eligible (Some k) z d then ex (nth 0 z d) else 0) = \sum_(d < size z) ex (nth 0 z d).
  by apply: eq_bigr => d _; rewrite el.
by apply/eq_in_map => c; rewrite mem_iota add0n => hc; rewrite el.
Qed.
Theorem C61_generate_errors n f temp top_k t g idx : wf_gpt n -> tokens_ok n t idx ->
  [/\ gen n 0 temp top_k t g idx = Ok (g, idx),
      (t = 0%N -> gen n f.+1 temp top_k t g idx = Err IndexError),
      ((0 < t)%N -> g_block n = 0%N -> gen n f.+1 temp top_k t g idx = Err AssertionError),
      ((0 < t)%N -> (0 < g_block n)%N -> gen n f.+1 temp (Some 0%N) t g idx = Err IndexError)
    & ((0 < t)%N -> (0 < g_block n)%N -> top_k != Some 0%N -> gen n f.+1 0 top_k t g idx = Err RuntimeError)].
Proof.
move=> wf ht.
have e : (if (t <= g_block n)%N then idx else [seq last_tokens (g_block n) r | r <- idx]) = [seq last_tokens (g_block n) r | r <- idx].
  case: leqP => // tb; rewrite -[LHS]map_id; apply/eq_in_map => r /(allP ht) /andP [/eqP sr _].
  by rewrite /last_tokens sr (eqP tb) drop0 if_same.
have h' : (0 < t)%N -> (0 < g_block n)%N -> (0 < minn t (g_block n) <= g_block n)%N by move=> t0 b0; rewrite leq_min t0 b0 geq_minr.
split=> //.
- move=> t0; rewrite t0 /= /gen_step leq0n /=; by move: ht; rewrite t0 => ht; rewrite C61_no_tokens.
- move=> t0 b0; by rewrite /= /gen_step b0 leqn0 eqn0Ngt t0 /= /forward b0 t0.
- by move=> t0 b0; rewrite /= /gen_step e len_minn // C61_inference ?h' // last_tokens_ok.
- by move=> t0 b0 tk; rewrite /= /gen_step e len_minn // C61_inference ?h' ?last_tokens_ok //= (negbTE tk) eqxx.
Qed.
End Generation.

(* the number of parameters: the shared matrix is counted once, the position embeddings are left out *)
Theorem C61_num_params v bs l e (bias : bool) :
  let blk := (12 * e * e + 2 * e + (if bias then 11 * e else 0))%N in
  let rest := (e + (if bias then e else 0))%N in
  get_num_params v bs l e bias true = (v * e + l * blk + rest)%N /\
  get_num_params v bs l e bias false = (v * e + bs * e + l * blk + rest)%N.
Proof.
move=> blk rest; have eb i : sumn [seq numel p.2 | p <- block_params e bias i] = blk.
  by rewrite /block_params /both /blk; case: (bias); rewrite /numel /=; lia.
have ef : sumn [seq numel p.2 | p <- flatten [seq block_params e bias i | i <- iota 0 l]] = (l * blk)%N.
  move: (block_params e bias) eb => bp eb.
  elim: (l) 0%N => [|m IH] a //=; by rewrite map_cat sumn_cat IH mulSn eb.
have er : sumn [seq numel p.2 | p <- both bias LnF [:: e] [:: e]] = rest.
  by rewrite /both /rest; case: (bias); rewrite /numel /=; lia.
have tot : get_num_params v bs l e bias false = (v * e + bs * e + l * blk + rest)%N.
  have -> : get_num_params v bs l e bias false = (numel [:: v; e] + (numel [:: bs; e] +
      sumn [seq numel p.2 | p <- flatten [seq block_params e bias i | i <- iota 0 l] ++ both bias LnF [:: e] [:: e]]))%N by [].
  by rewrite map_cat sumn_cat ef er /numel /= !muln1 !addnA.
split=> //; have -> : get_num_params v bs l e bias true = (get_num_params v bs l e bias false - bs * e)%N by [].
by rewrite tot; move: (v * e)%N (bs * e)%N (l * blk)%N; clear; lia.
Qed.
(* weight decay goes to the matrices, exactly: the embeddings and the weights of linear layers; every parameter is in
   one group *)
Definition is_matrix (p : pname) : bool :=
  match p with Wte | Wpe | CAttn _ true | CProj _ true | CFc _ true | MProj _ true => true | _ => false end.
Theorem C61_decay wd v bs l e bias : let ps := named_parameters v bs l e bias in
  optim_groups wd ps = [:: ([seq p <- ps | is_matrix p.1], wd); ([seq p <- ps | ~~ is_matrix p.1], 0%N)].
Proof.
move=> ps; have h : all (fun p => (2 <= size p.2)%N == is_matrix p.1) ps.
  rewrite /ps /named_parameters /= all_cat; apply/andP; split; last by rewrite /both; case: (bias).
  have : forall i, all (fun p => (2 <= size p.2)%N == is_matrix p.1) (block_params e bias i).
    by move=> i; rewrite /block_params /both; case: (bias).
  move: (block_params e bias) (fun p : pname * seq nat => _) => bp P hb; elim: (l) 0%N => [|m IH] a //=; by rewrite all_cat IH hb.
rewrite /optim_groups; congr [:: (_, _); (_, _)]; elim: (ps) h => [|p s IH] //= /andP [/eqP <- hs]; rewrite IH //.
by rewrite ltnNge.
Qed.
(* what the constructor refuses *)
Theorem C61_construct l heads e : construct l heads e =
  if (l == 0)%N || ((0 < heads)%N && (heads %| e)%N) then Ok tt
  else if heads == 0%N then Err ZeroDivisionError else Err AssertionError.
Proof.
rewrite /construct; case: l => [|l] //=; rewrite /dvdn; case: heads => [|h] //=; case: eqP => //= _.
by elim: l 1%N => [|l IH] a //=.
Qed.

(* a network of one block with two heads, three tokens and two positions, with the mask in the buffer *)
Section Ex.
Let Q := [realFieldType of rat].
Let ex (x : Q) : Q := x * x + 1.
Let gelu (x : Q) : Q := if x < 0 then 0 else x.
Let lse (z : seq Q) : Q := foldr +%R 0 z.
Let pick (g : nat) (ps : seq (seq Q)) : seq nat * nat := ([seq find (fun x => 0 < x) p | p <- ps], g.+1).
Let at1 : affine Q := Affine [:: [:: 1; 0]; [:: 0; 1]; [:: 1; 1]; [:: 2%:R; 0]; [:: 1; -1]; [:: 0; 3%:R]] (Some (nseq 6 1)).
Let blk : block Q := Block id at1 (Affine [:: [:: 1; 0]; [:: 0; 1]] None) id
  (Affine (nseq 8 [:: 1; -1]) None) (Affine (nseq 2 (nseq 8 1)) None) (Some (tril 2)).
Let net : gpt Q := Gpt 2 2 2 1 [:: [:: 1; 2%:R]; [:: 0; 1]; [:: -1; 3%:R]] [:: [:: 0; 0]; [:: 1; 1]] [:: blk] id.
Let toks : seq (seq nat) := [:: [:: 0; 2]; [:: 1; 1]]%N.

Example ex_wf : wf_gpt net. Proof. by do 2!split=> //; split=> //; right. Qed.
Example ex_tokens : tokens_ok net 2 toks. Proof. by []. Qed.
Example ex_pos x : 0 < ex x. Proof. by rewrite /ex; apply: ltr_paddl => //; rewrite -expr2 sqr_ge0. Qed.
Example ex_draws : draws pick.
Proof.
move=> g ps h; split; first by rewrite size_map.
move=> i hi; have /andP [_ hp] := all_nthP [::] h i hi; rewrite (nth_map [::]) // mem_iota add0n /= -has_find hp; split=> //.
by rewrite gt_eqF // (nth_find 0 hp).
Qed.
Example ex_forward : rmap fst (forward ex gelu lse net 2 toks None) = Ok [seq [:: gref ex gelu net t 1] | t <- toks].
Proof. by rewrite C61_inference //; exact: ex_wf. Qed.
(* targets with -1, a prefix, and the flash variant: the hypotheses are met *)
Example ex_loss : forward ex gelu lse net 2 toks (Some [:: [:: 2; -1]; [:: 0; 1]])
  = Ok ([seq [seq gref ex gelu net t i | i <- iota 0 2] | t <- toks],
        Some (gref_loss lse (flatten [seq [seq gref ex gelu net t i | i <- iota 0 2] | t <- toks]) [:: 2; -1; 0; 1])).
Proof. by apply: C61_forward => //; exact: ex_wf. Qed.
Example ex_crop : exists n' : gpt Q, crop_block_size net 1 = Ok n' /\ k_mask (head blk (g_blocks n')) = Some [:: [:: true]].
Proof. by eexists. Qed.
(* three new tokens, the context being cropped, two tokens eligible *)
Example ex_generate : generate ex gelu lse pick net 3 2%:R (Some 2%N) 2 0%N toks
  = Ok (ref_generate ex gelu pick net 3 2%:R (Some 2%N) 0%N toks).
Proof. apply: C61_generate => //; [exact: ex_pos|exact: ex_wf|exact: ex_draws]. Qed.
Example ex_eligible : [seq eligible (Some 2%N) ([:: 3%:R; 1; 3%:R; 2%:R; 3%:R] : seq Q) c | c <- iota 0 5] = [:: true; false; true; false; true].
Proof. by vm_compute. Qed.
End Ex.
Example ex_params : get_num_params 50304 1024 12 768 true true = (50304 * 768 + 12 * (12 * 768 * 768 + 13 * 768) + 2 * 768)%N.
Proof. by have [-> _] := C61_num_params 50304 1024 12 768 true; lia. Qed.
Example ex_decay : [seq size p.1 | p <- optim_groups 1 (named_parameters 5 4 2 6 true)] = [:: 10; 18]%N.
Proof. by []. Qed.
Print Assumptions C61_generate.
Print Assumptions C61_generated.
Print Assumptions C61_window.
Print Assumptions C61_topk_all.
Print Assumptions C61_generate_errors.
Print Assumptions C61_num_params.
Print Assumptions C61_decay.
Print Assumptions C61_construct.
