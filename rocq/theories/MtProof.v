(* Lemmas for C54. *)
Set Warnings "-notation-overridden,-ambiguous-paths".
From mathcomp Require Import all_ssreflect all_algebra zify.
From Verif Require Import Py MtModel MtSpec.
Set Implicit Arguments. Unset Strict Implicit. Unset Printing Implicit Defensive.
Import GRing.Theory Num.Theory Order.Theory.

Section Lists.
Variable T : Type.
Implicit Types (s : seq T) (z : seq (seq T)).
Lemma viewS n m s : view n.+1 m s = take m s :: view n m (drop m s).
Proof.
rewrite /view /= mul0n drop0; congr (_ :: _); rewrite -[1]addn0 iotaDl -map_comp; apply: eq_map => i /=.
by rewrite drop_drop add1n mulSn addnC.
Qed.
Lemma size_view n m s : size (view n m s) = n.
Proof. by rewrite size_map size_iota. Qed.
Lemma view_id m z : all (fun r => size r == m) z -> view (size z) m (flatten z) = z.
Proof.
elim: z => [|r z IH] //= /andP [/eqP e h]; rewrite viewS take_size_cat // drop_size_cat //; by rewrite IH.
Qed.
Lemma view_cat a m s t : size s = a * m -> view a m (s ++ t) = view a m s.
Proof.
move=> e; apply/eq_in_map => i; rewrite mem_iota add0n => /= hi.
have hi1 : i * m + m <= size s by rewrite e -mulSnr leq_mul2r hi orbT.
rewrite drop_cat; case: ltnP => h; last first.
  have m0 : m = 0 by move: hi1 h; clear; lia.
  by rewrite m0 !take0.
by rewrite takel_cat // size_drop; move: hi1 h; clear; lia.
Qed.
Lemma viewD a b m s : view (a + b) m s = view a m s ++ view b m (drop (a * m) s).
Proof.
rewrite /view iotaD map_cat add0n; congr (_ ++ _); rewrite -[a in iota a]addn0 iotaDl -map_comp.
by apply: eq_map => i /=; rewrite drop_drop mulnDl addnC.
Qed.
Lemma view_split h hd z : all (fun r => size r == h * hd) z ->
  view (size z * h) hd (flatten z) = flatten [seq view h hd r | r <- z].
Proof.
elim: z => [|r z IH] //= /andP [/eqP e a].
by rewrite mulSn viewD view_cat // drop_size_cat // IH.
Qed.
End Lists.
Section Lists2.
Variable T : Type.
Implicit Types (s : seq T) (z : seq (seq T)).
Lemma take_flatten h hd z : all (fun r => size r == hd) z -> take (h * hd) (flatten z) = flatten (take h z).
Proof.
elim: z h => [|r z IH] [|h] //=; first by rewrite mul0n take0.
move=> /andP [/eqP e a]; rewrite mulSn take_cat e ltnNge leq_addr /= addKn IH //.
Qed.
Lemma drop_flatten h hd z : all (fun r => size r == hd) z -> drop (h * hd) (flatten z) = flatten (drop h z).
Proof.
elim: z h => [|r z IH] [|h] //=; first by rewrite mul0n drop0.
move=> /andP [/eqP e a]; rewrite mulSn drop_cat e ltnNge leq_addr /= addKn IH //.
Qed.
Lemma view_join k h hd z : all (fun r => size r == hd) z -> size z = k * h ->
  view k (h * hd) (flatten z) = [seq flatten r | r <- view k h z].
Proof.
elim: k z => [|k IH] z a e //; rewrite viewS [in RHS]viewS take_flatten // drop_flatten // IH //.
  by move: a; rewrite -{1}(cat_take_drop h z) all_cat => /andP [].
by rewrite size_drop e mulSn addKn.
Qed.
Lemma nth_flat h z (d : T) n : all (fun r => size r == h) z -> n < size z * h ->
  nth d (flatten z) n = nth d (nth [::] z (n %/ h)) (n %% h).
Proof.
elim: z n => [|r z IH] n //= /andP [/eqP e a] hn; rewrite nth_cat e; case: ltnP => lt.
  by rewrite divn_small // modn_small.
have h0 : 0 < h by case: (h) hn => //; rewrite muln0.
rewrite IH //; last by move: hn lt; clear; lia.
rewrite -{3 4}(subnK lt) modnDr divnDr ?divnn ?dvdnn // h0 addn1 //.
Qed.
End Lists2.

Section Res.
Variables (A B : Type).
Lemma rfold_rcons (f : A -> res B) s acc :
  rfold (fun acc x => rmap (rcons acc) (f x)) acc s = rmap (fun t => acc ++ t) (traverse f s).
Proof.
rewrite /traverse; elim: s acc => [|x s IH] acc /=; first by rewrite cats0.
case: (f x) => //= y; rewrite IH [in RHS]IH; case: (rfold _ _ _) => //= t; by rewrite cat_rcons.
Qed.
Lemma traverse_cons (f : A -> res B) x s : traverse f (x :: s) = rbind (f x) (fun y => rmap (cons y) (traverse f s)).
Proof. by rewrite /traverse /=; case: (f x) => //= y; rewrite rfold_rcons. Qed.
End Res.
Lemma traverse_in (A : eqType) B (f : A -> res B) g s : {in s, forall x, f x = Ok (g x)} -> traverse f s = Ok (map g s).
Proof.
elim: s => [|x s IH] h //; rewrite traverse_cons h ?mem_head //= IH // => y hy; by rewrite h // inE hy orbT.
Qed.

Section Attend.
Local Open Scope ring_scope.
Variables (R : fieldType) (ex relu : R -> R).
Notation vec := (seq R).
Lemma divmod_at (n q r d : nat) : n = (q * d + r)%N -> (r < d)%N -> (n %/ d)%N = q /\ (n %% d)%N = r.
Proof.
by move=> -> h; rewrite divnMDl ?modnMDl ?divn_small ?modn_small ?addn0 //; apply: leq_ltn_trans h.
Qed.
Lemma skewP (qe : seq vec) : all (fun r => size r == size qe) qe ->
  exists2 srel, skew qe (size qe) = Ok srel &
    forall i j, (i < size qe)%N -> (j < size qe)%N ->
      nth 0 (nth [::] srel i) j = if (j <= i)%N then nth 0 (nth [::] qe i) ((size qe).-1 - (i - j)) else 0.
Proof.
move=> h; rewrite /skew eqxx orTb; set sz := size qe.
set wide := [seq _ | r <- qe]; have -> : wide = qe by apply: map_id.
set masked := [seq _ | mr <- zip _ _]; set padded := [seq 0 :: r | r <- masked].
eexists; first by [].
have srt : size (rev (tri R sz)) = sz by rewrite size_rev size_map size_iota.
have sm : size masked = sz by rewrite size_map size_zip srt minnn.
have nr i : (i < sz)%N -> size (nth [::] qe i) = sz by move=> hi; apply/eqP/(all_nthP [::] h).
have nm i c : (i < sz)%N -> (c < sz)%N ->
    nth 0 (nth [::] masked i) c = (if (sz - i.+1 <= c)%N then 1 else 0) * nth 0 (nth [::] qe i) c.
  move=> hi hc; rewrite (nth_map ([::], [::])) ?size_zip ?srt ?minnn // nth_zip ?srt //=.
  have ht : nth [::] (rev (tri R sz)) i = [seq if (sz - i.+1 <= c)%N then 1 else 0 | c <- iota 0 sz].
    rewrite nth_rev ?size_map ?size_iota // (nth_map 0%N) ?size_iota ?nth_iota //; move: hi; clear; lia.
  rewrite (nth_map (0, 0)) ?size_zip ?ht ?size_map ?size_iota ?nr ?minnn // nth_zip ?size_map ?size_iota ?nr //=.
  by rewrite (nth_map 0%N) ?size_iota // nth_iota.
have sr i : (i < sz)%N -> size (nth [::] masked i) = sz.
  move=> hi; rewrite (nth_map ([::], [::])) ?size_zip ?srt ?minnn // nth_zip ?srt //= size_map size_zip nr //.
  rewrite nth_rev ?size_map ?size_iota // (nth_map 0%N) ?size_iota ?size_map ?size_iota ?minnn //; move: hi; clear; lia.
have ap : all (fun r : vec => size r == sz.+1) padded.
  apply/(all_nthP [::]) => i; rewrite size_map sm => hi; by rewrite (nth_map [::]) ?sm //= sr.
move=> i j hi hj; rewrite nth_behead (nth_map 0%N) ?size_iota // nth_iota // add0n nth_take // nth_drop.
have sp : size padded = sz by rewrite size_map sm.
rewrite (nth_flat (h := sz.+1)) // ?sp; last first.
  by rewrite mulnS addnC; apply: (@leq_ltn_trans (j + sz * sz)); rewrite ?ltn_add2r // leq_add2l leq_mul2r hi orbT.
case: leqP => ji.
  have [-> ->] := @divmod_at (i.+1 * sz + j) i (sz - i + j) sz.+1 ltac:(rewrite mulSn mulnS; move: hi ji; move: (i * sz)%N; clear; lia) ltac:(move: hi ji; clear; lia).
  rewrite (nth_map [::]) ?sm //=.
  have -> : (sz - i + j = (sz.-1 - (i - j)).+1)%N by move: hi ji; clear; lia.
  rewrite /= nm //; last by move: hi hj; clear; lia.
  have -> : (sz - i.+1 <= sz.-1 - (i - j))%N by move: hi ji; clear; lia.
  by rewrite mul1r.
have [-> ->] := @divmod_at (i.+1 * sz + j) i.+1 (j - i.+1) sz.+1 ltac:(rewrite mulnS; move: hj ji; move: (i.+1 * sz)%N; clear; lia) ltac:(move: hj ji; clear; lia).
have hi1 : (i.+1 < sz)%N by apply: leq_ltn_trans hj.
rewrite (nth_map [::]) ?sm //=; case e: (j - i.+1)%N => [|c] //=.
rewrite nm //; last by move: e hj; clear; lia.
have -> : (sz - i.+2 <= c)%N = false by apply/negbTE; rewrite -ltnNge; move: e hj hi1; clear; lia.
by rewrite mul0r.
Qed.

Lemma attendP causal (er q k v : seq vec) hd : (size q <= size er)%N ->
  attend ex causal er q k v hd =
  Ok [seq ref_head ex causal er (size q) hd (nth [::] q) (nth [::] k) (nth [::] v) i | i <- iota 0 (size q)].
Proof.
move=> hl; rewrite /attend /get_valid_embedding; set l := size q; set e := drop _ er.
have se : size e = l by rewrite size_drop subKn.
set qe := [seq _ | qi <- q].
have sq : size qe = l by rewrite size_map.
have [|srel es hs] := @skewP qe.
  by rewrite all_map; apply/allP => r _ /=; rewrite !size_map se.
rewrite sq in es hs; rewrite se es; cbn [rmap]; congr Ok; rewrite -map_comp; apply/eq_in_map => i; rewrite mem_iota add0n => /= hi.
apply: eq_map => d; rewrite /softmax; set row := [seq mask_at _ _ _ _ | _ <- _].
set u := [seq _ | o <- row].
have su : size u = l by rewrite !size_map size_iota.
have nu j : (j < l)%N -> nth 0 u j = if causal && (i < j)%N then 0 else weight ex er (nth [::] q) (nth [::] k) i j.
  move=> hj; rewrite /u /row -map_comp (nth_map 0%N) ?size_iota // nth_iota //= /mask_at; case: ifP => // _.
  rewrite /weight hs //; case: leqP => ji //; congr (ex (_ + _)).
  rewrite (nth_map [::]) // (nth_map [::]) ?se; last by move: hi ji hl; clear; lia.
  rewrite /rel /e nth_drop; congr (dot _ (nth _ _ _)); move: hi ji hl; rewrite -/l; clear; lia.
set m := if causal then _ else _.
have hm : (m <= l)%N by rewrite /m; case: (causal).
have sumE (f : nat -> R) (g : nat -> R) : (forall j, (j < l)%N -> f j = if causal && (i < j)%N then 0 else g j) ->
    \sum_(j < l) f j = \sum_(j < m) g j.
  move=> fg; rewrite (big_ord_widen l g hm) [RHS]big_mkcond; apply: eq_bigr => j _; rewrite fg //.
  by rewrite /m; case: (causal); rewrite /= ?ltnS; [rewrite ltnNge; case: leqP|rewrite ltn_ord].
have tot : \sum_(y <- u) y = \sum_(j < m) weight ex er (nth [::] q) (nth [::] k) i j.
  rewrite (big_nth 0) su big_mkord; exact: sumE.
rewrite tot mulr_suml; set z := (\sum_(j < m) weight _ _ _ _ _ _).
apply: (sumE (fun j => nth 0 [seq x / z | x <- u] j * nth 0 (nth [::] v j) d) (fun j => weight ex er (nth [::] q) (nth [::] k) i j * nth 0 (nth [::] v j) d / z)).
move=> j hj; rewrite (nth_map 0) ?su // nu //; case: ifP => _; first by rewrite !mul0r.
by rewrite mulrAC.
Qed.
End Attend.

Section Heads.
Variable T : Type.
Implicit Types (z : seq (seq (seq T))).
Lemma size_uniform (A : Type) m (z : seq (seq A)) : all (fun r => size r == m) z -> size (flatten z) = size z * m.
Proof. by elim: z => [|r z IH] //= /andP [/eqP e a]; rewrite size_cat e IH // mulSn. Qed.
Lemma all_flatten (A : Type) (p : pred A) (z : seq (seq A)) : all p (flatten z) = all (all p) z.
Proof. by elim: z => [|r z IH] //=; rewrite all_cat IH. Qed.
Lemma cutE z b h hd : all (fun t => (size t == b) && all (fun s => size s == h * hd) t) z -> 0 < h ->
  swap (b * h) (view (size z) (b * h) (view (size z * (b * h)) hd (flatten (flatten z)))) [::] =
  [seq [seq nth [::] (view h hd (nth [::] t (n %/ h))) (n %% h) | t <- z] | n <- iota 0 (b * h)].
Proof.
move=> a h0.
have a1 : all (fun t => size t == b) z by apply: sub_all a => t /andP [].
have a2 : all (fun s => size s == h * hd) (flatten z).
  by rewrite all_flatten; apply: sub_all a => t /andP [].
have -> : size z * (b * h) = size (flatten z) * h by rewrite (size_uniform a1) mulnA.
rewrite (view_split a2).
have -> : flatten [seq view h hd r | r <- flatten z] = flatten [seq flatten [seq view h hd s | s <- t] | t <- z].
  by elim: (z) => [|t z' IH] //=; rewrite map_cat flatten_cat IH.
have av t : all (fun r : seq (seq T) => size r == h) [seq view h hd s | s <- t].
  by elim: t => [|s t IH] //=; rewrite size_view eqxx.
have -> : size z = size [seq flatten [seq view h hd s | s <- t] | t <- z] by rewrite size_map.
rewrite view_id; last first.
  rewrite all_map; apply: sub_all a1 => t /eqP st /=; by rewrite (size_uniform (av t)) size_map st.
apply/eq_in_map => n; rewrite mem_iota add0n => /= hn; rewrite -map_comp.
elim: (z) a1 => [|t z' IH] //= /andP [/eqP st a1]; rewrite IH //; congr (_ :: _).
rewrite (nth_flat (h := h)) ?av ?size_map ?st // (nth_map [::]) // st; by rewrite ltn_divLR.
Qed.
Lemma joinE (o : seq (seq (seq T))) l b h hd : size o = b * h ->
  (forall n t, n < b * h -> t < l -> size (nth [::] (nth [::] o n) t) = hd) ->
  view l b (view (l * b) (h * hd) (flatten (flatten (swap l o [::])))) =
  [seq [seq flatten [seq nth [::] (nth [::] o (s * h + j)) t | j <- iota 0 h] | s <- iota 0 b] | t <- iota 0 l].
Proof.
move=> so hs; set S := swap l o [::].
have sS : size S = l by rewrite size_map size_iota.
have a1 : all (fun r => size r == b * h) S by rewrite all_map; apply/allP => t _ /=; rewrite size_map so.
have a2 : all (fun r => size r == hd) (flatten S).
  rewrite all_flatten all_map; apply/(all_nthP 0) => t; rewrite size_iota => ht /=; rewrite all_map.
  apply/(all_nthP [::]) => n; rewrite so => hn /=; rewrite nth_iota // hs //.
rewrite view_join //; last by rewrite (size_uniform a1) sS mulnA.
rewrite -{1 2}sS (view_split a1).
have -> : [seq flatten r | r <- flatten [seq view b h r | r <- S]] = flatten [seq [seq flatten r' | r' <- view b h r] | r <- S].
  by elim: (S) => [|r S' IH] //=; rewrite map_cat IH.
have -> : size S = size [seq [seq flatten r' | r' <- view b h r] | r <- S] by rewrite size_map.
rewrite view_id; last by rewrite all_map; apply/(all_nthP [::]) => t _ /=; rewrite size_map size_view.
rewrite -map_comp; apply/eq_in_map => t; rewrite mem_iota add0n => /= ht.
rewrite -map_comp; apply/eq_in_map => s; rewrite mem_iota add0n => /= hs'; congr flatten.
have hb : s * h + h <= b * h by rewrite -mulSnr leq_mul2r hs' orbT.
apply: (@eq_from_nth _ [::]).
  by rewrite size_takel ?size_map ?size_iota // size_drop size_map so; move: hb; clear; lia.
move=> j; rewrite size_takel ?size_map ?size_drop ?size_map ?so => [hj|]; last by move: hb; clear; lia.
rewrite nth_take // nth_drop (nth_map [::]) ?so; last by move: hb hj; clear; lia.
by rewrite (nth_map 0) ?size_iota // nth_iota.
Qed.
End Heads.

Section Forward.
Local Open Scope ring_scope.
Variables (R : fieldType) (ex relu : R -> R).
Notation vec := (seq R).
Lemma take_drop_nth (s : vec) a n : (a + n <= size s)%N -> [seq nth 0 s (a + d) | d <- iota 0 n] = take n (drop a s).
Proof.
move=> h; have sz : size (take n (drop a s)) = n by rewrite size_takel // size_drop; move: h; clear; lia.
apply: (@eq_from_nth _ 0); first by rewrite size_map size_iota sz.
by move=> i; rewrite size_map size_iota => hi; rewrite (nth_map 0%N) ?size_iota // nth_iota // nth_take // nth_drop.
Qed.
Lemma sliceE (s : vec) h hd j : size s = (h * hd)%N -> (j < h)%N -> slice hd j s = nth [::] (view h hd s) j.
Proof.
move=> sz hj; rewrite /slice take_drop_nth; last by rewrite sz -mulSnr leq_mul2r hj orbT.
by rewrite (nth_map 0%N) ?size_iota // nth_iota.
Qed.
Lemma size_linear (w : seq vec) b x : size (linear w b x) = minn (size w) (size b).
Proof. by rewrite size_map size_zip. Qed.
Lemma ref_head_ext causal er l hd (q q' k k' v v' : nat -> vec) i : (i < l)%N ->
  (forall j, (j < l)%N -> (j <= i)%N || ~~ causal -> [/\ q j = q' j, k j = k' j & v j = v' j]) ->
  ref_head ex causal er l hd q k v i = ref_head ex causal er l hd q' k' v' i.
Proof.
move=> hi h; rewrite /ref_head; set m := if causal then _ else _.
have hj j : (j < m)%N -> [/\ q j = q' j, k j = k' j & v j = v' j].
  move=> jm; apply: h; first by apply: leq_trans jm _; rewrite /m; case: (causal).
  by move: jm; rewrite /m; case: (causal); rewrite ?orbT // ltnS => ->.
have [|qi _ _] := h i hi; first by rewrite leqnn.
have we j : (j < m)%N -> weight ex er q k i j = weight ex er q' k' i j.
  by move=> jm; have [_ kj _] := hj j jm; rewrite /weight qi kj.
have -> : \sum_(j < m) weight ex er q k i j = \sum_(j < m) weight ex er q' k' i j by apply: eq_bigr => j _; apply: we.
apply: eq_map => d; congr (_ / _); apply: eq_bigr => j _; rewrite we //; by have [_ _ ->] := hj j (ltn_ord j).
Qed.
Lemma attentionP causal (y : layer R) b e heads sc (x : seq (seq vec)) M :
  (0 < heads)%N -> (heads %| e)%N -> wf_layer e M y -> (size x <= M)%N -> all (fun t => size t == b) x ->
  attention ex causal y b e heads sc x =
  Ok [seq [seq ref_attention ex causal y (size x) e heads sc (fun j => nth [::] (nth [::] x j) s) t | s <- iota 0 b]
     | t <- iota 0 (size x)].
Proof.
move=> h0 hdv [sw sb sM] hM hx; rewrite /attention; set l := size x; set hd := (e %/ heads)%N.
have ee : (hd * heads)%N = e by rewrite /hd divnK.
have eh : (heads * hd)%N = e by rewrite mulnC.
rewrite ee eqxx; cbn [negb].
set proj := [seq [seq linear _ _ s | s <- t] | t <- x].
pose P t s := linear (y_inw y) (y_inb y) (nth [::] (nth [::] x t) s).
have sp t s : size (P t s) = (3 * e)%N by rewrite /P size_linear sw sb minnn.
have spj : size proj = l by rewrite size_map.
have apj : all (fun t => (size t == b) && all (fun s => size s == (3 * e)%N) t) proj.
  rewrite all_map; apply: sub_all hx => t /eqP st /=; rewrite size_map st eqxx /= all_map.
  by apply/allP => s _ /=; rewrite size_linear sw sb minnn.
have nx t : (t < l)%N -> size (nth [::] x t) = b by move=> ht; apply/eqP/(all_nthP [::] hx).
have npj t s : (t < l)%N -> (s < b)%N -> nth [::] (nth [::] proj t) s = P t s.
  by move=> ht hs; rewrite (nth_map [::]) // (nth_map [::]) ?nx.
(* a piece f of the projections, cut into heads *)
have piece (f : vec -> vec) n : (forall s, size s = (3 * e)%N -> size (f s) = e) -> (n < b * heads)%N ->
    let c := swap (b * heads) (view l (b * heads) (view (l * (b * heads)) hd (flatten (flatten [seq [seq f s | s <- t] | t <- proj])))) [::] in
    size (nth [::] c n) = l /\
    forall t, (t < l)%N -> nth [::] (nth [::] c n) t = slice hd (n %% heads)%N (f (P t (n %/ heads)%N)).
  move=> hf hn; set z := [seq [seq f s | s <- t] | t <- proj].
  have sz : size z = l by rewrite size_map.
  have az : all (fun t => (size t == b) && all (fun s => size s == (heads * hd)%N) t) z.
    rewrite all_map; apply: sub_all apj => t /= /andP [st at']; rewrite size_map st /= all_map; apply: sub_all at' => s /eqP ss /=.
    by rewrite hf // eh.
  have -> : l = size z by [].
  rewrite (cutE az h0) /= (nth_map 0%N) ?size_iota // nth_iota // add0n; split; first by rewrite size_map.
  rewrite sz => t ht; have hb : (n %/ heads < b)%N by rewrite ltn_divLR.
  rewrite (nth_map [::]) ?sz // (@sliceE _ heads) ?ltn_mod //; last by rewrite hf ?eh.
  by rewrite (nth_map [::]) ?spj // (nth_map [::]) ?npj // (nth_map [::]) ?size_map ?nx.
have fq s : size s = (3 * e)%N -> size [seq z * sc | z <- take e s] = e by move=> ss; rewrite size_map size_takel // ss leq_pmull.
have fk (s : vec) : size s = (3 * e)%N -> size (take e (drop e s)) = e by move=> ss; rewrite size_takel // size_drop ss; clear; lia.
have fv (s : vec) : size s = (3 * e)%N -> size (drop (2 * e) s) = e by move=> ss; rewrite size_drop ss; clear; lia.
pose part a h s j := slice hd h [seq nth 0 (P j s) (a * e + d) | d <- iota 0 e].
pose g n := [seq ref_head ex causal (y_er y) l hd (fun j => [seq z * sc | z <- part 0%N (n %% heads)%N (n %/ heads)%N j])
   (part 1%N (n %% heads)%N (n %/ heads)%N) (part 2%N (n %% heads)%N (n %/ heads)%N) i | i <- iota 0 l].
have slm h (s : vec) : slice hd h [seq z * sc | z <- s] = [seq z * sc | z <- slice hd h s].
  rewrite /slice -map_comp; apply: eq_map => d /=; case: (ltnP (h * hd + d) (size s)) => hs; first by rewrite (nth_map 0).
  by rewrite !nth_default ?size_map // mul0r.
set f := fun n => attend _ _ _ _ _ _ _.
rewrite (@traverse_in _ _ f g); last first.
  move=> n; rewrite mem_iota add0n => /= hn; rewrite /f.
  have [sq nq] := piece _ n fq hn; have [sk nk] := piece _ n fk hn; have [sv nv] := piece _ n fv hn.
  rewrite attendP sq ?sM //; congr Ok; apply/eq_in_map => i; rewrite mem_iota add0n => /= hi.
  apply: ref_head_ext => // j hj _; rewrite nq // nk // nv // slm /part; split.
  - by rewrite take_drop_nth ?mul0n ?drop0 // sp add0n leq_pmull.
  - by rewrite mul1n take_drop_nth // sp; clear; lia.
  - rewrite take_drop_nth ?sp; last by clear; lia.
    by rewrite [take e _]take_oversize // size_drop sp; clear; lia.
cbn [rmap]; congr Ok; set o := map g _.
have so : size o = (b * heads)%N by rewrite size_map size_iota.
have no n : (n < b * heads)%N -> nth [::] o n = g n by move=> hn; rewrite (nth_map 0%N) ?size_iota // nth_iota.
have -> : view (l * b) e (flatten (flatten (swap l o [::]))) = view (l * b) (heads * hd) (flatten (flatten (swap l o [::]))) by rewrite eh.
rewrite (joinE (h := heads)) //; last first.
  by move=> n t hn ht; rewrite no // (nth_map 0%N) ?size_iota // size_map size_iota.
rewrite -map_comp; apply/eq_in_map => t; rewrite mem_iota add0n => /= ht.
rewrite -map_comp; apply/eq_in_map => s; rewrite mem_iota add0n => /= hs.
rewrite /ref_attention; congr (linear _ _ (flatten _)); apply/eq_in_map => j; rewrite mem_iota add0n => /= hj.
have hn : (s * heads + j < b * heads)%N.
  by apply: (@leq_trans (s * heads + heads)); rewrite ?ltn_add2l // -mulSnr leq_mul2r hs orbT.
rewrite no // (nth_map 0%N) ?size_iota // nth_iota //.
by have [-> ->] := @divmod_at (s * heads + j) s j heads erefl hj.
Qed.

(* position t of sample s in a (length, batch) table *)
Definition tab l b (X : nat -> nat -> vec) : seq (seq vec) := [seq [seq X s t | s <- iota 0 b] | t <- iota 0 l].
Lemma nth_tab l b X t s : (t < l)%N -> (s < b)%N -> nth [::] (nth [::] (tab l b X) t) s = X s t.
Proof. by move=> ht hs; rewrite (nth_map 0%N) ?size_iota // (nth_map 0%N) ?size_iota // !nth_iota. Qed.
Lemma eq_tab l b X Y : (forall t s, (t < l)%N -> (s < b)%N -> X s t = Y s t) -> tab l b X = tab l b Y.
Proof.
move=> h; apply/eq_in_map => t; rewrite mem_iota => /= ht; apply/eq_in_map => s; rewrite mem_iota => /= hs; exact: h.
Qed.
Lemma ref_attention_ext causal y l e heads sc (x x' : nat -> vec) i : (i < l)%N ->
  (forall j, (j < l)%N -> (j <= i)%N || ~~ causal -> x j = x' j) ->
  ref_attention ex causal y l e heads sc x i = ref_attention ex causal y l e heads sc x' i.
Proof.
move=> hi h; rewrite /ref_attention; congr (linear _ _ (flatten _)); apply: eq_map => a.
by apply: ref_head_ext => // j hj hc; rewrite h.
Qed.
Lemma ref_layer_ext causal y l e heads sc (x x' : nat -> vec) i : (i < l)%N ->
  (forall j, (j < l)%N -> (j <= i)%N || ~~ causal -> x j = x' j) ->
  ref_layer ex relu causal l e heads sc x y i = ref_layer ex relu causal l e heads sc x' y i.
Proof.
move=> hi h; rewrite /ref_layer (ref_attention_ext _ _ _ _ hi h) h //; by rewrite leqnn.
Qed.
Lemma encoder_layerP causal (y : layer R) b e heads sc l X M :
  (0 < heads)%N -> (heads %| e)%N -> wf_layer e M y -> (l <= M)%N ->
  encoder_layer ex relu causal y b e heads sc (tab l b X) =
  Ok (tab l b (fun s => ref_layer ex relu causal l e heads sc (X s) y)).
Proof.
move=> h0 hdv wf hM.
have st : size (tab l b X) = l by rewrite size_map size_iota.
rewrite /encoder_layer (attentionP _ _ h0 hdv wf) ?st //; last first.
  by rewrite all_map; apply/allP => t _ /=; rewrite size_map size_iota.
cbn [rmap]; congr Ok; rewrite /tab zip_map -!map_comp; apply/eq_in_map => t; rewrite mem_iota => /= ht.
rewrite zip_map -!map_comp; apply/eq_in_map => s; rewrite mem_iota => /= hs.
rewrite /ref_layer /=; set a := ref_attention _ _ _ _ _ _ _ _ _; set a' := ref_attention _ _ _ _ _ _ _ (X s) t.
have -> : a = a' by apply: ref_attention_ext => // j hj _; rewrite nth_tab.
by [].
Qed.
Lemma layersP causal (ys : seq (layer R)) b e heads sc l X M :
  (0 < heads)%N -> (heads %| e)%N -> foldr (fun y P => wf_layer e M y /\ P) True ys -> (l <= M)%N ->
  rfold (fun x y => encoder_layer ex relu causal y b e heads sc x) (tab l b X) ys =
  Ok (tab l b (fun s => foldl (fun x y => ref_layer ex relu causal l e heads sc x y) (X s) ys)).
Proof.
move=> h0 hdv wf hM; elim: ys X wf => [|y ys IH] X //= [wy ws]; rewrite (encoder_layerP _ _ _ _ h0 hdv wy) //=; exact: IH.
Qed.
Lemma foldl_ext causal (ys : seq (layer R)) e heads sc l (x x' : nat -> vec) i : (i < l)%N ->
  (forall j, (j < l)%N -> (j <= i)%N || ~~ causal -> x j = x' j) ->
  foldl (fun x y => ref_layer ex relu causal l e heads sc x y) x ys i =
  foldl (fun x y => ref_layer ex relu causal l e heads sc x y) x' ys i.
Proof.
elim: ys x x' => [|y ys IH] x x' hi h /=; first by rewrite h // leqnn.
apply: IH => // j hj hc; apply: ref_layer_ext => // k hk hc'; apply: h => //.
by case: (causal) hc hc'; rewrite ?orbT // !orbF => a c; exact: leq_trans a.
Qed.
Lemma forwardP (n : net R) M causal (toks : seq (seq nat)) l :
  wf_net n M -> (l <= M)%N -> all (fun t => (size t == l) && all (gtn (size (n_emb n))) t) toks -> (0 < size toks)%N ->
  forward ex relu n causal toks = Ok [seq [seq ref_net ex relu n causal t i | i <- iota 0 l] | t <- toks].
Proof.
move=> [h0 hdv sp wf] hM at_ nb; rewrite /forward.
have at1 : all (fun t => size t == l) toks by apply: sub_all at_ => t /andP [].
have nl s : (s < size toks)%N -> size (nth [::] toks s) = l by move=> hs; apply/eqP/(all_nthP [::] at1).
rewrite nl //; set b := size toks.
rewrite (@traverse_in _ _ _ (map (nth [::] (n_emb n)))); last first.
  move=> t ht; apply: traverse_in => k hk; rewrite /embed; have /andP [_ /allP] := allP at_ _ ht; by move=> /(_ _ hk) /= ->.
cbn [rbind]; rewrite size_takel ?sp // eqxx orTb.
set x2 := [seq _ | p <- zip _ _].
have -> : x2 = tab l b (fun s j => addv (nth [::] (n_emb n) (nth 0%N (nth [::] toks s) j)) (nth [::] (n_pe n) j)).
  rewrite /x2 /swap; apply: (@eq_from_nth _ [::]); first by rewrite !size_map size_zip size_map !size_iota size_takel ?sp // minnn.
  move=> t; rewrite size_map size_zip size_map size_iota size_takel ?sp // minnn => ht.
  rewrite (nth_map ([::], [::])) ?size_zip ?size_map ?size_iota ?size_takel ?sp ?minnn //.
  rewrite nth_zip ?size_map ?size_iota ?size_takel ?sp //= (nth_map 0%N) ?size_iota // nth_iota // add0n nth_take //.
  rewrite (nth_map 0%N) ?size_iota // nth_iota // add0n -!map_comp.
  apply: (@eq_from_nth _ [::]); first by rewrite !size_map size_iota.
  move=> s; rewrite size_map => hs; rewrite (nth_map [::]) // (nth_map 0%N) ?size_iota // nth_iota //=.
  by rewrite (nth_map 0%N) ?nl.
rewrite (layersP _ _ _ _ h0 hdv wf hM); cbn [rmap]; congr Ok; rewrite /swap -!map_comp.
apply: (@eq_from_nth _ [::]); first by rewrite !size_map size_iota.
move=> s; rewrite size_map size_iota => hs; rewrite (nth_map 0%N) ?size_iota // nth_iota // add0n (nth_map [::]) //=.
rewrite -!map_comp; apply/eq_in_map => t; rewrite mem_iota add0n => /= ht.
by rewrite (nth_map 0%N) ?size_iota // nth_iota // /ref_net nl.
Qed.
End Forward.

Section Errors.
Variables (A B : Type) (e : exn).
Lemma traverse_err (f : A -> res B) (p : pred A) s :
  (forall x, if p x then exists y, f x = Ok y else f x = Err e) -> ~~ all p s -> traverse f s = Err e.
Proof.
move=> h; elim: s => [|x s IH] //= np; rewrite traverse_cons; have := h x; move: np; case: (p x) => /=.
  by move=> np [y ->] /=; rewrite IH.
by move=> _ ->.
Qed.
End Errors.

Section Gen.
Local Open Scope ring_scope.
Variables (P : Type) (R : realFieldType) (net : seq (seq nat) -> res (seq (seq (seq P)))) (sample : nat -> seq P -> nat)
  (topk : nat -> nat -> seq P -> seq nat) (draw : nat -> R).
Lemma set_next (r : seq nat) d t n : set_nth d (r ++ nseq n.+1 d) (size r) t = rcons r t ++ nseq n d.
Proof. by elim: r => [|a r IH] //=; rewrite IH. Qed.
(* the tokens sampled one after the other *)
Lemma sampled (f : seq nat -> seq (seq P)) M chance fuel r :
  (forall r, (0 < size r <= M)%N -> net [:: r] = Ok [:: f r]) -> chance < 2%:R ->
  (forall r, (0 < size r <= M)%N -> (sample (size r) (take token_end (nth [::] (f r) (size r).-1)) < token_end)%N) ->
  (0 < size r)%N -> (size r + fuel <= M.+1)%N ->
  exists2 g, size g = fuel /\ all (gtn token_end) g &
    gen_loop net sample topk draw 0 chance fuel [:: r ++ nseq fuel token_pad] (size r) = Ok ([:: r ++ g], (size r + fuel)%N) /\
    forall i, (i < fuel)%N -> nth 0%N g i =
      sample (size r + i)%N (take token_end (nth [::] (f (r ++ take i g)) (size r + i).-1)).
Proof.
move=> hn hc hs; elim: fuel r => [|fuel IH] r r0 hM.
  by exists [::] => //; split=> //=; rewrite addn0.
have rM : (0 < size r <= M)%N by rewrite r0; move: hM; clear; lia.
set t := sample (size r) (take token_end (nth [::] (f r) (size r).-1)).
have ht : (t < token_end)%N by exact: hs.
have [||g [sg ag] [eg ng]] := IH (rcons r t); rewrite ?size_rcons //; first by move: hM; clear; lia.
exists (t :: g); first by split; rewrite /= ?sg ?ag ?ht.
split.
  cbn [gen_loop map]; rewrite take_size_cat // hn //; cbn [rbind]; rewrite eqn0Ngt r0; cbn [negb map flatten eqn].
  rewrite eqxx leNgt hc; cbn [negb map zip size fst snd]; rewrite -/t eqxx; cbn [negb].
  rewrite eqseq_cons andbT (ltn_eqF ht) set_next.
  by rewrite size_rcons in eg; rewrite eg cat_rcons addSnnS.
case=> [|i] hi; first by rewrite addn0 take0 cats0.
by rewrite /= ng // size_rcons cat_rcons addSnnS.
Qed.
End Gen.
