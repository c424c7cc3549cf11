(* Lemmas for C61. *)
Set Warnings "-notation-overridden,-ambiguous-paths".
From mathcomp Require Import all_ssreflect all_algebra zify.
From Verif Require Import Py MtModel MtSpec MtProof EvalModel GptModel GptSpec.
Set Implicit Arguments. Unset Strict Implicit. Unset Printing Implicit Defensive.
Import GRing.Theory Num.Theory Order.Theory.
Local Open Scope ring_scope.

Section Gpt.
Variables (R : realFieldType) (ex gelu : R -> R) (lse : seq R -> R).
Notation vec := (seq R).

Lemma gheadP m sc (q k v : seq vec) hd :
  (forall i j, (i < size q)%N -> (j < size q)%N -> visible m i j = (j <= i)%N) ->
  ghead ex m sc q k v hd = [seq gref_head ex sc hd (nth [::] q) (nth [::] k) (nth [::] v) i | i <- iota 0 (size q)].
Proof.
move=> vis; rewrite /ghead; set l := size q; apply/eq_in_map => i; rewrite mem_iota add0n => /= hi.
apply: eq_map => d; rewrite /softmax; set row := [seq (if _ then Some _ else None) | j <- _].
set u := [seq _ | o <- row]; set w := fun j => ex (dot (nth [::] q i) (nth [::] k j) * sc).
have su : size u = l by rewrite !size_map size_iota.
have nu j : (j < l)%N -> nth 0 u j = if (j <= i)%N then w j else 0.
  by move=> hj; rewrite /u /row -map_comp (nth_map 0%N) ?size_iota // nth_iota //= vis //; case: ifP.
have sumE (f g : nat -> R) : (forall j, (j < l)%N -> f j = if (j <= i)%N then g j else 0) ->
    \sum_(j < l) f j = \sum_(j < i.+1) g j.
  by move=> fg; rewrite (big_ord_widen l g hi) [RHS]big_mkcond; apply: eq_bigr => j _; rewrite fg // ltnS.
have tot : \sum_(y <- u) y = \sum_(j < i.+1) w j by rewrite (big_nth 0) su big_mkord; exact: sumE.
rewrite tot mulr_suml; set z := (\sum_(j < i.+1) w j).
apply: (sumE (fun j => nth 0 [seq x / z | x <- u] j * nth 0 (nth [::] v j) d) (fun j => w j * nth 0 (nth [::] v j) d / z)).
by move=> j hj; rewrite (nth_map 0) ?su // nu //; case: ifP => _; rewrite ?mul0r // mulrAC.
Qed.

Lemma gref_head_ext sc hd (q q' k k' v v' : nat -> vec) i :
  (forall j, (j <= i)%N -> [/\ q j = q' j, k j = k' j & v j = v' j]) ->
  gref_head ex sc hd q k v i = gref_head ex sc hd q' k' v' i.
Proof.
move=> h; rewrite /gref_head; have [qi _ _] := h i (leqnn i).
have we (j : 'I_i.+1) : ex (dot (q i) (k j) * sc) = ex (dot (q' i) (k' j) * sc) by have [_ -> _] := h j (ltn_ord j); rewrite qi.
have -> : \sum_(j < i.+1) ex (dot (q i) (k j) * sc) = \sum_(j < i.+1) ex (dot (q' i) (k' j) * sc) by apply: eq_bigr => j _.
by apply: eq_map => d; congr (_ / _); apply: eq_bigr => j _; rewrite we; have [_ _ ->] := h j (ltn_ord j).
Qed.
Lemma gref_attention_ext y e heads sc (x x' : nat -> vec) i : (forall j, (j <= i)%N -> x j = x' j) ->
  gref_attention ex y e heads sc x i = gref_attention ex y e heads sc x' i.
Proof.
by move=> h; rewrite /gref_attention; congr (lin _ (flatten _)); apply: eq_map => a; apply: gref_head_ext => j ji; rewrite !h.
Qed.
Lemma gref_block_ext y e heads sc (x x' : nat -> vec) i : (forall j, (j <= i)%N -> x j = x' j) ->
  gref_block ex gelu e heads sc x y i = gref_block ex gelu e heads sc x' y i.
Proof.
move=> h; rewrite /gref_block h // (@gref_attention_ext _ _ _ _ _ (fun j => k_ln1 y (x' j))) // => j ji; by rewrite h.
Qed.
Lemma gfold_ext ys e heads sc (x x' : nat -> vec) i : (forall j, (j <= i)%N -> x j = x' j) ->
  foldl (gref_block ex gelu e heads sc) x ys i = foldl (gref_block ex gelu e heads sc) x' ys i.
Proof.
elim: ys x x' => [|y ys IH] x x' h /=; first exact: h.
by apply: IH => j ji; apply: gref_block_ext => k kj; apply: h; apply: leq_trans ji.
Qed.

Lemma size_lin n (a : affine R) x : wf_affine n a -> size (lin a x) = n :> nat.
Proof.
case=> sw sb; rewrite /lin; case: (b_ a) sb => [b sb|_]; last by rewrite size_map.
by rewrite size_linear sw sb minnn.
Qed.

Definition seqof (l : nat) (x : nat -> vec) : seq vec := [seq x i | i <- iota 0 l].
Lemma size_seqof l x : size (seqof l x) = l. Proof. by rewrite size_map size_iota. Qed.
Lemma nth_seqof l x i : (i < l)%N -> nth [::] (seqof l x) i = x i.
Proof. by move=> h; rewrite (nth_map 0%N) ?size_iota // nth_iota. Qed.
Lemma eq_seqof l x y : (forall i, (i < l)%N -> x i = y i) -> seqof l x = seqof l y.
Proof. by move=> h; apply/eq_in_map => i; rewrite mem_iota => /= hi; apply: h. Qed.
Lemma map_seqof (f : vec -> vec) l x : map f (seqof l x) = seqof l (fun i => f (x i)).
Proof. by rewrite /seqof -map_comp. Qed.

Lemma coordsE a n (s : vec) : (a + n <= size s)%N -> coords a n s = take n (drop a s).
Proof. exact: take_drop_nth. Qed.

Lemma visibleE bs l m : m = None \/ m = Some (tril bs) -> (l <= bs)%N ->
  forall i j, (i < l)%N -> (j < l)%N -> visible m i j = (j <= i)%N.
Proof.
move=> [->|->] lb i j hi hj //=; rewrite /tril (nth_map 0%N) ?size_iota; last exact: leq_trans lb.
rewrite (nth_map 0%N) ?size_iota; last exact: leq_trans lb.
by rewrite !nth_iota //; apply: leq_trans lb.
Qed.

Lemma gattentionP y e heads sc bs l x : (0 < heads)%N -> (heads %| e)%N -> wf_block e bs y -> (l <= bs)%N ->
  gattention ex y e heads sc (seqof l x) = seqof l (gref_attention ex y e heads sc x).
Proof.
move=> h0 hdv [wa wm] lb; rewrite /gattention; set hd := (e %/ heads)%N.
have eh : (heads * hd)%N = e by rewrite mulnC /hd divnK.
rewrite map_seqof size_seqof !map_seqof; set P := fun i => lin (k_attn y) (x i).
have sP i : size (P i) = (3 * e)%N by exact: size_lin.
have cut (f : vec -> vec) a h : (h < heads)%N ->
    (forall i, f (P i) = take e (drop (a * e) (P i))) -> (a < 3)%N ->
    nth [::] (swap heads [seq view heads hd s | s <- seqof l (fun i => f (P i))] [::]) h
    = seqof l (fun i => coords (a * e + h * hd) hd (P i)).
  move=> hh ef a3; rewrite /swap (nth_map 0%N) ?size_iota // nth_iota // add0n /seqof -!map_comp.
  apply: eq_map => i /=; rewrite ef.
  have h1 : (h * hd + hd <= e)%N by rewrite -mulSnr -[X in (_ <= X)%N]eh leq_mul2r hh orbT.
  have h2 : (a * e + e <= 3 * e)%N by rewrite -mulSnr leq_mul2r a3 orbT.
  rewrite (nth_map 0%N) ?size_iota // nth_iota // add0n -take_drop_nth; last first.
    by rewrite size_takel // size_drop sP; move: h2; move: (a * e)%N (3 * e)%N; clear; lia.
  rewrite /coords; apply/eq_in_map => d; rewrite mem_iota add0n => /= hd'.
  by rewrite nth_take ?nth_drop ?addnA //; apply: leq_trans h1; rewrite ltn_add2l.
have vis := visibleE wm lb.
set o := [seq ghead _ _ _ _ _ _ _ | h <- iota 0 heads].
have -> : o = [seq seqof l (gref_head ex sc hd (fun j => coords (0 * e + h * hd) hd (P j))
     (fun j => coords (1 * e + h * hd) hd (P j)) (fun j => coords (2 * e + h * hd) hd (P j))) | h <- iota 0 heads].
  apply/eq_in_map => h; rewrite mem_iota add0n => /= hh.
  rewrite (cut (take e) 0%N) //; last by move=> i; rewrite mul0n drop0.
  rewrite (cut (fun s => take e (drop e s)) 1%N) //; last by move=> i; rewrite mul1n.
  rewrite (cut (drop (2 * e)) 2%N) //; last first.
    by move=> i; rewrite take_oversize // size_drop sP; clear; lia.
  rewrite gheadP ?size_seqof //; apply: eq_seqof => i hi; apply: gref_head_ext => j ji.
  by rewrite !nth_seqof //; apply: leq_ltn_trans hi.
rewrite /swap -map_comp; apply: eq_seqof => i hi /=; rewrite /gref_attention; congr (lin _ (flatten _)).
by rewrite -map_comp; apply: eq_map => h /=; rewrite nth_seqof.
Qed.

Lemma gblockP y e heads sc bs l x : (0 < heads)%N -> (heads %| e)%N -> wf_block e bs y -> (l <= bs)%N ->
  gblock ex gelu e heads sc (seqof l x) y = seqof l (gref_block ex gelu e heads sc x y).
Proof.
move=> h0 hdv wy lb; rewrite /gblock map_seqof (gattentionP _ _ h0 hdv wy lb) /seqof zip_map -!map_comp.
by apply: eq_map.
Qed.
Lemma gblocksP ys e heads sc bs l x : (0 < heads)%N -> (heads %| e)%N ->
  foldr (fun y P => wf_block e bs y /\ P) True ys -> (l <= bs)%N ->
  foldl (gblock ex gelu e heads sc) (seqof l x) ys = seqof l (foldl (gref_block ex gelu e heads sc) x ys).
Proof.
move=> h0 hdv + lb; elim: ys x => [|y ys IH] x //= [wy ws]; rewrite (gblockP _ _ h0 hdv wy lb); exact: IH.
Qed.

Definition gx0 (n : gpt R) (t : seq nat) (j : nat) : vec := addv (nth [::] (g_wte n) (nth 0%N t j)) (nth [::] (g_wpe n) j).
Lemma bodyP (n : gpt R) (t : seq nat) : wf_gpt n -> (size t <= g_block n)%N ->
  body ex gelu n [seq nth [::] (g_wte n) c | c <- t] =
  seqof (size t) (fun i => g_lnf n (foldl (gref_block ex gelu (g_dim n) (g_heads n) (g_scale n)) (gx0 n t) (g_blocks n) i)).
Proof.
move=> [h0 hdv sp wf] lt; rewrite /body size_map.
have -> : [seq addv p.1 p.2 | p <- zip [seq nth [::] (g_wte n) c | c <- t] (take (size t) (g_wpe n))] = seqof (size t) (gx0 n t).
  have sz : size (take (size t) (g_wpe n)) = size t by rewrite size_takel // sp.
  apply: (@eq_from_nth _ [::]); rewrite !size_map size_zip size_map sz minnn ?size_iota // => i hi.
  rewrite (nth_map ([::], [::])) ?size_zip ?size_map ?sz ?minnn // nth_zip ?size_map ?sz //= nth_seqof // nth_take //.
  by rewrite (nth_map 0%N).
by rewrite (gblocksP _ _ h0 hdv wf lt) map_seqof.
Qed.
Lemma embeds (n : gpt R) toks : all (all (gtn (size (g_wte n)))) toks ->
  traverse (traverse (gembed n)) toks = Ok [seq [seq nth [::] (g_wte n) c | c <- t] | t <- toks].
Proof.
move=> h; apply: traverse_in => t ht; apply: traverse_in => c hc; rewrite /gembed.
by have := allP (allP h _ ht) _ hc => /= ->.
Qed.
Lemma rowsP (n : gpt R) toks : wf_gpt n -> all (fun t => (size t <= g_block n)%N) toks ->
  [seq [seq head_of n x | x <- r] | r <- [seq body ex gelu n e | e <- [seq [seq nth [::] (g_wte n) c | c <- t] | t <- toks]]]
  = [seq [seq gref ex gelu n t i | i <- iota 0 (size t)] | t <- toks].
Proof.
move=> wf h; rewrite -!map_comp; apply/eq_in_map => t ht /=; rewrite bodyP //; last exact: (allP h).
by rewrite /seqof -map_comp.
Qed.
End Gpt.
