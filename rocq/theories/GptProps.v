(* C61: the nanoGPT network, its loss, generation, parameter count and optimiser groups. *)
Set Warnings "-notation-overridden,-ambiguous-paths".
From mathcomp Require Import all_ssreflect all_algebra zify.
From Verif Require Import Py MtModel MtProof EvalModel GptModel GptSpec GptProof.
Set Implicit Arguments. Unset Strict Implicit. Unset Printing Implicit Defensive.
Import GRing.Theory Num.Theory Order.Theory.
Local Open Scope ring_scope.

Section Forward.
Variables (R : realFieldType) (ex gelu : R -> R) (lse : seq R -> R).
Notation vec := (seq R).
Notation fwd := (forward ex gelu lse).
(* rows of l tokens of the vocabulary *)
Definition tokens_ok (n : gpt R) (l : nat) (toks : seq (seq nat)) : bool :=
  all (fun t => (size t == l) && all (gtn (size (g_wte n))) t) toks.
Notation grefs n l toks := [seq [seq gref ex gelu n t i | i <- iota 0 l] | t <- toks].
Definition target_ok (n : gpt R) (c : int) : bool := (c == -1) || ((0 <= c) && (c < (size (g_wte n))%:Z)).

Lemma tokens_okP n l toks : tokens_ok n l toks ->
  all (fun t => size t == l) toks /\ all (all (gtn (size (g_wte n)))) toks.
Proof. by move=> h; split; apply: sub_all h => t /andP []. Qed.
Lemma rows_eq n l toks : wf_gpt n -> (l <= g_block n)%N -> tokens_ok n l toks ->
  traverse (traverse (gembed n)) toks = Ok [seq [seq nth [::] (g_wte n) c | c <- t] | t <- toks] /\
  [seq [seq head_of n x | x <- r] | r <- [seq body ex gelu n e | e <- [seq [seq nth [::] (g_wte n) c | c <- t] | t <- toks]]]
  = grefs n l toks.
Proof.
move=> wf hl /tokens_okP [hs hv]; split; first exact: embeds.
rewrite rowsP //; last by apply: sub_all hs => t /eqP ->.
by apply/eq_in_map => t /(allP hs) /eqP ->.
Qed.
Lemma ce_meanP (V : nat) (zs : seq vec) (ts : seq int) : size zs = size ts -> all (fun z => size z == V) zs ->
  all (fun c => (c == -1) || ((0 <= c) && (c < V%:Z))) ts ->
  ce_mean lse (-1) zs ts = Ok (gref_loss lse zs ts).
Proof.
move=> sz az at_; rewrite /ce_mean.
have -> : collect (fun p => cross_entropy lse (-1) p.1 p.2) (zip zs ts)
  = Ok [seq (if p.2 == -1 then 0 else lse p.1 - nth 0 p.1 `|p.2|%N) | p <- zip zs ts].
  elim: zs ts sz az at_ => [|z zs IH] [|c ts] //= [sz] /andP [/eqP zV az] /andP [hc at_].
  rewrite {1}/cross_entropy zV IH //; move: hc; case: (c =P -1) => [//|_] /= ->; by [].
cbn [rmap]; congr Ok; rewrite /gref_loss.
have e1 : count (predC (pred1 (-1))) ts = size [seq p <- zip zs ts | p.2 != -1].
  by rewrite size_filter; elim: (zs) (ts) sz => [|z s IH] [|c t] //= [sz]; rewrite IH.
have e2 : \sum_(x <- [seq (if p.2 == -1 then 0 else lse p.1 - nth 0 p.1 `|p.2|%N) | p <- zip zs ts]) x
   = \sum_(p <- [seq p <- zip zs ts | p.2 != -1]) (lse p.1 - nth 0 p.1 `|p.2|%N).
  by rewrite big_map big_filter [RHS]big_mkcond; apply: eq_bigr => p _; case: eqP.
by rewrite e1 e2; case: [seq p <- zip zs ts | p.2 != -1].
Qed.
Lemma size_grefs n l (toks : seq (seq nat)) : size (flatten (grefs n l toks)) = (size toks * l)%N.
Proof. by elim: toks => [|t s IH] //=; rewrite size_cat size_map size_iota IH mulSn. Qed.
Lemma width_grefs n l (toks : seq (seq nat)) : all (fun z => size z == size (g_wte n)) (flatten (grefs n l toks)).
Proof.
rewrite all_flatten all_map; apply/allP => t _ /=; rewrite all_map; apply/allP => i _ /=; by rewrite size_map.
Qed.

(* with targets: the logits of the reference at every position, and their average cross entropy *)
Theorem C61_forward n l toks tg : wf_gpt n -> (l <= g_block n)%N -> tokens_ok n l toks ->
  size (flatten tg) = (size toks * l)%N -> all (target_ok n) (flatten tg) ->
  fwd n l toks (Some tg) = Ok (grefs n l toks, Some (gref_loss lse (flatten (grefs n l toks)) (flatten tg))).
Proof.
move=> wf hl ht st at_; rewrite /forward ltnNge hl; cbn [negb].
have [-> e] := rows_eq wf hl ht; cbn [rbind]; rewrite e size_grefs st eqxx; cbn [negb].
by rewrite (@ce_meanP (size (g_wte n))) ?size_grefs ?st // width_grefs.
Qed.
(* without: those of the last position *)
Theorem C61_inference n l toks : wf_gpt n -> (0 < l <= g_block n)%N -> tokens_ok n l toks ->
  fwd n l toks None = Ok ([seq [:: gref ex gelu n t l.-1] | t <- toks], None).
Proof.
move=> wf /andP [l0 hl] ht; rewrite /forward ltnNge hl; cbn [negb].
have [-> e] := rows_eq wf hl ht; cbn [rbind]; rewrite eqn0Ngt l0; cbn [negb]; congr (Ok (_, None)).
move: (tokens_okP ht) => [hs _]; rewrite -!map_comp; apply/eq_in_map => t htt /=; congr [:: _].
have st : size t = l by apply/eqP; exact: (allP hs).
by rewrite bodyP ?st // -nth_last size_seqof nth_seqof // prednK.
Qed.
(* the last position of the full forward pass *)
Theorem C61_last n l toks tg o : wf_gpt n -> (0 < l)%N -> tokens_ok n l toks -> fwd n l toks (Some tg) = Ok o ->
  fwd n l toks None = Ok ([seq [:: last [::] r] | r <- o.1], None).
Proof.
move=> wf l0 ht; have [hl|hl] := leqP l (g_block n); last by rewrite /forward hl.
rewrite C61_inference // ?l0 // /forward ltnNge hl; cbn [negb].
have [-> e] := rows_eq wf hl ht; cbn [rbind]; rewrite e; case: ifP => // _.
case: (ce_mean _ _ _ _) => // loss [<-] /=; rewrite -map_comp; congr (Ok (_, None)); apply: eq_map => t /=.
by rewrite -nth_last size_map size_iota (nth_map 0%N) ?size_iota ?prednK // nth_iota ?prednK.
Qed.
(* later tokens never matter: the logits of a prefix are the prefix of the logits *)
Theorem C61_causal n l k toks tg tg' o o' : wf_gpt n -> (k <= l)%N -> tokens_ok n l toks ->
  fwd n l toks (Some tg) = Ok o -> fwd n k [seq take k t | t <- toks] (Some tg') = Ok o' ->
  o'.1 = [seq take k r | r <- o.1].
Proof.
move=> wf kl ht; have [hl|hl] := leqP l (g_block n); last by rewrite /forward hl.
have hk : tokens_ok n k [seq take k t | t <- toks].
  rewrite /tokens_ok all_map; apply: sub_all ht => t /= /andP [/eqP st vt]; rewrite size_takel ?st // eqxx /=.
  by move: vt; rewrite -{1}(cat_take_drop k t) all_cat => /andP [].
rewrite /forward !ltnNge hl (leq_trans kl hl); cbn [negb].
have [-> e] := rows_eq wf hl ht; have [-> e'] := rows_eq wf (leq_trans kl hl) hk; cbn [rbind]; rewrite e e'.
case: ifP => // _; case: (ce_mean _ _ _ _) => // ? [<-]; case: ifP => // _; case: (ce_mean _ _ _ _) => // ? [<-] /=.
rewrite -!map_comp; apply/eq_in_map => t htt /=; rewrite -map_take take_iota (minn_idPl kl).
apply/eq_in_map => i; rewrite mem_iota add0n => /= hi; rewrite /gref.
by rewrite (@gfold_ext _ _ _ _ _ _ _ _ (fun j => addv (nth [::] (g_wte n) (nth 0%N t j)) (nth [::] (g_wpe n) j))) // => j ji;
  rewrite nth_take //; apply: leq_ltn_trans hi.
Qed.
(* no sample influences another *)
Theorem C61_batch n l toks : wf_gpt n -> (0 < l <= g_block n)%N -> tokens_ok n l toks ->
  rmap flatten (traverse (fun t => rmap fst (fwd n l [:: t] None)) toks) = rmap fst (fwd n l toks None).
Proof.
move=> wf hl ht; rewrite C61_inference //.
rewrite (@traverse_in _ _ _ (fun t => [:: [:: gref ex gelu n t l.-1]])).
  by cbn [rmap]; congr Ok; elim: (toks) => [|t s IH] //=; rewrite IH.
by move=> t /(allP ht) h; rewrite C61_inference //= /tokens_ok /= h.
Qed.
(* flash attention and the buffer compute the same *)
Definition flash (n : gpt R) : gpt R :=
  Gpt (g_block n) (g_heads n) (g_dim n) (g_scale n) (g_wte n) (g_wpe n)
    [seq Block (k_ln1 y) (k_attn y) (k_proj y) (k_ln2 y) (k_fc y) (k_out y) None | y <- g_blocks n] (g_lnf n).
Lemma wf_flash n : wf_gpt n -> wf_gpt (flash n).
Proof.
case=> h0 hdv sp wf; split=> //=; elim: (g_blocks n) wf => [|y ys IH] //= [[wa _] ws]; split; last exact: IH.
by split=> //; left.
Qed.
Lemma fold_remask (f : option (seq (seq bool)) -> option (seq (seq bool))) ys e h sc x :
  foldl (gref_block ex gelu e h sc) x
    [seq Block (k_ln1 y) (k_attn y) (k_proj y) (k_ln2 y) (k_fc y) (k_out y) (f (k_mask y)) | y <- ys]
  = foldl (gref_block ex gelu e h sc) x ys.
Proof. by elim: ys x => [|y ys IH] x //=; exact: IH. Qed.
Lemma gref_flash n t i : gref ex gelu (flash n) t i = gref ex gelu n t i.
Proof.
by rewrite /gref /= (fold_remask (fun=> None)).
Qed.
Lemma fwd_same n n' l toks tg : wf_gpt n -> wf_gpt n' -> g_wte n = g_wte n' -> (l <= g_block n)%N -> (l <= g_block n')%N ->
  (forall t i, size t = l -> (i < l)%N -> gref ex gelu n t i = gref ex gelu n' t i) ->
  all (fun t => size t == l) toks -> fwd n l toks tg = fwd n' l toks tg.
Proof.
move=> wf wf' ew hl hl' eg hs.
case: (boolP (all (all (gtn (size (g_wte n)))) toks)) => [hv|hv]; last first.
  have bad m : g_wte m = g_wte n -> traverse (traverse (gembed m)) toks = Err IndexError.
    move=> em; apply: (traverse_err (p := all (gtn (size (g_wte n))))) => // t; case: ifP => at_.
      exists [seq nth [::] (g_wte m) c | c <- t]; apply: traverse_in => c hc; rewrite /gembed em; by have /= -> := allP at_ _ hc.
    by apply: (traverse_err (p := gtn (size (g_wte n)))); rewrite ?at_ // => c; rewrite /gembed em; case: ifP => [/= ->|/= ->]; [eexists|].
  by rewrite /forward !bad // !ltnNge hl hl'.
have ht : tokens_ok n l toks by apply/allP => t h; rewrite (allP hs) // (allP hv).
have ht' : tokens_ok n' l toks by rewrite /tokens_ok -ew.
have eL : grefs n l toks = grefs n' l toks.
  apply/eq_in_map => t h; apply/eq_in_map => i; rewrite mem_iota => /= hi; apply: eg => //; apply/eqP; exact: (allP hs).
case: tg => [tg|]; last first.
  case: (posnP l) => [l0|l0]; last first.
    rewrite !C61_inference ?l0 //; congr (Ok (_, None)); apply/eq_in_map => t h; rewrite eg ?prednK //; apply/eqP; exact: (allP hs).
  have [e1 _] := rows_eq wf hl ht; have [e2 _] := rows_eq wf' hl' ht'.
  by rewrite /forward !ltnNge hl hl' e1 e2 l0.
have [e1 e3] := rows_eq wf hl ht; have [e2 e4] := rows_eq wf' hl' ht'.
by rewrite /forward !ltnNge hl hl' e1 e2; cbn [negb rbind]; rewrite e3 e4 eL.
Qed.
Theorem C61_flash n l toks tg : wf_gpt n -> (l <= g_block n)%N -> all (fun t => size t == l) toks ->
  fwd (flash n) l toks tg = fwd n l toks tg.
Proof.
by move=> wf hl; apply: fwd_same => //; [exact: wf_flash|move=> t i _ _; exact: gref_flash].
Qed.

(* what is refused *)
Theorem C61_too_long n l toks tg : (g_block n < l)%N -> fwd n l toks tg = Err AssertionError.
Proof. by rewrite /forward => ->. Qed.
Theorem C61_bad_token n l (toks : seq (seq nat)) tg (t : seq nat) c : (l <= g_block n)%N -> t \in toks -> c \in t -> (size (g_wte n) <= c)%N ->
  fwd n l toks tg = Err IndexError.
Proof.
move=> hl ht hc cV; rewrite /forward ltnNge hl; cbn [negb].
rewrite (traverse_err (e := IndexError) (p := all (gtn (size (g_wte n))))) //.
  move=> s; case: ifP => as_; last first.
    by apply: (traverse_err (p := gtn (size (g_wte n)))); rewrite ?as_ // => d; rewrite /gembed; case: ifP => [/= ->|/= ->]; [eexists|].
  by exists [seq nth [::] (g_wte n) d | d <- s]; apply: traverse_in => d hd; rewrite /gembed; have /= -> := allP as_ _ hd.
apply/negP => /allP /(_ _ ht) /allP /(_ _ hc) /=; by rewrite ltnNge cV.
Qed.
Theorem C61_no_tokens n toks : wf_gpt n -> tokens_ok n 0 toks -> fwd n 0 toks None = Err IndexError.
Proof. by move=> wf ht; have [e _] := rows_eq wf (leq0n _) ht; rewrite /forward e. Qed.
Theorem C61_target_count n l toks tg : wf_gpt n -> (l <= g_block n)%N -> tokens_ok n l toks ->
  size (flatten tg) != (size toks * l)%N -> fwd n l toks (Some tg) = Err ValueError.
Proof.
move=> wf hl ht st; rewrite /forward ltnNge hl; cbn [negb].
by have [-> e] := rows_eq wf hl ht; cbn [rbind]; rewrite e size_grefs eq_sym st.
Qed.
Theorem C61_bad_target n l toks (tg : seq (seq int)) c : wf_gpt n -> (l <= g_block n)%N -> tokens_ok n l toks ->
  size (flatten tg) = (size toks * l)%N -> c \in flatten tg -> ~~ target_ok n c -> fwd n l toks (Some tg) = Err IndexError.
Proof.
move=> wf hl ht st hc nc; rewrite /forward ltnNge hl; cbn [negb].
have [-> e] := rows_eq wf hl ht; cbn [rbind]; rewrite e size_grefs st eqxx; cbn [negb].
rewrite /ce_mean; have : size (flatten (grefs n l toks)) = size (flatten tg) by rewrite size_grefs.
move: (width_grefs n l toks); elim: (flatten _) (flatten tg) hc => [|z zs IH] [|d ts] //= hc /andP [/eqP zV az] [sz].
rewrite {1}/cross_entropy zV; move: nc; rewrite /target_ok => nc.
move: hc; rewrite inE => /orP [/eqP cd|hc].
  by move: nc; rewrite cd negb_or => /andP [/negbTE -> /negbTE ->].
have {}IH := IH _ hc az sz; case: (d == -1) => /=; last case: ifP => //= _;
  by move: IH; case: (collect _ _).
Qed.

(* cropping the block size changes nothing but the longest accepted sequence *)
Lemma wf_crop (n : gpt R) bs n' : wf_gpt n -> crop_block_size n bs = Ok n' -> wf_gpt n' /\ g_block n' = bs.
Proof.
case=> h0 hdv sp wf; rewrite /crop_block_size; case: ltnP => // hb [<-]; split=> //; split=> //=.
  by rewrite size_takel // sp.
elim: (g_blocks n) wf => [|y ys IH] //= [[wa wm] ws]; split; last exact: IH.
split=> //=; case: wm => ->; [by left|right]; congr Some; rewrite /= /tril -map_take take_iota (minn_idPl hb) -map_comp.
by apply: eq_map => r /=; rewrite -map_take take_iota (minn_idPl hb).
Qed.
Theorem C61_crop n bs n' l toks tg : wf_gpt n -> crop_block_size n bs = Ok n' -> all (fun t => size t == l) toks ->
  fwd n' l toks tg = if (l <= bs)%N then fwd n l toks tg else Err AssertionError.
Proof.
move=> wf hc hs; have [wf' eb] := wf_crop wf hc; case: leqP => hl; last by rewrite C61_too_long // eb.
have hb : (bs <= g_block n)%N by move: hc; rewrite /crop_block_size; case: ltnP.
have {hc} en : n' = Gpt bs (g_heads n) (g_dim n) (g_scale n) (g_wte n) (take bs (g_wpe n))
       [seq Block (k_ln1 y) (k_attn y) (k_proj y) (k_ln2 y) (k_fc y) (k_out y)
              (omap (fun m => [seq take bs r | r <- take bs m]) (k_mask y)) | y <- g_blocks n] (g_lnf n).
  by move: hc; rewrite /crop_block_size ltnNge hb => -[<-].
apply: fwd_same => //; rewrite ?en //=; first exact: leq_trans hb.
move=> t i st hi; rewrite /gref /= (fold_remask (omap (fun m => [seq take bs r | r <- take bs m]))) [in RHS]/=.
rewrite (@gfold_ext _ _ _ _ _ _ _ _ (fun j => addv (nth [::] (g_wte n) (nth 0%N t j)) (nth [::] (g_wpe n) j))); last first.
  by move=> j ji; rewrite nth_take //; apply: leq_ltn_trans ji _; apply: leq_trans hl.
by [].
Qed.
Theorem C61_crop_refused (n : gpt R) bs : (g_block n < bs)%N <-> crop_block_size n bs = Err AssertionError.
Proof. by rewrite /crop_block_size; case: ifP. Qed.
End Forward.
(* concrete networks meeting these hypotheses: GptProps2 *)
Print Assumptions C61_forward.
Print Assumptions C61_inference.
Print Assumptions C61_last.
Print Assumptions C61_causal.
Print Assumptions C61_batch.
Print Assumptions C61_flash.
Print Assumptions C61_too_long.
Print Assumptions C61_bad_token.
Print Assumptions C61_no_tokens.
Print Assumptions C61_target_count.
Print Assumptions C61_bad_target.
Print Assumptions C61_crop.
Print Assumptions C61_crop_refused.
