(* The music transformer and its generation loop (C54). *)
Set Warnings "-notation-overridden,-ambiguous-paths".
From mathcomp Require Import all_ssreflect all_algebra zify.
From Verif Require Import Py MtModel MtSpec MtProof.
Set Implicit Arguments. Unset Strict Implicit. Unset Printing Implicit Defensive.
Import GRing.Theory Num.Theory Order.Theory.
Local Open Scope ring_scope.

Section Forward.
Variables (R : fieldType) (ex relu : R -> R) (n : net R) (M : nat).
Notation fwd := (forward ex relu n).
Notation valid t := (all (gtn (size (n_emb n))) t).

(* a batch of sequences of one length gives, sample by sample and position by position, the logits of the reference:
   head h of sample s uses that sample's slice, and position i looks up the embedding of the distance i - j *)
Theorem C54_forward causal toks l :
  wf_net n M -> (l <= M)%N -> all (fun t => (size t == l) && valid t) toks -> (0 < size toks)%N ->
  fwd causal toks = Ok [seq [seq ref_net ex relu n causal t i | i <- iota 0 l] | t <- toks].
Proof. exact: forwardP. Qed.
(* no sample influences another *)
Theorem C54_batch causal toks l :
  wf_net n M -> (l <= M)%N -> all (fun t => (size t == l) && valid t) toks -> (0 < size toks)%N ->
  rmap flatten (traverse (fun t => fwd causal [:: t]) toks) = fwd causal toks.
Proof.
move=> wf hl ha hb; rewrite (forwardP _ _ _ wf hl ha hb).
rewrite (@traverse_in _ _ _ (fun t => [:: [seq ref_net ex relu n causal t i | i <- iota 0 l]])).
  by cbn [rmap]; congr Ok; elim: (toks) => [|t s IH] //=; rewrite IH.
by move=> t /(allP ha) ht; rewrite (forwardP _ _ _ wf hl (toks := [:: t])) //= ht.
Qed.
(* with the mask the logits of a prefix are a prefix of the logits: later tokens never matter, and neither does the length *)
Theorem C54_prefix toks l k :
  wf_net n M -> (l <= M)%N -> all (fun t => (size t == l) && valid t) toks -> (0 < size toks)%N -> (k <= l)%N ->
  fwd true [seq take k t | t <- toks] = rmap (map (take k)) (fwd true toks).
Proof.
move=> wf hl ha hb hk; rewrite (forwardP _ _ _ wf hl ha hb).
rewrite (forwardP _ _ _ wf (leq_trans hk hl)) ?size_map //; last first.
  rewrite all_map; apply: sub_all ha => t /= /andP [/eqP st vt]; rewrite size_takel ?st // eqxx /=.
  by move: vt; rewrite -{1}(cat_take_drop k t) all_cat => /andP [].
cbn [rmap]; congr Ok; rewrite -!map_comp; apply/eq_in_map => t ht /=.
rewrite -map_take take_iota (minn_idPl hk); apply/eq_in_map => i; rewrite mem_iota => /= hi.
rewrite /ref_net; congr (linear _ _ (n_norm _ _)).
have st : size t = l by have /andP [/eqP] := allP ha _ ht.
rewrite -(@foldl_ext R ex relu true (n_layers n) (n_dim n) (n_heads n) (n_scale n) (size t) (fun j => addv (nth [::] (n_emb n) (nth 0%N t j)) (nth [::] (n_pe n) j))) //.
- by apply: leq_trans hi _; rewrite st.
- move=> j _; rewrite orbF => ji; rewrite nth_take //; exact: leq_ltn_trans hi.
Qed.
(* sequences longer than max_sequence raise (unless max_sequence is 1), tokens outside the vocabulary are an IndexError *)
Theorem C54_too_long causal toks l :
  wf_net n M -> (1 < M < l)%N -> all (fun t => (size t == l) && valid t) toks -> (0 < size toks)%N ->
  fwd causal toks = Err RuntimeError.
Proof.
move=> [_ _ sp _] /andP [m1 hl] ha hb; rewrite /forward.
have -> : size (nth [::] toks 0) = l by have /andP [/eqP] := all_nthP [::] ha 0%N hb.
rewrite (@traverse_in _ _ _ (map (nth [::] (n_emb n)))); last first.
  move=> t ht; apply: traverse_in => k hk; rewrite /embed; have /andP [_ /allP] := allP ha _ ht; by move=> /(_ _ hk) /= ->.
cbn [rbind]; rewrite take_oversize ?sp; last exact: ltnW.
by rewrite (ltn_eqF hl) (gtn_eqF m1).
Qed.
Theorem C54_bad_token causal toks : ~~ all (fun t => valid t) toks -> fwd causal toks = Err IndexError.
Proof.
move=> h; rewrite /forward (@traverse_err _ _ IndexError _ (fun t => valid t)) // => t; case: ifP => ht.
  exists (map (nth [::] (n_emb n)) t); apply: traverse_in => k hk; rewrite /embed; by have := allP ht _ hk => /= ->.
apply: (@traverse_err _ _ IndexError _ (gtn (size (n_emb n)))); last by rewrite ht.
move=> k; rewrite /embed; case e: (gtn (size (n_emb n)) k); rewrite /= in e; rewrite e //; by exists (nth [::] (n_emb n) k).
Qed.
End Forward.

Section Generate.
Variables (P : Type) (R : realFieldType) (net : seq (seq nat) -> res (seq (seq (seq P)))) (sample : nat -> seq P -> nat)
  (topk : nat -> nat -> seq P -> seq nat) (draw : nat -> R).
Notation gen := (generate net sample topk draw false).

(* the documented failures *)
Theorem C54_generate_errors primer target beam chance :
  [/\ generate net sample topk draw true primer target beam chance = Err AssertionError,
      (target < size primer)%N -> size primer != 1%N -> gen primer target beam chance = Err RuntimeError
    & primer = [::] -> (0 < target)%N -> exists e, gen primer target beam chance = Err e].
Proof.
split=> //; first by move=> h1 h2; rewrite /generate h1 h2.
move=> ->; case: target => // target _; rewrite /generate /=; case: (net _) => [y|e] /=; by [exists IndexError|exists e].
Qed.
(* sampling never stops early: exactly target tokens come back, none of them END or PAD, each drawn from the
   distribution after the tokens before it (END and PAD cut off) *)
Theorem C54_generate_sampled f M primer target chance :
  (forall r, (0 < size r <= M)%N -> net [:: r] = Ok [:: f r]) -> chance < 2%:R ->
  (forall r, (0 < size r <= M)%N -> (sample (size r) (take token_end (nth [::] (f r) (size r).-1)) < token_end)%N) ->
  (0 < size primer <= target)%N -> (target <= M.+1)%N ->
  exists2 g, gen primer target 0 chance = Ok [:: primer ++ g] &
    [/\ size (primer ++ g) = target, all (gtn token_end) g
      & forall i, (size primer <= i < target)%N -> nth 0%N (primer ++ g) i =
          sample i (take token_end (nth [::] (f (take i (primer ++ g))) i.-1))].
Proof.
move=> hn hc hs /andP [p0 pt] tM.
have [|g [sg ag] [eg ng]] := @sampled P R net sample topk draw f M chance (target - size primer) primer hn hc hs p0.
  by rewrite subnKC.
exists g.
  rewrite /generate ltnNge pt; cbn [negb andb].
  by rewrite take_oversize // eg subnKC //; cbn [rmap map fst snd]; rewrite take_oversize // size_cat sg subnKC.
split=> //; first by rewrite size_cat sg subnKC.
move=> i /andP [hi it]; have {1}-> : nth 0%N (primer ++ g) i = nth 0%N g (i - size primer) by rewrite nth_cat ltnNge hi.
by rewrite ng ?subnKC // ?ltn_sub2r // ?(leq_ltn_trans hi) // take_cat ltnNge hi.
Qed.
End Generate.

Section Beam.
Variables (P R : realFieldType) (net : seq (seq nat) -> res (seq (seq (seq P)))) (sample : nat -> seq P -> nat)
  (topk : nat -> nat -> seq P -> seq nat) (draw : nat -> R).
Notation gen := (generate net sample topk draw false).
(* beam search is right for one new token *)
Theorem C54_beam_one f M primer beam chance :
  (forall r, (0 < size r <= M)%N -> net [:: r] = Ok [:: f r]) ->
  (forall r, (0 < size r <= M)%N -> size (f r) = size r /\ all (fun p => size p == vocab_size) (f r)) ->
  (0 < size primer <= M)%N -> (0 < beam <= token_end)%N -> draw (size primer) <= chance ->
  (forall i k s, (k <= size s)%N -> largest k s (topk i k s)) ->
  gen primer (size primer).+1 beam chance = beam_search net topk beam 1 (size primer) [:: primer].
Proof.
move=> hn hf hp /andP [b0 bv] hd ht; have [sf af] := hf _ hp.
rewrite /generate ltnNge leqnSn subSnn; cbn [negb andb]; rewrite take_oversize //.
cbn [gen_loop map beam_search]; rewrite take_size_cat // hn //; cbn [rbind].
have p0 : (0 < size primer)%N by case/andP: hp.
rewrite eqn0Ngt p0; cbn [negb map flatten foldr]; rewrite eqn0Ngt b0; cbn [negb]; rewrite hd !cats0.
set w := take token_end (nth [::] (f primer) _).
have ew : take token_end (last [::] (f primer)) = w by rewrite /w -nth_last sf.
have sw : size w = token_end.
  rewrite size_takel //; have /(all_nthP [::]) := af; move=> /(_ (size primer).-1); rewrite sf prednK // leqnn => /(_ isT) /eqP ->.
  by [].
rewrite ew sw ltnNge bv; cbn [negb].
have /and5P [_ _ /allP lt _ _] := ht (size primer) beam w (eq_ind_r (fun x => beam <= x)%N bv sw).
cbn [rmap fst snd]; congr Ok; rewrite -map_comp; apply/eq_in_map => j hj.
have {}hj : (j < token_end)%N by rewrite -sw; exact: lt.
have hv : (j < vocab_size)%N by apply: ltn_trans hj _.
rewrite /= (divn_small hj) (divn_small hv) (modn_small hj) (modn_small hv).
by rewrite (set_next primer token_pad j 0) cats0 take_oversize // size_rcons.
Qed.
(* candidate (row r, token c) is read back as another pair as soon as r > 0 *)
Theorem C54_beam_decode r c : (c < token_end)%N -> (2 * r <= vocab_size)%N ->
  let i := (r * token_end + c)%N in
  ((i %/ vocab_size, i %% vocab_size)%N == (r, c)) = (r == 0%N) /\
  (i %/ vocab_size, i %% vocab_size)%N = (if 2 * r <= c then (r, c - 2 * r) else (r.-1, c + vocab_size - 2 * r))%N.
Proof.
move=> hc hr i.
have e : (i %/ vocab_size, i %% vocab_size)%N = (if 2 * r <= c then (r, c - 2 * r) else (r.-1, c + vocab_size - 2 * r))%N.
  have ve : vocab_size = (token_end + 2)%N by [].
  case: ifP => h.
    have [||-> -> //] := @divmod_at i r (c - 2 * r) vocab_size.
    - by rewrite /i ve mulnDr; move: h hc; move: (r * token_end)%N token_end => v v'; clear; lia.
    - by rewrite ve; move: hc; move: token_end => v; clear; lia.
  have [||-> -> //] := @divmod_at i r.-1 (c + vocab_size - 2 * r) vocab_size.
  - by rewrite /i; case: (r) h hr => [|r'] //= h; rewrite ve mulnDr mulSn; move: h hc; move: (r' * token_end)%N token_end => v v'; clear; lia.
  - by rewrite ve in hr *; move: hr h hc; move: token_end => v; clear; lia.
split=> //; rewrite e; case: ifP => h; apply/eqP/eqP.
- by move=> [e1]; move: h e1; clear; lia.
- by move=> ->; rewrite muln0 subn0.
- by move=> [e1 _]; move: e1; clear; lia.
- by move=> r0; move: h; rewrite r0.
Qed.
(* a beam of two or more followed by a sampled token always raises *)
Theorem C54_beam_then_sample f primer target beam chance y :
  net [:: primer] = Ok [:: f] -> (0 < size primer)%N -> ((size primer).+1 < target)%N ->
  size (nth [::] f (size primer).-1) = vocab_size -> (1 < beam <= token_end)%N ->
  (forall i k s, (k <= size s)%N -> largest k s (topk i k s)) ->
  draw (size primer) <= chance -> chance < draw (size primer).+1 ->
  (forall rows, size rows = beam -> net rows = Ok (y rows) /\ size (y rows) = beam) ->
  gen primer target beam chance = Err RuntimeError.
Proof.
move=> hn p0 hp sf /andP [b1 bv] ht hd1 hd2 hy.
rewrite /generate ltnNge (leq_trans (leqnSn _) (ltnW hp)); cbn [negb andb].
have -> : (target - size primer = (target - (size primer).+2).+2)%N by move: hp; clear; lia.
have -> : take target primer = primer by apply: take_oversize; move: hp; clear; lia.
set fuel := (target - _)%N; cbn [gen_loop map].
rewrite take_size_cat // hn; cbn [rbind]; rewrite eqn0Ngt p0; cbn [negb map flatten foldr].
have b0 : beam == 0%N = false by rewrite gtn_eqF // ltnW.
rewrite b0 hd1 cats0; set w := take token_end _.
have sw : size w = token_end by rewrite size_takel // sf.
rewrite sw ltnNge bv; cbn [negb].
set rows := [seq set_nth _ _ _ _ | i <- _].
have sr : size rows = beam.
  have /and5P [/eqP st _ _ _ _] := ht (size primer) beam w (eq_ind_r (fun x => beam <= x)%N bv sw).
  by rewrite size_map st.
have [|ey sy] := hy [seq take (size primer).+1 r | r <- rows]; first by rewrite size_map.
rewrite ey; cbn [rbind]; rewrite [_ == 0%N]/= leNgt hd2; cbn [negb]; rewrite !size_map sy.
by rewrite (gtn_eqF b1).
Qed.
End Beam.

(* sampling from the network itself: the distributions used one after the other are the rows of one forward pass over
   the final sequence *)
Theorem C54_generate_forward (P : fieldType) (R : realFieldType) (ex relu : P -> P) (n : net P) M (smax : seq P -> seq P) sample topk (draw : nat -> R)
    primer target chance :
  let net rows := rmap (map (map smax)) (forward ex relu n true rows) in
  wf_net n M -> size (n_emb n) = vocab_size -> (forall i p, (sample i p < token_end)%N) -> chance < 2%:R ->
  all (gtn vocab_size) primer -> (0 < size primer <= target)%N -> (target <= M)%N ->
  exists out y, [/\ generate net sample topk draw false primer target 0 chance = Ok [:: out],
    size out = target /\ take (size primer) out = primer, net [:: out] = Ok [:: y]
    & forall i, (size primer <= i < target)%N -> nth 0%N out i = sample i (take token_end (nth [::] y i.-1))].
Proof.
move=> net wf sv hs hc vp /andP [p0 pt] tM.
pose f r := [seq smax (ref_net ex relu n true r i) | i <- iota 0 (size r)].
have hn r : all (gtn vocab_size) r -> (size r <= M)%N -> net [:: r] = Ok [:: f r].
  move=> vr hr; rewrite /net (forwardP _ _ _ wf hr (toks := [:: r])) //=; last by rewrite eqxx sv vr.
  by rewrite /f -map_comp.
(* the loop only ever looks at valid tokens *)
pose net' rows := if all (all (gtn vocab_size)) rows then net rows else Ok [seq f r | r <- rows].
have hn' r : (0 < size r <= M)%N -> net' [:: r] = Ok [:: f r].
  by move=> /andP [_ hr]; rewrite /net' /= andbT; case: ifP => // vr; exact: hn.
have gl fuel r : all (gtn vocab_size) r -> (0 < size r)%N -> (size r + fuel <= M.+1)%N ->
   gen_loop net sample topk draw 0 chance fuel [:: r ++ nseq fuel token_pad] (size r) =
   gen_loop net' sample topk draw 0 chance fuel [:: r ++ nseq fuel token_pad] (size r).
  elim: fuel r => [|fuel IH] r vr r0 hM //.
  have rM : (size r <= M)%N by move: hM; clear; lia.
  cbn [gen_loop map]; rewrite take_size_cat // hn // hn' ?r0 //; cbn [rbind]; rewrite eqn0Ngt r0; cbn [negb map].
  rewrite eqxx leNgt hc; cbn [negb map zip size fst snd]; rewrite eqxx; cbn [negb].
  set t := sample _ (take _ _); have ht : (t < token_end)%N by exact: hs.
  rewrite eqseq_cons andbT (ltn_eqF ht) set_next -(size_rcons r t); apply: IH; rewrite ?size_rcons //; last by move: hM; clear; lia.
  by rewrite all_rcons vr andbT; apply: ltn_trans ht _.
have [g eg [sg ag ng]] := @C54_generate_sampled _ R net' sample topk draw f M primer target chance hn' hc (fun r _ => hs _ _) (introT andP (conj p0 pt)) (leqW tM).
have vo : all (gtn vocab_size) (primer ++ g).
  by rewrite all_cat vp; apply: sub_all ag => k hk; apply: ltn_trans hk _.
exists (primer ++ g), (f (primer ++ g)); split.
- move: eg; rewrite /generate ltnNge pt; cbn [negb andb]; rewrite take_oversize // gl //; by rewrite subnKC // leqW.
- by split=> //; rewrite take_size_cat.
- by apply: hn => //; rewrite sg.
move=> i hi; rewrite ng //; congr (sample _ (take _ _)); move/andP: hi => [hi it].
have i0 : (0 < i)%N by apply: leq_trans hi.
have si : size (take i (primer ++ g)) = i by rewrite size_takel // sg ltnW.
have := C54_prefix ex relu (toks := [:: primer ++ g]) (l := target) (k := i) wf tM.
rewrite /= sg eqxx sv vo (ltnW it) => /(_ isT isT isT).
have iM : (i <= M)%N by apply: leq_trans tM; exact: ltnW.
have vi : all (gtn vocab_size) (take i (primer ++ g)).
  by move: vo; rewrite -{1}(cat_take_drop i (primer ++ g)) all_cat => /andP [].
rewrite (forwardP _ _ _ wf iM (toks := [:: take i (primer ++ g)])) //=; last by rewrite si eqxx sv vi.
rewrite (forwardP _ _ _ wf (toks := [:: primer ++ g]) (l := target)) //=; last by rewrite sg eqxx sv vo.
case=> e; rewrite /f si sg.
rewrite (nth_map 0%N) ?size_iota ?prednK // (nth_map 0%N) ?size_iota; last by rewrite prednK // ltnW.
rewrite !nth_iota ?prednK //; last by rewrite ltnW.
rewrite !add0n; congr smax; have := congr1 (fun s => nth [::] s i.-1) e.
rewrite nth_take ?prednK // (nth_map 0%N) ?size_iota ?prednK // (nth_map 0%N) ?size_iota; last by rewrite prednK // ltnW.
by rewrite !nth_iota ?prednK //; last by rewrite ltnW.
Qed.

Section Examples.
Let q (a : nat) : rat := a%:R.
(* over the field with 31 elements *)
Let K := [fieldType of 'F_31].
Let kk (a : nat) : K := a%:R.
Let ex (x : K) : K := x * x + 1.
Let relu (x : K) : K := if (x < 15)%N then x else 0.
Let lay : layer K :=
  Layer [:: [:: 1; 0]; [:: 0; 2%:R]; [:: 1; 1]; [:: 2%:R; 1]; [:: 1; -1]; [:: 3%:R; 1]] [:: 0; 1; 0; 0; 2%:R; 0]
        [:: [:: 1; 1]; [:: 0; 1]] [:: 0; 1] [:: [:: 5%:R]; [:: 3%:R]; [:: 1]] id (fun v => [seq x + 1 | x <- v])
        [:: [:: 1; -1]; [:: 2%:R; 1]; [:: 0; 1]] [:: 0; 0; 1] [:: [:: 1; 0; 1]; [:: 0; 1; 2%:R]] [:: 1; 0].
(* two layers, two heads of one dimension, at most three positions *)
Let nt v : net K := Net [:: lay; lay] 2 2 (1 / 2%:R) (mkseq (fun i => [:: kk i; kk (i * i)]) v)
  [:: [:: 0; 1]; [:: 1; 0]; [:: 1; 1]] id (nseq v [:: 1; 2%:R]) (nseq v 0).
Example C54_ex_wf v : wf_net (nt v) 3. Proof. by []. Qed.
Example C54_ex_tokens : all (fun t => (size t == 3%N) && all (gtn (size (n_emb (nt 4)))) t) [:: [:: 1; 3; 2]; [:: 0; 2; 2]]%N.
Proof. by []. Qed.
Example C54_ex_generate : exists out, size out = 3%N /\
  generate (fun rows => rmap (map (map id)) (forward ex relu (nt vocab_size) true rows)) (fun i _ => minn (i * 7) 14)
    (fun _ _ _ => [::]) (fun _ => 0) false [:: 60%N] 3 0 (1 : rat) = Ok [:: out].
Proof.
have h2 : size (n_emb (nt vocab_size)) = vocab_size by rewrite size_mkseq.
have h3 i (p : seq K) : (minn (i * 7) 14 < token_end)%N by apply: leq_ltn_trans (geq_minr _ _) _.
have h4 : (1 : rat) < 2%:R by [].
have [out [y [eo [so _] _ _]]] := @C54_generate_forward K [realFieldType of rat] ex relu (nt vocab_size) 3 id
  (fun i _ => minn (i * 7) 14) (fun _ _ _ => [::]) (fun _ => 0) [:: 60%N] 3 1 (C54_ex_wf vocab_size) h2 h3 h4 isT isT isT.
exists out; exact: conj so eo.
Qed.

(* two steps with a beam of two: the best continuations are tokens 9 and 11 of the second hypothesis; tokens 7 and 9 come back *)
Let hot (l : seq (nat * nat)) : seq rat := mkseq (fun i => q (sumn [seq (if p.1 == i then p.2 else 0)%N | p <- l])) vocab_size.
Let bnet (rows : seq (seq nat)) : res (seq (seq (seq rat))) :=
  Ok [seq rcons (nseq (size r).-1 [::]) (if last 0%N r == 0%N then hot [:: (5, 3); (7, 2)]%N
     else if last 0%N r == 7%N then hot [:: (9, 5); (11, 4)]%N else hot [:: (1, 1)]%N) | r <- rows].
Let top (R : realFieldType) (cur k : nat) (s : seq R) : seq nat :=
  take k (sort (fun i j => nth 0 s j <= nth 0 s i) (iota 0 (size s))).
Lemma topP (R : realFieldType) i k (s : seq R) : (k <= size s)%N -> largest k s (top i k s).
Proof.
move=> hk; rewrite /largest /top; set r := fun _ _ => _; set t := sort r _.
have st : size t = size s by rewrite size_sort size_iota.
have tr : transitive r by move=> a b c; rewrite /r => h1 h2; exact: le_trans h2 h1.
have so : sorted r t by apply: sort_sorted => a b; rewrite /r; exact: le_total.
have mt a : (a \in t) = (a < size s)%N by rewrite mem_sort mem_iota.
have pw := so; rewrite (sorted_pairwise tr) -(cat_take_drop k t) pairwise_cat in pw.
move/and3P: pw => [/allrelP al _ _].
apply/and5P; split.
- by rewrite size_takel ?st.
- by rewrite take_uniq // sort_uniq iota_uniq.
- by apply/allP => a /mem_take; rewrite mt.
- exact: take_sorted.
apply/allP => a ha; apply/allP => b; rewrite mem_iota => /= hb; have : b \in t by rewrite mt.
rewrite -{1}(cat_take_drop k t) mem_cat => /orP [->//|hb']; by rewrite [nth 0 s b <= _](al a b ha hb') orbT.
Qed.
Theorem C54_beam_refuted :
  ~ (forall (P R : realFieldType) net (sample : nat -> seq P -> nat) topk (draw : nat -> R) primer target beam chance,
       (forall i k s, (k <= size s)%N -> largest k s (topk i k s)) ->
       (forall i, draw i <= chance) -> (0 < size primer <= target)%N -> (0 < beam)%N ->
       generate net sample topk draw false primer target beam chance =
       beam_search net topk beam (target - size primer) (size primer) [:: primer]).
Proof.
move=> /(_ _ [realFieldType of rat] bnet (fun _ _ => 0%N) (@top _) (fun _ => 0) [:: 0%N] 3%N 2%N 1 (@topP _) (fun _ => ler01) isT isT).
by vm_compute.
Qed.
Example C54_ex_beam :
  generate bnet (fun _ _ => 0%N) (@top _) (fun _ => 0) false [:: 0%N] 3%N 2%N (1 : rat) = Ok [:: [:: 0; 7; 7]; [:: 0; 7; 9]]%N /\
  beam_search bnet (@top _) 2%N 2%N 1%N [:: [:: 0%N]] = Ok [:: [:: 0; 7; 9]; [:: 0; 7; 11]]%N.
Proof. by vm_compute. Qed.
(* the hypotheses of C54_beam_one and C54_beam_then_sample *)
Example C54_ex_one :
  generate bnet (fun _ _ => 0%N) (@top _) (fun _ => 0) false [:: 0%N] 2%N 2%N (1 : rat) = Ok [:: [:: 0; 5]; [:: 0; 7]]%N /\
  generate bnet (fun _ _ => 0%N) (@top _) q false [:: 0%N] 3%N 2%N (1 : rat) = Err RuntimeError.
Proof. by vm_compute. Qed.
End Examples.

Print Assumptions C54_forward.
Print Assumptions C54_batch.
Print Assumptions C54_prefix.
Print Assumptions C54_too_long.
Print Assumptions C54_bad_token.
Print Assumptions C54_generate_errors.
Print Assumptions C54_generate_sampled.
Print Assumptions C54_beam_one.
Print Assumptions C54_beam_decode.
Print Assumptions C54_beam_then_sample.
Print Assumptions C54_generate_forward.
Print Assumptions C54_beam_refuted.
