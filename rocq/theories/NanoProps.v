(* C57: nanoGPT data, batches, schedule, checkpoints and the retraining driver. *)
Set Warnings "-notation-overridden,-ambiguous-paths".
From mathcomp Require Import all_ssreflect all_algebra zify.
From Verif Require Import Py Dict RetrainModel NanoModel NanoSpec NanoProof NanoProof2.
Set Implicit Arguments. Unset Strict Implicit. Unset Printing Implicit Defensive.
Import GRing.Theory Num.Theory Order.Theory.

(* ---- preparation of the text *)
(* Preparation never fails; the two parts decode to the text, and the identifiers number the characters of the text
   in increasing order without gaps. *)
Theorem C57_prepare cut (data : seq nat) :
  exists tr va, [/\ prepare cut data = Ok (tr, va), decode (chars data) (tr ++ va) = Ok data,
    size tr = minn cut (size data), sorted ltn (chars data) /\ chars data =i data &
    forall i, (i \in tr ++ va) = (i < size (chars data))].
Proof.
have H (s : seq nat) : {subset s <= data} -> all (mem (chars data)) s.
  by move=> h; apply/allP => c cs; rewrite /= mem_chars h.
have h1 : all (mem (chars data)) (take cut data) by apply: H => c /mem_take.
have h2 : all (mem (chars data)) (drop cut data) by apply: H => c /mem_drop.
rewrite /prepare !encodeE //=; eexists; eexists; split; first reflexivity.
- rewrite -map_cat cat_take_drop decodeE; last first.
    by apply/allP => i /mapP [c cs ->]; rewrite index_mem mem_chars.
  congr Ok; rewrite -map_comp; apply: map_id_in => c cs /=; by rewrite nth_index // mem_chars.
- by rewrite size_map size_take /minn.
- split; last by move=> c; apply: mem_chars.
  by rewrite ltn_sorted_uniq_leq uniq_chars sort_sorted //; exact: leq_total.
move=> i; rewrite -map_cat cat_take_drop; apply/mapP/idP => [[c cs ->]|hi].
  by rewrite index_mem mem_chars.
exists (nth 0 (chars data) i); first by rewrite -mem_chars mem_nth.
by rewrite index_uniq // uniq_chars.
Qed.
Theorem C57_encode_unknown (data s : seq nat) c : c \in s -> c \notin data -> encode (chars data) s = Err KeyError.
Proof.
move=> cs cd; apply: encode_bad; apply/negP => /allP /(_ c cs) /=.
by rewrite mem_chars; apply/negP.
Qed.

(* ---- the data set used for attribution *)
Section Data.
Variables (data : seq nat) (block : nat).
Hypothesis k0 : 0 < block.
Let n := size data %/ block.
(* Sample idx is the idx-th block of tokens, its target the tokens one further; past the end the target is token 0. *)
Theorem C57_dataset idx : idx < n ->
  [/\ ds_len data block = Ok n, size (ds_get data block idx).1 = block, size (ds_get data block idx).2 = block &
   forall p, p < block -> nth 0 (ds_get data block idx).1 p = nth 0 data (idx * block + p) /\
     nth 0 (ds_get data block idx).2 p =
     if idx * block + p < (size data).-1 then nth 0 data (idx * block + p).+1 else 0].
Proof.
move=> hi; have hb : idx * block + block <= size data.
  rewrite -mulSnr; apply: leq_trans (leq_trunc_div (size data) block).
  by rewrite leq_mul2r hi orbT.
split.
- by rewrite /ds_len -[block == 0]negbK -lt0n k0.
- by rewrite /ds_get /= window_full.
- rewrite /ds_get /=; case: ltnP => h; last first.
    by apply/eqP; rewrite eqn_leq h andbT size_window geq_minl.
  by rewrite size_cat size_nseq subnKC // ltnW.
move=> p hp; rewrite /ds_get /= nth_window //; split=> //.
have -> : nth 0 (if size (window data (idx * block).+1 block) < block
    then window data (idx * block).+1 block ++ nseq (block - size (window data (idx * block).+1 block)) 0
    else window data (idx * block).+1 block) p = nth 0 (window data (idx * block).+1 block) p.
  case: ifP => // _; rewrite nth_cat; case: ltnP => // h.
  by rewrite nth_nseq if_same nth_default.
rewrite nth_window // addSn; case: ltnP => // h; rewrite nth_default //.
by move: h; clear; lia.
Qed.
(* The samples are the text up to the last full block, cut into pieces. *)
Theorem C57_dataset_partition : flatten [seq (ds_get data block i).1 | i <- iota 0 n] = take (n * block) data.
Proof.
have : n <= n by []; move: {1 3 4}n; elim=> [|k IH] hk; first by rewrite mul0n take0.
rewrite -[k.+1]addn1 iotaD map_cat flatten_cat IH ?(ltnW hk) // add0n /= cats0 addn1 mulSnr.
by rewrite takeD.
Qed.
(* No IndexError: reading past the end silently gives shorter samples. *)
Theorem C57_dataset_overrun idx : n <= idx ->
  size (ds_get data block idx).1 < block /\ size (ds_get data block idx).2 = block.
Proof.
move=> hi; rewrite /ds_get /=; split.
  rewrite size_window gtn_min; apply/orP; right.
  have : size data < n.+1 * block by rewrite -ltn_divLR.
  have : n * block <= idx * block by rewrite leq_mul2r hi orbT.
  by rewrite mulSn; move: (n * block) (idx * block) k0; clear; lia.
case: ltnP => h; last by apply/eqP; rewrite eqn_leq h andbT size_window geq_minl.
by rewrite size_cat size_nseq subnKC // ltnW.
Qed.

(* Training reads the same samples as attribution, unless a block has no following token ... *)
Theorem C57_same_samples blocks : blocks <> [::] -> all (fun b => b.+1 * block < size data) blocks ->
  pairs block data (starts block blocks) = get_subset data block blocks /\
  get_subset data block blocks =
  Ok ([seq (ds_get data block b).1 | b <- blocks], [seq (ds_get data block b).2 | b <- blocks]).
Proof.
move=> ne /allP al; rewrite /pairs /get_subset /starts -!map_comp.
have w1 b : b \in blocks -> size (window data (b * block) block) = block.
  by move=> /al; rewrite mulSnr => h; apply: window_full; exact: ltnW.
have w2 b : b \in blocks -> size (window data (b * block).+1 block) = block.
  by move=> /al; rewrite mulSnr => h; apply: window_full; rewrite addSn.
have e2 : [seq (ds_get data block b).2 | b <- blocks] = [seq window data (b * block).+1 block | b <- blocks].
  by apply/eq_in_map => b hb; rewrite /ds_get /= w2 // ltnn.
have s1 : stack [seq window data (b * block) block | b <- blocks] = Ok [seq window data (b * block) block | b <- blocks].
  apply: (@stack_same block); first by case: (blocks) ne.
  by apply/allP => r /mapP [b hb ->]; rewrite w1.
have s2 : stack [seq window data (b * block).+1 block | b <- blocks] = Ok [seq window data (b * block).+1 block | b <- blocks].
  apply: (@stack_same block); first by case: (blocks) ne.
  by apply/allP => r /mapP [b hb ->]; rewrite w2.
by rewrite e2 -/(ds_get _ _) /ds_get /= s1 /= s2.
Qed.
(* ... which is the case for the last block when the blocks fill the text: a batch with it and another block raises. *)
Theorem C57_last_block blocks b : size data = n * block -> n.-1 \in blocks -> b \in blocks -> b.+1 < n ->
  all (fun b => b < n) blocks -> pairs block data (starts block blocks) = Err RuntimeError.
Proof.
move=> sz hl hb bn /allP al; rewrite /pairs /starts -!map_comp.
have -> : stack [seq ((window data)^~ block \o muln^~ block) b | b <- blocks] =
   Ok [seq ((window data)^~ block \o muln^~ block) b | b <- blocks].
  apply: (@stack_same block); first by case: (blocks) hl.
  apply/allP => r /mapP [c hc ->] /=; apply/eqP/window_full; rewrite sz -mulSnr leq_mul2r.
  by rewrite (al _ hc) orbT.
rewrite [rbind _ _]/=; set l := (X in stack X).
have -> // : stack l = Err RuntimeError.
apply: (@stack_bad _ (window data (n.-1 * block).+1 block) (window data (b * block).+1 block)).
- by apply/mapP; exists n.-1.
- by apply/mapP; exists b.
have nz : 0 < n by apply: leq_ltn_trans bn.
rewrite (@window_full _ _ (b * block).+1); last first.
  rewrite sz addSn -mulSnr; have : b.+2 * block <= n * block by rewrite leq_mul2r bn orbT.
  by rewrite [b.+2 * _]mulSnr; move: k0; clear; lia.
have e : size data = block + n.-1 * block by rewrite sz -mulSn prednK.
by rewrite size_window e; move: (n.-1 * block) k0; clear; lia.
Qed.
End Data.

(* ---- the subset *)
Theorem C57_subset (data perm : seq nat) block sub : perm_eq perm (iota 0 (size data %/ block)) ->
  let kb := kept_blocks data block sub perm in
  [/\ uniq kb, all (fun b => b < size data %/ block) kb &
      size kb = if sub is Some k then minn k (size data %/ block) else size data %/ block].
Proof.
move=> pe; rewrite /kept_blocks /block_count; case: sub => [k|].
  split; first by apply: take_uniq; rewrite (perm_uniq pe) iota_uniq.
    by apply/allP => b /mem_take; rewrite (perm_mem pe) mem_iota add0n.
  by rewrite size_take (perm_size pe) size_iota /minn.
by rewrite iota_uniq size_iota; split=> //; apply/allP => b; rewrite mem_iota add0n.
Qed.
(* Training twice into one directory leaves both subsets in indices.txt. *)
Theorem C57_indices_append (runs : seq (seq nat)) : foldl save_indices [::] runs = flatten runs.
Proof.
have H f : foldl save_indices f runs = f ++ flatten runs; last by rewrite H.
by elim: runs f => [|r runs IH] f /=; rewrite ?cats0 // IH /save_indices catA.
Qed.

(* ---- batches *)
Section Batches.
Variables (data vdata : seq nat) (block bsz : nat) (ind : seq nat).
Hypothesis b0 : 0 < bsz.
Notation after ss := (foldl (fun c s => (get_batch data vdata block bsz ind s c).2) 0 ss).
(* The n-th call reads full batch number n modulo the number of full batches, whatever the calls before were for:
   validation calls move the pointer of training. *)
Theorem C57_batches ss : bsz <= size ind ->
  (get_batch data vdata block bsz ind TrainSplit (after ss)).1 = pairs block data (nth_batch 0 ind bsz (size ss)).
Proof.
move=> bi.
have -> : after ss = cur_at bsz ind (size ss).
  elim/last_ind: ss => [//|ss s IH]; rewrite foldl_rcons IH size_rcons.
  by case: s => [|dr]; rewrite ?get_train ?get_val.
by rewrite get_train.
Qed.
(* With fewer indices than the batch size every batch is the whole subset. *)
Theorem C57_short_subset ss : size ind < bsz ->
  (get_batch data vdata block bsz ind TrainSplit (after ss)).1 = pairs block data ind.
Proof. by move=> h; rewrite /get_batch get_short. Qed.
(* The positions read are those below the last multiple of the batch size: the other size modulo bsz members of
   the subset, although listed in indices.txt, are never trained on; every other member is. *)
Theorem C57_tail : bsz <= size ind -> uniq ind -> forall x, x \in ind ->
  (exists k, x \in nth_batch 0 ind bsz k) <-> index x ind < size ind %/ bsz * bsz.
Proof.
move=> bi un x xi; set m := size ind %/ bsz.
have m0 : 0 < m by rewrite divn_gt0.
have mm : m * bsz <= size ind by apply: leq_trunc_div.
split=> [[k /mapP [p]]|h].
  rewrite mem_iota add0n => /= hp ->; rewrite /place -/m.
  have hh : k %% m * bsz + p < m * bsz.
    apply: (@leq_trans ((k %% m).+1 * bsz)); first by rewrite mulSnr ltn_add2l.
    by rewrite leq_mul2r ltn_pmod // orbT.
  by rewrite index_uniq // (leq_trans hh).
exists (index x ind %/ bsz); apply/mapP; exists (index x ind %% bsz); first by rewrite mem_iota add0n ltn_pmod.
by rewrite /place -/m modn_small ?ltn_divLR // -divn_eq nth_index.
Qed.
(* One epoch of training calls reads every such position once, in order. *)
Theorem C57_epoch : bsz <= size ind ->
  flatten [seq nth_batch 0 ind bsz k | k <- iota 0 (size ind %/ bsz)] = take (size ind %/ bsz * bsz) ind.
Proof.
move=> bi; set m := size ind %/ bsz.
have mm : m * bsz <= size ind by apply: leq_trunc_div.
have : m <= m by []; move: {1 3 4}m; elim=> [|k IH] hk; first by rewrite mul0n take0.
rewrite -[k.+1]addn1 iotaD map_cat flatten_cat IH ?(ltnW hk) // add0n /= cats0 addn1 mulSnr takeD.
congr (_ ++ _); rewrite -window_nth_batch // -/m modn_small //.
Qed.
End Batches.

(* ---- training *)
Section Training.
Variables (R : realFieldType) (St : Type).
Notation batch := (seq (seq nat) * seq (seq nat))%type.
Variables (data vdata : seq nat) (block bsz : nat) (ind : seq nat).
Variable draw : St -> seq nat * St.
Variable forward : St -> batch -> res R * St.
Variable backward : St -> batch -> res St.
Variable update : R -> St -> St.
Variable rate : nat -> res R.
Variables (acc ev e max_iters : nat) (always : bool) (big : R) (st0 : St).
Hypothesis b0 : 0 < bsz.
Hypothesis a0 : 0 < acc.
Hypothesis e0 : 0 < ev.
Notation run := (training data vdata block bsz ind draw forward backward update rate acc ev e max_iters always big st0).
Notation eval_at := (eval_at data vdata block bsz ind draw forward backward update rate acc ev e always big st0).
Notation state_at := (state_at data vdata block bsz ind draw forward backward update rate acc ev e always big st0).

(* max_iters + 1 iterations of acc micro steps; step t is taken on batch call_no t: the 2 e batches of every
   evaluation made so far are skipped. *)
Theorem C57_trained r : bsz <= size ind -> run = Ok r ->
  [seq Ok b | b <- r_log r] =
  [seq pairs block data (nth_batch 0 ind bsz (call_no acc ev e t)) | t <- iota 0 (max_iters.+1 * acc)].
Proof.
move=> bi; rewrite /training; case Es: (start _ _ _ _ _ _ _) => [r0|//]; cbn [rbind] => E.
have g0 := @start_good R St data vdata block bsz ind acc ev e b0 bi e0 st0 _ Es.
have [_ _ ->] := iterate_good b0 bi a0 e0 (k := 0) g0 E.
by rewrite add0n.
Qed.
(* When the batches of one evaluation period fill whole epochs, training starves: it only ever sees the batches of
   its first period, however long it runs. *)
Theorem C57_starved t : size ind %/ bsz %| acc * ev + 2 * e ->
  exists2 j, j <= acc * ev & nth_batch 0 ind bsz (call_no acc ev e t) = nth_batch 0 ind bsz (call_no acc ev e j).
Proof.
move=> dv; case: t => [|t]; first by exists 0.
have ae : 0 < acc * ev by rewrite muln_gt0 a0.
exists (t %% (acc * ev)).+1; first by rewrite ltn_pmod.
suff E : call_no acc ev e t.+1 = t %/ (acc * ev) * (acc * ev + 2 * e) + call_no acc ev e (t %% (acc * ev)).+1.
  apply: eq_mkseq => p; rewrite /place E -modnDml.
  by have /eqP -> : size ind %/ bsz %| t %/ (acc * ev) * (acc * ev + 2 * e) by apply: dvdn_mull.
rewrite /call_no -!divnMA [t %% _ %/ _]divn_small ?ltn_pmod // {1}(divn_eq t (acc * ev)).
by move: (2 * e) (acc * ev) (t %/ (acc * ev)) (t %% (acc * ev)); clear; nia.
Qed.
(* A last block without a following token ends the run: no training succeeds that reaches it. *)
Theorem C57_last_block_fatal r t : bsz <= size ind -> t < max_iters.+1 * acc ->
  pairs block data (nth_batch 0 ind bsz (call_no acc ev e t)) = Err RuntimeError -> run <> Ok r.
Proof.
move=> bi ht hp Er; have E := C57_trained bi Er.
have := congr1 (fun s => nth (Err KeyError) s t) E.
rewrite [in RHS](nth_map 0) ?size_iota // nth_iota // add0n hp.
have : size (r_log r) = max_iters.+1 * acc by have := congr1 size E; rewrite !size_map size_iota.
move: (r_log r) => l sl; case: l sl => [|b l] sl; first by move: ht; rewrite -sl.
by rewrite (nth_map b) // sl.
Qed.

(* always_save_checkpoint: what is left is the state at the last evaluation, not the final one; nothing is saved
   by a run shorter than one evaluation interval. *)
Theorem C57_saved_always r : always -> run = Ok r ->
  r_saved r = if max_iters < ev then None else omap (fun s => (s, max_iters %/ ev * ev)) (state_at (max_iters %/ ev)).
Proof.
move=> al E; have [-> _] := before_inv (st0 := st0) e0 (it := max_iters.+1) E.
have -> : (max_iters.+1 + ev.-1) = (max_iters + ev) by move: e0; clear; lia.
rewrite div_plus // last_saveS /saves al /=; case: ltnP => h; first by rewrite divn_small.
have : 0 < max_iters %/ ev by rewrite divn_gt0.
by case: (max_iters %/ ev).
Qed.
(* Otherwise it is the first evaluation attaining the smallest validation loss; nothing is saved when that is the
   evaluation before training, or when no loss is below the initial bound. *)
Theorem C57_saved_best r : always = false -> run = Ok r ->
  match r_saved r with
  | Some (st, it) => exists q a, [/\ it = q * ev, 0 < q <= max_iters %/ ev, state_at q = Some st,
      eval_at q = Some a /\ (a < big)%R &
      forall p y, p <= max_iters %/ ev -> eval_at p = Some y -> (a <= y)%R /\ (p < q -> (a < y)%R)]
  | None => (forall p y, p <= max_iters %/ ev -> eval_at p = Some y -> (big <= y)%R) \/
      exists a, eval_at 0 = Some a /\ forall p y, p <= max_iters %/ ev -> eval_at p = Some y -> (a <= y)%R
  end.
Proof.
move=> al E; have [-> _] := before_inv (st0 := st0) e0 (it := max_iters.+1) E.
have -> : (max_iters.+1 + ev.-1) = (max_iters + ev) by move: e0; clear; lia.
rewrite div_plus //; set Q := (max_iters %/ ev).
rewrite /last_save (eq_filter (a2 := is_record big eval_at)); last by move=> q; rewrite /saves al.
have := last_rec_min big eval_at Q.+1; case El: (ohead _) => [[|q]|] /=; last by left.
  by case=> a [_ va _ H]; right; exists a; split.
case=> a [lq va ab H].
have rq : is_record big eval_at q.+1.
  have : q.+1 \in rev [seq q <- iota 0 Q.+1 | is_record big eval_at q].
    by case: (rev _) El => //= x s [->]; rewrite inE eqxx.
  by rewrite mem_rev mem_filter => /andP [].
case Es: (state_at q.+1) => [st|] /=; last first.
  by move: Es va; rewrite /state_at /eval_at; case: (before _ _ _ _ _ _ _ _ _ _ _ _ _ _ _ _ _).
exists q.+1, a; split=> // p y hp vp; split; first exact: H vp.
move=> pq; move: rq; rewrite /is_record va => /andP [_ /allP /(_ p)].
by rewrite mem_iota add0n vp => /(_ pq).
Qed.
End Training.

(* ---- learning rate *)
Section Rates.
Local Open Scope ring_scope.
Variables (R : realFieldType) (cosr : R -> R) (top low : R) (warm decay : nat).
Hypothesis c0 : cosr 0 = 1.
Hypothesis c1 : cosr 1 = -1.
Hypothesis cm : forall r s, 0 <= r -> r <= s -> s <= 1 -> cosr s <= cosr r.
Hypothesis lt : low <= top.
Notation lr := (get_lr cosr top low warm decay).
Lemma ratio01 it : (warm < decay)%N -> (warm <= it)%N -> (it <= decay)%N ->
  0 <= ((it%:R - warm%:R) / (decay%:R - warm%:R) : R) /\ ((it%:R - warm%:R) / (decay%:R - warm%:R) : R) <= 1.
Proof.
move=> wd wi id; have d0 : 0 < (decay%:R - warm%:R : R) by rewrite subr_gt0 ltr_nat.
split; first by apply: divr_ge0; [rewrite subr_ge0 ler_nat|exact: ltW].
by rewrite ler_pdivr_mulr // mul1r ler_add2r ler_nat.
Qed.
(* The rate rises linearly to its top at the end of the warmup, then falls to the minimum, where it stays. *)
Theorem C57_rate it : (warm < decay)%N -> exists r, lr it = Ok r /\
  [/\ (it <= warm)%N -> r * warm%:R = top * it%:R, it = warm -> r = top, (decay <= it)%N -> r = low &
      (warm <= it)%N -> low <= r <= top].
Proof.
move=> wd; rewrite /get_lr; case: (ltnP it warm) => iw.
  exists (top * it%:R / warm%:R); split=> //; split.
  - by rewrite divfK // pnatr_eq0; move: iw; clear; lia.
  - by move: iw; clear; lia.
  - by move: iw wd; clear; lia.
  - by move: iw; clear; lia.
case: (ltnP decay it) => di.
  exists low; split=> //; split=> //; try (move: wd di; clear; lia).
  by rewrite lexx lt.
have -> : (decay == warm) = false by apply/negP => /eqP h; move: wd; rewrite h ltnn.
have [r0 r1] := ratio01 wd iw di; rewrite r0 r1 /=; eexists; split; first reflexivity.
have d0 : (decay%:R - warm%:R : R) != 0 by rewrite gt_eqF // subr_gt0 ltr_nat.
have h2 : 2%:R^-1 * (1 + 1) = 1 :> R by rewrite -mulr2n mulVf // pnatr_eq0.
have top' : it = warm -> low + 2%:R^-1 * (1 + cosr ((it%:R - warm%:R) / (decay%:R - warm%:R))) * (top - low) = top.
  by move=> ->; rewrite subrr mul0r c0 h2 mul1r addrCA subrr addr0.
split=> //.
- move=> h; have e : it = warm by apply/eqP; rewrite eqn_leq h iw.
  by rewrite (top' e) e.
- move=> h; have -> : it = decay by apply/eqP; rewrite eqn_leq h di.
  by rewrite divff // c1 subrr mulr0 mul0r addr0.
move=> _; set c := cosr _.
have cu : c <= 1 by rewrite -c0; apply: cm.
have cl : -1 <= c by rewrite -c1; apply: cm.
have tl : 0 <= top - low by rewrite subr_ge0.
have h0 : 0 <= 2%:R^-1 :> R by rewrite invr_ge0 ler0n.
apply/andP; split; first by rewrite ler_addl mulr_ge0 // mulr_ge0 // -ler_subl_addl sub0r.
have hc : 2%:R^-1 * (1 + c) <= 1 by apply: (le_trans (y := 2%:R^-1 * (1 + 1))); [apply: ler_wpmul2l => //; rewrite ler_add2l|rewrite h2].
by have := ler_wpmul2r tl hc; rewrite mul1r ler_subr_addl.
Qed.
Theorem C57_rate_up i j ri rj : 0 <= top -> (warm < decay)%N -> (i <= j)%N -> (j <= warm)%N ->
  lr i = Ok ri -> lr j = Ok rj -> ri <= rj.
Proof.
move=> t0 wd ij jw Ei Ej; case: (posnP warm) => [w0|w0].
  have : i = j by move: ij jw w0; clear; lia.
  by move=> e; move: Ei; rewrite e Ej => -[->].
have [r [Er [H _ _ _]]] := C57_rate i wd; move: Er; rewrite Ei => -[e]; subst r.
have [r [Er [H' _ _ _]]] := C57_rate j wd; move: Er; rewrite Ej => -[e]; subst r.
rewrite -(@ler_pmul2r _ warm%:R) ?ltr0n // H ?H' ?(leq_trans ij) //.
by rewrite ler_wpmul2l // ler_nat.
Qed.
Theorem C57_rate_down i j ri rj : (warm < decay)%N -> (warm <= i)%N -> (i <= j)%N ->
  lr i = Ok ri -> lr j = Ok rj -> rj <= ri.
Proof.
move=> wd wi ij Ei Ej; case: (leqP decay j) => dj.
  have [r [Er [_ _ H _]]] := C57_rate j wd; move: Er; rewrite Ej => -[e]; subst r; rewrite (H dj).
  have [r [Er [_ _ _ H']]] := C57_rate i wd; move: Er; rewrite Ei => -[e]; subst r.
  by case/andP: (H' wi).
have wj : (warm <= j)%N by apply: leq_trans ij.
have jd := ltnW dj; have id : (i <= decay)%N by apply: leq_trans jd.
have [r0 r1] := ratio01 wd wi id; have [s0 s1] := ratio01 wd wj jd.
have F k : (warm <= k)%N -> (k <= decay)%N -> lr k = Ok (low + 2%:R^-1 * (1 + cosr ((k%:R - warm%:R) / (decay%:R - warm%:R))) * (top - low)).
  move=> wk kd; rewrite /get_lr ltnNge wk ltnNge kd /=.
  have -> : (decay == warm) = false by apply/negP => /eqP h; move: wd; rewrite h ltnn.
  by have [-> ->] := ratio01 wd wk kd.
move: Ei Ej; rewrite !F // => -[<-] [<-].
rewrite ler_add2l ler_wpmul2r ?subr_ge0 // ler_wpmul2l ?invr_ge0 ?ler0n // ler_add2l; apply: cm => //.
have d0 : 0 < (decay%:R - warm%:R : R) by rewrite subr_gt0 ltr_nat.
by rewrite ler_pmul2r ?invr_gt0 // ler_add2r ler_nat.
Qed.
(* The assertion never fails; the one error is the division at the end of a warmup as long as the decay. *)
Theorem C57_rate_error it x : lr it = Err x <-> [/\ it = warm, decay = warm & x = ZeroDivisionError].
Proof.
rewrite /get_lr; case: (ltnP it warm) => iw; first by split=> // -[h _ _]; move: iw; rewrite h ltnn.
case: (ltnP decay it) => di.
  by split=> // -[h1 h2 _]; move: di; rewrite h1 h2 ltnn.
case: (decay =P warm) => h.
  by split=> [[<-]|[_ _ ->]] //; split=> //; move: iw di h; clear; lia.
have wd : (warm < decay)%N by move: iw di h; clear; lia.
by have [-> ->] := ratio01 wd iw di; split=> // -[_ /h].
Qed.
(* A decay shorter than the warmup: the rate drops at once from (nearly) the top to the minimum. *)
Theorem C57_rate_short it : (decay < warm)%N ->
  lr it = Ok (if (it < warm)%N then top * it%:R / warm%:R else low).
Proof.
by move=> dw; rewrite /get_lr; case: (ltnP it warm) => // iw; rewrite (leq_trans dw iw).
Qed.
End Rates.

(* ---- the retraining driver *)
Section Driver.
Variables (A D : eqType) (T : Type).
Variable name : key D -> seq A.
Variable parse : seq A -> option (key D * T).
Notation effective := (effective parse).
Notation conf := (config_of name).
Definition four (k : key D) : bool := if k is KOther _ then false else true.
Definition taken (t : seq A) : bool :=
  [|| starts_with (name (KOut D)) t, starts_with (name (KSeed D)) t, starts_with (name (KRatio D)) t |
      starts_with (name (KData D)) t].

Lemma zrange_cat (a b c : int) : (a <= b)%R -> (b <= c)%R -> zrange a c = zrange a b ++ zrange b c.
Proof.
move=> ab bc; rewrite /zrange ab bc (le_trans ab bc).
have -> : `|c - a|%N = `|b - a| + `|c - b| by move: ab bc; clear; lia.
rewrite iotaD map_cat; congr (_ ++ _); rewrite add0n -[X in iota X]addn0 iotaDl -map_comp; apply: eq_map => k /=.
by move: ab bc; clear; lia.
Qed.
Lemma zrange_nil (a b : int) : (b <= a)%R -> zrange a b = [::].
Proof.
move=> h; rewrite /zrange; case: ifP => // h'; have -> : a = b by apply/eqP; rewrite eq_le h h'.
by rewrite subrr.
Qed.
(* Model i (named model_{i+1}) gets seed + i - 1, whatever the partition. *)
Theorem C57_driver cfg (seed a b total : int) : retrain name false false (Some cfg) seed a b total =
  Ok [seq conf cfg i (seed + i - 1)%R | i <- zrange a (Order.min b total)].
Proof.
rewrite /retrain; congr Ok; have -> : (if (b <= total)%R then b else total) = Order.min b total.
  by case: (leP b total).
move: (Order.min b total) => c; rewrite /zrange; case: ifP => // ac; move: (absz _) => n {c ac}.
have H (j : nat) (l : seq (seq (line A))) : (sfold (fun st i => ((st.1 + 1, rcons st.2 (conf cfg i st.1))%R, Ok tt))
     ((seed + (a + j%:Z) - 1)%R, l) [seq (a + k%:Z)%R | k <- iota j n]).1.2 =
   l ++ [seq conf cfg i (seed + i - 1)%R | i <- [seq (a + k%:Z)%R | k <- iota j n]].
  elim: n j l => [|n IH] j l; first by rewrite /= cats0.
  rewrite /= -cat_rcons -IH.
  by have -> : (seed + (a + j%:Z) - 1 + 1 = seed + (a + j.+1%:Z) - 1)%R by clear; lia.
by have := H 0 [::]; rewrite addr0.
Qed.
Theorem C57_driver_partition cfg (seed a b c total : int) : (a <= b)%R -> (b <= c)%R ->
  retrain name false false (Some cfg) seed a c total =
  rbind (retrain name false false (Some cfg) seed a b total) (fun l1 =>
  rmap (cat l1) (retrain name false false (Some cfg) seed b c total)).
Proof.
move=> ab bc; rewrite !C57_driver /=; congr Ok; rewrite -map_cat; congr map.
case: (leP b total) => bt; last first.
  have ct : (total < c)%R by apply: lt_le_trans bc.
  by rewrite (min_idPr (ltW ct)) [zrange b _]zrange_nil ?cats0 // ltW.
apply: zrange_cat => //; by rewrite le_minr bc bt.
Qed.
Theorem C57_driver_errors neg above cfg (seed a b total : int) : neg || above || (cfg == None) ->
  retrain name neg above cfg seed a b total = Err (if cfg is Some _ then ValueError else FileNotFoundError).
Proof. by rewrite /retrain; case: cfg => // c; case: neg => //; case: above. Qed.

Lemma effective_rcons k ls l : effective k (rcons ls l) = if assigns parse k l is Some v then Some v else effective k ls.
Proof. by rewrite /NanoModel.effective foldl_rcons. Qed.
(* The dataset path always is the given one. *)
Theorem C57_driver_data cfg i seed : effective (KData D) (conf cfg i seed) = Some (VData T).
Proof. by rewrite /config_of effective_rcons. Qed.

(* no two of the four names can start the same line, and an assignment starts with the name it assigns *)
Hypothesis incomp : forall k k' t, four k -> four k' -> starts_with (name k) t -> starts_with (name k') t -> keq k k'.
Hypothesis parsed : forall t k v, four k -> parse t = Some (k, v) -> starts_with (name k) t.
Definition given (i seed : int) (k : key D) : value T :=
  match k with KOut => VOut _ (i + 1)%R | KSeed => VSeed _ seed | KRatio => VRatio _ | _ => VData _ end.
Lemma assigns_rewrite i seed k t : four k ->
  assigns parse k (rewrite_line name i seed t) = if starts_with (name k) t then Some (given i seed k) else None.
Proof.
move=> fk; rewrite /rewrite_line.
have I := fun k' f => @incomp k k' t fk f.
have nk : starts_with (name k) t = false -> assigns parse k (Txt t) = None.
  move=> h; rewrite /assigns; case E: (parse t) => [[k' v]|//]; case: ifP => // kk.
  have fk' : four k' by case: (k) fk kk; case: (k').
  have ek : k' = k by case: (k) fk kk {I}; case: (k').
  by have := parsed fk' E; rewrite ek h.
case e1: (starts_with (name (KOut D)) t).
  have I1 := I (KOut D) isT; case: k fk I {nk} I1 => //= _ I; rewrite ?e1 //; by case: (starts_with _ t) => // /(_ isT isT).
case e2: (starts_with (name (KSeed D)) t).
  have I1 := I (KSeed D) isT; case: k fk I {nk} I1 => //= _ I; rewrite ?e1 ?e2 //; by case: (starts_with _ t) => // /(_ isT isT).
case e3: (starts_with (name (KRatio D)) t).
  have I1 := I (KRatio D) isT; case: k fk I {nk} I1 => //= _ I; rewrite ?e1 ?e2 ?e3 //; by case: (starts_with _ t) => // /(_ isT isT).
case e4: (starts_with (name (KData D)) t).
  have I1 := I (KData D) isT; case: k fk I {nk} I1 => //= _ I; rewrite ?e1 ?e2 ?e3 ?e4 //.
have n : starts_with (name k) t = false by case: (k) fk.
by rewrite n nk.
Qed.
(* The output directory, the seed and the ratio of model i take effect if the file has a line for them; without a
   seed line every model is trained with train.py's own seed. *)
Theorem C57_driver_set cfg i seed k : four k -> k <> KData D ->
  effective k (conf cfg i seed) = if has (starts_with (name k)) cfg then Some (given i seed k) else None.
Proof.
move=> fk nd; rewrite /config_of effective_rcons.
have -> : assigns parse k (SetData A) = None by case: k fk nd.
elim/last_ind: cfg => [//|cfg t IH].
rewrite map_rcons effective_rcons assigns_rewrite // has_rcons.
by case: (starts_with (name k) t).
Qed.
(* Any other setting keeps the value of its last line, provided none of its lines begins with one of the four
   names; if all do, its lines are lost. *)
Theorem C57_driver_other cfg i seed d :
  effective (KOther d) (conf cfg i seed) = effective (KOther d) [seq Txt t | t <- cfg & ~~ taken t].
Proof.
rewrite /config_of effective_rcons /=; elim/last_ind: cfg => [//|cfg t IH].
rewrite map_rcons effective_rcons filter_rcons IH /rewrite_line /taken.
do 4 (case: (starts_with _ t) => //=).
by rewrite map_rcons effective_rcons.
Qed.
End Driver.

(* ---- runs that succeed *)
Section Completes.
Variables (R : realFieldType) (St : Type).
Notation batch := (seq (seq nat) * seq (seq nat))%type.
Variables (data vdata : seq nat) (block bsz : nat) (ind : seq nat).
Variable draw : St -> seq nat * St.
Variable forward : St -> batch -> res R * St.
Variable backward : St -> batch -> res St.
Variable update : R -> St -> St.
Variable rate : nat -> res R.
Variables (acc ev e max_iters : nat) (always : bool) (big : R) (st0 : St).
Definition fits (d ix : seq nat) : Prop := ix <> [::] /\ all (fun i => i + block < size d) ix.
Definition okr (X : Type) (x : res X) : Prop := exists a, x = Ok a.
Hypothesis b0 : 0 < bsz.
Hypothesis e0 : 0 < ev.
Hypothesis fi : fits data ind.
Hypothesis fd : forall st, fits vdata (draw st).1.
Hypothesis ff : forall st b, okr (forward st b).1.
Hypothesis fb : forall st b, okr (backward st b).
Hypothesis fr : forall it, okr (rate it).
Lemma pairs_ok d ix : fits d ix -> okr (pairs block d ix).
Proof.
move=> [ne /allP al]; rewrite /pairs.
rewrite (@stack_same block) /=; first rewrite (@stack_same block) /=; first by eexists.
- by case: (ix) ne.
- by apply/allP => r /mapP [i hi ->]; rewrite window_full // addSn al.
- by case: (ix) ne.
by apply/allP => r /mapP [i hi ->]; rewrite window_full // ltnW // al.
Qed.
Lemma get_ok s cur : match s with TrainSplit => True | ValSplit dr => fits vdata dr end ->
  okr (get_batch data vdata block bsz ind s cur).1.
Proof.
rewrite /get_batch /get_batch_indices; case: s => [_|dr [ne al]] /=; last first.
  case: leqP => h; last exact: pairs_ok.
  by case: dr ne al => // i dr _ /= /andP [h' _]; move: h h'; clear; lia.
apply: pairs_ok; case: fi => ne /allP al; split.
  move=> /(congr1 size); rewrite size_window; case: ltnP => h; last by move: h b0; rewrite /=; clear; lia.
  by case: (ind) ne => //= i s _; move: b0; clear; lia.
by apply/allP => i /mem_take /mem_drop; apply: al.
Qed.
Lemma eval_one_ok v x : okr (eval_one data vdata block bsz ind draw forward v x).1.
Proof.
case: x => st cur; rewrite /eval_one; case: v.
  have := fd st; case: (draw st) => dr st1 h; have [b] := @get_ok (ValSplit dr) cur h; cbn beta iota.
  case: (get_batch _ _ _ _ _ _ _) => b' c /= ->; have := ff st1 b; by case: (forward st1 b).
have [b] := @get_ok TrainSplit cur I; cbn beta iota; case: (get_batch _ _ _ _ _ _ _) => b' c /= ->.
by have := ff st b; case: (forward st b).
Qed.
Lemma eval_split_ok v k x : okr (eval_split data vdata block bsz ind draw forward v k x).1.
Proof.
elim: k x => [|k IH] x; first by eexists.
cbn [eval_split]; have [l] := eval_one_ok v x; case: (eval_one _ _ _ _ _ _ _ _ _) => l' x1 /= ->.
have [ls] := IH x1; case: (eval_split _ _ _ _ _ _ _ _ _ _) => ls' x2 /= ->; by eexists.
Qed.
Lemma checkpoint_ok it r : okr (checkpoint data vdata block bsz ind draw forward e always big it r).
Proof.
rewrite /checkpoint /estimate.
have [l] := eval_split_ok false e (r_s r, r_cur r); case: (eval_split _ _ _ _ _ _ _ _ _ _) => l' x1 /= ->.
have [ls] := eval_split_ok true e x1; case: (eval_split _ _ _ _ _ _ _ _ _ _) => ls' [st c] /= ->.
by eexists; reflexivity.
Qed.
Lemma micro_ok (r : NanoModel.run R St) : okr (micro data vdata block bsz ind backward r).
Proof.
rewrite /micro; have [st ->] := fb (r_s r) (r_batch r); cbn [rbind]; rewrite /fetch.
have [b] := @get_ok TrainSplit (r_cur r) I; case: (get_batch _ _ _ _ _ _ _) => b' c /= ->.
by eexists.
Qed.
Lemma rfold_ok (S X : Type) (f : S -> X -> res S) s l : (forall s x, okr (f s x)) -> okr (rfold f s l).
Proof. by move=> h; elim: l s => [|x l IH] s /=; [eexists|have [s' ->] := h s x; apply: IH]. Qed.
(* Training succeeds whenever every index leaves room for a block and its targets and the steps succeed. *)
Theorem C57_completes :
  okr (training data vdata block bsz ind draw forward backward update rate acc ev e max_iters always big st0).
Proof.
rewrite /training /start /fetch; have [b] := @get_ok TrainSplit 0 I.
case: (get_batch _ _ _ _ _ _ _) => b' c /= ->; cbn [rbind rmap]; rewrite /iterate; apply: rfold_ok => r it.
rewrite /iteration; have [lr ->] := fr it; cbn [rbind]; rewrite ifN -?lt0n //.
have [r1 ->] : okr (if it %% ev == 0 then checkpoint data vdata block bsz ind draw forward e always big it r else Ok r).
  by case: ifP => _; [apply: checkpoint_ok|eexists].
cbn [rbind]; have [r2 ->] := @rfold_ok _ _ (fun r (_ : nat) => micro data vdata block bsz ind backward r) r1 (iota 0 acc)
  (fun r _ => micro_ok r).
by eexists.
Qed.
End Completes.

(* ---- examples *)
Section Examples.
Example ex_prepare : prepare 2 [:: 7; 3; 7; 5] = Ok ([:: 2; 0], [:: 2; 1]) /\ encode (chars [:: 7; 3]) [:: 5] = Err KeyError.
Proof. by vm_compute. Qed.
Let d7 := [:: 10; 11; 12; 13; 14; 15; 16].
(* block 3: two samples, the seventh token only as a target; six tokens: the last target is token 0, and training stops *)
Example ex_dataset : [seq ds_get d7 3 i | i <- iota 0 2] = [:: ([:: 10; 11; 12], [:: 11; 12; 13]); ([:: 13; 14; 15], [:: 14; 15; 16])]
  /\ pairs 3 d7 (starts 3 [:: 1; 0]) = get_subset d7 3 [:: 1; 0].
Proof. by vm_compute. Qed.
Example ex_last_block : ds_get (take 6 d7) 3 1 = ([:: 13; 14; 15], [:: 14; 15; 0]) /\
  pairs 3 (take 6 d7) (starts 3 [:: 1; 0]) = Err RuntimeError /\ ds_get (take 6 d7) 3 2 = ([::], [:: 0; 0; 0]).
Proof. by vm_compute. Qed.
(* five indices, batches of two: the fifth is never used; a validation call skips a training batch *)
Example ex_tail : [seq nth_batch 0 [:: 40; 10; 30; 0; 20] 2 k | k <- iota 0 3] = [:: [:: 40; 10]; [:: 30; 0]; [:: 40; 10]].
Proof. by vm_compute. Qed.
Example ex_starved : [seq call_no 1 4 2 t %% 8 | t <- iota 0 17] = [:: 0; 5; 6; 7; 0; 5; 6; 7; 0; 5; 6; 7; 0; 5; 6; 7; 0]
  /\ 8 %| 1 * 4 + 2 * 2.
Proof. by vm_compute. Qed.
Let F := [realFieldType of rat].
Let tr e always := @training F nat d7 d7 2 2 [:: 0; 2; 4] (fun s => ([:: 1], s)) (fun s _ => (Ok (1%R : F), s))
  (fun s _ => Ok s.+1) (fun _ s => s) (fun _ => Ok (1%R : F)) 1 2 e 5 always (9%:R)%R 0.
Example ex_training e always : exists r, tr e always = Ok r.
Proof. by apply: C57_completes => // *; eexists. Qed.
(* the saved state is the one of iteration 4, the two updates after it are lost *)
Example ex_saved r : tr 0 true = Ok r -> r_saved r = Some (4, 4).
Proof.
move=> E; rewrite (C57_saved_always (isT : 0 < 2) isT E).
by vm_compute.
Qed.
(* a settings name that begins with one of the four is lost; codes stand for characters *)
Let nm (k : key nat_eqType) : seq nat := match k with KOut => [:: 1] | KSeed => [:: 2] | KRatio => [:: 3] | KData => [:: 4] | KOther d => [:: 2; d] end.
Let pr (t : seq nat) : option (key nat_eqType * nat) :=
  match t with [:: 1; v] => Some (KOut _, v) | [:: 2; v] => Some (KSeed _, v) | [:: 3; v] => Some (KRatio _, v)
  | [:: 4; v] => Some (KData _, v) | [:: 2; d; v] => Some (KOther d : key nat_eqType, v) | _ => None end.
Theorem C57_driver_lost_refuted :
  ~ (forall (cfg : seq (seq nat_eqType)) i seed (d : nat_eqType),
      effective pr (KOther d) (config_of nm cfg i seed) = effective pr (KOther d) [seq Txt t | t <- cfg]).
Proof. by move/(_ [:: [:: 2; 5; 9]] 0%R 0%R 5). Qed.
Example ex_driver : (forall k k' t, four k -> four k' -> starts_with (nm k) t -> starts_with (nm k') t -> keq k k') /\
  (forall t k v, four k -> pr t = Some (k, v) -> starts_with (nm k) t).
Proof.
split=> [k k' [|a t]|[|a [|b [|c t]]] k v] //; rewrite /starts_with /nm.
- by case: k => [||||d] //; case: k' => [||||d'] //= _ _ _; rewrite ?take0.
- case: k => [||||d] //; case: k' => [||||d'] //= _ _; rewrite ?take0 => /eqP [->] //.
- by move=> _; case: a => [|[|[|[|[|a]]]]] //.
- by move=> fk; case: a => [|[|[|[|[|a]]]]] //= [<-].
by move=> fk; case: a => [|[|[|[|[|a]]]]] //=; case: t => //= -[e]; move: fk; rewrite -e.
Qed.
Example ex_rate : (fun r : F => 1 - 2%:R * r)%R 0%R = 1%R /\ (fun r : F => 1 - 2%:R * r)%R 1%R = (-1)%R /\
  forall r s : F, (0 <= r)%R -> (r <= s)%R -> (s <= 1)%R -> (1 - 2%:R * s <= 1 - 2%:R * r)%R.
Proof.
split; first by rewrite mulr0 subr0.
split; first by vm_compute; apply/eqP.
by move=> r s _ rs _; rewrite ler_sub // ler_wpmul2l // ler0n.
Qed.
End Examples.

Print Assumptions C57_prepare.
Print Assumptions C57_encode_unknown.
Print Assumptions C57_dataset.
Print Assumptions C57_dataset_partition.
Print Assumptions C57_dataset_overrun.
Print Assumptions C57_same_samples.
Print Assumptions C57_last_block.
Print Assumptions C57_subset.
Print Assumptions C57_indices_append.
Print Assumptions C57_batches.
Print Assumptions C57_short_subset.
Print Assumptions C57_tail.
Print Assumptions C57_epoch.
Print Assumptions C57_trained.
Print Assumptions C57_starved.
Print Assumptions C57_last_block_fatal.
Print Assumptions C57_saved_always.
Print Assumptions C57_saved_best.
Print Assumptions C57_rate.
Print Assumptions C57_rate_up.
Print Assumptions C57_rate_down.
Print Assumptions C57_rate_error.
Print Assumptions C57_rate_short.
Print Assumptions C57_driver.
Print Assumptions C57_driver_partition.
Print Assumptions C57_driver_errors.
Print Assumptions C57_driver_data.
Print Assumptions C57_driver_set.
Print Assumptions C57_driver_other.
Print Assumptions C57_completes.
Print Assumptions C57_driver_lost_refuted.
