(* C60: the label smoothing loss and the warm-up schedule. *)
Set Warnings "-notation-overridden,-ambiguous-paths".
From mathcomp Require Import all_ssreflect all_algebra zify.
From Verif Require Import Py SmoothModel SmoothSpec.
Set Implicit Arguments. Unset Strict Implicit. Unset Printing Implicit Defensive.
Import GRing.Theory Num.Theory Order.Theory.
Local Open Scope ring_scope.

Section Loss.
Variables (R : rcfType) (lse : seq R -> R).
Notation fwd := (forward lse).
Notation isclass v c := ((0 <= c :> int) && (c < v%:Z)).

(* a batch as the caller sees it: one row of v logits and one class for every position *)
Definition batch_ok (v : nat) (input : seq (seq R)) (target : seq int) : bool :=
  [&& (0 < v)%N, size input == size target, all (fun z => size z == v) input & all (fun c => isclass v c) target].
(* the sum over the positions that are not ignored *)
Definition kept_sum (eps : R) (ign : int) (input : seq (seq R)) (target : seq int) : R :=
  \sum_(p <- zip input target | p.2 != ign) smoothed lse eps p.1 `|p.2|%N.

Lemma smooth_row (eps : R) (v c : nat) (z : seq R) : (0 < v)%N -> size z = v -> (c < v)%N ->
  - (\sum_(j <- iota 0 v) ((1 - eps) * (if c == j then 1 else 0) + eps * (1 / v%:R)) * (nth 0 z j - lse z))
  = smoothed lse eps z c.
Proof.
move=> v0 sz cv; rewrite /smoothed sz /ce1 -{1}[v]subn0 -/(index_iota 0 v) big_mkord.
rewrite -sumrN.
rewrite (eq_bigr (fun j : 'I_v => (1 - eps) * ((if c == j then 1 else 0) * (lse z - nth 0 z j))
   + eps * (1 / v%:R) * (lse z - nth 0 z j))); last first.
  by move=> j _; rewrite -mulrN opprB mulrDl mulrA.
rewrite big_split /= -!mulr_sumr; congr (_ * _ + _); last by rewrite mulrAC div1r mulrA.
rewrite (bigD1 (Ordinal cv)) //= eqxx mul1r big1 ?addr0 // => j jc.
by rewrite ifF ?mul0r //; apply: contraNF jc => /eqP e; apply/eqP/val_inj.
Qed.

Lemma bat_nth {T} (d : T) s i : (i < size s)%N -> bat d s i = nth d s i.
Proof. by rewrite /bat; case: (size s =P 1%N) => [->|//]; case: i. Qed.
Lemma bsizeE n : bsize n n = Ok n. Proof. by rewrite /bsize eqxx. Qed.

Lemma fwd_sum m input target : batch_ok (s_vocab m) input target ->
  rbind (one_hot R (s_vocab m) target) (fun q =>
    rmap (fun ce => \sum_(x <- ce) x) (cross_entropy lse (s_vocab m) (q_prime m target q) (s_vocab m) input))
  = Ok (kept_sum (s_eps m) (s_ignore m) input target).
Proof.
case/and4P=> v0 /eqP sz wd cl; set v := s_vocab m.
rewrite /one_hot -/v ifF ?cl; last by apply/eqP; move: v0; rewrite -/v; lia.
cbn [rbind]; rewrite /cross_entropy.
have sq : size (q_prime m target [seq [seq if c == j%:Z then 1 else 0 | j <- iota 0 v] | c <- target]) = size input.
  by rewrite size_map size_zip size_map minnn sz.
rewrite sq bsizeE; cbn [rbind]; rewrite bsizeE; cbn [rbind rmap]; congr (Ok _).
rewrite big_map /kept_sum -/v.
have e : zip input target = [seq (nth [::] input i, nth 0 target i) | i <- iota 0 (size input)].
  apply: (@eq_from_nth _ ([::], 0)) => [|i]; rewrite ?size_map ?size_iota ?size_zip sz minnn // => it.
  by rewrite nth_zip // (nth_map 0%N) ?size_iota // nth_iota // add0n.
rewrite e big_map /= [RHS]big_mkcond /=; apply: eq_big_seq => i; rewrite mem_iota add0n /= => li.
have ti : (i < size target)%N by rewrite -sz.
rewrite (bat_nth _ (s := q_prime _ _ _)) ?sq // (bat_nth _ (s := [seq _ | r <- input])) ?size_map //.
rewrite (nth_map (0, [::])) ?size_zip ?size_map ?minnn // nth_zip ?size_map // (nth_map 0) // [nth [::] (map _ input) i](nth_map [::]) //=.
set c := nth 0 target i; set z := nth [::] input i.
have szz : size z = v by apply/eqP/(allP wd)/mem_nth.
have /andP[c0 cv] : isclass v c by apply: (allP cl); apply: mem_nth.
case: eqP => [ci|ci] /=.
  rewrite big1_seq ?oppr0 // => j /=; rewrite mem_iota add0n => /andP[_ jv].
  by rewrite bat_nth ?size_map ?size_iota // (nth_map 0) ?size_map ?size_iota // mul0r.
have cE : c = `|c|%N%:Z by rewrite gez0_abs.
rewrite -[RHS](smooth_row _ v0) //; last by move: c0 cv; clear; lia.
congr (- _); apply: eq_big_seq => j; rewrite mem_iota add0n => jv.
rewrite !bat_nth ?size_map ?size_iota ?szz // (nth_map 0) ?size_map ?size_iota // (nth_map 0) ?szz //.
by rewrite (nth_map 0%N) ?size_iota // nth_iota // add0n -/v {1}cE eqz_nat.
Qed.

(* with reduction sum: the smoothed cross entropies of the positions that are not ignored *)
Theorem C60_sum m input target : s_red m = Sum -> batch_ok (s_vocab m) input target ->
  fwd m (s_vocab m) input target = Ok (Some (kept_sum (s_eps m) (s_ignore m) input target)).
Proof.
move=> rd /fwd_sum; rewrite /forward rd; case: (one_hot _ _ _) => //= q; case: (cross_entropy _ _ _ _ _) => //= ce [->] //.
Qed.
(* with reduction mean: their average; no number when every position is ignored *)
Theorem C60_mean m input target : s_red m = Mean -> batch_ok (s_vocab m) input target ->
  let n := size [seq c <- target | c != s_ignore m] in
  fwd m (s_vocab m) input target
  = Ok (if (0 < n)%N then Some (kept_sum (s_eps m) (s_ignore m) input target / n%:R) else None).
Proof.
move=> rd /fwd_sum; rewrite /forward rd size_filter; case: (one_hot _ _ _) => //= q; case: (cross_entropy _ _ _ _ _) => //= ce [->].
by rewrite lt0n; case: eqP.
Qed.

(* without smoothing it is the cross entropy; with full smoothing the classes do not matter *)
Theorem C60_plain (z : seq R) c : smoothed lse 0 z c = lse z - nth 0 z c.
Proof. by rewrite /smoothed subr0 mul1r mul0r addr0. Qed.
Theorem C60_full m input t1 t2 : s_eps m = 1 -> s_red m = Sum ->
  batch_ok (s_vocab m) input t1 -> batch_ok (s_vocab m) input t2 ->
  [seq c == s_ignore m | c <- t1] = [seq c == s_ignore m | c <- t2] ->
  fwd m (s_vocab m) input t1 = fwd m (s_vocab m) input t2.
Proof.
move=> e1 rd b1 b2 eqi; rewrite !C60_sum // e1; congr (Ok (Some _)); rewrite /kept_sum.
have /eqP s1 : size input == size t1 by case/and4P: b1.
have /eqP s2 : size input == size t2 by case/and4P: b2.
elim: input t1 t2 s1 s2 eqi {b1 b2} => [|z s IH] [|a t1] [|b t2] //= [s1] [s2] [ab] eqi.
rewrite !big_cons /= ab (IH t1 t2) //; case: eqP => //= _; congr (_ + _).
by rewrite /smoothed subrr !mul0r.
Qed.
(* the logits of an ignored position do not matter *)
Theorem C60_ignored m input1 input2 target :
  batch_ok (s_vocab m) input1 target -> batch_ok (s_vocab m) input2 target ->
  (forall i, (i < size target)%N -> nth 0 target i != s_ignore m -> nth [::] input1 i = nth [::] input2 i) ->
  fwd m (s_vocab m) input1 target = fwd m (s_vocab m) input2 target.
Proof.
move=> b1 b2 same.
have /eqP s1 : size input1 == size target by case/and4P: b1.
have /eqP s2 : size input2 == size target by case/and4P: b2.
have e : kept_sum (s_eps m) (s_ignore m) input1 target = kept_sum (s_eps m) (s_ignore m) input2 target.
  rewrite /kept_sum; elim: input1 input2 target s1 s2 same {b1 b2} => [|z1 i1 IH] [|z2 i2] [|c t] //= [s1] [s2] same.
  rewrite !big_cons /= (IH i2 t) //; last by move=> i it; apply: (same i.+1).
  by case: (c =P s_ignore m) => //= ci; have -> : z1 = z2 by apply: (same 0%N) => //=; apply/eqP.
move: (fwd_sum b1) (fwd_sum b2); rewrite -{}e /forward.
case: (one_hot _ _ _) => //= q.
case: (cross_entropy _ _ _ _ input1) => //= ce1' [<-]; case: (cross_entropy _ _ _ _ input2) => //= ce2' [->].
by case: (s_red m).
Qed.

(* the loss is not negative as logsumexp bounds every logit *)
Theorem C60_nonneg m input target : (forall z j, nth 0 z j <= lse z) -> 0 <= s_eps m <= 1 ->
  0 <= kept_sum (s_eps m) (s_ignore m) input target.
Proof.
move=> hl /andP[e0 e1]; apply: sumr_ge0 => p _; apply: addr_ge0; apply: mulr_ge0; rewrite ?subr_ge0 //.
by apply: divr_ge0; rewrite ?ler0n //; apply: sumr_ge0 => j _; rewrite subr_ge0.
Qed.

(* batches: the sum adds up; the mean of the whole is weighted by the kept positions of the parts *)
Theorem C60_batches m i1 t1 i2 t2 : batch_ok (s_vocab m) i1 t1 -> batch_ok (s_vocab m) i2 t2 ->
  kept_sum (s_eps m) (s_ignore m) (i1 ++ i2) (t1 ++ t2)
  = kept_sum (s_eps m) (s_ignore m) i1 t1 + kept_sum (s_eps m) (s_ignore m) i2 t2
  /\ batch_ok (s_vocab m) (i1 ++ i2) (t1 ++ t2).
Proof.
case/and4P=> v0 /eqP s1 w1 c1 /and4P[_ /eqP s2 w2 c2]; split.
  by rewrite /kept_sum zip_cat // big_cat.
by rewrite /batch_ok v0 !size_cat s1 s2 eqxx !all_cat w1 w2 c1 c2.
Qed.

Lemma means_gap (x y a b : R) : (x * a + y * b) * 2%:R - (a + b) * (x + y) = (x - y) * (a - b).
Proof.
have e2 : (x * a + y * b) * 2%:R = (x * a + y * b) + (x * a + y * b) by rewrite mulr_natr mulr2n.
have e3 : (a + b) * (x + y) = (x * a + y * b) + (x * b + y * a).
  by rewrite mulrC mulrDl !mulrDr [RHS]addrACA [y * b + y * a]addrC.
rewrite e2 e3 opprD addrA addrK opprD mulrBl !mulrBr opprB addrA.
by rewrite [in RHS]addrA [x * a + y * b - x * b]addrAC.
Qed.
(* the mean over two batches together; averaging the two means is the same only for equally many kept positions
   (or equal means) *)
Theorem C60_mean_batches m i1 t1 i2 t2 a b : s_red m = Mean -> batch_ok (s_vocab m) i1 t1 -> batch_ok (s_vocab m) i2 t2 ->
  fwd m (s_vocab m) i1 t1 = Ok (Some a) -> fwd m (s_vocab m) i2 t2 = Ok (Some b) ->
  let n1 := size [seq c <- t1 | c != s_ignore m] in let n2 := size [seq c <- t2 | c != s_ignore m] in
  exists2 c, fwd m (s_vocab m) (i1 ++ i2) (t1 ++ t2) = Ok (Some c) &
    c = (n1%:R * a + n2%:R * b) / (n1 + n2)%:R /\ (c = (a + b) / 2%:R <-> n1 = n2 \/ a = b).
Proof.
move=> rd b1 b2; have [ks b3] := C60_batches b1 b2; rewrite !C60_mean //.
rewrite filter_cat size_cat; set n1 := size _; set n2 := size _.
case: (ltnP 0 n1) => // p1 [ea]; case: (ltnP 0 n2) => // p2 [eb] /=.
have z1 : n1%:R != 0 :> R by rewrite pnatr_eq0 -lt0n.
have z2 : n2%:R != 0 :> R by rewrite pnatr_eq0 -lt0n.
have z3 : (n1 + n2)%:R != 0 :> R by rewrite pnatr_eq0 -lt0n addn_gt0 p1.
rewrite addn_gt0 p1 ks; eexists; first by [].
have -> : (kept_sum (s_eps m) (s_ignore m) i1 t1 + kept_sum (s_eps m) (s_ignore m) i2 t2) = n1%:R * a + n2%:R * b.
  by rewrite -ea -eb ![_ * (_ / _)]mulrC !divfK.
split=> //; have two : 2%:R != 0 :> R by rewrite pnatr_eq0.
have eqv : ((n1%:R * a + n2%:R * b) / (n1 + n2)%:R == (a + b) / 2%:R) = ((n1%:R - n2%:R) * (a - b) == 0).
  by rewrite eqr_div // -subr_eq0 natrD means_gap.
split=> [/eqP|h]; last first.
  by apply/eqP; rewrite eqv mulf_eq0 !subr_eq0; case: h => ->; rewrite eqxx ?orbT.
by rewrite eqv mulf_eq0 !subr_eq0 eqr_nat => /orP[/eqP|/eqP]; [left|right].
Qed.

(* refusals *)
Theorem C60_make (eps : R) v ign red : make eps v ign red
  = if (eps < 0) || (1 < eps) then Err AssertionError else Ok (Smooth eps v ign red).
Proof. by rewrite /make !ltNge -negb_and if_neg. Qed.
(* a class outside the vocabulary raises, also when it is the ignored one: the default -100 cannot occur *)
Theorem C60_class_refused m w input target c : c \in target -> (c < 0) || ((s_vocab m)%:Z <= c) ->
  fwd m w input target = Err RuntimeError.
Proof.
move=> ct cb; rewrite /forward /one_hot; case: eqP => // _; rewrite ifF //.
apply: contraTF cb => /allP/(_ _ ct)/andP[]; lia.
Qed.
Theorem C60_default_ignore_refused (eps : R) v red w input target : (-100%:Z) \in target ->
  fwd (Smooth eps v (-100%:Z) red) w input target = Err RuntimeError.
Proof. by move=> ct; apply: (C60_class_refused w input ct). Qed.
Theorem C60_reduction_refused m input target : s_red m = OtherReduction -> batch_ok (s_vocab m) input target ->
  fwd m (s_vocab m) input target = Err NotImplementedError.
Proof.
move=> rd /fwd_sum; rewrite /forward rd; case: (one_hot _ _ _) => //= q; by case: (cross_entropy _ _ _ _ _).
Qed.
Theorem C60_width_refused m w input target :
  w != s_vocab m -> w != 1%N -> s_vocab m != 1%N -> fwd m w input target = Err RuntimeError.
Proof.
move=> wv w1 v1; rewrite /forward; have ce q : cross_entropy lse (s_vocab m) (q_prime m target q) w input = Err RuntimeError.
  rewrite /cross_entropy {2}/bsize (negbTE w1) (negbTE v1) eq_sym (negbTE wv).
  by rewrite /bsize; case: eqP => //=; case: eqP => //=; case: eqP.
by rewrite /one_hot; case: eqP => // _; case: ifP => //= _; rewrite ce.
Qed.
(* a vocabulary of one class accepts logits of any width and adds the losses of all of them *)
Theorem C60_one_class m w z : s_vocab m = 1%N -> s_red m = Sum -> (1 < w)%N -> size z = w -> s_ignore m != 0 ->
  fwd m w [:: z] [:: 0] = Ok (Some (\sum_(j < w) (lse z - nth 0 z j))).
Proof.
move=> v1 rd w1 sz ign; rewrite /forward v1 rd /one_hot /=; cbn [rbind]; rewrite /cross_entropy /q_prime /=.
rewrite /bsize ifF; last by apply/eqP; lia.
cbn [rbind]; rewrite /= big_cons big_nil addr0; congr (Ok (Some _)).
rewrite -{1}[w]subn0 -/(index_iota 0 w) big_mkord -sumrN; apply: eq_bigr => j _.
rewrite v1 eq_sym (negbTE ign) /bat /= size_map sz ifF; last by apply/eqP; lia.
by rewrite (nth_map 0) ?sz // divr1 !mulr1 subrK mul1r opprB.
Qed.
(* one target for several rows is accepted: the mean is the sum over the rows *)
Theorem C60_one_target m input c : s_red m = Mean -> (0 < s_vocab m)%N -> (1 < size input)%N ->
  all (fun z => size z == s_vocab m) input -> isclass (s_vocab m) c -> c != s_ignore m ->
  fwd m (s_vocab m) input [:: c] = Ok (Some (\sum_(z <- input) smoothed lse (s_eps m) z `|c|%N)).
Proof.
move=> rd v0 n1 wd cl ign; rewrite /forward rd /one_hot ifF; last by apply/eqP; lia.
rewrite /= cl /=; cbn [rbind]; rewrite /cross_entropy /= ign /= {1}/bsize ifF; last by apply/eqP; lia.
cbn [rbind]; rewrite bsizeE; cbn [rbind]; rewrite /= divr1; congr (Ok (Some _)).
rewrite big_map /q_prime /= (negbTE ign).
have -> : \sum_(z <- input) smoothed lse (s_eps m) z `|c|%N = \sum_(i <- iota 0 (size input)) smoothed lse (s_eps m) (nth [::] input i) `|c|%N.
  by rewrite (big_nth [::]) /index_iota subn0.
apply: eq_big_seq => i; rewrite mem_iota add0n /= => li.
set z := nth [::] input i; have szz : size z = s_vocab m by apply/eqP/(allP wd)/mem_nth.
rewrite (bat_nth _ (s := [seq _ | r <- input])) ?size_map // (nth_map [::]) //.
case/andP: cl => c0 cv; have cE : c = `|c|%N%:Z by rewrite gez0_abs.
rewrite -[RHS](smooth_row _ v0) //; last by move: c0 cv; clear; lia.
congr (- _); apply: eq_big_seq => j; rewrite mem_iota add0n => jv.
rewrite {2}/bat /= !bat_nth ?size_map ?size_iota ?szz // (nth_map 0) ?size_map ?size_iota // (nth_map 0) ?szz //.
by rewrite (nth_map 0%N) ?size_iota // nth_iota // add0n {1}cE eqz_nat.
Qed.
End Loss.

Section Schedule.
Variable (R : rcfType).
(* which settings are accepted, and how the others fail *)
Theorem C60_track_errors d w init :
  match track R d w init with
  | Ok k => (0 < d) /\ (0 < w)
  | Err ValueError => (d < 0) \/ (0 < d /\ w < 0)
  | Err ZeroDivisionError => (d = 0) \/ (0 < d /\ w = 0)
  | Err _ => False
  end.
Proof.
rewrite /track /msqrt /invert; case: (ltP d 0) => [|d0]; first by left.
cbn [rbind]; rewrite sqrtr_eq0 -[0]/(0%:~R) ler_int; case: (leP d 0) => d1; first by cbn [rbind]; left; lia.
cbn [rbind]; case: (ltP w 0) => w0; first by right.
cbn [rbind]; rewrite -[0]/(0%:~R) mulf_eq0 sqrtr_eq0 !lerz0 intr_eq0.
case: (ltrgtP w 0) w0 => //= w0 _; by [split|right].
Qed.

Section Ok.
Variables (d w init : int).
Hypotheses (d0 : 0 < d) (w0 : 0 < w).
Notation D := (d%:~R : R).
Notation W := (w%:~R : R).
Let D0 : 0 < D. Proof. by rewrite ltr0z. Qed.
Let W0 : 0 < W. Proof. by rewrite ltr0z. Qed.
Definition rate (init' s : int) : res R := rbind (track R d w init') (fun k => step k s).

Lemma rateE (init' s : int) : rate init' s
  = Ok (if s + init' <= w then (Num.sqrt D)^-1 * (W * Num.sqrt W)^-1 * (s + init')%:~R
        else (Num.sqrt D)^-1 * (Num.sqrt (s + init')%:~R)^-1).
Proof.
rewrite /rate /track /msqrt /invert ltNge (ltW d0) /=; cbn [rbind].
have -> : (Num.sqrt D == 0) = false by rewrite sqrtr_eq0 leNgt D0.
cbn [rbind]; rewrite ltNge (ltW w0) /=; cbn [rbind].
have -> : (W * Num.sqrt W == 0) = false by rewrite mulf_eq0 sqrtr_eq0 leNgt W0 orbF; apply: gt_eqF.
cbn [rbind]; rewrite /step /= !div1r; case: leP => // h.
have s0 : 0 < s + init' by apply: lt_trans h.
rewrite /msqrt ltNge (ltW s0) /invert /=; cbn [rbind].
have -> : (Num.sqrt ((s + init')%:~R : R) == 0) = false by rewrite sqrtr_eq0 leNgt ltr0z s0.
by cbn [rbind]; rewrite div1r.
Qed.
Lemma noam_small (s : R) : 0 < s -> s <= W -> noam D W s = (Num.sqrt D)^-1 * (W * Num.sqrt W)^-1 * s.
Proof.
move=> s0 sw; rewrite /noam -mulrA [s * _]mulrC min_r //.
have q0 : 0 < Num.sqrt s by rewrite sqrtr_gt0.
rewrite -(ler_pmul2r q0) mulVf ?gt_eqF // -mulrA ler_pdivr_mull ?mulr1.
  by apply: ler_pmul; rewrite ?sqrtr_ge0 ?ler_wsqrtr ?(ltW W0) ?(ltW s0).
by rewrite mulr_gt0 ?sqrtr_gt0.
Qed.
Lemma noam_big (s : R) : W <= s -> noam D W s = (Num.sqrt D)^-1 * (Num.sqrt s)^-1.
Proof.
move=> sw; have s0 : 0 < s by apply: lt_le_trans sw.
rewrite /noam min_l //.
have q0 : 0 < Num.sqrt s by rewrite sqrtr_gt0.
rewrite -(ler_pmul2r q0) mulVf ?gt_eqF // mulrAC ler_pdivl_mulr ?mul1r ?mulr_gt0 ?sqrtr_gt0 //.
by apply: ler_pmul; rewrite ?sqrtr_ge0 ?ler_wsqrtr ?(ltW W0) ?(ltW s0).
Qed.

(* the rate is the published formula at every positive step, counted from init_steps *)
Theorem C60_schedule s : 0 < s + init -> rate init s = Ok (noam D W (s + init)%:~R).
Proof.
move=> s0; rewrite rateE; case: leP => h; congr Ok.
  by rewrite noam_small // ?ltr0z // ler_int.
by rewrite noam_big // ler_int ltW.
Qed.
(* the first step has rate zero *)
Theorem C60_first_step base : rmap (fun f => base * f) (rate 0 0) = Ok 0.
Proof. by rewrite rateE (ltW w0) /= mulr0 mulr0. Qed.
Theorem C60_resume s : rate init s = rate 0 (s + init).
Proof. by rewrite !rateE addr0. Qed.
(* strictly up until warm-up, strictly down afterwards; the peak *)
Theorem C60_monotone s t : 0 <= s -> s < t ->
  (t <= w -> forall a b, rate 0 s = Ok a -> rate 0 t = Ok b -> a < b) /\
  (w <= s -> forall a b, rate 0 s = Ok a -> rate 0 t = Ok b -> b < a).
Proof.
move=> s0 st; split=> h a b; rewrite !rateE !addr0.
  rewrite h (le_trans (ltW st) h) => -[<-] [<-].
  by rewrite ltr_pmul2l ?ltr_int // mulr_gt0 ?invr_gt0 ?mulr_gt0 ?sqrtr_gt0.
have wt : w < t by apply: le_lt_trans st.
rewrite [t <= w]leNgt wt /= => ea [<-].
have {ea} <- : (Num.sqrt D)^-1 * (Num.sqrt s%:~R)^-1 = a.
  by case: leP ea => [sw [<-]|_ [<-//]]; rewrite -noam_big ?ler_int // noam_small // ?ler_int // ltr0z; apply: lt_le_trans h.
have p0 : 0 < s by apply: lt_le_trans h.
rewrite ltr_pmul2l ?invr_gt0 ?sqrtr_gt0 // ltf_pinv ?posrE ?sqrtr_gt0 ?ltr0z //; last by apply: lt_trans st.
by rewrite ltr_sqrt ?ltr0z ?ltr_int //; apply: lt_trans st.
Qed.
Theorem C60_peak s a : 0 <= s -> rate 0 s = Ok a ->
  rate 0 w = Ok ((Num.sqrt (D * W))^-1) /\ (a <= (Num.sqrt (D * W))^-1) /\ (a = (Num.sqrt (D * W))^-1 -> s = w).
Proof.
move=> s0 ra; have pk : rate 0 w = Ok ((Num.sqrt (D * W))^-1).
  rewrite rateE addr0 lexx -noam_small // noam_big // sqrtrM ?ler0z ?(ltW d0) //.
  by rewrite invfM.
split=> //; case: (ltrgtP s w) => sw.
- by have [/(_ (lexx _) _ _ ra pk) lt _] := C60_monotone s0 sw; split=> [|e]; [apply: ltW|move: lt; rewrite e ltxx].
- by have [_ /(_ (lexx _) _ _ pk ra) lt] := C60_monotone (ltW w0) sw; split=> [|e]; [apply: ltW|move: lt; rewrite e ltxx].
- by move: ra; rewrite sw pk => -[<-].
Qed.
(* a negative step gives a negative rate *)
Theorem C60_negative_step s a : s + init < 0 -> rate init s = Ok a -> a < 0.
Proof.
move=> sn; rewrite rateE (le_trans (ltW sn) (ltW w0)) => -[<-].
by rewrite pmulr_rlt0 ?ltrz0 // mulr_gt0 ?invr_gt0 ?mulr_gt0 ?sqrtr_gt0.
Qed.
End Ok.
End Schedule.

Section Examples.
Variables (R : rcfType) (lse : seq R -> R).
(* three classes, class 1 ignored, two kept positions *)
Let m red : smooth R := Smooth (4%:R^-1) 3 1 red.
Let z1 : seq R := [:: 1; 2%:R; 3%:R].
Let z2 : seq R := [:: 7%:R; 0; 1].
Let z3 : seq R := [:: 5%:R; 4%:R; 1].
Example ex_batch : batch_ok 3 [:: z1; z2; z3] [:: 2%:Z; 1; 0]. Proof. by []. Qed.
Example ex_mean : forward lse (m Mean) 3 [:: z1; z2; z3] [:: 2%:Z; 1; 0]
  = Ok (Some ((smoothed lse (4%:R^-1) z1 2 + smoothed lse (4%:R^-1) z3 0) / 2%:R)).
Proof. by rewrite (@C60_mean R lse (m Mean)) //= /kept_sum /= !big_cons big_nil /= addr0. Qed.
Example ex_ignored z : size z = 3%N -> forward lse (m Mean) 3 [:: z1; z; z3] [:: 2%:Z; 1; 0] = forward lse (m Mean) 3 [:: z1; z2; z3] [:: 2%:Z; 1; 0].
Proof.
move=> sz; apply: (@C60_ignored R lse (m Mean)); rewrite /batch_ok /= ?sz //.
by case=> [|[|[|i]]].
Qed.
Example ex_all_ignored : forward lse (m Mean) 3 [:: z1; z2] [:: 1%:Z; 1] = Ok None.
Proof. by rewrite (@C60_mean R lse (m Mean)). Qed.
Example ex_bad_class : forward lse (m Mean) 3 [:: z1] [:: 3%:Z] = Err RuntimeError.
Proof. by apply: (@C60_class_refused R lse (m Mean) 3 [:: z1] [:: 3%:Z] 3%:Z). Qed.
(* dimension 4, warm-up 9: rates 0, 1/54, ..., 1/6 at step 9, 1/8 at step 16 *)
Example ex_rates : [/\ rate R 4 9 0 0 = Ok 0, rate R 4 9 0 9 = Ok (6%:R^-1) & rate R 4 9 3 13 = Ok (8%:R^-1)].
Proof.
have q (n : nat) : Num.sqrt ((n * n)%N%:R : R) = n%:R by rewrite natrM -expr2 sqrtr_sqr ger0_norm ?ler0n.
have q2 : Num.sqrt ((4%:Z)%:~R : R) = 2%:R by exact: (q 2%N).
have q3 : Num.sqrt ((9%:Z)%:~R : R) = 3%:R by exact: (q 3%N).
have q4 : Num.sqrt ((16%:Z)%:~R : R) = 4%:R by exact: (q 4%N).
split; rewrite rateE //=; congr Ok.
- by rewrite mulr0.
- rewrite q2 q3 addr0 -mulrA invfM mulrAC mulVf ?mul1r ?pnatr_eq0 //.
  by rewrite -invfM -natrM.
- by rewrite (_ : (13 + 3)%:~R = (16%:Z)%:~R) // q2 q4 -invfM -natrM.
Qed.
End Examples.
Print Assumptions C60_mean. Print Assumptions C60_mean_batches. Print Assumptions C60_one_target.
Print Assumptions C60_schedule. Print Assumptions C60_peak. Print Assumptions C60_track_errors.
