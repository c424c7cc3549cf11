(* Lemmas on the nanoGPT model. *)
Set Warnings "-notation-overridden,-ambiguous-paths".
From mathcomp Require Import all_ssreflect all_algebra zify.
From Verif Require Import Py Dict RetrainModel NanoModel NanoSpec.
Set Implicit Arguments. Unset Strict Implicit. Unset Printing Implicit Defensive.
Import GRing.Theory Num.Theory Order.Theory.

(* ---- text *)
Section Text.
Implicit Types (cs s l : seq nat).
Lemma encode_ok cs s acc : all (mem cs) s ->
  rfold (fun acc c => if c \in cs then Ok (rcons acc (index c cs)) else Err KeyError) acc s
  = Ok (acc ++ [seq index c cs | c <- s]).
Proof.
elim: s acc => [|c s IH] acc /=; first by rewrite cats0.
by case/andP=> hc hs; rewrite (_ : c \in cs) //= IH // cat_rcons.
Qed.
Lemma encodeE cs s : all (mem cs) s -> encode cs s = Ok [seq index c cs | c <- s].
Proof. by move=> h; rewrite /encode encode_ok. Qed.
Lemma encode_bad cs s : ~~ all (mem cs) s -> encode cs s = Err KeyError.
Proof.
rewrite /encode; move: [::]; elim: s => [|c s IH] acc //=; rewrite negb_and.
by case: (c \in cs) => //= h; apply: IH.
Qed.
Lemma decode_ok cs l acc : all (fun i => i < size cs) l ->
  rfold (fun acc i => if i < size cs then Ok (rcons acc (nth 0 cs i)) else Err KeyError) acc l
  = Ok (acc ++ [seq nth 0 cs i | i <- l]).
Proof.
elim: l acc => [|c s IH] acc /=; first by rewrite cats0.
by case/andP=> hc hs; rewrite hc /= IH // cat_rcons.
Qed.
Lemma decodeE cs l : all (fun i => i < size cs) l -> decode cs l = Ok [seq nth 0 cs i | i <- l].
Proof. by move=> h; rewrite /decode decode_ok. Qed.
Lemma mem_chars s c : (c \in chars s) = (c \in s).
Proof. by rewrite mem_sort mem_undup. Qed.
Lemma uniq_chars s : uniq (chars s).
Proof. by rewrite sort_uniq undup_uniq. Qed.
End Text.

(* ---- windows *)
Lemma size_window (T : Type) (d : seq T) i n : size (window d i n) = minn n (size d - i).
Proof. by rewrite size_take size_drop /minn. Qed.
Lemma window_full (T : Type) (d : seq T) i n : i + n <= size d -> size (window d i n) = n.
Proof. by move=> h; rewrite size_window; apply/minn_idPl; move: h; clear; lia. Qed.
Lemma nth_window (T : Type) (x0 : T) d i n p : p < n -> nth x0 (window d i n) p = nth x0 d (i + p).
Proof. by move=> h; rewrite nth_take // nth_drop. Qed.

Lemma stack_same n l : l <> [::] -> all (fun r : seq nat => size r == n) l -> stack l = Ok l.
Proof.
case: l => // r l _ /= /andP [/eqP -> h].
by rewrite /stack h.
Qed.
Lemma stack_bad (l : seq (seq nat)) r r' : r \in l -> r' \in l -> size r != size r' -> stack l = Err RuntimeError.
Proof.
case: l => // a l hr hr' ne; rewrite /stack.
case: ifP => // /allP h; case/negP: ne; apply/eqP.
have E x : x \in a :: l -> size x = size a by rewrite inE => /orP [/eqP -> //|/h /eqP].
by rewrite (E _ hr) (E _ hr').
Qed.

(* ---- the pointer *)
Section Pointer.
Variables (bsz : nat) (ind : seq nat).
Hypothesis b0 : 0 < bsz.
Hypothesis bi : bsz <= size ind.
Let m := size ind %/ bsz.
Lemma m_gt0 : 0 < m. Proof. by rewrite divn_gt0. Qed.
(* the pointer after n calls *)
Definition cur_at (n : nat) : nat := if n is n'.+1 then (n' %% m).+1 * bsz else 0.
Lemma get_at n : get_batch_indices bsz ind (cur_at n) = (window ind ((n %% m) * bsz) bsz, cur_at n.+1).
Proof.
rewrite /get_batch_indices.
have mm : m * bsz <= size ind by apply: leq_trunc_div.
have mS : size ind < m.+1 * bsz by rewrite -ltn_divLR.
have -> : (if size ind < cur_at n + bsz then 0 else cur_at n) = (n %% m) * bsz.
  case: n => [|n]; first by rewrite /cur_at add0n mod0n mul0n; case: ifP.
  rewrite /cur_at; have := ltn_pmod n m_gt0; set r := n %% m => hr.
  have e : n.+1 %% m = r.+1 %% m by rewrite /r -addn1 -modnDml addn1.
  rewrite -mulSnr e; case: (ltnP r.+1 m) => h.
    by rewrite modn_small // ifN // -leqNgt; apply: leq_trans mm; rewrite leq_mul2r h orbT.
  have -> : r.+1 = m by apply/eqP; rewrite eqn_leq hr h.
  by rewrite mS modnn mul0n.
by rewrite /cur_at mulSnr.
Qed.
Lemma window_nth_batch n : window ind ((n %% m) * bsz) bsz = nth_batch 0 ind bsz n.
Proof.
have mm : m * bsz <= size ind by apply: leq_trunc_div.
have hn : (n %% m) * bsz + bsz <= size ind.
  by rewrite -mulSnr; apply: leq_trans mm; rewrite leq_mul2r ltn_pmod ?m_gt0 ?orbT.
apply: (@eq_from_nth _ 0); first by rewrite window_full // size_mkseq.
by rewrite window_full // => p hp; rewrite nth_window // nth_mkseq.
Qed.
End Pointer.
Lemma get_short bsz ind cur : size ind < bsz -> get_batch_indices bsz ind cur = (ind, bsz).
Proof.
move=> h; rewrite /get_batch_indices ifT; last by apply: leq_trans h _; apply: leq_addl.
by rewrite /window drop0 take_oversize // ltnW.
Qed.

(* ---- the loop *)
Arguments NanoModel.eval_one : simpl never.
Arguments NanoModel.get_batch : simpl never.
Arguments NanoModel.fetch : simpl never.
Arguments NanoModel.estimate : simpl never.
Arguments NanoModel.checkpoint : simpl never.
Arguments NanoModel.micro : simpl never.
Arguments NanoModel.iteration : simpl never.
Section Loop.
Variables (R : realFieldType) (St : Type).
Notation batch := (seq (seq nat) * seq (seq nat))%type.
Variables (data vdata : seq nat) (block bsz : nat) (ind : seq nat).
Variable draw : St -> seq nat * St.
Variable forward : St -> batch -> res R * St.
Variable backward : St -> batch -> res St.
Variable update : R -> St -> St.
Variable rate : nat -> res R.
Variables (acc ev e max_iters : nat) (always eval_only : bool) (big : R).
Hypothesis b0 : 0 < bsz.
Hypothesis bi : bsz <= size ind.
Notation cur_at := (cur_at bsz ind).
Notation get s c := (get_batch data vdata block bsz ind s c).
Notation eval_one := (eval_one data vdata block bsz ind draw forward).
Notation eval_split := (eval_split data vdata block bsz ind draw forward).
Notation estimate := (estimate data vdata block bsz ind draw forward e).
Notation checkpoint := (checkpoint data vdata block bsz ind draw forward e always big).
Notation micro := (micro data vdata block bsz ind backward).
Notation iteration := (iteration data vdata block bsz ind draw forward backward update rate acc ev e always big).
Notation start := (start R data vdata block bsz ind).
Notation iterate := (iterate data vdata block bsz ind draw forward backward update rate acc ev e always big).
Notation run := (run R St).
Definition batch_no n := pairs block data (nth_batch 0 ind bsz n).

Lemma get_train n : get TrainSplit (cur_at n) = (batch_no n, cur_at n.+1).
Proof. by rewrite /get_batch get_at // window_nth_batch. Qed.
Lemma get_val dr n : (get (ValSplit dr) (cur_at n)).2 = cur_at n.+1.
Proof. by rewrite /get_batch get_at. Qed.

Lemma eval_one_cur v st n : (eval_one v (st, cur_at n)).2.2 = cur_at n.+1.
Proof.
rewrite /eval_one; case: v; last first.
  by rewrite get_train; case: (batch_no n) => // b; case: (forward st b).
case: (draw st) => dr st1; have := get_val dr n; case: (get (ValSplit dr) _) => -[b|x] c //= ->.
by case: (forward st1 b).
Qed.
Lemma eval_split_cur v k st n ls : (eval_split v k (st, cur_at n)).1 = Ok ls ->
  (eval_split v k (st, cur_at n)).2.2 = cur_at (n + k).
Proof.
elim: k st n ls => [|k IH] st n ls /=; first by rewrite addn0.
have := eval_one_cur v st n; case: (eval_one v _) => -[l|x] [st1 c] /= -> //.
rewrite addnS -addSn; have := IH st1 n.+1; case: (eval_split v k _) => -[ls'|x] y //= h _.
exact: (h ls').
Qed.
Lemma estimate_cur st n l : (estimate (st, cur_at n)).1 = Ok l ->
  (estimate (st, cur_at n)).2.2 = cur_at (n + 2 * e).
Proof.
rewrite /estimate; have := @eval_split_cur false e st n.
case: (eval_split false e _) => -[ls|x] [st1 c] //= /(_ ls erefl) ->.
have := @eval_split_cur true e st1 (n + e); case: (eval_split true e _) => -[ls'|x] y //= /(_ ls' erefl) -> _.
by rewrite mul2n -addnn addnA.
Qed.

Definition good (r : run) (n t : nat) : Prop :=
  [/\ r_cur r = cur_at n, Ok (r_batch r) = batch_no (call_no acc ev e t) &
      [seq Ok b | b <- r_log r] = [seq batch_no (call_no acc ev e j) | j <- iota 0 t]].

Lemma checkpoint_good it r r' n t : good r n t -> checkpoint it r = Ok r' -> good r' (n + 2 * e) t.
Proof.
move=> [h1 h2 h3]; rewrite /checkpoint h1; have := @estimate_cur (r_s r) n.
case: (estimate _) => -[l|x] [st c] //= /(_ l erefl) -> [<-].
by case: ifP => _; split.
Qed.
Lemma micro_good r r' n t : n = call_no acc ev e t.+1 -> good r n t -> micro r = Ok r' -> good r' n.+1 t.+1.
Proof.
move=> en [h1 h2 h3]; rewrite /micro; case: (backward _ _) => [st|//]; cbn [rbind].
rewrite h1 /fetch get_train; case eb: (batch_no n) => [b|x] //= [<-]; split=> //; first by rewrite -eb en.
rewrite -[t.+1]addn1 iotaD map_cat -h3 add0n /= -h2 cats1; exact: map_rcons.
Qed.
(* the micro steps of one iteration *)
Lemma micros_good k r r' n t : (forall j, j < k -> n + j = call_no acc ev e (t + j).+1) -> good r n t ->
  rfold (fun r (_ : nat) => micro r) r (iota 0 k) = Ok r' -> good r' (n + k) (t + k).
Proof.
move: {1}0 => i; elim: k i r n t => [|k IH] i r n t H g /=; first by rewrite !addn0 => -[<-].
case E: (micro r) => [r1|x] //= E'.
have := H 0 isT; rewrite !addn0 => en; have g1 := micro_good en g E.
rewrite -[k.+1]addn1 addnA [t + (k + 1)]addnA !addn1 -!addSn.
apply: (IH i.+1 r1) E' => // j hj; have := H j.+1 hj; by rewrite !addnS !addSn.
Qed.

Hypothesis a0 : 0 < acc.
Hypothesis e0 : 0 < ev.
Definition calls it := 1 + it * acc + 2 * e * ((it + ev.-1) %/ ev).
Lemma div_plus it : (it + ev) %/ ev = (it %/ ev).+1.
Proof. by rewrite -{1}[ev]mul1n addnC divnMDl // add1n. Qed.
Lemma evals_step it : (it %% ev == 0) + (it + ev.-1) %/ ev = (it.+1 + ev.-1) %/ ev.
Proof.
have -> : it.+1 + ev.-1 = it + ev by move: e0; clear; lia.
rewrite div_plus.
case: (it %% ev =P 0) => h.
  have -> : it + ev.-1 = it %/ ev * ev + ev.-1 by rewrite {1}(divn_eq it ev) h addn0.
  by rewrite divnMDl // [ev.-1 %/ ev]divn_small ?addn0 ?add1n //; move: e0; clear; lia.
rewrite add0n {1}(divn_eq it ev) -addnA divnMDl //.
have h1 : ev <= it %% ev + ev.-1 by move: h e0; clear; lia.
have h2 : it %% ev + ev.-1 < ev + ev by have := ltn_pmod it e0; move: e0; clear; lia.
have -> : (it %% ev + ev.-1) %/ ev = 1; last by rewrite addn1.
by apply/eqP; rewrite eqn_leq -ltnS ltn_divLR // leq_divRL // mul1n mulSn mul1n h1 h2.
Qed.
Lemma evals_call it j : j < acc -> (it.+1 + ev.-1) %/ ev = ((it * acc + j) %/ acc %/ ev).+1.
Proof.
move=> hj; rewrite divnMDl // [j %/ acc]divn_small // addn0.
have -> : it.+1 + ev.-1 = it + ev by move: e0; clear; lia.
by rewrite div_plus.
Qed.
Lemma iteration_good it r r' : good r (calls it) (it * acc) -> iteration it r = Ok r' ->
  good r' (calls it.+1) (it.+1 * acc).
Proof.
move=> g; rewrite /iteration; case: (rate it) => [lr|//]; cbn [rbind]; rewrite ifN -?lt0n //.
case E1: (if _ then _ else _) => [r1|x //]; cbn [rbind].
have g1 : good r1 (calls it + (it %% ev == 0) * (2 * e)) (it * acc).
  move: E1; case: eqP => _; last by rewrite mul0n addn0 => -[<-].
  by rewrite mul1n; apply: checkpoint_good.
case E2: (rfold _ _ _) => [r2|x] //= [<-].
have [q1 q2 q3] : good r2 (calls it.+1) (it.+1 * acc).
  have -> : calls it.+1 = calls it + (it %% ev == 0) * (2 * e) + acc.
    rewrite /calls -evals_step mulnDr mulSn; move: (it * acc) (_ %/ _) (nat_of_bool _) (2 * e); clear; nia.
  rewrite [it.+1 * acc]mulSnr; apply: (micros_good _ g1 E2) => j hj.
  rewrite /call_no -(evals_call it hj) /calls -evals_step mulnDr.
  move: (it * acc) ((it + _) %/ _) (nat_of_bool _) (2 * e); clear; nia.
by split.
Qed.
Lemma iterate_good n r r' k : good r (calls k) (k * acc) ->
  rfold (fun r it => iteration it r) r (iota k n) = Ok r' -> good r' (calls (k + n)) ((k + n) * acc).
Proof.
elim: n k r => [|n IH] k r g /=; first by rewrite addn0 => -[<-].
case E: (iteration k r) => [r1|x] //= E'; rewrite addnS -addSn; apply: IH E'.
exact: iteration_good E.
Qed.
Lemma start_good st r : start st = Ok r -> good r (calls 0) 0.
Proof.
rewrite /start /fetch (_ : 0 = cur_at 0) // get_train; case eb: (batch_no 0) => [b|x] //= [<-].
have -> : calls 0 = 1 by rewrite /calls mul0n addn0 add0n divn_small ?muln0 //; move: e0; clear; lia.
by split=> //=; rewrite eb.
Qed.
End Loop.
