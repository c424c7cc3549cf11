(* Lemmas about the DVEmb model. *)
Set Warnings "-notation-overridden,-ambiguous-paths".
From mathcomp Require Import all_ssreflect all_algebra zify.
From Verif Require Import Py Dict TensorProof DvembModel DvembSpec.
Set Implicit Arguments. Unset Strict Implicit. Unset Printing Implicit Defensive.
Import GRing.Theory.
Local Open Scope ring_scope.

Section P.
Variables (F : fieldType) (d : nat).
Notation row := 'rV[F]_d.
Notation ndict := (dict nat_eqType).
Notation call := (call F d).
Implicit Types (h : seq call) (c : call) (m : mode) (s : st F d).

Definition c_rows c : seq row := [seq p.2 | p <- c_samples c].
Definition c_idx c : seq nat := [seq p.1 | p <- c_samples c].
Definition at_ep e h : seq call := [seq c <- h | c_epoch c == e].
Definition has_ep e h : bool := has (fun c => c_epoch c == e) h.

Section Holds.
Variables (V : Type) (f : call -> V).
Definition holds h (dct : ndict (seq V)) : Prop :=
  uniq (dkeys dct) /\ forall e, dget dct e = if has_ep e h then Some [seq f c | c <- at_ep e h] else None.

Lemma holds0 : holds [::] [::]. Proof. by []. Qed.
Lemma holds_has h dct e : holds h dct -> dhas dct e = has_ep e h.
Proof. by move=> [_ g]; rewrite dget_has g; case: ifP. Qed.
Lemma has_ep_rcons e h c : has_ep e (rcons h c) = (c_epoch c == e) || has_ep e h.
Proof. by rewrite /has_ep has_rcons. Qed.
Lemma at_ep_rcons e h c : at_ep e (rcons h c) = if c_epoch c == e then rcons (at_ep e h) c else at_ep e h.
Proof. by rewrite /at_ep filter_rcons. Qed.
Lemma at_ep_nil e h : has_ep e h = false -> at_ep e h = [::].
Proof. by elim: h => //= c h IH; case: ifP => //= _; exact: IH. Qed.

Lemma holds_app h dct c : holds h dct ->
  let d1 := if has_ep (c_epoch c) h then dct else dset dct (c_epoch c) [::] in
  exists2 d2, dapp d1 (c_epoch c) (f c) = Some d2 & holds (rcons h c) d2.
Proof.
move=> [u g] d1; have g1 : dget d1 (c_epoch c) = Some [seq f x | x <- at_ep (c_epoch c) h].
  rewrite /d1; case: ifP => n; first by rewrite g n.
  by rewrite dgetE eqxx at_ep_nil.
rewrite /dapp g1; eexists; first by [].
split; first by apply: uniq_dset; rewrite /d1; case: ifP => // _; apply: uniq_dset.
move=> e; rewrite dgetE has_ep_rcons at_ep_rcons eq_sym.
case: (c_epoch c =P e) => [<-|ne] /=; first by rewrite map_rcons.
have -> : dget d1 e = dget dct e.
  by rewrite /d1; case: ifP => // _; rewrite dgetE eq_sym (introF eqP ne).
exact: g.
Qed.
End Holds.

(* all entries are empty lists, keys are the recorded epochs *)
Definition blank (V : Type) h (dct : ndict (seq V)) : Prop :=
  uniq (dkeys dct) /\ forall e, dget dct e = if has_ep e h then Some [::] else None.

Definition Inv m h s : Prop :=
  [/\ holds (@c_eta F d) h (lrs s), holds c_idx h (idxs s) &
  match m with
  | Full => holds c_rows h (grads s)
  | FactRecon => holds (fun c => Some (c_rows c)) h (facts s) /\ blank h (grads s)
  | FactProj => holds c_rows h (grads s) /\ blank h (facts s)
  end].

Lemma blank_has (V : Type) h (dct : ndict (seq V)) e : blank h dct -> dhas dct e = has_ep e h.
Proof. by move=> [_ g]; rewrite dget_has g; case: ifP. Qed.
Lemma blank_open (V : Type) h (dct : ndict (seq V)) c : blank h dct ->
  blank (rcons h c) (if has_ep (c_epoch c) h then dct else dset dct (c_epoch c) [::]).
Proof.
move=> [u g]; split; first by case: ifP => // _; apply: uniq_dset.
move=> e; rewrite has_ep_rcons; case: ifP => n; last by rewrite dgetE eq_sym g; case: eqP.
rewrite g; by case: eqP => [<-|//]; rewrite n.
Qed.

Lemma Inv0 m : Inv m [::] (init F d). Proof. by case: m. Qed.
Lemma Inv_clear m h s : Inv m h s -> Inv m [::] (clear_cache m s).
Proof. by case: m. Qed.

Lemma size_rows c : size (c_rows c) = size (c_samples c). Proof. by rewrite size_map. Qed.
Lemma size_idx c : size (c_idx c) = size (c_samples c). Proof. by rewrite size_map. Qed.

Lemma record_ok m h s c : Inv m h s -> call_ok c ->
  exists2 s', cache_gradients m s (c_epoch c) (Ok (c_rows c)) (c_idx c) (c_lr c) = (s', None) &
    Inv m (rcons h c) s' /\ embs s' = embs s.
Proof.
move=> [hl hi hm] ok.
have nz : (size (c_idx c) == 0%N) = false by rewrite size_idx; move: ok; rewrite /call_ok; lia.
have [l2 el hl2] := holds_app c hl; have [i2 ei hi2] := holds_app c hi.
have ce : c_lr c / (size (c_idx c))%:R = c_eta c by rewrite /c_eta size_idx.
rewrite /cache_gradients /open_epoch; case: m hm => [hg|[hf hb]|[hg hb]] /=.
- have [g2 eg hg2] := holds_app c hg; move: eg el ei; rewrite (holds_has _ hg).
  case: ifP => _ eg el ei; rewrite eg /then_ /= /put_meta nz /= ce el ei; by eexists; first by [].
- have [g2 eg hg2] := holds_app c hf; have hb2 := blank_open c hb; move: eg el ei hb2; rewrite (holds_has _ hf).
  case: ifP => _ eg el ei hb2; rewrite eg /then_ /= /put_meta nz /= ce el ei; by eexists; first by [].
- have [g2 eg hg2] := holds_app c hg; have hb2 := blank_open c hb; move: eg el ei hb2; rewrite (blank_has _ hb).
  case: ifP => _ eg el ei hb2; rewrite eg /then_ /= /put_meta nz /= ce el ei; by eexists; first by [].
Qed.

(* a step captured by the context manager is recorded exactly like a direct one *)
Lemma context_eq m s e rows idx lr : is_fact m ->
  cache_gradients_context m s e (Some rows) None idx lr = cache_gradients m s e (Ok rows) idx lr.
Proof.
move=> fm; rewrite /cache_gradients_context fm /= /cache_gradients.
by set o := then_ _ _; case: o => s' [x|].
Qed.

(* ---- the matrix recursion ---- *)
Definition rep (later : seq call) (M : 'M[F]_d) : Prop := forall v : row, v - v *m M^T = propagate later v.

Lemma innerE (u v : row) : inner u v = (u *m v^T) 0 0.
Proof. by rewrite /inner mxE; apply: eq_bigr => i _; rewrite mxE. Qed.
Lemma rep0 : rep [::] 0. Proof. by move=> v; rewrite trmx0 mulmx0 subr0. Qed.
Lemma dvemb_rep later M eta g : rep later M -> dvemb_row eta M g = propagate later (eta *: g).
Proof. by move=> r; rewrite -r /dvemb_row scalemxAl. Qed.
Lemma rep_cons later M c : rep later M ->
  rep (c :: later) (M + \sum_(g <- c_rows c) (dvemb_row (c_eta c) M g)^T *m g).
Proof.
move=> r v; rewrite /= -[RHS]r /pass.
set N := fun w : row => w - w *m M^T.
have NB u w : N (u - w) = N u - N w by rewrite /N mulmxBl !opprB [LHS]addrACA [RHS]addrACA [- w - _]addrC.
have NZ a u : N (a *: u) = a *: N u by rewrite /N -scalemxAl scalerBr.
have NS (T : Type) (xs : seq T) (u : T -> row) : N (\sum_(x <- xs) u x) = \sum_(x <- xs) N (u x).
  by rewrite /N mulmx_suml -sumrB.
rewrite -/(N (v - _)) NB NZ NS raddfD mulmxDr opprD addrA -/(N v); congr (_ - _).
rewrite raddf_sum mulmx_sumr /c_rows big_map scaler_sumr; apply: eq_bigr => p _.
rewrite NZ /= trmx_mul trmxK mulmxA [v *m _]mx11_scalar mul_scalar_mx -innerE.
by rewrite /dvemb_row -scalerBr -/(N p.2) !scalerA mulrC.
Qed.

(* ---- one epoch ---- *)
Lemma drop_cons_nth (T : Type) (x0 : T) (xs : seq T) k : (k < size xs)%N -> drop k xs = nth x0 xs k :: drop k.+1 xs.
Proof. by move=> lt; rewrite (drop_nth x0). Qed.

Lemma dnth_holds (V : Type) (f : call -> V) h dct e k c0 : holds f h dct -> (k < size (at_ep e h))%N ->
  dnth dct e k = Ok (f (nth c0 (at_ep e h) k)).
Proof.
move=> [_ g] lt; rewrite /dnth g; have -> : has_ep e h by case: (has_ep e h) (@at_ep_nil e h) lt => // ->.
by rewrite -map_drop (drop_cons_nth c0 lt).
Qed.
Lemma rows_Inv m h s e k c0 : Inv m h s -> (k < size (at_ep e h))%N ->
  step_rows m s e k = Ok (c_rows (nth c0 (at_ep e h) k)).
Proof.
move=> [_ _ hm] lt; rewrite /step_rows; case: m hm => [hg|[hf _]|[hg _]].
- exact: dnth_holds.
- by rewrite (dnth_holds c0 hf lt).
- exact: dnth_holds.
Qed.

Lemma at_ep_ep e h c : List.In c (at_ep e h) -> c_epoch c = e.
Proof. by elim: h => //= x h IH; case: ifP => [/eqP ex [<-|/IH]|_ /IH]. Qed.
Lemma at_ep_nth e h c0 k : (k < size (at_ep e h))%N -> c_epoch (nth c0 (at_ep e h) k) = e.
Proof.
rewrite /at_ep; elim: h k => //= x h IH k; case: ifP => [/eqP ex|_]; last exact: IH.
by case: k => //= k; exact: IH.
Qed.

Lemma zip_samples c (g : row -> row) j :
  \sum_(p <- zip (c_idx c) [seq g x | x <- c_rows c] | p.1 == j) p.2 = \sum_(p <- c_samples c | p.1 == j) g p.2.
Proof.
rewrite /c_idx /c_rows; elim: (c_samples c) => [|p ps IH] /=; first by rewrite !big_nil.
by rewrite !big_cons IH /=.
Qed.
Lemma zip_rows (g : row -> row) rows :
  \sum_(p <- zip [seq g x | x <- rows] rows) p.1^T *m p.2 = \sum_(x <- rows) (g x)^T *m x.
Proof. by elim: rows => [|x xs IH] /=; rewrite ?big_nil // !big_cons IH. Qed.

(* all sample indices of the history are below n *)
Definition bounded n h : Prop := forall c, List.In c h -> all (fun i => i < n)%N (c_idx c).
Lemma bounded_nth n h e c0 k : bounded n h -> (k < size (at_ep e h))%N -> all (fun i => i < n)%N (c_idx (nth c0 (at_ep e h) k)).
Proof.
move=> b lt; apply: b; elim: h k lt => //= x h IH k; case: ifP => [/eqP ex|_] lt.
  by case: k lt => [|k] /= lt; [left|right; apply: IH].
by right; apply: IH.
Qed.

Lemma epoch_steps m h s n e rest : Inv m h s -> bounded n h ->
  forall k M E, (k <= size (at_ep e h))%N -> rep (drop k (at_ep e h) ++ rest) M ->
  exists M' E', [/\ rfold (step m s n e) (M, E) (rev (iota 0 k)) = Ok (M', E'),
    rep (at_ep e h ++ rest) M' &
    forall j, E' j = E j + (sample_effect e j (at_ep e h ++ rest) - sample_effect e j (drop k (at_ep e h) ++ rest))].
Proof.
move=> iv b; elim=> [|k IH] M E le r.
  by exists M, E; rewrite drop0 in r *; split=> // j; rewrite subrr addr0.
have c0 : call by case: (at_ep e h) le => // c _.
have [hl hi _] := iv.
set c := nth c0 (at_ep e h) k.
have ec : c_epoch c = e by apply: at_ep_nth.
rewrite iotaSr rev_rcons /= {1}/step (dnth_holds c0 hl le) /= (dnth_holds c0 hi le) /= (rows_Inv c0 iv le) /= -/c.
have -> : index_add n E (c_idx c) [seq dvemb_row (c_eta c) M g | g <- c_rows c] =
  Ok (fun j => E j + \sum_(p <- zip (c_idx c) [seq dvemb_row (c_eta c) M g | g <- c_rows c] | p.1 == j) p.2).
  rewrite /index_add !size_map eqxx /= (_ : has _ _ = false) //; apply/negbTE; rewrite -all_predC.
  by have := bounded_nth c0 b le; apply: sub_all => i /=; rewrite -ltnNge.
rewrite /=.
have dr : drop k (at_ep e h) ++ rest = c :: (drop k.+1 (at_ep e h) ++ rest) by rewrite (drop_cons_nth c0 le).
have [] := IH (M + \sum_(p <- zip [seq dvemb_row (c_eta c) M g | g <- c_rows c] (c_rows c)) p.1^T *m p.2)
  (fun j => E j + \sum_(p <- zip (c_idx c) [seq dvemb_row (c_eta c) M g | g <- c_rows c] | p.1 == j) p.2) (ltnW le).
  by rewrite dr zip_rows; apply: rep_cons.
move=> M' [E' [e1 r1 h1]]; exists M', E'; split=> // j; rewrite h1 -addrA; congr (_ + _).
rewrite dr /= ec eqxx zip_samples.
have -> : \sum_(p <- c_samples c | p.1 == j) dvemb_row (c_eta c) M p.2 =
  \sum_(p <- c_samples c | p.1 == j) propagate (drop k.+1 (at_ep e h) ++ rest) (c_eta c *: p.2).
  by apply: eq_bigr => p _; apply: dvemb_rep.
by rewrite opprD addrCA addNKr.
Qed.

Lemma effect_none e j pre x : ~~ has_ep e pre -> sample_effect e j (pre ++ x) = sample_effect e j x.
Proof. by elim: pre => //= c pre IH; rewrite negb_or => /andP [/negbTE -> n]; rewrite add0r IH. Qed.

Lemma has_ep_at e e' h : has_ep e (at_ep e' h) = (e == e') && has_ep e h.
Proof.
elim: h => [|c h IH] /=; first by rewrite andbF.
case: ifP => /= [/eqP ce|n]; rewrite IH; first by rewrite ce eq_sym; case: (e == e').
by case: (e =P e') => [->|//]; rewrite n.
Qed.

Definition upto_ep h (es : seq nat) : seq call := flatten [seq at_ep e h | e <- es].
Lemma upto_none h es e : e \notin es -> ~~ has_ep e (upto_ep h es).
Proof.
elim: es => //= a es IH; rewrite inE negb_or => /andP [na n].
by rewrite /upto_ep /= /has_ep has_cat negb_or -/(has_ep _ _) has_ep_at (negbTE na) IH.
Qed.

Lemma epochs_ok m h n : bounded n h ->
  forall es s M rest, Inv m h s -> uniq es -> (forall e, e \in es -> ~~ has_ep e rest) -> rep rest M ->
  exists s', [/\ epochs_loop m n es s M = (s', None), Inv m h s' &
    forall e, if (e \in es) && has_ep e h then
      exists em, [/\ dget (embs s') e = Some em, e_n em = n &
        forall j, e_row em j = sample_effect e j (upto_ep h (rev es) ++ rest)]
      else e \notin es -> dget (embs s') e = dget (embs s) e].
Proof.
move=> b; elim=> [|e es IH] s M rest iv /= u nr r; first by exists s.
case/andP: u => ne u.
have [hl hi _] := iv.
have -> : (if dget (lrs s) e is Some l then size l else 0%N) = size (at_ep e h).
  by case: hl => _ ->; case: ifP => [_|/at_ep_nil ->]; rewrite ?size_map.
have r0 : rep (drop (size (at_ep e h)) (at_ep e h) ++ rest) M by rewrite drop_size.
have [M' [E' [-> r' hE]]] := epoch_steps iv b (fun=> 0) (leqnn _) r0.
set s1 := St _ _ _ _ _.
have iv1 : Inv m h s1 by case: iv.
have nr' e' : e' \in es -> ~~ has_ep e' (at_ep e h ++ rest).
  move=> he'; rewrite /has_ep has_cat negb_or -!/(has_ep _ _) nr ?inE ?he' ?orbT // andbT has_ep_at.
  by case: eqP he' ne => // -> ->.
have [s' [-> iv' he]] := IH s1 M' (at_ep e h ++ rest) iv1 u nr' r'.
exists s'; split=> // e'; rewrite inE rev_cons.
have := he e'; case: (e' =P e) => [->|ne'] /=; last first.
  case: ifP => [_ [em [g1 g2 g3]]|_]; first exists em.
    split=> // j; rewrite g3 /upto_ep map_rcons flatten_rcons catA //.
  by move=> g /g ->; rewrite dgetE; case: eqP.
rewrite (negbTE ne) /= => /(_ isT) g; case: ifP => // _; exists (Emb n E'); split=> //.
  by rewrite g dgetE eqxx.
move=> j /=; rewrite hE drop_size add0r.
have -> : sample_effect e j rest = 0.
  by rewrite -[rest]cats0 effect_none //; apply: nr; rewrite inE eqxx.
by rewrite subr0 /upto_ep map_rcons flatten_rcons -catA [RHS]effect_none //; apply: (@upto_none h); rewrite mem_rev.
Qed.

(* ---- the whole run ---- *)
Lemma mem_eps e h : (e \in [seq c_epoch c | c <- h]) = has_ep e h.
Proof. by elim: h => //= c h IH; rewrite inE IH eq_sym. Qed.
Lemma holds_keys (V : Type) (f : call -> V) h dct : holds f h dct -> dkeys dct =i undup [seq c_epoch c | c <- h].
Proof. by move=> hd e; rewrite mem_undup mem_eps -(holds_has e hd). Qed.
Lemma rev_sort_keys (V : Type) (f : call -> V) h dct : holds f h dct ->
  rev (sort (fun a b => b <= a)%N (dkeys dct)) = sort leq (undup [seq c_epoch c | c <- h]).
Proof.
move=> hd; have [u _] := hd.
apply: (@sorted_eq _ leq leq_trans anti_leq).
- by rewrite rev_sorted; apply: sort_sorted => a b; exact: leq_total.
- by apply: sort_sorted; exact: leq_total.
rewrite perm_rev perm_sort perm_sym perm_sort; apply: uniq_perm; rewrite ?undup_uniq //.
by move=> e; rewrite -(holds_keys hd).
Qed.

Lemma foldr_max_le (l : seq nat) i : i \in l -> (i <= foldr maxn 0 l)%N.
Proof. by elim: l => //= a l IH; rewrite inE => /orP [/eqP ->|/IH]; lia. Qed.
Lemma foldr_max_sub (l l' : seq nat) : {subset l <= l'} -> (foldr maxn 0 l <= foldr maxn 0 l')%N.
Proof.
elim: l => //= a l IH sub; rewrite geq_max; apply/andP; split.
  by apply: foldr_max_le; apply: sub; rewrite inE eqxx.
by apply: IH => i hi; apply: sub; rewrite inE hi orbT.
Qed.
Lemma mem_all_idx h i : i \in flatten [seq c_idx c | c <- h] <-> exists2 c, List.In c h & i \in c_idx c.
Proof.
elim: h => [|c h IH] /=; first by split=> // -[].
rewrite mem_cat; split.
  by case/orP => [hc|/IH [c' h1 h2]]; [exists c; [left|]|exists c'; [right|]].
by case=> c' [<- ->//|h1 h2]; apply/orP; right; apply/IH; exists c'.
Qed.
Lemma bounded_num h : bounded (num_samples h) h.
Proof.
move=> c hc; apply/allP => i hi; rewrite /num_samples ltnS; apply: foldr_max_le.
by apply/mem_all_idx; exists c.
Qed.
Lemma holds_In (V : Type) (f : call -> V) h dct p : holds f h dct -> List.In p dct ->
  has_ep p.1 h /\ p.2 = [seq f c | c <- at_ep p.1 h].
Proof. by move=> [u g] /(dget_in u); rewrite g; case: ifP => // _ [<-]. Qed.
Lemma at_ep_In e h c : List.In c (at_ep e h) <-> List.In c h /\ c_epoch c = e.
Proof.
rewrite /at_ep; elim: h => [|x h IH] /=; first by split=> // -[].
case: ifP => /= [/eqP ex|nx]; split.
- by case=> [<-|/IH [h1 h2]]; split=> //; [left|right].
- by case=> -[<-|h1] h2; [left|right; apply/IH].
- by case/IH => h1 h2; split=> //; right.
- by case=> -[xc|h1] h2; [move: nx; rewrite xc h2 eqxx|apply/IH].
Qed.
Lemma get_In (V : Type) (dct : ndict V) e v : dget dct e = Some v -> List.In (e, v) dct.
Proof.
elim: dct => // -[a b] dct IH; rewrite dget_cons; case: eqP => [-> [->]|_ /IH h]; by [left|right].
Qed.
Lemma mem_vals_idx h dct i : holds c_idx h dct ->
  i \in flatten (map flatten (dvals dct)) <-> i \in flatten [seq c_idx c | c <- h].
Proof.
move=> hd; rewrite mem_all_idx.
have E : i \in flatten (map flatten (dvals dct)) <-> exists2 p, List.In p dct & i \in flatten p.2.
  elim: {hd} dct => [|p dct IH] /=; first by split=> // -[].
  rewrite mem_cat; split.
    by case/orP => [hc|/IH [c' h1 h2]]; [exists p; [left|]|exists c'; [right|]].
  by case=> c' [<- ->//|h1 h2]; apply/orP; right; apply/IH; exists c'.
rewrite E; split.
  case=> p hp; have [_ ->] := holds_In hd hp => /mem_all_idx [c /at_ep_In [hc _] hi]; by exists c.
case=> c hc hi; have hep : has_ep (c_epoch c) h.
  elim: h hc {hd E} => //= x h IH [->|/IH ->]; by rewrite ?eqxx ?orbT.
exists (c_epoch c, [seq c_idx x | x <- at_ep (c_epoch c) h]).
  by apply: get_In; case: hd => _ ->; rewrite hep.
by apply/mem_all_idx; exists c => //; apply/at_ep_In.
Qed.

Definition all_ok h : Prop := forall c, List.In c h -> call_ok c.
Lemma has_ep_at_nil e h : has_ep e h -> size (at_ep e h) != 0%N.
Proof. by rewrite /has_ep has_count /at_ep size_filter lt0n. Qed.
Lemma total_ok h s : holds c_idx h (idxs s) -> all_ok h -> h <> [::] -> total_samples s = Ok (num_samples h).
Proof.
move=> hd ok nn; rewrite /total_samples.
have ne : has (fun l : seq (seq nat) => size l == 0%N) (dvals (idxs s)) = false.
  apply/negbTE; rewrite -all_predC /dvals all_map.
  have : forall p, List.In p (idxs s) -> size p.2 != 0%N.
    by move=> p hp; have [h1 ->] := holds_In hd hp; rewrite size_map has_ep_at_nil.
  by elim: (idxs s) => //= p l IH H; rewrite IH ?andbT /=; [apply: H; left|move=> q hq; apply: H; right].
have [c hc] : exists c, List.In c h by case: h nn {hd ok ne} => // c h _; exists c; left.
have hep : has_ep (c_epoch c) h.
  elim: h hc {hd ok nn ne} => //= x h IH [->|/IH ->]; by rewrite ?eqxx ?orbT.
have -> : (size (idxs s) == 0%N) = false.
  by case: hd => _ /(_ (c_epoch c)); rewrite hep; case: (idxs s).
rewrite ne /=.
have [i hi] : exists i, i \in c_idx c.
  have := ok c hc; rewrite /call_ok -size_idx; case: (c_idx c) => // i l _; exists i; by rewrite inE eqxx.
have mi : i \in flatten (map flatten (dvals (idxs s))) by apply/(mem_vals_idx i hd)/mem_all_idx; exists c.
case: eqP => [/size0nil e|_]; first by rewrite e in mi.
rewrite /num_samples; congr (Ok _.+1); apply/eqP; rewrite eqn_leq; apply/andP; split; apply: foldr_max_sub => j /=.
  by move/(mem_vals_idx j hd).
by move=> hj; apply/(mem_vals_idx j hd).
Qed.

Lemma any_holds (V : Type) (f : call -> V) h dct : holds f h dct -> any_vals dct = (if h is [::] then false else true).
Proof.
move=> hd; rewrite /any_vals; case: h hd => [|c h] hd.
  have [u g] := hd; case: dct u g {hd} => // -[a b] dct _ /(_ a).
  by rewrite dget_cons eqxx.
have [_ g] := hd; have := g (c_epoch c); rewrite /= eqxx /= => /(@get_In _ dct _ _).
rewrite /dvals has_map; elim: dct {hd g} => //= p dct IH [->//|/IH ->]; by rewrite orbT.
Qed.
Lemma any_blank (V : Type) h (dct : ndict (seq V)) : blank h dct -> any_vals dct = false.
Proof.
move=> [u g]; apply/negbTE; rewrite /any_vals -all_predC /dvals all_map.
have : forall p, List.In p dct -> size p.2 = 0%N.
  by move=> p hp; have := dget_in u hp; rewrite g; case: ifP => // _ [<-].
by elim: dct {u g} => //= p l IH H; rewrite H ?IH //=; [move=> q hq; apply: H; right|left].
Qed.

Lemma gate_ok m h s : Inv m h s ->
  ~~ any_vals (grads s) && ~~ (is_fact m && any_vals (facts s)) = (if h is [::] then true else false).
Proof.
case=> _ _; case: m => /= [hg|[hf hb]|[hg hb]].
- by rewrite (any_holds hg) andbT; case: h {hg}.
- by rewrite (any_holds hf) (any_blank hb); case: h {hf hb}.
- by rewrite (any_holds hg) (any_blank hb); case: h {hg hb}.
Qed.
Lemma probe_ok m h s : Inv m h s -> probe m s = if has_ep 0%N h then Ok tt else Err KeyError.
Proof.
case=> _ _; rewrite /probe; case: m => /= [[_ g]|[[_ g] hb]|[[_ g] hb]]; rewrite g; case: ifP => // e;
have := has_ep_at_nil e; by case: (at_ep 0%N h).
Qed.

Lemma St_eta s : St (grads s) (facts s) (lrs s) (idxs s) (embs s) = s. Proof. by case: s. Qed.

(* cache() on an attributor holding the recorded steps h *)
Lemma cache_ok m h s ms : Inv m h s -> all_ok h -> has_ep 0%N h ->
  exists s', [/\ cache m s None None ms = ((s', None), (None, None)),
    Inv m (if ms then [::] else h) s' &
    forall e, if has_ep e h then
      exists em, [/\ dget (embs s') e = Some em, e_n em = num_samples h &
        forall j, e_row em j = sample_effect e j (schedule h)]
      else dget (embs s') e = dget (embs s) e].
Proof.
move=> iv ok h0; have [hl hi _] := iv; rewrite /cache andbF /= St_eta (gate_ok iv).
have nn : h <> [::] by case: h h0 {iv ok hl hi}.
have -> : (if h is [::] then true else false) = false by case: h nn {iv ok hl hi h0}.
rewrite (total_ok hi ok nn) (probe_ok iv) h0.
have [s' [-> iv' he]] := @epochs_ok m h (num_samples h) (@bounded_num h)
   (sort (fun a b => b <= a)%N (dkeys (lrs s))) s 0 [::] iv
   (introT idP (eq_ind_r (fun b => is_true b) hl.1 (sort_uniq _ _))) (fun _ _ => isT) rep0.
have he' : forall e, if has_ep e h then
      exists em, [/\ dget (embs s') e = Some em, e_n em = num_samples h &
        forall j, e_row em j = sample_effect e j (schedule h)]
      else dget (embs s') e = dget (embs s) e.
  move=> e; have := he e; rewrite mem_sort -/(dhas _ _) (holds_has e hl) (rev_sort_keys hl) cats0 andbb.
  by case: ifP => // n; rewrite ?n; apply.
by case: ms; [exists (clear_cache m s')|exists s']; split=> //; apply: Inv_clear iv'.
Qed.
Lemma cache_empty m s ms : Inv m [::] s -> cache m s None None ms = ((s, Some ValueError), (None, None)).
Proof. by move=> iv; rewrite /cache andbF /= St_eta (gate_ok iv). Qed.
Lemma cache_no0 m h s ms : Inv m h s -> all_ok h -> h <> [::] -> ~~ has_ep 0%N h ->
  cache m s None None ms = ((s, Some KeyError), (None, None)).
Proof.
move=> iv ok nn h0; have [hl hi _] := iv; rewrite /cache andbF /= St_eta (gate_ok iv).
have -> : (if h is [::] then true else false) = false by case: h nn {iv ok hl hi h0}.
by rewrite (total_ok hi ok nn) (probe_ok iv) (negbTE h0).
Qed.
End P.
