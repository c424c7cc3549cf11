Set Warnings "-notation-overridden,-ambiguous-paths".
From mathcomp Require Import all_ssreflect all_algebra zify.
From Verif Require Import Py Tensor TensorProof AttrModel AttrSpec.
Set Implicit Arguments. Unset Strict Implicit. Unset Printing Implicit Defensive.
Import Order.TTheory GRing.Theory Num.Theory.
Local Open Scope ring_scope.

Lemma eq_rfold_map (S B : Type) (A : eqType) (f g : S -> B -> res S) s (h : A -> B) (l : seq A) :
  (forall s a, a \in l -> f s (h a) = g s (h a)) -> rfold f s (map h l) = rfold g s (map h l).
Proof.
elim: l s => [|b l IH] s H //=.
rewrite H ?inE ?eqxx //; case: (g s (h b)) => //= s'.
by apply: IH => s'' b' hb; apply: H; rewrite inE hb orbT.
Qed.

Lemma rmapM_ok (A B : Type) (f : A -> res B) (d : A -> B) s :
  (forall a, f a = Ok (d a)) -> rmapM f s = Ok (map d s).
Proof. by move=> H; elim: s => //= a s ->; rewrite H. Qed.

Lemma zip_map2 (A B C : Type) (f : A -> B) (g : A -> C) s :
  zip (map f s) (map g s) = map (fun x => (f x, g x)) s.
Proof. by elim: s => //= a s ->. Qed.

Lemma mk_mapmap (V W : zmodType) n m (g : nat -> nat -> V) (h : V -> W) :
  [seq [seq h v | v <- row] | row <- mk n m g] = mk n m (fun i j => h (g i j)).
Proof. by rewrite /mk /mkseq -map_comp; apply: eq_map => i /=; rewrite -map_comp. Qed.

Lemma mk_of_seq (V : zmodType) (X Y : Type) (xs : seq X) (ys : seq Y) (f : X -> Y -> V) x0 y0 :
  mk (size xs) (size ys) (fun i j => f (nth x0 xs i) (nth y0 ys j))
  = [seq [seq f x y | y <- ys] | x <- xs].
Proof.
rewrite -[xs in RHS](mkseq_nth x0) /mkseq -map_comp; apply: eq_map => i /=.
by rewrite -[ys in RHS](mkseq_nth y0) /mkseq -map_comp.
Qed.

Lemma mkseq_of_seq (V : Type) (X : Type) (xs : seq X) (f : X -> V) x0 :
  mkseq (fun i => f (nth x0 xs i)) (size xs) = [seq f x | x <- xs].
Proof. by rewrite -[xs in RHS](mkseq_nth x0) /mkseq -map_comp. Qed.

(* a loader without samples yields no batch *)
Lemma nbatches_nil (X : Type) (L : loader X) : (0 < ld_bs L)%N ->
  size (ld_data L) = 0%N -> nbatches L = 0%N.
Proof.
move=> h e; rewrite /nbatches e; case: ifP => _; first by rewrite div0n.
by rewrite add0n divn_small //; lia.
Qed.

Lemma eq_mapmap_cond (A B C : Type) (f g : A -> B -> C) xs ys :
  (forall x y, f x y = g x y) -> [seq [seq f x y | y <- ys] | x <- xs] = [seq [seq g x y | y <- ys] | x <- xs].
Proof. by move=> H; apply: eq_map => x; apply: eq_map => y. Qed.

Section BlockLoopSeq.
Variables (V : zmodType) (X Y : Type).
(* inner-outer loop in list form, empty cases included *)
Lemma covered_nodrop (Z : Type) (L : loader Z) : ld_drop L = false -> covered L = size (ld_data L).
Proof. by rewrite /covered => ->. Qed.
End BlockLoopSeq.

Section Base.
Variables (F : realFieldType) (X : Type) (p q : nat) (O : oracles F X p q).
Variables (full tr te : loader X) (rel : option relatif) (C : nat).
Hypothesis htr : (0 < ld_bs tr)%N.
Hypothesis hte : (0 < ld_bs te)%N.
Variable d : nat -> X -> F.

(* the denominators of the call *)
Definition denom_is : Prop :=
  match rel with
  | None => forall c x, d c x = 1
  | Some r => forall c x, (c < C)%N ->
      comp_denom O full c (gen_train O c x)
        (match r with RelL => Some (gen_test O c x) | _ => None end) r = Ok (d c x)
  end.
Hypothesis hd : denom_is.

Definition score c x y : F :=
  dot (trans_train O c (gen_train O c x)) (trans_test O full c (gen_test O c y)) / d c x.

Let n := size (ld_data tr).
Let m := size (ld_data te).

Lemma base_ckpt_block c out : (c < C)%N ->
  base_ckpt O true true full tr te rel c out
  = block_loop tr te (fun xb yb => [seq [seq score c x y | y <- yb] | x <- xb]) out.
Proof.
move=> hc; rewrite /base_ckpt /block_loop /enum_batches.
apply: eq_rfold_map => s k _ /=.
rewrite /batch_denom; move: hd; rewrite /denom_is; case: rel => [r|] H.
  rewrite (rmapM_ok _ (d := d c)) /=; last by move=> a; apply: H.
  apply: eq_rfold_map => s' l _ /=.
  congr add_block; rewrite /base_block zip_map2 -map_comp; apply: eq_map => x /=.
  by rewrite -map_comp; apply: eq_map.
rewrite /=; apply: eq_rfold_map => s' l _ /=.
congr add_block; rewrite /base_block; apply: eq_map => x; apply: eq_map => y.
by rewrite /score H divr1.
Qed.

Lemma base_attribute_mk x0 k : (k <= C)%N ->
  rfold (fun out c =>
    let out1 := [seq [seq v * c%:R | v <- row] | row <- out] in
    rmap (fun o => [seq [seq v / c.+1%:R | v <- row] | row <- o])
         (base_ckpt O true true full tr te rel c out1))
  (zeros2 _ n m) (iota 0 k)
  = Ok (mk n m (fun i j => if (i < covered tr)%N && (j < covered te)%N
      then (\sum_(c < k) score c (nth x0 (ld_data tr) i) (nth x0 (ld_data te) j)) / k%:R
      else 0)).
Proof.
elim: k => [|k IH] hk.
  rewrite /= zeros2_mk; congr Ok; apply: eq_mk => i j _ _.
  by case: ifP => // _; rewrite big_ord0 mul0r.
rewrite iotaSr rfold_rcons IH; last by lia.
rewrite [rbind _ _]/= mk_mapmap base_ckpt_block // (block_loop_mk htr hte _ x0 x0) /= mk_mapmap.
congr Ok; apply: eq_mk => i j hi hj.
case: ((i < covered tr)%N && (j < covered te)%N); last by rewrite !mul0r.
rewrite big_ord_recr /=; congr (_ / _); congr (_ + _).
case: (posnP k) => [->|hk0]; first by rewrite big_ord0 !mul0r.
by rewrite divfK // pnatr_eq0 -lt0n.
Qed.
End Base.

(* non-empty or both-empty: the result in list form *)
Section BaseThm.
Variables (F : realFieldType) (X : Type) (p q : nat) (O : oracles F X p q).
Variables (full tr te : loader X) (rel : option relatif) (C : nat).
Hypothesis htr : (0 < ld_bs tr)%N.
Hypothesis hte : (0 < ld_bs te)%N.
Variable d : nat -> X -> F.
Hypothesis hd : denom_is O full rel C d.

Lemma base_attribute_entries x0 :
  base_attribute_with O true true full tr te rel C
  = Ok (mk (size (ld_data tr)) (size (ld_data te))
     (fun i j => if (i < covered tr)%N && (j < covered te)%N
      then (\sum_(c < C) score O full d c (nth x0 (ld_data tr) i) (nth x0 (ld_data te) j)) / C%:R
      else 0)).
Proof. by rewrite /base_attribute_with (base_attribute_mk htr hte hd x0). Qed.

Lemma rfold_const (S B : Type) (f : S -> B -> res S) s (l : seq B) :
  (forall b, f s b = Ok s) -> rfold f s l = Ok s.
Proof. by move=> H; elim: l => //= b l IH; rewrite H. Qed.

Lemma base_attribute_seq : ld_drop tr = false -> ld_drop te = false ->
  base_attribute_with O true true full tr te rel C
  = Ok [seq [seq (\sum_(c < C) score O full d c x y) / C%:R | y <- ld_data te] | x <- ld_data tr].
Proof.
move=> ntr nte.
case etr: (ld_data tr) => [|x0 xs]; last first.
  rewrite (base_attribute_entries x0) -etr; congr Ok.
  rewrite -(mk_of_seq _ _ _ x0 x0); apply: eq_mk => i j hi hj.
  by rewrite /covered ntr nte hi hj.
rewrite /base_attribute_with etr /= rfold_const // => c /=.
rewrite /base_ckpt /enum_batches (nbatches_nil htr) ?etr //=.
Qed.
End BaseThm.

(* ---------- errors for unsupported batch types ---------- *)
Lemma enum_batches_cons (X : Type) (L : loader X) : (0 < ld_bs L)%N -> (0 < covered L)%N ->
  exists l, enum_batches L = (0%N, batch L 0) :: l.
Proof.
move=> h; rewrite -(upto_all h) /enum_batches; case: (nbatches L) => [|k] hk.
  by move: hk; rewrite upto0.
by exists [seq (k0, batch L k0) | k0 <- iota 1 k].
Qed.

Section BaseErr.
Variables (F : realFieldType) (X : Type) (p q : nat) (O : oracles F X p q).
Variables (full tr te : loader X) (rel : option relatif) (C : nat).
Hypothesis htr : (0 < ld_bs tr)%N.
Hypothesis hte : (0 < ld_bs te)%N.

Lemma base_attribute_type_error_tr ok_te : (0 < C)%N -> (0 < covered tr)%N ->
  base_attribute_with O false ok_te full tr te rel C = Err TypeError.
Proof.
case: C => // C' _ hc; rewrite /base_attribute_with /= /base_ckpt.
by case: (enum_batches_cons htr hc) => l -> /=.
Qed.

Lemma base_attribute_type_error_te : (0 < C)%N -> (0 < covered tr)%N -> (0 < covered te)%N ->
  rel = None ->
  base_attribute_with O true false full tr te rel C = Err TypeError.
Proof.
move=> h hc hc' ->; case: C h => // C' _; rewrite /base_attribute_with /= /base_ckpt.
case: (enum_batches_cons htr hc) => l -> /=.
by case: (enum_batches_cons hte hc') => l' -> /=.
Qed.
End BaseErr.

(* ---------- self_attribute of the base class ---------- *)
Lemma map_mkseq (A B : Type) (h : A -> B) g n : map h (mkseq g n) = mkseq (fun i => h (g i)) n.
Proof. by rewrite /mkseq -map_comp. Qed.

Section BaseSelf.
Variables (F : realFieldType) (X : Type) (p q : nat) (O : oracles F X p q).
Variables (full tr : loader X) (C : nat).
Hypothesis htr : (0 < ld_bs tr)%N.
Hypothesis ndrop : ld_drop tr = false.
Let n := size (ld_data tr).

Definition self_score c x : F :=
  dot (trans_train O c (gen_train O c x)) (trans_test O full c (gen_test O c x)).

Lemma add_vec_bc1 (o : seq F) v : add_vec 0 (size o) [:: v] o = Ok [seq x + v | x <- o].
Proof.
rewrite /add_vec /bc_ok /= orbT; congr Ok.
apply: (@eq_from_nth _ 0); first by rewrite size_mapi size_map.
move=> i; rewrite size_mapi => h; rewrite (nth_mapi _ 0) // (nth_map 0) //.
by rewrite /in_slice h.
Qed.

Lemma add_vec_full (o b : seq F) : size b = size o ->
  add_vec 0 (size o) b o = Ok (mkseq (fun i => nth 0 o i + nth 0 b i) (size o)).
Proof.
move=> e; rewrite /add_vec /bc_ok e /slice_len minnn min0n subn0 eqxx /=; congr Ok.
apply: (@eq_from_nth _ 0); first by rewrite size_mapi size_mkseq.
move=> i; rewrite size_mapi => h; rewrite (nth_mapi _ 0) // nth_mkseq //.
rewrite /in_slice h /= subn0 /bc_idx; case: eqP => // e1.
by have -> : i = 0%N by lia.
Qed.

Lemma base_self_single : (0 < n <= ld_bs tr)%N ->
  base_self_with O true full tr None C
  = Ok [seq (\sum_(c < C) self_score c x) / C%:R | x <- ld_data tr].
Proof.
move=> hn.
have [x0 hx0] : exists x0 : X, True by move: hn; rewrite /n; case: (ld_data tr) => // x0 ? _; exists x0.
have enb : nbatches tr = 1%N.
  rewrite /nbatches ndrop -/n; apply/eqP; rewrite eqn_leq; apply/andP; split.
    rewrite -ltnS ltn_divLR //; lia.
  by rewrite divn_gt0 //; lia.
have eb : batch tr 0 = ld_data tr.
  by rewrite /batch mul0n drop0 take_oversize // -/n; lia.
rewrite -(mkseq_of_seq _ _ x0) -/n /base_self_with /enum_batches enb /= eb -/n.
elim: C => [|k IH].
  by rewrite /= /zeros1 nseq_mkseq; congr Ok; apply: eq_mkseq_lt => i _; rewrite big_ord0 mul0r.
rewrite iotaSr rfold_rcons IH [rbind _ _]/= map_mkseq /self_batch.
rewrite add_vec_full; last by rewrite size_map size_mkseq.
rewrite /= size_mkseq map_mkseq; congr Ok; apply: eq_mkseq_lt => i hi.
rewrite nth_mkseq // (nth_map x0) // big_ord_recr /=; congr (_ / _); congr (_ + _).
case: (posnP k) => [->|hk0]; first by rewrite big_ord0 !mul0r.
by rewrite divfK // pnatr_eq0 -lt0n.
Qed.

Lemma batch_bs1 k : ld_bs tr = 1%N -> (k < n)%N -> exists x, batch tr k = [:: x].
Proof.
move=> e hk; rewrite /batch e muln1.
have : size (take 1 (drop k (ld_data tr))) = 1%N.
  by rewrite size_take size_drop -/n; case: ifP => //; lia.
by case: (take 1 _) => [|x [|]] // _; exists x.
Qed.

Lemma base_self_bs1 : ld_bs tr = 1%N ->
  base_self_with O true full tr None C
  = Ok (nseq n ((\sum_(c < C) \sum_(x <- ld_data tr) self_score c x) / C%:R)).
Proof.
move=> e.
have enb : nbatches tr = n by rewrite /nbatches ndrop e addn0 divn1.
rewrite /base_self_with /enum_batches enb -/n.
have inner c v k : (k <= n)%N ->
  rfold (fun (o : seq F) (pb : nat * seq X) =>
         if ~~ true then Err TypeError else
         rbind (batch_denom O full None c pb.2) (fun den =>
           match den with
           | None => add_vec 0 (size o) (self_batch O full c pb.2) o
           | Some _ => Err RuntimeError
           end)) (nseq n v) [seq (k0, batch tr k0) | k0 <- iota 0 k]
  = Ok (nseq n (v + \sum_(x <- take k (ld_data tr)) self_score c x)).
  elim: k => [|k IH] hk; first by rewrite take0 big_nil addr0.
  rewrite iotaSr map_rcons rfold_rcons IH; last by lia.
  have [x ex] := batch_bs1 e hk.
  rewrite [rbind _ _]/= ex /= add_vec_bc1 map_nseq; congr (Ok (nseq n _)).
  rewrite -addrA; congr (_ + _).
  rewrite (take_nth x) -/n // -cats1 big_cat big_seq1; congr (_ + self_score c _).
  have := nth_batch htr x (k:=k) (i:=0); rewrite ex /= => -> //.
  by rewrite /st e muln1 addn0; apply: set_nth_default.
elim: C => [|k IH]; first by rewrite /= /zeros1 big_ord0 mul0r.
rewrite iotaSr rfold_rcons IH [rbind _ _]/= map_nseq inner // /= map_nseq.
congr (Ok (nseq n _)); rewrite big_ord_recr /= take_size; congr (_ / _); congr (_ + _).
case: (posnP k) => [->|hk0]; first by rewrite big_ord0 !mul0r.
by rewrite divfK // pnatr_eq0 -lt0n.
Qed.

Lemma base_self_other : (1 < ld_bs tr < n)%N -> (0 < C)%N ->
  base_self_with O true full tr None C = Err RuntimeError.
Proof.
case: C => // C' hb _; rewrite /base_self_with /= -/n.
have hc : (0 < covered tr)%N by rewrite covered_nodrop // -/n; lia.
case: (enum_batches_cons htr hc) => l -> /=.
rewrite /add_vec !size_map !size_nseq /bc_ok (size_batch htr) ?size_map ?size_nseq.
have -> : ((ed tr 0 - st tr 0)%N == slice_len n 0 n) || ((ed tr 0 - st tr 0)%N == 1%N) = false.
  by rewrite /ed /st /slice_len -/n mul1n; lia.
by [].
Qed.

Lemma base_self_relatif r (d : nat -> X -> F) : denom_is O full (Some r) C d ->
  (0 < n)%N -> (0 < C)%N -> base_self_with O true full tr (Some r) C = Err RuntimeError.
Proof.
case: C => // C' hd hn _; rewrite /base_self_with /=.
have hc : (0 < covered tr)%N by rewrite covered_nodrop.
case: (enum_batches_cons htr hc) => l -> /=.
by rewrite (rmapM_ok _ (d := d 0%N)) // => a; apply: hd.
Qed.
End BaseSelf.

(* ---------- TracIn ---------- *)
Section TracIn.
Variables (F : rcfType) (X : Type) (p q : nat).
Variables (gl gt : nat -> X -> 'rV[F]_p) (proj : nat -> 'rV[F]_p -> 'rV[F]_q) (eps : F).
Variables (tr te : loader X).
Hypothesis htr : (0 < ld_bs tr)%N.
Hypothesis hte : (0 < ld_bs te)%N.

Definition tscore (normalized : bool) c x y : F :=
  if normalized then dot (normalize eps (proj c (gl c x))) (normalize eps (proj c (gt c y)))
  else dot (proj c (gl c x)) (proj c (gt c y)).

Lemma zip_iota_rcons (A : Type) (ws : seq A) w :
  zip (iota 0 (size (rcons ws w))) (rcons ws w)
  = rcons (zip (iota 0 (size ws)) ws) (size ws, w).
Proof. by rewrite size_rcons iotaSr zip_rcons // size_iota. Qed.

Lemma tracin_attribute_mk x0 nrm ws :
  tracin_attribute gl gt proj eps true true nrm (size ws) ws tr te
  = Ok (mk (size (ld_data tr)) (size (ld_data te)) (fun i j =>
      if (i < covered tr)%N && (j < covered te)%N
      then \sum_(c < size ws) nth 0 ws c * tscore nrm c (nth x0 (ld_data tr) i) (nth x0 (ld_data te) j)
      else 0)).
Proof.
rewrite /tracin_attribute eqxx /=.
elim/last_ind: ws => [|ws w IH].
  rewrite /= zeros2_mk; congr Ok; apply: eq_mk => i j _ _; case: ifP => //.
  by rewrite big_ord0.
rewrite zip_iota_rcons rfold_rcons IH [rbind _ _]/=.
transitivity (block_loop tr te (fun xb yb =>
  [seq [seq w * tscore nrm (size ws) x y | y <- yb] | x <- xb])
  (mk (size (ld_data tr)) (size (ld_data te)) (fun i j =>
      if (i < covered tr)%N && (j < covered te)%N
      then \sum_(c < size ws) nth 0 ws c * tscore nrm c (nth x0 (ld_data tr) i) (nth x0 (ld_data te) j)
      else 0))).
  rewrite /block_loop; apply: eq_rfold_map => s k _; apply: eq_rfold_map => s' l _.
  congr add_block; apply: eq_map => x; apply: eq_map => y.
  by rewrite /tscore /=; case: nrm {IH s s'}; rewrite mulrC.
rewrite (block_loop_mk htr hte _ x0 x0); congr Ok; apply: eq_mk => i j hi hj.
case: (_ && _) => //.
rewrite size_rcons big_ord_recr /= nth_rcons ltnn eqxx; congr (_ + _).
by apply: eq_bigr => c _; rewrite nth_rcons ltn_ord.
Qed.

Lemma tracin_attribute_seq nrm ws : ld_drop tr = false -> ld_drop te = false ->
  tracin_attribute gl gt proj eps true true nrm (size ws) ws tr te
  = Ok [seq [seq \sum_(c < size ws) nth 0 ws c * tscore nrm c x y | y <- ld_data te] | x <- ld_data tr].
Proof.
move=> ntr nte.
case etr: (ld_data tr) => [|x0 xs]; last first.
  rewrite (tracin_attribute_mk x0) -etr; congr Ok.
  rewrite -(mk_of_seq _ _ _ x0 x0); apply: eq_mk => i j hi hj.
  by rewrite /covered ntr nte hi hj.
rewrite /tracin_attribute etr eqxx /= rfold_const // => c /=.
by rewrite /enum_batches (nbatches_nil htr) ?etr //=.
Qed.

Definition tself (normalized : bool) c x : F :=
  if normalized then 1 else dot (proj c (gl c x)) (proj c (gl c x)).

Lemma tracin_self_seq nrm ws : ld_drop tr = false ->
  tracin_self_attribute gl proj true nrm (size ws) ws tr
  = Ok [seq \sum_(c < size ws) nth 0 ws c * tself nrm c x | x <- ld_data tr].
Proof. clear hte.
move=> ntr.
case etr: (ld_data tr) => [|x0 xs]; last first.
  rewrite -etr -(mkseq_of_seq _ _ x0) /tracin_self_attribute eqxx /=.
  elim/last_ind: ws => [|ws w IH].
    by rewrite /= /zeros1 nseq_mkseq; congr Ok; apply: eq_mkseq_lt => i _; rewrite big_ord0.
  rewrite zip_iota_rcons rfold_rcons IH [rbind _ _]/=.
  set n := size (ld_data tr).
  have H g k : (k <= nbatches tr)%N ->
    rfold (fun (o : seq F) (pb : nat * seq X) =>
      add_vec (st tr pb.1) (ed tr pb.1)
        (if nrm then nseq (ed tr pb.1 - st tr pb.1) (1 * w)
         else [seq (let g := proj (size ws) (gl (size ws) x) in dot g g * w) | x <- pb.2]) o)
     (mkseq g n) [seq (k0, batch tr k0) | k0 <- iota 0 k]
    = Ok (mkseq (fun i => if (i < upto tr k)%N then
         g i + w * tself nrm (size ws) (nth x0 (ld_data tr) i) else g i) n).
    elim: k => [|k IHk] hk.
      by congr Ok; apply: eq_mkseq_lt => i _; rewrite upto0.
    rewrite iotaSr map_rcons rfold_rcons IHk; last by lia.
    rewrite [rbind _ _]/=.
    have -> : (if nrm then nseq (ed tr k - st tr k) (1 * w)
         else [seq (let g := proj (size ws) (gl (size ws) x) in dot g g * w) | x <- batch tr k])
      = mkseq (fun i => w * tself nrm (size ws) (nth x0 (ld_data tr) (st tr k + i))) (ed tr k - st tr k).
      rewrite /tself; case: nrm {IH IHk}.
        by rewrite nseq_mkseq; apply: eq_mkseq_lt => i _; rewrite mulrC.
      apply: (@eq_from_nth _ 0); first by rewrite size_map size_mkseq size_batch.
      move=> i; rewrite size_map => hi.
      by rewrite (nth_map x0) // nth_mkseq -?size_batch //= nth_batch // mulrC.
    rewrite add_vec_mk; last exact: nbatches_st.
    congr Ok; apply: eq_mkseq_lt => i hi.
    have h1 := upto_step htr i hk. have h2 := upto_mono htr k.
    rewrite h1; case: (boolP (upto tr k <= i < upto tr k.+1)%N) => h3.
      have -> : (i < upto tr k)%N = false by lia.
      have -> : (i < upto tr k.+1)%N by lia.
      by have -> : (st tr k + (i - st tr k) = i)%N by move: h3; rewrite -h1 /in_slice; lia.
    by have -> : (i < upto tr k.+1)%N = (i < upto tr k)%N by lia.
  rewrite /enum_batches H // upto_all // covered_nodrop // -/n; congr Ok.
  apply: eq_mkseq_lt => i ->.
  rewrite size_rcons big_ord_recr /= nth_rcons ltnn eqxx; congr (_ + _).
  by apply: eq_bigr => c _; rewrite nth_rcons ltn_ord.
rewrite /tracin_self_attribute etr eqxx /= rfold_const // => c /=.
by rewrite /enum_batches (nbatches_nil htr) ?etr //=.
Qed.

Lemma dotZ (R : comRingType) r (a b : R) (u v : 'rV[R]_r) : dot (a *: u) (b *: v) = a * b * dot u v.
Proof.
rewrite /dot mulr_sumr; apply: eq_bigr => k _; rewrite !mxE.
by rewrite -!mulrA; congr (_ * _); rewrite mulrCA.
Qed.

Lemma dot_ge0 r (u : 'rV[F]_r) : 0 <= dot u u.
Proof. by apply: sumr_ge0 => k _; rewrite -expr2 sqr_ge0. Qed.

Lemma normalize_unit (u : 'rV[F]_q) : 0 < eps -> eps <= Num.sqrt (dot u u) ->
  dot (normalize eps u) (normalize eps u) = 1.
Proof.
move=> he h; rewrite /normalize dotZ; rewrite (max_l h).
set s := Num.sqrt _ in h *.
have hs : s != 0 by rewrite gt_eqF // (lt_le_trans he).
have -> : dot u u = s * s by rewrite -expr2 sqr_sqrtr // dot_ge0.
by rewrite mulrACA mulVf // mulr1.
Qed.

Lemma normalize_small (u : 'rV[F]_q) : 0 < eps -> Num.sqrt (dot u u) < eps ->
  dot (normalize eps u) (normalize eps u) < 1.
Proof.
move=> he h; rewrite /normalize dotZ; rewrite (max_r (ltW h)).
set s := Num.sqrt _ in h *.
have -> : dot u u = s * s by rewrite -expr2 sqr_sqrtr // dot_ge0.
rewrite mulrACA -expr2 exprn_ilt1 //.
  by rewrite mulr_ge0 ?invr_ge0 ?sqrtr_ge0 // ltW.
by rewrite mulrC ltr_pdivr_mulr // mul1r.
Qed.
End TracIn.

Section Denom.
Variables (F : rcfType) (p : nat) (eps : F).
Lemma if_denom_pos (u : 'rV[F]_p) t r v : 0 < eps -> if_denom eps u t r = Ok v -> 0 < v.
Proof.
move=> he; case: r => //=; last first.
  by case=> <-; rewrite lt_maxr he orbT.
by case: t => // t [<-]; rewrite sqrtr_gt0 lt_maxr he orbT.
Qed.
End Denom.

Section HistProof.
Variables (F : realFieldType) (X : Type) (p q : nat) (O : oracles F X p q).
Implicit Type h : seq (bop X).
Lemma last_cached_rcons h o : last_cached (rcons h o) = if o is OpCache l then Some l else last_cached h.
Proof. by rewrite /last_cached foldl_rcons. Qed.
Lemma ohead_cat (A : Type) (a b : seq A) : ohead (a ++ b) = if ohead a is Some x then Some x else ohead b.
Proof. by case: a. Qed.
Lemma bstate_hist h : foldl (bstep O) None h = full_spec h.
Proof.
elim/last_ind: h => [|h o IH] //.
rewrite foldl_rcons IH /full_spec last_cached_rcons.
have -> : first_attributed (rcons h o) =
  if first_attributed h is Some l then Some l else
  match o with OpCache _ => None | OpAttr tr _ _ _ => Some tr | OpSelf tr _ _ => Some tr end.
  rewrite /first_attributed -cats1 pmap_cat ohead_cat.
  by case: (ohead _) => //=; case: o.
case: o => [l|tr te rel C|tr rel C] //=;
  by case: (last_cached h) => // ; case: (first_attributed h).
Qed.
End HistProof.
