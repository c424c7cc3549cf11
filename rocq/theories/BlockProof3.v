(* Per-sample gradients as stored rows; the in-memory loader as chunks. *)
Set Warnings "-notation-overridden,-ambiguous-paths".
From mathcomp Require Import all_ssreflect all_algebra zify.
From Verif Require Import Py Dict Tensor TensorProof OffModel OffSpec OffProof OffProof2 BlockModel BlockSpec BlockProof BlockProof2.
From Verif Require DiskModel DiskSpec.
Set Implicit Arguments. Unset Strict Implicit. Unset Printing Implicit Defensive.
Import GRing.Theory.
Local Open Scope ring_scope.

Lemma big_flat (V : zmodType) (f : nat -> V) (ds : seq nat) s :
  \sum_(s <= k < s + sumn ds) f k = \sum_(l < size ds) \sum_(a < nth 0%N ds l) f (s + sumn (take l ds) + a)%N.
Proof.
elim: ds s => [|d ds IH] s /=; first by rewrite addn0 big_geq // big_ord0.
rewrite big_ord_recl /= addn0 addnA (@big_cat_nat _ _ _ (s + d)) ?leq_addr //=; congr (_ + _).
  by rewrite -{1}[s]add0n big_addn addKn big_mkord; apply: eq_bigr => i _; rewrite addnC.
rewrite IH; apply: eq_bigr => l _; apply: eq_bigr => a _ /=; by rewrite !addnA.
Qed.

Section Rows.
Variable F : fieldType.
Variable ds : seq nat.
Notation d l := (nth 0%N ds l). Notation nl := (size ds).
Notation rows := (seq (seq F)).

Section Flat.
Variables (X : Type) (u : nat -> X -> seq F).
Hypothesis su : forall l x, (l < nl)%N -> size (u l x) = d l.
Definition fl (x : X) : seq F := flatten (mkseq (fun l => u l x) nl).
Lemma shape_fl x : shape (mkseq (fun l => u l x) nl) = ds.
Proof.
apply: (@eq_from_nth _ 0%N); first by rewrite size_map size_mkseq.
by move=> l; rewrite size_map size_mkseq => ln; rewrite (nth_map [::]) ?size_mkseq // nth_mkseq // su.
Qed.
Lemma size_fl x : size (fl x) = sumn ds.
Proof. by rewrite size_flatten shape_fl. Qed.
Lemma lay_fl l x : (l < nl)%N -> lay ds l (fl x) = u l x.
Proof.
move=> ln; rewrite /lay /colof -nth_reshape -{1}(shape_fl x) flattenK nth_mkseq //.
Qed.
Lemma nth_fl l a x : (l < nl)%N -> (a < d l)%N -> nth 0 (fl x) (sumn (take l ds) + a) = nth 0 (u l x) a.
Proof.
move=> ln ad; rewrite -(lay_fl x ln) /lay nth_take // nth_drop //.
Qed.
(* what the hooks deliver for a batch *)
Definition grads_of (b : seq X) : seq (gr F) := mkseq (fun l => G2 (T2 (d l) [seq u l x | x <- b])) nl.

Lemma full_grad l b : (l < nl)%N -> full (nth G1 (grads_of b) l) = (0 < size b)%N && (0 < d l)%N.
Proof. by move=> ln; rewrite nth_mkseq //= size_map !lt0n. Qed.
Lemma has_full b : (0 < sumn ds)%N -> (0 < size b)%N -> has (@full F) (grads_of b).
Proof.
move=> s0 b0; have [l ln dl] : exists2 l, (l < nl)%N & (0 < d l)%N.
  elim: (ds) s0 => //= k ks IH; case: k => [|k]; last by exists 0%N.
  by rewrite add0n => /IH [l ln dl]; exists l.+1.
by apply/(has_nthP G1); exists l; rewrite ?size_mkseq // full_grad // b0 dl.
Qed.
Lemma nsamples_grads b : (0 < sumn ds)%N -> (0 < size b)%N -> nsamples (grads_of b) = size b.
Proof.
move=> s0 b0; rewrite /nsamples; have := has_full s0 b0; rewrite has_find => h.
by rewrite size_mkseq in h; rewrite nth_mkseq //= size_map.
Qed.
Lemma flat_grads b : (0 < sumn ds)%N -> (0 < size b)%N -> flat_batch 0 ds (grads_of b) = [seq fl x | x <- b].
Proof.
move=> s0 b0; rewrite /flat_batch nsamples_grads //.
have [x0 _] : exists x0 : X, True by case: (b) b0 => // x _ _; exists x.
apply: (@eq_from_nth _ [::]); first by rewrite size_mkseq size_map.
move=> r; rewrite size_mkseq => rb; rewrite nth_mkseq // (nth_map x0) // /flat_row /fl; congr flatten.
apply: eq_mkseq_lt => l ln; apply: (@eq_from_nth _ 0); first by rewrite size_mkseq su.
move=> c; rewrite size_mkseq => cd; rewrite nth_mkseq // /stored_at full_grad // b0.
have -> : (0 < d l)%N by case: (d l) cd.
rewrite nth_mkseq //= (nth_map x0) size_map; last by case: ifP.
 have -> : (if size b == 1%N then 0%N else r) = r.
  by case: eqP => // e; move: rb; rewrite e; case: r.
by have -> : (if d l == 1%N then 0%N else c) = c by case: eqP => // e; move: cd; rewrite e; case: c.
Qed.
Lemma outcome_grads b : (0 < size b)%N -> outcome (Some ds) (grads_of b) = Ok tt.
Proof.
move=> b0; rewrite /outcome /=.
have nn s : is_none (nth G1 (grads_of b) s) = false.
  by case: (ltnP s nl) => h; [rewrite nth_mkseq|rewrite nth_default ?size_mkseq].
rewrite nn; case: ifP => // hf; case: eqP => // /eqP; rewrite -[X in X == _]/(find _ _) => ne.
exfalso; move: ne; apply/negP; rewrite negbK eqn_leq find_size /= leqNgt -has_find.
apply/negP => /(has_nthP (G1, 0%N)) [l]; rewrite size_zip size_mkseq minnn => ln.
rewrite nth_zip ?size_mkseq //= => /negP []; rewrite /fits nn /=; apply/implyP => _.
rewrite nth_mkseq //= size_map eqxx /= andbT; apply/orP; left.
have : has (@full F) (grads_of b) by move/negbFE: hf.
rewrite has_find size_mkseq => fb; rewrite /nsamples nth_mkseq //= size_map eqxx //.
Qed.
Lemma store_grads (P : Type) k j b (o : off F P) : (0 < sumn ds)%N -> (0 < size b)%N -> o_dims o = Some ds ->
  store (0 : F) k j (grads_of b) o = (set_batch k j (T2 (sumn ds) [seq fl x | x <- b]) o, Ok tt).
Proof.
move=> s0 b0 od; rewrite storeE od outcome_grads //= flat_grads //.
by congr (_, _); case: o od => /= a b1 c d e ->; case: k.
Qed.
End Flat.

Section Dots.
Variables (X Y : Type) (u : nat -> X -> seq F) (v : nat -> Y -> seq F).
Hypothesis su : forall l x, (l < nl)%N -> size (u l x) = d l.
Hypothesis sv : forall l x, (l < nl)%N -> size (v l x) = d l.
Lemma dot_fl x y : dotn (sumn ds) (fl u x) (fl v y) = \sum_(l < nl) dotn (d l) (u l x) (v l y).
Proof.
rewrite /dotn -(big_mkord xpredT (fun k => nth 0 (fl u x) k * nth 0 (fl v y) k)).
rewrite -{1}[sumn ds]add0n big_flat; apply: eq_bigr => l _; apply: eq_bigr => a _.
by rewrite add0n !nth_fl.
Qed.
Lemma dot_mulrow l (M : 'M[F]_(d l)) x y :
  dotn (d l) (mulrow (d l) (rows_of M) (u l x)) (v l y) =
  (rv (d l) (v l y) *m M *m (rv (d l) (u l x))^T) 0 0.
Proof.
rewrite mxE /dotn.
rewrite (eq_bigr (fun a : 'I_(d l) => \sum_(b < d l) nth 0 (v l y) a * M a b * nth 0 (u l x) b)); last first.
  move=> a _; rewrite nth_mkseq // big_distrl /=; apply: eq_bigr => b _.
  by rewrite rows_of_nth mulrC mulrA.
rewrite exchange_big /=; apply: eq_bigr => b _; rewrite !mxE big_distrl /=.
by apply: eq_bigr => a _; rewrite !mxE.
Qed.
Lemma dot_plain l x y : dotn (d l) (u l x) (v l y) = (rv (d l) (v l y) *m 1%:M *m (rv (d l) (u l x))^T) 0 0.
Proof.
by rewrite mulmx1 mxE; apply: eq_bigr => a _; rewrite !mxE mulrC.
Qed.
End Dots.

Lemma cov_fl (X : Type) (u : nat -> X -> seq F) xs l :
  (forall l x, (l < nl)%N -> size (u l x) = d l) -> (l < nl)%N ->
  cov ds l [seq fl u x | x <- xs] = efim ds u xs l.
Proof.
move=> su ln; rewrite /cov /efim size_map big_map; congr (_ *: _).
by apply: eq_bigr => x _; rewrite lay_fl.
Qed.
Lemma dmp_fl (X : Type) (u : nat -> X -> seq F) lam xs l :
  (forall l x, (l < nl)%N -> size (u l x) = d l) -> (l < nl)%N ->
  dmp ds lam l [seq fl u x | x <- xs] = damped ds lam u xs l.
Proof. by move=> su ln; rewrite /dmp /damped cov_fl. Qed.

(* the in-memory loader *)
Definition get2 (c : dict nat_eqType (t2 F)) b : rows := t2r (odflt (T2 0 [::]) (dget c b)).
Lemma mem_holds (c : dict nat_eqType (t2 F)) bs : (0 < bs)%N -> uniq (dkeys c) ->
  (forall b t, dget c b = Some t -> t2c t = sumn ds) ->
  let bl := sort leq (dkeys c) in
  exists outs : seq (item F), [/\ mem_loader c None bs = [seq Ok it | it <- outs],
    holds ds outs [seq (b, get2 c b) | b <- bl] &
    [seq dkeys it.2 | it <- outs] = [seq batch (Loader bl bs false) i | i <- iota 0 (nbatches (Loader bl bs false))]].
Proof.
move=> bs0 uc cc bl; have blu : uniq bl by rewrite sort_uniq.
pose L := Loader bl bs false; pose nb := nbatches L.
have chunk i : (i < nb)%N -> exists tm : item F, [/\ collate_mem [seq get_item c b | b <- batch L i] = Ok tm, t2c tm.1 = sumn ds,
    dkeys tm.2 = batch L i, t2r tm.1 = flatten [seq get2 c b | b <- batch L i] &
    forall b, b \in batch L i -> exists2 se, dget tm.2 b = Some se & rows_at tm.1 se = get2 c b].
  move=> ib; have sub b : b \in batch L i -> b \in bl by rewrite /batch /= => /mem_take /mem_drop.
  have [|||t [m [? ? ? ? ?]]] := @collate_memE F c (sumn ds) cc (batch L i).
  - by apply: take_uniq; apply: drop_uniq.
  - exact: chunk_gt0.
  - by move=> b /sub; rewrite mem_sort.
  by exists (t, m).
have [f fP] : exists f : nat -> item F, forall i, (i < nb)%N ->
   [/\ collate_mem [seq get_item c b | b <- batch L i] = Ok (f i), t2c (f i).1 = sumn ds,
    dkeys (f i).2 = batch L i, t2r (f i).1 = flatten [seq get2 c b | b <- batch L i] &
    forall b, b \in batch L i -> exists2 se, dget (f i).2 b = Some se & rows_at (f i).1 se = get2 c b].
  elim: (nb) chunk => [|m IH] chunk; first by exists (fun=> (T2 0 [::], [::])).
  have [i ib|f Hf] := IH; first by apply: chunk; lia.
  have [tm Htm] := chunk m (ltnSn m).
  exists (fun i => if i == m then tm else f i) => i ib; case: eqP => [->|ne] //.
  by apply: Hf; lia.
have ct i : (i < nb)%N -> DiskSpec.contents (f i) = [seq (b, get2 c b) | b <- batch L i].
  move=> ib; have [_ _ ki _ gi] := fP i ib; rewrite -ki /DiskSpec.contents /dkeys -map_comp.
  have ui : uniq (dkeys (f i).2) by rewrite ki; apply: take_uniq; apply: drop_uniq.
  have gi' : forall e, List.In e (f i).2 -> rows_at (f i).1 e.2 = get2 c e.1.
    move=> e ein; have ge := dget_in ui ein.
    have [|se] := gi e.1; first by rewrite -ki (dget_mem ge).
    by rewrite ge => -[<-].
  by elim: (f i).2 gi' => //= e es IH H; rewrite H ?IH //; [move=> e' e'in; apply: H; right|left].
have In_f it : List.In it [seq f i | i <- iota 0 nb] -> exists2 i, (i < nb)%N & it = f i.
  by move=> h; have [i hi ->] := In_map h; exists i => //; have := In_iota hi; lia.
have keysE : [seq dkeys it.2 | it <- [seq f i | i <- iota 0 nb]] = [seq batch L i | i <- iota 0 nb].
  by rewrite -map_comp; apply/eq_in_map => i; rewrite mem_iota => ib; have [_ _ e _ _] := fP i ib.
exists [seq f i | i <- iota 0 nb]; split=> //.
  rewrite /mem_loader /enum_batches /batch_indices -/bl map_nbatches -/L -/nb -!map_comp.
  apply/eq_in_map => i; rewrite mem_iota /= => ib.
  by rewrite map_batch -/L; have [-> _ _ _ _] := fP i ib.
split.
- by move=> it /In_f [i ib ->]; have [_ -> _ _ _] := fP i ib.
- move=> it /In_f [i ib ->]; have [_ _ _ -> _] := fP i ib; rewrite ct // -map_comp.
  by congr flatten; apply: eq_map.
- rewrite -map_comp.
  have -> : [seq (@DiskSpec.contents F \o f) i | i <- iota 0 nb] = [seq [seq (b, get2 c b) | b <- s] | s <- [seq batch L i | i <- iota 0 nb]].
    by rewrite -map_comp; apply/eq_in_map => i; rewrite mem_iota => ib /=; apply: ct.
  by rewrite -map_flatten flatten_all_batches.
- by rewrite keysE flatten_all_batches.
Qed.
End Rows.
