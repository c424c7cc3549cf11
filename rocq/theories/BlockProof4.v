(* The attributor with an in-memory store: state after any number of calls of cache. *)
Set Warnings "-notation-overridden,-ambiguous-paths".
From mathcomp Require Import all_ssreflect all_algebra zify.
From Verif Require Import Py Dict Tensor TensorProof MetaModel MetaSpec MetaProof.
From Verif Require Import OffModel OffSpec OffProof OffProof2 BlockModel BlockSpec BlockProof BlockProof2 BlockProof3.
From Verif Require DiskModel DiskSpec.
Set Implicit Arguments. Unset Strict Implicit. Unset Printing Implicit Defensive.
Import GRing.Theory.
Local Open Scope nat_scope.

Lemma size_batches (X : Type) (L : loader X) : size (batches L) = nbatches L.
Proof. by rewrite size_map size_iota. Qed.
Lemma nth_batches (X : Type) (L : loader X) b : b < nbatches L -> nth [::] (batches L) b = batch L b.
Proof. by move=> h; rewrite (nth_map 0) ?size_iota // nth_iota. Qed.
Lemma size_over (X : Type) E (L : loader X) : size (over E L) = maxn (nbatches L) (size E).
Proof. by rewrite size_cat size_batches size_drop; lia. Qed.
Lemma nth_over (X : Type) E (L : loader X) b :
  nth [::] (over E L) b = if b < nbatches L then batch L b else nth [::] E b.
Proof.
rewrite nth_cat size_batches; case: ltnP => h; first by rewrite nth_batches.
by rewrite nth_drop subnKC.
Qed.
Lemma over_nil (X : Type) (L : loader X) : over [::] L = batches L.
Proof. by rewrite /over cats0. Qed.
Lemma flatten_samples (X : Type) (L : loader X) : 0 < ld_bs L -> flatten (batches L) = samples L.
Proof.
case: L => s bs dr /= b0; rewrite /batches flatten_batches /samples -(upto_all (L := Loader s bs dr)) //= /upto /=.
move: (nbatches _ * bs) => k; rewrite /minn; case: ltnP => // h.
by rewrite take_size take_oversize.
Qed.

Section MetaB.
Variables (Name X : Type).
Implicit Types (m : mstate Name) (E : seq (seq X)).
Definition metaE m E : Prop :=
  [/\ forall b, range_of m b = if b < size E
        then Some (sumn (take b (shape E)), sumn (take b (shape E)) + size (nth [::] E b)) else None,
      m_total m = size (flatten E), m_pend m = [::] & dkeys (m_info m) = iota 0 (size E)].
Lemma shape_nth E b : nth 0 (shape E) b = size (nth [::] E b).
Proof. by case: (ltnP b (size E)) => h; [rewrite (nth_map [::])|rewrite !nth_default ?size_map]. Qed.
Lemma metaE_shape m E E' : shape E = shape E' -> metaE m E -> metaE m E'.
Proof.
move=> es [R t p k]; have sz : size E = size E' by rewrite -(size_map size) -/(shape E) es size_map.
split=> //; last by rewrite -sz.
- by move=> b; rewrite R sz -!shape_nth es.
- by rewrite t !size_flatten es.
Qed.
Lemma metaE_fresh names : metaE (fresh names) [::].
Proof. by split. Qed.
Lemma metaE_wf m E : metaE m E -> wf m.
Proof. by case=> _ _ p k; rewrite /wf p k iota_uniq. Qed.
Lemma metaE_count m E b : metaE m E -> count_of m b = if b < size E then Some (size (nth [::] E b)) else None.
Proof.
case=> R _ p _; have := R b; rewrite /range_of /count_of p /=.
case: (dget (m_info m) b) => [i|] /=; case: ifP => // _ [e1 e2].
by congr Some; lia.
Qed.
Lemma metaE_save s E dir : wf s -> skeys s = iota 0 (size E) ->
  (forall b, b < size E -> cnt_of s b = size (nth [::] E b)) -> metaE (save s dir).1 E.
Proof.
move=> w ks cb; have mE : map (cnt_of s) (skeys s) = shape E.
  rewrite ks; apply: (@eq_from_nth _ 0); first by rewrite !size_map size_iota.
  by move=> b; rewrite size_map size_iota => h; rewrite (nth_map 0) ?size_iota // nth_iota // cb // shape_nth.
have ix b : b < size E -> index b (iota 0 (size E)) = b.
  by move=> lt; rewrite -{1}[b]add0n -(nth_iota 0 0 lt) index_uniq ?size_iota ?iota_uniq.
split.
- move=> b; rewrite save_range // {1}ks mem_iota add0n leq0n /=; case: ifP => // lt.
  rewrite /MetaProof.off mE ks ix // (take_nth 0) ?size_map // -cats1 sumn_cat /= addn0 shape_nth //.
- by rewrite saveE //= mE size_flatten.
- by rewrite saveE.
- by rewrite saveE //= walk_keys ks ?iota_uniq.
Qed.
Lemma metaE_flush m E : metaE m E -> flush m = m.
Proof. by case=> _ _ p _; rewrite /flush p; case: m p => ? ? ? ? ? ? /= ->. Qed.
Lemma metaE_resave m E dir : metaE m E -> metaE (save m dir).1 E.
Proof.
move=> H; have w := metaE_wf H; have f := metaE_flush H; case: (H) => R _ p k.
apply: metaE_save => //.
  by rewrite /skeys f k (sorted_sort leq_trans) //; exact: iota_sorted.
by move=> b lt; rewrite /cnt_of (metaE_count _ H) lt.
Qed.
Lemma metaE_dims m E dims : metaE m E -> metaE (set_layer_dims dims m) E.
Proof. by []. Qed.
Lemma metaE_init m E (L : loader X) dir : 0 < ld_bs L -> metaE m E ->
  (size E = nbatches L -> shape E = shape (batches L)) ->
  let r := initialize (of_loader L) m dir in r.2 = Ok tt /\ metaE r.1.1 (over E L).
Proof.
move=> bs0 H cmp; have w := metaE_wf H; case: (H) => R _ p k.
have sz : size (m_info m) = size E by rewrite -(size_map fst) -[map _ _]/(dkeys _) k size_iota.
case: (boolP (size (m_info m) == ml_nb (of_loader L))) => [e|ne].
  rewrite /initialize e; split=> //; apply: (metaE_shape _ H).
  have e' : size E = nbatches L by rewrite -sz; apply/eqP.
  by rewrite /over drop_oversize ?cats0 ?e' // cmp.
have e : ml_bs (of_loader L) = Some (ld_bs L) by [].
rewrite (initializeE dir e ne) /=; set s := init_state _ _ _; split=> //.
have ws : wf s by apply: wf_init_state.
have cE b : count_of s b = if b < size (over E L) then Some (size (nth [::] (over E L) b)) else None.
  rewrite /s init_count // p /= size_over nth_over leq_max.
  case: (ltnP b (nbatches L)) => lt /=; first by rewrite batch_count_loader.
  by have := metaE_count b H; rewrite /count_of p.
apply: metaE_save => //; last by move=> b lt; rewrite /cnt_of cE lt.
apply: (sorted_eq leq_trans anti_leq (skeys_sorted s) (iota_sorted _ _)).
apply: uniq_perm; rewrite ?skeys_uniq ?iota_uniq // => b.
by rewrite skeys_mem // cE mem_iota add0n /=; case: ifP.
Qed.
Lemma mapping_get m E b : metaE m E ->
  dget (mapping m).2 b = if b < size E
    then Some (sumn (take b (shape E)), sumn (take b (shape E)) + size (nth [::] E b)) else None.
Proof.
move=> H; rewrite /mapping (metaE_flush H) /=; case: H => R _ _ _; rewrite -R /range_of.
by elim: (m_info m) => //= -[k i] d IH; rewrite !dget_cons; case: eqP.
Qed.
Lemma mapping1 m E : metaE m E -> (mapping m).1 = m.
Proof. by move=> H; rewrite /mapping (metaE_flush H). Qed.
End MetaB.

Section Placed.
Variables (F : fieldType) (ds : seq nat) (X Name : Type).
Variable u : nat -> X -> seq F.
Hypothesis su : forall l x, l < size ds -> size (u l x) = nth 0 ds l.
Implicit Types (E : seq (seq X)).
Definition stored_rows E : seq (nat * seq (seq F)) :=
  [seq (b, [seq fl ds u x | x <- nth [::] E b]) | b <- iota 0 (size E)].
(* a dictionary with exactly the batches of E *)
Definition dictE (c : dict nat_eqType (t2 F)) E : Prop := uniq (dkeys c) /\
  forall b, dget c b = if b < size E then Some (T2 (sumn ds) [seq fl ds u x | x <- nth [::] E b]) else None.
Lemma dictE_keys c E : dictE c E -> sort leq (dkeys c) = iota 0 (size E).
Proof.
case=> uc g; apply: (sorted_eq leq_trans anti_leq (sort_sorted leq_total _) (iota_sorted _ _)).
apply: uniq_perm; rewrite ?sort_uniq ?iota_uniq // => b.
rewrite mem_sort mem_iota add0n /= -/(dhas c b) dget_has g; by case: ifP.
Qed.
Lemma dictE_loader c E bs : 0 < bs -> dictE c E ->
  exists outs : seq (item F), [/\ mem_loader c None bs = [seq Ok it | it <- outs], holds ds outs (stored_rows E) &
    [seq dkeys it.2 | it <- outs] =
    [seq batch (Loader (iota 0 (size E)) bs false) i | i <- iota 0 (nbatches (Loader (iota 0 (size E)) bs false))]].
Proof.
move=> bs0 D; have kE := dictE_keys D; case: D => uc g.
have [|outs] := @mem_holds F ds c bs bs0 uc; first by move=> b t; rewrite g; case: ifP => // _ [<-].
rewrite kE => -[e h k]; exists outs; split=> //.
suff -> : stored_rows E = [seq (b, get2 c b) | b <- iota 0 (size E)] by [].
by apply/eq_in_map => b; rewrite mem_iota add0n => bE; rewrite /get2 g; move: bE => /= ->.
Qed.
Lemma placed_meta (m : mstate Name) E x0 : metaE m E ->
  placed (mapping m).2 (size (flatten E)) (fun i => fl ds u (nth x0 (flatten E) i)) (stored_rows E).
Proof.
move=> H; split.
  move=> b V /mapP [b']; rewrite mem_iota add0n /= => bE [-> ->] {b V}.
  exists (sumn (take b' (shape E))); rewrite (mapping_get _ H) bE size_map; split=> //.
    by rewrite size_flatten -shape_nth; have := congr1 sumn (cat_take_drop b' (shape E));
       rewrite sumn_cat (drop_nth 0) ?size_map //=; lia.
  move=> r rb; rewrite (nth_map x0) //; congr (fl ds u _).
  have rb' : r < nth 0 (shape E) b' by rewrite shape_nth.
  by rewrite nth_flatten -/(flatten_index _ _ _) flatten_indexKl // flatten_indexKr.
move=> i; rewrite size_flatten => it.
exists (reshape_index (shape E) i).
have ri : reshape_index (shape E) i < size E.
  by have := reshape_indexP it; rewrite size_map.
have ro := reshape_offsetP it.
exists (sumn (take (reshape_index (shape E) i) (shape E))),
  (sumn (take (reshape_index (shape E) i) (shape E)) + size (nth [::] E (reshape_index (shape E) i))).
split.
- by rewrite -map_comp; apply/mapP; exists (reshape_index (shape E) i); rewrite ?mem_iota.
- by rewrite (mapping_get _ H) ri.
have := reshape_indexK (shape E) i; rewrite /flatten_index => e.
by rewrite -shape_nth; move: ro e; lia.
Qed.
End Placed.
