(* C41, C42, C43: the block-projected influence attributor. *)
Set Warnings "-notation-overridden,-ambiguous-paths".
From mathcomp Require Import all_ssreflect all_algebra zify.
From Verif Require Import Py Dict Tensor TensorProof LinAlg MetaModel OffModel.
From Verif Require Import BlockModel BlockSpec BlockProof BlockProof2 BlockProof3 BlockProof4 BlockProof5 BlockProof6.
Set Implicit Arguments. Unset Strict Implicit. Unset Printing Implicit Defensive.
Import GRing.Theory Num.Theory Order.Theory.
Local Open Scope ring_scope.

Section Props.
Variables (F : fieldType) (Name X Y : Type) (names : seq Name) (ef : bool) (lam : option F).
Variables (tg : seq X -> res (seq (gr F))) (eg : seq Y -> res (seq (gr F))).
Variables (ds : seq nat) (g : nat -> X -> seq F) (h : nat -> Y -> seq F) (dir : dirst Name).
Hypothesis hn : size names = size ds.
Hypothesis s0 : (0 < sumn ds)%N.
Hypothesis Hg : hooks_give ds g tg.
Hypothesis Hh : hooks_give ds h eg.
Hypothesis nometa : d_meta dir = None.
Notation d l := (nth 0%N ds l).
Notation A0 := (new_att F names dir).
Notation run := (run names ef lam tg eg).
Notation lamv := (lam_of lam).

(* The table of scores over the samples of two loaders. *)
Definition the_scores (L : loader X) (Le : loader Y) : seq (seq F) :=
  table (samples L) (samples Le) (score ds ef lamv g (samples L) h).
Definition the_self (L : loader X) : seq F :=
  [seq score ds ef lamv g (samples L) g x x | x <- samples L].
Definition invertible (L : loader X) : Prop :=
  ef -> forall l, (l < size ds)%N -> (0 < d l)%N -> damped ds lamv g (samples L) l \in unitmx.

(* C42: exactly what every legal history of calls returns. *)
Theorem C42_history os : legal ds ef lamv g h os ([::], None) ->
  run os A0 = [seq Ok x | x <- answers ds ef lamv g h os ([::], None)].
Proof. by move=> lg; apply: (run_ok hn s0 Hg Hh) lg; left; split=> //; exists dir. Qed.

(* C41: after one cache, every attribute and compute_self_attribution call returns the scores of the
   cached samples, whatever training loader it gets and whatever was called in between. *)
Definition reading (o : op X Y) : Prop :=
  match o with OCache _ => False | OAttr _ L2 => (0 < ld_bs L2)%N && (0 < nbatches L2)%N | OSelf => True end.
Definition reads (L : loader X) (o : op X Y) : ans F :=
  match o with OCache _ => ADone | OAttr _ L2 => ATable (the_scores L L2) | OSelf => AVec (the_self L) end.
Fixpoint all_reading os : Prop := if os is o :: os' then reading o /\ all_reading os' else True.
Lemma zip_same (T : Type) (s : seq T) : zip s s = [seq (x, x) | x <- s].
Proof. by elim: s => //= x s ->. Qed.
Lemma reads_answers (L : loader X) (I : option (seq (seq X))) os : (0 < ld_bs L)%N -> (0 < nbatches L)%N ->
  I = None \/ I = Some (batches L) -> all_reading os ->
  legal ds ef lamv g h os (batches L, I) /\ answers ds ef lamv g h os (batches L, I) = map (reads L) os.
Proof.
move=> b0 n0; have fs := flatten_samples b0.
have ne : batches L <> [::] by move=> e; have := size_batches L; rewrite e /=; lia.
elim: os I => [|o os IH] I hI //= [ro ros].
have uI : used (batches L, I) = batches L by case: hI => ->.
have fE L1 : first ef L1 (batches L, I) = (batches L, I) by rewrite /first /=; case: (batches L) ne.
have [lg an] := IH (Some (batches L)) (or_intror erefl) ros.
case: o ro => [//|L1 L2|_] /=; rewrite ?fE uI; last first.
  by rewrite an fs zip_same -map_comp; split=> //; split.
by case/andP=> b2 n2; rewrite an fs; split=> //; split=> //; split.
Qed.
Theorem C41_cache_then_reads (L : loader X) os : (0 < ld_bs L)%N -> (0 < nbatches L)%N -> invertible L ->
  all_reading os -> run (OCache Y L :: os) A0 = Ok ADone :: [seq Ok (reads L o) | o <- os].
Proof.
move=> b0 n0 U ros; rewrite C42_history /=.
  rewrite /recache /= over_nil.
  have [|_ ->] := @reads_answers L (if ef then Some (batches L) else None) os b0 n0 _ ros.
    by case: (ef); [right|left].
  by rewrite -map_comp.
split; last first.
  rewrite /recache /= over_nil.
  by have [|] := @reads_answers L (if ef then Some (batches L) else None) os b0 n0 _ ros; first by case: (ef); [right|left].
split=> //=; first by move=> e; move: n0; rewrite -e.
by move=> hef; rewrite over_nil flatten_samples //; exact: U.
Qed.
Theorem C41_attribute_without_cache (L : loader X) (Le : loader Y) os : (0 < ld_bs L)%N -> (0 < nbatches L)%N ->
  (0 < ld_bs Le)%N -> (0 < nbatches Le)%N -> invertible L -> all_reading os ->
  run (OAttr L Le :: os) A0 = Ok (ATable (the_scores L Le)) :: [seq Ok (reads L o) | o <- os].
Proof.
move=> b0 n0 b2 n2 U ros.
have uE : used (first ef L ([::], None)) = batches L by rewrite /first /used /recache /=; case: (ef); rewrite /= over_nil.
have fE : (first ef L ([::], None)).1 = batches L by rewrite /first /recache /= over_nil.
have [lg an] := @reads_answers L (Some (batches L)) os b0 n0 (or_intror erefl) ros.
rewrite C42_history /= uE /= over_nil.
  by rewrite flatten_samples // an -map_comp.
split=> //; split=> // _; split=> //=; first by move=> e; move: n0; rewrite -e.
by move=> hef; rewrite over_nil flatten_samples //; exact: U.
Qed.
(* the batch size does not matter *)
Theorem C41_batch_size_free (L1 L2 : loader X) (M1 M2 : loader Y) (Lt1 Lt2 : loader X) :
  ld_data L1 = ld_data L2 -> ld_data M1 = ld_data M2 ->
  [/\ ld_drop L1 = false, ld_drop L2 = false, ld_drop M1 = false & ld_drop M2 = false] ->
  [/\ (0 < ld_bs L1)%N, (0 < ld_bs L2)%N, (0 < ld_bs M1)%N & (0 < ld_bs M2)%N] ->
  (0 < size (ld_data L1))%N -> (0 < size (ld_data M1))%N -> invertible L1 ->
  run [:: OCache Y L1; OAttr Lt1 M1] A0 = run [:: OCache Y L2; OAttr Lt2 M2] A0.
Proof.
move=> eL eM [d1 d2 d3 d4] [b1 b2 b3 b4] p1 p2 U.
have nb (Z : Type) (L : loader Z) : ld_drop L = false -> (0 < ld_bs L)%N -> (0 < size (ld_data L))%N -> (0 < nbatches L)%N.
  by move=> dr b p; rewrite /nbatches dr divn_gt0 //; lia.
have sm (Z : Type) (L : loader Z) : ld_drop L = false -> samples L = ld_data L.
  by move=> dr; rewrite /samples /covered dr take_size.
have eS : samples L1 = samples L2 by rewrite !sm.
have eT : samples M1 = samples M2 by rewrite !sm.
have n1 := nb _ _ d1 b1 p1; have n2 : (0 < nbatches L2)%N by apply: nb; rewrite -?eL.
have n3 := nb _ _ d3 b3 p2; have n4 : (0 < nbatches M2)%N by apply: nb; rewrite -?eM.
have U2 : invertible L2 by rewrite /invertible -eS.
rewrite (C41_cache_then_reads b1 n1 U); last by rewrite /= b3 n3.
rewrite (C41_cache_then_reads b2 n2 U2); last by rewrite /= b4 n4.
by rewrite /= /the_scores eS eT.
Qed.

(* C42: the Identity preconditioner keeps the gradients of the first data set *)
Theorem C42_identity_keeps_first (L L' Lt Lt' : loader X) (Le Le' : loader Y) : ef = false ->
  (0 < ld_bs L)%N -> (0 < nbatches L)%N -> (0 < ld_bs L')%N -> shape (batches L') = shape (batches L) ->
  (0 < ld_bs Le)%N -> (0 < nbatches Le)%N -> (0 < ld_bs Le')%N -> (0 < nbatches Le')%N ->
  run [:: OCache Y L; OAttr Lt Le; OCache Y L'; OAttr Lt' Le'] A0 =
  [:: Ok ADone; Ok (ATable (the_scores L Le)); Ok ADone; Ok (ATable (the_scores L Le'))].
Proof.
move=> ne b0 n0 b0' sh b1 n1 b2 n2.
have nn : nbatches L' = nbatches L by rewrite -!size_batches -!(size_map size) -!/(shape _) sh.
have ov : over (batches L) L' = batches L' by rewrite /over drop_oversize ?cats0 // size_batches nn.
have fE (K : loader X) J L1 : (0 < nbatches K)%N -> first ef L1 (batches K, J) = (batches K, J).
  by rewrite -size_batches /first /=; case: (batches K).
have n0' : (0 < nbatches L')%N by rewrite nn.
rewrite C42_history /= /recache /= ne over_nil -?ne.
  by rewrite !(fE L) //= ov fE // /used /= flatten_samples.
rewrite !(fE L) //= ov fE //; split; last split; last split.
- by split=> //=; rewrite ?ne // => e; move: n0; rewrite -e.
- by split=> // e; move: n0; rewrite -size_batches e.
- by split=> //=; rewrite ?ne // sh.
- by split=> //; split=> // e; move: n0'; rewrite -size_batches e.
Qed.
(* C42: with eFIM the batches of the first data set that the second one does not overwrite stay *)
Theorem C42_efim_leftover (L L' Lt : loader X) (Le : loader Y) : ef ->
  (0 < ld_bs L)%N -> (0 < nbatches L')%N -> (0 < ld_bs L')%N -> (nbatches L' < nbatches L)%N ->
  let xs := samples L' ++ drop (nbatches L' * ld_bs L)%N (samples L) in
  invertible L -> (forall l, (l < size ds)%N -> (0 < d l)%N -> damped ds lamv g xs l \in unitmx) ->
  (0 < ld_bs Le)%N -> (0 < nbatches Le)%N ->
  run [:: OCache Y L; OCache Y L'; OAttr Lt Le] A0 =
  [:: Ok ADone; Ok ADone; Ok (ATable (table xs (samples Le) (score ds true lamv g xs h)))].
Proof.
move=> hef b0 n0' b0' lt xs U U' b1 n1.
have fl : flatten (over (batches L) L') = xs.
  rewrite /over flatten_cat flatten_samples // /xs; congr cat.
  rewrite -(flatten_samples b0) -[in RHS](cat_take_drop (nbatches L') (batches L)) flatten_cat.
  rewrite drop_size_cat // size_flatten /shape.
  have -> : map size (take (nbatches L') (batches L)) = nseq (nbatches L') (ld_bs L).
    apply: (@eq_from_nth _ 0%N); first by rewrite size_map size_nseq size_take size_batches lt.
    move=> i; rewrite size_map size_take size_batches lt => ilt.
    rewrite (nth_map [::]) ?size_take ?size_batches ?lt // nth_take // nth_nseq ilt nth_batches; last by lia.
    have /= := @nbatches_st _ L b0 i.+1; rewrite (size_batch b0) /ed /st /=.
    move=> /(_ ltac:(lia)) /andP [q1 q2].
    have q3 : (i.+1 * ld_bs L <= size (ld_data L))%N by apply: ltnW (leq_trans q1 q2).
    by rewrite (minn_idPl q3) mulSn addnK.
  by rewrite sumn_nseq mulnC.
have hE : ef = true by [].
have oE J L1 : first ef L1 (over (batches L) L', J) = (over (batches L) L', J).
  by have : (0 < size (over (batches L) L'))%N; [rewrite size_over leq_max n0'|rewrite /first /=; case: (over _ _)].
rewrite C42_history /= /recache /= hE over_nil -?hE.
  by rewrite !oE /used /= fl.
rewrite oE; split; last split; last split=> //.
- split=> //=; [lia|by move=> e; move: lt; rewrite -e|].
  by move=> _; rewrite over_nil flatten_samples //; exact: U.
- split=> //=; first by rewrite size_batches; move: lt; clear; lia.
  by move=> _; rewrite fl.
- split=> //= e; have : (0 < size (over (batches L) L'))%N by rewrite size_over leq_max n0'.
  by rewrite e.
Qed.

(* ---- no samples *)
(* with an empty test loader attribute returns zeros, sized by the training loader of that call *)
Theorem C41_no_test_batch (L Lt : loader X) (Le : loader Y) : (0 < ld_bs L)%N -> (0 < nbatches L)%N -> invertible L ->
  nbatches Le = 0%N ->
  run [:: OCache Y L; OAttr Lt Le] A0 =
  [:: Ok ADone; Ok (ATable (nseq (size (ld_data Lt)) (nseq (size (ld_data Le)) 0)))].
Proof.
move=> b0 n0 U n2.
have IV : inv names ef lam ds g A0 ([::], None) by left; split=> //; exists dir.
have al : cacheable ds ef lamv g L ([::], None).
  split=> //=; first by move=> e; move: n0; rewrite -e.
  by move=> hef; rewrite over_nil flatten_samples //; exact: U.
have [a1 [e1 [iv1 E1]]] := inv_cache hn s0 Hg IV al.
have [|B1 _ R1] := used_ready iv1 E1; first by rewrite /recache /= /used; case: (ef).
rewrite /= e1 /=; congr [:: _; _]; rewrite /attribute (b_full B1) /sbind; cbv iota beta zeta; rewrite (reloadE B1) //.
have [m mE ->] := syncE B1; have R2 := ready_meta R1 mE; have [B2 _ _] := R2.
rewrite /setup_comp (b_comp B2); cbv iota beta zeta.
have [a' [-> B' D' p']] := ensure_ifvp hn s0 Hg R2 E1.
by rewrite /compute_test /enum_batches n2.
Qed.
(* an empty training loader makes cache fail *)
Theorem C41_empty_training_loader (L : loader X) : nbatches L = 0%N -> run [:: OCache Y L] A0 = [:: Err StopIteration].
Proof. by move=> n0; rewrite /= /cache /setup_comp /= /enum_batches n0. Qed.

(* self-attribution before anything was cached is a ValueError *)
Theorem C41_self_before_cache : run [:: OSelf] A0 = [:: Err ValueError].
Proof.
have E : sync (reload A0) = A0 by rewrite /new_att /open_manager /load nometa /reload /= /load nometa.
by rewrite /BlockModel.run /BlockModel.step /self_attribution E [has_ifvp _]/= /compute_ifvp E.
Qed.

(* ---- C43: singular layers *)
Definition first_singular (xs : seq X) (l0 : nat) : Prop :=
  [/\ (l0 < size ds)%N, (0 < d l0)%N, damped ds lamv g xs l0 \notin unitmx &
      forall l, (l < l0)%N -> (0 < d l)%N -> damped ds lamv g xs l \in unitmx].
Lemma singular_cache (L : loader X) l0 : ef -> (0 < ld_bs L)%N -> (0 < nbatches L)%N -> first_singular (samples L) l0 ->
  exists a, [/\ cache names ef lam tg L A0 = (a, Err RuntimeError), base ds g a (batches L), o_ifvp (a_off a) = [::] &
    forall l, (l < size ds)%N -> retrieve_prec l (a_off a) =
      if (l < l0)%N && (0 < d l)%N then Some (rows_of (invmx (damped ds lamv g (samples L) l))) else None].
Proof.
move=> hef b0 n0 [ln d0 U0 U].
have [|a1 [B1 i1 p1 ->]] := cache_head ef lam hn s0 Hg (start_fresh names ds g nometa) b0 n0.
  by move=> e; move: n0; rewrite -e.
rewrite hef over_nil in B1 *.
have E0 : (0 < size (batches L))%N by rewrite size_batches.
have := @prec_run _ _ _ names ef lam ds g hn s0 a1 _ B1 E0 hef; rewrite flatten_samples //=.
have V0 : (0 < size [seq fl ds g x | x <- samples L])%N by rewrite size_map (samples_pos hn s0 b0 n0).
have sg := Hg.1.
have U' : forall l, (l < l0)%N -> (0 < d l)%N -> dmp ds lamv l [seq fl ds g x | x <- samples L] \in unitmx.
  by move=> l ll dl; rewrite (dmp_fl _ _ sg) ?U //; apply: ltn_trans ll ln.
rewrite (prec_calls_first V0 ln d0 _ U') /=; last by rewrite (dmp_fl _ _ sg).
case; first by rewrite -map_comp map_id filter_uniq // iota_uniq.
move=> a2 [e2 B2 i2 p2]; rewrite hef in e2; exists a2; split=> //.
- by rewrite e2.
- by rewrite i2 i1.
move=> l ll; rewrite p2 // dget_pairs mem_filter mem_iota /= add0n andbC.
case: ifP => // c; first by rewrite /prec_of (dmp_fl _ _ sg).
by rewrite /retrieve_prec p1 /= size_nseq hn leqNgt ll /= nth_nseq; case: ifP.
Qed.
(* the first layer (in order) whose damped matrix is singular makes cache fail; a later attribute call
   then returns scores all the same, computed without that layer and without all later ones *)
Definition partial_score (xs : seq X) (l0 : nat) : X -> Y -> F :=
  bilinear (ds := ds) (fun l => if (l < l0)%N then invmx (damped ds lamv g xs l) else 0) g h.
Theorem C43_failed_cache_then_attribute (L Lt : loader X) (Le : loader Y) l0 : ef -> (0 < ld_bs L)%N -> (0 < nbatches L)%N ->
  first_singular (samples L) l0 -> (0 < ld_bs Le)%N -> (0 < nbatches Le)%N ->
  run [:: OCache Y L; OAttr Lt Le] A0 =
  [:: Err RuntimeError; Ok (ATable (table (samples L) (samples Le) (partial_score (samples L) l0)))].
Proof.
move=> hef b0 n0 fs b2 n2; have [a [e B i0 pr]] := singular_cache hef b0 n0 fs.
have E0 : (0 < size (batches L))%N by rewrite size_batches.
rewrite /= e /=; pose M l : 'M[F]_(d l) := if (l < l0)%N then invmx (damped ds lamv g (samples L) l) else 0.
have R : ready ef g M a (batches L) (batches L).
  split=> //; left; split=> //; split=> //; rewrite /precs_ok hef => l ll; rewrite pr // /M.
  case: (ltnP l l0) => ll0 /=; last by right.
  case: ltnP => dl /=; first by left.
  by right; split=> //; apply: mx_empty; apply/eqP; rewrite -leqn0.
by have [a' [-> _ _ _]] := attribute_ok lam hn s0 Hg Hh Lt R E0 b2 n2; rewrite flatten_samples.
Qed.
(* in particular when all gradients of some layer vanish: the damping is relative to the trace *)
Theorem C43_all_zero_gradients_fail (L : loader X) l : ef -> (0 < ld_bs L)%N -> (0 < nbatches L)%N ->
  (l < size ds)%N -> (0 < d l)%N -> (forall x, List.In x (samples L) -> rv (d l) (g l x) = 0) ->
  run [:: OCache Y L] A0 = [:: Err RuntimeError].
Proof.
move=> hef b0 n0 ll dl z.
have sing : damped ds lamv g (samples L) l \notin unitmx.
  have -> : damped ds lamv g (samples L) l = 0.
    have e0 : efim ds g (samples L) l = 0.
      rewrite /efim; move: z; elim: (samples L) (X in X^-1) => [|x xs IH] k z; first by rewrite big_nil scaler0.
      rewrite big_cons (z x); last by left.
      by rewrite mulmx0 add0r; apply: IH => y hy; apply: z; right.
    by rewrite /damped e0 mxtrace0 mulr0 mul0r add0r -scalemx1 scale0r.
  rewrite unitmxE; apply/negP => /unitrP [y [_]]; case: (d l) dl => // k _; rewrite det0 mul0r => /esym /eqP.
  by rewrite oner_eq0.
pose P k := [&& (k < size ds)%N, (0 < d k)%N & damped ds lamv g (samples L) k \notin unitmx].
have exP : exists k, P k by exists l; rewrite /P ll dl sing.
case: (ex_minnP exP) => l0 /and3P [p1 p2 p3] mn.
have fs : first_singular (samples L) l0.
  split=> // k kl dk; case: (boolP (_ \in unitmx)) => // nu; exfalso.
  have := mn k; rewrite /P dk nu (ltn_trans kl p1) /= => /(_ isT); move: kl; clear; lia.
by have [a [e _ _ _]] := singular_cache hef b0 n0 fs; rewrite /= e.
Qed.
End Props.

(* ---- C43: positive damping *)
Section Spd.
Variables (R : realFieldType) (X : Type) (ds : seq nat) (g : nat -> X -> seq R) (lam : R) (xs : seq X) (l : nat).
Notation d l := (nth 0%N ds l).
Notation r x := (rv (d l) (g l x)).
Lemma efim_quad (v : 'rV[R]_(d l)) :
  (v *m efim ds g xs l *m v^T) 0 0 = (size xs)%:R^-1 * \sum_(x <- xs) ((v *m (r x)^T) 0 0) ^+ 2.
Proof.
rewrite /efim -scalemxAr -scalemxAl mxE; congr (_ * _).
elim: xs => [|x s IH]; first by rewrite !big_nil mulmx0 mul0mx mxE.
rewrite !big_cons mulmxDr mulmxDl mxE IH; congr (_ + _).
have -> : v *m ((r x)^T *m r x) *m v^T = (v *m (r x)^T) *m (v *m (r x)^T)^T by rewrite trmx_mul trmxK !mulmxA.
by rewrite mxE big_ord1 [X in _ * X]mxE expr2.
Qed.
Lemma efim_tr : \tr (efim ds g xs l) = (size xs)%:R^-1 * \sum_(x <- xs) (r x *m (r x)^T) 0 0.
Proof.
rewrite /efim mxtraceZ; congr (_ * _).
elim: xs => [|x s IH]; first by rewrite !big_nil mxtrace0.
by rewrite !big_cons mxtraceD IH mxtrace_mulC trace_mx11.
Qed.
(* the matrix inverted is symmetric and positive definite as soon as one gradient is not zero *)
Theorem C43_damped_matrix_spd x : 0 < lam -> List.In x xs -> r x != 0 ->
  [/\ (damped ds lam g xs l)^T = damped ds lam g xs l,
      forall v : 'rV_(d l), v != 0 -> 0 < (v *m damped ds lam g xs l *m v^T) 0 0 &
      invmx (damped ds lam g xs l) *m damped ds lam g xs l = 1%:M].
Proof.
move=> l0 hx nz.
have n0 : 0 < (size xs)%:R^-1 :> R by rewrite invr_gt0 ltr0n; case: (xs) hx.
have d0 : (0 < d l)%N.
  rewrite lt0n; apply: contra nz => /eqP e; apply/eqP/rowP => i; exfalso; case: i => i; by rewrite e.
have t0 : 0 < \tr (efim ds g xs l).
  rewrite efim_tr mulr_gt0 //; move: hx; elim: (xs) => //= y s IH [e|hx]; rewrite big_cons.
    rewrite e; apply: ltr_paddr; last exact: sqnorm_gt0.
    by apply: sumr_ge0 => z _; exact: sqnorm_ge0.
  by apply: ltr_paddl (IH hx); exact: sqnorm_ge0.
have pd (v : 'rV[R]_(d l)) : v != 0 -> 0 < (v *m damped ds lam g xs l *m v^T) 0 0.
  move=> v0; rewrite /damped mulmxDr mulmxDl mul_mx_scalar -scalemxAl.
  have q : 0 <= (v *m efim ds g xs l *m v^T) 0 0.
    rewrite efim_quad mulr_ge0 ?(ltW n0) //; apply: sumr_ge0 => z _; exact: sqr_ge0.
  have p : 0 < ((lam * \tr (efim ds g xs l) / (d l)%:R) *: (v *m v^T)) 0 0.
    by rewrite mxE mulr_gt0 ?sqnorm_gt0 // divr_gt0 ?ltr0n // mulr_gt0.
  by rewrite [X in _ < X]mxE; exact: ltr_paddl q p.
split=> //; last by rewrite mulVmx // posdef_unit.
rewrite /damped linearD /= tr_scalar_mx /efim linearZ /=; congr (_ *: _ + _).
by rewrite linear_sum /=; apply: eq_bigr => y _; rewrite trmx_mul trmxK.
Qed.
End Spd.

Section Cache.
Variables (R : realFieldType) (Name X Y : Type) (names : seq Name) (lam : option R).
Variables (tg : seq X -> res (seq (gr R))) (eg : seq Y -> res (seq (gr R))).
Variables (ds : seq nat) (g : nat -> X -> seq R) (h : nat -> Y -> seq R) (dir : dirst Name).
Notation d l := (nth 0%N ds l).
(* with a positive damping, or the default one, caching succeeds as soon as every layer has a sample with
   a non-zero gradient *)
Theorem C43_cache_succeeds (L : loader X) (Lt : loader X) (Le : loader Y) :
  size names = size ds -> (0 < sumn ds)%N -> hooks_give ds g tg -> hooks_give ds h eg -> d_meta dir = None ->
  (forall x, lam = Some x -> 0 < x) -> (0 < ld_bs L)%N -> (0 < nbatches L)%N -> (0 < ld_bs Le)%N -> (0 < nbatches Le)%N ->
  (forall l, (l < size ds)%N -> (0 < d l)%N -> exists2 x, List.In x (samples L) & rv (d l) (g l x) != 0) ->
  run names true lam tg eg [:: OCache Y L; OAttr Lt Le] (new_att R names dir) =
  [:: Ok ADone; Ok (ATable (the_scores true lam ds g h L Le))].
Proof.
move=> hn s0 Hg Hh nm lp b0 n0 b2 n2 nz.
have l0 : 0 < lam_of lam.
  by case: (lam) lp => [x /(_ x erefl)|_] //=; rewrite invr_gt0 exprn_gt0 // ltr0n.
apply: (C41_cache_then_reads hn s0 Hg Hh nm b0 n0) => /=; last by rewrite b2 n2.
move=> _ l ll dl; have [x hx nzx] := nz l ll dl.
have [_ pd _] := C43_damped_matrix_spd l0 hx nzx; exact: posdef_unit.
Qed.
End Cache.

(* ---- concrete cases *)
Section Examples.
Let ds : seq nat := [:: 2; 1]%N.
Let names : seq nat := [:: 10; 11]%N.
Let g (l x : nat) : seq rat := if l == 0%N then [:: x%:R; 1] else [:: x%:R - 2%:R].
Let h (l y : nat) : seq rat := if l == 0%N then [:: 1; y%:R] else [:: y%:R].
Let ghk (u : nat -> nat -> seq rat) (b : seq nat) : res (seq (gr rat)) :=
  Ok (mkseq (fun l => G2 (T2 (nth 0%N ds l) [seq u l x | x <- b])) (size ds)).
Let dir0 : dirst nat := Dir None None.
Let L := Loader [:: 1; 2; 3]%N 2 false.
Let L' := Loader [:: 4; 5; 6]%N 2 false.
Let Le := Loader [:: 1; 5]%N 2 false.
Let hg : hooks_give ds g (ghk g).
Proof. by split=> [[|[|[]]] x|]. Qed.
Let hh : hooks_give ds h (ghk h).
Proof. by split=> [[|[|[]]] x|]. Qed.

Example C42_example : run names false None (ghk g) (ghk h) [:: OCache nat L; OAttr L' Le; OCache nat L'; OAttr L' Le]
    (new_att [fieldType of rat] names dir0) =
  [:: Ok ADone; Ok (ATable (the_scores false None ds g h L Le)); Ok ADone; Ok (ATable (the_scores false None ds g h L Le))].
Proof. by apply: (@C42_identity_keeps_first _ _ _ _ names false None (ghk g) (ghk h) ds g h dir0 erefl isT hg hh). Qed.
Example C42_example_value : the_scores false None ds g h L Le =
  [:: [:: 1; 1]; [:: 3%:R; 7%:R]; [:: 5%:R; 13%:R]].
Proof.
rewrite /the_scores /table /score /bilinear /= /samples /covered /=.
rewrite !big_ord_recl !big_ord0 /= !mulmx1.
rewrite !mxE /rv !big_ord_recl !big_ord0 !mxE /=.
by apply/eqP; vm_compute; reflexivity.
Qed.

(* eFIM: the hypotheses of C43_cache_succeeds, hence those of C41_cache_then_reads, hold *)
Example C43_example : run names true None (ghk g) (ghk h) [:: OCache nat L; OAttr L' Le] (new_att [fieldType of rat] names dir0) =
  [:: Ok ADone; Ok (ATable (the_scores true None ds g h L Le))].
Proof.
apply: C43_cache_succeeds => // -[|[|l]] // _ _; [exists 1%N|exists 1%N] => //=; try by left.
- by apply/eqP => /matrixP /(_ ord0 (Ordinal (isT : (1 < 2)%N))); rewrite !mxE /=; apply/eqP; vm_compute.
- by apply/eqP => /matrixP /(_ ord0 ord0); rewrite !mxE /=; apply/eqP; vm_compute.
Qed.
(* a layer whose gradients vanish on the training data: cache fails *)
Example C43_example_zero : run names true None (ghk g) (ghk h) [:: OCache nat (Loader [:: 2; 2]%N 1 false)] (new_att [fieldType of rat] names dir0) =
  [:: Err RuntimeError].
Proof.
apply: (@C43_all_zero_gradients_fail _ _ _ _ names true None _ (ghk h) ds g dir0 _ _ hg _ _ 1%N) => //= x.
case=> [<-|[<-|//]]; apply/matrixP => i j; rewrite !mxE /=; apply/eqP; case: j => -[|j] hj //; vm_compute; reflexivity.
Qed.
End Examples.

Print Assumptions C42_history.
Print Assumptions C41_cache_then_reads.
Print Assumptions C41_attribute_without_cache.
Print Assumptions C41_batch_size_free.
Print Assumptions C42_identity_keeps_first.
Print Assumptions C42_efim_leftover.
Print Assumptions C41_no_test_batch.
Print Assumptions C41_empty_training_loader.
Print Assumptions C41_self_before_cache.
Print Assumptions C43_failed_cache_then_attribute.
Print Assumptions C43_all_zero_gradients_fail.
Print Assumptions C43_damped_matrix_spd.
Print Assumptions C43_cache_succeeds.
