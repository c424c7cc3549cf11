(* The attributor with an in-memory store: cache, compute_preconditioners, compute_ifvp, attribute and
   compute_self_attribution. *)
Set Warnings "-notation-overridden,-ambiguous-paths".
From mathcomp Require Import all_ssreflect all_algebra zify.
From Verif Require Import Py Dict Tensor TensorProof MetaModel MetaSpec MetaProof.
From Verif Require Import OffModel OffSpec OffProof OffProof2 BlockModel BlockSpec BlockProof BlockProof2 BlockProof3 BlockProof4.
From Verif Require DiskModel DiskSpec.
Set Implicit Arguments. Unset Strict Implicit. Unset Printing Implicit Defensive.
Import GRing.Theory.
Local Open Scope ring_scope.

Lemma size_flat (X : Type) (E : seq (seq X)) : (0 < size E)%N -> (forall b, (b < size E)%N -> (0 < size (nth [::] E b))%N) -> (0 < size (flatten E))%N.
Proof. by case: E => // b E _ /(_ 0%N isT) /=; rewrite size_cat; lia. Qed.

Section Att.
Variables (F : fieldType) (Name X Y : Type) (names : seq Name) (ef : bool) (lam : option F).
Variables (tg : seq X -> res (seq (gr F))) (eg : seq Y -> res (seq (gr F))).
Variables (ds : seq nat) (g : nat -> X -> seq F) (h : nat -> Y -> seq F).
Hypothesis hn : size names = size ds.
Hypothesis s0 : (0 < sumn ds)%N.
Hypothesis Hg : hooks_give ds g tg.
Hypothesis Hh : hooks_give ds h eg.
Notation d l := (nth 0%N ds l). Notation nl := (size ds).
Notation rows := (seq (seq F)). Notation att := (att F Name).
Implicit Types (a : att) (E : seq (seq X)).

Lemma sg l x : (l < nl)%N -> size (g l x) = d l. Proof. exact: Hg.1. Qed.
Lemma sh l x : (l < nl)%N -> size (h l x) = d l. Proof. exact: Hh.1. Qed.

Record base a E : Prop := Base {
  b_full : a_full a; b_comp : a_comp a; b_dims : a_dims a = Some ds; b_odims : o_dims (a_off a) = Some ds;
  b_grad : dictE ds g (o_grad (a_off a)) E;
  b_iu : uniq (dkeys (o_ifvp (a_off a))); b_in : forall b, (size E <= b)%N -> dget (o_ifvp (a_off a)) b = None;
  b_prec : size (o_prec (a_off a)) = nl; b_meta : metaE (a_meta a) E;
  b_pos : forall b, (b < size E)%N -> (0 < size (nth [::] E b))%N }.

Lemma base_meta a E m : base a E -> metaE m E -> base (with_meta m a) E.
Proof. by case=> *; split. Qed.
Lemma set_dims_id (o : off F rows) : o_dims o = Some ds -> set_dims (Some ds) o = o.
Proof. by case: o => /= a b c e f ->. Qed.
Lemma reloadE a E : base a E -> (0 < size E)%N -> reload a = a.
Proof.
move=> B E0; rewrite /reload; case: (b_meta B) => _ _ _ k; case: nilP => // e.
by move: k; rewrite e; case: (size E) E0.
Qed.
Lemma syncE a E : base a E -> exists2 m, metaE m E & sync a = with_meta m a.
Proof.
move=> B; rewrite /sync (b_dims B).
exists (if m_dims (a_meta a) is Some _ then a_meta a else set_layer_dims ds (a_meta a)).
  by case: (m_dims _) => *; exact: b_meta B.
by rewrite set_dims_id ?(b_odims B) // /with_meta (b_dims B).
Qed.

(* caching: the store and the metadata *)
Lemma loop_ok (L : loader X) j n a : (0 < ld_bs L)%N -> (j + n <= nbatches L)%N -> a_dims a = Some ds -> o_dims (a_off a) = Some ds ->
  uniq (dkeys (o_grad (a_off a))) ->
  exists o', [/\ cache_loop tg [seq (k, batch L k) | k <- iota j n] a = (with_off o' a, Ok tt),
    [/\ o_dims o' = Some ds, o_ifvp o' = o_ifvp (a_off a) & o_prec o' = o_prec (a_off a)],
    uniq (dkeys (o_grad o')) &
    forall b, dget (o_grad o') b = if (j <= b < j + n)%N then Some (T2 (sumn ds) [seq fl ds g x | x <- batch L b])
                                   else dget (o_grad (a_off a)) b].
Proof.
move=> bs0; elim: n j a => [|n IH] j a jn ad od ud.
  exists (a_off a); split=> //; first by case: (a) => *.
  by move=> b; rewrite addn0; case: ifP => //; lia.
have b0 : (0 < size (batch L j))%N.
  have := @nbatches_st _ L bs0 j; rewrite (size_batch bs0) => /(_ ltac:(lia)); lia.
have [_ hk] := Hg; rewrite /= hk // /set_first ad /sbind /= -/(grads_of ds g (batch L j)) store_grads //=; last exact: sg.
set a1 := with_off _ a.
have [||||o' [e1 [e2 e3 e4] e5 e6]] := IH j.+1 a1 => //; first lia.
  by rewrite /a1 /= uniq_dset.
exists o'; split=> // b; rewrite e6 /= dgetE addSnnS; case: (b =P j) => [->|ne].
  by rewrite ltnn /= leqnn /= -[X in if X then _ else _]/(j < j + n.+1)%N; case: ifP => //; lia.
by case: ifP; case: ifP => //; lia.
Qed.

Lemma set_first_ok b k a : (0 < size b)%N -> a_dims a = None -> dhas (m_info (a_meta a)) k ->
  set_first k (grads_of ds g b) a =
  (Att (a_full a) (a_comp a) (Some ds) (set_dims (Some ds) (a_off a)) (set_layer_dims ds (a_meta a)) (a_dir a), Ok tt).
Proof.
move=> b0 ad hk; rewrite /set_first ad hk /=.
have -> : detect (grads_of ds g b) = ds.
  apply: (@eq_from_nth _ 0%N); first by rewrite size_map size_mkseq.
  move=> l; rewrite size_map size_mkseq => ln; rewrite (nth_map GNone) ?size_mkseq // nth_mkseq //= /nrows /= size_map.
  by rewrite muln_gt0 b0 /=; case: ltnP => //; rewrite leqn0 => /eqP.
by rewrite /add_batch_info hk.
Qed.
Lemma cache_loop_first k b bs a : (0 < size b)%N -> a_dims a = None -> dhas (m_info (a_meta a)) k ->
  cache_loop tg ((k, b) :: bs) a =
  cache_loop tg ((k, b) :: bs)
   (Att (a_full a) (a_comp a) (Some ds) (set_dims (Some ds) (a_off a)) (set_layer_dims ds (a_meta a)) (a_dir a)).
Proof.
move=> b0 ad hk; have [_ hkk] := Hg; rewrite /= hkk // -/(grads_of ds g b).
by rewrite set_first_ok.
Qed.

(* a new attributor in a directory without metadata, or one that has cached E *)
Definition start a E : Prop :=
  (E = [::] /\ exists2 dir, d_meta dir = None & a = new_att F names dir) \/ base a E.
Lemma start_fresh dir : d_meta dir = None -> start (new_att F names dir) [::].
Proof. by move=> h0; left; split=> //; exists dir. Qed.

Lemma cache_head (L : loader X) a E : start a E -> (0 < ld_bs L)%N -> (0 < nbatches L)%N ->
  (size E = nbatches L -> shape E = shape (batches L)) ->
  exists a', [/\ base a' (over E L), o_ifvp (a_off a') = o_ifvp (a_off a), o_prec (a_off a') = o_prec (a_off a) &
    cache names ef lam tg L a =
    if ef then sbind (compute_preconditioners names ef lam a') (fun _ => compute_ifvp names ef) else (a', Ok tt)].
Proof.
move=> S bs0 nb0 cmp.
have mE : metaE (a_meta a) E.
  case: S => [[-> [dir dn ->]]|B]; last exact: b_meta B.
  by rewrite /new_att /= /open_manager /load dn; apply: metaE_fresh.
pose a0 := Att true (a_comp a) (a_dims a) (a_off a) (a_meta a) (a_dir a).
have nE : enum_batches L <> [::] by rewrite /enum_batches; case: (nbatches L) nb0.
have [ri mi] := metaE_init (a_dir a) bs0 mE cmp.
move: ri mi; set i := initialize _ _ _ => ri mi.
pose a1 := Att true true (a_dims a) (a_off a) i.1.1 i.1.2.
have -> : cache names ef lam tg L a =
    sbind (cache_loop tg (enum_batches L) a1) (fun _ a =>
    let a := save_meta a in
    if ef then sbind (compute_preconditioners names ef lam a) (fun _ => compute_ifvp names ef) else (a, Ok tt)).
  rewrite /cache /setup_comp /=; case: (a_comp a) => /=; last first.
    by case: (enum_batches L) nE => //= kb kbs _; rewrite -/i /sbind /= ri.
  by rewrite -/i /sbind /= ri.
have fin a2 : [/\ a_full a2, a_comp a2 & a_dims a2 = Some ds] -> o_dims (a_off a2) = Some ds ->
    metaE (a_meta a2) (over E L) -> dictE ds g (o_grad (a_off a2)) E ->
    uniq (dkeys (o_ifvp (a_off a2))) -> (forall b, (size E <= b)%N -> dget (o_ifvp (a_off a2)) b = None) ->
    size (o_prec (a_off a2)) = nl -> (forall b, (b < size E)%N -> (0 < size (nth [::] E b))%N) ->
    exists a', [/\ base a' (over E L), o_ifvp (a_off a') = o_ifvp (a_off a2), o_prec (a_off a') = o_prec (a_off a2) &
      sbind (cache_loop tg (enum_batches L) a2) (fun _ a =>
      let a := save_meta a in
      if ef then sbind (compute_preconditioners names ef lam a) (fun _ => compute_ifvp names ef) else (a, Ok tt)) =
      if ef then sbind (compute_preconditioners names ef lam a') (fun _ => compute_ifvp names ef) else (a', Ok tt)].
  move=> [f2 c2 d2] od2 m2 [ug gg] ui gi sp pos.
  have [o' [e1 [e2 e3 e4] e5 e6]] := @loop_ok L 0 (nbatches L) a2 bs0 (leqnn _) d2 od2 ug.
  rewrite /enum_batches e1 /sbind /=; exists (save_meta (with_off o' a2)).
  have m3 := metaE_resave (a_dir a2) m2.
  split; rewrite //= ?e3 ?e4 //; split=> //=; rewrite ?e3 ?e4 //.
  - split=> // b; rewrite e6 add0n size_over nth_over leq_max /=.
    by case: ifP => //= _; rewrite gg; case: ifP.
  - by move=> b; rewrite size_over geq_max => /andP [_ /gi].
  - move=> b; rewrite size_over nth_over leq_max; case: ltnP => /= [lt _|_ /pos //].
    by have := @nbatches_st _ L bs0 b lt; rewrite (size_batch bs0); lia.
case: S => [[E0 [dir dn ea]]|B]; last first.
  have F1 : [/\ a_full a1, a_comp a1 & a_dims a1 = Some ds] by split=> //; exact: b_dims B.
  exact: (fin a1 F1 (b_odims B) mi (b_grad B) (b_iu B) (b_in B) (b_prec B) (b_pos B)).
subst E; have ad : a_dims a1 = None by rewrite /a1 ea.
have hk : dhas (m_info (a_meta a1)) 0%N.
  have [_ _ _ k] := mi; rewrite /dhas -/(dkeys _) /a1 /= k over_nil size_batches mem_iota /=; lia.
have b0 : (0 < size (batch L 0))%N by have := @nbatches_st _ L bs0 0%N nb0; rewrite (size_batch bs0); lia.
have en : enum_batches L = (0%N, batch L 0) :: [seq (k, batch L k) | k <- iota 1 (nbatches L).-1].
  by rewrite /enum_batches; case: (nbatches L) nb0.
rewrite {1}en cache_loop_first // -en.
set a2 := Att _ _ _ _ _ _.
have offa : a_off a2 = set_dims (Some ds) (a_off (new_att F names dir)) by rewrite /a2 /a1 /= ea.
have [||||||||a' [B' i' p' eq]] := fin a2; rewrite ?offa //=.
- by rewrite size_nseq hn.
by exists a'; split=> //; rewrite ?i' ?p' ?offa ea.
Qed.

(* preconditioners *)
Lemma flat_stored E : flatten [seq e.2 | e <- stored_rows ds g E] = [seq fl ds g x | x <- flatten E].
Proof.
rewrite /stored_rows -map_comp map_flatten; congr flatten.
rewrite -[X in _ = map _ X](mkseq_nth [::]) /mkseq -map_comp; exact: eq_map.
Qed.
Lemma prec_fold (cs : seq (nat * rows)) (o : off F rows) l : uniq [seq c.1 | c <- cs] -> size (o_prec o) = nl -> (l < nl)%N ->
  let o' := foldl (fun o lp => store_prec lp.1 (Some lp.2) o) o cs in
  [/\ size (o_prec o') = nl, o_dims o' = o_dims o, o_grad o' = o_grad o, o_ifvp o' = o_ifvp o &
  nth None (o_prec o') l = if dget cs l is Some P then Some P else nth None (o_prec o) l].
Proof.
elim: cs o => [|[k P] cs IH] o //= /andP [nk u] sp ln.
have sp' : size (o_prec (store_prec k (Some P) o)) = nl.
  by rewrite /store_prec /=; case: ifP => // kb; rewrite size_set_nth -sp; apply/maxn_idPr.
have [r1 r2 r3 r4 ->] := IH (store_prec k (Some P) o) u sp' ln; split=> //.
rewrite dget_cons; case: (k =P l) => [e|ne].
  have -> : dget cs l = None.
    have : dhas cs l = false by rewrite -e; apply/negbTE.
    by rewrite dget_has; case: (dget cs l).
  by rewrite /store_prec /= sp e ln nth_set_nth /= eqxx.
case: (dget cs l) => //; rewrite /store_prec /=; case: ifP => // _.
by rewrite nth_set_nth /= eq_sym; case: eqP ne => // ->.
Qed.
Lemma dget_pairs (f : nat -> rows) (s : seq nat) l : dget [seq (k, f k) | k <- s] l = if l \in s then Some (f l) else None.
Proof.
elim: s => //= k s IH; rewrite dget_cons IH inE; case: eqP => [->|ne]; first by rewrite eqxx.
by rewrite [l == k]eq_sym; case: eqP ne.
Qed.
Lemma retrieveE l (o : off F rows) : size (o_prec o) = nl -> (l < nl)%N -> retrieve_prec l o = nth None (o_prec o) l.
Proof. by move=> sp ln; rewrite /retrieve_prec sp leqNgt ln. Qed.

Lemma prec_run a E : base a E -> (0 < size E)%N -> ef ->
  let c := prec_calls lam (accs_of ds [seq fl ds g x | x <- flatten E]) in
  uniq [seq x.1 | x <- c.1] ->
  exists a', [/\ compute_preconditioners names ef lam a = (a', c.2), base a' E,
    o_ifvp (a_off a') = o_ifvp (a_off a) &
    forall l, (l < nl)%N -> retrieve_prec l (a_off a') = if dget c.1 l is Some P then Some P else retrieve_prec l (a_off a)].
Proof.
move=> B E0 hef c uc; rewrite /compute_preconditioners (reloadE B) //.
have [m mE ->] := syncE B; set a1 := with_meta m a; have B1 : base a1 E by apply: base_meta.
rewrite (b_dims B1) hef hn.
have [outs [eo ho _]] := dictE_loader (isT : (0 < 4)%N) (b_grad B1).
rewrite /loader_of /= eo (holds_accumulate ho) flat_stored -/c.
eexists; split; [reflexivity| |..].
- have l0 : (0 < nl)%N by case: (ds) s0.
  have [q1 q2 q3 q4 _] := prec_fold uc (b_prec B1) l0.
  case: B1 => *; split=> //=; rewrite ?q2 ?q3 ?q4 //.
- have l0 : (0 < nl)%N by case: (ds) s0.
  by have [_ _ _ q4 _] := prec_fold uc (b_prec B1) l0; rewrite /= q4.
move=> l ln; have [q1 _ _ _ q5] := prec_fold uc (b_prec B1) ln.
by rewrite !retrieveE ?(b_prec B) //= q5.
Qed.
Definition lam_F := lam_of lam.
Lemma prec_ok a E : base a E -> (0 < size E)%N -> ef ->
  (forall l, (l < nl)%N -> (0 < d l)%N -> damped ds lam_F g (flatten E) l \in unitmx) ->
  exists a', [/\ compute_preconditioners names ef lam a = (a', Ok tt), base a' E,
    o_ifvp (a_off a') = o_ifvp (a_off a) &
    forall l, (l < nl)%N -> retrieve_prec l (a_off a') =
      if (0 < d l)%N then Some (rows_of (invmx (damped ds lam_F g (flatten E) l))) else retrieve_prec l (a_off a)].
Proof.
move=> B E0 hef U.
have V0 : (0 < size [seq fl ds g x | x <- flatten E])%N by rewrite size_map size_flat //; case: B.
have U' : forall l, (l < nl)%N -> (0 < d l)%N -> dmp ds (lam_of lam) l [seq fl ds g x | x <- flatten E] \in unitmx.
  by move=> l ln d0; rewrite (dmp_fl _ _ sg) //; apply: U.
have := prec_run B E0 hef; rewrite /= (prec_callsE V0 U') /=.
case.
  by rewrite -map_comp map_id filter_uniq // iota_uniq.
move=> a' [e1 e2 e3 e4]; exists a'; split=> // l ln; rewrite e4 // dget_pairs mem_filter mem_iota ln leq0n !andbT.
by case: ifP => // _; rewrite /prec_of (dmp_fl _ _ sg).
Qed.

(* preconditioned gradients *)
Variable M : forall l, 'M[F]_(d l).
Definition iv (l : nat) (x : X) : seq F := mulrow (d l) (rows_of (M l)) (g l x).
Lemma siv l x : (l < nl)%N -> size (iv l x) = d l. Proof. by rewrite size_mkseq. Qed.
Lemma store_all_ok (R : seq (nat * seq X)) a : o_dims (a_off a) = Some ds -> (forall kb, List.In kb R -> (0 < size kb.2)%N) ->
  uniq [seq kb.1 | kb <- R] -> uniq (dkeys (o_ifvp (a_off a))) ->
  exists o', [/\ store_all [seq (kb.1, grads_of ds iv kb.2) | kb <- R] a = (with_off o' a, Ok tt),
    [/\ o_dims o' = Some ds, o_grad o' = o_grad (a_off a) & o_prec o' = o_prec (a_off a)],
    uniq (dkeys (o_ifvp o')) &
    forall b, dget (o_ifvp o') b = if dget R b is Some V then Some (T2 (sumn ds) [seq fl ds iv x | x <- V])
                                   else dget (o_ifvp (a_off a)) b].
Proof.
elim: R a => [|[k b0] R IH] a od pos u ud /=; first by exists (a_off a); split=> //; case: (a) => *.
move: u => /= /andP [nk u].
rewrite store_grads //; [|exact: siv|by have := pos _ (or_introl erefl)].
rewrite /sbind /=; set a1 := with_off _ a.
have [||||o' [e1 [e2 e3 e4] e5 e6]] := IH a1 => //.
- by move=> kb hkb; apply: pos; right.
- by rewrite /a1 /= uniq_dset.
exists o'; split=> // b; rewrite e6 /= dgetE dget_cons eq_sym; case: (k =P b) => [e|ne] //.
have : dhas R b = false by rewrite -e; apply/negbTE.
by rewrite dget_has; case: (dget R b).
Qed.
Lemma lay_iv E b : (b < size E)%N ->
  mkseq (fun l => G2 (T2 (d l) [seq mulrow (d l) (rows_of (M l)) (lay ds l v) | v <- [seq fl ds g x | x <- nth [::] E b]])) nl =
  grads_of ds iv (nth [::] E b).
Proof.
move=> bE; apply: eq_mkseq_lt => l ln; congr (G2 (T2 _ _)); rewrite -map_comp.
by apply: eq_map => x /=; rewrite (lay_fl sg).
Qed.
Lemma lay_g E b : (b < size E)%N -> (forall l, M l = 1%:M) ->
  mkseq (fun l => G2 (T2 (d l) [seq lay ds l v | v <- [seq fl ds g x | x <- nth [::] E b]])) nl =
  grads_of ds iv (nth [::] E b).
Proof.
move=> bE M1; apply: eq_mkseq_lt => l ln; congr (G2 (T2 _ _)); rewrite -map_comp.
apply: eq_map => x /=; rewrite (lay_fl sg) // /iv M1.
apply: (@eq_from_nth _ 0); first by rewrite size_mkseq sg.
move=> a; rewrite sg // => ad; rewrite nth_mkseq // (bigD1 (Ordinal ad)) //= big1 ?addr0.
  have := rows_of_nth (1%:M : 'M[F]_(d l)) (Ordinal ad) (Ordinal ad) => /= ->.
  by rewrite mxE eqxx mul1r.
move=> c nb; have := rows_of_nth (1%:M : 'M[F]_(d l)) (Ordinal ad) c => /= ->.
by rewrite mxE eq_sym (negbTE nb) mul0r.
Qed.
Definition precs_ok a : Prop :=
  if ef then forall l, (l < nl)%N -> retrieve_prec l (a_off a) = Some (rows_of (M l)) \/
                                     retrieve_prec l (a_off a) = None /\ M l = 0
  else forall l, M l = 1%:M.
Lemma ifvp_ok a E : base a E -> (0 < size E)%N -> precs_ok a ->
  exists a', [/\ compute_ifvp names ef a = (a', Ok tt), base a' E, dictE ds iv (o_ifvp (a_off a')) E &
    o_prec (a_off a') = o_prec (a_off a)].
Proof.
move=> B E0 pk; rewrite /compute_ifvp (reloadE B) //.
have [m mE ->] := syncE B; set a1 := with_meta m a; have B1 : base a1 E by apply: base_meta.
have am : a_meta a1 = m by [].
have am2 : with_meta m a1 = a1 by [].
rewrite (b_dims B1) am; cbv zeta; rewrite (mapping1 mE) am2 hn.
have keys b : b \in [seq e.1 | e <- stored_rows ds g E] -> dhas (mapping m).2 b.
  by rewrite -map_comp map_id mem_iota dget_has (mapping_get _ mE) => /andP [_]; rewrite add0n => ->.
pose g1 (V : rows) := mkseq (fun l => G2 (T2 (d l) [seq mulrow (d l) (rows_of (M l)) (lay ds l v) | v <- V])) nl.
pose g2 (V : rows) := mkseq (fun l => G2 (T2 (d l) [seq lay ds l v | v <- V])) nl.
pose gB (V : rows) := if ef then g1 V else g2 V.
have gBE b : (b < size E)%N -> gB [seq fl ds g x | x <- nth [::] E b] = grads_of ds iv (nth [::] E b).
  by move=> bE; move: pk; rewrite /gB /precs_ok; case: (ef) => pk; [apply: lay_iv|apply: lay_g].
set c := (X in store_all X.1 _).
have [R' pR cE] : exists2 R', perm_eq R' (stored_rows ds g E) & c = ([seq (e.1, gB e.2) | e <- R'], Ok tt).
  rewrite /c /gB; move: pk; rewrite /precs_ok; case: (ef) => pk.
    have [outs [eo ho _]] := dictE_loader (isT : (0 < 4)%N) (b_grad B1).
    rewrite /loader_of /= eo; apply: (holds_calls (g := g1) ho keys) => V.
    apply: ifvp_batchE => // l ln; rewrite nth_mkseq //; exact: pk.
  have [outs [eo ho _]] := dictE_loader (isT : (0 < 1)%N) (b_grad B1).
  rewrite /loader_of /= eo; apply: (holds_calls (g := g2) ho keys) => V; exact: copy_batchE.
have Rk : [seq e.1 | e <- R'] =i iota 0 (size E).
  by move=> b; rewrite (perm_mem (perm_map _ pR)) -map_comp map_id.
have Ru : uniq [seq e.1 | e <- R'] by rewrite (perm_uniq (perm_map _ pR)) -map_comp map_id iota_uniq.
pose R2 := [seq (b, nth [::] E b) | b <- [seq e.1 | e <- R']].
have cE1 : c.1 = [seq (kb.1, grads_of ds iv kb.2) | kb <- R2].
  rewrite cE /= /R2 -!map_comp; apply/eq_in_map => e eR /=.
  have : e \in stored_rows ds g E by rewrite -(perm_mem pR).
  by case/mapP => b; rewrite mem_iota => bE -> /=; rewrite gBE.
have [||||o' [e1 [e2 e3 e4] e5 e6]] := @store_all_ok R2 a1.
- exact: b_odims B1.
- move=> kb hkb; have [b hb ->] := In_map hkb; apply: (b_pos B) => /=.
  by move/In_mem: hb; rewrite Rk mem_iota.
- by rewrite /R2 -map_comp map_id.
- exact: b_iu B1.
have get b : dget R2 b = if (b < size E)%N then Some (nth [::] E b) else None.
  have -> : (b < size E)%N = (b \in [seq e.1 | e <- R']) by rewrite Rk mem_iota.
  rewrite /R2; elim: [seq e.1 | e <- R'] => //= k s IH; rewrite dget_cons IH inE [b == k]eq_sym.
  by case: eqP => [->|].
rewrite cE1 e1 /sbind -/c.
rewrite cE; exists (with_off o' a1).
have DI : dictE ds iv (o_ifvp o') E.
  by split=> // b; rewrite e6 get; case: ifP => // bE; apply: (b_in B1); rewrite leqNgt bE.
split=> //; case: B1 => *; split=> //=; rewrite ?e3 ?e4 //.
by move=> b bE; case: DI => _ ->; rewrite ltnNge bE.
Qed.

(* attribute *)
Lemma features_ok b : (0 < size b)%N ->
  batch_tensor (Some ds) (size b) (grads_of ds h b) = Ok (Some (T2 (sumn ds) [seq fl ds h y | y <- b])).
Proof.
move=> b0; rewrite /batch_tensor.
have -> : test_features (Some ds) (size b) (grads_of ds h b) = mkseq (fun l => T2 (d l) [seq h l y | y <- b]) nl.
  rewrite /test_features size_mkseq zip_iota_mkseq /mkseq; have : forall i, List.In i (iota 0 nl) -> (i < nl)%N by move=> i hi; exact: (In_iota hi).
  elim: (iota 0 nl) => //= l s IH H; have ln := H l (or_introl erefl); rewrite IH; last by move=> i hi; apply: H; right.
  rewrite /nrows /= size_map muln_gt0 b0 /=; case: ltnP => d0 //=; rewrite ln /=; congr cons; congr T2.
  elim: (b) => //= y ys IHy; rewrite IHy; congr cons; have := sh y ln; move: d0; rewrite leqn0 => /eqP ->.
  by case: (h l y).
have nn : nilp (mkseq (fun l => T2 (d l) [seq h l y | y <- b]) nl) = false by case: (ds) s0.
rewrite nn /= /DiskModel.cat1.
case em : (mkseq _ nl) nn => [//|t ts] _; rewrite -em.
have te : t = T2 (d 0) [seq h 0%N y | y <- b] by move: em; case: (ds) s0 => //= k ks _ [<-].
have -> : all (fun t' => nrows t' == nrows t) (mkseq (fun l => T2 (d l) [seq h l y | y <- b]) nl).
  by apply/(all_nthP t) => l; rewrite size_mkseq => ln; rewrite nth_mkseq // te /nrows /= !size_map.
rewrite /=; congr (Ok (Some (T2 _ _))).
  rewrite /mkseq -map_comp /=; congr sumn; rewrite -[RHS](mkseq_nth 0%N) /mkseq; exact: eq_map.
have [y0 _] : exists y0 : Y, True by case: (b) b0 => // y _ _; exists y.
apply: (@eq_from_nth _ [::]); first by rewrite size_mkseq te /nrows /= !size_map.
move=> i; rewrite size_mkseq te /nrows /= size_map => ib; rewrite nth_mkseq // (nth_map y0) //.
rewrite /fl /mkseq -map_comp; congr flatten; apply: eq_map => l /=.
by rewrite (nth_map y0).
Qed.
Lemma compute_test_ok (Le : loader Y) : (0 < ld_bs Le)%N -> (0 < nbatches Le)%N ->
  compute_test eg (Some ds) Le = Ok (Some (T2 (sumn ds) [seq fl ds h y | y <- samples Le])).
Proof.
move=> bs0 nb0; rewrite /compute_test.
rewrite (@rseq_ok _ _ _ (fun kb => Some (T2 (sumn ds) [seq fl ds h y | y <- kb.2]))); last first.
  move=> kb hkb; have [k hk ->] := In_map hkb; have kn := In_iota hk.
  have b0 : (0 < size (batch Le k))%N by have := @nbatches_st _ Le bs0 k kn; rewrite (size_batch bs0); lia.
  by have [_ hk'] := Hh; rewrite /= hk' //= -/(grads_of ds h (batch Le k)) features_ok.
rewrite /= /test_tensor.
have -> : pmap id [seq Some (T2 (sumn ds) [seq fl ds h y | y <- kb.2]) | kb <- enum_batches Le] =
          [seq T2 (sumn ds) [seq fl ds h y | y <- b] | b <- batches Le].
  by rewrite /batches /enum_batches -!map_comp; elim: (iota _ _) => //= k s ->.
case: nilP => [e|_].
  by have := congr1 size e; rewrite size_map size_batches; move: nb0; case: (nbatches Le).
rewrite (@cat0_ok _ _ (sumn ds)) /=; last 2 first.
- by rewrite size_map size_batches.
- by rewrite all_map; elim: (batches Le) => //= b bs ->; rewrite eqxx.
congr (Ok (Some (T2 _ _))); rewrite -flatten_samples // map_flatten; congr flatten.
by rewrite -map_comp.
Qed.
Lemma samples_pos (Z : Type) (L : loader Z) : (0 < ld_bs L)%N -> (0 < nbatches L)%N -> (0 < size (samples L))%N.
Proof.
move=> bs0 nb0; rewrite -flatten_samples //; apply: size_flat; rewrite ?size_batches //.
move=> b hb; rewrite nth_batches //; by have := @nbatches_st _ L bs0 b hb; rewrite (size_batch bs0); lia.
Qed.

(* the state after a successful cache, attribute or compute_self_attribution: the stored gradients are
   those of the batches E, the stored preconditioned gradients those of the batches I *)
Definition ready a E I : Prop := [/\ base a E, shape I = shape E &
  (o_ifvp (a_off a) = [::] /\ precs_ok a) /\ I = E \/ dictE ds iv (o_ifvp (a_off a)) I].
Lemma ready_meta a E I m : ready a E I -> metaE m E -> ready (with_meta m a) E I.
Proof. by case=> B s R mE; split=> //; exact: base_meta. Qed.
Lemma ensure_ifvp a E I : ready a E I -> (0 < size E)%N ->
  exists a', [/\ (if has_ifvp (a_off a) then (a, Ok tt) else compute_ifvp names ef a) = (a', Ok tt), base a' E,
    dictE ds iv (o_ifvp (a_off a')) I & o_prec (a_off a') = o_prec (a_off a)].
Proof.
move=> [B sI]; case=> [[[i0 pk] ->]|DI] E0.
  by rewrite /has_ifvp i0 /=; apply: ifvp_ok.
exists a; split=> //; have -> // : has_ifvp (a_off a).
have I0 : (0 < size I)%N by rewrite -(size_map size) -/(shape I) sI size_map.
by rewrite /has_ifvp; case: (o_ifvp (a_off a)) DI => // -[_ /(_ 0%N)]; rewrite I0.
Qed.
Lemma attribute_ok a E I (L : loader X) (Le : loader Y) : ready a E I -> (0 < size E)%N ->
  (0 < ld_bs Le)%N -> (0 < nbatches Le)%N ->
  exists a', [/\ attribute names ef lam tg eg L Le a = (a', Ok (table (flatten I) (samples Le) (bilinear M g h))),
    base a' E, dictE ds iv (o_ifvp (a_off a')) I & o_prec (a_off a') = o_prec (a_off a)].
Proof.
move=> R E0 bs0 nb0; have [B sI _] := R; rewrite /attribute /sbind (b_full B); cbv iota beta zeta; rewrite (reloadE B) //.
have [m mE ->] := syncE B; set a1 := with_meta m a; have R1 : ready a1 E I by apply: ready_meta.
have [B1 _ _] := R1.
rewrite /setup_comp (b_comp B1); cbv iota beta zeta.
have [a' [-> B' D' p']] := ensure_ifvp R1 E0.
rewrite (b_dims B') compute_test_ok //; cbv iota beta zeta.
have n0 : (0 < size [seq fl ds h y | y <- samples Le])%N by rewrite size_map samples_pos.
have -> : (nrows (T2 (sumn ds) [seq fl ds h y | y <- samples Le]) * t2c (T2 (sumn ds) [seq fl ds h y | y <- samples Le]) == 0)%N = false.
  by apply/negbTE; rewrite -lt0n muln_gt0 n0 s0.
rewrite (mapping1 (b_meta B')); exists (with_meta (a_meta a') a').
split=> //; last exact: (base_meta B' (b_meta B')).
congr (_, _); have [outs [eo ho _]] := dictE_loader (isT : (0 < 2)%N) D'.
have mI : metaE (a_meta a') I by apply: metaE_shape (b_meta B').
rewrite /loader_of /= eo; have [_ -> _ _] := mI.
have [x0 _] : exists x0 : X, True.
  by have := size_flat E0 (b_pos B); case: (flatten E) => // x _ _; exists x.
have [y0 _] : exists y0 : Y, True.
  by have := samples_pos bs0 nb0; case: (samples Le) => // y _ _; exists y.
rewrite (scoresE ho (placed_meta ds iv x0 mI)) //; congr Ok.
rewrite /mk2 /mk /nrows /= size_map /table.
apply: (@eq_from_nth _ [::]); first by rewrite size_mkseq size_map.
move=> i; rewrite size_mkseq => iE; rewrite nth_mkseq // (nth_map x0) //.
apply: (@eq_from_nth _ 0); first by rewrite size_mkseq size_map.
move=> j; rewrite size_mkseq => jE; rewrite nth_mkseq // (nth_map y0) // /target /= (nth_map y0) //.
rewrite (dot_fl siv sh) /bilinear; apply: eq_bigr => l _; exact: dot_mulrow.
Qed.
Lemma self_ok a E I : ready a E I -> (0 < size E)%N ->
  exists a', [/\ self_attribution names ef a =
     (a', Ok [seq bilinear M g g p.1 p.2 | p <- zip (flatten I) (flatten E)]),
    base a' E, dictE ds iv (o_ifvp (a_off a')) I & o_prec (a_off a') = o_prec (a_off a)].
Proof.
move=> R E0; have [B sI _] := R; rewrite /self_attribution /sbind (reloadE B) //.
have [m mE ->] := syncE B; set a1 := with_meta m a; have R1 : ready a1 E I by apply: ready_meta.
have [a' [-> B' D' p']] := ensure_ifvp R1 E0.
cbv iota beta zeta; rewrite (mapping1 (b_meta B')); exists (with_meta (a_meta a') a').
split=> //; last exact: (base_meta B' (b_meta B')).
congr (_, _); have [oi [ei hi ki]] := dictE_loader (isT : (0 < 4)%N) D'.
have [og [eg' hg kg]] := dictE_loader (isT : (0 < 4)%N) (b_grad B').
have mI : metaE (a_meta a') I by apply: metaE_shape (b_meta B').
have fs : size (flatten I) = size (flatten E) by rewrite !size_flatten sI.
have zs : size I = size E by rewrite -(size_map size) -/(shape I) sI size_map.
rewrite /loader_of /= ei eg'; have [_ -> _ _] := b_meta B'.
have [x0 _] : exists x0 : X, True.
  by have := size_flat E0 (b_pos B); case: (flatten E) => // x _ _; exists x.
have pI := placed_meta ds iv x0 mI; rewrite fs in pI.
rewrite (self_scoresE hg hi (placed_meta ds g x0 (b_meta B')) pI) ?ki ?kg ?zs //.
congr Ok; apply: (@eq_from_nth _ 0); first by rewrite size_mkseq size_map size_zip fs minnn.
move=> i; rewrite size_mkseq => iE; rewrite nth_mkseq // (nth_map (x0, x0)) ?size_zip ?fs ?minnn // nth_zip // /starget.
rewrite (dot_fl sg siv) /bilinear; apply: eq_bigr => l _.
rewrite -dot_mulrow; apply: eq_bigr => k _; exact: mulrC.
Qed.
End Att.
