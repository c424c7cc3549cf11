(* C19-C22: random projections and their chunking. *)
Set Warnings "-notation-overridden,-ambiguous-paths".
From mathcomp Require Import all_ssreflect all_algebra zify.
From Coq Require ZArith.
From Verif Require Import Py Tensor TensorProof Seeds SeedSpec SeedProof ProjModel ProjSpec ProjProof ProjProof2 ProjProof3.
Set Implicit Arguments. Unset Strict Implicit. Unset Printing Implicit Defensive.
Import GRing.Theory Num.Theory.
Local Open Scope ring_scope.

Section Props.
Variable F : fieldType.
Variable G : rng F.
Notation row := (seq F).

(* what torch.randperm promises *)
Definition perm_ok := forall sd n, perm_eq (g_perm G sd n) (iota 0 n).
Definition width (n : nat) (X : seq row) := all (fun x => size x == n) X.

(* ------------------------------------------------------------------- C19 *)
(* After any history of projections (with any ensemble ids and any, even
   ill-shaped, features) and free_memory calls, projecting X for ensemble e
   gives x . P / sqrt(proj_dim) where P depends only on the seed, the ensemble
   and the dimensions -- unless the projector has a single block and its memory
   was freed while e was current, when it raises AttributeError. *)
Theorem C19_history : forall c ens s ops X e,
  perm_ok -> b_init G c ens = Ok s -> is_dense (b_type c) -> width (b_fd c) X ->
  let h := freed_state ens false ops in
  (b_project G c (b_run G c s ops) X e).2 =
  if [&& (b_pd c <= b_bs0 c)%N, h.2 & zeqb e h.1] then Err AttributeError
  else Ok [seq apply_matrix G (b_fd c) (b_pd c)
             (basic_entry G (b_fd c) (minn (b_pd c) (b_bs0 c)) (b_seed c) e (b_type c)) x | x <- X].
Proof.
move=> c ens s ops X e hp hi d hX /=; have [h1 h2 h3] := b_init_ok hi.
have hr := b_run_ok ops h1 h2 h3.
rewrite (b_project_ok e h1 hr h3 hp hX) d /=.
have -> : (b_nb c == 1%N) = (b_pd c <= b_bs0 c)%N.
  have := nb_lt h1 1; have := nb_lt h1 0; have := pd0 h1; rewrite mul0n mul1n /b_bs => -> e0 e1.
  apply/eqP/idP => [n1|]; first by move: e1; rewrite n1 ltnn; lia.
  by move/minn_idPl => em; rewrite em ltnn in e1; lia.
by case: ifP => // _; rewrite /bresult /bentry; case: (b_type c) d.
Qed.

(* features of another width are refused in every state: RuntimeError, after the AttributeError of freed memory *)
Theorem C19_bad_width : forall c ens s ops X e,
  b_init G c ens = Ok s -> is_dense (b_type c) -> ~~ width (b_fd c) X ->
  let h := freed_state ens false ops in
  (b_project G c (b_run G c s ops) X e).2 =
  Err (if [&& (b_pd c <= b_bs0 c)%N, h.2 & zeqb e h.1] then AttributeError else RuntimeError).
Proof.
move=> c ens s ops X e hi d /negbTE hX /=; have [h1 h2 h3] := b_init_ok hi.
have hr := b_run_ok ops h1 h2 h3.
have [s1 [e1 [r1 r2 r3 r4]]] := b_switch_ok e h1 hr h3; rewrite /b_project e1.
have n1E : (b_nb c == 1%N) = (b_pd c <= b_bs0 c)%N.
  have := nb_lt h1 1; have := nb_lt h1 0; have := pd0 h1; rewrite mul0n mul1n /b_bs => -> e0 e2.
  apply/eqP/idP => [n1|]; first by move: e2; rewrite n1 ltnn; lia.
  by move/minn_idPl => em; rewrite em ltnn in e2; lia.
have n0 := nb0 h1 (pd0 h1).
have gd : (if b_nb c == 1%N
     then (s1, if bp_mat s1 is Some M then matmul (b_fd c) (b_bs c) M X else Err AttributeError)
     else foldl (b_block G c X) (s1, Ok (zeros2 F (size X) (b_pd c))) (iota 0 (b_nb c))).2 =
   Err (if [&& (b_pd c <= b_bs0 c)%N, (freed_state ens false ops).2 & zeqb e (freed_state ens false ops).1]
        then AttributeError else RuntimeError).
  rewrite -n1E; case: eqP => [n1|_] /=.
    rewrite r4 //; case: zeqb; rewrite ?andbT ?andbF; last by rewrite /matmul -/(width _ _) hX.
    by case: ((freed_state ens false ops).2) => //; rewrite /matmul -/(width _ _) hX.
  case: (b_nb c) n0 => // k _; rewrite [iota _ _]/= [foldl _ _ _]/=.
  have keep : forall l st x, (foldl (b_block G c X) (st, Err x) l).2 = Err x by elim=> [|i l IH] st x //=; apply: IH.
  have [s2 ->] : exists s2, b_block G c X (s1, Ok (zeros2 F (size X) (b_pd c))) 0 = (s2, Err RuntimeError).
    rewrite /b_block /b_gen_dense /= /matmul -/(width _ _) hX.
    by case: (b_type c) d => // _ /=; eexists.
  exact: keep.
by case: (b_type c) d gd => //= _ ->.
Qed.

(* the same map for every history: results are linear in the features *)
Theorem C19_linear : forall c ens s ops ops' ops'' (a : F) (x y : row) e u v w,
  perm_ok -> b_init G c ens = Ok s -> is_dense (b_type c) -> size x = b_fd c -> size y = b_fd c ->
  (b_project G c (b_run G c s ops) [:: x] e).2 = Ok [:: u] ->
  (b_project G c (b_run G c s ops') [:: y] e).2 = Ok [:: v] ->
  (b_project G c (b_run G c s ops'') [:: [seq a * p.1 + p.2 | p <- zip x y]] e).2 = Ok [:: w] ->
  w = [seq a * p.1 + p.2 | p <- zip u v].
Proof.
move=> c ens s ops ops' ops'' a x y e u v w hp hi d sx sy.
rewrite !(C19_history _ _ hp hi d) /width /= ?sx ?sy ?size_map ?size_zip ?sx ?sy ?minnn ?eqxx //.
do 3!(case: ifP => // _); move=> -[<-] [<-] [<-].
set P := basic_entry _ _ _ _ _ _.
apply: (@eq_from_nth _ 0); first by rewrite [RHS]size_map size_zip !size_mkseq minnn.
rewrite size_mkseq => j hj; rewrite nth_mkseq // (nth_map (0, 0)); last by rewrite size_zip !size_mkseq minnn.
rewrite nth_zip ?size_mkseq // !nth_mkseq //= mulrA -mulrDl; congr (_ / _).
rewrite mulr_sumr -big_split /=; apply: eq_bigr => i _.
rewrite (nth_map (0, 0)); last by rewrite size_zip sx sy minnn.
by rewrite nth_zip ?sx ?sy //= mulrDl mulrA.
Qed.

(* random_mask keeps min(proj_dim, feature_dim) distinct coordinates in order,
   always the same ones for an ensemble, and is not affected by free_memory *)
Theorem C19_mask : forall c ens s ops X e,
  perm_ok -> b_init G c ens = Ok s -> b_type c = PMask -> width (b_fd c) X ->
  exists2 idx, kept idx (b_fd c) (b_pd c) &
  (b_project G c (b_run G c s ops) X e).2 = Ok [seq [seq nth 0 x i | i <- idx] | x <- X] /\
  forall ops' X', width (b_fd c) X' ->
  (b_project G c (b_run G c s ops') X' e).2 = Ok [seq [seq nth 0 x i | i <- idx] | x <- X'].
Proof.
move=> c ens s ops X e hp hi et hX; have [h1 h2 h3] := b_init_ok hi.
exists (mask G (spec_seed (b_seed c) e 0) (b_fd c) (b_pd c)); first exact: mask_kept.
have gen ops' X' : width (b_fd c) X' -> (b_project G c (b_run G c s ops') X' e).2 = Ok (bresult G c e X').
  by move=> hX'; rewrite (b_project_ok e h1 (b_run_ok ops' h1 h2 h3) h3 hp hX') et.
by rewrite /bresult et in gen; split; [apply: gen | move=> ops' X'; apply: gen].
Qed.

(* the identity projector returns its input *)
Theorem C19_identity : forall c ens s ops X e,
  b_init G c ens = Ok s -> b_type c = PIdentity ->
  (b_project G c (b_run G c s ops) X e).2 = Ok X.
Proof.
move=> c ens s ops X e hi et; have [h1 h2 h3] := b_init_ok hi.
have [s1 [e1 _]] := b_switch_ok e h1 (b_run_ok ops h1 h2 h3) h3.
by rewrite /b_project e1 et.
Qed.

(* which constructions are refused *)
Theorem C19_init : forall c ens,
  let gpu_only := if b_type c is (PSjlt | PGrass) then true else false in
  match b_init G c ens with
  | Ok s => [/\ (0 < b_pd c)%N, (0 < b_bs0 c)%N & ~~ gpu_only]
  | Err ZeroDivisionError => b_pd c = 0%N \/ b_bs0 c = 0%N
  | Err AttributeError => gpu_only
  | Err _ => False
  end.
Proof.
move=> c ens; rewrite /b_init /b_bs.
have -> : (minn (b_pd c) (b_bs0 c) == 0%N) = ~~ ((0 < b_pd c)%N && (0 < b_bs0 c)%N).
  by rewrite /minn; case: ltnP; lia.
case: (boolP ((0 < b_pd c)%N && (0 < b_bs0 c)%N)) => [/andP [h1 h2]|h] /=; last by lia.
by rewrite /b_gen_dense; case et: (b_type c).
Qed.

(* ------------------------------------------------------------------- C20 *)
(* life of a CudaProjector created with multiplier m *)
Definition c_life (c : ccfg) (m : nat) (ops : seq (seq row * Z)) : cproj F :=
  foldl (fun s o => (c_project G c s o.1 o.2).1) (c_init F m) ops.

(* every type but GraSS: the result depends on the ensemble only *)
Theorem C20_independent : forall c m ops X e,
  perm_ok -> c_type c <> PGrass -> e <> no_ens -> width (c_fd c) X ->
  (c_project G c (c_life c m ops) X e).2 = Ok [seq crow G c e x | x <- X].
Proof.
move=> c m ops X e hp hg he hX; apply: c_project_ok => //.
rewrite /c_life; have : crep G c (c_init F m) by exact: c_init_rep.
elim: ops (c_init F m) => [|o ops IH] s hs //=; apply: IH.
exact: (c_project_rep o.1 o.2 hs).
Qed.

(* GraSS: the exact result, by number of times randomness was generated *)
Theorem C20_grass : forall c m ops X e,
  perm_ok -> c_type c = PGrass -> width (c_fd c) X ->
  let k := generations no_ens (rcons (map snd ops) e) in
  (c_project G c (c_life c m ops) X e).2 =
  if k == 0%N then Err TypeError else
  let d := if (c_pd c * m <= c_fd c)%N then (c_pd c * m)%N
           else if k == 1%N then c_fd c else (c_pd c * (c_fd c %/ c_pd c))%N in
  Ok [seq grass_row G c e d x | x <- X].
Proof.
move=> c m ops X e hp et hX k; rewrite {}/k.
have h0 : grep G c m (c_init F m) 0 by split=> //=; rewrite orbT.
have [h1 h2] := grep_run ops et h0.
rewrite /c_life (grass_project hp e et h1 hX) h2.
have -> : forall cur es, generations cur (rcons es e) = (generations cur es + ~~ zeqb e (last cur es))%N.
  by move=> cur es; elim: es cur => [|a es IH] cur //=; rewrite ?addn0 // IH addnA.
by [].
Qed.

(* if the intermediate dimension fits, history does not matter *)
Theorem C20_grass_fits : forall c m ops X e,
  perm_ok -> c_type c = PGrass -> width (c_fd c) X -> e <> no_ens -> (c_pd c * m <= c_fd c)%N ->
  (c_project G c (c_life c m ops) X e).2 = (c_project G c (c_init F m) X e).2.
Proof.
move=> c m ops X e hp et hX he hm.
have gpos cur es : cur <> e -> (0 < generations cur (rcons es e))%N.
  elim: es cur => [|a es IH] cur hc /=; first by case: zeqbP => // z; case: hc.
  by case: (zeqbP a e) => [->|ne]; [case: zeqbP => [z|//]; case: hc | rewrite ltn_addl // IH].
rewrite (C20_grass _ _ _ hp et hX) -[c_init F m]/(c_life c m [::]) (C20_grass _ _ _ hp et hX) hm.
have ne : no_ens <> e by move=> z; apply: he.
by rewrite !eqn0Ngt !gpos.
Qed.

(* otherwise a second ensemble is projected through a smaller intermediate
   dimension than the same ensemble would get first; when feature_dim < proj_dim
   that dimension is 0 and every later sketch is zero *)
Theorem C20_grass_collapses_refuted : forall c m ops X e,
  perm_ok -> c_type c = PGrass -> width (c_fd c) X ->
  (c_fd c < c_pd c)%N -> (0 < m)%N ->
  (1 < generations no_ens (rcons (map snd ops) e))%N ->
  (c_project G c (c_life c m ops) X e).2 = Ok [seq nseq (c_pd c) 0 | x <- X].
Proof.
move=> c m ops X e hp et hX hlt m0 hk; rewrite (C20_grass _ _ _ hp et hX).
rewrite ifF; last by lia.
have -> : (c_pd c * m <= c_fd c)%N = false.
  by apply/negbTE; rewrite -ltnNge; apply: leq_trans hlt _; rewrite leq_pmulr.
rewrite ifF; last by lia.
rewrite (divn_small hlt) muln0; congr Ok; apply: eq_map => x; rewrite /grass_row.
by apply: (@eq_from_nth _ 0); rewrite ?size_mkseq ?size_nseq // => i hi; rewrite nth_mkseq // nth_nseq hi big_ord0.
Qed.

(* ensemble -1 cannot be the first one *)
Theorem C20_minus_one : forall c m X,
  is_dense (c_type c) \/ c_type c = PSjlt ->
  (c_project G c (c_init F m) X no_ens).2 = Err TypeError.
Proof. by move=> c m X; rewrite /c_project /=; case: (c_type c) => -[]. Qed.

(* ------------------------------------------------------------------- C22 *)
Section Chunks.
Variable c : chcfg.
(* as built by make_random_projector: one projector per chunk, same proj_dim,
   chunk sizes computed from the parameter sizes *)
Definition built (sizes : seq nat) (umax bs : nat) : Prop :=
  [/\ all fits (ch_cfgs c), all (fun q => c_pd q == ch_pd c) (ch_cfgs c),
      ch_dims c = map c_fd (ch_cfgs c),
      ch_max c = max_chunk umax bs /\ (0 < ch_max c)%N
    & exists fuel, chunk_sizes (ch_max c) fuel sizes = Some (ch_dims c)].

Definition ch_init (m : nat) : chunked F := Chunked (map (fun _ => c_init F m) (ch_cfgs c)) None.
Definition ch_do (s : chunked F) (o : chop F) : chunked F :=
  match o with
  | ChDict params e => (ch_dict_project G c s params e).1
  | ChFlat X e => (ch_project G c s X e).1
  | ChFree => ch_free s
  end.
(* dictionary entries are rectangular *)
Definition opwf (o : chop F) : bool :=
  if o is ChDict params _ then all (fun p => all (fun r => size r == p.1) p.2) params else true.

Lemma ch_life_rep m ops : all fits (ch_cfgs c) -> all (fun q => c_pd q == ch_pd c) (ch_cfgs c) -> all opwf ops ->
  let s := foldl ch_do (ch_init m) ops in prep G c (ch_projs s) /\ brect c (ch_alloc c s).
Proof.
move=> hf hq; have z : brect c (zeros2 F (ch_fb c) (ch_max c)).
  by split; rewrite /zeros2 ?size_nseq // all_nseq size_nseq eqxx orbT.
have h0 : prep G c (ch_projs (ch_init m)) /\ brect c (ch_alloc c (ch_init m)).
  split=> //; split; first by rewrite size_map.
  by move=> k; rewrite size_map => hk; rewrite (nth_map c0) //; left.
elim: ops (ch_init m) h0 => [|o ops IH] s h0 //= /andP [ho hops]; apply: IH => //.
case: o ho => [params e|X e|] /= ho; case: h0 => h1 h2.
- by have [q1 [b [q2 q3]]] := ch_dict_rep hf hq e h1 h2 ho; split=> //; rewrite /ch_alloc q2.
- by split=> //=; apply: ch_proj_loop_rep.
- by split.
Qed.

(* a flat tensor: sum over the chunks of the projections of its slices *)
Theorem C22_flat : forall m sizes umax bs ops X e,
  perm_ok -> built sizes umax bs -> all opwf ops -> e <> no_ens -> width (sumn sizes) X ->
  (ch_project G c (foldl ch_do (ch_init m) ops) X e).2 =
  Ok [seq chunk_row G e (ch_cfgs c) x (nseq (ch_pd c) 0) | x <- X].
Proof.
move=> m sizes umax bs ops X e hp [b1 b2 b3 [_ b4] [fuel b5]] ho he hX.
have [h1 h2] := ch_life_rep m b1 b2 ho.
apply: ch_project_ok => //; have : sumn (ch_dims c) = sumn sizes; last by move=> ->.
have [r [e1 e2 _]] := chunk_sizes_ok b4 (sizes_le_sum sizes).
by rewrite (chunk_fuel b4 (sizes_le_sum sizes) b5) in e1; case: e1 => ->.
Qed.

(* a dict of gradients of batch size n: the same as the concatenated tensor,
   whatever was projected before *)
Theorem C22_dict : forall m umax bs ops params n e,
  perm_ok -> built (map fst params) umax bs -> all opwf ops -> e <> no_ens ->
  params <> [::] -> (n <= ch_fb c)%N ->
  all (fun p => (size p.2 == n) && all (fun r => size r == p.1) p.2) params ->
  clean (ch_max c) 0 (map fst params) ->
  let s := foldl ch_do (ch_init m) ops in
  (ch_dict_project G c s params e).2 =
  Ok (mkseq (fun i => chunk_row G e (ch_cfgs c) (flatten [seq nth [::] p.2 i | p <- params]) (nseq (ch_pd c) 0)) n) /\
  forall m' ops', all opwf ops' ->
  (ch_dict_project G c s params e).2 =
  (ch_project G c (foldl ch_do (ch_init m') ops')
     (mkseq (fun i => flatten [seq nth [::] p.2 i | p <- params]) n) e).2.
Proof.
move=> m umax bs ops params n e hp hb ho he hne hn hw hc s.
have e1 : (ch_dict_project G c s params e).2 =
  Ok (mkseq (fun i => chunk_row G e (ch_cfgs c) (flatten [seq nth [::] p.2 i | p <- params]) (nseq (ch_pd c) 0)) n).
  case: hb => [b1 b2 b3 [_ b4] [fuel b5]]; have [h1 h2] := ch_life_rep m b1 b2 ho.
  have hd := chunk_fuel b4 (sizes_le_sum _) b5.
  rewrite (chunk_sizes_pack b4 (sizes_le_sum _) hc) in hd; case: hd => hd.
  apply: ch_dict_ok => //.
  move: hc; rewrite -(all_map fst (fun p => p <= ch_max c)%N).
  elim: (map fst params) 0%N => [|p l IH] k //= /andP [-> hk]; apply: (IH (if (ch_max c < k + p)%N then p else k + p)%N).
  by case: ltnP hk => // _ /andP [].
split=> // m' ops' ho'; rewrite e1 (C22_flat _ hp hb ho' he); first by rewrite /mkseq -map_comp.
rewrite /width all_map; apply/allP => i; rewrite mem_iota add0n => /= hi.
rewrite size_flatten /shape -map_comp; apply/eqP; congr sumn; clear - hw hi.
elim: params hw => [|p params IH] //= /andP [/andP [/eqP sp hp] hw]; rewrite IH //; congr cons.
by apply/eqP; apply: (all_nthP [::] hp); rewrite sp.
Qed.

(* every other layout raises: a parameter larger than a chunk, or a chunk filled
   exactly by several parameters *)
Theorem C22_refused : forall m umax bs ops params n e,
  perm_ok -> built (map fst params) umax bs -> all opwf ops -> e <> no_ens ->
  (n <= ch_fb c)%N ->
  all (fun p => (size p.2 == n) && all (fun r => size r == p.1) p.2) params ->
  ~~ clean (ch_max c) 0 (map fst params) ->
  let o := (ch_dict_project G c (foldl ch_do (ch_init m) ops) params e).2 in
  o = Err ValueError \/ o = Err RuntimeError.
Proof.
move=> m umax bs ops params n e hp [b1 b2 b3 [_ b4] [fuel b5]] ho he hn hw hc /=.
have [h1 h2] := ch_life_rep m b1 b2 ho; have hd := chunk_fuel b4 (sizes_le_sum _) b5.
exact: (ch_dict_refused hp b1 b2 b3 he hn b4 h1 h2 hw (sizes_le_sum _) hd hc).
Qed.
End Chunks.
End Props.

(* ------------------------------------------------------------------- C21 *)
Section Sizes.
Local Open Scope nat_scope.

(* chunk sizes partition the parameters and respect the kernel limit: batch_size
   * 2 * chunk never exceeds umax = 2^32 - 1 *)
Theorem C21_partition : forall umax bs l, 0 < bs -> bs * 2 <= umax ->
  exists r, [/\ forall fuel, sumn l <= fuel -> chunk_sizes (max_chunk umax bs) fuel l = Some r,
                sumn r = sumn l,
                (sumn l = 0 /\ r = [:: 0]) \/ all (fun d => 0 < d) r
              & all (fun d => d * (bs * 2) <= umax) r].
Proof.
move=> umax bs l b0 hb; set mx := max_chunk umax bs.
have m0 : 0 < mx by rewrite divn_gt0 // muln_gt0 b0.
have [r [e1 e2 e3]] := chunk_sizes_ok m0 (sizes_le_sum l).
exists r; split=> //.
- move=> fuel hf; apply: chunk_fuel e1 => //.
  exact: (sub_all (fun x h => leq_trans h hf) (sizes_le_sum l)).
- case: e3 => [er|hg]; first by left; rewrite -e2 er.
  by right; apply: sub_all hg => d /andP [].
- case: e3 => [->|hg] //; apply: sub_all hg => d /andP [_ hd].
  by rewrite -leq_divRL // muln_gt0 b0.
Qed.

(* whole parameters are never split below the limit *)
Theorem C21_groups : forall mx l fuel, 0 < mx -> sumn l <= fuel -> all (fun p => p < mx) l ->
  exists gs, flatten gs = l /\ chunk_sizes mx fuel l = Some (map sumn gs).
Proof.
move=> mx l fuel m0 hf hl.
have [gs [e1 e2]] := chunk_sizes_groups m0 (sub_all (fun x h => leq_trans h hf) (sizes_le_sum l)) hl.
by exists gs.
Qed.

(* a batch size above (2^32-1)/2 makes the maximum 0: the loop never ends *)
Theorem C21_diverges : forall umax bs l, umax < bs * 2 -> l <> [::] ->
  forall fuel, chunk_sizes (max_chunk umax bs) fuel l = None.
Proof.
move=> umax bs [|p l] hb // _ fuel; rewrite /max_chunk divn_small //.
by rewrite /chunk_sizes /= /chunk_step /= split_while0.
Qed.

Example C21_example : max_chunk 21 1 = 10 /\ chunk_sizes 10 40 [:: 3; 4; 3; 25; 2] = Some [:: 7; 3; 10; 10; 7].
Proof. by []. Qed.
End Sizes.

(* ------------------------------------------------------- concrete instances *)
Definition rngQ : rng [fieldType of rat] :=
  Rng (fun _ _ _ i j => (i + 2 * j)%:R) (fun _ _ _ i j => odd (i + j)) (fun _ n => rev (iota 0 n))
      (fun _ _ n d => (iota 0 n, nseq n 1)) (fun _ => 2%:R).

Lemma rngQ_perm : perm_ok rngQ.
Proof. by move=> sd n; rewrite /rngQ /= perm_rev. Qed.

(* two projections around free_memory *)
Example C19_example :
  exists s, [/\ b_init rngQ (BCfg 2 3 no_ens PRademacher 2) no_ens = Ok s, (2 < 3)%N
    & is_dense PRademacher].
Proof. by eexists; split; first by reflexivity. Qed.

Example C20_example :
  let c := CCfg 2 3 no_ens PGrass in
  [/\ c_type c = PGrass, (c_fd c < c_pd c)%N &
      (1 < generations no_ens (rcons [:: BinInt.Z0] (BinInt.Zpos BinNums.xH)))%N].
Proof. by []. Qed.

(* three parameters 3, 4, 5 with capacity 10: chunks 7 and 5 *)
Definition chQ := ChCfg [:: CCfg 7 2 no_ens PNormal; CCfg 5 2 no_ens PNormal] 10 [:: 7; 5]%N 4 2.
Definition parQ : seq (pflat [fieldType of rat]) :=
  [:: (3%N, [:: [:: 1; 0; 1]]); (4%N, [:: [:: 1; 1; 0; 0]]); (5%N, [:: [:: 0; 0; 1; 0; 0]])].
Example C22_example :
  [/\ built chQ (map fst parQ) 21 1, clean (ch_max chQ) 0 (map fst parQ), parQ <> [::], (1 <= ch_fb chQ)%N
    & all (fun p => (size p.2 == 1%N) && all (fun r => size r == p.1) p.2) parQ].
Proof. by split=> //; split=> //; exists 12%N. Qed.
(* and 6, 4 fill a chunk of 10 exactly *)
Example C22_refused_example : clean 10 0 [:: 6; 4; 3]%N = false /\ chunk_sizes 10 13 [:: 6; 4; 3]%N = Some [:: 6; 7]%N.
Proof. by []. Qed.

Print Assumptions C19_history.
Print Assumptions C19_bad_width.
Print Assumptions C19_linear.
Print Assumptions C19_mask.
Print Assumptions C19_identity.
Print Assumptions C19_init.
Print Assumptions C20_independent.
Print Assumptions C20_grass.
Print Assumptions C20_grass_fits.
Print Assumptions C20_grass_collapses_refuted.
Print Assumptions C20_minus_one.
Print Assumptions C21_partition.
Print Assumptions C21_groups.
Print Assumptions C21_diverges.
Print Assumptions C22_flat.
Print Assumptions C22_dict.
Print Assumptions C22_refused.
