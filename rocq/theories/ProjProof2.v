(* Lemmas about CudaProjector and ChunkedCudaProjector. *)
Set Warnings "-notation-overridden,-ambiguous-paths".
From mathcomp Require Import all_ssreflect all_algebra zify.
From Coq Require ZArith.
From Verif Require Import Py Tensor TensorProof Seeds SeedSpec SeedProof ProjModel ProjSpec ProjProof.
Set Implicit Arguments. Unset Strict Implicit. Unset Printing Implicit Defensive.
Import GRing.Theory.
Local Open Scope ring_scope.

Section Cuda.
Variable F : fieldType.
Variable G : rng F.
Notation row := (seq F).
Hypothesis perm : forall sd n, perm_eq (g_perm G sd n) (iota 0 n).

(* the components held for ensemble [e] *)
Definition comps (c : ccfg) (s : cproj F) (e : Z) : Prop :=
  let sd := spec_seed (c_seed c) e 0 in
  match c_type c with
  | PNormal | PRademacher => cp_mat s = Some (dense G (c_type c) sd (c_fd c) (c_pd c))
  | PSjlt => cp_sjlt s = Some (c_fd c, g_sjlt G sd None (c_fd c) (c_pd c))
  | PMask => cp_mask s = Some (mask G sd (c_fd c) (c_pd c))
  | _ => True
  end.

Definition crep (c : ccfg) (s : cproj F) : Prop := cp_cur s = no_ens \/ comps c s (cp_cur s).

Lemma c_init_rep c m : crep c (c_init F m).
Proof. by left. Qed.

Lemma comps_gen c s e : comps c (c_generate G c s e) e /\ cp_cur (c_generate G c s e) = e.
Proof. by rewrite /comps /c_generate; case: c_type; rewrite /= -?cuda_seedE. Qed.

Lemma c_project_rep c s X e : crep c s -> crep c (c_project G c s X e).1.
Proof.
rewrite /c_project /=; case: zeqbP => // ne _; right.
by have [h ->] := comps_gen c s e.
Qed.

Lemma c_project_comps c s X e : crep c s -> e <> no_ens -> comps c (c_project G c s X e).1 e.
Proof.
rewrite /c_project /=; case: zeqbP => [->|ne] h hn; last by have [] := comps_gen c s e.
by case: h.
Qed.

Lemma sjlt_ok din dout h (X : seq row) : all (fun x => size x == din) X ->
  sjlt_apply dout (din, h) X =
  Ok [seq mkseq (fun j => \sum_(i < din | nth 0%N h.1 i == j) nth 0 h.2 i * nth 0 x i) dout | x <- X].
Proof.
move=> hX; rewrite /sjlt_apply hX; congr Ok; apply/eq_in_map => x xX.
rewrite /mkseq; apply: eq_map => j; rewrite /dot (eqP (allP hX x xX)) [RHS]big_mkcond /=.
apply: eq_bigr => i _; case: eqP => _; first by rewrite mul1r mulrC.
by rewrite mul0r mulr0.
Qed.

Lemma c_project_ok c s X e : crep c s -> e <> no_ens -> c_type c <> PGrass ->
  all (fun x => size x == c_fd c) X ->
  (c_project G c s X e).2 = Ok [seq crow G c e x | x <- X].
Proof.
move=> h hn ng hX; have := c_project_comps X h hn.
rewrite /c_project /=; set s1 := (if _ then _ else _); rewrite /comps /crow.
case et: (c_type c) ng => //= _.
- by rewrite map_id.
- move=> ->; rewrite matmul_ok //=; congr Ok; rewrite -map_comp; apply: eq_map => x /=.
  by rewrite /apply_matrix /mkseq -map_comp; apply: eq_map => j /=.
- move=> ->; rewrite matmul_ok //=; congr Ok; rewrite -map_comp; apply: eq_map => x /=.
  rewrite /apply_matrix /mkseq -map_comp; apply: eq_map => j /=; congr (_ / _).
  by apply: eq_bigr => i _; congr (_ * _); apply: (@denseE F G PRademacher).
- by move=> ->; rewrite sjlt_ok.
- by move=> ->; rewrite (select_ok hX) //; apply: mask_lt.
Qed.

Lemma size_crow c e x : fits c -> size (crow G c e x) = c_pd c.
Proof.
rewrite /fits /crow; case: c_type => //=; rewrite ?size_mkseq // => h; rewrite size_map.
have [_ -> _] := mask_kept (c_pd c) (perm (spec_seed (c_seed c) e 0) (c_fd c)).
exact/minn_idPl.
Qed.

(* ------------------------------------------------------------------ GraSS *)
(* intermediate dimension used by the k-th generation (k >= 1) *)
Definition gdim (c : ccfg) (m : nat) (k : nat) : nat :=
  if (c_pd c * m <= c_fd c)%N then (c_pd c * m)%N
  else if k == 1%N then c_fd c else (c_pd c * (c_fd c %/ c_pd c))%N.

Definition grep (c : ccfg) (m : nat) (s : cproj F) (k : nat) : Prop :=
  [/\ cp_mult s = (if (c_pd c * m <= c_fd c)%N || (k == 0%N) then m else (c_fd c %/ c_pd c)%N),
      (k = 0%N -> cp_mask s = None /\ cp_sjlt s = None)
    & (0 < k)%N -> cp_mask s = Some (mask G (spec_seed (c_seed c) (cp_cur s) 0) (c_fd c) (gdim c m k)) /\
                   cp_sjlt s = Some (gdim c m k,
                      g_sjlt G (spec_seed (c_seed c) (cp_cur s) 0) (Some (c_fd c)) (gdim c m k) (c_pd c))].

Lemma gdim_le c m k : (gdim c m k <= c_fd c)%N.
Proof.
rewrite /gdim; case: ifP => // _; case: ifP => // _; rewrite mulnC; exact: leq_trunc_div.
Qed.

Lemma grep_gen c m s k e : c_type c = PGrass -> grep c m s k ->
  grep c m (c_generate G c s e) k.+1 /\ cp_cur (c_generate G c s e) = e.
Proof.
move=> et [h1 h2 h3]; rewrite /c_generate et /=; split=> //.
have ed : (grass_dim c (cp_mult s)) = (gdim c m k.+1, if (c_pd c * m <= c_fd c)%N then m else (c_fd c %/ c_pd c)%N).
  rewrite /grass_dim /gdim h1; case: (leqP (c_pd c * m) (c_fd c)) => h /=.
    by rewrite ltnNge h.
  case: eqP => [k0|k0]; first by rewrite h k0.
  have -> : (c_fd c < c_pd c * (c_fd c %/ c_pd c))%N = false.
    by apply/negbTE; rewrite -leqNgt mulnC leq_trunc_div.
  by case: eqP => //; lia.
split=> //=; first by rewrite ed /= orbF.
by rewrite ed /= -cuda_seedE.
Qed.

Lemma grep_run c m s k (ops : seq (seq row * Z)) : c_type c = PGrass -> grep c m s k ->
  let s' := foldl (fun s o => (c_project G c s o.1 o.2).1) s ops in
  grep c m s' (k + generations (cp_cur s) (map snd ops)) /\
  cp_cur s' = last (cp_cur s) (map snd ops).
Proof.
move=> et; elim: ops s k => [|[X e] ops IH] s k h /=; first by rewrite addn0.
case: zeqbP => [->|ne] /=; first by rewrite add0n; have := IH s k h.
have [h1 h2] := grep_gen e et h; have [h3 h4] := IH _ _ h1.
by rewrite h2 addSnnS in h3; rewrite h2 in h4; rewrite add1n.
Qed.

Lemma grass_project c m s k X e : c_type c = PGrass -> grep c m s k ->
  all (fun x => size x == c_fd c) X ->
  (c_project G c s X e).2 =
  (let k' := (k + ~~ zeqb e (cp_cur s))%N in
   if k' == 0%N then Err TypeError else Ok [seq grass_row G c e (gdim c m k') x | x <- X]).
Proof.
move=> et h hX; rewrite /c_project /= et.
set s1 := (if _ then _ else _); set k' := (k + _)%N.
have [[h1 h2 h3] h4] : grep c m s1 k' /\ cp_cur s1 = e.
  rewrite /s1 /k'; case: zeqbP => [->|ne] /=; first by rewrite addn0.
  by rewrite addn1; apply: grep_gen.
case: (posnP k') => k0; first by have [-> _] := h2 k0.
have [-> ->] := h3 k0; rewrite h4.
have hp := perm (spec_seed (c_seed c) e 0) (c_fd c).
rewrite (select_ok hX) /=; last by apply: mask_lt.
rewrite sjlt_ok; last first.
  rewrite all_map; apply/allP => x _ /=; rewrite size_map.
  have [_ -> _] := mask_kept (gdim c m k') hp.
  by rewrite (minn_idPl (gdim_le _ _ _)).
congr Ok; rewrite -map_comp; apply: eq_map => x /=; rewrite /grass_row /mkseq; apply: eq_map => j.
apply: eq_bigr => i _; rewrite (nth_map 0%N) //.
have [_ -> _] := mask_kept (gdim c m k') hp.
by rewrite (minn_idPl (gdim_le _ _ _)).
Qed.
End Cuda.
