(* Setting up compressors. *)
Set Warnings "-notation-overridden,-ambiguous-paths".
From mathcomp Require Import all_ssreflect all_algebra zify.
From Coq Require ZArith.
From Verif Require Import Py Tensor TensorProof Seeds SeedSpec SeedProof ProjModel ProjSpec ProjProof CompModel CompSpec CompProof.
Set Implicit Arguments. Unset Strict Implicit. Unset Printing Implicit Defensive.
Import GRing.Theory.
Local Open Scope ring_scope.

Section Setup.
Variable F : fieldType.
Variable G : rng F.
Notation row := (seq F).
Hypothesis hperm : forall sd n, perm_eq (g_perm G sd n) (iota 0 n).

(* what random_project should build *)
Definition cfg (q : pparams) (fd : nat) (seed : BinNums.Z) : bcfg := BCfg fd (asked q fd) seed (q_type q) 100.

Lemma rp_ok fbs fd q seed p : random_project G (fbs * fd) fbs (dim_of (q_dim q) (q_type q) fd) seed (q_type q) = Ok p ->
  [/\ live G p, pj_cfg p = cfg q fd seed & (0 < fbs)%N && feasible q].
Proof.
rewrite /random_project; case: fbs => [//|fbs]; rewrite [_.+1 == 0%N]/=; case et: (q_type q) => //.
all: rewrite /dim_of; case ed: (q_dim q) => [d|] //.
all: rewrite mulKn //; set c := BCfg _ _ _ _ _; case ei: (b_init G c BinNums.Z0) => [s|//] /= -[<-].
all: have [h1 h2 h3] := b_init_ok ei.
all: split=> //; first by rewrite /cfg /asked ed et.
all: rewrite /feasible et ed //; move: h1; rewrite /b_bs /c /=; lia.
Qed.

Lemma rp_exists fbs fd q seed : (0 < fbs)%N -> (0 < fd)%N -> feasible q ->
  exists p, random_project G (fbs * fd) fbs (dim_of (q_dim q) (q_type q) fd) seed (q_type q) = Ok p.
Proof.
rewrite /random_project /feasible; case: fbs => [//|fbs] _ fd0; rewrite [_.+1 == 0%N]/=; case et: (q_type q) => //.
all: rewrite /dim_of; case ed: (q_dim q) => [d|] // hd.
all: rewrite mulKn // /b_init /b_bs /=.
all: rewrite ifF; last by apply/negbTE; move: hd fd0; clear; lia.
all: by eexists.
Qed.

Lemma odim_cfg q fd seed : (0 < fd)%N -> feasible q -> (0 < odim (cfg q fd seed))%N.
Proof.
rewrite /odim /cfg /= /feasible /asked; case: (q_type q) => // h; case: (q_dim q) => [d|] //= hd.
by rewrite leq_min hd h.
Qed.

Lemma call_zrow p fd : live G p -> b_fd (pj_cfg p) = fd -> exists2 y, (pj_call G p (zrow F fd)).2 = Ok y & wide y = odim (pj_cfg p).
Proof.
move=> hp e; eexists; first by apply: (call_ok hperm hp); rewrite /= size_nseq e eqxx.
by rewrite /wide /= size_lin.
Qed.

Definition seed1 (q : pparams) (mid c : nat) : BinNums.Z := layer_seed (q_seed q) mid c.
Lemma sparsifier_seedE q mid c : sparsifier_seed (q_seed q) mid c = seed1 q mid c.
Proof. by rewrite /sparsifier_seed /seed1 /layer_seed; lia. Qed.
Lemma projector_seedE q mid : projector_seed (q_seed q) mid = seed1 q mid 1.
Proof. by rewrite /projector_seed /seed1 /layer_seed; lia. Qed.

Definition cfg1 l q1 mid := cfg q1 (l_out l) (seed1 q1 mid 0).
Definition cfg2 l q1 mid := cfg q1 (fins l) (seed1 q1 mid 1).
Definition cfg3 l q1 q2 mid := cfg q2 (odim (cfg1 l q1 mid) * odim (cfg2 l q1 mid))%N (seed1 q2 mid 1).

Lemma setup_okP (Name : eqType) n L q1 q2 mid nm l k :
  setup_module G n L (Some q1) (Some q2) mid (Modu (nm : Name) (MLinear l) true) = Ok (Some k) ->
  [/\ alive G k, pj_cfg (k_one k) = cfg1 l q1 mid, pj_cfg (k_two k) = cfg2 l q1 mid, pj_cfg (k_proj k) = cfg3 l q1 q2 mid
    & [&& (0 < n)%N, (0 < L)%N, feasible q1 & feasible q2]].
Proof.
rewrite /setup_module /= /setup_sparsifier.
case e1: (random_project _ _ _ _ _ _) => [p1|//]; have [l1 c1 f1] := rp_ok e1.
case e2: (random_project _ _ _ _ _ _) => [p2|//]; have [l2 c2 f2] := rp_ok e2.
cbn [rbind].
case ca: (pj_call G p1 _) => [p1' t1]; case cb: (pj_call G p2 _) => [p2' t2].
have [l1' c1'] := live_call (zrow F (l_out l)) l1; have [y1 z1 w1] := call_zrow l1 (f_equal b_fd c1).
have [l2' c2'] := live_call (zrow F (fins l)) l2; have [y2 z2 w2] := call_zrow l2 (f_equal b_fd c2).
rewrite ca /= in l1' c1' z1; rewrite cb /= in l2' c2' z2; rewrite z1 z2; cbn [rbind].
rewrite /setup_projector; cbn [fst snd].
case da: (pj_call G p1' _) => [p1'' t1']; case db: (pj_call G p2' _) => [p2'' t2'].
rewrite c1 in c1'; rewrite c2 in c2'.
have [l3 c3] := live_call (zrow F (l_out l)) l1'; have [y3 z3 w3] := call_zrow l1' (f_equal b_fd c1').
have [l4 c4] := live_call (zrow F (fins l)) l2'; have [y4 z4 w4] := call_zrow l2' (f_equal b_fd c2').
rewrite da /= in l3 c3 z3; rewrite db /= in l4 c4 z4; rewrite z3 z4; cbn [rbind].
case e3: (random_project _ _ _ _ _ _) => [p3|//]; have [l5 c5 f5] := rp_ok e3.
move=> -[<-] /=; rewrite c3 c4 c1' c2' c5 w3 w4 c1' c2'.
split=> //; rewrite /cfg1 /cfg2 /cfg3 -?sparsifier_seedE -?projector_seedE //.
by move: f1 f5 => /andP [/[!muln_gt0] /andP [-> ->] ->] /andP [_ ->].
Qed.

Lemma setup_existsP (Name : eqType) n L q1 q2 mid nm l : (0 < n)%N -> (0 < L)%N -> (0 < l_out l)%N -> (0 < fins l)%N ->
  feasible q1 -> feasible q2 ->
  exists k, setup_module G n L (Some q1) (Some q2) mid (Modu (nm : Name) (MLinear l) true) = Ok (Some k).
Proof.
move=> n0 L0 o0 i0 g1 g2; rewrite /setup_module /= /setup_sparsifier.
have r0 : (0 < n * L)%N by rewrite muln_gt0 n0.
have [p1 e1] := rp_exists (sparsifier_seed (q_seed q1) mid 0) r0 o0 g1; rewrite e1; have [l1 c1 f1] := rp_ok e1.
have [p2 e2] := rp_exists (sparsifier_seed (q_seed q1) mid 1) r0 i0 g1; rewrite e2; have [l2 c2 f2] := rp_ok e2.
cbn [rbind].
case ca: (pj_call G p1 _) => [p1' t1]; case cb: (pj_call G p2 _) => [p2' t2].
have [l1' c1'] := live_call (zrow F (l_out l)) l1; have [y1 z1 w1] := call_zrow l1 (f_equal b_fd c1).
have [l2' c2'] := live_call (zrow F (fins l)) l2; have [y2 z2 w2] := call_zrow l2 (f_equal b_fd c2).
rewrite ca /= in l1' c1' z1; rewrite cb /= in l2' c2' z2; rewrite z1 z2; cbn [rbind].
rewrite /setup_projector; cbn [fst snd].
case da: (pj_call G p1' _) => [p1'' t1']; case db: (pj_call G p2' _) => [p2'' t2'].
rewrite c1 in c1'; rewrite c2 in c2'.
have [y3 z3 w3] := call_zrow l1' (f_equal b_fd c1').
have [y4 z4 w4] := call_zrow l2' (f_equal b_fd c2').
rewrite da /= in z3; rewrite db /= in z4; rewrite z3 z4; cbn [rbind].
have w0 : (0 < wide y3 * wide y4)%N by rewrite w3 w4 c1' c2' muln_gt0 !odim_cfg.
have [p3 ->] := rp_exists (projector_seed (q_seed q2) mid) n0 w0 g2.
by eexists.
Qed.
End Setup.
