(* C23: when do different blocks, ensembles and layers draw different randomness? *)
From Coq Require Import ZArith Lia.
From Verif Require Import Seeds SeedSpec SeedProof.
Local Open Scope Z_scope.

(* blocks and ensembles of one CPU projector *)
Theorem C23_blocks_ensembles : forall s e e' i i',
  (i < 100)%nat -> (i' < 100)%nat ->
  block_seed s e i = block_seed s e' i' -> e = e' /\ i = i'.
Proof. intros s e e' i i'; unfold block_seed; lia. Qed.

Theorem C23_blocks : forall s e i i', block_seed s e i = block_seed s e i' -> i = i'.
Proof. intros s e i i'; unfold block_seed; lia. Qed.

(* proj_dim > 10000: block 100+i of an ensemble is block i of the next one *)
Theorem C23_ensembles_collide_refuted : forall s e i,
  block_seed s e (100 + i) = block_seed s (e + 1) i.
Proof. intros; unfold block_seed; lia. Qed.

(* CUDA projectors have one block: all ensembles differ *)
Theorem C23_cuda : forall s e e', cuda_seed s e = cuda_seed s e' -> e = e'.
Proof. intros s e e'; unfold cuda_seed; lia. Qed.

(* compressed layers (ensemble 0 only): up to 10 blocks per component all
   (module, component, block) triples of the first stage differ *)
Theorem C23_sparsifiers : forall s m m' k k' i i',
  (k <= 1)%nat -> (k' <= 1)%nat -> (i < 10)%nat -> (i' < 10)%nat ->
  block_seed (sparsifier_seed s m k) 0 i = block_seed (sparsifier_seed s m' k') 0 i' ->
  m = m' /\ k = k' /\ i = i'.
Proof. intros s m m' k k' i i'; unfold block_seed, sparsifier_seed; lia. Qed.

(* beyond 10 blocks (more than 1000 dimensions) a layer reuses the matrices of
   the module that follows it *)
Theorem C23_layers_collide_refuted : forall s e m k i,
  block_seed (sparsifier_seed s m k) e (10 + i) = block_seed (sparsifier_seed s (S m) k) e i.
Proof. intros; unfold block_seed, sparsifier_seed; lia. Qed.

(* with the same base seed (the default 0 for both stages) the projector of a
   layer has exactly the seed of its second sparsifier, for every block and
   ensemble *)
Theorem C23_projector_collides_refuted : forall s e m i,
  block_seed (projector_seed s m) e i = block_seed (sparsifier_seed s m 1) e i.
Proof. intros; unfold block_seed, projector_seed, sparsifier_seed; lia. Qed.

Example C23_example : block_seed 7 2 3 = 203007 /\ block_seed 0 0 100 = block_seed 0 1 0.
Proof. split; reflexivity. Qed.

Print Assumptions C23_blocks_ensembles.
Print Assumptions C23_blocks.
Print Assumptions C23_ensembles_collide_refuted.
Print Assumptions C23_cuda.
Print Assumptions C23_sparsifiers.
Print Assumptions C23_layers_collide_refuted.
Print Assumptions C23_projector_collides_refuted.
