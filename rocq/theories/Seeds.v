(* Seeds handed to torch.Generator.manual_seed. *)
From Coq Require Import ZArith.
Local Open Scope Z_scope.

(* projection.py 297: s = self.seed + int(1e3) * i + int(1e5) * self.ensemble_id *)
Definition block_seed (seed ens : Z) (i : nat) : Z := seed + 1000 * Z.of_nat i + 100000 * ens.
(* projection.py 582: current_seed = self.seed + int(1e5) * ensemble_id *)
Definition cuda_seed (seed ens : Z) : Z := seed + 100000 * ens.
(* core/compressor.py 330, 463, 486: base seed of the first (comp = 0) and second
   (comp = 1) sparsifier of the module number [mid] *)
Definition sparsifier_seed (seed : Z) (mid comp : nat) : Z :=
  seed + 10000 * Z.of_nat mid + Z.of_nat comp.
(* core/compressor.py 369: seed of its projector *)
Definition projector_seed (seed : Z) (mid : nat) : Z := seed + 10000 * Z.of_nat mid + 1.
Definition no_ens : Z := -1.
Definition zeqb (a b : Z) : bool := Z.eqb a b.
