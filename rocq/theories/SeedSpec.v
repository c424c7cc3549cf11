(* The documented seed of block i of ensemble e, independently of the model. *)
From Coq Require Import ZArith.
Definition spec_seed (seed e : Z) (i : nat) : Z := (seed + (100 * e + Z.of_nat i) * 1000)%Z.
(* A seed for component c of module number m, independently of the model. *)
Definition layer_seed (seed : Z) (m c : nat) : Z := (seed + Z.of_nat c + Z.of_nat m * 100 * 100)%Z.
