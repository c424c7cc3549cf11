(* Facts about seeds that need integer arithmetic. *)
From Coq Require Import ZArith Lia.
From Verif Require Import Seeds SeedSpec.
Local Open Scope Z_scope.

Lemma block_seedE s e i : block_seed s e i = spec_seed s e i.
Proof. unfold block_seed, spec_seed; lia. Qed.
Lemma cuda_seedE s e : cuda_seed s e = spec_seed s e 0.
Proof. unfold cuda_seed, spec_seed; lia. Qed.
Lemma zeqbP a b : Bool.reflect (a = b) (zeqb a b).
Proof. unfold zeqb; apply Z.eqb_spec. Qed.
Lemma zeqb_refl a : zeqb a a = true.
Proof. apply Z.eqb_refl. Qed.
