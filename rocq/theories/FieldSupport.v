(* Lets stdlib [ring]/[field] run on goals over a mathcomp field.  Support only;
   models nothing. *)
Set Warnings "-notation-overridden,-ambiguous-paths".
From mathcomp Require Import all_ssreflect all_algebra.
Set Implicit Arguments. Unset Strict Implicit. Unset Printing Implicit Defensive.
Import GRing.Theory.
Local Open Scope ring_scope.
Require Import Field.

Section Ops.
Variable F : fieldType.
Definition fzero : F := 0.
Definition fone : F := 1.
Definition fadd (x y : F) : F := x + y.
Definition fmul (x y : F) : F := x * y.
Definition fopp (x : F) : F := - x.
Definition finv (x : F) : F := x^-1.
Definition fsub (x y : F) : F := x - y.
Definition fdiv (x y : F) : F := x / y.
Lemma fzeroE : 0 = fzero. Proof. by []. Qed.
Lemma foneE : 1 = fone. Proof. by []. Qed.
Lemma faddE x y : x + y = fadd x y. Proof. by []. Qed.
Lemma fmulE x y : x * y = fmul x y. Proof. by []. Qed.
Lemma foppE x : - x = fopp x. Proof. by []. Qed.
Lemma finvE x : x^-1 = finv x. Proof. by []. Qed.
Lemma fring : @ring_theory F fzero fone fadd fmul fsub fopp eq.
Proof.
by split=> //; [exact: add0r|exact: addrC|exact: addrA|exact: mul1r
  |exact: mulrC|exact: mulrA|exact: mulrDl|exact: subrr].
Qed.
Lemma ffield : @field_theory F fzero fone fadd fmul fsub fopp fdiv finv eq.
Proof.
split=> //; [exact: fring| by apply/eqP; rewrite oner_eq0 |].
by move=> p /eqP h; rewrite /fmul /finv mulVf.
Qed.
End Ops.

Ltac fnorm := rewrite ?exprS ?expr0 ?mulr1 ?finvE ?foppE ?fmulE ?faddE ?foneE ?fzeroE;
  lazymatch goal with |- @eq _ ?a ?b =>
    lazymatch goal with
    | |- context [@fadd ?K _ _] => change (@eq (GRing.Field.sort K) a b)
    | |- context [@fmul ?K _ _] => change (@eq (GRing.Field.sort K) a b)
    | |- context [@fopp ?K _] => change (@eq (GRing.Field.sort K) a b)
    | |- context [@finv ?K _] => change (@eq (GRing.Field.sort K) a b)
    end end.
