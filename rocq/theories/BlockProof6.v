(* Histories of calls on one attributor. *)
Set Warnings "-notation-overridden,-ambiguous-paths".
From mathcomp Require Import all_ssreflect all_algebra zify.
From Verif Require Import Py Dict Tensor TensorProof MetaModel OffModel BlockModel BlockSpec BlockProof BlockProof2 BlockProof3 BlockProof4 BlockProof5.
Set Implicit Arguments. Unset Strict Implicit. Unset Printing Implicit Defensive.
Import GRing.Theory.
Local Open Scope ring_scope.

Section Hist.
Variables (F : fieldType) (Name X Y : Type) (names : seq Name) (ef : bool) (lam : option F).
Variables (tg : seq X -> res (seq (gr F))) (eg : seq Y -> res (seq (gr F))).
Variables (ds : seq nat) (g : nat -> X -> seq F) (h : nat -> Y -> seq F).
Hypothesis hn : size names = size ds.
Hypothesis s0 : (0 < sumn ds)%N.
Hypothesis Hg : hooks_give ds g tg.
Hypothesis Hh : hooks_give ds h eg.
Notation d l := (nth 0%N ds l). Notation nl := (size ds).
Notation att := (att F Name). Notation st := (seq (seq X) * option (seq (seq X)))%type.

Lemma mx_empty l (A B : 'M[F]_(d l)) : d l = 0%N -> A = B.
Proof. by move=> e; apply/matrixP => i; exfalso; case: i => i; rewrite e. Qed.
Definition Mof (xs : seq X) (l : nat) : 'M[F]_(d l) := if ef then invmx (damped ds (lam_of lam) g xs l) else 1%:M.
Definition noprec (a : att) := forall l, (l < nl)%N -> d l = 0%N -> retrieve_prec l (a_off a) = None.
Lemma noprec_eq a a' : o_prec (a_off a') = o_prec (a_off a) -> noprec a -> noprec a'.
Proof. by move=> e n l ln d0; rewrite -(n l ln d0) /retrieve_prec e. Qed.

Definition inv (a : att) (s : st) : Prop :=
  (s = ([::], None) /\ exists2 dir, d_meta dir = None & a = new_att F names dir) \/
  [/\ base ds g a s.1, (0 < size s.1)%N, noprec a &
   if s.2 is Some J then dictE ds (iv g (Mof (flatten J))) (o_ifvp (a_off a)) J
   else ef = false /\ o_ifvp (a_off a) = [::]].

Lemma inv_cache L a s : inv a s -> cacheable ds ef (lam_of lam) g L s ->
  exists a', cache names ef lam tg L a = (a', Ok tt) /\ inv a' (recache ef L s) /\ (0 < size (recache ef L s).1)%N.
Proof.
move=> IV [bs0 nb0 cmp U].
have S : start names ds g a s.1.
  by case: IV => [[-> [dir dn ->]]|[B _ _ _]]; [left; split=> //; exists dir|right].
have [a1 [B1 i1 p1 ->]] := cache_head ef lam hn s0 Hg S bs0 nb0 cmp.
have E0 : (0 < size (over s.1 L))%N by rewrite size_over leq_max nb0.
have n1 : noprec a1.
  apply: (noprec_eq p1); case: IV => [[_ [dir dn ->]]|[]] // l ln _.
  by rewrite /retrieve_prec /= size_nseq hn leqNgt ln /= nth_nseq; case: ifP.
rewrite /recache; case: (boolP ef) => hef; last first.
  exists a1; split=> //; split=> //; right; split=> //=.
  case: IV => [[-> [dir dn ea]]|[_ _ _]] /=; first by rewrite i1 ea (negbTE hef).
  by rewrite i1; case: (s.2).
have [a2 [e2 B2 i2 p2]] := prec_ok hn s0 Hg B1 E0 hef (U hef).
have pk : precs_ok ef (Mof (flatten (over s.1 L))) a2.
  rewrite /precs_ok hef => l ln; rewrite p2 //; case: ltnP => d0; first by left; rewrite /Mof hef.
  have e0 : d l = 0%N by apply/eqP; rewrite -leqn0.
  by right; split; [exact: n1|exact: mx_empty].
have [a3 [e3 B3 D3 p3]] := ifvp_ok hn s0 Hg B2 E0 pk.
rewrite hef in e2 e3; rewrite e2 /sbind e3; exists a3; split=> //; split=> //; right; split=> //.
apply: (noprec_eq p3) => l ln d0; rewrite p2 //.
by case: ltnP => [pos|_]; [exfalso; move: pos d0; clear; lia|exact: n1].
Qed.

Lemma used_ready a s : inv a s -> (0 < size s.1)%N -> shape (used s) = shape s.1 ->
  [/\ base ds g a s.1, noprec a & ready ef g (Mof (flatten (used s))) a s.1 (used s)].
Proof.
case=> [[-> //]|[B _ np D] E0 sU]; split=> //; split=> //; move: D; rewrite /used.
case: (s.2) => [J|[ne i0]] /=; first by right.
by left; split=> //; split=> //; rewrite /precs_ok /Mof ne.
Qed.
Lemma inv_after a a' (s : st) (J : seq (seq X)) : base ds g a' s.1 -> (0 < size s.1)%N -> noprec a ->
  o_prec (a_off a') = o_prec (a_off a) -> dictE ds (iv g (Mof (flatten J))) (o_ifvp (a_off a')) J ->
  inv a' (s.1, Some J).
Proof. by move=> B E0 np p D; right; split=> //; exact: (noprec_eq p). Qed.

Lemma attr_cached (Lt : loader X) (Le : loader Y) a s : inv a s -> (0 < size s.1)%N -> shape (used s) = shape s.1 ->
  (0 < ld_bs Le)%N -> (0 < nbatches Le)%N ->
  exists a', attribute names ef lam tg eg Lt Le a =
    (a', Ok (table (flatten (used s)) (samples Le) (score ds ef (lam_of lam) g (flatten (used s)) h))) /\
    inv a' (s.1, Some (used s)).
Proof.
move=> IV E0 sU b0 n0; have [B np R] := used_ready IV E0 sU.
have [a' [e B' D' p']] := attribute_ok lam hn s0 Hg Hh Lt R E0 b0 n0.
by exists a'; split=> //; apply: inv_after np p' D'.
Qed.
Lemma step_ok o a s : inv a s -> allowed ds ef (lam_of lam) g o s ->
  exists a', step names ef lam tg eg o a = (a', Ok (answer ds ef (lam_of lam) g h o s).2) /\
    inv a' (answer ds ef (lam_of lam) g h o s).1.
Proof.
case: o => [L|Lt Le|] IV /=.
- by move=> al; have [a' [-> [iv' _]]] := inv_cache IV al; exists a'.
- move=> [cf sU b0 n0].
  case: (posnP (size s.1)) => [/size0nil sE|E0]; last first.
    have fE : first ef Lt s = s by rewrite /first; case: (s.1) E0.
    rewrite fE in sU *; have [a' [-> iv']] := attr_cached Lt IV E0 sU b0 n0; by exists a'.
  have fE : first ef Lt s = recache ef Lt s by rewrite /first sE.
  rewrite fE in sU *.
  have [a1 [e1 [iv1 E1]]] := inv_cache IV (cf sE).
  have af : a_full a = false by case: IV => [[_ [dir _ ->]]|[_]]; rewrite ?sE.
  have [a' [e2 iv']] := @attr_cached Lt Le a1 _ iv1 E1 sU b0 n0.
  exists a'; split=> //; have [B1 _ _] := used_ready iv1 E1 sU; have f1 := b_full B1.
  have -> : attribute names ef lam tg eg Lt Le a = attribute names ef lam tg eg Lt Le a1 by rewrite /attribute af e1 f1.
  by rewrite e2.
- move=> [sE sU]; have E0 : (0 < size s.1)%N by case: (s.1) sE.
  have [B np R] := used_ready IV E0 sU.
  have [a' [-> B' D' p']] := self_ok hn s0 Hg R E0.
  by exists a'; split=> //; apply: inv_after np p' D'.
Qed.
Lemma run_ok os a s : inv a s -> legal ds ef (lam_of lam) g h os s ->
  run names ef lam tg eg os a = [seq Ok x | x <- answers ds ef (lam_of lam) g h os s].
Proof.
elim: os a s => [|o os IH] a s IV //= [al lg].
by have [a' [-> iv']] := step_ok IV al; rewrite /= (IH _ _ iv' lg).
Qed.
End Hist.
