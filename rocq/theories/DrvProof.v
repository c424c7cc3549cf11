(* Lemmas about the retraining command. *)
Set Warnings "-notation-overridden,-ambiguous-paths".
From mathcomp Require Import all_ssreflect all_algebra.
From mathcomp Require Import zify.
From Verif Require Import Py NanoModel DrvModel DrvSpec.
Set Implicit Arguments. Unset Strict Implicit. Unset Printing Implicit Defensive.
Import GRing.Theory Num.Theory.
Local Open Scope ring_scope.

Section P.
Variables (d : dset) (usable : seq nat -> bool).

Lemma train_loop c (a : int) n w s j :
  let r := foldl (train1 usable c) (w, s) [seq a + k%:Z | k <- iota j n] in
  same_data w r.1 /\
  (forall m, outs r.1 m =
    if (a + j%:Z <= m - 1) && (m - 1 < a + j%:Z + n%:Z) && ~~ fails c (m - 1) then
      match train w, val_ w with
      | Some t, Some v => if usable t && usable v then Some (s + (m - 1 - a - j%:Z), t, v) else outs w m
      | _, _ => outs w m
      end else outs w m).
Proof.
elim: n w s j => [|n IH] w s j /=.
  split=> // m; case: ifP => // /andP[/andP[h1 h2] _]; exfalso; move: h1 h2; clear; lia.
set w1 := (X in foldl _ (X, _)).
have D : same_data w w1.
  by rewrite /w1; case: (train w) => [t|//]; case: (val_ w) => [v|//]; case: ifP.
have [DI E] := IH w1 (s + 1) j.+1; have [d1 d2 d3 d4] := D.
split; first by case: DI => e1 e2 e3 e4; split; [exact: etrans e1 d1|exact: etrans e2 d2|exact: etrans e3 d3|exact: etrans e4 d4].
move=> m; rewrite E d2 d3 {E DI D}.
have O : outs w1 m = if (m == a + j%:Z + 1) && ~~ fails c (m - 1) then
   match train w, val_ w with Some t, Some v => if usable t && usable v then Some (s, t, v) else outs w m | _, _ => outs w m end
   else outs w m.
  rewrite /w1; case: (train w) => [t|]; last by case: ifP.
  case: (val_ w) => [v|]; last by case: ifP.
  case: eqP => [->|ne] /=.
    have -> : a + j%:Z + 1 - 1 = a + j%:Z by clear; lia.
    by case: (fails c _) => /=; rewrite ?andbF //; case: (usable t && usable v) => //=; rewrite eqxx.
  by case: ifP => //= _; case: eqP => // e; case: ne.
rewrite O; case F: (fails c (m - 1)); rewrite /= ?andbF //= !andbT.
case: eqP => [e|ne].
  have -> : (a + j.+1%:Z <= m - 1) = false by move: e; clear; lia.
  have -> : (a + j%:Z <= m - 1) && (m - 1 < a + j%:Z + n.+1%:Z) by move: e; clear; lia.
  rewrite /=; case: (train w) => // t; case: (val_ w) => // v; case: ifP => // _; congr (Some (_, _, _)).
  by move: e; clear; lia.
have -> : (a + j.+1%:Z <= m - 1) && (m - 1 < a + j.+1%:Z + n%:Z) = (a + j%:Z <= m - 1) && (m - 1 < a + j%:Z + n.+1%:Z).
  by move: ne; clear; lia.
case: ifP => // _; case: (train w) => // t; case: (val_ w) => // v; case: ifP => // _; congr (Some (_, _, _)).
by clear; lia.
Qed.

Lemma call_outs w c m : known d ->
  outs (call d usable w c).1 m = if makes c m then
    match train (prepared d c w), val_ (prepared d c w) with
    | Some t, Some v => if usable t && usable v then Some (seed c + m - 2, t, v) else outs (prepared d c w) m
    | _, _ => outs (prepared d c w) m
    end else outs (prepared d c w) m.
Proof.
move=> hd; rewrite /call /makes /valid; case: (only c) => //=.
have -> (A : Type) (x y : A) : (if d is OtherName then x else y) = y by case: d hd.
case: (neg c) => //=; case: (above c) => //=.
set e := if _ then _ else _; set w1 := prepared d c w.
have ee (x : int) : (x < e) = (x < last_ c) && (x < total c) by rewrite /e; case: ifP; clear; lia.
rewrite /zrange; case: ifP => h; last first.
  case: ifP => // /and4P[h1 h2 h3 _]; exfalso; have := ee (m - 1); rewrite h2 h3 /=; move: h h1; clear; lia.
have [_ ->] := train_loop c (first c) (absz (e - first c)) w1 (seed c + first c - 1) 0.
have -> : (first c + 0%:Z <= m - 1) && (m - 1 < first c + 0%:Z + (absz (e - first c))%:Z) =
  [&& first c <= m - 1, m - 1 < last_ c & m - 1 < total c] by rewrite -ee; move: h; clear; lia.
rewrite -!andbA; case: ifP => // _; case: (train w1) => // t; case: (val_ w1) => // v; case: ifP => // _.
by congr (Some (_, _, _)); clear; lia.
Qed.

Lemma call_data w c : same_data (prepared d c w) (call d usable w c).1.
Proof.
rewrite /call; case: (only c) => //; set w1 := prepared d c w.
case: d => //; (case: (neg c) => //; case: (above c) => //; set e := if _ then _ else _; rewrite /zrange; case: ifP => // _;
  by have [] := train_loop c (first c) (absz (e - first c)) w1 (seed c + first c - 1) 0).
Qed.

Lemma prepared_outs c w : outs (prepared d c w) = outs w.
Proof.
rewrite /prepared; case: ifP => // _; rewrite /writes; move: (kill c) => k.
by case: d => //; [case: (input w) => [t|]; [|case: (dl c) => [t|]]|case: (file c) => [t|]];
  case: k => [|[|[|[|[|k]]]]].
Qed.
End P.
