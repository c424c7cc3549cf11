(* The residual network as a formula on one image: convolutions with bias as sums over the pixels of the image,
   no batches, no modes, no state, no shape checks. *)
Set Warnings "-notation-overridden,-ambiguous-paths".
From mathcomp Require Import all_ssreflect all_algebra.
Set Implicit Arguments. Unset Strict Implicit. Unset Printing Implicit Defensive.
Import GRing.Theory Num.Theory.
Local Open Scope ring_scope.

Section Spec.
Variable F : realFieldType.
(* entry by channel, row, column *)
Definition image := nat -> nat -> nat -> F.
(* every pixel (i', j') under the k x k window at (i, j), moved by s and starting p before the border *)
Definition sconv (k s p cin h wd : nat) (w : nat -> nat -> nat -> nat -> F) (b : nat -> F) (x : image) : image :=
  fun o i j => b o + \sum_(c < cin) \sum_(i' < h) \sum_(j' < wd)
    if [&& (i * s <= i' + p)%N, (i' + p < i * s + k)%N, (j * s <= j' + p)%N & (j' + p < j * s + k)%N]
    then w o c (i' + p - i * s)%N (j' + p - j * s)%N * x c i' j' else 0.
Definition pos (x : image) : image := fun c i j => Num.max (x c i j) 0.
(* number of windows: every s-th position *)
Definition up (h s : nat) : nat := ((h + s.-1) %/ s)%N.

Variables (fw : nat -> nat -> nat -> nat -> nat -> F) (fb : nat -> nat -> F).
Definition sblock (no cin planes s h wd : nat) (x : image) : image :=
  let main := pos (sconv 3 1 1 planes (up h s) (up wd s) (fw no.+1) (fb no.+1)
                (pos (sconv 3 s 1 cin h wd (fw no) (fb no) x))) in
  let short := if (s == 1%N) && (cin == planes) then x else sconv 1 s 0 cin h wd (fw no.+2) (fb no.+2) x in
  pos (fun c i j => main c i j + short c i j).
(* blocks (in planes, planes, stride); the result with its height and width *)
Fixpoint sblocks (no : nat) (gs : seq (nat * nat * nat)) (h wd : nat) (x : image) : nat * nat * image :=
  if gs is (c, p, s) :: gs' then sblocks (no + 3)%N gs' (up h s) (up wd s) (sblock no c p s h wd x) else (h, wd, x).
Definition logits (feat : nat) gs (W : nat -> nat -> F) (b : nat -> F) (h wd : nat) (x : image) (o : nat) : F :=
  let: (h', w', y) := sblocks 1 gs h wd (pos (sconv 3 1 1 3 h wd (fw 0%N) (fb 0%N) x)) in
  b o + \sum_(c < feat) W o c * ((\sum_(i < h') \sum_(j < w') y c i j) / (h' * w')%:R).
End Spec.
