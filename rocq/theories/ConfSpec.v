(* What a user relies on about the settings of the training script and the blocks of a text. *)
Set Warnings "-notation-overridden,-ambiguous-paths".
From Coq Require String.
From mathcomp Require Import all_ssreflect.
From Verif Require Import Py Dict ConfModel.
Import String.
Set Implicit Arguments. Unset Strict Implicit. Unset Printing Implicit Defensive.

(* the argument --k=v *)
Definition asg (kv : word * word) : word := [:: 45; 45] ++ kv.1 ++ 61 :: kv.2.
Definition plain (kv : word * word) : bool := (61 \notin kv.1) && (61 \notin kv.2).
(* names the script itself uses while it reads the arguments *)
Definition internal : seq word := [:: w "arg"; w "key"; w "val"; w "attempt"; w "config_file"; w "f"].
(* the text given last for k *)
Definition last_text (k : word) (kvs : seq (word * word)) : option word :=
  last None [seq Some kv.2 | kv <- kvs & kv.1 == k].
Section Conf.
Variables (V : Type) (Ty : eqType) (ty : V -> Ty) (vstr : word -> V) (lit : word -> res V).
(* the value of a text: the literal, or the text itself *)
Definition means (v : word) (x : V) : Prop := lit v = Ok x \/ (lit v = Err ValueError /\ x = vstr v).
(* a known setting and a value of the same type *)
Definition fits (g : dict word V) (kv : word * word) : Prop :=
  exists x old, [/\ means kv.2 x, dget g kv.1 = Some old & ty x = ty old].
End Conf.

(* b is t cut into blocks of bs entries, without a rest *)
Section Wiki.
Variable T : Type.
Definition full_blocks (bs : nat) (t : seq T) (b : seq (seq T)) : Prop :=
  all (fun r => size r == bs) b /\ exists rest, t = flatten b ++ rest /\ size rest < bs.
(* every column has, row by row, as many entries as the others *)
Definition aligned (K : eqType) (cols : dict K (seq (seq T))) : Prop := forall c c', c \in dkeys cols -> c' \in dkeys cols ->
  [seq size r | r <- odflt [::] (dget cols c)] = [seq size r | r <- odflt [::] (dget cols c')].
End Wiki.
