(* The GPT of the paper, one position at a time.  No proofs. *)
Set Warnings "-notation-overridden,-ambiguous-paths".
From mathcomp Require Import all_ssreflect all_algebra.
From Verif Require Import Py MtModel GptModel.
Set Implicit Arguments. Unset Strict Implicit. Unset Printing Implicit Defensive.
Import GRing.Theory Num.Theory Order.Theory.
Local Open Scope ring_scope.
Section Spec.
Variables (R : realFieldType) (ex gelu : R -> R) (lse : seq R -> R).
Notation vec := (seq R).
(* coordinates a .. a + n - 1 *)
Definition coords (a n : nat) (x : vec) : vec := [seq nth 0 x (a + d) | d <- iota 0 n].
(* position i attends to the positions 0 .. i *)
Definition gref_head (sc : R) (hd : nat) (q k v : nat -> vec) (i : nat) : vec :=
  let w j := ex (dot (q i) (k j) * sc) in
  [seq (\sum_(j < i.+1) w j * nth 0 (v j) d) / (\sum_(j < i.+1) w j) | d <- iota 0 hd].
Definition gref_attention (y : block R) (e heads : nat) (sc : R) (x : nat -> vec) (i : nat) : vec :=
  let hd := (e %/ heads)%N in
  let part a h j := coords (a * e + h * hd) hd (lin (k_attn y) (x j)) in
  lin (k_proj y) (flatten [seq gref_head sc hd (part 0%N h) (part 1%N h) (part 2%N h) i | h <- iota 0 heads]).
Definition gref_block (e heads : nat) (sc : R) (x : nat -> vec) (y : block R) (i : nat) : vec :=
  let a := addv (x i) (gref_attention y e heads sc (fun j => k_ln1 y (x j)) i) in
  addv a (lin (k_out y) [seq gelu z | z <- lin (k_fc y) (k_ln2 y a)]).
(* the logits at position i of the tokens t *)
Definition gref (n : gpt R) (t : seq nat) (i : nat) : vec :=
  let x0 j := addv (nth [::] (g_wte n) (nth 0%N t j)) (nth [::] (g_wpe n) j) in
  let x := foldl (gref_block (g_dim n) (g_heads n) (g_scale n)) x0 (g_blocks n) i in
  [seq dot (g_lnf n x) r | r <- g_wte n].
(* the average cross entropy over the positions whose target is not -1; no number if there is none *)
Definition gref_loss (zs : seq vec) (ts : seq int) : option R :=
  let kept := [seq p <- zip zs ts | p.2 != -1] in
  if kept is [::] then None else Some ((\sum_(p <- kept) (lse p.1 - nth 0 p.1 `|p.2|%N)) / (size kept)%:R).

(* what the constructor guarantees *)
Definition wf_affine (n : nat) (a : affine R) : Prop := size (w_ a) = n /\ (if b_ a is Some b then size b = n else True).
Definition wf_block (e bs : nat) (y : block R) : Prop :=
  wf_affine (3 * e) (k_attn y) /\ (k_mask y = None \/ k_mask y = Some (tril bs)).
Definition wf_gpt (n : gpt R) : Prop :=
  [/\ (0 < g_heads n)%N, (g_heads n %| g_dim n)%N, size (g_wpe n) = g_block n
    & foldr (fun y P => wf_block (g_dim n) (g_block n) y /\ P) True (g_blocks n)].
End Spec.

(* generation: the distribution over the next token, and the sequence of draws *)
Section Generation.
Variables (R : realFieldType) (ex gelu : R -> R) (G : Type) (multinomial : G -> seq (seq R) -> seq nat * G).
(* how many entries are strictly larger *)
Definition better (z : seq R) (x : R) : nat := count (fun y => x < y) z.
Definition eligible (top_k : option nat) (z : seq R) (c : nat) : bool :=
  if top_k is Some k then (better z (nth 0%R z c) < k)%N else true.
(* softmax restricted to the eligible tokens *)
Definition dist (top_k : option nat) (z : seq R) : seq R :=
  let w c := if eligible top_k z c then ex (nth 0 z c) else 0 in
  [seq w c / \sum_(d < size z) w d | c <- iota 0 (size z)].
(* the logits after the last token, from at most [g_block n] tokens of context *)
Definition next_logits (n : gpt R) (r : seq nat) : seq R :=
  let c := drop (size r - g_block n) r in gref ex gelu n c (size c).-1.
Fixpoint ref_generate (n : gpt R) (max_new : nat) (temp : R) (top_k : option nat) (g : G) (idx : seq (seq nat)) : G * seq (seq nat) :=
  if max_new is f.+1 then
    let sg := multinomial g [seq dist top_k [seq x / temp | x <- next_logits n r] | r <- idx] in
    ref_generate n f temp top_k sg.2 [seq rcons p.1 p.2 | p <- zip idx sg.1]
  else (g, idx).
(* torch.multinomial, on rows of weights it accepts: one index per row, with nonzero probability *)
Definition weights (p : seq R) : bool := all (fun x => 0 <= x) p && has (fun x => 0 < x) p.
Definition draws : Prop := forall g ps, all weights ps -> size (multinomial g ps).1 = size ps /\
  forall i, (i < size ps)%N -> nth 0%N (multinomial g ps).1 i \in iota 0 (size (nth [::] ps i)) /\
                               nth 0 (nth [::] ps i) (nth 0%N (multinomial g ps).1 i) != 0.
End Generation.
