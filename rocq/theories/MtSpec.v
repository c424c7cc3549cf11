(* The music transformer of the paper, one sample and one position at a time, and beam search.  No proofs. *)
Set Warnings "-notation-overridden,-ambiguous-paths".
From mathcomp Require Import all_ssreflect all_algebra.
From Verif Require Import Py MtModel.
Set Implicit Arguments. Unset Strict Implicit. Unset Printing Implicit Defensive.
Import GRing.Theory Num.Theory.
Local Open Scope ring_scope.

Section Spec.
Variables (R : fieldType) (ex relu : R -> R).
Notation vec := (seq R).
(* the embedding of the distance i - j: distance 0 is the last row *)
Definition rel (er : seq vec) (i j : nat) : vec := nth [::] er ((size er).-1 - (i - j)).
(* the slice of head h *)
Definition slice (hd h : nat) (x : vec) : vec := [seq nth 0 x (h * hd + d) | d <- iota 0 hd].
(* the weight of position j for position i, before normalisation *)
Definition weight (er : seq vec) (q k : nat -> vec) (i j : nat) : R :=
  ex (dot (q i) (k j) + (if (j <= i)%N then dot (q i) (rel er i j) else 0)).
(* one head at position i of a sequence of length l *)
Definition ref_head (causal : bool) (er : seq vec) (l hd : nat) (q k v : nat -> vec) (i : nat) : vec :=
  let m := if causal then i.+1 else l in
  [seq (\sum_(j < m) weight er q k i j * nth 0 (v j) d) / (\sum_(j < m) weight er q k i j) | d <- iota 0 hd].
Definition ref_attention (causal : bool) (y : layer R) (l e heads : nat) (sc : R) (x : nat -> vec) (i : nat) : vec :=
  let hd := (e %/ heads)%N in
  let p j := linear (y_inw y) (y_inb y) (x j) in
  let part a h j := slice hd h [seq nth 0 (p j) (a * e + d) | d <- iota 0 e] in
  linear (y_outw y) (y_outb y)
    (flatten [seq ref_head causal (y_er y) l hd (fun j => [seq z * sc | z <- part 0%N h j]) (part 1%N h) (part 2%N h) i
             | h <- iota 0 heads]).
Definition ref_layer (causal : bool) (l e heads : nat) (sc : R) (x : nat -> vec) (y : layer R) (i : nat) : vec :=
  let a := y_norm1 y (addv (x i) (ref_attention causal y l e heads sc x i)) in
  y_norm2 y (addv a (linear (y_w2 y) (y_b2 y) [seq relu z | z <- linear (y_w1 y) (y_b1 y) a])).
(* the logits at position i for the tokens t *)
Definition ref_net (n : net R) (causal : bool) (t : seq nat) (i : nat) : vec :=
  linear (n_wout n) (n_bout n) (n_norm n
    (foldl (fun x y => ref_layer causal (size t) (n_dim n) (n_heads n) (n_scale n) x y)
           (fun j => addv (nth [::] (n_emb n) (nth 0%N t j)) (nth [::] (n_pe n) j)) (n_layers n) i)).

(* of the shapes the constructors produce, those that matter for the reshaping; M is max_sequence *)
Definition wf_layer (e M : nat) (y : layer R) : Prop :=
  [/\ size (y_inw y) = (3 * e)%N, size (y_inb y) = (3 * e)%N & size (y_er y) = M].
Definition wf_net (n : net R) (M : nat) : Prop :=
  [/\ (0 < n_heads n)%N, (n_heads n %| n_dim n)%N, size (n_pe n) = M
    & foldr (fun y P => wf_layer (n_dim n) M y /\ P) True (n_layers n)].
End Spec.

(* t lists the indices of k largest entries of s, largest first *)
Definition largest (R : realFieldType) (k : nat) (s : seq R) (t : seq nat) : bool :=
  [&& size t == k, uniq t, all (gtn (size s)) t, sorted (fun i j => nth 0 s j <= nth 0 s i) t
    & all (fun i => all (fun j => (j \in t) || (nth 0 s j <= nth 0 s i)) (iota 0 (size s))) t].
Section Beam.
Variables (P : Type) (net : seq (seq nat) -> res (seq (seq (seq P)))) (topk : nat -> nat -> seq P -> seq nat).
(* beam search: extend the hypotheses by the k best pairs of a hypothesis and a next token *)
Fixpoint beam_search (k fuel cur : nat) (rows : seq (seq nat)) : res (seq (seq nat)) :=
  if fuel is f.+1 then
    rbind (net rows) (fun y =>
      let w := [seq take token_end (last [::] yr) | yr <- y] in
      beam_search k f cur.+1 [seq rcons (nth [::] rows (j %/ token_end)) (j %% token_end)%N | j <- topk cur k (flatten w)])
  else Ok rows.
End Beam.
