(* dattri/benchmark/models/nanoGPT/model.py: the network in eval mode, its loss, crop_block_size, generate, the parameter
   count and the optimiser groups.  No proofs.
   A tensor is a nested list; R is any real field; exp, gelu, logsumexp and the layer normalisations (functions of the
   last dimension) are arbitrary functions.  A masked logit (minus infinity) is None, nan is None.  Not modelled:
   dropout (eval mode, or rate 0), initialisation, from_pretrained, AdamW itself, estimate_mfu, rounding. *)
Set Warnings "-notation-overridden,-ambiguous-paths".
From mathcomp Require Import all_ssreflect all_algebra.
From Verif Require Import Py MtModel EvalModel.
Set Implicit Arguments. Unset Strict Implicit. Unset Printing Implicit Defensive.
Import GRing.Theory Num.Theory Order.Theory.
Local Open Scope ring_scope.

Section Gpt.
Variables (R : realFieldType) (ex gelu : R -> R) (lse : seq R -> R).
Notation vec := (seq R).
(* nn.Linear with or without bias *)
Record affine := Affine { w_ : seq vec; b_ : option vec }.
Definition lin (a : affine) (x : vec) : vec := if b_ a is Some b then linear (w_ a) b x else [seq dot x r | r <- w_ a].
(* 29-50, 78-85, 94-101; the buffer "bias" (46-49) exists only without flash attention *)
Record block := Block { k_ln1 : vec -> vec; k_attn : affine; k_proj : affine; k_ln2 : vec -> vec; k_fc : affine;
  k_out : affine; k_mask : option (seq (seq bool)) }.
Definition tril (n : nat) : seq (seq bool) := [seq [seq (c <= r)%N | c <- iota 0 n] | r <- iota 0 n].
(* 118-148; wte and lm_head share their weight (138); the scale is 1/sqrt(head size) *)
Record gpt := Gpt { g_block : nat; g_heads : nat; g_dim : nat; g_scale : R; g_wte : seq vec; g_wpe : seq vec;
  g_blocks : seq block; g_lnf : vec -> vec }.

(* 62-71 for one head of one sample: scaled_dot_product_attention with is_causal (64), or the buffer (68) *)
Definition visible (m : option (seq (seq bool))) (i j : nat) : bool :=
  if m is Some b then nth false (nth [::] b i) j else (j <= i)%N.
Definition ghead (m : option (seq (seq bool))) (sc : R) (q k v : seq vec) (hd : nat) : seq vec :=
  let t := size q in
  [seq let a := softmax ex [seq if visible m i j then Some (dot (nth [::] q i) (nth [::] k j) * sc) else None | j <- iota 0 t] in
       [seq \sum_(j < t) nth 0 a j * nth 0 (nth [::] v j) d | d <- iota 0 hd] | i <- iota 0 t].
(* 52-76 for one sample x of shape (T, C): view and transpose split the last dimension only *)
Definition gattention (y : block) (e heads : nat) (sc : R) (x : seq vec) : seq vec :=
  let hd := (e %/ heads)%N in
  let proj := [seq lin (k_attn y) s | s <- x] in
  let cut (z : seq vec) := swap heads [seq view heads hd s | s <- z] [::] in
  let q := cut [seq take e s | s <- proj] in
  let k := cut [seq take e (drop e s) | s <- proj] in
  let v := cut [seq drop (2 * e) s | s <- proj] in
  let o := [seq ghead (k_mask y) sc (nth [::] q h) (nth [::] k h) (nth [::] v h) hd | h <- iota 0 heads] in
  [seq lin (k_proj y) (flatten s) | s <- swap (size x) o [::]].
(* 103-106, 87-92 *)
Definition gblock (e heads : nat) (sc : R) (x : seq vec) (y : block) : seq vec :=
  let x1 := [seq addv p.1 p.2 | p <- zip x (gattention y e heads sc [seq k_ln1 y s | s <- x])] in
  [seq addv s (lin (k_out y) [seq gelu z | z <- lin (k_fc y) (k_ln2 y s)]) | s <- x1].

Definition gembed (n : gpt) (t : nat) : res vec := if (t < size (g_wte n))%N then Ok (nth [::] (g_wte n) t) else Err IndexError.
Definition body (n : gpt) (emb : seq vec) : seq vec :=
  let x0 := [seq addv p.1 p.2 | p <- zip emb (take (size emb) (g_wpe n))] in
  [seq g_lnf n s | s <- foldl (gblock (g_dim n) (g_heads n) (g_scale n)) x0 (g_blocks n)].
Definition head_of (n : gpt) (x : vec) : vec := [seq dot x r | r <- g_wte n].
(* 176-199; t is the length of the rows; F.cross_entropy(..., ignore_index=-1) is EvalModel.ce_mean *)
Definition forward (n : gpt) (t : nat) (toks : seq (seq nat)) (targets : option (seq (seq int)))
  : res (seq (seq vec) * option (option R)) :=
  if (g_block n < t)%N then Err AssertionError else
  rbind (traverse (traverse (gembed n)) toks) (fun embs =>
  let xs := [seq body n e | e <- embs] in
  if targets is Some tg then
    let logits := [seq [seq head_of n x | x <- r] | r <- xs] in
    if size (flatten logits) != size (flatten tg) then Err ValueError
    else rmap (fun l => (logits, Some l)) (ce_mean lse (-1) (flatten logits) (flatten tg))
  else if (t == 0)%N then Err IndexError
  else Ok ([seq [:: head_of n (last [::] r)] | r <- xs], None)).

(* 201-210 *)
Definition crop_block_size (n : gpt) (bs : nat) : res gpt :=
  if (g_block n < bs)%N then Err AssertionError else
  Ok (Gpt bs (g_heads n) (g_dim n) (g_scale n) (g_wte n) (take bs (g_wpe n))
       [seq Block (k_ln1 y) (k_attn y) (k_proj y) (k_ln2 y) (k_fc y) (k_out y)
              (omap (fun m => [seq take bs r | r <- take bs m]) (k_mask y)) | y <- g_blocks n] (g_lnf n)).

Section Generate.
Variable G : Type.
Variable multinomial : G -> seq vec -> seq nat * G.     (* torch.multinomial(probs, num_samples=1) *)
(* the k-th largest entry: v[:, [-1]] of torch.topk *)
Definition kth (k : nat) (z : vec) : R := nth 0 (sort (fun a b => b <= a) z) k.-1.
Definition crop_logits (top_k : option nat) (z : vec) : seq (option R) :=
  if top_k is Some k then let thr := kth (minn k (size z)) z in [seq if x < thr then None else Some x | x <- z]
  else [seq Some x | x <- z].
(* s[-m:], which is all of s for m = 0 *)
Definition last_tokens (m : nat) (s : seq nat) : seq nat := if m == 0%N then s else drop (size s - m) s.
(* 310-331, one new token for every row (there is at least one); t is the present length *)
Definition gen_step (n : gpt) (temp : R) (top_k : option nat) (t : nat) (g : G) (idx : seq (seq nat)) : res (G * seq (seq nat)) :=
  let cond := if (t <= g_block n)%N then idx else [seq last_tokens (g_block n) r | r <- idx] in
  let len := if (t <= g_block n)%N then t else if g_block n == 0%N then t else g_block n in
  rbind (forward n len cond None) (fun o =>
  if top_k == Some 0%N then Err IndexError
  else if temp == 0 then Err RuntimeError
  else let probs := [seq softmax ex (crop_logits top_k [seq x / temp | x <- last [::] r]) | r <- o.1] in
       let: (next, g') := multinomial g probs in
       Ok (g', [seq rcons p.1 p.2 | p <- zip idx next])).
Fixpoint generate (n : gpt) (max_new : nat) (temp : R) (top_k : option nat) (t : nat) (g : G) (idx : seq (seq nat))
  : res (G * seq (seq nat)) :=
  if max_new is f.+1 then
    rbind (gen_step n temp top_k t g idx) (fun p => generate n f temp top_k t.+1 p.1 p.2)
  else Ok (g, idx).
End Generate.
End Gpt.

(* the parameters, by name: named_parameters of 121-138, the shared weight once *)
Inductive pname := Wte | Wpe | LnF of bool | Ln1 of nat & bool | CAttn of nat & bool | CProj of nat & bool
  | Ln2 of nat & bool | CFc of nat & bool | MProj of nat & bool.    (* true: weight, false: bias *)
Definition both (bias : bool) (f : bool -> pname) (w b : seq nat) : seq (pname * seq nat) :=
  (f true, w) :: (if bias then [:: (f false, b)] else [::]).
Definition block_params (e : nat) (bias : bool) (i : nat) : seq (pname * seq nat) :=
  both bias (Ln1 i) [:: e] [:: e] ++ both bias (CAttn i) [:: (3 * e)%N; e] [:: (3 * e)%N] ++
  both bias (CProj i) [:: e; e] [:: e] ++ both bias (Ln2 i) [:: e] [:: e] ++
  both bias (CFc i) [:: (4 * e)%N; e] [:: (4 * e)%N] ++ both bias (MProj i) [:: e; (4 * e)%N] [:: e].
Definition named_parameters (v bs l e : nat) (bias : bool) : seq (pname * seq nat) :=
  (Wte, [:: v; e]) :: (Wpe, [:: bs; e]) :: flatten [seq block_params e bias i | i <- iota 0 l] ++ both bias LnF [:: e] [:: e].
Definition numel (d : seq nat) : nat := foldr muln 1%N d.
(* 150-166 *)
Definition get_num_params (v bs l e : nat) (bias non_embedding : bool) : nat :=
  let n := sumn [seq numel p.2 | p <- named_parameters v bs l e bias] in
  if non_embedding then (n - bs * e)%N else n.
(* 269-281: all parameters require gradients *)
Definition optim_groups (wd : nat) (ps : seq (pname * seq nat)) : seq (seq (pname * seq nat) * nat) :=
  [:: ([seq p <- ps | (2 <= size p.2)%N], wd); ([seq p <- ps | (size p.2 < 2)%N], 0%N)].
(* 33 with 94-101 and 130: the assertion of every block *)
Definition construct (l heads e : nat) : res unit :=
  rfold (fun _ (_ : nat) => if heads == 0%N then Err ZeroDivisionError else if (e %% heads != 0)%N then Err AssertionError else Ok tt)
        tt (iota 0 l).
