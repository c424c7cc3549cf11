(* dattri/benchmark/models/MusicTransformer: the forward pass with relative positions in eval mode, and generate.
   No proofs.  A tensor is a nested list, row major; R is any field, the exponential, the rectifier and layer
   normalisation (a function of the last dimension) are arbitrary functions.  A masked logit (minus infinity) is None.
   Not modelled: rpr=False (torch's own encoder), dropout (eval mode), key padding masks, bias_k/bias_v/add_zero_attn
   (never set by the model), floating point rounding, printing. *)
Set Warnings "-notation-overridden,-ambiguous-paths".
From mathcomp Require Import all_ssreflect all_algebra.
From Verif Require Import Py.
Set Implicit Arguments. Unset Strict Implicit. Unset Printing Implicit Defensive.
Import GRing.Theory.
Local Open Scope ring_scope.

(* Tensor.view of a flat list as n rows of m entries *)
Definition view {T} (n m : nat) (s : seq T) : seq (seq T) := [seq take m (drop (i * m) s) | i <- iota 0 n].
(* transpose(0, 1) / permute of the first two dimensions; m is the size of the second *)
Definition swap {T} (m : nat) (s : seq (seq T)) (d : T) : seq (seq T) := [seq [seq nth d r j | r <- s] | j <- iota 0 m].

(* a loop that collects results *)
Definition traverse {A B} (f : A -> res B) (s : seq A) : res (seq B) := rfold (fun acc x => rmap (rcons acc) (f x)) [::] s.

Section Net.
Variables (R : fieldType) (ex relu : R -> R).
Notation vec := (seq R).
Definition dot (x y : vec) : R := \sum_(i < size x) nth 0 x i * nth 0 y i.
Definition addv (x y : vec) : vec := [seq p.1 + p.2 | p <- zip x y].
(* torch.nn.functional.linear on the last dimension *)
Definition linear (w : seq vec) (b : vec) (x : vec) : vec := [seq dot x p.1 + p.2 | p <- zip w b].

(* rpr.py 406-419 *)
Definition get_valid_embedding (er : seq vec) (len_q : nat) : seq vec := drop (size er - len_q) er.
(* 421-443: the triangular mask flipped, one zero column on the left, the entries read again in rows of the old
   height, the first row dropped.  mask * qe broadcasts a single column and fails for any other width. *)
Definition tri (sz : nat) : seq vec := [seq [seq if (r <= c)%N then 1 else 0 | c <- iota 0 sz] | r <- iota 0 sz].
Definition skew (qe : seq vec) (width : nat) : res (seq vec) :=
  let sz := size qe in
  if (width == sz) || (width == 1)%N then
    let wide := [seq (if width == sz then r else nseq sz (nth 0 r 0)) | r <- qe] in
    let masked := [seq [seq p.1 * p.2 | p <- zip mr.1 mr.2] | mr <- zip (rev (tri sz)) wide] in
    let padded := [seq 0 :: r | r <- masked] in
    Ok (behead (view sz.+1 sz (flatten padded)))
  else Err RuntimeError.

(* torch.softmax of a row with masked entries *)
Definition softmax (r : seq (option R)) : vec :=
  let e := [seq if o is Some x then ex x else 0 | o <- r] in [seq x / \sum_(y <- e) y | x <- e].
(* nn.Transformer.generate_square_subsequent_mask *)
Definition mask_at (causal : bool) (i j : nat) (x : R) : option R := if causal && (i < j)%N then None else Some x.
(* 347-388 for one head of one sample *)
Definition attend (causal : bool) (er q k v : seq vec) (hd : nat) : res (seq vec) :=
  let l := size q in
  let e := get_valid_embedding er l in
  let qe := [seq [seq dot qi em | em <- e] | qi <- q] in
  rmap (fun srel =>
    let logits := [seq [seq mask_at causal i j (dot (nth [::] q i) (nth [::] k j) + nth 0 (nth [::] srel i) j)
                       | j <- iota 0 l] | i <- iota 0 l] in
    [seq let a := softmax row in [seq \sum_(j < l) nth 0 a j * nth 0 (nth [::] v j) d | d <- iota 0 hd] | row <- logits])
   (skew qe (size e)).

(* the parameters of one encoder layer *)
Record layer := Layer { y_inw : seq vec; y_inb : vec; y_outw : seq vec; y_outb : vec; y_er : seq vec;
  y_norm1 : vec -> vec; y_norm2 : vec -> vec; y_w1 : seq vec; y_b1 : vec; y_w2 : seq vec; y_b2 : vec }.
(* 220-397: x has shape (l, b, e); sc is head_dim ** -0.5.  The heads of the samples are cut out of the contiguous
   (l, b, e) entries by view(l, b * heads, head_dim). *)
Definition attention (causal : bool) (y : layer) (b e heads : nat) (sc : R) (x : seq (seq vec)) : res (seq (seq vec)) :=
  let l := size x in let hd := (e %/ heads)%N in
  if (hd * heads != e)%N then Err AssertionError else
  let proj := [seq [seq linear (y_inw y) (y_inb y) s | s <- t] | t <- x] in
  let q := [seq [seq [seq z * sc | z <- take e s] | s <- t] | t <- proj] in
  let k := [seq [seq take e (drop e s) | s <- t] | t <- proj] in
  let v := [seq [seq drop (2 * e) s | s <- t] | t <- proj] in
  let cut (z : seq (seq vec)) := swap (b * heads) (view l (b * heads) (view (l * (b * heads)) hd (flatten (flatten z)))) [::] in
  rmap (fun o : seq (seq vec) =>
    let o' := view l b (view (l * b) e (flatten (flatten (swap l o [::])))) in
    [seq [seq linear (y_outw y) (y_outb y) s | s <- t] | t <- o'])
   (traverse (fun n => attend causal (y_er y) (nth [::] (cut q) n) (nth [::] (cut k) n) (nth [::] (cut v) n) hd)
             (iota 0 (b * heads))).
(* 78-87 *)
Definition encoder_layer causal (y : layer) (b e heads : nat) (sc : R) (x : seq (seq vec)) : res (seq (seq vec)) :=
  rmap (fun a =>
    let s1 := [seq [seq y_norm1 y (addv p.1 p.2) | p <- zip t.1 t.2] | t <- zip x a] in
    [seq [seq y_norm2 y (addv s (linear (y_w2 y) (y_b2 y) [seq relu z | z <- linear (y_w1 y) (y_b1 y) s])) | s <- t] | t <- s1])
   (attention causal y b e heads sc x).

(* music_transformer.py 36-78 *)
Record net := Net { n_layers : seq layer; n_heads : nat; n_dim : nat; n_scale : R; n_emb : seq vec; n_pe : seq vec;
  n_norm : vec -> vec; n_wout : seq vec; n_bout : vec }.
(* nn.Embedding *)
Definition embed (n : net) (t : nat) : res vec := if (t < size (n_emb n))%N then Ok (nth [::] (n_emb n) t) else Err IndexError.
(* 81-118 with positional_encoding.py 22-24: x + pe[:l] needs as many rows as x (or one) *)
Definition forward (n : net) (causal : bool) (toks : seq (seq nat)) : res (seq (seq vec)) :=
  let b := size toks in let l := size (nth [::] toks 0) in
  rbind (traverse (traverse (embed n)) toks) (fun x0 =>
  let x1 := swap l x0 [::] in
  let pe := take l (n_pe n) in
  if (size pe == l) || (size pe == 1)%N then
    let x2 := [seq [seq addv s p.2 | s <- p.1] | p <- zip x1 (if size pe == l then pe else nseq l (nth [::] pe 0))] in
    rmap (fun x3 => [seq [seq linear (n_wout n) (n_bout n) (n_norm n s) | s <- t] | t <- swap b x3 [::]])
         (rfold (fun x y => encoder_layer causal y b (n_dim n) (n_heads n) (n_scale n) x) x2 (n_layers n))
  else Err RuntimeError).
End Net.

(* utilities/constants.py 28-31; the event ranges are those of MidiModel (processor.py) *)
Definition token_end : nat := 128 + 128 + 32 + 100.
Definition token_pad : nat := token_end.+1.
Definition vocab_size : nat := token_pad.+1.

Section Generate.
Variables (P : Type) (R : realFieldType).   (* probabilities; beam_chance *)
(* softmax of forward, Categorical.sample of a row, torch.topk (the indices), random.uniform(0, 1) *)
Variables (net : seq (seq nat) -> res (seq (seq (seq P)))) (sample : nat -> seq P -> nat)
  (topk : nat -> nat -> seq P -> seq nat) (draw : nat -> R).
(* music_transformer.py 143-181: cur is cur_i, beam_rows are always in range *)
Fixpoint gen_loop (beam : nat) (chance : R) (fuel : nat) (rows : seq (seq nat)) (cur : nat) : res (seq (seq nat) * nat) :=
  if fuel is f.+1 then
    rbind (net [seq take cur r | r <- rows]) (fun y =>
    if cur == 0%N then Err IndexError else
    let probs := [seq take token_end (nth [::] yr cur.-1) | yr <- y] in
    if (if beam == 0%N then 2%:R else draw cur) <= chance then
      let flat := flatten probs in
      if (size flat < beam)%N then Err RuntimeError else
      gen_loop beam chance f
        [seq set_nth token_pad (nth [::] rows (i %/ vocab_size)) cur (i %% vocab_size)%N | i <- topk cur beam flat] cur.+1
    else
      let next := [seq sample cur p | p <- probs] in
      let rows' := [seq set_nth token_pad p.1 cur p.2 | p <- zip rows next] in
      if size next != 1%N then Err RuntimeError        (* bool of a tensor with several entries *)
      else if next == [:: token_end] then Ok (rows', cur) else gen_loop beam chance f rows' cur.+1)
  else Ok (rows, cur).
(* 121-142, 183: gen_seq[..., :num_primer] = primer broadcasts a single token *)
Definition generate (training : bool) (primer : seq nat) (target beam : nat) (chance : R) : res (seq (seq nat)) :=
  if training then Err AssertionError else
  let n := size primer in
  if (target < n)%N && (n != 1%N) then Err RuntimeError else
  let rows := [:: take target primer ++ nseq (target - n) token_pad] in
  rmap (fun p => [seq take p.2 r | r <- p.1]) (gen_loop beam chance (target - n) rows n).
End Generate.
