(* nanoGPT in the benchmark: preparation of the text (datasets/shakespeare_char/prepare.py, and the same lines of
   tinystories/prepare.py), the data set used for attribution (datasets/shakespeare_char/data.py), the batches, the
   learning rate and the training loop of models/nanoGPT/train.py, and the driver script/dattri_retrain_nanogpt.py.
   No proofs.

   Not modelled: the network, the optimiser and the random generators (one abstract state), gradient scaling and
   clipping (inside the update), DDP (one process), resuming, logging, downloads; floating point rounding. *)
Set Warnings "-notation-overridden,-ambiguous-paths".
From mathcomp Require Import all_ssreflect all_algebra.
From Verif Require Import Py Dict RetrainModel.
Set Implicit Arguments. Unset Strict Implicit. Unset Printing Implicit Defensive.
Import GRing.Theory Num.Theory.

(* ------------------------------------------------------------------ prepare.py *)
Section Prepare.
(* characters are their code points *)
Definition text := seq nat.
(* 25: sorted(list(set(data))) *)
Definition chars (data : text) : seq nat := sort leq (undup data).
(* 31-36: stoi, itos and the two translations; a missing key is a KeyError *)
Definition encode (cs : seq nat) (s : text) : res (seq nat) :=
  rfold (fun acc c => if c \in cs then Ok (rcons acc (index c cs)) else Err KeyError) [::] s.
Definition decode (cs : seq nat) (l : seq nat) : res text :=
  rfold (fun acc i => if i < size cs then Ok (rcons acc (nth 0 cs i)) else Err KeyError) [::] l.
(* 40-46; [cut] is int(n*0.9) *)
Definition prepare (cut : nat) (data : text) : res (seq nat * seq nat) :=
  rbind (encode (chars data) (take cut data)) (fun tr =>
  rmap (pair tr) (encode (chars data) (drop cut data))).
End Prepare.

(* data[i:i+n] for natural i *)
Definition window (T : Type) (d : seq T) (i n : nat) : seq T := take n (drop i d).

(* ------------------------------------------------------------------ data.py 17-33 *)
Section Dataset.
Variables (data : seq nat) (block : nat).
Definition ds_len : res nat := if block == 0 then Err ZeroDivisionError else Ok (size data %/ block).
Definition ds_get (idx : nat) : seq nat * seq nat :=
  let ix := idx * block in
  let y := window data ix.+1 block in
  (window data ix block, if size y < block then y ++ nseq (block - size y) 0 else y).
(* 34-38: torch.stack of equally long rows, RuntimeError for none *)
Definition stack (l : seq (seq nat)) : res (seq (seq nat)) :=
  if l is r :: l' then if all (fun r' => size r' == size r) l' then Ok l else Err RuntimeError else Err RuntimeError.
Definition get_subset (idx : seq nat) : res (seq (seq nat) * seq (seq nat)) :=
  rbind (stack [seq (ds_get i).1 | i <- idx]) (fun xs =>
  rmap (pair xs) (stack [seq (ds_get i).2 | i <- idx])).
End Dataset.

(* ------------------------------------------------------------------ train.py *)
Section Batches.
Variables (data vdata : seq nat) (block bsz : nat).
(* 106-115: the block numbers kept; [sub] is None for subset_ratio >= 1 and int(block_count * subset_ratio)
   otherwise, [perm] is torch.randperm(block_count) *)
Definition block_count : nat := size data %/ block.
Definition kept_blocks (sub : option nat) (perm : seq nat) : seq nat :=
  if sub is Some k then take k perm else iota 0 block_count.
(* 81-86, 115: indices.txt is opened in append mode *)
Definition save_indices (file blocks : seq nat) : seq nat := file ++ blocks.
Definition starts (blocks : seq nat) : seq nat := [seq b * block | b <- blocks].

(* 117-128: the pointer is global and shared by both splits *)
Definition get_batch_indices (ind : seq nat) (cur : nat) : seq nat * nat :=
  let cur' := if size ind < cur + bsz then 0 else cur in
  (window ind cur' bsz, cur' + bsz).

(* 130-147; [draw] is torch.randint(len(data) - block_size, (batch_size,)) and is only used for "val" *)
Inductive split := TrainSplit | ValSplit of seq nat.
Definition pairs (d : seq nat) (ix : seq nat) : res (seq (seq nat) * seq (seq nat)) :=
  rbind (stack [seq window d i block | i <- ix]) (fun xs =>
  rmap (pair xs) (stack [seq window d i.+1 block | i <- ix])).
Definition get_batch (ind : seq nat) (s : split) (cur : nat) : res (seq (seq nat) * seq (seq nat)) * nat :=
  let: (ix, cur') := get_batch_indices ind cur in
  match s with
  | TrainSplit => (pairs data ix, cur')
  | ValSplit draw => (if size vdata <= block then Err RuntimeError else pairs vdata draw, cur')
  end.
End Batches.

(* 304-315; [cosr r] is cos(pi * r) *)
Section Rate.
Local Open Scope ring_scope.
Variables (R : realFieldType) (cosr : R -> R) (top low : R) (warm decay : nat).
Definition get_lr (it : nat) : res R :=
  if (it < warm)%N then Ok (top * it%:R / warm%:R)
  else if (decay < it)%N then Ok low
  else if decay == warm then Err ZeroDivisionError
  else
    let r := (it%:R - warm%:R) / (decay%:R - warm%:R) in
    if (0 <= r) && (r <= 1) then Ok (low + 2%:R^-1 * (1 + cosr r) * (top - low)) else Err AssertionError.
End Rate.

(* The training loop 321-409 in one process.  [S] holds the network, the optimiser and the generators; a batch
   that cannot be built or evaluated raises. *)
Section Loop.
Variables (R : realFieldType) (St : Type).
Notation batch := (seq (seq nat) * seq (seq nat))%type.
Variables (data vdata : seq nat) (block bsz : nat) (ind : seq nat).
Variable draw : St -> seq nat * St.                 (* torch.randint *)
Variable forward : St -> batch -> res R * St.       (* the loss in eval mode *)
Variable backward : St -> batch -> res St.          (* forward in train mode and backward *)
Variable update : R -> St -> St.                    (* clipping, optimiser step, zero_grad *)
Variable rate : nat -> res R.                       (* learning rate of an iteration, 331 *)
Variables (acc ev ev_iters max_iters : nat) (always eval_only : bool) (big : R). (* big = 1e9 *)

Record run := Run { r_s : St; r_cur : nat; r_batch : batch; r_best : option R;
                    r_saved : option (St * nat); r_log : seq batch }.
(* [r_best] is None while best_val_loss is still 1e9 (or, with always_save_checkpoint, nan); [r_log] lists the batches trained on, latest last *)
Definition fetch (cur : nat) : res batch * nat := get_batch data vdata block bsz ind TrainSplit cur.
(* one batch of estimate_loss 287-300 *)
Definition eval_one (val : bool) (x : St * nat) : res R * (St * nat) :=
  let: (st, cur) := x in
  let: (dr, st1) := if val then draw st else ([::], st) in
  let: (b, cur1) := get_batch data vdata block bsz ind (if val then ValSplit dr else TrainSplit) cur in
  match b with
  | Err e => (Err e, (st1, cur1))
  | Ok b => let: (l, st2) := forward st1 b in (l, (st2, cur1))
  end.
Fixpoint eval_split (val : bool) (k : nat) (x : St * nat) : res (seq R) * (St * nat) :=
  if k is k'.+1 then
    let: (l, x1) := eval_one val x in
    match l with
    | Err e => (Err e, x1)
    | Ok l => let: (ls, x2) := eval_split val k' x1 in (rmap (cons l) ls, x2)
    end
  else (Ok [::], x).
(* losses['val']; the mean of no numbers is nan, which is less than nothing *)
Definition estimate (x : St * nat) : res (option R) * (St * nat) :=
  let: (a, x1) := eval_split false ev_iters x in
  match a with
  | Err e => (Err e, x1)
  | Ok _ => let: (b, x2) := eval_split true ev_iters x1 in
            (rmap (fun ls => if ev_iters == 0 then None else Some ((\sum_(l <- ls) l) / ev_iters%:R)%R) b, x2)
  end.
Definition better (l best : option R) : bool :=
  match l with None => false | Some x => (x < odflt big best)%R end.

(* 336-358: evaluation and checkpoint *)
Definition checkpoint (it : nat) (r : run) : res run :=
  let: (l, (st, cur)) := estimate (r_s r, r_cur r) in
  rmap (fun l =>
    if better l (r_best r) || always
    then Run st cur (r_batch r) l (if 0 < it then Some (st, it) else r_saved r) (r_log r)
    else Run st cur (r_batch r) (r_best r) (r_saved r) (r_log r)) l.
(* 364-378: one micro step: forward, prefetch, backward *)
Definition micro (r : run) : res run :=
  rbind (backward (r_s r) (r_batch r)) (fun st =>
  let: (b, cur) := fetch (r_cur r) in
  rmap (fun b => Run st cur b (r_best r) (r_saved r) (rcons (r_log r) (r_batch r))) b).
(* 327-404: one iteration; the division iter_num % eval_interval *)
Definition iteration (it : nat) (r : run) : res run :=
  rbind (rate it) (fun lr =>
  if ev == 0 then Err ZeroDivisionError else
  rbind (if it %% ev == 0 then checkpoint it r else Ok r) (fun r1 =>
  rmap (fun r2 => Run (update lr (r_s r2)) (r_cur r2) (r_batch r2) (r_best r2) (r_saved r2) (r_log r2))
       (rfold (fun r (_ : nat) => micro r) r1 (iota 0 acc)))).
(* 321-409: iterations 0 .. max_iters *)
Definition start (st : St) : res run :=
  let: (b, cur) := fetch 0 in rmap (fun b => Run st cur b None None [::]) b.
Definition iterate (n : nat) (r : run) : res run := rfold (fun r it => iteration it r) r (iota 0 n).
Definition training (st : St) : res run := rbind (start st) (iterate max_iters.+1).
End Loop.

(* ------------------------------------------------------------------ dattri_retrain_nanogpt.py 17-90 *)
Section Driver.
Variables (A D : eqType) (T : Type).
(* The four names looked for; the driver tests line.startswith(name). *)
Inductive key := KOut | KSeed | KRatio | KData | KOther of D.
Variable name : key -> seq A.
(* A line of the configuration: as written, or one of the generated assignments *)
Inductive line := Txt of seq A | SetOut of int | SetSeed of int | SetRatio | SetData.
Definition starts_with (p s : seq A) : bool := take (size p) s == p.
(* 66-77 *)
Definition rewrite_line (i seed : int) (t : seq A) : line :=
  if starts_with (name KOut) t then SetOut (i + 1)%R
  else if starts_with (name KSeed) t then SetSeed seed
  else if starts_with (name KRatio) t then SetRatio
  else if starts_with (name KData) t then SetData
  else Txt t.
(* 65-78 *)
Definition config_of (cfg : seq (seq A)) (i seed : int) : seq line :=
  rcons [seq rewrite_line i seed t | t <- cfg] SetData.
(* range(start, stop) *)
Definition zrange (a b : int) : seq int :=
  if (a <= b)%R then [seq (a + k%:Z)%R | k <- iota 0 (absz (b - a)%R)] else [::].
(* 51-86: the configurations handed to train.py, in order.  [neg] and [above] tell whether subset_ratio <= 0 and
   whether it is > 1 *)
Definition retrain (neg above : bool) (cfg : option (seq (seq A))) (seed a b total : int) : res (seq (seq line)) :=
  if cfg is Some cfg then
    let b := if (b <= total)%R then b else total in
    if neg then Err ValueError else if above then Err ValueError else
    Ok (sfold (fun st i => ((st.1 + 1, rcons st.2 (config_of cfg i st.1))%R, Ok tt)) ((seed + a - 1)%R, [::]) (zrange a b)).1.2
  else Err FileNotFoundError.

(* configurator.py 18-27 executes the file: a later assignment wins; [parse] reads a written line *)
Variable parse : seq A -> option (key * T).
Inductive value := VOut of int | VSeed of int | VRatio | VData | VText of T.
Definition keq (k k' : key) : bool :=
  match k, k' with KOut, KOut | KSeed, KSeed | KRatio, KRatio | KData, KData => true
  | KOther d, KOther d' => d == d' | _, _ => false end.
Definition assigns (k : key) (l : line) : option value :=
  match l with
  | SetOut i => if keq k KOut then Some (VOut i) else None
  | SetSeed s => if keq k KSeed then Some (VSeed s) else None
  | SetRatio => if keq k KRatio then Some VRatio else None
  | SetData => if keq k KData then Some VData else None
  | Txt t => if parse t is Some (k', v) then if keq k k' then Some (VText v) else None else None
  end.
Definition effective (k : key) (ls : seq line) : option value :=
  foldl (fun acc l => if assigns k l is Some v then Some v else acc) None ls.
End Driver.
