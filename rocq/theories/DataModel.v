(* Data-set preparation: CIFAR-2 relabelling, sliding windows over MIDI token files, random batches.
   No proofs. *)
Set Warnings "-notation-overridden,-ambiguous-paths".
From mathcomp Require Import all_ssreflect all_algebra zify.
From Verif Require Import Py Dict.
Set Implicit Arguments. Unset Strict Implicit. Unset Printing Implicit Defensive.

(* ---- dattri/benchmark/datasets/cifar/data.py *)
(* cifar/data.py 15-39: the loop body at index i; the state is (targets, indices).  [targets] is the list
   mutated in place; len(dataset) = len(targets) (torchvision CIFAR10; the images are not modelled). *)
Definition adjust_one (s : seq nat * seq nat) (i : nat) : seq nat * seq nat :=
  let: (targets, indices) := s in
  if nth 0 targets i == 3 then (set_nth 0 targets i 0, rcons indices i)
  else if nth 0 targets i == 5 then (set_nth 0 targets i 1, rcons indices i)
  else (targets, indices).
Definition adjust (targets : seq nat) : seq nat * seq nat :=
  foldl adjust_one (targets, [::]) (iota 0 (size targets)).
(* cifar/data.py 74-88, one split: Subset(dataset, indices) with .data and .targets attached.
   Items of the Subset are (data[i], targets[i]) for i in the indices. *)
Record subset (A : Type) := Subset { s_items : seq (A * nat); s_data : seq A; s_targets : seq nat }.
Definition cifar2_split (A : Type) (a0 : A) (data : seq A) (targets : seq nat) : subset A :=
  let: (t, ix) := adjust targets in
  Subset [seq (nth a0 data i, nth 0 t i) | i <- ix] [seq nth a0 data i | i <- ix] [seq nth 0 t i | i <- ix].

(* ---- dattri/benchmark/models/MusicTransformer/dataset/e_piano.py *)
Section Piano.
Variables (pad eos : nat).   (* TOKEN_PAD, TOKEN_END *)
(* e_piano.py 124-170.  A file is its list of tokens.  [draw n] is random.randint(0, n). *)
Definition process_midi (draw : nat -> nat) (raw : seq nat) (max_seq : nat) (random_seq : bool)
    (offset : option nat) : seq nat * seq nat :=
  let full := max_seq.+1 in
  if size raw == 0 then (nseq max_seq pad, nseq max_seq pad)
  else if size raw < full then
    (raw ++ nseq (max_seq - size raw) pad, (behead raw ++ [:: eos]) ++ nseq (max_seq - size raw) pad)
  else
    (* "if offset:" is false for None and for 0 *)
    let start := if offset is Some o.+1 then o.+1 else if random_seq then draw (size raw - full) else 0 in
    let data := take full (drop start raw) in
    (take max_seq data, behead (take full data)).

(* math.ceil(a / b) for b > 0 (Python's float division is taken to be exact), cut at 0 *)
Definition ceil_div (a b : nat) : nat := (a + b.-1) %/ b.
(* range(0, n, s) for s > 0 *)
Definition range_step (n s : nat) : seq nat := [seq i * s | i <- iota 0 (ceil_div n s)].
Record piano := Piano { p_max : nat; p_random : bool; p_full : bool; p_files : seq (seq nat);
                        p_len : nat; p_dict : dict nat_eqType (nat * nat) }.
(* e_piano.py 37-73: the constructor; [files] in sorted order.  Negative strides are not modelled; stride 0
   divides by zero.  length_item - max_seq is an integer difference in Python; for a file not longer than
   max_seq it is <= 0: no fragment and an empty range, as with truncated subtraction. *)
Fixpoint index_files (max_seq stride : nat) (k idx : nat) (files : seq (seq nat))
    (len : nat) (d : dict nat_eqType (nat * nat)) : nat * dict nat_eqType (nat * nat) :=
  if files is f :: fs then
    let n := size f - max_seq in
    let offs := range_step n stride in
    let d' := foldl (fun acc io => dset acc (idx + io.1) (k, io.2)) d (zip (iota 0 (size offs)) offs) in
    index_files max_seq stride k.+1 (idx + size offs) fs (len + ceil_div n stride) d'
  else (len, d).
Definition new_piano (files : seq (seq nat)) (max_seq : nat) (random_seq full : bool) (window : option nat) : res piano :=
  let stride := if window is Some w then w else max_seq in
  if ~~ full then Ok (Piano max_seq random_seq full files 0 [::])
  else if (stride == 0) && (files != [::]) then Err ZeroDivisionError
  else
    let: (len, d) := index_files max_seq stride 0 0 files 0 [::] in
    if len == size d then Ok (Piano max_seq random_seq full files len d) else Err AssertionError.
(* e_piano.py 76-88 *)
Definition piano_len (p : piano) : nat := if p_full p then p_len p else size (p_files p).
(* e_piano.py 91-120; without full_version the offset defaults to 0 *)
Definition piano_get (draw : nat -> nat) (p : piano) (idx : nat) : res (seq nat * seq nat) :=
  if p_full p then
    if dget (p_dict p) idx is Some (k, off)
    then Ok (process_midi draw (nth [::] (p_files p) k) (p_max p) (p_random p) (Some off))
    else Err KeyError
  else if idx < size (p_files p)
    then Ok (process_midi draw (nth [::] (p_files p) idx) (p_max p) (p_random p) (Some 0))
    else Err IndexError.
(* e_piano.py 212-245: the numbers of right and of counted positions; None stands for the 1.0 returned when
   nothing is counted.  argmax(softmax(out)) is the list of predicted tokens. *)
Definition piano_accuracy (pred tgt : seq nat) : option (nat * nat) :=
  let m := [seq x <- zip pred tgt | x.2 != pad] in
  if size m == 0 then None else Some (count (fun x => x.1 == x.2) m, size m).
End Piano.

(* ---- random batches *)
(* An argument of the batch functions: Some of the samples along its batch dimension, or a tensor shared by
   all samples (dim None). *)
Inductive arg (A : Type) := Batched of seq A | Shared of A.
Arguments Batched {A}. Arguments Shared {A}.
Definition index_select (A : Type) (a0 : A) (x : arg A) (ix : seq nat) : arg A :=
  match x with Batched s => Batched [seq nth a0 s i | i <- ix] | Shared a => Shared a end.
(* hessian.py 783-827 (and its copy fisher.py 138-183, which raises IFVPUsageError): the size check; in_dims
   of the same length as x *)
Fixpoint check_sizes (A : Type) (n : option nat) (xs : seq (arg A)) : res (option nat) :=
  match xs with
  | [::] => Ok n
  | Shared _ :: xs' => check_sizes n xs'
  | Batched s :: xs' =>
      match n with
      | None => check_sizes (Some (size s)) xs'
      | Some k => if k == size s then check_sizes n xs' else Err IHVPUsageError
      end
  end.
Definition check_input_size (A : Type) (xs : seq (arg A)) : res nat :=
  rbind (check_sizes None xs) (fun n => Ok (odflt 1 n)).
(* fisher.py 186-236: [perm] is torch.randperm(num_samples) *)
Definition random_batches (A : Type) (a0 : A) (xs : seq (arg A)) (perm : seq nat) (num_samples batch_size : nat)
    : res (seq (seq (arg A))) :=
  let b := if num_samples < batch_size then num_samples else batch_size in
  if b == 0 then Err ZeroDivisionError
  else Ok [seq (let ix := drop (i * b) (take (minn num_samples (i.+1 * b)) perm) in
                [seq index_select a0 x ix | x <- xs]) | i <- iota 0 ((num_samples + b - 1) %/ b)].
(* hessian.py 746-780 *)
Definition sample_random_batch (A : Type) (a0 : A) (xs : seq (arg A)) (perm : seq nat) (batch_size : nat) : seq (arg A) :=
  [seq index_select a0 x (take batch_size perm) | x <- xs].
