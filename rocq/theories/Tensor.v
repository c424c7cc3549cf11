(* torch.utils.data.DataLoader (sequential sampler) and the in-place block
   update  out[r0:r1, c0:c1] += block  of a 2-d tensor, as used by every
   attributor in /repo/dattri/algorithm. *)
Set Warnings "-notation-overridden,-ambiguous-paths".
From mathcomp Require Import all_ssreflect all_algebra.
From Verif Require Import Py.
Set Implicit Arguments. Unset Strict Implicit. Unset Printing Implicit Defensive.
Import GRing.Theory.

(* A DataLoader over an in-memory data set, not shuffled.  [ld_bs] must be
   positive (torch refuses batch_size=0). *)
Record loader (X : Type) := Loader {
  ld_data : seq X;          (* samples in sampler order: len(sampler)=size *)
  ld_bs   : nat;            (* dataloader.batch_size *)
  ld_drop : bool            (* drop_last *)
}.

Section Loader.
Variable X : Type.
Implicit Type L : loader X.

(* len(dataloader): number of batches torch yields. *)
Definition nbatches L : nat :=
  if ld_drop L then size (ld_data L) %/ ld_bs L
  else (size (ld_data L) + (ld_bs L).-1) %/ ld_bs L.

(* the k-th batch *)
Definition batch L (k : nat) : seq X := take (ld_bs L) (drop (k * ld_bs L) (ld_data L)).

(* enumerate(dataloader) *)
Definition enum_batches L : seq (nat * seq X) :=
  [seq (k, batch L k) | k <- iota 0 (nbatches L)].

(* the index range every attributor computes for batch k:
   st = k * batch_size ; ed = min((k+1) * batch_size, len(sampler))
   (base.py 432-441, tracin.py 215-227, data_shapley.py 169-179) *)
Definition st L (k : nat) : nat := k * ld_bs L.
Definition ed L (k : nat) : nat := minn (k.+1 * ld_bs L) (size (ld_data L)).
End Loader.

Local Open Scope ring_scope.

Section Blocks.
Variable V : zmodType.

(* map with index *)
Definition mapi (A B : Type) (f : nat -> A -> B) (s : seq A) : seq B :=
  [seq f p.1 p.2 | p <- zip (iota 0 (size s)) s].

(* torch.zeros(n, m) *)
Definition zeros2 (n m : nat) : seq (seq V) := nseq n (nseq m 0).
Definition zeros1 (n : nat) : seq V := nseq n 0.

(* torch broadcasting of one dimension of length d to length n *)
Definition bc_ok (d n : nat) : bool := (d == n) || (d == 1%N).
Definition bc_idx (d i : nat) : nat := if d == 1%N then 0%N else i.

(* length of the python slice st:ed of a dimension of length n *)
Definition slice_len (n r0 r1 : nat) : nat := (minn r1 n - minn r0 n)%N.
Definition in_slice (r0 r1 i : nat) : bool := (r0 <= i < r1)%N.

(* out[r0:r1, c0:c1] += blk.  [blk] must be rectangular and broadcastable to
   the slice, otherwise torch raises RuntimeError. *)
Definition add_block (r0 r1 c0 c1 : nat) (blk out : seq (seq V)) : res (seq (seq V)) :=
  let h := size blk in
  let w := size (head [::] blk) in
  let ncols := size (head [::] out) in
  if all (fun r => size r == w) blk
     && bc_ok h (slice_len (size out) r0 r1)
     && bc_ok w (slice_len ncols c0 c1)
  then Ok (mapi (fun i row => mapi (fun j x =>
         if in_slice r0 r1 i && in_slice c0 c1 j
         then x + nth 0 (nth [::] blk (bc_idx h (i - r0))) (bc_idx w (j - c0))
         else x) row) out)
  else Err RuntimeError.

(* out[r0:r1] += blk for 1-d tensors. *)
Definition add_vec (r0 r1 : nat) (blk out : seq V) : res (seq V) :=
  if bc_ok (size blk) (slice_len (size out) r0 r1)
  then Ok (mapi (fun i x =>
         if in_slice r0 r1 i then x + nth 0 blk (bc_idx (size blk) (i - r0)) else x) out)
  else Err RuntimeError.
End Blocks.

(* One pass over all pairs of (train batch, test batch), adding one block per
   pair: the double loop shared by base.py 339-448, tracin.py 128-256,
   trak.py 300-372.  [blk c xb yb] is the block computed from the two batches. *)
Definition block_loop (V : zmodType) (X Y : Type) (tr : loader X) (te : loader Y)
    (blk : seq X -> seq Y -> seq (seq V)) (out : seq (seq V)) : res (seq (seq V)) :=
  rfold (fun o pb => rfold (fun o' qb =>
      add_block (st tr pb.1) (ed tr pb.1) (st te qb.1) (ed te qb.1)
                (blk pb.2 qb.2) o')
    o (enum_batches te)) out (enum_batches tr).
