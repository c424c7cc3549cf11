(* What a user of the disk store relies on. *)
Set Warnings "-notation-overridden,-ambiguous-paths".
From mathcomp Require Import all_ssreflect.
From Verif Require Import Py Dict Tensor OffModel OffSpec DiskModel.
Set Implicit Arguments. Unset Strict Implicit. Unset Printing Implicit Defensive.

Section Spec.
Variable T : Type.
Notation gr := (gr T). Notation t2 := (t2 T).

(* per-layer gradients of one non-empty batch: every layer a 2-d tensor with the same number of rows and
   the width of the layer *)
Definition brows (gs : seq gr) : nat := grows (head G1 gs).
Definition good (ds : seq nat) (gs : seq gr) : bool :=
  [&& size gs == size ds, 0 < brows gs, 0 < sumn ds &
      all (fun gd => if gd.1 is G2 t then [&& nrows t == brows gs, t2c t == gd.2 & wf_t2 t] else false)
          (zip gs ds)].
(* row i of a batch: the rows of the layers one after the other *)
Definition sample_row (gs : seq gr) (i : nat) : seq T :=
  flatten [seq (if g is G2 t then nth [::] (t2r t) i else [::]) | g <- gs].
Definition batch_rows (gs : seq gr) : seq (seq T) := mkseq (sample_row gs) (brows gs).
(* what reading the batch gives: layers of width 0 come back as torch.tensor([]) *)
Definition read_back (gs : seq gr) : seq gr := [seq (if gcols g == 0 then G1 else g) | g <- gs].
(* the calls of an execution *)
Definition stores (ls : seq (label T)) : seq (bool * nat * seq gr) :=
  pmap (fun l => if l is LStore k b gs then Some (k, b, gs) else None) ls.
Definition accepted_stores (log : seq (label T * res unit)) : seq (bool * nat * seq gr) :=
  pmap (fun lr => if lr is (LStore k b gs, Ok _) then Some (k, b, gs) else None) log.
Definition is_worker (l : label T) : bool :=
  match l with LTake _ => true | LWork _ => true | _ => false end.
Definition is_clear (l : label T) : bool := if l is LClear then true else false.
Definition is_start (l : label T) : bool := if l is LStart _ _ then true else false.
Definition is_finish (l : label T) : bool := if l is LFinish then true else false.
(* the protocol of the attributor: a range is started only when none is in progress, batches are stored
   within it, and it is finished before the next one; [r] is the range in progress *)
Fixpoint disciplined (cs : nat) (r : option (nat * nat)) (ls : seq (label T)) : bool :=
  if ls is l :: ls' then
    match l with
    | LStart a e => if r is None then disciplined cs (if a %% cs == 0 then Some (a, e) else None) ls' else false
    | LStore k b gs => if r is Some (a, e) then (a <= b < e) && disciplined cs r ls' else false
    | LFinish => disciplined cs None ls'
    | LClear => false
    | _ => disciplined cs r ls'
    end
  else true.
(* several processes one after the other on the same directory: each opens it and runs to its end *)
Fixpoint processes (z : T) (cs mx : nat) (listing : seq fkey -> seq fkey) (d : disk T) (lss : seq (seq (label T)))
  : option (disk T * seq (label T * res unit)) :=
  if lss is ls :: lss' then
    if exec z cs mx listing (open_disk listing d) ls is Some (s, log) then
      omap (fun dl => (dl.1, log ++ dl.2)) (processes z cs mx listing (d_disk s) lss')
    else None
  else Some (d, [::]).
Definition session (cs : nat) (ls : seq (label T)) : bool :=
  disciplined cs None ls && is_finish (last (@LClear T) ls).
(* number of samples stored for chunk c *)
Definition chunk_samples (cs : nat) (k : bool) (c : nat) (st : seq (bool * nat * seq gr)) : nat :=
  sumn [seq brows x.2 | x <- st & (x.1.1 == k) && (x.1.2 %/ cs == c)].
(* the batches of a chunk given by a loader, with their rows *)
Definition contents (it : item T) : seq (nat * seq (seq T)) := [seq (e.1, rows_at it.1 e.2) | e <- it.2].
Definition in_range (range : option (nat * nat)) (b : nat) : bool :=
  if range is Some (s, e) then s <= b < e else true.
(* a complete chunk file listing batch b *)
Definition lists (k : bool) (b : nat) (kv : fkey * file T) : bool :=
  (kv.1.1 == k) && (if f_meta kv.2 is Some (MFull m) then b \in [seq x.1 | x <- mt_info m] else false).
(* batches with the same layers, each stored once, at most [mx] samples per chunk *)
Record legal (cs mx : nat) (ds : seq nat) (st : seq (bool * nat * seq gr)) : Prop := Legal {
  lg_good : all (fun x => good ds x.2) st;
  lg_once : uniq [seq x.1 | x <- st];
  lg_chunk : forall k c, chunk_samples cs k c st <= mx }.
(* batches with the same layers, each stored once, each small enough for a chunk *)
Definition loose (mx : nat) (ds : seq nat) (st : seq (bool * nat * seq gr)) : bool :=
  all (fun x => good ds x.2 && (brows x.2 <= mx)) st && uniq [seq x.1 | x <- st].
(* a truncated metadata file of kind k *)
Definition truncated (k : bool) (kv : fkey * file T) : bool :=
  (kv.1.1 == k) && (if f_meta kv.2 is Some MPart then true else false).
End Spec.
