(* Batch metadata of the block-projected influence attributor.
   Modelled: dattri/algorithm/block_projected_if/core/metadata.py 20-319 (MetadataManager).

   The directory is explicit: contents of batch_metadata.json and of its temporary file, each absent,
   incomplete (a strict prefix of a JSON object, which json.load rejects) or complete.
   Simplifications: cache_dir is not empty; the lock, the timestamps and the logging are dropped; disk
   errors other than a crash are not modelled; counts and indices are natural numbers; the destructor
   (which saves pending batches) is not modelled. *)
Set Warnings "-notation-overridden,-ambiguous-paths".
From mathcomp Require Import all_ssreflect.
From Verif Require Import Py Dict Tensor.
Set Implicit Arguments. Unset Strict Implicit. Unset Printing Implicit Defensive.

Section Meta.
Variable Name : Type.      (* layer names *)

(* {"sample_count": ..., "start_idx": ...} *)
Record info := Info { bi_count : nat; bi_start : nat }.
(* metadata.py 23-40 *)
Record mstate := MState {
  m_info : dict nat_eqType info; m_pend : dict nat_eqType info; m_total : nat;
  m_names : seq Name; m_dims : option (seq nat); m_tdim : option nat }.
Definition fresh (names : seq Name) : mstate := MState [::] [::] 0 names None None.

(* metadata.py 236-248: the JSON object; its keys are decimal strings *)
Record mfile := MFile { f_info : seq (Decimal.uint * info); f_names : seq Name;
                        f_dims : option (seq nat); f_tdim : option nat; f_total : nat }.
Inductive fcontent := Partial | Full (c : mfile).
Record dirst := Dir { d_meta : option fcontent; d_tmp : option fcontent }.

(* metadata.py 160-168: batch_info.update(pending); pending.clear() *)
Definition flush (s : mstate) : mstate :=
  MState (foldl (fun d kv => dset d kv.1 kv.2) (m_info s) (m_pend s)) [::] (m_total s)
         (m_names s) (m_dims s) (m_tdim s).

(* metadata.py 222-234: start indices recomputed in increasing batch order *)
Definition recompute (d : dict nat_eqType info) : dict nat_eqType info * nat :=
  foldl (fun cc b =>
    let c := if dget d b is Some i then bi_count i else 0 in
    (dset cc.1 b (Info c cc.2), cc.2 + c)) ([::], 0) (sort leq (dkeys d)).

(* metadata.py 210-263.  The file system passes through the listed states: temporary file opened
   and incomplete, temporary file complete, renamed over the target. *)
Definition saved_file (s : mstate) : mfile :=
  let: (d, tot) := recompute (m_info (flush s)) in
  MFile [seq (Nat.to_uint kv.1, kv.2) | kv <- d] (m_names s) (m_dims s) (m_tdim s) tot.
Definition save_trace (s : mstate) (dir : dirst) : seq dirst :=
  let c := Full (saved_file s) in
  [:: dir; Dir (d_meta dir) (Some Partial); Dir (d_meta dir) (Some c); Dir (Some c) None].
Definition save (s : mstate) (dir : dirst) : mstate * dirst :=
  let f := flush s in
  let: (d, tot) := recompute (m_info f) in
  (MState d [::] tot (m_names s) (m_dims s) (m_tdim s), last dir (save_trace s dir)).

(* metadata.py 279-310: an unreadable file is logged and ignored *)
Definition load (dir : dirst) (s : mstate) : mstate :=
  if d_meta dir is Some (Full c) then
    MState (foldl (fun d kv => dset d (Nat.of_uint kv.1) kv.2) [::] (f_info c)) (m_pend s) (f_total c)
           (f_names c) (f_dims c) (f_tdim c)
  else s.
(* metadata.py 23-48: a new manager in a directory *)
Definition open_manager (dir : dirst) (names : seq Name) : mstate := load dir (fresh names).

(* A dataloader as seen by metadata.py 62-101: len(loader), batch_size (None with a custom batch
   sampler), len(sampler), drop_last, whether the data set has __len__ *)
Record mloader := MLoader { ml_nb : nat; ml_bs : option nat; ml_n : nat; ml_drop : bool; ml_len : bool }.
Definition of_loader (X : Type) (L : loader X) : mloader :=
  MLoader (nbatches L) (Some (ld_bs L)) (size (ld_data L)) (ld_drop L) true.

(* metadata.py 72-101, number of samples of batch b *)
Definition batch_count (ml : mloader) (bs b : nat) : nat :=
  if ml_len ml then
    if (b == (ml_nb ml).-1) && ~~ ml_drop ml then ml_n ml - b * bs else minn bs (ml_n ml - b * bs)
  else bs.
(* metadata.py 50-113 *)
Definition initialize (ml : mloader) (s : mstate) (dir : dirst) : (mstate * dirst) * res unit :=
  if size (m_info s) == ml_nb ml then ((s, dir), Ok tt)                       (* 66-68 *)
  else match ml_bs ml with
  | None => if 0 < ml_nb ml then ((s, dir), Err TypeError)                    (* 76: int * None *)
            else (save (MState (m_info s) (m_pend s) 0 (m_names s) (m_dims s) (m_tdim s)) dir, Ok tt)
  | Some bs =>
    let: (d, cur) := foldl (fun cc b => let c := batch_count ml bs b in
                       (dset cc.1 b (Info c cc.2), cc.2 + c)) (m_info s, 0) (iota 0 (ml_nb ml)) in
    (save (MState d (m_pend s) cur (m_names s) (m_dims s) (m_tdim s)) dir, Ok tt)
  end.

(* metadata.py 115-143 *)
Definition add_batch_info (b c : nat) (s : mstate) : mstate :=
  if dhas (m_info s) b then s
  else MState (m_info s) (dset (m_pend s) b (Info c (m_total s))) (m_total s + c)
              (m_names s) (m_dims s) (m_tdim s).
(* metadata.py 145-158 *)
Definition set_layer_dims (ds : seq nat) (s : mstate) : mstate :=
  MState (m_info s) (m_pend s) (m_total s) (m_names s) (Some ds)
         (if ds is [::] then None else Some (sumn ds)).
(* metadata.py 178-191 *)
Definition mapping (s : mstate) : mstate * dict nat_eqType (nat * nat) :=
  let f := flush s in (f, [seq (kv.1, (bi_start kv.2, bi_start kv.2 + bi_count kv.2)) | kv <- m_info f]).
(* metadata.py 193-208 *)
Definition total_batches (s : mstate) : nat :=
  if m_info s is [::] then 0 else (foldr maxn 0 (dkeys (m_info s))).+1.

(* histories of one directory *)
Inductive mop := MInit (ml : mloader) | MAdd (b c : nat) | MDims (ds : seq nat) | MSave | MMap
               | MReopen (names : seq Name).
Definition step (sd : mstate * dirst) (o : mop) : mstate * dirst :=
  match o with
  | MInit ml => (initialize ml sd.1 sd.2).1
  | MAdd b c => (add_batch_info b c sd.1, sd.2)
  | MDims ds => (set_layer_dims ds sd.1, sd.2)
  | MSave => save sd.1 sd.2
  | MMap => ((mapping sd.1).1, sd.2)
  | MReopen names => (open_manager sd.2 names, sd.2)
  end.
Definition steps (h : seq mop) (sd : mstate * dirst) := foldl step sd h.
End Meta.
Arguments MInit {Name}. Arguments MAdd {Name}. Arguments MDims {Name}. Arguments MSave {Name}.
Arguments MMap {Name}. Arguments Partial {Name}.
