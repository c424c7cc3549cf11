(* Chunked gradient store on disk with background writers.
   Modelled: dattri/algorithm/block_projected_if/offload/disk_io/manager.py 132-846 and 929-943
   (ChunkedDiskIOManager: store_gradients, store_ifvp, the write queue and the write workers,
   finalize_batch_range, retrieve_gradients, retrieve_ifvp), disk_io/memory_map.py 24-140, 212-373
   (ChunkedMemoryMapHandler), disk_io/prefetch_dataset.py 35-345 (AsyncPrefetchDataset and its loader)
   and the wrapper offload/disk.py 65-117, 217-228.

   The state contains the directory, so a crash is "forget everything but the directory".  The main
   thread and every worker are separate actors; an execution is any sequence of their steps.

   Simplifications: tensors are values (float32 exactly representable; views are copies); chunk_size and
   max_samples_per_chunk are positive; the buffer pool (36-129) is left out because a buffer is cleared
   when handed out, its rows are cloned and its batch_info copied before it is given back, and an
   exhausted pool only leads to a fresh buffer (after an overflow the pool has just received one, so its
   RuntimeError cannot happen with one producer); the write queue is unbounded (a full queue only delays
   the producer); the .mmap file of a chunk never exists without being listed in the model, but only its
   metadata file makes a chunk visible; access times of the read cache are all different; preconditioner
   files and the destructor are not modelled. *)
Set Warnings "-notation-overridden,-ambiguous-paths".
From mathcomp Require Import all_ssreflect all_algebra.
From Verif Require Import Py Dict Tensor OffModel.
Set Implicit Arguments. Unset Strict Implicit. Unset Printing Implicit Defensive.

(* (data_type, chunk_id); data_type is true for "ifvp", false for "gradients" *)
Definition ckey := prod_eqType bool_eqType nat_eqType.
(* chunk_{data_type}_{min}_{max} *)
Definition fkey := prod_eqType bool_eqType (prod_eqType nat_eqType nat_eqType).
(* [{"batch_idx", "start_row", "end_row"}] *)
Definition binfo := seq (nat * (nat * nat)).

Section Disk.
Variables (T : Type) (z : T).
Variables (cs mx : nat).                      (* chunk_size, max_samples_per_chunk *)
Variable listing : seq fkey -> seq fkey.      (* order in which iterdir lists the files *)
Variable fle : rel fkey.                      (* order of the file names as strings *)
Notation gr := (gr T). Notation t2 := (t2 T).

(* manager.py 26-34: the filled rows of the buffer and its batch_info *)
Record buf := Buf { b_rows : seq (seq T); b_info : binfo }.
Definition buf0 : buf := Buf [::] [::].
(* manager.py 555 *)
Record task := Task { t_key : ckey; t_rows : seq (seq T); t_info : binfo }.
(* memory_map.py 118-128 *)
Record meta := Meta { mt_dims : seq nat; mt_shape : nat * nat; mt_info : binfo }.
Inductive fmeta := MPart | MFull (m : meta).   (* incomplete / complete JSON *)
Record file := File { f_data : seq (seq T); f_meta : option fmeta }.
Definition disk := dict fkey file.

Record dstate := DState {
  d_dims : option (seq nat);
  d_bufs : dict ckey buf;
  d_queue : seq task;
  d_busy : dict nat_eqType (task * nat);        (* worker -> (task, progress) *)
  d_pend : seq ckey;                            (* _pending_writes *)
  d_range : option (nat * nat);
  d_wait : bool;                                (* the main thread is inside finalize_batch_range *)
  d_cache : dict ckey (seq (seq T) * binfo);    (* _read_cache, least recently used first *)
  d_disk : disk }.
Definition upd_dims x s := DState x (d_bufs s) (d_queue s) (d_busy s) (d_pend s) (d_range s) (d_wait s) (d_cache s) (d_disk s).
Definition upd_bufs x s := DState (d_dims s) x (d_queue s) (d_busy s) (d_pend s) (d_range s) (d_wait s) (d_cache s) (d_disk s).
Definition upd_range x s := DState (d_dims s) (d_bufs s) (d_queue s) (d_busy s) (d_pend s) x (d_wait s) (d_cache s) (d_disk s).
Definition upd_wait x s := DState (d_dims s) (d_bufs s) (d_queue s) (d_busy s) (d_pend s) (d_range s) x (d_cache s) (d_disk s).
Definition upd_cache x s := DState (d_dims s) (d_bufs s) (d_queue s) (d_busy s) (d_pend s) (d_range s) (d_wait s) x (d_disk s).

(* memory_map.py 335-373: files with a metadata file, stably sorted by their first batch *)
Definition chunk_files (k : bool) (d : disk) : seq fkey :=
  let ls := listing [seq fk <- dkeys d | (fk.1 == k) &&
              (if dget d fk is Some f then if f_meta f is Some _ then true else false else false)] in
  sort (fun a b : fkey => a.2.1 <= b.2.1) ls.
(* memory_map.py 212-225: json.JSONDecodeError is a ValueError *)
Definition read_meta (d : disk) (fk : fkey) : res meta :=
  match dget d fk with
  | Some (File _ (Some (MFull m))) => Ok m
  | Some (File _ (Some MPart)) => Err ValueError
  | _ => Err FileNotFoundError
  end.
(* memory_map.py 161-186 with force_load: np.fromfile(...).reshape(shape) *)
Definition load_chunk (d : disk) (fk : fkey) : res (seq (seq T) * meta) :=
  rbind (read_meta d fk) (fun m =>
  let raw := if dget d fk is Some f then flatten (f_data f) else [::] in
  if size raw == (mt_shape m).1 * (mt_shape m).2
  then Ok (reshape (nseq (mt_shape m).1 (mt_shape m).2) raw, m) else Err ValueError).

(* manager.py 242-271: gradient chunks first, unreadable metadata is skipped *)
Definition load_dims (d : disk) : option (seq nat) :=
  let try k := if chunk_files k d is fk :: _ then
                 if read_meta d fk is Ok m then Some (mt_dims m) else None else None in
  if try false is Some ds then Some ds else try true.
(* manager.py 135-229: a manager in a directory *)
Definition open_disk (d : disk) : dstate :=
  DState (load_dims d) [::] [::] [::] [::] None false [::] d.
(* manager.py 273-290 *)
Definition ensure_dims_disk (s : dstate) : res (seq nat) :=
  if d_dims s is Some ds then Ok ds
  else if load_dims (d_disk s) is Some ds then Ok ds else Err ValueError.
(* manager.py 443-450 (gradients), 576 (ifvp) *)
Definition get_dims (k : bool) (gs : seq gr) (s : dstate) : res (seq nat) :=
  if k then ensure_dims_disk s else ensure_dims (d_dims s) gs.

(* manager.py 321-339 *)
Definition start_range (a b : nat) (s : dstate) : dstate * res unit :=
  if a %% cs != 0 then (s, Err ValueError) else (upd_range (Some (a, b)) s, Ok tt).

(* manager.py 529-564 *)
Definition flush_key (key : ckey) (s : dstate) : dstate :=
  match dget (d_bufs s) key with
  | None => s
  | Some bf =>
    DState (d_dims s) (ddel (d_bufs s) key) (rcons (d_queue s) (Task key (b_rows bf) (b_info bf)))
           (d_busy s) (if key \in d_pend s then d_pend s else rcons (d_pend s) key)
           (d_range s) (d_wait s) (d_cache s) (d_disk s)
  end.

(* manager.py 646-679 *)
Definition complete (key : ckey) (s : dstate) : bool :=
  if d_range s is Some (a, b) then
    let es := maxn (key.2 * cs) a in
    let ee := minn (key.2.+1 * cs) b in
    (es < ee) &&
    (if dget (d_bufs s) key is Some bf
     then all (fun i => i \in [seq x.1 | x <- b_info bf]) (iota es (ee - es)) else false)
  else false.

(* manager.py 482-489: zero padding for empty layers *)
Definition features (bs : nat) (ds : seq nat) (gs : seq gr) : res (seq t2) :=
  rseq (fun gd => rbind (nonempty gd.1) (fun b =>
    Ok (if b then if gd.1 is G2 t then t else T2 0 [::] else T2 gd.2 (nseq bs (nseq gd.2 z))))) (zip gs ds).
(* torch.cat(tensors, dim=1) *)
Definition cat1 (ts : seq t2) : res t2 :=
  if ts is t :: _ then
    if all (fun t' => nrows t' == nrows t) ts
    then Ok (T2 (sumn [seq t2c t' | t' <- ts])
                (mkseq (fun i => flatten [seq nth [::] (t2r t') i | t' <- ts]) (nrows t)))
    else Err RuntimeError
  else Err RuntimeError.
(* manager.py 514: buffer.tensor[start_row:end_row] = batch_tensor; the buffer has w columns *)
Definition to_width (w : nat) (t : t2) : res (seq (seq T)) :=
  if t2c t == w then Ok (t2r t)
  else if t2c t == 1 then Ok [seq nseq w (head z r) | r <- t2r t] else Err RuntimeError.

(* manager.py 423-527 (gradients; is_test=True does nothing) and 566-644 (ifvp) *)
Definition store_batch (k : bool) (b : nat) (gs : seq gr) (s : dstate) : dstate * res unit :=
  match get_dims k gs s with
  | Err e => (s, Err e)
  | Ok ds =>
    let key : ckey := (k, b %/ cs) in
    let s0 := upd_dims (Some ds) s in
    let s1 := if dhas (d_bufs s0) key then s0 else upd_bufs (dset (d_bufs s0) key buf0) s0 in
    match first_rows gs with
    | Err e => (s1, Err e)
    | Ok 0 => (s1, Ok tt)
    | Ok bs =>
      match rbind (features bs ds gs) cat1 with
      | Err e => (s1, Err e)
      | Ok t =>
        let cur := size (b_rows (odflt buf0 (dget (d_bufs s1) key))) in
        let s2 := if mx < cur + bs
                  then let f := flush_key key s1 in upd_bufs (dset (d_bufs f) key buf0) f else s1 in
        if mx < bs then (s2, Err RuntimeError)
        else match to_width (sumn ds) t with
        | Err e => (s2, Err e)
        | Ok rows =>
          let bf := odflt buf0 (dget (d_bufs s2) key) in
          let st := size (b_rows bf) in
          let s3 := upd_bufs (dset (d_bufs s2) key
                      (Buf (b_rows bf ++ rows) (rcons (b_info bf) (b, (st, st + bs))))) s2 in
          (if complete key s3 then flush_key key s3 else s3, Ok tt)
        end
      end
    end
  end.

(* memory_map.py 50-62 *)
Definition min_of (l : seq nat) : nat := foldr minn (head 0 l) l.
Definition max_of (l : seq nat) : nat := foldr maxn 0 l.
Definition file_key (t : task) : fkey :=
  ((t_key t).1, (min_of [seq x.1 | x <- t_info t], max_of [seq x.1 | x <- t_info t])).
Definition width (ds : option (seq nat)) : nat := if ds is Some l then sumn l else 0.
(* the metadata written for a task *)
Definition task_meta (ds : option (seq nat)) (t : task) : meta :=
  Meta (odflt [::] ds) (size (t_rows t), width ds) (t_info t).
Definition old_meta (d : disk) (fk : fkey) : option fmeta :=
  if dget d fk is Some f then f_meta f else None.
(* One step of worker w: manager.py 341-377 and memory_map.py 48-131.
   0: min([]) raises ValueError, np.memmap refuses an empty file (the worker logs the error and drops the
      task, its key stays pending); otherwise the file is created, zero-filled, under the old metadata
   1: data copied   2: metadata file truncated   3: metadata complete   4: key no longer pending *)
Definition work (w : nat) (s : dstate) : option dstate :=
  match dget (d_busy s) w with
  | None => None
  | Some (t, n) =>
    let fk := file_key t in
    let put f := DState (d_dims s) (d_bufs s) (d_queue s) (dset (d_busy s) w (t, n.+1)) (d_pend s)
                   (d_range s) (d_wait s) (d_cache s) (dset (d_disk s) fk f) in
    let drop p := DState (d_dims s) (d_bufs s) (d_queue s) (ddel (d_busy s) w) p
                   (d_range s) (d_wait s) (d_cache s) (d_disk s) in
    match n with
    | 0 => if nilp (t_info t) || (size (t_rows t) * width (d_dims s) == 0) then Some (drop (d_pend s))
           else Some (put (File (nseq (size (t_rows t)) (nseq (width (d_dims s)) z)) (old_meta (d_disk s) fk)))
    | 1 => Some (put (File (t_rows t) (old_meta (d_disk s) fk)))
    | 2 => Some (put (File (t_rows t) (Some MPart)))
    | 3 => Some (put (File (t_rows t) (Some (MFull (task_meta (d_dims s) t)))))
    | _ => Some (drop [seq x <- d_pend s | x != t_key t])
    end
  end.
(* manager.py 345-350: an idle worker takes the oldest task *)
Definition take (w : nat) (s : dstate) : option dstate :=
  if dhas (d_busy s) w then None
  else if d_queue s is t :: q then
    Some (DState (d_dims s) (d_bufs s) q (dset (d_busy s) w (t, 0)) (d_pend s)
                 (d_range s) (d_wait s) (d_cache s) (d_disk s))
  else None.

(* manager.py 686-690: flush all remaining buffers *)
Definition flush_all (s : dstate) : dstate := foldl (fun s key => flush_key key s) s (dkeys (d_bufs s)).

(* first entry of a batch: manager.py 726-731, 747-752, 793-798 *)
Definition find_info (b : nat) (info : binfo) : option (nat * nat) :=
  if [seq x <- info | x.1 == b] is x :: _ then Some x.2 else None.
Definition slice (se : nat * nat) (rows : seq (seq T)) : seq (seq T) :=
  seq.take (se.2 - se.1) (seq.drop se.1 rows).
(* manager.py 830-846 *)
Definition split_rows (ds : seq nat) (rows : seq (seq T)) : seq gr := split_from 0 ds (T2 (sumn ds) rows).
(* manager.py 760-798: scan the chunk files; returns the loaded chunk and the rows *)
Fixpoint scan (d : disk) (b : nat) (fks : seq fkey) : res (option (seq (seq T) * binfo * seq (seq T))) :=
  if fks is fk :: fks' then
    rbind (read_meta d fk) (fun m =>
    if find_info b (mt_info m) is Some _ then
      rbind (load_chunk d fk) (fun rm =>
      Ok (if find_info b (mt_info rm.2) is Some se
          then Some (rm.1, mt_info rm.2, slice se rm.1) else None))
    else scan d b fks')
  else Ok None.
(* manager.py 781-790: at most 4 cached chunks, the oldest goes *)
Definition cache_put (key : ckey) (v : seq (seq T) * binfo) (c : dict ckey (seq (seq T) * binfo)) :=
  let c' := rcons (ddel c key) (key, v) in if 4 < size c' then behead c' else c'.
(* manager.py 701-801 *)
Definition retrieve_batch (k : bool) (b : nat) (s : dstate) : dstate * res (seq gr) :=
  match ensure_dims_disk s with
  | Err e => (s, Err e)
  | Ok ds =>
    let s0 := upd_dims (Some ds) s in
    let key : ckey := (k, b %/ cs) in
    match (if dget (d_bufs s0) key is Some bf then
             if find_info b (b_info bf) is Some se then Some (slice se (b_rows bf)) else None
           else None) with
    | Some rows => (s0, Ok (split_rows ds rows))
    | None =>
      let s1 := if dget (d_cache s0) key is Some v then upd_cache (rcons (ddel (d_cache s0) key) (key, v)) s0
                else s0 in
      match (if dget (d_cache s0) key is Some (rows, info) then
               if find_info b info is Some se then Some (slice se rows) else None else None) with
      | Some rows => (s1, Ok (split_rows ds rows))
      | None =>
        match scan (d_disk s1) b (chunk_files k (d_disk s1)) with
        | Err e => (s1, Err e)
        | Ok None => (s1, Ok (nseq (size ds) G1))
        | Ok (Some (chunk, info, rows)) =>
            (upd_cache (cache_put key (chunk, info) (d_cache s1)) s1, Ok (split_rows ds rows))
        end
      end
    end
  end.
(* disk.py 96-117 and 156-172: an empty layer becomes torch.tensor([]) *)
Definition moved (g : gr) : gr := if g is G2 t then if 0 < nrows t * t2c t then g else G1 else g.
Definition retrieve_disk k b s : dstate * res (seq gr) :=
  let r := retrieve_batch k b s in (r.1, rmap (map moved) r.2).

(* ---------------------------------------------------------------- executions *)
Inductive label :=
| LStart (a b : nat) | LStore (k : bool) (b : nat) (gs : seq gr) | LRead (k : bool) (b : nat)
| LFlushAll                  (* finalize_batch_range called: manager.py 683-690 *)
| LFinish                    (* finalize_batch_range returns: manager.py 693-699 *)
| LClear                     (* disk.py 217-228 *)
| LTake (w : nat) | LWork (w : nat).
(* the next state and the outcome of the call, or None when the actor cannot take this step *)
Definition step (s : dstate) (l : label) : option (dstate * res unit) :=
  let main x := if d_wait s then None else Some x in
  match l with
  | LStart a b => main (start_range a b s)
  | LStore k b gs => main (store_batch k b gs s)
  | LRead k b => main ((retrieve_disk k b s).1, Ok tt)
  | LFlushAll => main (if d_range s is Some _ then (upd_wait true (flush_all s), Ok tt) else (s, Ok tt))
  | LFinish => if d_wait s && nilp (d_pend s) then Some (upd_range None (upd_wait false s), Ok tt) else None
  | LClear => if nilp (d_queue s) && nilp (d_pend s) then
      main (DState (d_dims s) (d_bufs s) (d_queue s) (d_busy s) (d_pend s) (d_range s) (d_wait s)
                   (d_cache s) [::], Ok tt) else None
  | LTake w => omap (fun s' => (s', Ok tt)) (take w s)
  | LWork w => omap (fun s' => (s', Ok tt)) (work w s)
  end.
(* the state after a sequence of steps and the log of the calls with their outcomes *)
Fixpoint exec (s : dstate) (ls : seq label) : option (dstate * seq (label * res unit)) :=
  if ls is l :: ls' then
    if step s l is Some (s', r) then
      omap (fun sl => (sl.1, (l, r) :: sl.2)) (exec s' ls')
    else None
  else Some (s, [::]).

(* ------------------------------------------------------------ the chunk data set *)
(* memory_map.py 280-333 *)
Definition load_range (d : disk) (range : option (nat * nat)) (fk : fkey) : res (item T) :=
  rbind (load_chunk d fk) (fun rm =>
  match range with
  | None => Ok (T2 (mt_shape rm.2).2 rm.1,
                foldl (fun m x => dset m x.1 x.2) ([::] : dict nat_eqType (nat * nat)) (mt_info rm.2))
  | Some (a, b) =>
    let sel := [seq x <- mt_info rm.2 | a <= x.1 < b] in
    let: (rows, m, _) := foldl (fun acc x =>
        let: (rows, m, o) := acc in
        (rows ++ slice x.2 rm.1, dset m x.1 (o, o + (x.2.2 - x.2.1)), o + (x.2.2 - x.2.1)))
        (([::] : seq (seq T)), ([::] : dict nat_eqType (nat * nat)), 0) sel in
    Ok (T2 (mt_shape rm.2).2 rows, if nilp rows then [::] else m)
  end).
(* prefetch_dataset.py 81-136: unreadable and non-overlapping chunks are skipped *)
Definition chunk_info (k : bool) (d : disk) (range : option (nat * nat)) : seq (fkey * meta) :=
  let keep m := if range is Some (a, b) then has (fun x => a <= x.1 < b) (mt_info m) else true in
  let found := pmap (fun fk => if read_meta d fk is Ok m then if keep m then Some (fk, m) else None else None)
                    (chunk_files k d) in
  sort (fun x y => fle x.1 y.1) found.
(* prefetch_dataset.py 288-294: an unreadable chunk counts as empty *)
Definition load_item (d : disk) (range : option (nat * nat)) (c : fkey * meta) : item T :=
  if load_range d range c.1 is Ok it then it else (T2 (sumn (mt_dims c.2)) [::], [::]).

(* The consumer and the prefetch thread over a directory that does not change. *)
Record pstate := PState { p_cur : nat; p_cache : dict nat_eqType (item T) }.
Inductive plabel :=
| PGet (i : nat)                       (* __getitem__: prefetch_dataset.py 240-300 *)
| PLoad (i cur : nat).                 (* _load_and_cache_chunk with a previously read index: 164-200 *)
Section Prefetch.
Variables (d : disk) (range : option (nat * nat)) (pf : nat) (ci : seq (fkey * meta)).
Definition ci_dflt : fkey * meta := ((false, (0, 0)), Meta [::] (0, 0) [::]).
Definition p_get (i : nat) (s : pstate) : pstate * res (item T) :=
  if size ci <= i then (s, Err IndexError) else
  let s1 := PState i (p_cache s) in
  match dget (p_cache s) i with
  | Some it => (s1, Ok it)
  | None => let c := nth ci_dflt ci i in
    match load_range d range c.1 with
    | Ok it => (PState i (dset (p_cache s) i it), Ok it)
    | Err _ => (s1, Ok (T2 (sumn (mt_dims c.2)) [::], [::]))
    end
  end.
(* an exception is logged; eviction of chunks more than one behind *)
Definition p_load (i cur : nat) (s : pstate) : pstate :=
  if size ci <= i then s else
  match load_range d range (nth ci_dflt ci i).1 with
  | Err _ => s
  | Ok it =>
    let c := dset (p_cache s) i it in
    PState (p_cur s) (if pf * 3 < size c then [seq kv <- c | cur.-1 <= kv.1] else c)
  end.
Fixpoint p_run (s : pstate) (ls : seq plabel) : seq (res (item T)) :=
  match ls with
  | [::] => [::]
  | PGet i :: ls' => (p_get i s).2 :: p_run (p_get i s).1 ls'
  | PLoad i cur :: ls' => p_run (p_load i cur s) ls'
  end.
End Prefetch.
(* prefetch_dataset.py 348-470: the loader reads the items in order, bs at a time *)
Definition disk_loader (k : bool) (d : disk) (range : option (nat * nat)) (bs : nat) : seq (res (item T)) :=
  let L := Loader [seq load_item d range c | c <- chunk_info k d range] bs false in
  [seq collate_async kb.2 | kb <- enum_batches L].
End Disk.

