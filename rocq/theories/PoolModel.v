(* The buffers behind the chunked gradient store, and the preconditioner files.
   Modelled: dattri/algorithm/block_projected_if/offload/disk_io/manager.py 26-129 (ChunkBuffer, BufferPool), 292-319,
   423-644 (store_gradients, store_ifvp and _async_flush_chunk_buffer with their buffers), 681-699, 701-846 (reads, with
   the sharing of memory between the result and a buffer), 877-971 (preconditioners, wait_for_async_operations), and
   offload/disk.py 96-172.  The rest of the manager is DiskModel, whose buffers are values; here they are cells of a
   heap which are handed out, filled in place, given back and handed out again.
   Simplifications: one producer thread (as in the attributor), so a pool that is empty stays empty until the timeout;
   pinned memory, logging and counters are left out.  No proofs. *)
Set Warnings "-notation-overridden,-ambiguous-paths".
From mathcomp Require Import all_ssreflect all_algebra.
From Verif Require Import Py Dict Tensor OffModel DiskModel.
Set Implicit Arguments. Unset Strict Implicit. Unset Printing Implicit Defensive.

Section Pool.
Variables (T : Type) (z : T).
Variables (cs mx psz : nat).                  (* chunk_size, max_samples_per_chunk, buffer_pool_size *)
Variable listing : seq fkey -> seq fkey.
Variable cpu : bool.                          (* the device of the manager is the CPU *)
Notation gr := (gr T). Notation t2 := (t2 T).

(* 26-34: a pre-allocated tensor of mx rows and c_w columns *)
Record cell := Cell { c_w : nat; c_rows : seq (seq T); c_idx : seq nat; c_info : binfo; c_cur : nat }.
Record mstate := MState {
  m_heap : seq cell;                          (* every buffer ever allocated; a reference is an index *)
  m_pool : dict bool_eqType (seq nat);        (* _buffer_pools: the queues of available buffers *)
  m_open : dict ckey nat;                     (* _chunk_buffers *)
  m_rest : dstate T }.                        (* the other attributes; d_bufs is unused *)
Definition mopen (d : disk T) : mstate := MState [::] [::] [::] (open_disk listing d).
Definition cell_at (m : mstate) (i : nat) : cell := nth (Cell 0 [::] [::] [::] 0) (m_heap m) i.
Definition set_cell (i : nat) (c : cell) (m : mstate) : mstate :=
  MState (set_nth (Cell 0 [::] [::] [::] 0) (m_heap m) i c) (m_pool m) (m_open m) (m_rest m).
Definition set_rest (s : dstate T) (m : mstate) : mstate := MState (m_heap m) (m_pool m) (m_open m) s.
Definition set_open (key : ckey) (i : nat) (m : mstate) : mstate :=
  MState (m_heap m) (m_pool m) (dset (m_open m) key i) (m_rest m).

Definition fresh (w : nat) : cell := Cell w (nseq mx (nseq w z)) [::] [::] 0.
Definition pool_size : nat := maxn 8 psz.
(* 292-319 with 40-73 *)
Definition get_pool (k : bool) (w : nat) (m : mstate) : mstate :=
  if dhas (m_pool m) k then m
  else MState (m_heap m ++ nseq pool_size (fresh w)) (dset (m_pool m) k (iota (size (m_heap m)) pool_size))
              (m_open m) (m_rest m).
(* 80-114: the oldest available buffer, reset; its tensor keeps the old rows *)
Definition get_buffer (k : bool) (m : mstate) : mstate * option nat :=
  match dget (m_pool m) k with
  | Some (i :: q) =>
      let c := cell_at m i in
      let m' := set_cell i (Cell (c_w c) (c_rows c) [::] [::] 0) m in
      (MState (m_heap m') (dset (m_pool m) k q) (m_open m) (m_rest m), Some i)
  | _ => (m, None)
  end.
(* 116-129: a full pool drops the buffer *)
Definition return_buffer (k : bool) (i : nat) (m : mstate) : mstate :=
  match dget (m_pool m) k with
  | Some q => if size q < pool_size then MState (m_heap m) (dset (m_pool m) k (rcons q i)) (m_open m) (m_rest m) else m
  | None => m
  end.
(* 461-475: from the pool, or a new one *)
Definition open_buffer (k : bool) (w : nat) (key : ckey) (m : mstate) : mstate :=
  let mo := get_buffer k m in
  if mo.2 is Some i then set_open key i mo.1
  else let i := size (m_heap mo.1) in
       set_open key i (MState (rcons (m_heap mo.1) (fresh w)) (m_pool mo.1) (m_open mo.1) (m_rest mo.1)).
(* 529-564: the filled rows are cloned, the buffer goes back, the clone is queued *)
Definition mflush (key : ckey) (m : mstate) : mstate :=
  match dget (m_open m) key with
  | None => m
  | Some i =>
      let c := cell_at m i in
      let m1 := MState (m_heap m) (m_pool m) (ddel (m_open m) key) (m_rest m) in
      let s := m_rest m in
      set_rest (DState (d_dims s) (d_bufs s) (rcons (d_queue s) (Task key (seq.take (c_cur c) (c_rows c)) (c_info c)))
                       (d_busy s) (if key \in d_pend s then d_pend s else rcons (d_pend s) key)
                       (d_range s) (d_wait s) (d_cache s) (d_disk s))
               (return_buffer key.1 i m1)
  end.
(* 646-679, on batch_indices *)
Definition mcomplete (key : ckey) (m : mstate) : bool :=
  if d_range (m_rest m) is Some (a, b) then
    let es := maxn (key.2 * cs) a in
    let ee := minn (key.2.+1 * cs) b in
    (es < ee) &&
    (if dget (m_open m) key is Some i then all (fun j => j \in c_idx (cell_at m i)) (iota es (ee - es)) else false)
  else false.
(* 514-524: rows st .. st + bs of the tensor are overwritten *)
Definition fill (b bs : nat) (rows : seq (seq T)) (c : cell) : cell :=
  let st := c_cur c in
  Cell (c_w c) (seq.take st (c_rows c) ++ rows ++ drop (st + bs) (c_rows c)) (rcons (c_idx c) b)
       (rcons (c_info c) (b, (st, st + bs))) (st + bs).
(* 423-527, 566-644 *)
Definition mstore (k : bool) (b : nat) (gs : seq gr) (m : mstate) : mstate * res unit :=
  match get_dims listing k gs (m_rest m) with
  | Err e => (m, Err e)
  | Ok ds =>
    let key : ckey := (k, b %/ cs) in
    let m0 := get_pool k (sumn ds) (set_rest (upd_dims (Some ds) (m_rest m)) m) in
    let m1 := if dhas (m_open m0) key then m0 else open_buffer k (sumn ds) key m0 in
    match first_rows gs with
    | Err e => (m1, Err e)
    | Ok 0 => (m1, Ok tt)
    | Ok bs =>
      match rbind (features z bs ds gs) (@cat1 T) with
      | Err e => (m1, Err e)
      | Ok t =>
        let i1 := odflt 0 (dget (m_open m1) key) in
        let: (m2, ok) := if mx < c_cur (cell_at m1 i1) + bs
                         then let mo := get_buffer k (mflush key m1) in
                              if mo.2 is Some i then (set_open key i mo.1, true) else (mo.1, false)
                         else (m1, true) in
        if ~~ ok then (m2, Err RuntimeError)
        else if mx < bs then (m2, Err RuntimeError)
        else
          let i := odflt 0 (dget (m_open m2) key) in
          match to_width z (c_w (cell_at m2 i)) t with
          | Err e => (m2, Err e)
          | Ok rows =>
            let m3 := set_cell i (fill b bs rows (cell_at m2 i)) m2 in
            (if mcomplete key m3 then mflush key m3 else m3, Ok tt)
          end
      end
    end
  end.
(* 686-690 *)
Definition mflush_all (m : mstate) : mstate := foldl (fun m key => mflush key m) m (dkeys (m_open m)).

(* ----- reads.  A layer of the result has its own memory, or is a view of rows r0 .. r1 and columns c0 .. c0 + d of
   a buffer: tensor[:, a:b].contiguous() copies only what is not contiguous, .to(device) nothing on the CPU, and an
   empty layer becomes a new torch.tensor([]) *)
Inductive handle := HVal (g : gr) | HView (i r0 r1 c0 d : nat).
Definition deref (m : mstate) (h : handle) : gr :=
  match h with
  | HVal g => g
  | HView i r0 r1 c0 d => G2 (T2 d [seq seq.take d (drop c0 r) | r <- slice (r0, r1) (c_rows (cell_at m i))])
  end.
Fixpoint hsplit (i w r0 r1 c0 : nat) (rows : seq (seq T)) (ds : seq nat) : seq handle :=
  if ds is d :: ds' then
    (if [&& cpu, 0 < (r1 - r0) * d & (r1 - r0 == 1) || (d == w)] then HView i r0 r1 c0 d
     else HVal (moved (G2 (cols c0 (c0 + d) (T2 w rows))))) :: hsplit i w r0 r1 (c0 + d) rows ds'
  else [::].
(* 701-846; the read cache and the disk as in DiskModel *)
Definition mread (k : bool) (b : nat) (m : mstate) : mstate * res (seq handle) :=
  match ensure_dims_disk listing (m_rest m) with
  | Err e => (m, Err e)
  | Ok ds =>
    let m0 := set_rest (upd_dims (Some ds) (m_rest m)) m in
    let key : ckey := (k, b %/ cs) in
    match (if dget (m_open m0) key is Some i then
             if find_info b (c_info (cell_at m0 i)) is Some se then Some (i, se) else None
           else None) with
    | Some (i, se) =>
        (m0, Ok (hsplit i (sumn ds) se.1 se.2 0 (slice se (c_rows (cell_at m0 i))) ds))
    | None => let r := retrieve_disk cs listing k b (upd_bufs [::] (m_rest m0)) in
              (set_rest r.1 m0, rmap (map HVal) r.2)
    end
  end.

(* ----- executions: the workers never touch a buffer (they get the clone) *)
Definition mstep (m : mstate) (l : label T) : option (mstate * res unit) :=
  let s := m_rest m in
  let main x := if d_wait s then None else Some x in
  let other := omap (fun sr : dstate T * res unit => (set_rest sr.1 m, sr.2)) (step z cs mx listing s l) in
  match l with
  | LStore k b gs => main (mstore k b gs m)
  | LRead k b => main ((mread k b m).1, Ok tt)
  | LFlushAll => main (if d_range s is Some _ then
      (let f := mflush_all m in set_rest (upd_wait true (m_rest f)) f, Ok tt) else (m, Ok tt))
  | _ => other
  end.
Fixpoint mexec (m : mstate) (ls : seq (label T)) : option (mstate * seq (label T * res unit)) :=
  if ls is l :: ls' then
    if mstep m l is Some (m', r) then omap (fun sl => (sl.1, (l, r) :: sl.2)) (mexec m' ls') else None
  else Some (m, [::]).
End Pool.

(* ----- preconditioner files: 877-916, 929-971; torch.save runs in a thread of the executor.  A file is None while it
   is being written.  The executor takes the submitted tasks in order, several at a time. *)
Section Prec.
Variable P : Type.
Record prec := Prec {
  r_queue : seq (nat * P);                      (* submitted, not started: layer and tensor *)
  r_busy : dict nat_eqType (nat * P);           (* thread -> its task, the file being open *)
  r_dir : dict nat_eqType (option P) }.
Inductive rlabel :=
| RStore (i : nat) (p : option P) | RBegin (w : nat) | REnd (w : nat)
| RFail (w : nat)                               (* torch.save raises: 956-971 logs it *)
| RWait.                                        (* wait_for_async_operations returns *)
Definition rstep (s : prec) (l : rlabel) : option prec :=
  match l with
  | RStore _ None => Some s
  | RStore i (Some p) => Some (Prec (rcons (r_queue s) (i, p)) (r_busy s) (r_dir s))
  | RBegin w => if dhas (r_busy s) w then None
      else if r_queue s is t :: q then Some (Prec q (dset (r_busy s) w t) (dset (r_dir s) t.1 None)) else None
  | REnd w => if dget (r_busy s) w is Some t
      then Some (Prec (r_queue s) (ddel (r_busy s) w) (dset (r_dir s) t.1 (Some t.2))) else None
  | RFail w => if dhas (r_busy s) w then Some (Prec (r_queue s) (ddel (r_busy s) w) (r_dir s)) else None
  | RWait => if nilp (r_queue s) && nilp (r_busy s) then Some s else None
  end.
Fixpoint rexec (s : prec) (ls : seq rlabel) : option prec :=
  if ls is l :: ls' then obind (rexec^~ ls') (rstep s l) else Some s.
(* 903-916: an incomplete file makes torch.load raise *)
Definition rread (s : prec) (i : nat) : res (option P) :=
  match dget (r_dir s) i with Some (Some p) => Ok (Some p) | Some None => Err RuntimeError | None => Ok None end.
(* 973-982 *)
Definition has_prec (s : prec) : bool := ~~ nilp (r_dir s).
End Prec.
