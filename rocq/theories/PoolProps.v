(* C62: recycled buffers and the preconditioner files. *)
Set Warnings "-notation-overridden,-ambiguous-paths".
From mathcomp Require Import all_ssreflect all_algebra zify.
From Verif Require Import Py Dict Tensor OffModel OffSpec DiskModel DiskSpec DiskProps PoolModel PoolSpec.
From Verif Require Import PoolProof PoolProof2 PoolProof3 PoolProof4.
Set Implicit Arguments. Unset Strict Implicit. Unset Printing Implicit Defensive.

Section Pool.
Variables (T : Type) (z : T) (cs mx psz : nat) (listing : seq fkey -> seq fkey) (cpu : bool).
Notation mexec := (mexec z cs mx psz listing cpu). Notation exec := (exec z cs mx listing).
Notation mread := (mread cs listing cpu).

Lemma run_open d ls : omap (fun x => (abs x.1, x.2)) (mexec (mopen listing d) ls) = exec (open_disk listing d) ls /\
  (forall m log, mexec (mopen listing d) ls = Some (m, log) -> minv mx psz m /\ binv (abs m)).
Proof. by have := @mexecP T z cs mx psz listing cpu (mopen listing d) ls (minv_open mx psz listing d) (fun _ _ => ltac:(done)). Qed.

(* Filling, handing back and handing out the same buffers again, in every interleaving of the calls with the write
   workers: the same calls are possible as with a new buffer for every chunk, with the same outcomes and the same files,
   and every batch reads the same *)
Theorem C62_pool_refines d ls :
  match mexec (mopen listing d) ls, exec (open_disk listing d) ls with
  | Some (m, log), Some (s, log') =>
      [/\ log = log', d_disk (m_rest m) = d_disk s, d_pend (m_rest m) = d_pend s &
          forall k b, rmap (map (deref (mread k b m).1)) (mread k b m).2 = (retrieve_disk cs listing k b s).2]
  | None, None => True
  | _, _ => False
  end.
Proof.
have [e H] := run_open d ls; rewrite -e; case: (mexec _ ls) H => [[m log]|] //= /(_ _ _ erefl) [I B].
by split=> // k b; have [] := mreadP cs listing cpu k b I B.
Qed.

(* so whole sequences of processes leave the same directory *)
Theorem C62_processes d lss : mprocesses z cs mx psz listing cpu d lss = processes z cs mx listing d lss.
Proof.
elim: lss d => [|ls lss IH] d //=; have [<- _] := run_open d ls.
by case: (mexec _ ls) => [[m log]|] //=; rewrite IH.
Qed.

(* A result has its own memory when the manager is not on the CPU, or when the chunk of the batch is not being filled *)
Theorem C62_own_memory k b (m : mstate T) hs : ~~ cpu || ~~ dhas (m_open m) (k, b %/ cs) ->
  (mread k b m).2 = Ok hs -> all (@own T) hs.
Proof. exact: read_own. Qed.
(* in particular after finalize_batch_range, whatever is read or written to disk afterwards *)
Theorem C62_finalised_own d ls m0 log0 ls' m log k b hs : mexec (mopen listing d) ls = Some (m0, log0) ->
  d_range (m_rest m0) <> None -> mexec m0 (LFlushAll T :: ls') = Some (m, log) -> ~~ has (@is_store T) ls' ->
  (mread k b m).2 = Ok hs -> all (@own T) hs.
Proof.
move=> _ hr; rewrite [PoolModel.mexec _ _ _ _ _ _ _ _]/=; case: (d_wait _) => //; case: (d_range _) hr => [r _|//].
case ex: (PoolModel.mexec _ _ _ _ _ _ _ ls') => [[m2 log2]|] //= [<- _] ns; apply: C62_own_memory; apply/orP; right.
have [_ ->] := exec_nostore ns ex; first by [].
by have [_ ->] := open_flush_all psz m0.
Qed.
(* and every result keeps its value as long as nothing is stored *)
Theorem C62_stable_without_store ls (m m' : mstate T) log h : ~~ has (@is_store T) ls -> mexec m ls = Some (m', log) ->
  deref m' h = deref m h.
Proof. by move=> ns /(exec_nostore ns) [e _]; case: h => //= i r0 r1 c0 d; rewrite /cell_at e. Qed.
End Pool.

(* the theorem of C36 about finished sessions, with recycled buffers *)
Theorem C62_finish (T : eqType) (z : T) cs mx psz listing cpu ds lss d log :
  (forall l, perm_eq (listing l) l) -> 0 < sumn ds -> 0 < cs ->
  all (session cs) lss -> legal cs mx ds (stores (flatten lss)) ->
  mprocesses z cs mx psz listing cpu [::] lss = Some (d, log) -> forall k b gs, List.In (k, b, gs) (accepted_stores log) ->
  rmap (map (deref (mread cs listing cpu k b (mopen listing d)).1)) (mread cs listing cpu k b (mopen listing d)).2
    = Ok (read_back gs).
Proof.
move=> lp W0 c0 al lg; rewrite C62_processes => pr k b gs h.
have [_ H _] := C36_finish lp W0 c0 al lg pr; have [<- _] := H k b gs h.
have := C62_pool_refines z cs mx psz listing cpu d [::] => /= -[_ _ _ ->] //.
Qed.

Section Prec.
Variable P : Type.
(* Preconditioners, in every interleaving of the calls with the threads that save the files: if no save fails and a layer
   is stored at most once between two waits, then after a wait every layer reads as the tensor stored last, also by a
   later process (storing None changes nothing) *)
Theorem C62_preconditioners (d0 : dict nat_eqType P) ls s :
  rexec (Prec [::] [::] (dmap (@Some P) d0)) (rcons ls (RWait P)) = Some s ->
  spaced [::] ls -> ~~ has (@is_fail P) ls ->
  (forall i, rread s i = Ok (last_stored i (dget d0 i) ls)) /\
  (has_prec s <-> exists i, last_stored i (dget d0 i) ls <> None).
Proof.
move=> ex sp nf.
have exr (s0 : prec P) l : rexec s0 (rcons ls l) = obind (fun s => rstep s l) (rexec s0 ls).
  by elim: (ls) s0 => [|l' ls' IH] s0 /=; [case: (rstep s0 l)|case: (rstep s0 l') => //= s1; rewrite IH].
move: ex; rewrite exr; case ex: (rexec _ ls) => [s1|] //=; case: ifP => // /andP [/nilP q0 /nilP b0] [es]; subst s1.
have I0 : pinv (dget d0) [::] (Prec [::] [::] (dmap (@Some P) d0)) by split=> // j; left; rewrite dget_dmap.
have [seen [_ H]] := pinv_exec I0 sp nf ex.
have D i : dget (r_dir s) i = omap (@Some P) (last_stored i (dget d0 i) ls).
  by case: (H i) => [[] //|[_ [p []]]]; rewrite /out q0 b0.
split=> [i|]; first by rewrite /rread D; case: (last_stored _ _ _).
split=> [|[i]]; last by move: (D i); rewrite /has_prec; case: (r_dir s) => [|[j o] d] //=; case: (last_stored _ _ _).
rewrite /has_prec; case e: (r_dir s) => [|[i o] d] // _; exists i => h; have := D i.
by rewrite e h dget_cons eqxx.
Qed.
(* a file being written, or whose save has failed, cannot be read *)
Theorem C62_prec_being_written (s : prec P) w s1 i p : rstep s (RBegin P w) = Some s1 -> dget (r_busy s1) w = Some (i, p) ->
  [/\ rread s1 i = Err RuntimeError, has_prec s1 &
      forall s2, rstep s1 (RFail P w) = Some s2 -> rread s2 i = Err RuntimeError /\ has_prec s2].
Proof.
rewrite /=; case: ifP => // _; case: (r_queue s) => [|t q] // [<-] /=; rewrite dgetE eqxx => -[et].
have E : rread (Prec q (dset (r_busy s) w t) (dset (r_dir s) t.1 None)) i = Err RuntimeError.
  by rewrite /rread /= et /= dgetE eqxx.
have hp b : has_prec (Prec q b (dset (r_dir s) t.1 (None : option P))).
  rewrite /has_prec /=; have := dgetE (r_dir s) t.1 t.1 (None : option P); rewrite eqxx; by case: (dset _ _ _).
split=> // s2; rewrite dhas_set eqxx /= => -[<-]; by split.
Qed.
End Prec.
(* Two saves of one layer without a wait between them: the older tensor can be what remains.  A save that fails is only
   logged: the wait returns. *)
Theorem C62_prec_race_refuted :
  [/\ (if rexec (Prec [::] [::] [::]) [:: RStore 0 (Some 1); RStore 0 (Some 2); RBegin nat 0; RBegin nat 1; REnd nat 1;
                                          REnd nat 0; RWait nat] is Some s then rread s 0 = Ok (Some 1) else False) &
      (if rexec (Prec [::] [::] [:: (0, Some 7)]) [:: RStore 0 (Some 1); RBegin nat 0; RFail nat 0; RWait nat] is Some s
       then rread s 0 = Err RuntimeError else False)].
Proof. by vm_compute. Qed.
Example prec_run :
  let ls := [:: RStore 0 (Some 1); RStore 1 (Some 2); RStore 2 None; RBegin nat 0; RBegin nat 1; REnd nat 1; REnd nat 0; RWait nat;
                RStore 1 (Some 5); RBegin nat 3; REnd nat 3] in
  spaced [::] ls && ~~ has (@is_fail nat) ls /\
  (if rexec (Prec [::] [::] (dmap some ([:: (2, 9)] : dict nat_eqType nat))) (rcons ls (RWait nat)) is Some s
   then [seq rread s i | i <- iota 0 4] = [:: Ok (Some 1); Ok (Some 5); Ok (Some 9); Ok None] else False).
Proof. by vm_compute. Qed.

(* On the CPU, a batch of one sample (or with a single layer) read while its chunk is being filled is a view of the
   buffer: it changes when the buffer is filled again for another chunk *)
Definition g1 (n : nat) : seq (gr nat) := [:: G2 (T2 2 [:: [:: n; n]]); G2 (T2 1 [:: [:: n]])].
Definition first_store : seq (label nat) := [:: LStart nat 0 100; LStore false 0 (g1 5)].
Definition later_stores : seq (label nat) := [seq LStore false i (g1 (i + 10)) | i <- iota 1 16].
Theorem C62_view_recycled_refuted :
  if mexec 0 2 4 8 id true (mopen id [::]) first_store is Some (m, _) then
    if (mread 2 id true false 0 m).2 is Ok hs then
      [seq deref m h | h <- hs] = g1 5 /\
      if mexec 0 2 4 8 id true m later_stores is Some (m', log) then
        all (fun lr => if lr.2 is Ok _ then true else false) log /\ [seq deref m' h | h <- hs] = g1 26
      else False
    else False
  else False.
Proof. by vm_compute. Qed.
(* the hypotheses of the theorems above hold for this execution: buffers are recycled, the reads agree *)
Example recycled :
  if mexec 0 2 4 8 id true (mopen id [::]) (first_store ++ later_stores) is Some (m, log) then
    [/\ size (m_heap m) = 8, size (d_queue (m_rest m)) = 8 & d_range (m_rest m) <> None]
  else False.
Proof. by vm_compute. Qed.
Example two_rows_own :
  if mexec 0 2 4 8 id true (mopen id [::]) [:: LStart nat 0 100; LStore false 0 [:: G2 (T2 2 [:: [:: 1; 2]; [:: 3; 4]]); G2 (T2 1 [:: [:: 1]; [:: 2]])]]
    is Some (m, _) then if (mread 2 id true false 0 m).2 is Ok hs then all (@own nat) hs = true else False else False.
Proof. by vm_compute. Qed.

Print Assumptions C62_pool_refines.
Print Assumptions C62_processes.
Print Assumptions C62_own_memory.
Print Assumptions C62_finalised_own.
Print Assumptions C62_stable_without_store.
Print Assumptions C62_finish.
Print Assumptions C62_preconditioners.
Print Assumptions C62_prec_being_written.
Print Assumptions C62_prec_race_refuted.
Print Assumptions C62_view_recycled_refuted.
