(* The simulation of PoolModel by DiskModel, continued: finalisation, reads, executions. *)
Set Warnings "-notation-overridden,-ambiguous-paths".
From mathcomp Require Import all_ssreflect all_algebra zify.
From Verif Require Import Py Dict Tensor OffModel DiskModel PoolModel PoolProof PoolProof2.
Set Implicit Arguments. Unset Strict Implicit. Unset Printing Implicit Defensive.

Section Pool.
Variables (T : Type) (z : T) (cs mx psz : nat) (listing : seq fkey -> seq fkey) (cpu : bool).
Notation gr := (gr T). Notation mstate := (mstate T). Notation cell := (cell T).
Notation mstore := (mstore z cs mx psz listing). Notation mflush := (mflush psz).
Notation minv := (minv mx psz).
Implicit Type m : mstate. Implicit Type s : dstate T.

Lemma mflush_allP m : minv m -> minv (mflush_all psz m) /\ abs (mflush_all psz m) = flush_all (abs m).
Proof.
move=> I; rewrite /mflush_all /flush_all [d_bufs (abs m)]/= dkeys_dmap; move: (dkeys (m_open m)) => l; elim: l m I => [|key l IH] m I //=.
have [I' a' _ _ _] := mflushP key I; rewrite -a'; exact: IH.
Qed.

(* the recorded rows of an open buffer have been written *)
Definition binv s : Prop := forall key bf, dget (d_bufs s) key = Some bf -> all (fun x : nat * (nat * nat) => x.2.2 <= size (b_rows bf)) (b_info bf).
Lemma binv_bufs s s' : binv s -> (forall key bf, dget (d_bufs s') key = Some bf -> dget (d_bufs s) key = Some bf) -> binv s'.
Proof. by move=> B h key bf /h /B. Qed.
Lemma binv_set s s' key bf : binv s -> d_bufs s' = dset (d_bufs s) key bf ->
  all (fun x : nat * (nat * nat) => x.2.2 <= size (b_rows bf)) (b_info bf) -> binv s'.
Proof. by move=> B e h k' b'; rewrite e dgetE; case: ifP => [_ [<-]|_ /B]. Qed.
Lemma binv_flush key s : binv s -> binv (flush_key key s).
Proof.
move=> B; rewrite /flush_key; case: (dget _ key) => [bf|] //.
by apply: binv_bufs B _ => k' b' /=; rewrite dget_del; case: ifP.
Qed.
Lemma binv_store k b gs s : binv s -> binv (store_batch z cs mx listing k b gs s).1.
Proof.
move=> B; rewrite /store_batch; case: (get_dims _ _ _ _) => [ds|] //.
set s1 := if dhas _ _ then _ else _; have B1 : binv s1.
  rewrite /s1; case: ifP => _ //; exact: (binv_set (s := s) (key := (k, b %/ cs)) (bf := buf0 T)).
case efr: (first_rows gs) => [[|bs]|] //; case ef: (rbind _ _) => [t|] //.
set s2 := if mx < size _ + _ then _ else _; have B2 : binv s2.
  rewrite /s2; case: ifP => _ //; apply: (binv_set (s := flush_key (k, b %/ cs) s1) (key := (k, b %/ cs)) (bf := buf0 T)) => //; exact: binv_flush.
case: ifP => _ //; case ew: (to_width _ _ _) => [rows|] //.
set s3 := upd_bufs _ _; have B3 : binv s3.
  apply: (binv_set B2 (erefl (d_bufs s3))); rewrite [b_rows _]/= [b_info _]/= all_rcons /= size_cat.
  rewrite (size_to_width ew) (nrows_cat efr ef) leqnn /=.
  case e: (dget (d_bufs s2) _) => [bf|] //=; apply: sub_all (B2 _ _ e) => x hx; exact: leq_trans hx (leq_addr _ _).
by case: ifP => _ //; exact: binv_flush.
Qed.
(* a batch that is not in an open buffer is read from the cache or the disk *)
Lemma read_nobuf k b s : (if dget (d_bufs s) (k, b %/ cs) is Some bf then find_info b (b_info bf) else None) = None ->
  retrieve_disk cs listing k b s =
    let r := retrieve_disk cs listing k b (upd_bufs [::] s) in (upd_bufs (d_bufs s) r.1, r.2).
Proof.
move=> h; rewrite /retrieve_disk /retrieve_batch /ensure_dims_disk /=.
case: s h => dm bu qu bs pe ra wa ca di /= h.
set q := (if _ is Some l then _ else _); case eq: q => [ds|] //=.
have -> : (if dget bu (k, b %/ cs) is Some bf then
   if find_info b (b_info bf) is Some se then Some (slice se (b_rows bf)) else None else None) = None.
  by case: (dget bu _) h => [bf|] //= ->.
case: (dget ca _) => [[rows info]|] //=.
  case: (find_info b info) => [se|] //=; by case: (scan _ _ _) => [[[[? ?] ?]|]|] //=.
by case: (scan _ _ _) => [[[[? ?] ?]|]|] //=.
Qed.
Lemma read_dims k b ds s : ensure_dims_disk listing s = Ok ds ->
  retrieve_disk cs listing k b (upd_dims (Some ds) s) = retrieve_disk cs listing k b s.
Proof. by move=> e; rewrite /retrieve_disk /retrieve_batch /= e. Qed.

Lemma slice_take n se (rows : seq (seq T)) : se.2 <= n -> slice se (seq.take n rows) = slice se rows.
Proof.
case: se => a b; rewrite /slice /= => h; case: (leqP a b) => [ab|ba].
  by rewrite !take_drop take_take // subnK.
by rewrite (eqP (ltnW ba)) !take0.
Qed.
Lemma find_infoP b info se : find_info b info = Some se -> exists2 x, x \in info & x.2 = se.
Proof.
rewrite /find_info; case e: [seq x <- info | x.1 == b] => [|x l] // [<-]; exists x => //.
by have := mem_head x l; rewrite -e mem_filter => /andP [].
Qed.

Lemma hsplitP m i w r0 r1 c0 ds : r1 <= size (c_rows (cell_at m i)) -> c0 + sumn ds <= w ->
  [seq deref m h | h <- hsplit cpu i w r0 r1 c0 (slice (r0, r1) (c_rows (cell_at m i))) ds]
  = [seq moved g | g <- split_from c0 ds (T2 w (slice (r0, r1) (c_rows (cell_at m i))))].
Proof.
move=> hr; elim: ds c0 => [|d ds IH] c0 //= hw; rewrite IH; last by move: hw; clear; lia.
congr (_ :: _); case: ifP => // /and3P [_ pos _] /=; rewrite /cols /= /nrows /= size_map /slice_len.
have -> : minn (c0 + d) w - minn c0 w = d by move: hw; clear; lia.
rewrite size_takel ?pos; last by rewrite size_drop /=; apply: leq_sub2r.
by congr (G2 (T2 _ _)); apply: eq_map => r; congr (seq.take _ _); rewrite addKn.
Qed.

Lemma minv_rest m s : minv m -> d_dims s = d_dims (m_rest m) -> minv (set_rest s m).
Proof.
move=> I e; split=> /=; [exact: (mi_ko I)|exact: (mi_oo I)|exact: (mi_lo I)|exact: (mi_uq I)|exact: (mi_lq I)|exact: (mi_qq I)|
  exact: (mi_oq I)|exact: (mi_cap I)|exact: (mi_has I)|].
by move=> i hi; rewrite e; exact: (mi_cell I).
Qed.
Lemma dims_read k b ds s : d_dims s = Some ds -> d_dims (retrieve_disk cs listing k b s).1 = Some ds.
Proof.
case: s => dm bu qu bs pe ra wa ca di /= ->; rewrite /retrieve_disk /retrieve_batch /ensure_dims_disk /=.
case: (if dget bu _ is Some _ then _ else _) => [r|] //=.
case: (dget ca _) => [[rows info]|] //=.
  case: (find_info b info) => [se|] //=; by case: (scan _ _ _) => [[[[? ?] ?]|]|] //=.
by case: (scan _ _ _) => [[[[? ?] ?]|]|] //=.
Qed.

Lemma bufs_read k b s : d_bufs (retrieve_disk cs listing k b s).1 = d_bufs s.
Proof.
case: s => dm bu qu bs pe ra wa ca di; rewrite /retrieve_disk /retrieve_batch /=.
case: (ensure_dims_disk _ _) => [ds|] //=.
case: (if dget bu _ is Some _ then _ else _) => [r|] //=.
case: (dget ca _) => [[rows info]|] //=.
  case: (find_info b info) => [se|] //=; by case: (scan _ _ _) => [[[[? ?] ?]|]|] //=.
by case: (scan _ _ _) => [[[[? ?] ?]|]|] //=.
Qed.
Lemma binv_read k b s : binv s -> binv (retrieve_disk cs listing k b s).1.
Proof. by move=> B key bf; rewrite bufs_read; exact: B. Qed.
Lemma binv_flush_all s : binv s -> binv (flush_all s).
Proof. rewrite /flush_all; move: (dkeys _) => l; elim: l s => [|key l IH] s B //=; apply: IH; exact: binv_flush. Qed.

Lemma mreadP k b m : minv m -> binv (abs m) -> let r := mread cs listing cpu k b m in
  [/\ minv r.1, abs r.1 = (retrieve_disk cs listing k b (abs m)).1, m_heap r.1 = m_heap m &
      rmap (map (deref r.1)) r.2 = (retrieve_disk cs listing k b (abs m)).2].
Proof.
move=> I B; rewrite /mread; case ed: (ensure_dims_disk _ _) => [ds|ex]; last first.
  by rewrite /retrieve_disk /retrieve_batch [ensure_dims_disk _ (abs m)](_ : _ = Err ex).
set m0 := set_rest _ m; set s0 := upd_dims (Some ds) (abs m).
have I0 : minv m0 by apply: minv_dims I _ => l e; move: ed; rewrite /ensure_dims_disk e => -[->].
have a0 : abs m0 = s0 by [].
have er : retrieve_disk cs listing k b (abs m) = retrieve_disk cs listing k b s0 by rewrite read_dims.
rewrite er -a0.
have B0 : binv (abs m0) by exact: B.
have nb : (if dget (d_bufs (abs m0)) (k, b %/ cs) is Some bf then find_info b (b_info bf) else None) = None ->
    let r := (let r := retrieve_disk cs listing k b (upd_bufs [::] (m_rest m0)) in (set_rest r.1 m0, rmap (map (@HVal T)) r.2)) in
    [/\ minv r.1, abs r.1 = (retrieve_disk cs listing k b (abs m0)).1, m_heap r.1 = m_heap m &
      rmap (map (deref r.1)) r.2 = (retrieve_disk cs listing k b (abs m0)).2].
  move=> /read_nobuf ->; rewrite [upd_bufs [::] (abs m0)](_ : _ = upd_bufs [::] (m_rest m0)) //.
  have dr := dims_read k b (s := upd_bufs [::] (m_rest m0)) (erefl (Some ds)).
  move: dr; move: (retrieve_disk _ _ _ _ _) => r dr; cbn [fst snd]; split=> //; first exact: minv_rest.
  case: r {dr} => r [l|] //=; congr Ok; elim: l => [|g l IH] //=; by rewrite IH.
case eo: (dget (m_open m0) (k, b %/ cs)) => [i|]; last by apply: nb; rewrite /= dget_dmap eo.
have eb : dget (d_bufs (abs m0)) (k, b %/ cs) = Some (buf_of (cell_at m0 i)) by rewrite /= dget_dmap eo.
have eb' := eb.
case ef: (find_info b (c_info (cell_at m0 i))) => [[r0 r1]|]; last by apply: nb; rewrite eb.
split=> //.
  rewrite /retrieve_disk /retrieve_batch /ensure_dims_disk; cbn [d_dims abs upd_bufs m_rest m0 set_rest upd_dims fst].
  by move: eb; rewrite /= => ->; rewrite /= ef.
rewrite /retrieve_disk /retrieve_batch /ensure_dims_disk /=; move: eb; rewrite /= => ->; rewrite /= ef /= /split_rows.
have hi := mi_lo I0 eo; have [s1 s2 _ _] := mi_cell I0 hi.
have h1 : r1 <= c_cur (cell_at m0 i).
  have [x hx ex] := find_infoP ef; have /allP /(_ x hx) := B0 _ _ eb'; by rewrite ex /= size_takel ?s1.
congr Ok; rewrite slice_take //; apply: hsplitP; last by rewrite add0n.
by rewrite s1; apply: leq_trans h1 s2.
Qed.

Notation mstep := (mstep z cs mx psz listing cpu). Notation mexec := (mexec z cs mx psz listing cpu).
Notation step := (step z cs mx listing). Notation exec := (exec z cs mx listing).
Definition other (l : label T) : bool := match l with LStore _ _ _ | LRead _ _ | LFlushAll => false | _ => true end.
Lemma step_other l bu s : other l -> step (upd_bufs bu s) l = omap (fun sr : dstate T * res unit => (upd_bufs bu sr.1, sr.2)) (step s l).
Proof.
case: s => dm b0 qu bs pe ra wa ca di; case: l => [a b|k b gs|k b||||w|w] //= _.
- by rewrite /start_range /=; case: wa => //=; case: (_ != 0).
- by case: ifP.
- by case: (_ && _) => //; case: wa.
- by rewrite /take /=; case: ifP => // _; case: qu.
- rewrite /work /=; case: (dget bs w) => [[t n]|] //=; move: n => [|[|[|[|n]]]] //=; by case: ifP.
Qed.
Lemma dims_other l s s' r : other l -> step s l = Some (s', r) -> d_dims s' = d_dims s.
Proof.
case: s => dm b0 qu bs pe ra wa ca di; case: l => [a b|k b gs|k b||||w|w] //= _.
- by rewrite /start_range /=; case: wa => //=; case: (_ != 0) => -[<-].
- by case: ifP => // _ [<-].
- by case: (_ && _) => //; case: wa => // -[<-].
- by rewrite /take /=; case: ifP => // _; case: qu => // t q [<-].
- rewrite /work /=; case: (dget bs w) => [[t n]|] //=; move: n => [|[|[|[|n]]]] //=; last first; try by [case=> <-].
  by case: ifP => _ /= [<-].
Qed.
Lemma binv_other l s s' r : other l -> step s l = Some (s', r) -> binv s -> binv s'.
Proof.
move=> o e B; have : step (upd_bufs (d_bufs s) s) l = Some (s', r) by case: (s) e.
by rewrite step_other //; case: (step s l) e => // -[s1 r1] [<- <-] /= [<-].
Qed.

Lemma mstepP m l : minv m -> binv (abs m) ->
  omap (fun x => (abs x.1, x.2)) (mstep m l) = step (abs m) l /\
  (forall m' r, mstep m l = Some (m', r) -> minv m' /\ binv (abs m')).
Proof.
move=> I B; case o: (other l).
  have em : mstep m l = omap (fun sr : dstate T * res unit => (set_rest sr.1 m, sr.2)) (step (m_rest m) l) by case: l o.
  have es : step (abs m) l = omap (fun sr : dstate T * res unit => (upd_bufs (d_bufs (abs m)) sr.1, sr.2)) (step (m_rest m) l).
    by rewrite -step_other.
  rewrite em es; case e: (step (m_rest m) l) => [[s' r']|] //=; split=> // m' r [<- _]; split.
    by apply: minv_rest; rewrite // (dims_other o e).
  exact: B.
case: l o => [a b|k b gs|k b||||w|w] //= _.
- case: (d_wait _) => //=; have [I' e'] := mstoreP z cs listing k b gs I; rewrite -e'; split=> // m' r [e1].
  rewrite e1 in I' e'; split=> //.
  have : binv (store_batch z cs mx listing k b gs (abs m)).1 by exact: binv_store.
  by rewrite -e'.
- case: (d_wait _) => //=; have [I' a' _ _] := mreadP k b I B; split; first by rewrite a'.
  move=> m' r [<- _]; split=> //; rewrite a'; exact: binv_read.
- case: (d_wait _) => //=; case: (d_range _) => [[a b]|] /=; last by split=> // m' r [<- _].
  have [I' a'] := mflush_allP I; split; first by rewrite -a'.
  move=> m' r [<- _]; split; first exact: minv_rest.
  have : binv (flush_all (abs m)) by exact: binv_flush_all.
  by rewrite -a'.
Qed.
Theorem mexecP m ls : minv m -> binv (abs m) ->
  omap (fun x => (abs x.1, x.2)) (mexec m ls) = exec (abs m) ls /\
  (forall m' log, mexec m ls = Some (m', log) -> minv m' /\ binv (abs m')).
Proof.
elim: ls m => [|l ls IH] m I B /=; first by split=> // m' log [<- _].
have [e1 e2] := mstepP l I B; rewrite -e1; case: (mstep m l) e2 {e1} => [[m1 r]|] //= e2.
have [I1 B1] := e2 _ _ erefl; have [e3 e4] := IH m1 I1 B1; rewrite -e3.
by case: (mexec m1 ls) e4 {e3} => [[m2 log2]|] //= e4; split=> // m' log [<- _]; exact: (e4 _ log2).
Qed.
End Pool.
