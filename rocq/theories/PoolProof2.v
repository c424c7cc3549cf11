(* The simulation of PoolModel by DiskModel, continued: stores, reads, executions. *)
Set Warnings "-notation-overridden,-ambiguous-paths".
From mathcomp Require Import all_ssreflect all_algebra zify.
From Verif Require Import Py Dict Tensor OffModel DiskModel PoolModel PoolProof.
Set Implicit Arguments. Unset Strict Implicit. Unset Printing Implicit Defensive.

Section Pool.
Variables (T : Type) (z : T) (cs mx psz : nat) (listing : seq fkey -> seq fkey) (cpu : bool).
Notation gr := (gr T). Notation mstate := (mstate T). Notation cell := (cell T).
Notation mstore := (mstore z cs mx psz listing). Notation mflush := (mflush psz).
Notation minv := (minv mx psz).
Implicit Type m : mstate.

Lemma complete_abs key m : minv m -> mcomplete cs key m = complete cs key (abs m).
Proof.
move=> I; rewrite /mcomplete /complete /=; case: (d_range _) => [[a b]|] //; congr (_ && _).
rewrite dget_dmap; case e: (dget (m_open m) key) => [i|] //=.
by have [_ _ -> _] := mi_cell I (mi_lo I e).
Qed.
(* rows are written into the open buffer of a chunk *)
Lemma fillP key m i b bs rows : minv m -> dget (m_open m) key = Some i -> size rows = bs -> c_cur (cell_at m i) + bs <= mx ->
  let m' := set_cell i (fill b bs rows (cell_at m i)) m in
  let bf := odflt (buf0 T) (dget (d_bufs (abs m)) key) in
  let st := size (b_rows bf) in
  minv m' /\ abs m' = upd_bufs (dset (d_bufs (abs m)) key (Buf (b_rows bf ++ rows) (rcons (b_info bf) (b, (st, st + bs))))) (abs m).
Proof.
move=> I e sr le m'; rewrite [dget _ _](_ : _ = Some (buf_of (cell_at m i))); last by rewrite /= dget_dmap e.
have hi := mi_lo I e; have ok := mi_cell I hi; have [s1 s2 s3 s4] := ok.
have sb : size (b_rows (buf_of (cell_at m i))) = c_cur (cell_at m i) by rewrite /= size_takel ?s1.
have ca j : cell_at m' j = if j == i then fill b bs rows (cell_at m i) else cell_at m j.
  by rewrite -(@cell_set _ m i (fill b bs rows (cell_at m i)) (m_pool m) (m_open m) (m_rest m)).
have sz := size_set (fill b bs rows (cell_at m i)) hi.
move=> bf st; split.
  split; rewrite ?sz; [exact: (mi_ko I)|exact: (mi_oo I)|exact: (mi_lo I)|exact: (mi_uq I)|exact: (mi_lq I)|exact: (mi_qq I)|
    exact: (mi_oq I)|exact: (mi_cap I)|exact: (mi_has I)|].
  move=> j hj; rewrite ca; case: ifP => _; last exact: (mi_cell I).
  split=> //=; last by rewrite map_rcons s3.
  by rewrite !size_cat size_takel ?s1 // size_drop s1 sr addnA subnKC.
apply: abs_same => //; rewrite [m_open _]/=.
rewrite (@dmap_upd _ _ _ (fun j => buf_of (cell_at m j)) _ _ key i (mi_ko I) e); last first.
  by move=> k' v' ne e'; rewrite ca; case: (v' =P i) => // ev; move: ne; rewrite (mi_oo I e' (k2 := key)) ?eqxx // ev.
congr dset; rewrite ca eqxx /buf_of /= /st /bf sb; congr Buf.
by rewrite catA take_cat size_cat size_takel ?s1 // sr ltnn subnn take0 cats0.
Qed.

Lemma c_cur_abs key m i : minv m -> dget (m_open m) key = Some i ->
  size (b_rows (odflt (buf0 T) (dget (d_bufs (abs m)) key))) = c_cur (cell_at m i).
Proof.
move=> I e; rewrite /= dget_dmap e /=; have [s1 s2 _ _] := mi_cell I (mi_lo I e); by rewrite size_takel ?s1.
Qed.
Lemma size_to_width w t (rows : seq (seq T)) : to_width z w t = Ok rows -> size rows = nrows t.
Proof. by rewrite /to_width; case: ifP => [_ [<-]|_] //; case: ifP => // _ [<-]; rewrite size_map. Qed.
Lemma nrows_cat bs ds gs t : first_rows gs = Ok bs -> rbind (features z bs ds gs) (@cat1 T) = Ok t -> nrows t = bs.
Proof.
case: gs => [|g gs] //; case: ds => [|d ds] //=; rewrite /features /=.
case eg: (nonempty g) => [[]|] //= h.
  case: g eg h => // t0 eg [<-]; case: (rseq _ _) => [ts|] //=; rewrite eqxx /=; case: ifP => // _ [<-].
  by rewrite /nrows /= size_mkseq.
case: (rseq _ _) => [ts|] //=; rewrite eqxx /=; case: ifP => // _ [<-].
by rewrite /nrows /= size_mkseq size_nseq.
Qed.

Theorem mstoreP k b gs m : minv m -> 
  minv (mstore k b gs m).1 /\ (abs (mstore k b gs m).1, (mstore k b gs m).2) = store_batch z cs mx listing k b gs (abs m).
Proof.
move=> I; rewrite /mstore /store_batch -get_dims_abs; case eg: (get_dims listing k gs (m_rest m)) => [ds|ex] //.
set key : ckey := (k, b %/ cs).
set mA := set_rest _ m; set m0 := get_pool z mx psz k (sumn ds) mA.
have IA : minv mA by apply: minv_dims I _ => l /(get_dims_some eg) ->.
have [I0 a0 p0 [r0 o0]] : [/\ minv m0, abs m0 = abs mA, dhas (m_pool m0) k & m_rest m0 = m_rest mA /\ m_open m0 = m_open mA].
  exact: get_poolP IA _.
set m1 := if dhas (m_open m0) key then m0 else _; set s0 := upd_dims (Some ds) (abs m).
have aA : abs mA = s0 by [].
set s1 := if dhas (d_bufs s0) key then s0 else _.
have dd0 : d_dims (m_rest m0) = Some ds by rewrite r0.
have [I1 a1 h1 d1] : [/\ minv m1, abs m1 = s1, dhas (m_open m1) key & d_dims (m_rest m1) = Some ds].
  rewrite /m1 /s1 -aA -a0 [dhas (d_bufs _) key]dhas_dmap; case: ifP => [h|/negbT h]; first by split.
  by have [? -> ? ->] := open_bufferP z I0 dd0 h p0.
case efr: (first_rows gs) => [[|bs]|ex]; rewrite ?a1 //.
case ef: (rbind (features z bs.+1 ds gs) (@cat1 T)) => [t|ex]; rewrite ?a1 //.
have [i1 e1] : exists i, dget (m_open m1) key = Some i by move: h1; rewrite dget_has; case: (dget _ key) => // i _; exists i.
have cur := c_cur_abs I1 e1; rewrite a1 in cur; rewrite e1 [odflt _ (Some _)]/= cur.
set s2 := if mx < c_cur (cell_at m1 i1) + bs.+1
  then let f := flush_key key s1 in upd_bufs (dset (d_bufs f) key (buf0 T)) f else s1.
have [m2 [i2 [E2 I2 a2 e2 [cw2 cu2]]]] : exists m2 i2,
    [/\ (if mx < c_cur (cell_at m1 i1) + bs.+1 then let mo := get_buffer k (mflush key m1) in
           if mo.2 is Some i then (set_open key i mo.1, true) else (mo.1, false)
         else (m1, true)) = (m2, true), minv m2, abs m2 = s2, dget (m_open m2) key = Some i2 &
         c_w (cell_at m2 i2) = sumn ds /\ (bs.+1 <= mx -> c_cur (cell_at m2 i2) + bs.+1 <= mx)].
  rewrite /s2; case: ltnP => ov; last first.
    exists m1, i1; split=> //; split=> //; have [_ _ _ [_ ->]] := mi_cell I1 (mi_lo I1 e1); by rewrite d1.
  have [If af nf df hf] := mflushP key I1; have [i [q eq]] := hf h1.
  have [g2 Io ao] := open_some If nf eq; rewrite [key.1]/= in g2 Io ao; rewrite g2.
  exists (set_open key i (get_buffer k (mflush key m1)).1), i.
  have eo : dget (m_open (set_open key i (get_buffer k (mflush key m1)).1)) key = Some i by rewrite /= dgetE eqxx.
  split=> //; first by rewrite ao af a1.
  have [_ _ _ [_ ew]] := mi_cell Io (mi_lo Io eo); have cu := c_cur_abs Io eo.
  split; last by rewrite -cu ao /= dgetE eqxx /= add0n.
  by rewrite ew /=; move: df; rewrite /get_buffer; case: (dget _ _) => [[|? ?]|] /= ->; rewrite d1.
rewrite E2; cbn [negb]; case: ltnP => hb; first by rewrite a2.
rewrite e2 [odflt _ (Some _)]/= cw2.
case ew: (to_width z (sumn ds) t) => [rows|ex]; last by rewrite a2.
have sr : size rows = bs.+1 by rewrite (size_to_width ew) (nrows_cat efr ef).
have [I3 a3] := fillP b I2 e2 sr (cu2 hb); rewrite a2 in a3.
set m3 := set_cell i2 _ m2; rewrite -/m3 in I3 a3.
rewrite (complete_abs key I3) a3; case: ifP => _; last by rewrite a3.
by have [I4 a4 _ _ _] := mflushP key I3; rewrite a4 a3.
Qed.
End Pool.
