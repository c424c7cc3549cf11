Set Warnings "-notation-overridden,-ambiguous-paths".
From mathcomp Require Import all_ssreflect zify.
From Verif Require Import Py Dict Tensor OffModel OffSpec DiskModel DiskSpec DiskProof.
Set Implicit Arguments. Unset Strict Implicit. Unset Printing Implicit Defensive.

Lemma arith_add a b c d e : a + (c + d) = b + ((c + e) + d) -> a = b + e.
Proof. lia. Qed.

Lemma arith_two a b c d e : 0 < d -> 0 < c -> a + b + (c + d) + e <= 1 -> False.
Proof. lia. Qed.

Section Inv.
Variables (T : eqType) (z : T) (cs mx : nat).
Variable listing : seq fkey -> seq fkey.
Hypothesis lperm : forall l, perm_eq (listing l) l.
Variable ds : seq nat.
Notation W := (sumn ds).
Hypothesis W0 : 0 < W.
Notation row := (seq T). Notation gr := (gr T). Notation dstate := (dstate T). Notation task := (task T).
Notation entry := (entry T).
Implicit Types (S : seq entry) (s : dstate).

Definition unfull (f : file T) := if f_meta f is Some (MFull _) then false else true.
Definition okbuf (kv : ckey * buf T) :=
  okp ds (b_rows kv.2) (b_info kv.2) && all (fun x => x.1 %/ cs == kv.1.2) (b_info kv.2).
Definition oktask (t : task) := okp ds (t_rows t) (t_info t).
Definition okwork (kv : nat * (task * nat)) :=
  [&& oktask kv.2.1, kv.2.2 <= 4 & (0 < kv.2.2) ==> ~~ nilp (t_info kv.2.1)].

Record Inv S s : Prop := {
  i_dims : d_dims s = Some ds \/
           [/\ d_dims s = None, d_disk s = [::], d_bufs s = [::], d_queue s = [::] & d_busy s = [::]];
  i_uS : uniq [seq e.1 | e <- S];
  i_ents : perm_eq (ents s) S;
  i_ub : uniq (dkeys (d_bufs s));
  i_uw : uniq (dkeys (d_busy s));
  i_ud : uniq (dkeys (d_disk s));
  i_bufs : all okbuf (d_bufs s);
  i_queue : all oktask (d_queue s);
  i_busy : all okwork (d_busy s);
  i_files : all (okfile ds) (d_disk s);
  i_prog : forall w t n, dget (d_busy s) w = Some (t, n) -> 0 < n < 4 ->
     exists2 f, dget (d_disk s) (file_key t) = Some f & unfull f /\ (1 < n -> f_data f = t_rows t);
  i_part : forall fk f, dget (d_disk s) fk = Some f -> unfull f ->
     exists w t n, [/\ dget (d_busy s) w = Some (t, n), file_key t = fk & 0 < n < 4];
  i_cache : forall kv, List.In kv (d_cache s) -> exists fk f m,
     [/\ dget (d_disk s) fk = Some f, f_meta f = Some (MFull m), kv.2 = (f_data f, mt_info m) & fk.1 = kv.1.1]
}.

Lemma inv0 : Inv [::] (open_disk listing ([::] : disk T) ).
Proof.
have l0 : listing [::] = [::] by apply/perm_small_eq.
by split=> //; right; split=> //; rewrite /open_disk /= /load_dims /chunk_files /= l0.
Qed.

(* a batch lives in one place only *)
Definition hask (q : bool * nat) : pred entry := fun e => e.1 == q.
Lemma inv_count S s q : Inv S s -> count (hask q) (ents s) <= 1.
Proof.
move=> I; rewrite (permP (i_ents I)).
have -> : count (hask q) S = count_mem q [seq e.1 | e <- S] by rewrite count_map.
by rewrite count_uniq_mem ?(i_uS I) //; case: (_ \in _).
Qed.
Lemma countE s q : count (hask q) (ents s) =
  count (hask q) (flat (@eb T) (d_bufs s)) + count (hask q) (flatten [seq et t | t <- d_queue s])
  + count (hask q) (flat (@ew T) (d_busy s)) + count (hask q) (flat (@ef T) (d_disk s)).
Proof. by rewrite /ents !count_cat !addnA. Qed.

(* the file of a task that has not completed is not a complete file, and no other worker is on it *)
Lemma task_file_free S s w t n f : Inv S s -> dget (d_busy s) w = Some (t, n) -> n < 4 ->
  ~~ nilp (t_info t) -> dget (d_disk s) (file_key t) = Some f -> unfull f /\ 0 < n.
Proof.
move=> I gw n4 ni gf; pose q : bool * nat := ((file_key t).1, (file_key t).2.1).
have hw : has (hask q) (ew (w, (t, n))) by rewrite /ew /= n4; apply: entp_min.
have c1 : 0 < count (hask q) (ew (w, (t, n))) by rewrite -has_count.
have := inv_count q I; rewrite countE (count_ddel _ _ (i_uw I) gw) => c.
have uf : unfull f.
  apply/negPn/negP => nf.
  have okf := all_dget (i_files I) gf.
  suff : has (hask q) (flat (@ef T) (d_disk s)) by rewrite has_count; lia.
  apply: (has_flat_dget gf); move: okf nf; rewrite /okfile /unfull /ef /=.
  case: (f_meta f) => [[|m]|] //= /and5P [_ nm /eqP e _ _] _.
  by have := entp_min (file_key t).1 (f_data f) nm; case: e => e1 _; rewrite /q /= e1.
split=> //; case: n gw n4 hw c1 c => // gw n4 hw c1 c.
have [w' [t' [n' [gw' fk' /andP [n0' n4']]]]] := i_part I gf uf.
have ww : w' != w by apply/eqP => e; move: gw'; rewrite e gw => -[_ e']; rewrite -e' in n0'.
have gd : dget (ddel (d_busy s) w) w' = Some (t', n') by rewrite dget_del (negbTE ww).
have [|] := boolP (has (hask q) (flat (@ew T) (ddel (d_busy s) w))).
  by rewrite has_count; lia.
case/negP; apply: (has_flat_dget gd); rewrite /ew /= n4' /q -fk'; apply: entp_min.
have := all_dget (i_busy I) gw'; rewrite /okwork /= => /and3P [_ _]; by rewrite n0'.
Qed.

(* ------------------------------------------------------------------- small steps *)
Lemma ents_bufs s x p : count p (ents (upd_bufs x s)) + count p (flat (@eb T) (d_bufs s)) =
  count p (ents s) + count p (flat (@eb T) x).
Proof. rewrite /ents /= !count_cat; lia. Qed.

Lemma inv_dims S s : Inv S s -> d_dims s = Some ds -> Inv S (upd_dims (Some ds) s).
Proof. by case: s => ? ? ? ? ? ? ? ? ? [] /= ? ? ? ? ? ? ? ? ? ? ? ? ? e; split=> //; left. Qed.
Lemma inv_set_dims S s : Inv S s -> Inv S (upd_dims (Some ds) s).
Proof. by case=> [? ? ? ? ? ? ? ? ? ? ? ? ?]; split=> //; left. Qed.
Lemma inv_range S s x : Inv S s -> Inv S (upd_range x s).
Proof. by case. Qed.
Lemma inv_wait S s x : Inv S s -> Inv S (upd_wait x s).
Proof. by case. Qed.
Lemma inv_cache S s c : Inv S s -> (forall kv, List.In kv c -> exists fk f m,
   [/\ dget (d_disk s) fk = Some f, f_meta f = Some (MFull m), kv.2 = (f_data f, mt_info m) & fk.1 = kv.1.1]) ->
  Inv S (upd_cache c s).
Proof. by case=> *; split. Qed.

Lemma inv_newbuf S s key : Inv S s -> d_dims s = Some ds -> ~~ dhas (d_bufs s) key ->
  Inv S (upd_bufs (dset (d_bufs s) key (buf0 T)) s).
Proof.
move=> I de nk; case: (I) => *; split=> //=; first by left.
- apply: perm_trans (i_ents I); apply/permP => p.
  have := ents_bufs s (dset (d_bufs s) key (buf0 T)) p; rewrite count_dset // ddel_id //=; clear; lia.
- exact: uniq_dset.
- by apply: all_dset.
Qed.

Lemma inv_add S s k b (rows : seq row) bf : Inv S s -> d_dims s = Some ds ->
  dget (d_bufs s) (k, b %/ cs) = Some bf -> (k, b) \notin [seq e.1 | e <- S] ->
  all (fun r => size r == W) rows -> 0 < size rows ->
  Inv (rcons S ((k, b), rows))
    (upd_bufs (dset (d_bufs s) (k, b %/ cs)
      (Buf (b_rows bf ++ rows) (rcons (b_info bf) (b, (size (b_rows bf), size (b_rows bf) + size rows))))) s).
Proof.
move=> I de gb nS ar n0; have /andP [ok ch] := all_dget (i_bufs I) gb.
case: (I) => ? ? ? ? ? ? ? ? ? ? ? ? ?; split=> //=.
- by left.
- by rewrite map_rcons rcons_uniq nS.
- set nb := Buf _ _.
  have e1 : eb ((k, b %/ cs), nb) = rcons (eb ((k, b %/ cs), bf)) ((k, b), rows).
    by case/and3P: ok => _ ok2 _; apply: entp_add.
  have cr (p : pred entry) (l : seq entry) x : count p (rcons l x) = count p l + count p [:: x].
    by rewrite -cats1 count_cat.
  apply/permP => p; rewrite cr -(permP (i_ents I)).
  have := ents_bufs s (dset (d_bufs s) (k, b %/ cs) nb) p.
  rewrite count_dset ?(i_ub I) // (count_ddel (@eb T) p (i_ub I) gb) e1 cr.
  exact: arith_add.
- exact: uniq_dset.
- by apply: all_dset => //; rewrite /okbuf /= all_rcons /= eqxx ch okp_add.
Qed.

Lemma inv_flush S s key : Inv S s -> Inv S (flush_key key s).
Proof.
move=> I; rewrite /flush_key; case g: (dget (d_bufs s) key) => [bf|] //.
have /andP [ok _] := all_dget (i_bufs I) g.
case: (I) => dd *; split=> //=.
- by case: dd => [|[_ _ e _ _]]; [left | move: g; rewrite e].
- apply: perm_trans (i_ents I); apply/permP => p; rewrite /ents /= !count_cat.
  by rewrite (count_ddel (@eb T) p _ g) // map_rcons flatten_rcons count_cat /eb /et /=; clear; lia.
- exact: uniq_ddel.
- exact: all_ddel.
- by rewrite all_rcons /oktask ok.
Qed.
Lemma inv_flush_all S s : Inv S s -> Inv S (flush_all s).
Proof.
rewrite /flush_all; move: (dkeys (d_bufs s)) => ks; elim: ks s => [|k ks IH] s I //=.
exact/IH/inv_flush.
Qed.

Lemma inv_take S s w s' : Inv S s -> take w s = Some s' -> Inv S s'.
Proof.
move=> I; rewrite /take; case: ifP => // nw; case q: (d_queue s) => [|t q'] // [<-].
have /andP [okt okq] : oktask t && all oktask q' by have := i_queue I; rewrite q.
have nw' : w \notin dkeys (d_busy s) by apply/negbT.
case: (I) => dd *; split=> //=.
- by case: dd => [|[_ _ _ e _]]; [left | move: e; rewrite q].
- apply: perm_trans (i_ents I); apply/permP => p; rewrite /ents /= !count_cat q /= count_cat.
  rewrite count_dset // ddel_id // {1}/ew /=; clear; lia.
- exact: uniq_dset.
- by apply: all_dset => //; rewrite /okwork /= okt.
- move=> w' t' n'; rewrite dgetE; case: eqP => [_ [_ <-] //|_]; exact: (i_prog I).
- move=> fk f gf uf; have [w' [t' [n' [gw' e h]]]] := i_part I gf uf.
  exists w', t', n'; split=> //; rewrite dgetE; case: eqP => // ew'.
  by move: gw'; rewrite ew'; have := dget_has (d_busy s) w; rewrite nw; case: dget.
Qed.

(* writing a file that is not complete keeps the complete ones *)
Lemma full_keep S s fk f m fk' f' : Inv S s -> dget (d_disk s) fk = Some f -> f_meta f = Some (MFull m) ->
  (forall g, dget (d_disk s) fk' = Some g -> unfull g) -> dget (dset (d_disk s) fk' f') fk = Some f.
Proof.
move=> I gf mf uf; rewrite dgetE; case: eqP => // e; move: (uf f); rewrite -e gf => /(_ erefl).
by rewrite /unfull mf.
Qed.

Lemma inv_work S s w s' : Inv S s -> work z w s = Some s' -> Inv S s'.
Proof.
move=> I; rewrite /work; case gw: (dget (d_busy s) w) => [[t n]|] //.
have /and3P [okt n4 nn] := all_dget (i_busy I) gw; rewrite /= in okt n4 nn.
have de : d_dims s = Some ds.
  by case: (i_dims I) => [//|[_ _ _ _ e]]; move: gw; rewrite e.
have wid : width (d_dims s) = W by rewrite de.
have uw := i_uw I; have ud := i_ud I.
set fk := file_key t.
have others fk' : fk' != fk -> forall f, dget (d_disk s) fk' = Some f -> unfull f -> forall t' n',
    (n' = n.+1) -> t' = t ->
    exists w' t'' n'', [/\ dget (dset (d_busy s) w (t', n')) w' = Some (t'', n''), file_key t'' = fk' & 0 < n'' < 4].
  move=> nf f gf uf t' n' -> ->; have [w' [t1 [n1 [g1 e1 h1]]]] := i_part I gf uf.
  exists w', t1, n1; split=> //; rewrite dgetE; case: eqP => // ew'.
  by move: g1; rewrite ew' gw => -[et1 _]; move: nf; rewrite -e1 -et1 eqxx.
(* dropping a task *)
have drop_ok p : (forall q, count q (ew (w, (t, n))) = 0) -> ~~ (0 < n < 4) ->
  Inv S (DState (d_dims s) (d_bufs s) (d_queue s) (ddel (d_busy s) w) p (d_range s) (d_wait s) (d_cache s) (d_disk s)).
  move=> c0 n0; case: (I) => *; split=> //=.
  - by left.
  - apply: perm_trans (i_ents I); apply/permP => q; rewrite /ents /= !count_cat.
    by rewrite (count_ddel (@ew T) q uw gw) c0.
  - exact: uniq_ddel.
  - exact: all_ddel.
  - move=> w' t' n'; rewrite dget_del; case: eqP => // _; exact: (i_prog I).
  - move=> fk' f gf uf; have [w' [t' [n' [gw' e h]]]] := i_part I gf uf.
    exists w', t', n'; split=> //; rewrite dget_del; case: eqP => // ew'.
    by move: gw' n0; rewrite ew' gw => -[_ ->]; rewrite h.
(* writing the file of the task *)
have put_ok f : n < 4 -> ~~ nilp (t_info t) -> (n < 3 -> unfull f) ->
   (n = 3 -> f_meta f = Some (MFull (task_meta (d_dims s) t)) /\ f_data f = t_rows t) ->
   (0 < n -> f_data f = t_rows t) ->
   Inv S (DState (d_dims s) (d_bufs s) (d_queue s) (dset (d_busy s) w (t, n.+1)) (d_pend s) (d_range s)
                 (d_wait s) (d_cache s) (dset (d_disk s) fk f)).
  move=> n4' ni uf mf df.
  have old g : dget (d_disk s) fk = Some g -> unfull g.
    by move=> gg; have [] := task_file_free I gw n4' ni gg.
  have cold q : count q (flat (@ef T) (d_disk s)) = count q (flat (@ef T) (ddel (d_disk s) fk)).
    case g: (dget (d_disk s) fk) => [f0|].
      rewrite (count_ddel (@ef T) q ud g); have := old _ g; rewrite /ef /unfull /=.
      by case: (f_meta f0) => [[]|].
    by rewrite ddel_id //; have := dget_has (d_disk s) fk; rewrite g /dhas => ->.
  case: (I) => *; split=> //=.
  - by left.
  - apply: perm_trans (i_ents I); apply/permP => q; rewrite /ents /= !count_cat.
    rewrite !count_dset // (count_ddel (@ew T) q uw gw) cold {1 3}/ew /= n4' {1}/ef /=.
    case: (ltngtP n 3) => [n3|n3|n3]; last first.
    + have [-> ->] := mf n3; rewrite n3 /=; congr (_ + (_ + _)); by rewrite add0n addnCA addnA.
    + by move: n3 n4'; clear; lia.
    + have := uf n3; rewrite /unfull ltnS n3; case: (f_meta f) => [[|m]|] //= _; by rewrite add0n.
  - exact: uniq_dset.
  - exact: uniq_dset.
  - apply: all_dset => //; rewrite /okwork /= okt ni andbT; move: n4'; clear; lia.
  - apply: all_dset => //; rewrite /okfile /=; case: (ltngtP n 3) => [n3|n3|n3]; last first.
    + have [-> ->] := mf n3; rewrite /task_meta /= de /= !eqxx ni !andbT; exact: okt.
    + by move: n3 n4'; clear; lia.
    + by have := uf n3; rewrite /unfull; case: (f_meta f) => [[]|].
  - move=> w' t' n'; rewrite !dgetE; case: eqP => [_ [<- <-] h4|nw h h4].
      rewrite eqxx; exists f => //; split; first by apply: uf; case/andP: h4.
      by move=> h1; apply: df.
     have [f' gf' [uf' df']] := i_prog I h h4.
    case: eqP => [e|_]; last by exists f'.
    (* two workers on the same file *)
    have [uff n0] := task_file_free I gw n4' ni (etrans (congr1 _ (esym e)) gf').
    exfalso; pose q : bool * nat := (fk.1, fk.2.1).
    have := inv_count q I; rewrite countE (count_ddel (@ew T) _ uw gw).
    have : has (hask q) (ew (w, (t, n))) by rewrite /ew /= n4'; apply: entp_min.
    have gd : dget (ddel (d_busy s) w) w' = Some (t', n') by rewrite dget_del; case: eqP nw.
    have : has (hask q) (flat (@ew T) (ddel (d_busy s) w)).
      apply: (has_flat_dget gd); case/andP: h4 => h0 h4; rewrite /ew /= h4 /q -e; apply: entp_min.
      have := all_dget (i_busy I) h; rewrite /okwork /= => /and3P [_ _]; by rewrite h0.
    by rewrite !has_count; exact: arith_two.
  - move=> fk' f'; rewrite dgetE; case: eqP => [-> [<-] uff|/eqP nf gf' uf'].
      exists w, t, n.+1; rewrite dgetE eqxx; split=> //.
      case: (ltngtP n 3) => [//|n3|n3]; first by move: n3 n4'; clear; lia.
      by have [mm _] := mf n3; move: uff; rewrite /unfull mm.
    exact: (others _ nf _ gf' uf').
  - move=> kv /(i_cache I) [fk' [f' [m' [g1 g2 g3 g4]]]]; exists fk', f', m'; split=> //.
    exact: (full_keep _ I g1 g2 old).
case: n gw nn n4 others drop_ok put_ok => [|[|[|[|[|n]]]]] gw nn n4 others drop_ok put_ok //.
- case: ifP => [h [<-]|/negbT h [<-]].
    apply: drop_ok => // q; rewrite /ew /=; case/orP: h => [|/eqP h]; first by rewrite /et; case: (t_info t).
    move: h; rewrite wid => h; case/andP: okt => _; rewrite /et; case: (t_info t) => [|x l] //=.
    by move=> /andP [hx _]; exfalso; move: h hx W0; clear; nia.
  move: h; rewrite negb_or => /andP [ni _]; apply: put_ok => // _.
  rewrite /unfull /= /old_meta; case g: (dget (d_disk s) fk) => [f|] //.
  by have [] := task_file_free I gw isT ni g.
- case=> <-; apply: put_ok => // _.
  rewrite /unfull /= /old_meta; case g: (dget (d_disk s) fk) => [f|] //.
  by have [] := task_file_free I gw isT nn g.
- by case=> <-; apply: put_ok.
- by case=> <-; apply: put_ok.
- by case=> <-; apply: drop_ok.
Qed.
End Inv.
