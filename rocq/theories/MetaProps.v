(* Properties C38: batch metadata. *)
Set Warnings "-notation-overridden,-ambiguous-paths".
From mathcomp Require Import all_ssreflect zify.
From Verif Require Import Py Dict Tensor TensorProof MetaModel MetaSpec MetaProof.
Set Implicit Arguments. Unset Strict Implicit. Unset Printing Implicit Defensive.

Section Props.
Variable Name : Type.
Notation mstate := (mstate Name). Notation dirst := (dirst Name).
Implicit Types (s : mstate) (dir : dirst) (h : seq (mop Name)).

(* A manager opened in any directory (whatever it contains), used in any way and then saved: the
   batches keep their counts, the ranges are consecutive in batch order and each of the total
   samples lies in exactly one of them. *)
Theorem C38_saved_partition dir names h :
  let: (s, d) := steps h (open_manager dir names, dir) in
  let: (s', d') := save s d in
  [/\ partition_of s',
      forall b, count_of s' b = count_of s b,
      forall b, (count_of s b : bool) = (range_of s' b : bool)
    & m_pend s' = [::]].
Proof.
have := wf_steps h (sd := (open_manager dir names, dir)) (wf_open _ _).
case: (steps h _) => s d /= w; have e := saveE d w.
have := save_partition d w; have R := save_range d _ w; move: e R; case: (save s d) => s' d' /= e R pt.
have c b : count_of s' b = count_of s b.
  case: e => -> _; rewrite /count_of /= walk_get ?skeys_uniq // skeys_mem //.
  by rewrite -/(count_of s b) /cnt_of; case: (count_of s b).
split=> //; last by case: e => ->.
by move=> b; rewrite R skeys_mem //; case: (count_of s b).
Qed.

(* A manager of a directory without metadata, initialised from a loader: batch b owns exactly the
   positions of the loader's b-th batch, no other batch exists, and the total is the number of samples
   the loader yields. *)
(* the ranges a manager has for the batches of a loader *)
Definition follows (X : Type) (L : loader X) s : Prop :=
  [/\ forall b, range_of s b = if b < nbatches L then Some (st L b, ed L b) else None,
      m_total s = covered L, m_pend s = [::] & dkeys (m_info s) = iota 0 (nbatches L)].
Lemma save_loader (X : Type) (L : loader X) s dir : 0 < ld_bs L -> wf s -> skeys s = iota 0 (nbatches L) ->
  (forall b, b < nbatches L -> cnt_of s b = size (batch L b)) -> follows L (save s dir).1.
Proof.
move=> bs0 w ks cb.
have offE j : j <= nbatches L -> off s j = upto L j.
  elim: j => [|j IH] jn; first by rewrite /off take0 /upto mul0n min0n.
  have jl : j < size (map (cnt_of s) (skeys s)) by rewrite size_map ks size_iota.
  rewrite /off (take_nth 0 jl) -cats1 sumn_cat /= addn0 -/(off s j) IH ?(ltnW jn) //.
  rewrite (nth_map 0) ?ks ?size_iota // nth_iota // add0n cb // (size_batch bs0).
  have := nbatches_st bs0 jn; rewrite /upto /ed /st; lia.
split=> //.
- move=> b; rewrite save_range // ks mem_iota add0n leq0n /=; case: ifP => // lt.
  have ix : index b (iota 0 (nbatches L)) = b by rewrite -{1}[b]add0n -(nth_iota 0 0 lt) index_uniq ?size_iota ?iota_uniq.
  rewrite ix !offE ?(ltnW lt) //; have := nbatches_st bs0 lt; rewrite /upto /ed /st => ?.
  by congr Some; congr pair; lia.
- rewrite saveE //= -(upto_all bs0) -offE // /off take_oversize // size_map ks size_iota //.
- by rewrite saveE.
- by rewrite saveE //= walk_keys ks // iota_uniq.
Qed.
Lemma follows_save (X : Type) (L : loader X) s dir : 0 < ld_bs L -> follows L s -> follows L (save s dir).1.
Proof.
move=> bs0 [R t pe k]; have w : wf s by rewrite /wf pe k iota_uniq.
have fi : m_info (flush s) = m_info s by rewrite /flush pe.
apply: save_loader => //.
  by rewrite /skeys fi k (sorted_sort leq_trans) //; exact: iota_sorted.
move=> b lt; have := R b; rewrite lt /range_of /cnt_of /count_of pe /=.
case: (dget (m_info s) b) => //= i [e1 e2]; rewrite (size_batch bs0); lia.
Qed.
Lemma init_fresh names (X : Type) (L : loader X) dir : 0 < ld_bs L -> 0 < nbatches L ->
  let s' := (initialize (of_loader L) (fresh names) dir).1.1 in
  [/\ forall b, range_of s' b = if b < nbatches L then Some (st L b, ed L b) else None,
      m_total s' = covered L, m_pend s' = [::],
      dkeys (m_info s') = iota 0 (nbatches L)
    & (initialize (of_loader L) (fresh names) dir).2 = Ok tt].
Proof.
move=> bs0 nb0.
have e : ml_bs (of_loader L) = Some (ld_bs L) by [].
have ne : size (m_info (fresh names)) != ml_nb (of_loader L) by rewrite /= eq_sym -lt0n.
rewrite (initializeE dir e ne) /=.
set s := init_state _ _ _; have w : wf s by apply: wf_init_state.
have ks : skeys s = iota 0 (nbatches L).
  rewrite /skeys /= walk_keys ?iota_uniq //= (sorted_sort leq_trans) //.
  exact: iota_sorted.
have cb b : b < nbatches L -> cnt_of s b = size (batch L b).
  by move=> lt; rewrite /cnt_of init_count //= lt /= batch_count_loader.
by have [] := save_loader dir bs0 w ks cb.
Qed.
Theorem C38_fresh_loader names (X : Type) (L : loader X) dir :
  0 < ld_bs L -> 0 < nbatches L -> d_meta dir = None ->
  let: ((s', _), r) := initialize (of_loader L) (open_manager dir names) dir in
  [/\ r = Ok tt,
      forall b, range_of s' b = if b < nbatches L then Some (st L b, st L b + size (batch L b)) else None,
      m_total s' = covered L
    & total_batches s' = nbatches L].
Proof.
move=> bs0 nb0 dn; rewrite /open_manager /load dn.
have := init_fresh names dir bs0 nb0; case: (initialize _ _ _) => [[s' d'] r] /= [R t _ k ->].
split=> //.
  move=> b; rewrite R; case: ifP => // lt; rewrite (size_batch bs0).
  by have := nbatches_st bs0 lt; move=> ?; congr Some; congr pair; lia.
rewrite /total_batches; case E: (m_info s') => [|kv l].
  by move: k; rewrite E /=; case: (nbatches L) nb0.
rewrite -E k; case: (nbatches L) nb0 => // n _; congr S.
suff H m k0 : foldr maxn 0 (iota k0 m.+1) = k0 + m by rewrite H.
elim: m k0 => [|m IH] k0; first by rewrite /= maxn0 addn0.
by move: (IH k0.+1); rewrite /= => ->; lia.
Qed.

(* Reopening the directory of a saved manager gives back exactly its state. *)
Theorem C38_round_trip dir names names' h :
  let: (s, d) := steps h (open_manager dir names, dir) in
  let: (s', d') := save s d in
  open_manager d' names' = s' /\ m_names s' = m_names s /\ m_dims s' = m_dims s
  /\ m_tdim s' = m_tdim s.
Proof.
have := wf_steps h (sd := (open_manager dir names, dir)) (wf_open _ _).
case: (steps h _) => s d /= w; have := open_saved d names' w; have := saveE d w.
by case: (save s d) => s' d' /= [-> ->] H.
Qed.

(* A crash at any point of a save leaves a directory which opens like the old one or like the one of
   the completed save. *)
Theorem C38_crash s dir crashed names :
  List.In crashed (save_trace s dir) ->
  open_manager crashed names = open_manager dir names \/
  open_manager crashed names = open_manager (save s dir).2 names.
Proof.
rewrite /save; case: (recompute _) => d tot /=.
by case=> [<-|[<-|[<-|[<-|[]]]]]; [left|left|left|right].
Qed.

(* Initialising a manager that already knows as many batches as the loader has changes nothing,
   whatever the sizes of the batches. *)
Theorem C38_same_number_of_batches_stale names (X Y : Type) (L1 : loader X) (L2 : loader Y) dir :
  0 < ld_bs L1 -> 0 < nbatches L1 -> nbatches L2 = nbatches L1 ->
  let: ((s1, d1), _) := initialize (of_loader L1) (fresh names) dir in
  initialize (of_loader L2) s1 d1 = ((s1, d1), Ok tt) /\
  forall b, range_of s1 b = if b < nbatches L1 then Some (st L1 b, ed L1 b) else None.
Proof.
move=> bs0 nb0 e; have := init_fresh names dir bs0 nb0.
case: (initialize _ _ _) => [[s1 d1] r] /= [R t _ k _]; split=> //.
have sz : size (m_info s1) = nbatches L1 by rewrite -(size_map fst) -[map _ _]/(dkeys _) k size_iota.
by rewrite /initialize sz /= e eqxx.
Qed.

(* Initialising with another number of batches, after any history: the loader's batches get the
   loader's counts, every other batch already known stays, and pending entries win. *)
Theorem C38_reinitialize dir names h (X : Type) (L : loader X) :
  0 < ld_bs L ->
  let: (s, d) := steps h (open_manager dir names, dir) in
  size (m_info s) != nbatches L ->
  let: ((s', d'), r) := initialize (of_loader L) s d in
  [/\ r = Ok tt, partition_of s', open_manager d' names = s'
    & forall b, count_of s' b =
        if dget (m_pend s) b is Some i then Some (bi_count i)
        else if b < nbatches L then Some (size (batch L b)) else count_of s b].
Proof.
move=> bs0; have := wf_steps h (sd := (open_manager dir names, dir)) (wf_open _ _).
case: (steps h _) => s d /= w ne; have e : ml_bs (of_loader L) = Some (ld_bs L) by [].
rewrite (initializeE d e ne); set s1 := init_state _ _ _.
have w1 : wf s1 by apply: wf_init_state.
have := save_partition d w1; have := open_saved d names w1; have := saveE d w1.
case: (save s1 d) => s' d' /= [es ed'] -> pt; split=> // b.
rewrite {1}es /count_of /= walk_get ?skeys_uniq // skeys_mem // /cnt_of.
rewrite init_count //=; case: (dget (m_pend s) b) => //=.
case lt: (b < nbatches L); first by rewrite /= batch_count_loader.
by case: (dget (m_info s) b).
Qed.

(* So shrinking the data set leaves the old batches behind, placed after the new ones. *)
Theorem C38_fewer_batches_stale names (X Y : Type) (L1 : loader X) (L2 : loader Y) dir :
  0 < ld_bs L1 -> 0 < ld_bs L2 -> 0 < nbatches L2 < nbatches L1 ->
  let: ((s1, d1), _) := initialize (of_loader L1) (fresh names) dir in
  let: ((s2, _), _) := initialize (of_loader L2) s1 d1 in
  (forall b, count_of s2 b = if b < nbatches L2 then Some (size (batch L2 b))
                             else if b < nbatches L1 then Some (size (batch L1 b)) else None) /\
  partition_of s2.
Proof.
move=> b1 b2 /andP [n2 lt]; have := init_fresh names dir b1 (ltn_trans n2 lt).
have := wf_initialize (of_loader L1) dir (wf_fresh names).
case: (initialize _ _ _) => [[s1 d1] r] /= w [R t pe k _].
have ne : size (m_info s1) != nbatches L2.
  by rewrite -(size_map fst) -[map _ _]/(dkeys _) k size_iota; lia.
have e : ml_bs (of_loader L2) = Some (ld_bs L2) by [].
rewrite (initializeE d1 e ne); set s := init_state _ _ _.
have w1 : wf s by apply: wf_init_state.
have := save_partition d1 w1; have := saveE d1 w1.
case: (save s d1) => s2 d2 /= [es ed'] pt; split=> // b.
rewrite {1}es /count_of /= walk_get ?skeys_uniq // skeys_mem // /cnt_of init_count // pe /=.
case l2: (b < nbatches L2); first by rewrite /= batch_count_loader.
move: (R b); rewrite /range_of; case: (dget (m_info s1) b) => [i|] /=; case: ifP => // l1 [h1 h2].
congr Some; rewrite (size_batch b1); have := nbatches_st b1 l1; lia.
Qed.

(* add_batch_info: a known batch is left alone even if the count differs; an unknown one is appended
   after the current total. *)
Theorem C38_add_batch dir names h b c :
  let: (s, _) := steps h (open_manager dir names, dir) in
  let s' := add_batch_info b c s in
  if dget (m_info s) b is Some i then s' = s
  else [/\ range_of (mapping s').1 b = Some (m_total s, m_total s + c),
           m_total s' = m_total s + c
         & forall b', b' != b -> range_of (mapping s').1 b' = range_of (mapping s).1 b'].
Proof.
have := wf_steps h (sd := (open_manager dir names, dir)) (wf_open _ _).
case: (steps h _) => s d /= w; rewrite /add_batch_info dget_has.
case E: (dget (m_info s) b) => [//|].
have w' : wf (MState (m_info s) (dset (m_pend s) b (Info c (m_total s))) (m_total s + c)
                     (m_names s) (m_dims s) (m_tdim s)).
  by case/andP: w => u v; rewrite /wf /= u uniq_dset.
split=> //.
  by rewrite /mapping /range_of /= -[foldl _ _ _]/(m_info (flush (MState (m_info s)
     (dset (m_pend s) b (Info c (m_total s))) (m_total s + c) (m_names s) (m_dims s) (m_tdim s))))
     flush_get //= dgetE eqxx.
move=> b' /negbTE bb; rewrite /mapping /range_of; congr omap.
by rewrite !flush_get //= dgetE bb.
Qed.
End Props.

(* A data set of 5 samples in batches of 2, then of 3 samples in one batch. *)
Definition L5 := Loader [:: 10; 11; 12; 13; 14] 2 false.
Definition L3 := Loader [:: 20; 21; 22] 4 false.
Definition dir0 : dirst unit := Dir None None.
Example C38_concrete :
  let s := (initialize (of_loader L5) (open_manager dir0 [::]) dir0).1.1 in
  let d := (initialize (of_loader L5) (open_manager dir0 [::]) dir0).1.2 in
  let s2 := (initialize (of_loader L3) (open_manager d [::]) d).1.1 in
  [/\ (mapping s).2 = [:: (0, (0, 2)); (1, (2, 4)); (2, (4, 5))],
      m_total s = 5, open_manager d [::] = s,
      (mapping s2).2 = [:: (0, (0, 3)); (1, (3, 5)); (2, (5, 6))] & m_total s2 = 6].
Proof. by split; vm_compute. Qed.
(* adding an unknown batch twice leaves a gap until the next save *)
Example C38_double_add :
  let s := add_batch_info 7 3 (add_batch_info 7 3 (fresh ([::] : seq unit))) in
  [/\ m_total s = 6, (mapping s).2 = [:: (7, (3, 6))]
    & (mapping (save s dir0).1).2 = [:: (7, (0, 3))]].
Proof. by split; vm_compute. Qed.
Print Assumptions C38_saved_partition.
Print Assumptions C38_fresh_loader.
Print Assumptions C38_round_trip.
Print Assumptions C38_crash.
Print Assumptions C38_same_number_of_batches_stale.
Print Assumptions C38_reinitialize.
Print Assumptions C38_fewer_batches_stale.
Print Assumptions C38_add_batch.
