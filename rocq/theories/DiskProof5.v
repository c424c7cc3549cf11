Set Warnings "-notation-overridden,-ambiguous-paths".
From mathcomp Require Import all_ssreflect zify.
From Verif Require Import Py Dict Tensor OffModel OffSpec OffProof DiskModel DiskSpec.
From Verif Require Import DiskProof DiskProof2 DiskProof3 DiskProof4.
Set Implicit Arguments. Unset Strict Implicit. Unset Printing Implicit Defensive.

Section Exec.
Variables (T : eqType) (z : T) (cs mx : nat).
Variable listing : seq fkey -> seq fkey.
Hypothesis lperm : forall l, perm_eq (listing l) l.
Variable ds : seq nat.
Notation W := (sumn ds).
Hypothesis W0 : 0 < W.
Notation row := (seq T). Notation gr := (gr T). Notation dstate := (dstate T). Notation task := (task T).
Notation entry := (entry T).
Notation Inv := (Inv cs ds).
Notation step := (step z cs mx listing). Notation exec := (exec z cs mx listing).
Implicit Types (S : seq entry) (s : dstate) (d : disk T).

Definition entry_of (x : bool * nat * seq gr) : entry := (x.1, batch_rows x.2).
Definition keys S := [seq e.1 | e <- S].

(* one step *)
Definition acc1 (l : label T) (r : res unit) : seq (bool * nat * seq gr) :=
  if l is LStore k b gs then if r is Ok _ then [:: (k, b, gs)] else [::] else [::].
Definition okstore S (l : label T) : bool :=
  match l with
  | LStore k b gs => [&& good ds gs, brows gs <= mx & (k, b) \notin keys S]
  | LClear => false
  | _ => true end.
Lemma inv_step S s l s' r : Inv S s -> okstore S l -> step s l = Some (s', r) ->
  Inv (S ++ [seq entry_of x | x <- acc1 l r]) s'.
Proof.
move=> I; case: l => [a e|k b gs|k b| | | |w|w] /=; rewrite ?cats0.
- move=> _; case: (d_wait s) => // -[]; rewrite /start_range; case: ifP => _ [<- _] //; exact: inv_range.
- case/and3P => g le nS; case: (d_wait s) => // -[] /(inv_store lperm I g le nS) [[-> _]|[_ _ -> ->]] /=.
    by rewrite cats1.
  by rewrite cats0.
- move=> _; case: (d_wait s) => // -[<- _]; by have [] := inv_read lperm k b I.
- move=> _; case: (d_wait s) => // -[]; case: (d_range s) => [ab|] [<- _] //.
  exact/inv_wait/inv_flush_all.
- move=> _; case: ifP => // _ [<- _]; exact/inv_range/inv_wait.
- by [].
- move=> _; case e: (take w s) => [s1|] //= [<- _]; exact: inv_take e.
- move=> _; case e: (work z w s) => [s1|] //= [<- _]; exact: inv_work e.
Qed.

Definition okstores (st : seq (bool * nat * seq gr)) : bool :=
  all (fun x => good ds x.2 && (brows x.2 <= mx)) st.
Lemma stores_cons (l : label T) ls : stores (l :: ls) = stores [:: l] ++ stores ls.
Proof. by case: l. Qed.
Lemma accepted_cons (l : label T) r log : accepted_stores ((l, r) :: log) = acc1 l r ++ accepted_stores log.
Proof. by case: l => //= k b gs; case: r. Qed.
Lemma keys_cat S S' : keys (S ++ S') = keys S ++ keys S'. Proof. exact: map_cat. Qed.
Lemma keys_entry st : keys [seq entry_of x | x <- st] = [seq x.1 | x <- st].
Proof. by rewrite /keys -map_comp. Qed.

Lemma ok_first S (l : label T) ls : ~~ has (@is_clear T) (l :: ls) -> okstores (stores (l :: ls)) ->
  uniq (keys S ++ [seq x.1 | x <- stores (l :: ls)]) -> okstore S l.
Proof.
rewrite stores_cons /okstores all_cat map_cat catA => /= /norP [nc _] /andP [o1 _] u.
case: l nc o1 u => //= k b gs _ /andP [/andP [-> ->] _]; rewrite cat_uniq => /andP [u _].
by move: u; rewrite cat_uniq /= orbF andbT => /andP [].
Qed.
Lemma uniq_next S (l : label T) r ls : uniq (keys S ++ [seq x.1 | x <- stores (l :: ls)]) ->
  uniq (keys (S ++ [seq entry_of x | x <- acc1 l r]) ++ [seq x.1 | x <- stores ls]).
Proof.
apply: subseq_uniq; rewrite keys_cat keys_entry -catA; apply: cat_subseq => //.
rewrite stores_cons map_cat; apply: cat_subseq => //; case: l => //= k b gs.
by case: r => //= _; rewrite eqxx.
Qed.
Lemma inv_exec S s ls s' log : Inv S s -> ~~ has (@is_clear T) ls -> okstores (stores ls) ->
  uniq (keys S ++ [seq x.1 | x <- stores ls]) -> exec s ls = Some (s', log) ->
  Inv (S ++ [seq entry_of x | x <- accepted_stores log]) s'.
Proof.
elim: ls S s s' log => [|l ls IH] S s s' log I nc ok u /=; first by case=> <- <-; rewrite cats0.
case st: (step s l) => [[s1 r]|] //; case ex: (exec s1 ls) => [[s2 log2]|] //= [<- <-].
have I1 := inv_step I (ok_first nc ok u) st.
rewrite accepted_cons map_cat catA; apply: IH ex => //.
- by case/norP: nc.
- by move: ok; rewrite stores_cons /okstores all_cat => /andP [].
- exact: uniq_next u.
Qed.

(* ------------------------------------------------------------- pending write operations *)
Definition keyw (kv : nat * (task * nat)) : seq ckey := [:: t_key kv.2.1].
Definition infl s : seq ckey := [seq t_key t | t <- d_queue s] ++ flat keyw (d_busy s).
Definition full_task (t : task) := ~~ nilp (t_info t).
Record PCore s : Prop := {
  p_uniq : uniq (infl s);
  p_mem : d_pend s =i infl s;
  p_q : all full_task (d_queue s);
  p_w : all (fun kv => full_task kv.2.1) (d_busy s);
  p_b : forall key bf, dget (d_bufs s) key = Some bf ->
     ~~ nilp (b_info bf) /\ size (b_rows bf) = sumn [seq x.2.2 - x.2.1 | x <- b_info bf];
  p_disj : forall key, key \in infl s -> ~~ dhas (d_bufs s) key }.
Record PInv (rg : option (nat * nat)) S s : Prop := {
  p_core : PCore s;
  p_range : d_range s = rg;
  p_none : rg = None -> [/\ d_bufs s = [::], infl s = [::] & d_wait s = false];
  p_wait : d_wait s -> d_bufs s = [::];
  p_done : d_wait s = false -> forall a e, rg = Some (a, e) -> forall key, key \in infl s ->
     forall i, a <= i < e -> i %/ cs = key.2 -> (key.1, i) \in keys S }.

Lemma core_flush s key : PCore s -> PCore (flush_key key s).
Proof.
move=> P; rewrite /flush_key; case g: (dget (d_bufs s) key) => [bf|] //.
have nk : key \notin infl s.
  by apply/negP => /(p_disj P); rewrite dget_has g.
have pe : perm_eq (infl (flush_key key s)) (key :: infl s).
  rewrite /infl /flush_key g /= map_rcons -cats1 -catA /=; by rewrite perm_catC /= perm_cons perm_catC.
rewrite /flush_key g in pe.
split=> /=.
- by rewrite (perm_uniq pe) /= nk (p_uniq P).
- move=> x; rewrite (perm_mem pe) inE -(p_mem P); case: ifP => h; last by rewrite mem_rcons inE.
  by case: eqP => // ->; rewrite h.
- by rewrite all_rcons (p_q P) andbT; have [] := p_b P g.
- exact: (p_w P).
- by move=> key' bf'; rewrite dget_del; case: eqP => // _; apply: (p_b P).
- move=> key'; rewrite (perm_mem pe) inE dget_has dget_del; case: eqP => // _ /= h.
  by have := p_disj P h; rewrite dget_has.
Qed.
Lemma flush_fields key s : [/\ d_range (flush_key key s) = d_range s, d_wait (flush_key key s) = d_wait s
   & dkeys (d_bufs (flush_key key s)) = [seq x <- dkeys (d_bufs s) | x != key]].
Proof.
rewrite /flush_key; case g: (dget (d_bufs s) key) => [bf|] /=; split=> //.
  by rewrite /dkeys /ddel filter_map.
apply/esym/all_filterP/allP => x xi; apply/eqP => e; move: (dget_has (d_bufs s) key); rewrite g /dhas -e => h.
by rewrite h in xi.
Qed.
Lemma core_flush_all s : PCore s -> [/\ PCore (flush_all s), d_bufs (flush_all s) = [::],
   d_range (flush_all s) = d_range s & d_wait (flush_all s) = d_wait s].
Proof.
move=> P; rewrite /flush_all.
suff H ks s0 : PCore s0 -> [/\ PCore (foldl (fun s key => flush_key key s) s0 ks),
    dkeys (d_bufs (foldl (fun s key => flush_key key s) s0 ks)) = [seq x <- dkeys (d_bufs s0) | x \notin ks],
    d_range (foldl (fun s key => flush_key key s) s0 ks) = d_range s0
    & d_wait (foldl (fun s key => flush_key key s) s0 ks) = d_wait s0].
  have [h1 h2 h3 h4] := H (dkeys (d_bufs s)) s P; split=> //.
  have : dkeys (d_bufs (foldl (fun s key => flush_key key s) s (dkeys (d_bufs s)))) = [::].
    by rewrite h2 (eq_in_filter (a2 := pred0)) ?filter_pred0 // => x ->.
  by case: (d_bufs _).
elim: ks s0 => [|k ks IH] s0 P0 /=.
  by split=> //; rewrite (eq_filter (a2 := predT)) ?filter_predT.
have [h1 h2 h3 h4] := IH _ (core_flush k P0).
have [f1 f2 f3] := flush_fields k s0; split=> //; rewrite ?h3 ?h4 //.
rewrite h2 f3 -filter_predI; apply: eq_filter => x /=; by rewrite inE negb_or andbC.
Qed.

Lemma perm_flat_dset (V E : eqType) (K : eqType) (f : K * V -> seq E) (d : dict K V) k v : uniq (dkeys d) ->
  perm_eq (flat f (dset d k v)) (f (k, v) ++ flat f (ddel d k)).
Proof. by move=> u; apply/permP => p; rewrite count_cat count_dset. Qed.

Lemma infl_take s w s' : uniq (dkeys (d_busy s)) -> take w s = Some s' -> perm_eq (infl s') (infl s).
Proof.
move=> u; rewrite /take; case: ifP => // nw; case q: (d_queue s) => [|t q'] // [<-].
apply/permP => p; rewrite /infl /= q !count_cat count_dset // ddel_id ?(negbT nw) //= addn0.
by rewrite addnCA addnA.
Qed.
Lemma core_perm s s' : PCore s -> perm_eq (infl s') (infl s) -> d_pend s' = d_pend s -> d_bufs s' = d_bufs s ->
  all full_task (d_queue s') -> all (fun kv => full_task kv.2.1) (d_busy s') -> PCore s'.
Proof.
move=> P pe ep eb aq aw; split=> //.
- by rewrite (perm_uniq pe) (p_uniq P).
- by move=> x; rewrite ep (perm_mem pe) (p_mem P).
- by rewrite eb; apply: (p_b P).
- by move=> key; rewrite (perm_mem pe) eb; apply: (p_disj P).
Qed.
Lemma core_take s w s' : PCore s -> uniq (dkeys (d_busy s)) -> take w s = Some s' ->
  [/\ PCore s', perm_eq (infl s') (infl s) & [/\ d_range s' = d_range s, d_wait s' = d_wait s & d_bufs s' = d_bufs s]].
Proof.
move=> P u e; have pe := infl_take u e; move: e; rewrite /take; case: ifP => // nw.
case q: (d_queue s) => [|t q'] // [e]; split=> //; last by rewrite -e.
have := p_q P; rewrite q /= => /andP [ft fq].
apply: (core_perm P pe); rewrite -?e //=.
by apply: all_dset => //; exact: (p_w P).
Qed.
Lemma core_work S s w s' : Inv S s -> PCore s -> work z w s = Some s' ->
  [/\ PCore s', {subset infl s' <= infl s} & [/\ d_range s' = d_range s, d_wait s' = d_wait s & d_bufs s' = d_bufs s]].
Proof.
move=> I P; have u := i_uw I; rewrite /work; case gw: (dget (d_busy s) w) => [[t n]|] //.
have /and3P [okt n4 nn] := all_dget (i_busy I) gw; rewrite /= in okt n4 nn.
have ft : full_task t := all_dget (p_w P) gw.
have de : d_dims s = Some ds.
  by case: (i_dims I) => [//|[_ _ _ _ e]]; move: gw; rewrite e.
(* progress of the same task *)
have put_ok n' f : PCore (DState (d_dims s) (d_bufs s) (d_queue s) (dset (d_busy s) w (t, n')) (d_pend s)
      (d_range s) (d_wait s) (d_cache s) f) /\
   {subset infl (DState (d_dims s) (d_bufs s) (d_queue s) (dset (d_busy s) w (t, n')) (d_pend s)
      (d_range s) (d_wait s) (d_cache s) f) <= infl s}.
  set s1 := DState _ _ _ _ _ _ _ _ _.
  have pe : perm_eq (infl s1) (infl s).
    apply/permP => p; rewrite /infl /= !count_cat count_dset // (count_ddel keyw p u gw) //.
  split; last by move=> x; rewrite (perm_mem pe).
  apply: (core_perm P pe) => //; first exact: (p_q P).
  by apply: all_dset => //; exact: (p_w P).
have fin_ok : PCore (DState (d_dims s) (d_bufs s) (d_queue s) (ddel (d_busy s) w) [seq x <- d_pend s | x != t_key t]
      (d_range s) (d_wait s) (d_cache s) (d_disk s)) /\
   {subset infl (DState (d_dims s) (d_bufs s) (d_queue s) (ddel (d_busy s) w) [seq x <- d_pend s | x != t_key t]
      (d_range s) (d_wait s) (d_cache s) (d_disk s)) <= infl s}.
  set s1 := DState _ _ _ _ _ _ _ _ _.
  have pe : perm_eq (infl s) (t_key t :: infl s1).
    apply/permP => p; rewrite /infl /= !count_cat (count_ddel keyw p u gw) /=; clear; lia.
  have sb : {subset infl s1 <= infl s} by move=> x xi; rewrite (perm_mem pe) inE xi orbT.
  split=> //; have := p_uniq P; rewrite (perm_uniq pe) /= => /andP [nk un]; split=> //.
  - move=> x; rewrite mem_filter (p_mem P) (perm_mem pe) inE; case: eqP => //= ->.
    by apply/esym/negbTE.
  - exact: (p_q P).
  - exact: all_ddel (p_w P).
  - exact: (p_b P).
  - by move=> key /sb /(p_disj P).
case: n gw nn n4 => [|[|[|[|[|n]]]]] gw nn n4 //.
- case: ifP => [|_ [<-]]; last by have [] := put_ok 1 (dset (d_disk s) (file_key t)
     (File (nseq (size (t_rows t)) (nseq (width (d_dims s)) z)) (old_meta (d_disk s) (file_key t)))).
  rewrite de /= => h; exfalso; move: h ft okt; rewrite /full_task /oktask /okp => /orP [-> //|/eqP h].
  case: (t_info t) => [|x l] //= _ /and3P [_ /andP [hx _] _]; move: h hx W0; clear; nia.
- by case=> <-; have [] := put_ok 2 (dset (d_disk s) (file_key t) (File (t_rows t) (old_meta (d_disk s) (file_key t)))).
- by case=> <-; have [] := put_ok 3 (dset (d_disk s) (file_key t) (File (t_rows t) (Some MPart))).
- by case=> <-; have [] := put_ok 4 (dset (d_disk s) (file_key t) (File (t_rows t) (Some (MFull (task_meta (d_dims s) t))))).
- by case=> <-; have [] := fin_ok.
Qed.
End Exec.
