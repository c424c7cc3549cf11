Set Warnings "-notation-overridden,-ambiguous-paths".
From Coq Require DecimalNat.
From mathcomp Require Import all_ssreflect zify.
From Verif Require Import Py Dict Tensor TensorProof MetaModel MetaSpec.
Set Implicit Arguments. Unset Strict Implicit. Unset Printing Implicit Defensive.

(* ---------------------------------------------------------------- prefix sums *)
Lemma take_sumn_le (l : seq nat) j k : j <= k -> sumn (take j l) <= sumn (take k l).
Proof.
elim: l j k => [|a l IH] [|j] [|k] //= h; rewrite ?leq0n // leq_add2l; exact: IH.
Qed.
Lemma take_sumn_all (l : seq nat) j : sumn (take j l) <= sumn l.
Proof. rewrite -{2}(cat_take_drop j l) sumn_cat; exact: leq_addr. Qed.
Lemma locate (l : seq nat) i : i < sumn l ->
  exists2 j, j < size l & sumn (take j l) <= i < sumn (take j.+1 l).
Proof.
elim: l i => [|a l IH] //= i h; case: (ltnP i a) => ia.
  by exists 0 => //=; rewrite take0 /= addn0 ia.
have [|j jl hj] := IH (i - a); first by lia.
by exists j.+1 => //=; lia.
Qed.

(* ------------------------------------------------------------- dictionary walks *)
Section Walk.
Variable cnt : nat -> nat.
Definition walk (acc : dict nat_eqType info) cur (ks : seq nat) :=
  foldl (fun cc b => (dset cc.1 b (Info (cnt b) cc.2), cc.2 + cnt b)) (acc, cur) ks.
Lemma walk_cons acc cur a ks :
  walk acc cur (a :: ks) = walk (dset acc a (Info (cnt a) cur)) (cur + cnt a) ks.
Proof. by []. Qed.
Lemma walk_cur acc cur ks : (walk acc cur ks).2 = cur + sumn (map cnt ks).
Proof.
elim: ks acc cur => [|a ks IH] acc cur; first by rewrite addn0.
by rewrite walk_cons IH /= addnA.
Qed.
Lemma walk_get acc cur ks b : uniq ks ->
  dget (walk acc cur ks).1 b =
  if b \in ks then Some (Info (cnt b) (cur + sumn (take (index b ks) (map cnt ks)))) else dget acc b.
Proof.
elim: ks acc cur => [|a ks IH] acc cur //; rewrite cons_uniq => /andP [na u].
rewrite walk_cons IH // dgetE inE [index b (a :: ks)]/=.
case: (b =P a) => [->|/eqP ba] /=.
  by rewrite (negbTE na) eqxx /= addn0.
rewrite [a == b]eq_sym (negbTE ba) /=; case: (b \in ks) => //.
by rewrite addnA.
Qed.
Lemma walk_uniq acc cur ks : uniq (dkeys acc) -> uniq (dkeys (walk acc cur ks).1).
Proof. by elim: ks acc cur => [|a ks IH] acc cur u //; rewrite walk_cons; apply/IH/uniq_dset. Qed.
Lemma walk_keys acc cur ks : uniq (dkeys acc ++ ks) -> dkeys (walk acc cur ks).1 = dkeys acc ++ ks.
Proof.
elim: ks acc cur => [|a ks IH] acc cur u; first by rewrite cats0.
have na : dhas acc a = false.
  by apply/negbTE; move: u; rewrite cat_uniq /= negb_or => /and3P [_ /andP []].
by rewrite walk_cons IH dkeys_set na cat_rcons.
Qed.
End Walk.
Lemma walk_has cnt acc cur ks b : dhas (walk cnt acc cur ks).1 b = (b \in ks) || dhas acc b.
Proof.
elim: ks acc cur => [|a ks IH] acc cur //=.
by rewrite walk_cons IH dhas_set inE orbCA orbA.
Qed.

Section DictFold.
Variable V : Type.
Notation D := (dict nat_eqType V).
Lemma update_get (p d : D) b : uniq (dkeys p) ->
  dget (foldl (fun d kv => dset d kv.1 kv.2) d p) b = if dget p b is Some v then Some v else dget d b.
Proof.
elim: p d => [|[k v] p IH] d //= /andP [nk u]; rewrite IH // dget_cons dgetE.
case: (k =P b) => [<-|kb]; last by rewrite [b == k]eq_sym; case: eqP.
have : dhas p k = false by apply/negbTE.
by rewrite dget_has eqxx; case: (dget p k).
Qed.
Lemma update_uniq (p d : D) : uniq (dkeys d) -> uniq (dkeys (foldl (fun d kv => dset d kv.1 kv.2) d p)).
Proof. by elim: p d => [|kv p IH] d u //=; apply/IH/uniq_dset. Qed.
Lemma update_id (p d : D) : uniq (dkeys (d ++ p)) ->
  foldl (fun d kv => dset d kv.1 kv.2) d p = d ++ p.
Proof.
elim: p d => [|[k v] p IH] d u; first by rewrite cats0.
have nk : dhas d k = false.
  apply/negbTE; move: u; rewrite /dkeys map_cat cat_uniq /= negb_or => /and3P [_ /andP [h _] _].
  exact: h.
have e : dset d k v = rcons d (k, v) by rewrite /dset nk.
by rewrite /= e IH cat_rcons.
Qed.
Lemma dget_some_key (d : D) b : b \in dkeys d -> exists v, dget d b = Some v.
Proof.
move=> h; have : dhas d b by []. 
rewrite dget_has; case: (dget d b) => // v _; by exists v.
Qed.
Lemma dget_none_key (d : D) b : b \notin dkeys d -> dget d b = None.
Proof.
move=> h; have : dhas d b = false by apply/negbTE.
by rewrite dget_has; case: (dget d b).
Qed.
End DictFold.

(* ---------------------------------------------------------------- the manager *)
Section Mgr.
Variable Name : Type.
Notation mstate := (mstate Name). Notation dirst := (dirst Name).
Implicit Types (s : mstate) (dir : dirst).

Definition wf s := uniq (dkeys (m_info s)) && uniq (dkeys (m_pend s)).
Definition cnt_of s b := odflt 0 (count_of s b).

Lemma flush_get s b : wf s ->
  dget (m_info (flush s)) b = if dget (m_pend s) b is Some i then Some i else dget (m_info s) b.
Proof. by case/andP => _ u; rewrite /flush /= update_get. Qed.
Lemma flush_uniq s : wf s -> uniq (dkeys (m_info (flush s))).
Proof. by case/andP => u _; apply: update_uniq. Qed.
Lemma flush_count s b : wf s -> omap bi_count (dget (m_info (flush s)) b) = count_of s b.
Proof. by move=> w; rewrite flush_get // /count_of; case: (dget (m_pend s) b). Qed.

Definition skeys s := sort leq (dkeys (m_info (flush s))).
Lemma skeys_uniq s : wf s -> uniq (skeys s).
Proof. by move=> w; rewrite sort_uniq; apply: flush_uniq. Qed.
Lemma skeys_sorted s : sorted leq (skeys s).
Proof. by apply: sort_sorted; apply: leq_total. Qed.
Lemma skeys_mem s b : wf s -> (b \in skeys s) = (count_of s b : bool).
Proof.
move=> w; rewrite mem_sort -(flush_count _ w) -/(dhas _ b) dget_has.
by case: (dget _ b).
Qed.

Lemma recomputeE s : wf s -> recompute (m_info (flush s)) = walk (cnt_of s) [::] 0 (skeys s).
Proof.
move=> w; rewrite /recompute /walk /skeys.
have : {subset sort leq (dkeys (m_info (flush s))) <= dkeys (m_info (flush s))}.
  by move=> b; rewrite mem_sort.
move: (sort _ _) ([::] : dict nat_eqType info, 0).
elim=> [|a ks IH] acc sub //=.
rewrite -IH; last by move=> b hb; apply: sub; rewrite inE hb orbT.
congr foldl; have e : cnt_of s a = if dget (m_info (flush s)) a is Some i then bi_count i else 0.
  by rewrite /cnt_of -flush_count //; case: (dget _ a).
by rewrite e.
Qed.

Definition off s j := sumn (take j (map (cnt_of s) (skeys s))).
Lemma saveE s dir : wf s -> save s dir =
  (MState (walk (cnt_of s) [::] 0 (skeys s)).1 [::] (sumn (map (cnt_of s) (skeys s)))
          (m_names s) (m_dims s) (m_tdim s), Dir (Some (Full (saved_file s))) None).
Proof.
move=> w; rewrite /save (recomputeE w).
have := walk_cur (cnt_of s) [::] 0 (skeys s); rewrite add0n.
by case: (walk _ _ _ _) => d tot /= ->.
Qed.
Lemma index_off s b : b \in skeys s ->
  sumn (take (index b (skeys s)).+1 (map (cnt_of s) (skeys s))) = off s (index b (skeys s)) + cnt_of s b.
Proof.
move=> h; have lt : index b (skeys s) < size (map (cnt_of s) (skeys s)) by rewrite size_map index_mem.
rewrite (take_nth 0 lt) -cats1 sumn_cat /= addn0 (nth_map 0) ?index_mem // nth_index //.
Qed.
Lemma save_range s dir b : wf s -> range_of (save s dir).1 b =
  if b \in skeys s then Some (off s (index b (skeys s)), off s (index b (skeys s)).+1) else None.
Proof.
move=> w; rewrite saveE // /range_of /= walk_get ?skeys_uniq //.
by case: ifP => //= h; rewrite add0n -index_off.
Qed.
Lemma save_partition s dir : wf s -> partition_of (save s dir).1.
Proof.
move=> w; have tot : m_total (save s dir).1 = sumn (map (cnt_of s) (skeys s)) by rewrite saveE.
have inj b b' : b \in skeys s -> b' \in skeys s -> index b (skeys s) = index b' (skeys s) -> b = b'.
  by move=> h h' e; rewrite -(nth_index 0 h) -(nth_index 0 h') e.
split; last split.
- move=> b r; rewrite save_range //; case: ifP => // h [<-] /=.
  by rewrite take_sumn_le //= tot take_sumn_all.
- rewrite tot => i /locate [j]; rewrite size_map => js hj.
  exists (nth 0 (skeys s) j); split.
    exists (off s j, off s j.+1) => //; rewrite save_range // mem_nth // index_uniq ?skeys_uniq //.
  move=> b [r]; rewrite save_range //; case: ifP => // h [<-] /= hi.
  set k := index b (skeys s) in hi *.
  suff e : j = k by rewrite e /k nth_index.
  move: (ltngtP j k) => [jk|kj|//].
    by have := take_sumn_le (map (cnt_of s) (skeys s)) jk; rewrite /off in hi; lia.
  by have := take_sumn_le (map (cnt_of s) (skeys s)) kj; rewrite /off in hi; lia.
move=> b b' r r'; rewrite !save_range //; case: ifP => // h [<-]; case: ifP => // h' [<-] bb' /=.
apply: take_sumn_le; rewrite ltnNge; apply/negP => le.
have := skeys_sorted s => so.
have : nth 0 (skeys s) (index b' (skeys s)) <= nth 0 (skeys s) (index b (skeys s)).
  by apply: (sorted_leq_nth leq_trans leqnn) => //; rewrite inE index_mem.
by rewrite !nth_index //; lia.
Qed.

(* ------------------------------------------------------------------ reloading *)
Lemma load_saved (l : seq (nat * info)) acc :
  foldl (fun d kv => dset d (Nat.of_uint kv.1) kv.2) acc [seq (Nat.to_uint kv.1, kv.2) | kv <- l]
  = foldl (fun d kv => dset d kv.1 kv.2) acc l :> dict nat_eqType info.
Proof.
elim: l acc => [|[k v] l IH] acc //=.
by rewrite DecimalNat.Unsigned.of_to IH.
Qed.
Lemma saved_fileE s : wf s -> saved_file s =
  MFile [seq (Nat.to_uint kv.1, kv.2) | kv <- (walk (cnt_of s) [::] 0 (skeys s)).1]
        (m_names s) (m_dims s) (m_tdim s) (sumn (map (cnt_of s) (skeys s))).
Proof.
move=> w; rewrite /saved_file recomputeE //.
have := walk_cur (cnt_of s) [::] 0 (skeys s); rewrite add0n.
by case: (walk _ _ _ _) => d tot /= ->.
Qed.
Lemma open_saved s dir names : wf s ->
  open_manager (save s dir).2 names = (save s dir).1.
Proof.
move=> w; rewrite saveE // /open_manager /load /= saved_fileE //= load_saved update_id //.
exact: walk_uniq.
Qed.

(* ------------------------------------------------------------------- histories *)
Definition wfdir dir := forall names, wf (open_manager dir names).
Lemma wf_fresh names : wf (fresh names). Proof. by []. Qed.
Lemma wf_open dir names : wf (open_manager dir names).
Proof.
rewrite /open_manager /load; case: (d_meta dir) => [[|c]|] //.
rewrite /wf /= andbT; move: (f_info c) => l.
have : uniq (dkeys ([::] : dict nat_eqType info)) by [].
move: ([::] : dict nat_eqType info); elim: l => [|kv l IH] acc u //=; exact/IH/uniq_dset.
Qed.
Lemma wf_save s dir : wf s -> wf (save s dir).1.
Proof. by move=> w; rewrite saveE // /wf /= andbT walk_uniq. Qed.

Definition init_state (ml : mloader) bs s : mstate :=
  let cc := walk (batch_count ml bs) (m_info s) 0 (iota 0 (ml_nb ml)) in
  MState cc.1 (m_pend s) cc.2 (m_names s) (m_dims s) (m_tdim s).
Lemma initializeE ml bs s dir : ml_bs ml = Some bs -> size (m_info s) != ml_nb ml ->
  initialize ml s dir = (save (init_state ml bs s) dir, Ok tt).
Proof.
move=> e /negbTE ne; rewrite /initialize ne e /init_state /walk.
by case: (foldl _ _ _).
Qed.
Lemma wf_init_state ml bs s : wf s -> wf (init_state ml bs s).
Proof. by case/andP => u v; rewrite /wf /= v andbT walk_uniq. Qed.
Lemma wf_initialize ml s dir : wf s -> wf (initialize ml s dir).1.1.
Proof.
move=> w; case: (boolP (size (m_info s) == ml_nb ml)) => [e|ne].
  by rewrite /initialize e.
case e: (ml_bs ml) => [bs|].
  by rewrite (initializeE _ e ne); apply/wf_save/wf_init_state.
rewrite /initialize (negbTE ne) e; case: ifP => _ //=; exact: wf_save.
Qed.
Lemma wf_step sd o : wf sd.1 -> wf (step sd o).1.
Proof.
case: sd => s dir /= w; case: o => [ml|b c|ds|||names] /=.
- exact: wf_initialize.
- rewrite /add_batch_info; case: ifP => // _; case/andP: w => u v.
  by rewrite /wf /= u uniq_dset.
- exact: w.
- exact: wf_save.
- by rewrite /wf flush_uniq.
- exact: wf_open.
Qed.
Lemma wf_steps h sd : wf sd.1 -> wf (steps h sd).1.
Proof. by elim: h sd => [|o h IH] sd w //=; apply/IH/wf_step. Qed.

(* ------------------------------------------------- counts after initialisation *)
Lemma init_count ml bs s b : wf s -> count_of (init_state ml bs s) b =
  if dget (m_pend s) b is Some i then Some (bi_count i)
  else if b < ml_nb ml then Some (batch_count ml bs b) else omap bi_count (dget (m_info s) b).
Proof.
move=> w; rewrite /count_of /=; case: (dget (m_pend s) b) => //.
by rewrite walk_get ?iota_uniq // mem_iota add0n leq0n /=; case: ifP.
Qed.

Lemma batch_count_loader (X : Type) (L : loader X) b : 0 < ld_bs L -> b < nbatches L ->
  batch_count (of_loader L) (ld_bs L) b = size (batch L b).
Proof.
move=> bs0 lt; have := nbatches_st bs0 lt; rewrite (size_batch bs0) /ed /st mulSn => /andP [h1 h2].
rewrite /batch_count /= ; case: ifP => [/andP [/eqP eb /negbTE nd]|_]; last by lia.
rewrite eb in lt h1 h2 *.
have : size (ld_data L) <= nbatches L * ld_bs L.
  rewrite /nbatches nd in lt *; set n := size _; set k := ld_bs L in bs0 *.
  have := ltn_ceil (n + k.-1) bs0; move: (_ %/ _) => q; rewrite mulSn; lia.
case: (nbatches L) lt => [//|q] /=; rewrite mulSn; lia.
Qed.
End Mgr.
