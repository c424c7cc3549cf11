(* C35 (in-memory stores) and C40 (collating chunks). *)
Set Warnings "-notation-overridden,-ambiguous-paths".
From mathcomp Require Import all_ssreflect all_algebra zify.
From Verif Require Import Py Dict Tensor TensorProof OffModel OffSpec OffProof OffProof2.
Set Implicit Arguments. Unset Strict Implicit. Unset Printing Implicit Defensive.

Section Store.
Variables (T P : Type) (z : T) (nl : nat).
Notation history := (seq (op T P)).
Implicit Types (h : history) (d : option (seq nat)).
(* the manager after a history, started with or without layer dimensions *)
Notation after h d := (run z nl h (off0 T P nl d)).

(* A store raises exactly as specified, whatever happened before; a store that raises leaves every
   batch as it was. *)
Theorem C35_store_outcome h d k b gs :
  let o := after h d in
  (store z k b gs o).2 = outcome (dims_of h d) gs /\
  (accepted (dims_of h d) gs = false ->
     forall k' b', dget (dict_of k' (store z k b gs o).1) b' = dget (dict_of k' o) b').
Proof.
have [od _ _ _] := rel_hist z nl h d; rewrite /= storeE od /accepted.
case: (outcome _ _) => [[]|e] /=; split=> //.
Qed.

(* Retrieving a batch after any history gives the per-layer tensors last stored for it since the
   last clear, layers without gradient being zero, and tensors without rows when there are none. *)
Theorem C35_retrieve h d k b :
  retrieve nl k b (after h d) =
  Ok (match last_stored k b h d, dims_of h d with
      | Some gs, ds => layer_tensors z (odflt [::] ds) gs
      | None, Some ds => [seq G2 (T2 m [::]) | m <- ds]
      | None, None => nseq nl G1
      end).
Proof.
have [od ev no un] := rel_hist z nl h d.
rewrite /retrieve ev od; case e : (last_stored k b h d) => [gs|] /=; last by case: (dims_of h d).
case ed : (dims_of h d) => [ds|]; first by rewrite /split_tensor /= split_flat.
by rewrite (no ed) in e.
Qed.

(* Storing one gradient per layer, all with the same number of samples and at least one column, and
   retrieving the batch gives back exactly those tensors. *)
Theorem C35_round_trip h d k b gs ts n ds :
  dims_of h d = Some ds -> gs = [seq G2 t | t <- ts] -> 0 < n -> size ts = size ds ->
  (forall l, l < size ds -> let t := nth (T2 0 [::]) ts l in
     [/\ wf_t2 t, size (t2r t) = n & t2c t = nth 0 ds l]) ->
  (forall l, l < size ds -> 0 < nth 0 ds l) -> 0 < size ds ->
  (store z k b gs (after h d)).2 = Ok tt /\
  retrieve nl k b (store z k b gs (after h d)).1 = Ok gs.
Proof.
move=> ed egs n0 ts_ds shp pos ds0.
have full_l l : l < size ds -> full (nth G1 gs l).
  move=> h'; rewrite egs (nth_map (T2 0 [::])) ?ts_ds //=; have [_ -> ->] := shp l h'.
  by rewrite -!lt0n n0 pos.
have hf : has (@full T) gs.
  by apply/(has_nthP G1); exists 0; rewrite ?full_l // egs size_map ts_ds.
have sz : size gs = size ds by rewrite egs size_map.
have ns : nsamples gs = n.
  have f0 : find (@full T) gs = 0.
    by have := full_l 0 ds0; case: (gs) => //= g gs' ->.
  rewrite /nsamples f0 egs (nth_map (T2 0 [::])) ?ts_ds //=.
  by have [_ ->] := shp 0 ds0.
have oc : outcome (dims_of h d) gs = Ok tt.
  rewrite /outcome ed /= hf /=.
  have -> : find (fun g => is_none g || full g) gs = 0.
    by have := full_l 0 ds0; case: (gs) => //= g gs' ->; rewrite orbT.
  have -> : is_none (nth G1 gs 0) = false by have := full_l 0 ds0; case: (nth _ _ _).
  set ps := zip gs ds; set f := find _ _.
  have -> //: f == size ps.
  apply: contraT => ne.
  have : f < size ps by have := find_size (fun p => ~~ fits (nsamples gs) p.2 p.1) ps; rewrite -/f; lia.
  rewrite -has_find => /(has_nthP (G1, 0)) [l ls].
  move: ls; rewrite /ps size_zip sz minnn => ls; rewrite nth_zip //= /fits ns full_l //.
  rewrite egs (nth_map (T2 0 [::])) ?ts_ds //=.
  by have [_ -> ->] := shp l ls; rewrite !eqxx.
have e1 : (store z k b gs (after h d)).1 = after (rcons h (OStore P k b gs)) d.
  by rewrite /run -cats1 foldl_cat.
have dims' : dims_of (rcons h (OStore P k b gs)) d = Some ds.
  have gen : forall h0 d0, dims_of (rcons h0 (OStore P k b gs)) d0 = dims_step (dims_of h0 d0) gs.
    by elim=> [|[] //= *] //= d0.
  by rewrite gen ed.
have last' : last_stored k b (rcons h (OStore P k b gs)) d = Some gs.
  have gen : forall h0 d0 acc, accepted (dims_of h0 d0) gs ->
     lasts k b (rcons h0 (OStore P k b gs)) d0 acc = Some gs.
    elim=> [|[k' b' gs'|l p|] h0 IH] d0 acc ok /=; try exact: IH.
    have -> : same_kind k k by case: (k).
    by rewrite eqxx ok.
  by apply: gen; rewrite /accepted oc.
have [-> _] := C35_store_outcome h d k b gs; rewrite oc; split=> //.
rewrite e1 C35_retrieve last' dims' /=; congr Ok.
apply: (@eq_from_nth _ G1); rewrite /layer_tensors size_mkseq ?sz // => l ls.
rewrite nth_mkseq // egs (nth_map (T2 0 [::])) ?ts_ds // -egs ns; congr G2.
have [wt st ct] := shp l ls.
case et : (nth _ ts l) wt st ct => [c r] /= wt <- <-; congr T2.
apply: (@eq_from_nth _ [::]); rewrite size_mkseq // => i ir; rewrite nth_mkseq //.
have /eqP ri : size (nth [::] r i) == c by exact: (all_nthP [::] wt).
apply: (@eq_from_nth _ z); rewrite size_mkseq ?ri // => j jc; rewrite nth_mkseq //.
rewrite /stored_at full_l // egs (nth_map (T2 0 [::])) ?ts_ds // et /=.
congr (nth _ (nth _ _ _) _); case: eqP => //; [move=> e; move: ir; rewrite e|move=> e; move: jc; rewrite e]; lia.
Qed.

(* Preconditioners: the last one stored since the last clear, nothing beyond the last layer. *)
Theorem C35_preconditioner h d l :
  retrieve_prec l (after h d) = if l < nl then last_prec l h None else None.
Proof.
have s0 : size (o_prec (off0 T P nl d)) = nl by rewrite size_nseq.
rewrite /retrieve_prec size_prec //; case: leqP => // ln.
by rewrite prec_run // nth_nseq if_same.
Qed.

(* The gradient dataloader of any history enumerates the stored batches that lie in the range once,
   in increasing order, bs at a time, and each range addresses the rows of its batch. *)
Lemma loader_contents h d k range bs : 0 < bs ->
  let ds := odflt [::] (dims_of h d) in
  let want b := (last_stored k b h d : bool) && (if range is Some (s, e) then s <= b < e else true) in
  exists2 outs, mem_loader (dict_of k (after h d)) range bs = [seq Ok it | it <- outs] &
  let bl := flatten [seq dkeys it.2 | it <- outs] in
  [/\ sorted ltn bl, (forall b, (b \in bl) = want b),
      forall i, i < size outs -> size (nth [::] [seq dkeys it.2 | it <- outs] i) = minn bs (size bl - i * bs) &
      forall it, List.In it outs -> t2c it.1 = sumn ds /\
        (t2r it.1 = flatten [seq rows_at it.1 e.2 | e <- it.2] /\
         forall b se, dget it.2 b = Some se ->
           exists2 gs, last_stored k b h d = Some gs & rows_at it.1 se = flat_batch z ds gs)].
Proof.
move=> bs0 ds want; have [od ev no un] := rel_hist z nl h d.
set c := dict_of k _.
have cols_c b t : dget c b = Some t -> t2c t = sumn ds.
  by rewrite /c ev; case: (last_stored k b h d) => //= gs [<-].
pose bl := batch_indices c range.
have blu : uniq bl.
  have u0 : uniq (sort leq (dkeys c)) by rewrite sort_uniq; exact: un.
  by rewrite /bl /batch_indices; case: range {want bl} => [[s e]|] //; apply: filter_uniq.
have bls : sorted ltn bl.
  rewrite ltn_sorted_uniq_leq blu /=.
  have s0 : sorted leq (sort leq (dkeys c)) by apply: sort_sorted; exact: leq_total.
  rewrite /bl /batch_indices; case: range {want bl blu} => [[s e]|] //.
  by apply: sorted_filter => //; exact: leq_trans.
have blm b : (b \in bl) = want b.
  have has_c : dhas c b = (last_stored k b h d : bool).
    by rewrite dget_has /c ev; case: (last_stored k b h d).
  rewrite /bl /batch_indices /want -has_c; case: range {want bl blu bls} => [[s e]|] /=.
    by rewrite mem_filter mem_sort andbC.
  by rewrite mem_sort andbT.
have inc b : b \in bl -> dhas c b.
  by rewrite blm /want dget_has /c ev; case: (last_stored k b h d).
pose L := Loader bl bs false; pose nb := nbatches L.
have chunk i : i < nb -> exists tm, [/\ collate_mem [seq get_item c b | b <- batch L i] = Ok tm, t2c tm.1 = sumn ds,
    dkeys tm.2 = batch L i, t2r tm.1 = flatten [seq t2r (get_item c b).1 | b <- batch L i] &
    forall b, b \in batch L i -> exists2 se, dget tm.2 b = Some se & rows_at tm.1 se = t2r (get_item c b).1].
  move=> ib; have sub b : b \in batch L i -> b \in bl by rewrite /batch /= => /mem_take /mem_drop.
  have [|||t [m [? ? ? ? ?]]] := @collate_memE T c (sumn ds) cols_c (batch L i).
  - by apply: take_uniq; apply: drop_uniq.
  - exact: chunk_gt0.
  - by move=> b /sub /inc.
  by exists (t, m).
have [f fP] : exists f : nat -> item T, forall i, i < nb ->
   [/\ collate_mem [seq get_item c b | b <- batch L i] = Ok (f i), t2c (f i).1 = sumn ds,
    dkeys (f i).2 = batch L i, t2r (f i).1 = flatten [seq t2r (get_item c b).1 | b <- batch L i] &
    forall b, b \in batch L i -> exists2 se, dget (f i).2 b = Some se & rows_at (f i).1 se = t2r (get_item c b).1].
  elim: (nb) chunk => [|m IH] chunk; first by exists (fun=> (T2 0 [::], [::])).
  have [i ib|f Hf] := IH; first by apply: chunk; lia.
  have [tm Htm] := chunk m (ltnSn m).
  exists (fun i => if i == m then tm else f i) => i ib; case: eqP => [->|ne] //.
  by apply: Hf; lia.
exists [seq f i | i <- iota 0 nb].
  rewrite /mem_loader /enum_batches -/bl map_nbatches -/L -/nb -!map_comp.
  apply/eq_in_map => i; rewrite mem_iota /= => ib.
  by rewrite map_batch -/L; have [-> _ _ _ _] := fP i ib.
have keysE : [seq dkeys it.2 | it <- [seq f i | i <- iota 0 nb]] = [seq batch L i | i <- iota 0 nb].
  by rewrite -map_comp; apply/eq_in_map => i; rewrite mem_iota => ib; have [_ _ e _ _] := fP i ib.
have flE : flatten [seq dkeys it.2 | it <- [seq f i | i <- iota 0 nb]] = bl.
  by rewrite keysE flatten_all_batches.
rewrite flE keysE; split=> //.
  move=> i; rewrite size_map size_iota => ib.
  by rewrite (nth_map 0) ?size_iota // nth_iota // add0n size_chunk.
move=> it itin.
have [i ib ->] : exists2 i, i < nb & it = f i.
  have : List.In it [seq f i | i <- iota 0 nb] -> exists2 i, i \in iota 0 nb & it = f i.
    elim: (iota 0 nb) => //= i s IH [<-|/IH [i' i's ->]]; first by exists i; rewrite ?mem_head.
    by exists i' => //; rewrite inE i's orbT.
  by case/(_ itin) => i; rewrite mem_iota => ib ->; exists i.
have [_ -> ki ri gi] := fP i ib; split=> //; split.
  rewrite ri -ki; congr flatten; rewrite /dkeys -map_comp.
  have ui : uniq (dkeys (f i).2) by rewrite ki; apply: take_uniq; apply: drop_uniq.
  have gi' : forall e, List.In e (f i).2 -> rows_at (f i).1 e.2 = t2r (get_item c e.1).1.
    move=> e ein; have ge := dget_in ui ein.
    have [|se] := gi e.1; first by rewrite -ki (dget_mem ge).
    by rewrite ge => -[<-].
  by elim: (f i).2 gi' => //= e es IH H; rewrite H ?IH //; [move=> e' e'in; apply: H; right|left].
move=> b se ge; have bi : b \in batch L i by rewrite -ki (dget_mem ge).
have [se' ge' r'] := gi b bi; move: ge'; rewrite ge => -[e]; rewrite e r'.
have := inc b; rewrite dget_has /get_item.
have bb : b \in bl by move: bi; rewrite /batch /= => /mem_take /mem_drop.
move=> /(_ bb); rewrite /c ev; case: (last_stored k b h d) => //= gs _.
by exists gs.
Qed.
(* create_gradient_dataloader(data_type, is_test): is_test matters for gradients only, any other
   data_type gives None. *)
Theorem C35_loader h d dt is_test range bs : 0 < bs ->
  let ds := odflt [::] (dims_of h d) in
  match dt, is_test with
  | DOther, _ => create_loader dt is_test range bs (after h d) = None
  | _, _ =>
    let k := match dt, is_test with DGrad, true => KTest | DGrad, false => KGrad | _, _ => KIfvp end in
    let want b := (last_stored k b h d : bool) && (if range is Some (s, e) then s <= b < e else true) in
    exists2 outs, create_loader dt is_test range bs (after h d) = Some [seq Ok it | it <- outs] &
    let bl := flatten [seq dkeys it.2 | it <- outs] in
    [/\ sorted ltn bl, (forall b, (b \in bl) = want b),
        forall i, i < size outs -> size (nth [::] [seq dkeys it.2 | it <- outs] i) = minn bs (size bl - i * bs) &
        forall it, List.In it outs -> t2c it.1 = sumn ds /\
          (t2r it.1 = flatten [seq rows_at it.1 e.2 | e <- it.2] /\
           forall b se, dget it.2 b = Some se ->
             exists2 gs, last_stored k b h d = Some gs & rows_at it.1 se = flat_batch z ds gs)]
  end.
Proof.
move=> bs0 ds; case: dt is_test => [] [] //=.
- by have [outs e H] := loader_contents h d KTest range bs0; exists outs => //; rewrite -e.
- by have [outs e H] := loader_contents h d KGrad range bs0; exists outs => //; rewrite -e.
- by have [outs e H] := loader_contents h d KIfvp range bs0; exists outs => //; rewrite -e.
by have [outs e H] := loader_contents h d KIfvp range bs0; exists outs => //; rewrite -e.
Qed.
End Store.

(* The dimension of a layer is fixed by the first stored batch.  A layer that had no gradient there
   has dimension 0 for ever: a later gradient of it is lost when it has one column and makes the
   store raise otherwise. *)
Theorem C35_late_layer_lost (T P : Type) (z : T) (nl : nat) (x y : T) :
  let g1 := [:: G2 (T2 1 [:: [:: x]]); G1] in
  let o := (store z KGrad 0 g1 (off0 T P nl None)).1 in
  (store z KGrad 1 [:: G2 (T2 1 [:: [:: x]]); G2 (T2 1 [:: [:: y]])] o).2 = Ok tt /\
  retrieve nl KGrad 1 (store z KGrad 1 [:: G2 (T2 1 [:: [:: x]]); G2 (T2 1 [:: [:: y]])] o).1
    = Ok [:: G2 (T2 1 [:: [:: x]]); G2 (T2 0 [:: [::]])] /\
  (store z KGrad 1 [:: G2 (T2 1 [:: [:: x]]); G2 (T2 2 [:: [:: y; y]])] o).2 = Err RuntimeError.
Proof. by split; [|split]. Qed.

(* C40 ---------------------------------------------------------------- *)
Section Collate.
Variable T : Type.
Implicit Types (its : seq (item T)).
Definition entry0 : item T := (T2 0 [::], [::]).

(* Collating chunks (disk loader): for every batch, the combined range addresses the rows that the
   last chunk listing the batch assigns to it; every chunk's rows are kept; RuntimeError exactly for
   no chunk or chunks of different widths. *)
Theorem C40_collate its :
  (forall it, List.In it its -> uniq (dkeys it.2)) ->
  (forall it b se, List.In it its -> dget it.2 b = Some se -> se.2 <= nrows it.1) ->
  if (0 < size its) && all (fun it => t2c it.1 == t2c (head entry0 its).1) its then
    exists t m, [/\ collate_async its = Ok (t, m),
      t2r t = flatten [seq t2r it.1 | it <- its],
      (uniq (flatten [seq dkeys it.2 | it <- its]) -> dkeys m = flatten [seq dkeys it.2 | it <- its]) &
      forall i b se, i < size its -> dget (nth entry0 its i).2 b = Some se ->
        (forall i', i < i' < size its -> ~~ dhas (nth entry0 its i').2 b) ->
        exists2 se', dget m b = Some se' & rows_at t se' = rows_at (nth entry0 its i).1 se]
  else collate_async its = Err RuntimeError.
Proof.
move=> u inb; case: its u inb => [|it0 [|it1 its]] u inb //.
  rewrite /= eqxx; exists it0.1, it0.2; split.
  - by case: (it0).
  - by rewrite cats0.
  - by rewrite cats0.
  by case=> // b se _ e _; exists se.
move: u inb; set l := [:: it0, it1 & its] => u inb.
have ce : collate_async l = rbind (cat0 [seq it.1 | it <- l])
   (fun t => Ok (t, (cfold (fun o se => (o + se.1, o + se.1 + (se.2 - se.1))) l 0 [::]).2)) by [].
case: ifP => [al|nal]; last first.
  have c0 : cat0 [seq it.1 | it <- l] = Err RuntimeError; last by rewrite ce c0.
  have : all (fun t' => t2c t' == t2c it0.1) [seq it.1 | it <- l] = false by rewrite all_map; exact: nal.
  by rewrite /cat0 /= => ->.
have c0 : cat0 [seq it.1 | it <- l] = Ok (T2 (t2c it0.1) (flatten [seq t2r t | t <- [seq it.1 | it <- l]])).
  by apply: cat0_ok => //; rewrite all_map; exact: al.
rewrite ce c0 /=.
set m := (cfold _ _ _ _).2; exists (T2 (t2c it0.1) (flatten [seq t2r t | t <- [seq it.1 | it <- l]])), m.
split=> //.
- by rewrite [LHS]/= -map_comp.
- by move=> uf; rewrite /m cfold_keys.
move=> i b se il ge last.
have gm := @cfold_at T (fun o se => (o + se.1, o + se.1 + (se.2 - se.1))) l 0 [::] i b se u il ge.
exists (offset l i + se.1, offset l i + se.1 + (se.2 - se.1)).
  by rewrite /m gm // => i' h1 h2; apply: last; rewrite h1.
have := @rows_cat T [seq it.1 | it <- l] i (t2c it0.1) se.
rewrite size_map (nth_map entry0) // => /(_ il).
have -> : sumn [seq nrows t | t <- take i [seq it.1 | it <- l]] = offset l i.
  by rewrite /offset -map_take -map_comp.
by apply; apply: (inb _ b) => //; exact: In_nth.
Qed.
End Collate.

(* The in-memory collate function ignores the first row of an entry; it is right only because the
   in-memory data set always starts at row 0. *)
Theorem C40_memory_collate_refuted :
  ~ (forall (its : seq (item nat)) t m i b se,
      (forall it, List.In it its -> uniq (dkeys it.2)) ->
      (forall it b se, List.In it its -> dget it.2 b = Some se -> se.2 <= nrows it.1) ->
      collate_mem its = Ok (t, m) -> i < size its ->
      dget (nth (entry0 nat) its i).2 b = Some se ->
      (forall i', i < i' < size its -> ~~ dhas (nth (entry0 nat) its i').2 b) ->
      exists2 se', dget m b = Some se' & rows_at t se' = rows_at (nth (entry0 nat) its i).1 se).
Proof.
pose its : seq (item nat) := [:: (T2 1 [:: [:: 1]; [:: 2]], [:: (0, (1, 2))]); (T2 1 [::], [::])].
move=> H.
have := H its (T2 1 [:: [:: 1]; [:: 2]]) [:: (0, (0, 1))] 0 0 (1, 2).
case=> //.
- by move=> it [<-|[<-|]].
- move=> it b se [<-|[<-|]] //; rewrite dget_cons; by case: eqP => // _ [<-].
- by case=> //; case.
by move=> se [<-].
Qed.

(* Concrete cases ------------------------------------------------------ *)
Definition ex_h : seq (op nat nat) :=
  [:: OStore nat KGrad 2 [:: G2 (T2 1 [:: [:: 1]; [:: 2]]); G2 (T2 2 [:: [:: 3; 4]; [:: 5; 6]])];
      OStore nat KGrad 0 [:: G1; G2 (T2 2 [:: [:: 7; 8]])];
      OStore nat KGrad 1 [:: GNone];
      OStore nat KGrad 2 [:: G2 (T2 1 [:: [:: 9]]); G2 (T2 2 [:: [:: 10; 11]])]].
Example C35_concrete :
  let o := run 0 2 ex_h (off0 nat nat 2 None) in
  [/\ retrieve 2 KGrad 2 o = Ok [:: G2 (T2 1 [:: [:: 9]]); G2 (T2 2 [:: [:: 10; 11]])],
      retrieve 2 KGrad 0 o = Ok [:: G2 (T2 1 [:: [:: 0]]); G2 (T2 2 [:: [:: 7; 8]])],
      retrieve 2 KGrad 1 o = Ok [:: G2 (T2 1 [::]); G2 (T2 2 [::])] &
      mem_loader (o_grad o) None 4 =
        [:: Ok (T2 3 [:: [:: 0; 7; 8]; [:: 9; 10; 11]], [:: (0, (0, 1)); (2, (1, 2))])]].
Proof. by vm_compute. Qed.
Example C40_concrete :
  collate_async [:: (T2 1 [:: [:: 5]; [:: 6]], [:: (1, (1, 2)); (0, (0, 1))]); (T2 1 [:: [:: 7]], [:: (3, (0, 1))])]
  = Ok (T2 1 [:: [:: 5]; [:: 6]; [:: 7]], [:: (1, (1, 2)); (0, (0, 1)); (3, (2, 3))]).
Proof. by []. Qed.

Print Assumptions C35_store_outcome. Print Assumptions C35_retrieve. Print Assumptions C35_round_trip.
Print Assumptions C35_preconditioner. Print Assumptions C35_loader. Print Assumptions C35_late_layer_lost.
Print Assumptions C40_collate. Print Assumptions C40_memory_collate_refuted.
