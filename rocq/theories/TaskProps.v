(* C24 (flattening), C25 (partial functions share a dictionary), C26
   (AttributionTask hands out the requested checkpoint). *)
Set Warnings "-notation-overridden,-ambiguous-paths".
From mathcomp Require Import all_ssreflect all_algebra zify.
From Verif Require Import Py Dict TaskModel TaskSpec TaskProof TaskProof2 TaskProof3 TaskProof4.
Set Implicit Arguments. Unset Strict Implicit. Unset Printing Implicit Defensive.

(* ---- concrete material for the examples: characters are numbers, 0 is the
   dot; parameters "1.3" (shape 2x1), "1.4" (shape 1), "2.3" (shape 1, frozen),
   "5" (shape 1) *)
Definition xw : name [eqType of nat] := [:: 1; 0; 3].
Definition xb : name [eqType of nat] := [:: 1; 0; 4].
Definition xf : name [eqType of nat] := [:: 2; 0; 3].
Definition xo : name [eqType of nat] := [:: 5].
Definition xarch : arch [eqType of nat] :=
  [:: (xw, Parm [:: 2; 1] true); (xb, Parm [:: 1] true); (xf, Parm [:: 1] false); (xo, Parm [:: 1] true)].
Definition xps : params [eqType of nat] nat :=
  [:: (xw, Tensor [:: 2; 1] [:: 10; 11]); (xb, Tensor [:: 1] [:: 12]); (xo, Tensor [:: 1] [:: 13])].
Lemma xfits : fits (trainable xarch) xps.
Proof. by split=> //; rewrite /volume /= !big_cons !big_nil. Qed.
Lemma xuniq : uniq (dkeys xarch). Proof. by []. Qed.
Lemma xsel : selection xps [:: xo; xw].
Proof. by split=> // k; rewrite !inE => /orP [] /eqP ->. Qed.

Section Flatten.
Variables (A : eqType) (F : Type).
Local Notation name := (name A).
Local Notation params := (params A F).
Local Notation arch := (arch A).
Implicit Types (m : arch) (ps : params) (L : seq name) (x v : seq F).

(* flattening the trainable parameters of any model and unflattening them gives
   them back, and the vector is the concatenation of the data in model order *)
Theorem C24_roundtrip m ps : uniq (dkeys m) -> trainable m <> [::] -> fits (trainable m) ps ->
  flatten_params ps = Ok (gather ps (dkeys (trainable m)))
  /\ size (gather ps (dkeys (trainable m))) = total m
  /\ unflatten_params m (gather ps (dkeys (trainable m))) = Ok ps.
Proof.
move=> u ne f; have ut := uniq_trainable u; have [e sz] := fits_build ut f.
have G : gather ps (dkeys (trainable m)) = flatten [seq data ps p.1 | p <- trainable m].
  by rewrite /gather /dkeys -map_comp.
split; [|split].
- rewrite flattenE; first by rewrite G {1}e flat_build.
  by rewrite e; case: (trainable m) ne.
- by rewrite G size_flat // totalE.
- by rewrite G -[flatten _]cats0 unflatten_build // -e.
Qed.

(* unflattening any vector: succeeds exactly when the vector is long enough,
   and then flattening the result gives the vector (surplus elements dropped) *)
Theorem C24_unflatten_exact m v : uniq (dkeys m) ->
  if total m <= size v then
    exists ps, [/\ unflatten_params m v = Ok ps, fits (trainable m) ps
                 & gather ps (dkeys (trainable m)) = take (total m) v]
  else unflatten_params m v = Err RuntimeError.
Proof.
move=> u; have ut := uniq_trainable u.
have tE : total m = total_l (trainable m) by rewrite totalE total_lE.
case: leqP => h; last by rewrite /unflatten_params unflatten_short // add0n -tE.
have [|e1 [e2 e3]] := @unflatten_enough A F (trainable m) 0 v ut; first by rewrite add0n -tE.
exists (build (trainable m) (cut (trainable m) v 0)); split=> //; first exact: build_fits.
rewrite tE -[v in RHS]drop0 -e3 /gather; congr flatten.
have E : forall f : name -> seq F, [seq f p.1 | p <- trainable m] = map f (dkeys (trainable m)).
  by move=> f; rewrite /dkeys -map_comp.
by rewrite E; apply/eq_in_map => k hk; rewrite data_build hk.
Qed.

(* a tuple of per-parameter vectors: restored when each has the size of its
   parameter (surplus vectors ignored); too few vectors raise IndexError *)
Theorem C24_layerwise m ps extra : uniq (dkeys m) -> fits (trainable m) ps ->
  unflatten_layerwise m ([seq data ps k | k <- dkeys (trainable m)] ++ extra) = Ok ps
  /\ forall n, n < size (trainable m) ->
     unflatten_layerwise m (take n [seq data ps k | k <- dkeys (trainable m)]) = Err IndexError.
Proof.
move=> u f; have ut := uniq_trainable u; have [e sz] := fits_build ut f.
have E : [seq data ps k | k <- dkeys (trainable m)] = [seq data ps p.1 | p <- trainable m].
  by rewrite /dkeys -map_comp.
rewrite E; split; first by rewrite /unflatten_layerwise unflatten_tupleE // -e.
move=> n; rewrite /unflatten_layerwise; elim: (trainable m) sz n {e E f ut} => //= -[a q] m' IH /= /andP [h1 h2] [|n] hn //=.
by rewrite prodE h1 IH.
Qed.

(* the first vector of another size raises RuntimeError, whatever follows *)
Theorem C24_layerwise_bad m (vs : seq (seq F)) i : i < size (trainable m) -> i < size vs ->
  let len j := volume (nth [::] [seq p_shape p.2 | p <- trainable m] j) in
  (forall j, j < i -> size (nth [::] vs j) = len j) -> size (nth [::] vs i) != len i ->
  unflatten_layerwise m vs = Err RuntimeError.
Proof.
rewrite /unflatten_layerwise; elim: (trainable m) vs i => [|[k p] l IH] [|v vs] [|i] //= hl hv ok bad.
  by rewrite prodE ifN.
rewrite prodE (ok 0%N isT) /= eqxx (IH vs i) // => j hj; exact: (ok j.+1).
Qed.

(* a flattened function at the flattened parameters is the original function at
   the dictionary, for the flat and for the layer-wise form *)
Theorem C24_flatten_func (R : Type) m (f : params -> res R) ps : uniq (dkeys m) -> trainable m <> [::] ->
  fits (trainable m) ps ->
  flatten_func m f (Flat (gather ps (dkeys (trainable m)))) = f ps
  /\ flatten_func m f (Tuple [seq data ps k | k <- dkeys (trainable m)]) = f ps.
Proof.
move=> u ne ft; have [_ [_ e]] := C24_roundtrip u ne ft; split; rewrite /flatten_func ?e //.
by have [] := C24_layerwise [::] u ft; rewrite cats0 => ->.
Qed.

(* a partial function over any selection, in any order, evaluated through a
   fresh dictionary, is the full function with exactly the selected layers
   replaced by the parts of the argument (surplus elements ignored) *)
Theorem C24_partial (R : Type) m (f : params -> res R) ps L x : uniq (dkeys m) -> trainable m <> [::] ->
  fits (trainable m) ps -> selection ps L -> total_of ps L <= size x ->
  (partial_call (@tval A F) id (fun w => flatten_func m f (Flat w)) ps L x).2 = f (replace ps L x)
  /\ (partial_call (@tval A F) id (fun w => flatten_func m f (Flat w)) ps L (gather ps L)).2 = f ps.
Proof.
move=> u ne ft [uL sub] hx; have ut := uniq_trainable u; have [e sz] := fits_build ut ft.
have ek : dkeys ps = dkeys (trainable m) by rewrite {1}e dkeys_build.
split; rewrite call_build ?view_id //=.
- by rewrite (replace_build _ _ ut ft).
- congr f; rewrite [RHS]e; apply: eq_build => k _.
  by case: ifP => // hk; apply: part_gather.
- by rewrite size_gather.
Qed.

(* ---- C25 *)
(* after any history of evaluations (of partial functions over any selections)
   through one shared dictionary, an evaluation sees, for the layers it does not
   name, the last value passed for them by an earlier evaluation *)
Theorem C25_history (R : Type) m (f : params -> res R) ps h L x :
  uniq (dkeys m) -> trainable m <> [::] -> fits (trainable m) ps ->
  valid ps h -> selection ps L -> total_of ps L <= size x ->
  (partial_call (@tval A F) id (fun w => flatten_func m f (Flat w)) (exec ps h) L x).2
  = f (replace (current ps h) L x).
Proof.
move=> u ne ft vh [uL sub] hx; have ut := uniq_trainable u; have [e sz] := fits_build ut ft.
have ek : dkeys ps = dkeys (trainable m) by rewrite {1}e dkeys_build.
have ups : uniq (dkeys ps) by rewrite ek.
have [kx dx] := exec_ok ups vh.
have sx k : size (data (exec ps h) k) = size (data ps k) by rewrite dx size_last.
have szx : sized (trainable m) (data (exec ps h)) by rewrite (@eq_size_sized _ _ _ _ (data ps)).
have fc : fits (trainable m) (current ps h).
  rewrite (current_build _ ut ft); apply: build_fits.
  by rewrite (@eq_size_sized _ _ _ _ (data ps)) // => k _; rewrite size_last.
have dc k : k \in dkeys (trainable m) -> data (current ps h) k = last_value ps h k.
  by move=> hk; rewrite (current_build _ ut ft) data_build hk.
have sc k : size (data (current ps h) k) = size (data (exec ps h) k).
  case hk: (k \in dkeys (trainable m)); first by rewrite dc // dx.
  rewrite (current_build _ ut ft) data_build hk /= sx data_out //.
  by rewrite ek hk.
rewrite call_build ?view_id ?kx //=; last by rewrite (eq_total_of _ sx).
rewrite (replace_build _ _ ut fc); congr f; apply: eq_build => k hk.
case: ifP => // hL; first by apply: eq_part => l; rewrite sc.
by rewrite dc // dx.
Qed.

(* hence history does not matter as long as every earlier evaluation named only
   layers that this one names too, or was made at the original values *)
Theorem C25_harmless (R : Type) m (f : params -> res R) ps h L x :
  uniq (dkeys m) -> trainable m <> [::] -> fits (trainable m) ps ->
  valid ps h -> selection ps L -> total_of ps L <= size x ->
  (forall e, List.In e h -> {subset e.1 <= L}) \/
  (forall e, List.In e h -> uniq e.1 /\ e.2 = gather ps e.1) ->
  (partial_call (@tval A F) id (fun w => flatten_func m f (Flat w)) (exec ps h) L x).2
  = f (replace ps L x).
Proof.
move=> u ne ft vh sl hx hh; rewrite C25_history //; congr f.
have ut := uniq_trainable u; have [e sz] := fits_build ut ft.
have fc : fits (trainable m) (current ps h).
  rewrite (current_build _ ut ft); apply: build_fits.
  by rewrite (@eq_size_sized _ _ _ _ (data ps)) // => k _; rewrite size_last.
have ek : dkeys ps = dkeys (trainable m) by rewrite {1}e dkeys_build.
have dc k : data (current ps h) k = if k \in dkeys (trainable m) then last_value ps h k else [::].
  by rewrite (current_build _ ut ft) data_build.
have sc k : size (data (current ps h) k) = size (data ps k).
  rewrite dc; case: ifP => hk; first exact: size_last.
  by rewrite data_out // ek hk.
rewrite (replace_build _ _ ut fc) (replace_build _ _ ut ft); apply: eq_build => k hk.
case: ifP => hL; first exact: eq_part.
rewrite dc hk; case: hh => hh; last exact: last_value_own.
by apply: (last_value_in _ hh); rewrite hL.
Qed.

(* one evaluation with too short an argument ruins the dictionary: every later
   evaluation, of any selection and with any argument, raises *)
Theorem C25_short_argument (R : Type) m (f : params -> res R) ps h L x h' L' x' :
  uniq (dkeys m) -> fits (trainable m) ps ->
  valid ps h -> selection ps L -> size x < total_of ps L ->
  exists e, (partial_call (@tval A F) id (fun w => flatten_func m f (Flat w))
               (exec ps (h ++ (L, x) :: h')) L' x').2 = Err e.
Proof.
move=> u ft vh [uL sub] hx; have ut := uniq_trainable u; have [e sz] := fits_build ut ft.
have ek : dkeys ps = dkeys (trainable m) by rewrite {1}e dkeys_build.
have ups : uniq (dkeys ps) by rewrite ek.
have [kx dx] := exec_ok ups vh.
have sx k : size (data (exec ps h) k) = size (data ps k) by rewrite dx size_last.
have ux : uniq (dkeys (exec ps h)) by rewrite kx.
set full1 := (partial_loop (@tval A F) id (exec ps h) L 0 x).1.
have ex : exec ps (h ++ (L, x) :: h') = exec full1 h' by rewrite /exec foldl_cat.
have l1 := @loop_after A F _ (@tval A F) id (fun _ _ => erefl) (exec ps h) L x ux uL.
rewrite {}kx in l1 ux; have f1 : full1 = after (@tval A F) id (exec ps h) L x by rewrite /full1 l1.
have [k1 s1] := @loop_shrinks A F _ (@tval A F) id (fun _ _ => erefl) (exec ps h) L 0 x
                 (etrans (congr1 uniq (proj1 (exec_ok ups vh))) ups).
rewrite -/full1 (proj1 (exec_ok ups vh)) in k1.
have u1 : uniq (dkeys full1) by rewrite k1.
have [k2 s2] := exec_shrinks h' u1.
have [k hk hlt] : exists2 k, k \in dkeys ps & size (data full1 k) < size (data ps k).
  have d1 k : k \in L -> data full1 k = part ps L x k.
    move=> hk; rewrite f1 -[after _ _ _ _ _]view_id data_after //.
      by rewrite hk view_id; apply: eq_part.
    by move=> k'; rewrite (proj1 (exec_ok ups vh)); apply: sub.
  have [k hk hs] := short_part uL hx.
  by exists k; [exact: sub | rewrite d1].
rewrite ex; apply: short_errors; first by rewrite k2.
rewrite k2 k1.
have T : size (flatten [seq data ps k | k <- dkeys ps]) = total m.
  by rewrite ek totalE -(size_flat sz) /dkeys -map_comp.
rewrite -T; apply: flat_size_lt; last by exists k => //; apply: leq_ltn_trans (s2 k) hlt.
move=> k'; apply: leq_trans (s2 k') _; have := s1 k'; rewrite !view_id -/full1; by rewrite -(sx k').
Qed.
End Flatten.
Example ex_layerwise_bad : unflatten_layerwise xarch [:: [:: 10; 11]; [:: 12; 13]; [:: 14]] = Err RuntimeError.
Proof. apply: (@C24_layerwise_bad _ _ xarch _ 1) => // [[|//]|]; by rewrite /volume /= !big_cons big_nil. Qed.

(* ---- C26 *)
Section Task.
Variables (A : eqType) (F : Type) (I : eqType) (dot : A).
Variable E : tenv A F I.
Variables (R : Type) (lossf targetf : params A F -> res R).
Variable gradv : I -> (arg F -> res R) -> arg F -> res R.
Variable init : params A F.
Hypothesis EOK : task_ok E.
Hypothesis ini : fits (te_arch E) init.
Hypothesis lg : local_grad gradv.
Local Notation history h := (run dot E lossf targetf gradv (task_init E init) h).1.
Local Notation call := (call_fn E lossf targetf gradv).
Local Notation user := (user_fn lossf targetf).

Definition QA (c : int) (k : name A) (x : seq F) : Prop :=
  forall ck, checkpoint E c = Some ck -> x = data ck k.
Definition QB (L0 : seq (name A)) (c : int) (k : name A) (x : seq F) : Prop := k \in L0.

Lemma okA c L v : at_checkpoint E c L v -> okcall E QA c L v.
Proof.
case=> ck [hc [uL sub] ->]; exists ck; split=> //; first by rewrite size_gather.
move=> k hk ck'; rewrite hc => -[<-]; rewrite part_gather // data_weights //.
by have := sub k hk; rewrite dkeys_weights.
Qed.
Lemma okB L0 c L v : over_layers E L0 c L v -> okcall E (QB L0) c L v.
Proof. by case=> -> [ck [hc sl tot]]; exists ck. Qed.
Lemma evaluations_imp (P P' : int -> seq (name A) -> seq F -> Prop) (h : seq (op A F I)) :
  (forall c L v, P c L v -> P' c L v) -> evaluations E P h -> evaluations E P' h.
Proof. by move=> H ev h1 i v h2 e hi l c en; apply: H; apply: ev e hi _ _ en. Qed.

Lemma param_specE (W1 W2 : params A F) l split pm : dkeys W1 = dkeys W2 ->
  (forall k, k \in selected W2 l -> data W1 k = data W2 k) ->
  param_spec dot W1 l split pm = param_spec dot W2 l split pm.
Proof.
move=> ek ed; rewrite /param_spec.
have -> : selected W1 l = selected W2 l by case: (l) => [l'|] //=; rewrite ek.
by have -> : [seq data W1 k | k <- selected W2 l] = [seq data W2 k | k <- selected W2 l] by apply/eq_in_map.
Qed.

Lemma param_gen Q h c ck l split pm : evaluations E (okcall E Q) h -> checkpoint E c = Some ck ->
  (forall k x, k \in selected (weights E ck) l -> Q c k x -> x = data ck k) ->
  (get_param dot E (history h) (Some c) l split pm).2 = param_spec dot (weights E ck) l split pm.
Proof.
move=> ev hc hq; have [gc [V _]] := run_inv dot EOK (Q := Q) lossf targetf gradv ini ev.
have [ls [gc' V']] := load_inv EOK (Some c) V; move: ls; rewrite /load_spec hc => -[ok cu].
rewrite /get_param ok; set s := (load_ckpt _ _ _).1 in V' cu *.
have [_ [d [h1 h2 h3]]] := i_cur V' cu.
rewrite -[LHS]/(param_of dot (dict_view s (named s)) l split pm) /named h1 /=.
have [kd _] := i_dicts V' h2.
have kv : dkeys (dict_view s d) = dkeys (trainable (te_arch E)) by rewrite dkeys_view.
rewrite param_ofE; last by rewrite kv; exact: utm.
apply: param_specE; first by rewrite kv dkeys_weights.
move=> k hk.
have hkt : k \in dkeys (trainable (te_arch E)).
  rewrite -(dkeys_weights _ ck); case: (l) hk => //= l'.
  by rewrite mem_first_occ mem_filter => /andP [].
have hl : te_fresh E \/ tk_cur s = Some (nth 0%R (gc ++ gc') d) by right; rewrite h3.
have hc' : checkpoint E (nth 0%R (gc ++ gc') d) = Some ck by rewrite h3.
rewrite data_weights //; have [//|] := view_value V' h2 hl hc' hkt.
by rewrite h3; apply: hq.
Qed.

Lemma grad_gen Q h t dims l c ck x : evaluations E (okcall E Q) h -> checkpoint E c = Some ck ->
  selection (weights E ck) (names_of l) -> total_of (weights E ck) (names_of l) <= size x ->
  (forall k y, k \notin names_of l -> Q c k y -> y = data ck k) ->
  (exists2 f, (get_grad E t (history h) dims (Some l) (Some c)).2 = Ok f &
     (call (get_grad E t (history h) dims (Some l) (Some c)).1 f x).2
     = gradv dims (fun a => if a is Flat w then user t (replace (weights E ck) (names_of l) w)
                            else Err AttributeError) (Flat x))
  /\ (exists2 f, (get_func E t (history h) (Some l) (Some c)).2 = Ok f &
     (call (get_func E t (history h) (Some l) (Some c)).1 f x).2
     = user t (replace (weights E ck) (names_of l) x)).
Proof.
move=> ev hc sl tot hq; have [gc [V _]] := run_inv dot EOK (Q := Q) lossf targetf gradv ini ev.
split.
  have [gc' [V']] := get_grad_inv EOK t dims (Some l) (Some c) V; rewrite /= hc /=.
  set r := get_grad _ _ _ _ _ _ in V' *.
  case=> f [-> ft fg [d [c' [[<-] hd hgc fp]]] cu]; exists f => //.
  rewrite /call_fn fp fg ft /=; apply: lg => w sw; rewrite (i_gc V') in hd.
  apply: (part_value EOK _ _ _ V' hd) => //; rewrite ?hgc ?sw //; right; exact: cu.
have [gc' [V']] := get_func_inv EOK t (Some l) (Some c) V; rewrite /= hc /=.
case=> f [-> ft fg [d [c' [[<-] hd hgc fp]]] cu]; exists f => //.
rewrite /call_fn fp fg ft; rewrite (i_gc V') in hd.
by apply: (part_value EOK _ _ _ V' hd) => //; rewrite ?hgc //; right; exact: cu.
Qed.

(* As long as partial functions are evaluated at the parameters of their own
   checkpoint (the attributors' use), get_param(c, ...) returns the parameters
   of checkpoint c after every history of requests and evaluations, whichever
   way checkpoints are loaded, with its exact exceptions *)
Theorem C26_get_param h c ck l split pm :
  evaluations E (at_checkpoint E) h -> checkpoint E c = Some ck ->
  (get_param dot E (history h) (Some c) l split pm).2 = param_spec dot (weights E ck) l split pm.
Proof.
move=> ev hc; apply: (param_gen (Q := QA)) => //; first exact: evaluations_imp okA ev.
by move=> k x _; apply.
Qed.

(* ... and a function requested for checkpoint c and layers l, memoised or not,
   evaluated at any point x, is the user's function at checkpoint c with exactly
   the layers l replaced by x; the gradient is taken with the requested in_dims *)
Theorem C26_functions h t dims l c ck x :
  evaluations E (at_checkpoint E) h -> checkpoint E c = Some ck ->
  selection (weights E ck) (names_of l) -> total_of (weights E ck) (names_of l) <= size x ->
  (exists2 f, (get_grad E t (history h) dims (Some l) (Some c)).2 = Ok f &
     (call (get_grad E t (history h) dims (Some l) (Some c)).1 f x).2
     = gradv dims (fun a => if a is Flat w then user t (replace (weights E ck) (names_of l) w)
                            else Err AttributeError) (Flat x))
  /\ (exists2 f, (get_func E t (history h) (Some l) (Some c)).2 = Ok f &
     (call (get_func E t (history h) (Some l) (Some c)).1 f x).2
     = user t (replace (weights E ck) (names_of l) x)).
Proof.
move=> ev hc sl tot; apply: (grad_gen (Q := QA)) => //; first exact: evaluations_imp okA ev.
by move=> k y _; apply.
Qed.

(* evaluations at arbitrary points are harmless for functions over one and the
   same selection, and for the parameters outside the selection *)
Theorem C26_one_selection h t dims l c ck x :
  evaluations E (over_layers E (names_of l)) h -> checkpoint E c = Some ck ->
  selection (weights E ck) (names_of l) -> total_of (weights E ck) (names_of l) <= size x ->
  (exists2 f, (get_grad E t (history h) dims (Some l) (Some c)).2 = Ok f &
     (call (get_grad E t (history h) dims (Some l) (Some c)).1 f x).2
     = gradv dims (fun a => if a is Flat w then user t (replace (weights E ck) (names_of l) w)
                            else Err AttributeError) (Flat x))
  /\ (exists2 f, (get_func E t (history h) (Some l) (Some c)).2 = Ok f &
     (call (get_func E t (history h) (Some l) (Some c)).1 f x).2
     = user t (replace (weights E ck) (names_of l) x)).
Proof.
move=> ev hc sl tot; apply: (grad_gen (Q := QB (names_of l))) => //.
  exact: evaluations_imp (@okB _) ev.
by move=> k y /negbTE; rewrite /QB => ->.
Qed.
Theorem C26_other_layers h L0 c ck l split pm :
  evaluations E (over_layers E L0) h -> checkpoint E c = Some ck ->
  (forall k, k \in selected (weights E ck) l -> k \notin L0) ->
  (get_param dot E (history h) (Some c) l split pm).2 = param_spec dot (weights E ck) l split pm.
Proof.
move=> ev hc dis; apply: (param_gen (Q := QB L0)) => //; first exact: evaluations_imp (@okB _) ev.
by move=> k x /dis /negbTE; rewrite /QB => ->.
Qed.

(* a function obtained earlier keeps its meaning as long as its checkpoint is the
   one loaded last, and for ever if every load creates a new model object *)
Theorem C26_later_evaluation h i l c ck x :
  evaluations E (at_checkpoint E) h ->
  i < size (obtained E h) -> nth (None, None) (obtained E h) i = (Some l, Some c) ->
  checkpoint E c = Some ck ->
  selection (weights E ck) (names_of l) -> total_of (weights E ck) (names_of l) <= size x ->
  te_fresh E \/ tk_cur (history h) = Some c ->
  let f := nth (Fn false None None) (run dot E lossf targetf gradv (task_init E init) h).2 i in
  (call (history h) f x).2
  = (if fn_grad f is Some dims then gradv dims else id)
      (fun a => if a is Flat w then user (fn_target f) (replace (weights E ck) (names_of l) w)
                else Err AttributeError) (Flat x).
Proof.
move=> ev hi en hc sl tot hl f.
have [gc [V [sf hf]]] := run_inv dot EOK (Q := QA) lossf targetf gradv ini (evaluations_imp okA ev).
have := hf i; rewrite sf => /(_ hi); rewrite en /= -/f => -[d [c' [[<-] hd hgc fp]]].
rewrite /call_fn fp; rewrite (i_gc V) in hd.
have pv w : size w = size x -> part_fun E lossf targetf (history h) (fn_target f) d (names_of l) (Flat w)
   = user (fn_target f) (replace (weights E ck) (names_of l) w).
  move=> sw; apply: (part_value EOK _ _ _ V hd) => //; rewrite ?hgc ?sw //.
  by move=> k y _; apply.
case: (fn_grad f) => [dims|] /=; [exact: lg | exact: pv].
Qed.

(* an index outside the list, or a layer request without a checkpoint index,
   raises and changes nothing *)
Theorem C26_bad_index h c l split pm : evaluations E (at_checkpoint E) h -> checkpoint E c = None ->
  get_param dot E (history h) (Some c) l split pm = (history h, Err IndexError)
  /\ get_param dot E (history h) None l split pm = (history h, Err TypeError).
Proof.
move=> ev hc; have [gc [V _]] := run_inv dot EOK (Q := QA) lossf targetf gradv ini (evaluations_imp okA ev).
rewrite /get_param; have [+ _] := load_inv EOK (Some c) V; rewrite /load_spec hc => -> /=.
by have [+ _] := load_inv EOK None V; rewrite /load_spec => -> /=.
Qed.
End Task.

(* functions over all parameters do not depend on any history, nor on which
   checkpoints exist: the memo never returns a function for other layers or
   other in_dims *)
Theorem C26_full_functions (A : eqType) (F : Type) (I : eqType) (dot : A) (E : tenv A F I) (R : Type)
    (lossf targetf : params A F -> res R) gradv init h t dims c x :
  let s := (run dot E lossf targetf gradv (task_init E init) h).1 in
  let r := get_grad E t s dims None c in
  exists2 f, r.2 = Ok f &
    (call_fn E lossf targetf gradv r.1 f x).2
    = gradv dims (flatten_func (te_arch E) (if t then targetf else lossf)) (Flat x).
Proof.
move=> s r; have [f e [f1 f2 f3]] := @plain_get A F I E t s dims c (plain_run dot E lossf targetf gradv init h).
by exists f => //; rewrite /call_fn f1 f2 f3.
Qed.

(* a layer_name given as a string selects by single characters: get_param finds
   nothing, and evaluating the function raises KeyError, unless parameters have
   one-character names *)
Theorem C26_string_layer (A : eqType) (F : Type) (I : eqType) (dot : A) (E : tenv A F I) (R : Type)
    (lossf targetf : params A F -> res R) gradv init h c ck (cs : seq A) (a0 : A) t x :
  task_ok E -> fits (te_arch E) init -> evaluations E (at_checkpoint E) h ->
  checkpoint E c = Some ck -> cs = a0 :: behead cs ->
  (forall a, a \in cs -> [:: a] \notin dkeys (weights E ck)) ->
  let s := (run dot E lossf targetf gradv (task_init E init) h).1 in
  (get_param dot E s (Some c) (Some (inl cs)) false None).2 = Err StopIteration
  /\ exists2 f, (get_func E t s (Some (inl cs)) (Some c)).2 = Ok f
     & (call_fn E lossf targetf gradv (get_func E t s (Some (inl cs)) (Some c)).1 f x).2 = Err KeyError.
Proof.
move=> EOK ini ev hc ecs hn s; split.
  rewrite (C26_get_param _ _ _ _ EOK ini _ _ _ ev hc) /param_spec /=.
  have -> : [seq k <- [seq [:: c0] | c0 <- cs] | k \in dkeys (weights E ck)] = [::]; last by [].
  elim: cs hn {ecs} => //= b cs IH hn; rewrite (negbTE (hn b _)) ?inE ?eqxx //.
  by apply: IH => a ha; apply: hn; rewrite inE ha orbT.
have [gc [V _]] := run_inv dot EOK (Q := QA E) lossf targetf gradv ini (evaluations_imp (@okA _ _ _ E) ev).
have [gc' [V']] := get_func_inv EOK t (Some (inl cs)) (Some c) V; rewrite /= hc /=.
case=> f [-> ft fg [d [c' [[<-] hd hgc fp]]] cu]; exists f => //.
rewrite /call_fn fp fg ft /= /part_fun /partial_call ecs /=.
rewrite (i_gc V') in hd; have [kd _] := i_dicts V' hd.
have := dget_has (nth [::] (tk_dicts (load_ckpt E s (Some c)).1) d) [:: a0].
rewrite /dhas -/(dkeys _) kd -(dkeys_weights _ ck) (negbTE (hn a0 _)); last by rewrite ecs inE eqxx.
by case: (dget _ _).
Qed.

(* the map from parameters to layers: the i-th parameter belongs to the layer
   numbered by the changes of module name before it; two parameters share a
   layer exactly if all parameters between them have the same module name *)
Theorem C26_layer_map (A : eqType) (dot : A) (ks : seq (name A)) :
  layer_map dot ks = mkseq (layer_index dot ks) (size ks)
  /\ forall i j, i <= j -> j < size ks ->
     (nth 0 (layer_map dot ks) i == nth 0 (layer_map dot ks) j)
     = all (fun t => layer_of dot (nth [::] ks t) == layer_of dot (nth [::] ks t.+1)) (iota i (j - i)).
Proof.
rewrite layer_mapE; split=> // i j hij hj; rewrite !nth_mkseq //; last by apply: leq_ltn_trans hj.
rewrite -{1}(subnKC hij); move: (j - i) => n.
elim: n => [|n IH]; first by rewrite addn0 eqxx.
rewrite addnS -[n.+1]addn1 iotaD all_cat /= andbT -IH andbC /layer_index big_ord_recr /=.
set a := \sum_(t < i) _; set b := \sum_(t < i + n) _; set ch := layer_of _ _ == _.
have ab : a <= b by rewrite /a /b big_split_ord /= leq_addr.
by case: ch => /=; rewrite ?addn0 ?andTb // addn1; apply/eqP; lia.
Qed.
(* the module name of a parameter is the text before its last dot *)
Theorem C26_layer_name (A : eqType) (dot : A) (a b : name A) : dot \notin b ->
  layer_of dot (a ++ dot :: b) = a /\ layer_of dot b = [::].
Proof.
have hd (s : name A) : has_dot dot s = (dot \in s).
  by elim: s => //= c s ->; rewrite inE eq_sym.
move=> nb; split; last first.
  by case: b nb => //= c b; rewrite inE negb_or hd => /andP [_ /negbTE ->].
elim: a => [|c a IH] /=; first by rewrite hd (negbTE nb).
by rewrite hd mem_cat inE eqxx orbT IH.
Qed.

(* ---- examples and refutations *)
Definition xfull (a b c d e : nat) : params [eqType of nat] nat :=
  [:: (xw, Tensor [:: 2; 1] [:: a; b]); (xb, Tensor [:: 1] [:: c]); (xf, Tensor [:: 1] [:: d]);
      (xo, Tensor [:: 1] [:: e])].
Definition xenv (fresh : bool) : tenv [eqType of nat] nat [eqType of bool] :=
  TEnv xarch [:: xfull 10 11 12 7 13; rev (xfull 20 21 22 8 23)] fresh true.
Definition xid (ps : params [eqType of nat] nat) : res (params [eqType of nat] nat) := Ok ps.
Definition xgrad (dims : bool) (f : arg nat -> res (params [eqType of nat] nat)) (a : arg nat) := f a.
Definition xrun fresh h := (run 0 (xenv fresh) xid xid xgrad (task_init (xenv fresh) (xfull 0 0 0 0 0)) h).
Definition Lw : lname [eqType of nat] := inr [:: xw].
Definition Lb : lname [eqType of nat] := inr [:: xb].
Definition xOFunc t l c : op [eqType of nat] nat [eqType of bool] := OFunc nat [eqType of bool] t l c.
Definition xOCall i v : op [eqType of nat] nat [eqType of bool] := OCall [eqType of nat] [eqType of bool] i v.
Definition xOParam c l sp pm : op [eqType of nat] nat [eqType of bool] := OParam nat [eqType of bool] c l sp pm.

Lemma xfull_fits a b c d e : fits xarch (xfull a b c d e).
Proof. by split=> //; rewrite /volume /= !big_cons !big_nil. Qed.
Lemma xenv_ok fresh : task_ok (xenv fresh).
Proof.
split=> // -[|[|]] // _; split.
1,3: by move=> k; rewrite !inE => /or4P [] /eqP ->.
all: move=> k q hq; have hk := dget_mem hq; move: hk hq; rewrite !inE => /or4P [] /eqP -> [<-].
all: by eexists; split; [reflexivity | by [] | rewrite /volume !big_cons !big_nil].
Qed.
Lemma xlocal : local_grad xgrad.
Proof. by move=> dims f1 f2 v H; apply: H. Qed.

Example C24_partial_ex :
  (partial_call (@tval _ nat) id (fun w => flatten_func xarch xid (Flat w)) xps [:: xo; xw] [:: 1; 2; 3]).2
  = Ok [:: (xw, Tensor [:: 2; 1] [:: 2; 3]); (xb, Tensor [:: 1] [:: 12]); (xo, Tensor [:: 1] [:: 1])]
  /\ selection xps [:: xo; xw] /\ fits (trainable xarch) xps /\ total_of xps [:: xo; xw] = 3.
Proof. by split; [|split; [exact: xsel|split; [exact: xfits|rewrite /total_of !big_cons big_nil]]]. Qed.

(* a history that meets the hypotheses of C25_history, and its effect *)
Example C25_history_ex :
  valid xps [:: ([:: xw], [:: 1; 2])] /\
  current xps [:: ([:: xw], [:: 1; 2])]
  = [:: (xw, Tensor [:: 2; 1] [:: 1; 2]); (xb, Tensor [:: 1] [:: 12]); (xo, Tensor [:: 1] [:: 13])].
Proof.
split.
  move=> [|//] _; split; first by split=> // k; rewrite inE => /eqP ->.
  by rewrite /total_of big_seq1.
by rewrite /current /= /last_value /= /part /offset /= big_nil.
Qed.
(* so evaluations do not leave the other layers alone *)
Theorem C25_independent_refuted :
  ~ (forall (ps : params [eqType of nat] nat) h L x, fits (trainable xarch) ps -> valid ps h ->
       selection ps L -> total_of ps L <= size x ->
       (partial_call (@tval _ nat) id (fun w => flatten_func xarch xid (Flat w)) (exec ps h) L x).2
       = xid (replace ps L x)).
Proof.
move=> H; have := H xps [:: ([:: xw], [:: 1; 2])] [:: xb] [:: 9] xfits C25_history_ex.1.
have sl : selection xps [:: xb] by split=> // k; rewrite inE => /eqP ->.
move/(_ sl); rewrite /total_of big_seq1 => /(_ isT) /=.
by rewrite /xid /replace /= /part /offset /= big_nil.
Qed.
Example C25_short_ex : selection xps [:: xw] /\ size [:: 1] < total_of xps [:: xw]
  /\ (partial_call (@tval _ nat) id (fun w => flatten_func xarch xid (Flat w))
        (exec xps [:: ([:: xw], [:: 1])]) [:: xw] [:: 1; 2]).2 = Err RuntimeError.
Proof.
split; first by split=> // k; rewrite inE => /eqP ->.
by rewrite /total_of big_seq1.
Qed.

(* a history meeting the hypotheses of C26_get_param and C26_functions: two
   checkpoints, evaluations at their own parameters *)
Definition xhist : seq (op [eqType of nat] nat [eqType of bool]) :=
  [:: xOParam (Some 1%R) None false None; xOFunc true (Some Lw) (Some 0%R); xOCall 0 [:: 10; 11];
      xOParam (Some (Negz 0)) (Some Lb) true None].
Lemma xweights fresh : weights (xenv fresh) (xfull 10 11 12 7 13) = xps.
Proof. by []. Qed.
Example xhist_ok fresh : evaluations (xenv fresh) (at_checkpoint (xenv fresh)) xhist.
Proof.
move=> h1 i v h2.
case: h1 => [|a1 [|a2 [|a3 [|a4 [|a5 h1]]]]] //= [] //.
move=> <- <- <- <- _ /=.
rewrite /obtained /= => hi l c; case: i hi => [|i] // _ [<- <-] /=.
all: exists (xfull 10 11 12 7 13); split=> //; by split=> // k; rewrite inE => /eqP ->.
Qed.
Example C26_get_param_ex fresh :
  (get_param 0 (xenv fresh) (xrun fresh xhist).1 (Some (Negz 1)) (Some (inr [:: xo; xw])) true None).2
  = Ok (PTuple [:: [:: 13]; [:: 10; 11]] [:: 0; 1])
  /\ checkpoint (xenv fresh) (Negz 1) = Some (xfull 10 11 12 7 13).
Proof. by case: fresh. Qed.

(* evaluations elsewhere change what get_param returns for the same checkpoint *)
Theorem C26_get_param_after_evaluation_refuted :
  ~ (forall h c ck l split pm, checkpoint (xenv false) c = Some ck ->
      (get_param 0 (xenv false) (xrun false h).1 (Some c) l split pm).2
      = param_spec 0 (weights (xenv false) ck) l split pm).
Proof.
move=> H.
by have := H [:: xOFunc true (Some Lw) (Some 0%R); xOCall 0 [:: 1; 2]] 0%R _ None false None erefl.
Qed.

(* with in-place loading, a function obtained for checkpoint 0 but evaluated
   after checkpoint 1 was loaded takes the unselected layers of checkpoint 1 *)
Theorem C26_stale_function_refuted :
  ~ (forall h i l c ck x,
      evaluations (xenv false) (at_checkpoint (xenv false)) h ->
      i < size (xrun false h).2 -> nth (None, None) (obtained (xenv false) h) i = (Some l, Some c) ->
      checkpoint (xenv false) c = Some ck -> x = gather (weights (xenv false) ck) (names_of l) ->
      (call_fn (xenv false) xid xid xgrad (xrun false h).1
          (nth (Fn false None None) (xrun false h).2 i) x).2
      = xid (weights (xenv false) ck)).
Proof.
move=> H.
have := H [:: xOFunc true (Some Lw) (Some 0%R); xOParam (Some 1%R) None false None] 0 Lw 0%R
  (xfull 10 11 12 7 13) [:: 10; 11].
have ev : evaluations (xenv false) (at_checkpoint (xenv false))
   [:: xOFunc true (Some Lw) (Some 0%R); xOParam (Some 1%R) None false None].
  move=> h1 i v h2; case: h1 => [|a1 [|a2 [|a3 h1]]] //= [] //.
by move/(_ ev isT erefl erefl erefl).
Qed.

(* with repeated names the parameters returned by get_param do not fit the
   function returned for the same request *)
Theorem C26_repeated_layer_refuted :
  ~ (forall l v, (get_param 0 (xenv false) (xrun false [::]).1 (Some 0%R) (Some l) false None).2 = Ok (PFlat v) ->
      exists f y, (get_func (xenv false) true (xrun false [::]).1 (Some l) (Some 0%R)).2 = Ok f /\
        (call_fn (xenv false) xid xid xgrad
           (get_func (xenv false) true (xrun false [::]).1 (Some l) (Some 0%R)).1 f v).2 = Ok y).
Proof.
move=> H; have [f [y [e1 e2]]] := H (inr [:: xw; xw]) [:: 10; 11] erefl.
by move: e2; case: e1 => <-.
Qed.

(* a checkpoint that does not fit the model raises RuntimeError after some of
   its values were already copied; the task still believes the previous
   checkpoint is loaded and returns the mixture for it *)
Definition xbad : tenv [eqType of nat] nat [eqType of bool] :=
  TEnv xarch [:: xfull 10 11 12 7 13; take 1 (xfull 20 21 22 8 23)] false true.
Theorem C26_failed_load_refuted :
  let s0 := (get_param 0 xbad (task_init xbad (xfull 0 0 0 0 0)) (Some 0%R) None false None) in
  let s1 := get_param 0 xbad s0.1 (Some 1%R) None false None in
  [/\ s0.2 = Ok (PFlat [:: 10; 11; 12; 13]), s1.2 = Err RuntimeError
    & (get_param 0 xbad s1.1 (Some 0%R) None false None).2 = Ok (PFlat [:: 20; 21; 12; 13])].
Proof. by []. Qed.

Print Assumptions C24_roundtrip.
Print Assumptions C24_unflatten_exact.
Print Assumptions C24_layerwise.
Print Assumptions C24_layerwise_bad.
Print Assumptions C24_flatten_func.
Print Assumptions C24_partial.
Print Assumptions C25_history.
Print Assumptions C25_harmless.
Print Assumptions C25_short_argument.
Print Assumptions C25_independent_refuted.
Print Assumptions C26_get_param.
Print Assumptions C26_functions.
Print Assumptions C26_one_selection.
Print Assumptions C26_other_layers.
Print Assumptions C26_later_evaluation.
Print Assumptions C26_bad_index.
Print Assumptions C26_full_functions.
Print Assumptions C26_string_layer.
Print Assumptions C26_layer_map.
Print Assumptions C26_layer_name.
Print Assumptions C26_get_param_after_evaluation_refuted.
Print Assumptions C26_stale_function_refuted.
Print Assumptions C26_repeated_layer_refuted.
Print Assumptions C26_failed_load_refuted.
