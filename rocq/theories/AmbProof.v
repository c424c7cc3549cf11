(* Lemmas about the state seen by the user's functions. *)
Set Warnings "-notation-overridden,-ambiguous-paths".
From mathcomp Require Import all_ssreflect all_algebra zify.
From Verif Require Import Py Dict TaskModel TaskSpec TaskProof TaskProof2 TaskProof3 TaskProps AmbModel AmbSpec.
Set Implicit Arguments. Unset Strict Implicit. Unset Printing Implicit Defensive.

Section Amb.
Variables (A : eqType) (F : Type) (I : eqType) (dot : A).
Local Notation name := (name A).
Local Notation params := (params A F).
Variable E : tenv A F I.
Variables (R : Type) (lossn targetn : bool -> params -> res R).
Variable gradv : I -> (arg F -> res R) -> arg F -> res R.
Variables (mode0 : bool) (init : params).
Hypothesis EOK : task_ok E.
Hypothesis ini : fits (te_arch E) init.
Let m := te_arch E.
Let tm := trainable m.

(* requests and evaluations change the task in the same way whatever the user's functions are *)
Lemma step_indep (l1 t1 l2 t2 : params -> res R) sf o :
  step dot E l1 t1 gradv sf o = step dot E l2 t2 gradv sf o.
Proof.
case: sf => s fs; case: o => //= i v; case: ifP => // _; congr (_, _).
by rewrite /call_fn; case: (fn_part _) => [[]|].
Qed.
Lemma arunE (lf tf : params -> res R) h :
  arun dot E lossn targetn gradv mode0 init h = run dot E lf tf gradv (task_init E init) h.
Proof.
rewrite /arun /run; elim/last_ind: h => // h o IH; rewrite -!cats1 !foldl_cat /= IH.
exact: step_indep.
Qed.

(* ---- the object behind the functions *)
Definition amb (cur : option int) (s : task A F I) : Prop :=
  0 < size (tk_heap s) /\
  if te_fresh E then nth [::] (tk_heap s) 0 = init
  else [/\ size (tk_heap s) = 1, tk_obj s = 0, tk_cur s = cur
         & nth [::] (tk_heap s) 0 = build m (data (seen_state E init cur))].
Definition next (cur c : option int) : option int :=
  if c is Some i then if checkpoint E i is Some _ then Some i else cur else cur.

Lemma seen_fits cur : fits m (build m (data (seen_state E init cur))).
Proof.
apply: build_fits; rewrite /seen_state.
have si : sized m (data init) by case: (fits_build (um EOK) ini).
case: (te_fresh E) => //; case: cur => // c; case e: (checkpoint E c) => [ck|] //.
by apply: (ckpt_sized EOK); apply: (checkpoint_ok EOK e).
Qed.

Lemma amb_load cur s c : amb cur s -> amb (next cur c) (load_ckpt E s c).1.
Proof.
case=> hs H; rewrite /load_ckpt /next.
case: ifP => [/andP [_ /eqP e]|ne].
  split=> //; move: H; case fr: (te_fresh E) => // -[h1 h2 h3 h4].
  have -> : (if c is Some i then if checkpoint E i is Some _ then Some i else cur else cur) = cur => //.
  by rewrite -e h3; case: cur {h3 h4 e} => // i; case: (checkpoint E i).
case: c ne => [i|] ne //=.
have ce := checkpointE E i.
case ej: (py_index _ _) => [j|] /=; rewrite ej in ce; rewrite ce //=.
have okk := checkpoint_ok EOK ce.
move: H; case fr: (te_fresh E) => H.
  case lo: (load_ok _ _) => /=; split; rewrite ?fr //=.
    by rewrite size_rcons.
  by rewrite nth_rcons hs H.
case: H => h1 h2 h3 h4; rewrite h2 h4; have [lo lv] := load_valuesE EOK (seen_fits cur) okk.
rewrite -/m lo lv /=; split; first by rewrite /= size_set_nth h1.
rewrite fr /=; split=> //; first by rewrite size_set_nth h1.
by rewrite nth_set_nth /= /seen_state fr ce.
Qed.

Lemma amb_run h (lf tf : params -> res R) :
  amb (last_loaded E h) (run dot E lf tf gradv (task_init E init) h).1.
Proof.
rewrite /run /last_loaded; elim/last_ind: h => [|h o IH] /=.
  split=> //=; case fr: (te_fresh E) => //; split=> //.
  by rewrite /seen_state fr; case: (fits_build (um EOK) ini).
rewrite -!cats1 !foldl_cat /=; set cur := foldl _ None h in IH *.
move: IH; case: (foldl _ _ h) => s fs /= hs.
have same (s' : task A F I) : tk_heap s' = tk_heap s -> tk_obj s' = tk_obj s -> tk_cur s' = tk_cur s -> amb cur s'.
  by move: hs; rewrite /amb => + -> -> ->.
case: o => [c l sp pm|t dims l c|t l c|i v] /=.
- rewrite -/(next cur c) /get_param; have := amb_load c hs.
  by case: (load_ckpt E s c).2.
- case: l => [l|] /=; last by rewrite /get_grad /=; case: ifP => // _; apply: same.
  rewrite -/(next cur c) /get_grad; have := amb_load c hs; case: (load_ckpt E s c) => s' [[]|e] //= h'.
  by case: ifP.
- case: l => [l|] //=; exact: amb_load.
- case: ifP => // _; rewrite /call_fn; by case: (fn_part _) => [[d L]|] //=; apply: same.
Qed.

(* ---- what the functions get *)
Lemma trainable_sub (m1 : arch A) k : k \in dkeys (trainable m1) -> k \in dkeys m1.
Proof.
elim: m1 => //= -[b q] m1 IH; case: (p_grad q) => /=; rewrite !inE; last by move/IH ->; rewrite orbT.
by case/orP => [->|/IH ->] //; rewrite orbT.
Qed.
Lemma override_build (g h : name -> seq F) :
  override (build m g) (build tm h) = build m (fun k => if k \in dkeys tm then h k else g k).
Proof.
have u := um EOK; rewrite /override /tm.
have G (m1 : arch A) k q : uniq (dkeys m1) -> dget m1 k = Some q -> 
   dget (build (trainable m1) h) k = if p_grad q then Some (Tensor (p_shape q) (h k)) else None.
  elim: m1 => // -[a q'] m1 IH /= /andP [na u1]; rewrite dget_cons.
  case: (a =P k) => [<- [<-]|ne e].
    case: (p_grad q') => /=; first by rewrite dget_cons eqxx.
    have : a \notin dkeys (trainable m1).
      by apply: contra na; exact: trainable_sub.
    rewrite -(dkeys_build _ h) => nk; have := dget_has (build (trainable m1) h) a.
    by rewrite /dhas -/(dkeys _) (negbTE nk); case: (dget _ a).
  case: (p_grad q') => /=; last exact: IH.
  by rewrite dget_cons; case: (a =P k) ne => // _ _; exact: IH.
have inm : forall k q, List.In (k, q) m -> dget m k = Some q by move=> k q; exact: (@dget_in _ _ m (k, q) u).
have K k q : dget m k = Some q -> (k \in dkeys (trainable m)) = p_grad q.
  move=> e; have := G m k q u e; have := dget_has (build (trainable m) h) k.
  by rewrite /dhas -/(dkeys _) dkeys_build => -> ->; case: (p_grad q).
have L (m' : arch A) : (forall k q, List.In (k, q) m' -> dget m k = Some q) ->
   [seq (p.1, if dget (build (trainable m) h) p.1 is Some t then t else p.2) | p <- build m' g]
   = build m' (fun k => if k \in dkeys (trainable m) then h k else g k).
  elim: m' => // -[k q] m' IH H /=; rewrite IH; last by move=> k' q' hk; apply: H; right.
  have e := H k q (or_introl erefl); congr ((_, _) :: _).
  by rewrite (G m k q u e) (K k q e); case: (p_grad q).
exact: L.
Qed.
Lemma networkE base ck L x : {subset L <= dkeys tm} ->
  network E base ck L x
  = build m (fun k => if k \in dkeys tm then if k \in L then part (weights E ck) L x k else data ck k else data base k).
Proof.
move=> sub; have u := um EOK; rewrite /network.
have inm : forall k q, List.In (k, q) m -> dget m k = Some q by move=> k q; exact: (@dget_in _ _ m (k, q) u).
have K k q : dget m k = Some q -> (k \in dkeys tm) = p_grad q.
  move: u; rewrite /tm -/m; elim: (m) => // -[a q'] m1 IH /= /andP [na u1]; rewrite dget_cons.
  case: (a =P k) => [<- [<-]|ne e].
    case: (p_grad q') => /=; rewrite ?inE ?eqxx //; apply/negbTE.
    by apply: contra na; exact: trainable_sub.
  case: (p_grad q') => /=; last exact: IH.
  by rewrite inE eq_sym; case: (a =P k) ne => // _ _; exact: IH.
have Lm (m' : arch A) : (forall k q, List.In (k, q) m' -> dget m k = Some q) ->
   [seq (p.1, Tensor (p_shape p.2) (if p.1 \in L then part (weights E ck) L x p.1
                else if p_grad p.2 then data ck p.1 else data base p.1)) | p <- m']
   = build m' (fun k => if k \in dkeys tm then if k \in L then part (weights E ck) L x k else data ck k else data base k).
  elim: m' => // -[k q] m' IH H /=; rewrite IH; last by move=> k' q' hk; apply: H; right.
  have e := H k q (or_introl erefl); congr ((_, Tensor _ _) :: _).
  by case hL: (k \in L); [rewrite (sub _ hL)|rewrite (K k q e)].
exact: Lm.
Qed.
End Amb.
