(* Invariants of AttributionTask over all histories of requests and evaluations. *)
Set Warnings "-notation-overridden,-ambiguous-paths".
From mathcomp Require Import all_ssreflect all_algebra zify.
From Verif Require Import Py Dict TaskModel TaskSpec TaskProof TaskProof2.
Set Implicit Arguments. Unset Strict Implicit. Unset Printing Implicit Defensive.

Section Task.
Variables (A : eqType) (F : Type) (I : eqType) (dot : A).
Local Notation name := (name A).
Local Notation params := (params A F).
Local Notation arch := (arch A).
Local Notation task := (task A F I).
Variable E : tenv A F I.
Hypothesis EOK : task_ok E.
Let m := te_arch E.
Let tm := trainable m.
Implicit Types (ck old : params) (g : name -> seq F).
Variable Q : int -> name -> seq F -> Prop.

Lemma um : uniq (dkeys m). Proof. by case: EOK. Qed.
Lemma utm : uniq (dkeys tm). Proof. exact: uniq_trainable um. Qed.

Lemma checkpointE c : checkpoint E c = omap (nth [::] (te_ckpts E)) (py_index (size (te_ckpts E)) c).
Proof.
rewrite /checkpoint /py_index; set n := size _.
case: c => k.
  have -> : (0 <= Posz k)%R by [].
  by case: ltnP => h; [rewrite (_ : (_ && _) = true) | rewrite (_ : (_ && _) = false)]; rewrite ?absz_nat //; lia.
have -> : (0 <= Negz k)%R = false by [].
case: ltnP => h; last by rewrite (_ : (_ && _) = false) //; lia.
rewrite (_ : (_ && _) = true) /=; last by lia.
congr (Some (nth _ _ _)); lia.
Qed.
Lemma checkpoint_ok c ck : checkpoint E c = Some ck -> ckpt_ok m ck.
Proof.
rewrite checkpointE /py_index; case: EOK => _ _ H.
by case: c => k; case: ifP => //= h [<-]; apply: H => //; lia.
Qed.

Definition vol (k : name) : nat := if dget m k is Some q then volume (p_shape q) else 0.

Lemma ckpt_sized ck : ckpt_ok m ck -> sized m (data ck).
Proof.
case=> _ H; have := um; move: (H); rewrite /sized.
elim: m {H} => //= -[a q] m' IH H' /= /andP [na u].
have [t [e1 e2 e3]] : exists t, [/\ dget ck a = Some t, t_shape t = p_shape q & size (t_data t) = volume (p_shape q)].
  by apply: H'; rewrite dget_cons eqxx.
rewrite {1}/data e1 e3 eqxx /=; apply: IH => // k q' hk; apply: H'.
rewrite dget_cons; case: (a =P k) => // ak; move: na; rewrite ak.
by rewrite (dget_mem hk).
Qed.
Lemma sized_vol (m' : arch) g k : uniq (dkeys m') -> sized m' g -> k \in dkeys m' ->
  size (g k) = if dget m' k is Some q then volume (p_shape q) else 0.
Proof.
elim: m' => //= -[a q] m' IH /= /andP [na u] /andP [/eqP h1 h2]; rewrite inE dget_cons.
case: (a =P k) => [<-|ak] //; rewrite [k == a]eq_sym; case: (a =P k) ak => //= _ _ hk.
exact: IH.
Qed.
Lemma vol_sized g : (forall k, k \in dkeys tm -> size (g k) = vol k) -> sized tm g.
Proof.
have : forall m', uniq (dkeys m') -> (forall k q, dget (trainable m') k = Some q -> dget m k = Some q) ->
   (forall k, k \in dkeys (trainable m') -> size (g k) = vol k) -> sized (trainable m') g.
  elim=> //= -[a q] m' IH /= /andP [na u].
  have nta : a \notin dkeys (trainable m').
    apply: contra na; elim: (m') => //= -[b q'] m'' IH' /=; case: (p_grad q') => /=; rewrite !inE.
      by case/orP => [->|/IH' ->] //; rewrite orbT.
    by move/IH' ->; rewrite orbT.
  case: (p_grad q) => H1 H2; last exact: IH.
  rewrite sized_cons; apply/andP; split.
    by rewrite (H2 a) ?inE ?eqxx // /vol (H1 a q) // dget_cons eqxx.
  apply: IH => // k.
    move=> q' hk; apply: H1; rewrite dget_cons; case: (a =P k) => // ak.
    by move: nta; rewrite ak (dget_mem hk).
  by move=> hk; apply: H2; rewrite inE hk orbT.
move=> H; apply: H; first exact: um.
have : forall m' : arch, uniq (dkeys m') -> forall k q, dget (trainable m') k = Some q -> dget m' k = Some q.
  elim=> //= -[a q] m' IH /= /andP [na u] k q'; rewrite dget_cons; case: (p_grad q) => /=.
    by rewrite dget_cons; case: (a =P k) => // _; apply: IH.
  case: (a =P k) => [<- h|_]; last exact: IH.
  by move: na; rewrite (dget_mem (IH u _ _ h)).
by apply; exact: um.
Qed.
Lemma sub_trainable k : k \in dkeys tm -> k \in dkeys m.
Proof.
rewrite /tm; elim: m => //= -[a q] m' IH /=; case: (p_grad q) => /=; rewrite !inE.
  by case/orP => [->|/IH ->] //; rewrite orbT.
by move/IH ->; rewrite orbT.
Qed.
Lemma data_weights ck k : k \in dkeys tm -> data (weights E ck) k = data ck k.
Proof. by move=> h; rewrite -[weights E ck]/(build tm (data ck)) data_build h. Qed.
Lemma ckpt_vol ck k : ckpt_ok m ck -> k \in dkeys m -> size (data ck k) = vol k.
Proof. move=> h hk; exact: sized_vol um (ckpt_sized h) hk. Qed.

Lemma load_valuesE old ck : fits m old -> ckpt_ok m ck ->
  load_ok old ck /\ load_values old ck = build m (data ck).
Proof.
move=> f [sub H]; have [e sz] := fits_build um f.
have kold : dkeys old = dkeys m by rewrite e dkeys_build.
rewrite /load_ok /load_values; split.
  apply/andP; split; last by apply/allP => k hk; rewrite /dhas -/(dkeys old) kold; apply: sub.
  rewrite e; have : forall k q, List.In (k, q) m -> dget m k = Some q.
    by move=> k q; exact: (@dget_in _ _ m (k, q) um).
  elim: {1 3}m => //= -[a q] m' IH H' /=.
  have [t [-> -> _]] := H a q (H' _ _ (or_introl erefl)).
  by rewrite eqxx /=; apply: IH => k q' hk; apply: H'; right.
rewrite {1}e; have : forall k q, List.In (k, q) m -> dget m k = Some q.
  by move=> k q; exact: (@dget_in _ _ m (k, q) um).
elim: {1 3 4}m => //= -[a q] m' IH H' /=.
have [t [e1 e2 _]] := H a q (H' _ _ (or_introl erefl)).
rewrite e1 e2 eqxx IH; last by move=> k q' hk; apply: H'; right.
congr ((_, _) :: _); rewrite /data e1 -e2; by case: (t).
Qed.

(* ---- the invariant; [gc] gives, for every dictionary object, the checkpoint
   index for which it was created *)
Definition dict_ok (s : task) (c : int) (d : dict [eqType of name] (ref F)) : Prop :=
  dkeys d = dkeys tm /\
  forall k r, dget d k = Some r ->
  match r with
  | Live o => [/\ o < size (tk_heap s),
                 te_fresh E -> exists2 ck, checkpoint E c = Some ck
                                 & nth [::] (tk_heap s) o = build m (data ck)
               & ~~ te_fresh E -> o = tk_obj s]
  | Own t => Q c k (t_data t) /\ size (t_data t) = vol k
  end.

Definition part_ok (gc : seq int) (l : option (lname A)) (c : option int)
    (pt : option (nat * seq name)) : Prop :=
  match l with
  | None => pt = None
  | Some l' => exists d c', [/\ c = Some c', d < size gc, nth 0%R gc d = c'
                              & pt = Some (d, names_of l')]
  end.
Definition memo_ok gc tgt (mm : memo A I) : Prop :=
  [/\ fn_target mm.2 = tgt, fn_grad mm.2 = Some mm.1.1.1
    & part_ok gc mm.1.1.2 mm.1.2 (fn_part mm.2)].

Record Inv (gc : seq int) (s : task) : Prop := MkInv {
  i_heap : forall o, o < size (tk_heap s) -> fits m (nth [::] (tk_heap s) o);
  i_obj : tk_obj s < size (tk_heap s);
  i_gc : size gc = size (tk_dicts s);
  i_cur : forall c, tk_cur s = Some c ->
     (exists2 ck, checkpoint E c = Some ck & nth [::] (tk_heap s) (tk_obj s) = build m (data ck))
     /\ (exists d, [/\ tk_named s = Some d, d < size (tk_dicts s) & nth 0%R gc d = c]);
  i_dicts : forall d, d < size (tk_dicts s) -> dict_ok s (nth 0%R gc d) (nth [::] (tk_dicts s) d);
  i_memo : forall tgt, memo_ok gc tgt (get_memo tgt s)
}.
Definition fs_ok gc (fs : seq (fn A I)) (rs : seq (option (lname A) * option int)) : Prop :=
  size fs = size rs /\
  forall i, i < size fs -> part_ok gc (nth (None, None) rs i).1 (nth (None, None) rs i).2
                             (fn_part (nth (Fn false None None) fs i)).

Lemma part_ext gc gc' l c pt : part_ok gc l c pt -> part_ok (gc ++ gc') l c pt.
Proof.
case: l => //= l' [d [c' [-> h <- ->]]]; exists d, (nth 0%R gc d).
by split=> //; [rewrite size_cat; lia | rewrite nth_cat h].
Qed.
Lemma fs_ext gc gc' fs rs : fs_ok gc fs rs -> fs_ok (gc ++ gc') fs rs.
Proof. by case=> e H; split=> // i hi; apply: part_ext; apply: H. Qed.

Lemma inv_init init : fits m init -> Inv [::] (task_init E init).
Proof.
move=> f; split=> //=; first by case.
by case; split.
Qed.

Definition load_spec (s : task) (c : option int) : Prop :=
  match c with
  | Some i => if checkpoint E i is Some _ then
                (load_ckpt E s c).2 = Ok tt /\ tk_cur (load_ckpt E s c).1 = Some i
              else load_ckpt E s c = (s, Err IndexError)
  | None => load_ckpt E s c = (s, Err TypeError)
  end.

Lemma load_inv gc s c : Inv gc s ->
  load_spec s c /\ exists gc', Inv (gc ++ gc') (load_ckpt E s c).1.
Proof.
move=> V; have [hH hO hG hC hD hM] := V.
have same : exists gc', Inv (gc ++ gc') s by exists [::]; rewrite cats0.
rewrite /load_spec /load_ckpt.
case: c => [i|]; last by case: (tk_cur s).
have ce := checkpointE i.
case: ifP => [/andP [_ /eqP e]|ne].
  by have [[ck -> _] _] := hC _ e.
case ej: (py_index _ _) => [j|] /=; rewrite ej in ce; last by rewrite ce.
rewrite ce /=; have ok := checkpoint_ok ce.
set ck := nth _ (te_ckpts E) j in ce ok *; set old := nth _ (tk_heap s) _.
have [lo lv] := load_valuesE (hH _ hO) ok.
rewrite -/old in lo lv; rewrite lo lv /=.
have fnew : fits m (build m (data ck)) by apply: build_fits; apply: ckpt_sized.
split=> //; exists [:: i].
have gidx d : d < size (rcons (tk_dicts s) [::]) ->
   (d < size (tk_dicts s) /\ nth 0%R (gc ++ [:: i]) d = nth 0%R gc d)
   \/ (d = size (tk_dicts s) /\ nth 0%R (gc ++ [:: i]) d = i).
  rewrite size_rcons ltnS leq_eqVlt => /orP [/eqP ->|h]; [right|left]; split=> //.
    by rewrite nth_cat hG ltnn subnn.
  by rewrite nth_cat hG h.
have getl o k r : dget [seq (p.1, Live F o) | p <- tm] k = Some r -> r = Live F o.
  by elim: (tm) => //= -[a q] t IH; rewrite dget_cons; case: ifP => _; [case|exact: IH].
have memo_ext tgt : memo_ok (gc ++ [:: i]) tgt (get_memo tgt s).
  by have [m1 m2 m3] := hM tgt; split=> //; apply: part_ext.
case fr: (te_fresh E) => /=; split=> //=.
- move=> o; rewrite size_rcons nth_rcons; case: (ltnP o (size (tk_heap s))) => [h _|h h']; first exact: hH.
  by have -> : o == size (tk_heap s) by lia.
- by rewrite size_rcons.
- by rewrite size_cat size_rcons hG addn1.
- move=> c [<-]; split; first by exists ck => //; rewrite nth_rcons ltnn eqxx.
  exists (size (tk_dicts s)); split=> //; first by rewrite size_rcons.
  by rewrite nth_cat hG ltnn subnn.
- move=> d; rewrite size_rcons -(size_rcons _ [::]) => /gidx [[h ->]|[-> ->]]; rewrite nth_rcons ?h ?ltnn ?eqxx.
    have [k1 k2] := hD d h; split=> // k r /k2; case: r => //= o [h1 h2 h3]; split.
    + by rewrite size_rcons ltnW.
    + by rewrite nth_rcons h1.
    + by rewrite fr.
  split; first by rewrite /dkeys -map_comp.
  move=> k r /getl -> /=; split=> [|_|]; rewrite ?size_rcons ?fr //.
  by exists ck => //; rewrite nth_rcons ltnn eqxx.
- move=> o; rewrite size_set_nth => ho; rewrite nth_set_nth /=; case: eqP => // _; apply: hH.
  by move: ho hO; rewrite /maxn; case: ifP; lia.
- by rewrite size_set_nth leq_max ltnSn.
- by rewrite size_cat size_rcons hG addn1.
- move=> c [<-]; split; first by exists ck => //; rewrite nth_set_nth /= eqxx.
  exists (size (tk_dicts s)); split=> //; first by rewrite size_rcons.
  by rewrite nth_cat hG ltnn subnn.
- move=> d; rewrite size_rcons -(size_rcons _ [::]) => /gidx [[h ->]|[-> ->]]; rewrite nth_rcons ?h ?ltnn ?eqxx.
    have [k1 k2] := hD d h; split=> // k r /k2; case: r => //= o [h1 h2 h3]; split.
    + by rewrite size_set_nth leq_max h1 orbT.
    + by rewrite fr.
    + by [].
  split; first by rewrite /dkeys -map_comp.
  move=> k r /getl -> /=; split=> [|//|//]; by rewrite ?size_set_nth ?leq_max ?ltnSn ?fr.
Qed.

(* ---- dictionaries seen as parameters *)
Lemma view_size (gc : seq int) s d k : Inv gc s -> d < size (tk_dicts s) ->
  size (data (dict_view s d) k) = if k \in dkeys tm then vol k else 0.
Proof.
move=> V hd; have [kd H] := i_dicts V hd; rewrite /dict_view.
case hk: (k \in dkeys tm); last first.
  by rewrite data_out // dkeys_view kd hk.
rewrite /data dget_view; have := dget_has (nth [::] (tk_dicts s) d) k.
rewrite /dhas -/(dkeys _) kd hk; case e: (dget _ _) => [r|] // _ /=.
have := H _ _ e; case: r {e} => [o [h1 _ _]|t [_ ->]] //=.
have [eo so] := fits_build um (i_heap V h1).
have := sized_vol um so (sub_trainable hk); rewrite /data; case: (dget _ _) => //=.
Qed.
Lemma weights_size ck k : ckpt_ok m ck ->
  size (data (weights E ck) k) = if k \in dkeys tm then vol k else 0.
Proof.
move=> ok; case: ifP => hk; first by rewrite data_weights // ckpt_vol // sub_trainable.
by rewrite data_out // -[weights E ck]/(build tm (data ck)) dkeys_build hk.
Qed.
Lemma dkeys_weights ck : dkeys (weights E ck) = dkeys tm.
Proof. by rewrite -[weights E ck]/(build tm (data ck)) dkeys_build. Qed.

Definition okcall (c : int) (L : seq name) (v : seq F) : Prop :=
  exists ck, [/\ checkpoint E c = Some ck, selection (weights E ck) L,
                 total_of (weights E ck) L <= size v
               & forall k, k \in L -> Q c k (part (weights E ck) L v k)].

Section Eval.
Variables (R : Type) (lossf targetf : params -> res R).
Variable gradv : I -> (arg F -> res R) -> arg F -> res R.
Local Notation call := (call_fn E lossf targetf gradv).

Lemma call_inv gc s f v : Inv gc s ->
  (forall d L, fn_part f = Some (d, L) -> d < size gc /\ okcall (nth 0%R gc d) L v) ->
  Inv gc (call s f v).1.
Proof.
move=> V H; rewrite /call_fn; case e: (fn_part f) => [[d L]|] //=.
have [hd [ck [hc [uL sub] tot hq]]] := H _ _ e; rewrite (i_gc V) in hd.
have okk := checkpoint_ok hc.
have [kd Hd] := i_dicts V hd.
have szE k : size (data (dict_view s d) k) = size (data (weights E ck) k).
  by rewrite (view_size _ V hd) weights_size.
rewrite dkeys_weights in sub.
have lp := @loop_after A F _ (deref (tk_heap s)) (@Own F) (fun _ _ => erefl)
            (nth [::] (tk_dicts s) d) L v.
rewrite lp ?kd //=; last exact: utm.
case: V => hH hO hG hC hD hM; split=> //=.
- by rewrite size_set_nth (maxn_idPr _).
- move=> c /hC [h1 [d' [h2 h3 h4]]]; split=> //; exists d'; split=> //.
  by rewrite size_set_nth (maxn_idPr _).
- move=> d'; rewrite size_set_nth (maxn_idPr _) // => hd'; rewrite nth_set_nth /=.
  case: (d' =P d) => [->|_]; last exact: hD.
  split; first by rewrite dkeys_over.
  move=> k r hr; have kk := dget_mem hr; rewrite dkeys_over kd in kk.
  move: hr; rewrite /after dget_over; case e': (dget _ k) => [r'|] //= [].
  case: ifP => hk <-; last exact: Hd e'.
  rewrite /= -/(dict_view s d) (eq_part _ _ _ szE); split; first exact: hq.
  by rewrite size_part // weights_size // kk.
Qed.

Lemma get_grad_inv gc s t dims l c : Inv gc s ->
  exists gc', Inv (gc ++ gc') (get_grad E t s dims l c).1 /\
   if valid_req E l c then
     exists f, [/\ (get_grad E t s dims l c).2 = Ok f, fn_target f = t, fn_grad f = Some dims,
                   part_ok (gc ++ gc') l c (fn_part f)
                 & l -> tk_cur (get_grad E t s dims l c).1 = c]
   else (get_grad E t s dims l c).1 = s /\ exists e, (get_grad E t s dims l c).2 = Err e.
Proof.
move=> V; rewrite /get_grad.
set r := if l is Some _ then _ else _.
have [gc' [V' hr]] : exists gc', Inv (gc ++ gc') r.1 /\
   (if valid_req E l c then r.2 = Ok tt /\ (l -> tk_cur r.1 = c) else r.1 = s /\ exists e, r.2 = Err e).
  rewrite /r; case: l {r} => [l|] /=; last by exists [::]; rewrite cats0.
  have [ls [gc' V']] := load_inv c V; exists gc'; split=> //.
  move: ls; rewrite /load_spec; case: c V' => [i|] V' /=.
    case: (checkpoint E i) => [ck|] /=; first by case=> -> ->.
    by move=> -> /=; split=> //; exists IndexError.
  by move=> -> /=; split=> //; exists TypeError.
clearbody r; exists gc'; move: hr; case vr: (valid_req E l c); last first.
  by case=> [hs [e he]]; rewrite he /=; split=> //; split=> //; exists e.
case=> -> hcur /=.
set kw := (dims, l, c); set f := Fn _ _ _.
have fok : part_ok (gc ++ gc') l c (fn_part f).
  rewrite /f /=; case: l {f kw} V' hcur vr => [l|] //= V' hcur vr.
  case: c hcur vr => [i|] //= hcur _; have [_ [d [h1 h2 h3]]] := i_cur V' (hcur isT).
  exists d, i; split=> //; first by rewrite (i_gc V').
  by rewrite /named h1.
case: ifP => hm /=.
  split; last by exists f; split=> //; rewrite /get_memo /set_memo; case: t @f {fok hm} => //=.
  case: V' => hH hO hG hC hD hM; split=> //=.
  move=> tgt; have := hM tgt; rewrite /get_memo /=.
  by case: t @f fok {hm} => f fok; case: tgt => // _.
split=> //; have := i_memo V' t; move/negbFE/eqP: hm => hm [m1 m2 m3].
exists (get_memo t r.1).2; split=> //; first by rewrite m2 hm.
by move: m3; rewrite hm.
Qed.

Lemma get_func_inv gc s t l c : Inv gc s ->
  exists gc', Inv (gc ++ gc') (get_func E t s l c).1 /\
   if valid_req E l c then
     exists f, [/\ (get_func E t s l c).2 = Ok f, fn_target f = t, fn_grad f = None,
                   part_ok (gc ++ gc') l c (fn_part f)
                 & l -> tk_cur (get_func E t s l c).1 = c]
   else (get_func E t s l c).1 = s /\ exists e, (get_func E t s l c).2 = Err e.
Proof.
move=> V; rewrite /get_func; case: l => [l|] /=; last first.
  by exists [::]; rewrite cats0; split=> //; exists (Fn t None None).
have [ls [gc' V']] := load_inv c V; exists gc'; split=> //.
move: ls; rewrite /load_spec; case: c V' => [i|] V' /=; last first.
  by move=> -> /=; split=> //; exists TypeError.
case: (checkpoint E i) => [ck|] /=; last by move=> -> /=; split=> //; exists IndexError.
case=> -> hcur; exists (Fn t None (Some (named (load_ckpt E s (Some i)).1, names_of l))); split=> //=.
have [_ [d [h1 h2 h3]]] := i_cur V' hcur.
exists d, i; split=> //; first by rewrite (i_gc V').
by rewrite /named h1.
Qed.

Lemma run_inv init h : fits m init -> evaluations E okcall h ->
  exists gc, Inv gc (run dot E lossf targetf gradv (task_init E init) h).1
    /\ fs_ok gc (run dot E lossf targetf gradv (task_init E init) h).2 (obtained E h).
Proof.
move=> fi; rewrite /run; elim/last_ind: h => [|h o IH] ev.
  by exists [::]; split=> //; exact: inv_init.
have [|gc [V [sf hf]]] := IH.
  move=> h1 i v h2 e; apply: (ev h1 i v (rcons h2 o)); by rewrite e rcons_cat.
rewrite -cats1 foldl_cat /=.
have ob : obtained E (h ++ [:: o]) = obtained E h ++ obtained E [:: o].
  by rewrite /obtained map_cat flatten_cat.
rewrite {}ob; set sfs := foldl _ _ h in V sf hf *; case: sfs V sf hf => s fs /= V sf hf.
have fok : fs_ok gc fs (obtained E h) by [].
have push gc' (f : fn A I) l c : part_ok gc' l c (fn_part f) -> fs_ok gc' fs (obtained E h) ->
    fs_ok gc' (rcons fs f) (obtained E h ++ [:: (l, c)]).
  move=> hp [e H]; split; first by rewrite size_rcons size_cat /= e addn1.
  move=> i; rewrite size_rcons ltnS leq_eqVlt nth_rcons nth_cat -e => /orP [/eqP ->|hi].
    by rewrite ltnn eqxx subnn.
  by rewrite hi; apply: H.
case: o ev => [c l sp pm|t dims l c|t l c|i v] ev.
- rewrite /obtained /= !cats0 -/(obtained E h); have [_ [gc' V']] := load_inv c V.
  exists (gc ++ gc'); split; last exact: fs_ext.
  by rewrite /get_param; case: (load_ckpt E s c).2.
- have [gc' [V' hr]] := get_grad_inv t dims l c V; exists (gc ++ gc'); split=> //.
  move: hr; rewrite /obtained /= cats0 -/(obtained E h).
  case: (valid_req E l c) => [[f [-> _ _ hp _]]|[_ [e ->]]] /=; last by rewrite cats0; exact: fs_ext.
  by apply: push => //; exact: fs_ext.
- have [gc' [V' hr]] := get_func_inv t l c V; exists (gc ++ gc'); split=> //.
  move: hr; rewrite /obtained /= cats0 -/(obtained E h).
  case: (valid_req E l c) => [[f [-> _ _ hp _]]|[_ [e ->]]] /=; last by rewrite cats0; exact: fs_ext.
  by apply: push => //; exact: fs_ext.
- rewrite /obtained /= !cats0 -/(obtained E h); exists gc.
  case: ltnP => hi; split=> //=; apply: call_inv => // d L e.
  have := hf i hi; rewrite e; case en: (nth _ (obtained E h) i) => [l c] /=.
  case: l en => [l|] //= en [d' [c' [e1 h1 h2 [e3 e4]]]]; subst d' L; split=> //.
  rewrite h2; apply: (ev h i v [::]); rewrite ?cats1 -?sf // en e1; by [].
Qed.

(* ---- what an evaluation sees *)
Lemma view_value gc s d ck k : Inv gc s -> d < size (tk_dicts s) ->
  te_fresh E \/ tk_cur s = Some (nth 0%R gc d) -> checkpoint E (nth 0%R gc d) = Some ck ->
  k \in dkeys tm ->
  data (dict_view s d) k = data ck k \/ Q (nth 0%R gc d) k (data (dict_view s d) k).
Proof.
move=> V hd hl hc hk; have [kd H] := i_dicts V hd.
have := dget_has (nth [::] (tk_dicts s) d) k.
rewrite /dhas -/(dkeys _) kd hk; case e: (dget _ _) => [r|] // _ /=.
have -> : data (dict_view s d) k = t_data (deref (tk_heap s) k r) by rewrite /data dget_view e.
have := H _ _ e; case: r {e} => [o [h1 h2 h3]|t [hq _]] /=; last by right.
left.
have -> : nth [::] (tk_heap s) o = build m (data ck).
  case: hl => [fr|cu].
    by have [ck' + ->] := h2 fr; rewrite hc => -[<-].
  case fr: (te_fresh E); first by have [ck' + ->] := h2 fr; rewrite hc => -[<-].
  rewrite h3 ?fr //; have [[ck' + ->] _] := i_cur V cu; by rewrite hc => -[<-].
have := data_build m (data ck) k; rewrite (sub_trainable hk) {1}/data.
by case: (dget _ _) => [t|] //= <-.
Qed.

Lemma part_value gc s d ck t L w : Inv gc s -> d < size (tk_dicts s) ->
  te_fresh E \/ tk_cur s = Some (nth 0%R gc d) -> checkpoint E (nth 0%R gc d) = Some ck ->
  selection (weights E ck) L -> total_of (weights E ck) L <= size w ->
  (forall k x, k \notin L -> Q (nth 0%R gc d) k x -> x = data ck k) ->
  part_fun E lossf targetf s t d L (Flat w) = user_fn lossf targetf t (replace (weights E ck) L w).
Proof.
move=> V hd hl hc [uL sub] tot hq; have okk := checkpoint_ok hc.
have [kd Hd] := i_dicts V hd; rewrite dkeys_weights in sub.
have szE k : size (data (dict_view s d) k) = size (data (weights E ck) k).
  by rewrite (view_size _ V hd) weights_size.
rewrite /part_fun call_build //=.
- have fw : fits tm (weights E ck).
    by apply: build_fits; apply: vol_sized => k hk; rewrite ckpt_vol // sub_trainable.
  rewrite (replace_build _ _ utm fw); congr (user_fn _ _ _ _); apply: eq_build => k hk.
  case: ifP => hL; first exact: eq_part.
  rewrite data_weights //; have [//|] := view_value V hd hl hc hk.
  by apply: hq; rewrite hL.
- exact: um.
- by case: EOK.
- by apply: vol_sized => k hk; rewrite -/(dict_view s d) (view_size _ V hd) hk.
- by move=> k /sub; rewrite kd.
- by rewrite -/(dict_view s d) (eq_total_of _ szE).
Qed.
End Eval.
End Task.

(* ---- functions over all parameters: the memo never confuses them *)
Section Plain.
Variables (A : eqType) (F : Type) (I : eqType) (dot : A).
Variable E : tenv A F I.
Variables (R : Type) (lossf targetf : params A F -> res R).
Variable gradv : I -> (arg F -> res R) -> arg F -> res R.

Definition plain (s : task A F I) : Prop := forall tgt,
  [/\ fn_target (get_memo tgt s).2 = tgt, fn_grad (get_memo tgt s).2 = Some (get_memo tgt s).1.1.1
    & (get_memo tgt s).1.1.2 = None -> fn_part (get_memo tgt s).2 = None].

Lemma plain_load s c : plain s -> plain (load_ckpt E s c).1.
Proof.
move=> h; rewrite /load_ckpt; case: ifP => // _; case: c => // i; case: (py_index _ _) => // j /=.
set s1 := if te_fresh E then _ else _; have h1 : plain s1 by rewrite /s1; case: (te_fresh E).
by case: ifP.
Qed.
Lemma plain_grad t s dims l c : plain s -> plain (get_grad E t s dims l c).1.
Proof.
move=> h; rewrite /get_grad; set r := if l is Some _ then _ else _.
have h1 : plain r.1 by rewrite /r; case: (l) => [?|] //; apply: plain_load.
clearbody r; case: r.2 => // _ /=; case: ifP => // _ tgt; have := h1 tgt.
rewrite /get_memo /set_memo /=; case: t; case: tgt => //= _; split=> //; by case: l.
Qed.
Lemma plain_run init h : plain (run dot E lossf targetf gradv (task_init E init) h).1.
Proof.
rewrite /run; elim/last_ind: h => [|h o IH]; first by case.
rewrite -cats1 foldl_cat /=; case: (foldl _ _ h) IH => s fs /= hs.
case: o => [c l sp pm|t dims l c|t l c|i v] /=.
- by rewrite /get_param; case: (load_ckpt E s c).2 => *; apply: plain_load.
- exact: plain_grad.
- by rewrite /get_func; case: l => [l|] //=; apply: plain_load.
- case: ifP => // _ /=; rewrite /call_fn; by case: (fn_part _) => [[d L]|] /=.
Qed.
Lemma plain_get t s dims c : plain s ->
  exists2 f, (get_grad E t s dims None c).2 = Ok f
    & [/\ fn_target f = t, fn_grad f = Some dims & fn_part f = None].
Proof.
move=> h; rewrite /get_grad /=; case: ifP => hm.
  by eexists; first by []; rewrite /get_memo /set_memo; case: t {hm}.
eexists; first by []; have [e1 e2 e3] := h t; move/negbFE/eqP: hm e2 e3 => -> /= e2 e3.
by split=> //; apply: e3.
Qed.
End Plain.
