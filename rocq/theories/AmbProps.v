(* C64: the frozen parameters, buffers and mode behind the functions of a task. *)
Set Warnings "-notation-overridden,-ambiguous-paths".
From mathcomp Require Import all_ssreflect all_algebra zify.
From Verif Require Import Py Dict TaskModel TaskSpec TaskProof TaskProof2 TaskProof3 TaskProof4 TaskProps AmbModel AmbSpec AmbProof.
Set Implicit Arguments. Unset Strict Implicit. Unset Printing Implicit Defensive.

Section Amb.
Variables (A : eqType) (F : Type) (I : eqType) (dot : A).
Local Notation params := (params A F).
Variable E : tenv A F I.
Variables (R : Type) (lossn targetn : bool -> params -> res R).
Variable gradv : I -> (arg F -> res R) -> arg F -> res R.
Variables (mode0 : bool) (init : params).
Hypothesis EOK : task_ok E.
Hypothesis ini : fits (te_arch E) init.
Hypothesis lg : local_grad gradv.
Let m := te_arch E.
Let tm := trainable m.
Local Notation history h := (arun dot E lossn targetn gradv mode0 init h).1.
Local Notation call := (acall E lossn targetn gradv mode0).
Local Notation net t := (if t then targetn else lossn).

Lemma seenE cur (s : task A F I) : amb E init cur s ->
  own_state s = build m (data (seen_state E init cur)) /\ training E mode0 s = seen_mode E mode0 cur.
Proof.
case=> _; rewrite /own_state /training /seen_mode /seen_state; case fr: (te_fresh E) => /=.
  by move=> ->; split=> //; case: (fits_build (um EOK) ini).
case=> h1 h2 h3 h4; rewrite h4 h3; split=> //; by case: cur {h3 h4}.
Qed.
Lemma userE (nt : bool -> params -> res R) s cur base ck L w : amb E init cur s -> base = seen_state E init cur -> ckpt_ok m ck ->
  {subset L <= dkeys tm} ->
  user E mode0 nt s (replace (weights E ck) L w) = nt (seen_mode E mode0 cur) (network E base ck L w).
Proof.
move=> a -> ok sub; have [e1 e2] := seenE a.
have fw : fits tm (weights E ck).
  by apply: build_fits; apply: (vol_sized EOK) => k hk; rewrite (ckpt_vol EOK ok) // (sub_trainable hk).
rewrite /user e1 e2 (replace_build _ _ (utm EOK) fw) override_build // networkE //; congr (nt _ _).
apply: eq_build => k _; case: ifP => // hk; case: ifP => // _.
by rewrite data_weights.
Qed.
Lemma userT t s : user_fn (user E mode0 lossn s) (user E mode0 targetn s) t = user E mode0 (net t) s.
Proof. by case: t. Qed.

(* ---- functions over all parameters: after any history they see the frozen parameters and buffers of the checkpoint
   loaded last (before any load, and always if loading creates new objects, those of the user's model), whatever
   checkpoint index was given in the request *)
Lemma flat_network (nt : bool -> params -> res R) s cur x : amb E init cur s -> total m <= size x ->
  flatten_func m (user E mode0 nt s) (Flat x)
  = nt (seen_mode E mode0 cur) (network E (seen_state E init cur) (seen_state E init cur) (dkeys tm) x).
Proof.
move=> a tot; set b := seen_state _ _ _.
have [e1 e2] := seenE a; have sb : sized m (data b) by case: (fits_build (um EOK) (seen_fits EOK ini cur)) => _; rewrite -/b; under eq_sized => k hk do rewrite data_build hk.
have := @C24_unflatten_exact A F m x (um EOK); rewrite tot => -[ps [eu fp gp]].
have [ep sp] := fits_build (utm EOK) fp.
rewrite /flatten_func eu /user e1 e2 -/b /= ep override_build // networkE //; congr (nt _ _); apply: eq_build => k _.
case: ifP => // hk; have u := utm EOK.
have sz k' : size (data ps k') = size (data (weights E b) k').
  case hk': (k' \in dkeys tm); last by rewrite !data_out //; rewrite ?dkeys_weights ?hk' // ep dkeys_build hk'.
  rewrite (sized_vol u sp hk') data_weights // (sized_vol (um EOK) sb (sub_trainable hk')).
  have : forall m1 : arch A, uniq (dkeys m1) -> k' \in dkeys (trainable m1) -> dget (trainable m1) k' = dget m1 k'.
    elim=> // -[c q] m1 IH /= /andP [nc u1]; case: (p_grad q) => /= hk1; rewrite !dget_cons.
      by move: hk1; rewrite inE eq_sym; case: (c =P k') => //= _ /IH ->.
    case: (c =P k') => [ck1|_]; last exact: IH.
    by move: nc; rewrite ck1 (trainable_sub hk1).
  by move/(_ m (um EOK) hk') ->.
rewrite -(eq_part _ _ _ sz) -[LHS](part_gather ps u hk) gp -{2}(cat_take_drop (total m) x) -gp.
have := offset_le ps hk; rewrite -size_gather /part; move: (gather _ _) (offset _ _ _) (size _) => g o n.
move=> hon; rewrite drop_cat; case: ltnP => ho; last by rewrite (_ : n = 0) ?take0 //; lia.
rewrite take_cat size_drop; case: ltnP => // h2; rewrite (_ : n - (size g - o) = 0) ?take0 ?cats0; last lia.
by rewrite take_oversize // size_drop; lia.
Qed.
Theorem C64_all_parameters h t dims c x : total m <= size x ->
  let cur := last_loaded E h in
  let r := get_grad E t (history h) dims None c in
  exists2 f, r.2 = Ok f &
    (call r.1 f x).2
    = gradv dims (fun a => if a is Flat w
                           then net t (seen_mode E mode0 cur)
                                  (network E (seen_state E init cur) (seen_state E init cur) (dkeys tm) w)
                           else Err AttributeError) (Flat x).
Proof.
move=> tot cur r; rewrite /r (arunE dot E lossn targetn gradv mode0 init (fun=> Err ValueError) (fun=> Err ValueError)).
have aa := amb_run dot gradv EOK ini (rcons h (OGrad F t dims None c)) (fun=> Err ValueError) (fun=> Err ValueError).
set s := (run _ _ _ _ _ _ h).1.
have [f e [f1 f2 f3]] := @plain_get A F I E t s dims c (plain_run dot E _ _ gradv init h).
exists f => //; rewrite /acall /call_fn f1 f2 f3 /= userT; apply: lg => w sw.
apply: flat_network; rewrite ?sw //.
move: aa; rewrite /last_loaded -cats1 foldl_cat /= -/(last_loaded E h) -/cur /run foldl_cat /=.
by rewrite -/(run dot E _ _ gradv (task_init E init) h) /s; case: (run _ _ _ _ _ _ h).
Qed.

(* ---- functions over some layers: requesting them loads the checkpoint *)
Theorem C64_layers h t dims l c ck x :
  evaluations E (at_checkpoint E) h -> checkpoint E c = Some ck ->
  selection (weights E ck) (names_of l) -> total_of (weights E ck) (names_of l) <= size x ->
  let mode := if te_fresh E then mode0 else false in
  let base := if te_fresh E then init else ck in
  (exists2 f, (get_grad E t (history h) dims (Some l) (Some c)).2 = Ok f &
     (call (get_grad E t (history h) dims (Some l) (Some c)).1 f x).2
     = gradv dims (fun a => if a is Flat w then net t mode (network E base ck (names_of l) w)
                            else Err AttributeError) (Flat x))
  /\ (exists2 f, (get_func E t (history h) (Some l) (Some c)).2 = Ok f &
     (call (get_func E t (history h) (Some l) (Some c)).1 f x).2
     = net t mode (network E base ck (names_of l) x)).
Proof.
move=> ev hc sl tot mode base.
set nf : params -> res R := fun=> Err ValueError.
have okk := checkpoint_ok EOK hc.
have sub : {subset names_of l <= dkeys tm} by case: sl => _; rewrite dkeys_weights.
have sm c' : c' = Some c -> seen_mode E mode0 c' = mode /\ base = seen_state E init c'.
  by move=> ->; rewrite /seen_mode /seen_state /base /mode hc; case: (te_fresh E).
rewrite (arunE dot E lossn targetn gradv mode0 init nf nf).
have [gc [V _]] := run_inv dot EOK (Q := QA E) nf nf gradv ini (evaluations_imp (@okA _ _ _ E) ev).
have ll o : loads o = Some c -> last_loaded E (rcons h o) = Some c.
  by move=> e; rewrite /last_loaded -cats1 foldl_cat /= e hc.
split.
  have aa := amb_run dot gradv EOK ini (rcons h (OGrad F t dims (Some l) (Some c))) nf nf.
  have [gc' [V']] := get_grad_inv EOK t dims (Some l) (Some c) V; rewrite /= hc /=.
  move: aa; rewrite ll //; rewrite /run -cats1 foldl_cat /= -/(run dot E nf nf gradv (task_init E init) h).
  rewrite {1}(surjective_pairing (run _ _ _ _ _ _ h)) /=.
  set r := get_grad _ _ _ _ _ _ => aa.
  case=> f [-> ft fg [d [c' [[<-] hd hgc fp]]] cu]; exists f => //.
  rewrite /acall /call_fn fp fg ft /=; apply: lg => w sw; rewrite (i_gc V') in hd.
  have [<- eb] := sm _ erefl; rewrite -(userE (net t) w aa eb okk sub) -userT.
  apply: (part_value EOK _ _ _ V' hd) => //; rewrite ?hgc ?sw //; first by right; exact: cu.
  by move=> k y _; apply.
have aa := amb_run dot gradv EOK ini (rcons h (OFunc F I t (Some l) (Some c))) nf nf.
have [gc' [V']] := get_func_inv EOK t (Some l) (Some c) V; rewrite /= hc /=.
move: aa; rewrite ll //; rewrite /run -cats1 foldl_cat /= -/(run dot E nf nf gradv (task_init E init) h).
rewrite {1}(surjective_pairing (run _ _ _ _ _ _ h)) /=.
set r := load_ckpt _ _ _ => aa.
case=> f [-> ft fg [d [c' [[<-] hd hgc fp]]] cu]; exists f => //.
rewrite /acall /call_fn fp fg ft /=; rewrite (i_gc V') in hd.
have [<- eb] := sm _ erefl; rewrite -(userE (net t) x aa eb okk sub) -userT.
apply: (part_value EOK _ _ _ V' hd) => //; rewrite ?hgc //; first by right; exact: cu.
by move=> k y _; apply.
Qed.

(* ---- the loop over checkpoints of the attributors *)
Definition layers_of (l : option (lname A)) : seq (name A) := if l is Some l' then names_of l' else dkeys tm.

Lemma ev_rcons P h (o : op A F I) : evaluations E P h ->
  (forall i v, o = OCall A I i v -> i < size (obtained E h) ->
    forall l c, nth (None, None) (obtained E h) i = (Some l, Some c) -> P c (names_of l) v) ->
  evaluations E P (rcons h o).
Proof.
move=> ev H h1 i v h2; case/lastP: h2 => [|h2 o'].
  by rewrite cats1 => /rcons_inj [<- e]; apply: H.
by rewrite -rcons_cons -rcons_cat => /rcons_inj [eh _]; exact: (ev h1 i v h2 eh).
Qed.
Lemma arun_rcons h o : arun dot E lossn targetn gradv mode0 init (rcons h o)
  = astep dot E lossn targetn gradv mode0 (arun dot E lossn targetn gradv mode0 init h) o.
Proof. by rewrite /arun -cats1 foldl_cat. Qed.
Lemma network_base b ck w : ckpt_ok m ck -> sized m (data b) ->
  network E b b (dkeys tm) w = network E b ck (dkeys tm) w.
Proof.
move=> ok sb; rewrite !networkE //; apply: eq_build => k _; case: ifP => // hk; rewrite hk; apply: eq_part => k'.
rewrite [RHS](weights_size EOK _ ok); case hk': (k' \in dkeys tm); last by rewrite data_out // dkeys_weights hk'.
by rewrite data_weights // (sized_vol (um EOK) sb (sub_trainable hk')).
Qed.

Theorem C64_sweep h t dims l cs :
  evaluations E (at_checkpoint E) h ->
  ~~ te_fresh E \/ (all (fun p => p_grad p.2) (te_arch E) /\ mode0 = false) ->
  (forall c, c \in cs -> checkpoint E c <> None) ->
  uniq (layers_of l) -> {subset layers_of l <= dkeys tm} -> layers_of l <> [::] ->
  sweep dot E lossn targetn gradv mode0 t dims l (history h) cs
  = [seq (if checkpoint E c is Some ck then
            gradv dims (fun a => if a is Flat w then net t false (network E ck ck (layers_of l) w)
                                 else Err AttributeError) (Flat (gather (weights E ck) (layers_of l)))
          else Err IndexError) | c <- cs].
Proof.
move=> ev fr hcs u sub ne; elim: cs h ev hcs => // c cs IH h ev hcs.
have := hcs c; rewrite inE eqxx => /(_ isT); case hc: (checkpoint E c) => [ck|] // _.
rewrite [sweep _ _ _ _ _ _ _ _ _ _ _]/= [map _ _]/= hc.
have okk := checkpoint_ok EOK hc.
set v := gather _ _.
set h' := rcons h (OParam F I (Some c) l false None).
have ev' : evaluations E (at_checkpoint E) h' by apply: ev_rcons.
have e1 : get_param dot E (history h) (Some c) l false None = (history h', Ok (PFlat v)).
  rewrite [LHS]surjective_pairing /h' arun_rcons; case ea: (arun _ _ _ _ _ _ _ h) => [s0 fs0].
  congr (_, _).
  have := C26_get_param dot (fun=> Err ValueError) (fun=> Err ValueError) gradv EOK ini l false None ev hc.
  rewrite -(arunE dot E lossn targetn gradv mode0 init) ea => ->.
  rewrite /param_spec; have -> : selected (weights E ck) l = layers_of l.
    case: (l) u sub => [l'|] /= u' sub'; last by rewrite dkeys_weights.
    have hf : all (mem (dkeys (weights E ck))) (names_of l') by apply/allP => k hk; rewrite /= dkeys_weights; exact: sub'.
    by rewrite (all_filterP hf) first_occ_id.
  by rewrite /v /gather; case: (layers_of l) ne.
set s1 := history h' in e1 *.
have [f ef val] : exists2 f, (get_grad E t s1 dims l (Some c)).2 = Ok f &
   (call (get_grad E t s1 dims l (Some c)).1 f v).2
   = gradv dims (fun a => if a is Flat w then net t false (network E ck ck (layers_of l) w)
                                 else Err AttributeError) (Flat v).
  have init_sized : sized m (data init) by case: (fits_build (um EOK) ini).
  have all_net b w : all (fun p => p_grad p.2) (te_arch E) -> network E b ck (layers_of l) w = network E ck ck (layers_of l) w.
    by rewrite /network; elim: (te_arch E) => // -[k q] m' IH' /= /andP [-> /IH' ->].
  have ll : last_loaded E h' = Some c by rewrite /last_loaded /h' -cats1 foldl_cat /= hc.
  case el: l u sub ne => [l'|] u' sub' ne'.
    have sl : selection (weights E ck) (names_of l') by split=> //; rewrite dkeys_weights.
    have tot : total_of (weights E ck) (names_of l') <= size v by rewrite /v el size_gather.
    have [[f ef val] _] := C64_layers t dims ev' hc sl tot; exists f => //; rewrite {}val.
    apply: lg => w sw; case: fr => [/negbTE ->//|[ap ->]]; rewrite if_same; case: (te_fresh E) => //.
    by have := all_net init w ap; rewrite el => ->.
  have tot : total m <= size v.
    have fw : fits tm (weights E ck).
      by apply: build_fits; apply: (vol_sized EOK) => k hk; rewrite (ckpt_vol EOK okk) // (sub_trainable hk).
    have nt : trainable m <> [::] by case: EOK.
    by have [_ [<- _]] := C24_roundtrip (um EOK) nt fw; rewrite /v el.
  have [f ef val] := C64_all_parameters h' t dims (Some c) tot; exists f => //; rewrite {}val ll.
  apply: lg => w sw; rewrite /seen_mode /seen_state hc.
  case: fr => [/negbTE ->|[ap ->]]; first by [].
  case: (te_fresh E) => //=; rewrite (network_base w okk init_sized).
  by have := all_net init w ap; rewrite el => ->.
have e2 : at_ckpt dot E lossn targetn gradv mode0 t dims l (history h) c
   = call (get_grad E t s1 dims l (Some c)).1 f v.
  by rewrite /at_ckpt e1 ef.
rewrite e2 val; congr (_ :: _).
set h3 := rcons (rcons h' (OGrad F t dims l (Some c)))
            (OCall A I (size (arun dot E lossn targetn gradv mode0 init h').2) v).
have e3 : history h3 = (call (get_grad E t s1 dims l (Some c)).1 f v).1.
  rewrite /h3 (arun_rcons (rcons h' _)) (arun_rcons h'); move: ef; rewrite /s1; case: (arun _ _ _ _ _ _ _ h') => s2 fs2 /= ef.
  by rewrite /astep /= ef size_rcons ltnSn nth_rcons ltnn eqxx.
rewrite -e3 IH //; last by move=> c' hc'; apply: hcs; rewrite inE hc' orbT.
rewrite /h3; apply: ev_rcons; first exact: ev_rcons.
move=> i v' [<- <-] _ l0 c0.
have -> : size (arun dot E lossn targetn gradv mode0 init h').2 = size (obtained E h').
  set nf : params -> res R := fun=> Err ValueError.
  rewrite (arunE dot E lossn targetn gradv mode0 init nf nf).
  by have [gc [_ [-> _]]] := run_inv dot EOK (Q := QA E) nf nf gradv ini (evaluations_imp (@okA _ _ _ E) ev').
rewrite /obtained -(cats1 h') map_cat flatten_cat -/(obtained E h') nth_cat ltnn subnn /=.
rewrite /v; case: (l) u sub => [l'|] //= u' sub'; rewrite hc /= => -[<- <-].
by exists ck; split=> //; split=> //; rewrite dkeys_weights.
Qed.
End Amb.

(* ---- examples and refutations, on the task of TaskProps: the third entry is frozen (or a buffer); the two checkpoints
   hold 7 and 8 there, the user's model 0 *)
Definition xnet (b : bool) (ps : params [eqType of nat] nat) : res (bool * params [eqType of nat] nat) := Ok (b, ps).
Definition ygrad (dims : bool) (f : arg nat -> res (bool * params [eqType of nat] nat)) (a : arg nat) := f a.
Lemma ylocal : local_grad ygrad.
Proof. by move=> dims f1 f2 v H; apply: H. Qed.
Definition xsweep fresh mode0 l h cs :=
  sweep 0 (xenv fresh) xnet xnet ygrad mode0 true true l
    (arun 0 (xenv fresh) xnet xnet ygrad mode0 (xfull 0 0 0 0 0) h).1 cs.
Example C64_sweep_ex l : l = None \/ l = Some Lw ->
  xsweep false true l xhist [:: 0%R; Negz 0; 0%R]
  = [:: Ok (false, xfull 10 11 12 7 13); Ok (false, xfull 20 21 22 8 23); Ok (false, xfull 10 11 12 7 13)]
  /\ [/\ uniq (layers_of (xenv false) l), {subset layers_of (xenv false) l <= dkeys (trainable xarch)}
        & layers_of (xenv false) l <> [::]].
Proof.
case=> ->; split=> //; split=> // k; by rewrite !inE => /eqP ->.
Qed.
Example C64_fresh_ex : xsweep true true None xhist [:: 0%R; 1%R]
  = [:: Ok (true, xfull 10 11 12 0 13); Ok (true, xfull 20 21 22 0 23)].
Proof. by []. Qed.
(* hence not, if loading creates new model objects, as in the documentation of checkpoints_load_func: frozen
   parameters, buffers and mode of the user's own model are used for every checkpoint *)
Theorem C64_fresh_refuted :
  ~ (forall h l cs, evaluations (xenv true) (at_checkpoint (xenv true)) h ->
      (forall c, c \in cs -> checkpoint (xenv true) c <> None) ->
      xsweep true false l h cs
      = [seq (if checkpoint (xenv true) c is Some ck
              then xnet false (network (xenv true) ck ck (layers_of (xenv true) l)
                                 (gather (weights (xenv true) ck) (layers_of (xenv true) l)))
              else Err IndexError) | c <- cs]).
Proof.
move=> H.
have e0 : evaluations (xenv true) (at_checkpoint (xenv true)) [::] by move=> [|? ?].
have c0 : forall c : int, c \in [:: 0%R] -> checkpoint (xenv true) c <> None by move=> c; rewrite inE => /eqP ->.
by have := H [::] None [:: 0%R] e0 c0.
Qed.
(* a function over all parameters requested for checkpoint 0 and evaluated at its parameters sees the frozen
   parameters of whatever was loaded before, or of the untrained model, in training mode *)
Theorem C64_unloaded_refuted :
  ~ (forall h c ck f, evaluations (xenv false) (at_checkpoint (xenv false)) h ->
      checkpoint (xenv false) c = Some ck ->
      let r := get_grad (xenv false) false (arun 0 (xenv false) xnet xnet ygrad true (xfull 0 0 0 0 0) h).1 true None (Some c) in
      r.2 = Ok f ->
      (acall (xenv false) xnet xnet ygrad true r.1 f (gather (weights (xenv false) ck) (dkeys (trainable xarch)))).2
      = xnet false (network (xenv false) ck ck (dkeys (trainable xarch))
                      (gather (weights (xenv false) ck) (dkeys (trainable xarch))))).
Proof.
move=> H.
have e0 : evaluations (xenv false) (at_checkpoint (xenv false)) [::] by move=> [|? ?].
by have := H [::] 0%R (xfull 10 11 12 7 13) (Fn false (Some true) None) e0 erefl erefl.
Qed.
Example C64_unloaded_ex :
  let r := get_grad (xenv false) false (arun 0 (xenv false) xnet xnet ygrad true (xfull 0 0 0 0 0)
             [:: xOParam (Some 1%R) None false None]).1 true None (Some 0%R) in
  (acall (xenv false) xnet xnet ygrad true r.1 (Fn false (Some true) None) [:: 10; 11; 12; 13]).2
  = Ok (false, xfull 10 11 12 8 13).
Proof. by []. Qed.
Print Assumptions C64_all_parameters. Print Assumptions C64_layers. Print Assumptions C64_sweep.
Print Assumptions C64_fresh_refuted. Print Assumptions C64_unloaded_refuted.
