(* C65: the memory behind a task: tied weights, live state dicts, views, and changes by the user. *)
Set Warnings "-notation-overridden,-ambiguous-paths".
From mathcomp Require Import all_ssreflect zify.
From Verif Require Import Py Dict LiveModel LiveSpec LiveProof.
Set Implicit Arguments. Unset Strict Implicit. Unset Printing Implicit Defensive.

Section Props.
Variables (N : eqType) (V : Type) (mdl : dict N nat) (grad : nat -> bool).
Hypothesis um : uniq (dkeys mdl).
Local Notation cell := (cell mdl).
Local Notation group := (group mdl).
Local Notation names := (names mdl).
Local Notation firsts := (firsts mdl grad).
Local Notation loaded := (loaded mdl).
Local Notation complete := (@complete N V mdl).
Local Notation consistent := (@consistent N V mdl).
Local Notation get_flat := (get_flat mdl grad).
Local Notation get_split := (get_split mdl grad).
Local Notation run := (run mdl grad).

Definition below (q : option nat) (n : nat) : bool := if q is Some k then k < n else true.

Lemma load_cks (s : st N V) c : cks (load mdl s c).1 = cks s.
Proof. by rewrite /load; do 2 case: ifP => _ //. Qed.
Lemma load_held (s : st N V) c : held (load mdl s c).1 = held s.
Proof. by rewrite /load; do 2 case: ifP => _ //. Qed.
Lemma load_cur (s : st N V) c : below (cur s) (size (cks s)) ->
  cur (load mdl s c).1 = if c < size (cks s) then Some c else cur s.
Proof.
move=> h; rewrite /load; case: (cur s =P Some c) => [e|_]; last by case: ifP.
by move: h; rewrite e /= => ->.
Qed.

Lemma run_cks (m : mem V) (cs : seq (ckpt N V)) (h : seq (op N V)) : cks (run (init m cs) h) = entries cs h.
Proof.
suff K : forall s, cks (run s h) = entries (cks s) h by rewrite K.
rewrite /LiveModel.run; elim: h => [//|o h IH] s; rewrite [foldl _ _ _]/= IH /entries /=; congr foldl.
case: o => [c|c|a v|i ck|ck] //=.
- exact: load_cks.
- by rewrite /LiveModel.get_split; case: (load mdl s c).2 => [[]|e] /=; apply: load_cks.
- by case: ifP.
Qed.
Lemma run_cur (m : mem V) (cs : seq (ckpt N V)) (h : seq (op N V)) : cur (run (init m cs) h) = latest (size cs) h /\
  below (latest (size cs) h) (size (entries cs h)).
Proof.
rewrite /LiveModel.run /latest /entries.
have: cur (init m cs) = (size cs, @None nat).2 by [].
have: below (size cs, @None nat).2 (size cs) by [].
have: (size cs, @None nat).1 = size cs by [].
have: cks (init m cs) = cs by [].
move: (init m cs) (size cs, None) => s kc; elim: h s kc cs => [|o h IH] s [k q] cs /= es ek hq eq.
- by rewrite eq; split.
- case: o => [c|c|a v|i ck|ck] /=.
  + apply: IH => //=; first by rewrite load_cks.
      by rewrite ek; case: ifP.
    by rewrite load_cur ?es ?eq ?ek //; rewrite -ek in hq *.
  + apply: IH => //=.
    * by rewrite /LiveModel.get_split; case: (load mdl s c).2 => [[]|e] /=; rewrite load_cks.
    * by rewrite ek; case: ifP.
    * have -> : cur (get_split s c).1 = cur (load mdl s c).1.
        by rewrite /LiveModel.get_split; case: (load mdl s c).2.
      by rewrite load_cur ?es ?eq ?ek.
  + exact: IH.
  + apply: IH => //=; rewrite ?es.
    * by case: ifP => //=; rewrite es.
    * by case: ifP => // hi; rewrite size_set_nth (maxn_idPr hi).
    * by case: ifP => // hi; rewrite size_set_nth (maxn_idPr hi).
    * by case: ifP.
  + apply: IH => //=; rewrite ?es ?size_rcons ?ek //.
    by case: (q) hq => //= x hx; rewrite ltnS ltnW.
Qed.

Definition vec (f : N -> V) : res (seq V) := if firsts is [::] then Err StopIteration else Ok [seq f n | n <- firsts].
Lemma flat_vec (s : st N V) c r : load mdl s c = (r, Ok tt) -> get_flat s c = (r, vec (fun n => mm r (cell n))).
Proof.
move=> e; rewrite /LiveModel.get_flat e /= namedE // /vec -map_comp.
by case: firsts.
Qed.
Lemma vec_eq f g : {in names, f =1 g} -> vec f = vec g.
Proof.
move=> h; rewrite /vec; have <- : [seq f n | n <- firsts] = [seq g n | n <- firsts] => //.
by apply/eq_in_map => n /firsts_names /h.
Qed.

(* A checkpoint that is not the current one is loaded completely, whatever happened before: the user may have
   trained the model or changed the list. *)
Theorem C65_reload m cs h c ck val : let s := run (init m cs) h in
  latest (size cs) h != Some c -> c < size (entries cs h) -> nth [::] (entries cs h) c = ck -> complete ck val ->
  [/\ (get_flat s c).2 = vec (loaded val), {in names, forall n, mm (get_flat s c).1 (cell n) = loaded val n}
    & cur (get_flat s c).1 = Some c].
Proof.
move=> s hl hc hn ok; have [ec _] := run_cur m cs h; rewrite -/s in ec.
have el : load mdl s c = (St (load_sd mdl ck (mm s)) (Some c) (cks s) (held s), Ok tt).
  by rewrite /load ec (negbTE hl) run_cks hc hn.
rewrite (flat_vec el) /=; split=> // [|n nn]; last by rewrite (load_sdE um _ ok nn).
by apply: vec_eq => n nn; rewrite (load_sdE um _ ok nn).
Qed.

(* While no other checkpoint is asked for, the task returns what the model holds: the checkpoint as it was when it
   was loaded, changed by the user's own writes; a replaced list entry is not looked at. *)
Lemma step_same c (s : st N V) o : cur s = Some c -> asks c o ->
  cur (step mdl grad s o) = Some c /\
  forall n, mm (step mdl grad s o) (cell n) = (if o is Write a x then if a == cell n then x else mm s (cell n) else mm s (cell n)).
Proof.
move=> ec; have el : load mdl s c = (s, Ok tt) by rewrite /load ec eqxx.
case: o => [c'|c'|a x|i ck|ck] /=.
- by move/eqP => ->; rewrite el.
- by move/eqP => ->; rewrite /LiveModel.get_split el.
- by move=> _; split=> // n; rewrite /upd eq_sym.
- by move=> _; case: ifP.
- by [].
Qed.
Lemma run_same c h (s : st N V) : cur s = Some c -> only c h ->
  cur (run s h) = Some c /\ forall n, mm (run s h) (cell n) = written mdl h n (mm s (cell n)).
Proof.
rewrite /LiveModel.run /written; elim: h s => [//|o h IH] s ec /= /andP [ho hh].
have [ec' em] := step_same ec ho; have [-> e] := IH _ ec' hh; split=> // n.
by rewrite e em.
Qed.
Theorem C65_current m cs h c ck val h' : let s := run (run (init m cs) (rcons h (Param N V c))) h' in
  latest (size cs) h != Some c -> c < size (entries cs h) -> nth [::] (entries cs h) c = ck -> complete ck val ->
  only c h' -> get_flat s c = (s, vec (fun n => written mdl h' n (loaded val n))).
Proof.
move=> s hl hc hn ok ho.
have [_ em ec] := C65_reload m hl hc hn ok.
have e0 : run (init m cs) (rcons h (Param N V c)) = (get_flat (run (init m cs) h) c).1.
  by rewrite /LiveModel.run -cats1 foldl_cat.
rewrite /s e0; have [ec' e'] := run_same ec ho.
rewrite (@flat_vec _ c (run (get_flat (run (init m cs) h) c).1 h')); last by rewrite /load ec' eqxx.
by congr pair; apply: vec_eq => n nn; rewrite e' em.
Qed.

(* If the user leaves the model and the entries alone, a request always gives the checkpoint of its index. *)
Lemma quiet_inv m cs h : quiet h -> let s := run (init m cs) h in
  forall c val, cur s = Some c -> complete (nth [::] (entries cs h) c) val -> {in names, forall n, mm s (cell n) = loaded val n}.
Proof.
elim/last_ind: h => [_ s c val //|h o IH].
rewrite /quiet all_rcons => /andP [ho hq] c val; set s := run (init m cs) (rcons h o) => ec ok n nn.
have hs : s = step mdl grad (run (init m cs) h) o by rewrite /s /LiveModel.run -cats1 foldl_cat.
have he : entries cs (rcons h o) = if o is Append ck then rcons (entries cs h) ck else entries cs h.
  by move: ho; rewrite /entries -cats1 foldl_cat /=; clear; case: o.
have [e0 b0] := run_cur m cs h; move: IH => /(_ hq) IH.
have L c' : (load mdl (run (init m cs) h) c').2 = Ok tt -> cur (load mdl (run (init m cs) h) c').1 = Some c ->
    complete (nth [::] (entries cs h) c) val -> mm (load mdl (run (init m cs) h) c').1 (cell n) = loaded val n.
  rewrite /load; case: (cur _ =P _) => [e _ /= ec' ok'|_]; first exact: (IH _ _ ec' ok' n nn).
  by case: ifP => //= _ _ [->] ok'; rewrite run_cks (load_sdE um _ ok' nn).
have Lx c' e : (load mdl (run (init m cs) h) c').2 = Err e -> (load mdl (run (init m cs) h) c').1 = run (init m cs) h.
  by rewrite /load; do 2 case: ifP => //.
move: ec ok; rewrite hs he; case: o {hs he s} ho => [c'|c'|//|//|ck] _ /=.
- case e: (load mdl (run (init m cs) h) c').2 => [[]|x] ec ok; first exact: L.
  by move: ec; rewrite (Lx _ _ e) => ec; exact: (IH _ _ ec ok n nn).
- rewrite /LiveModel.get_split; case e: (load mdl (run (init m cs) h) c').2 => [[]|x] /= ec ok; first exact: L.
  by move: ec; rewrite (Lx _ _ e) => ec; exact: (IH _ _ ec ok n nn).
- move=> ec; move: b0; rewrite -e0 ec /= => hc; rewrite nth_rcons hc => ok; exact: (IH _ _ ec ok n nn).
Qed.
Theorem C65_params m cs h c val : let s := run (init m cs) h in
  quiet h -> c < size (entries cs h) -> complete (nth [::] (entries cs h) c) val ->
  (get_flat s c).2 = vec (loaded val) /\ {in names, forall n, mm (get_flat s c).1 (cell n) = loaded val n}.
Proof.
move=> s hq hc ok; have [e0 b0] := run_cur m cs h.
case: (latest (size cs) h =P Some c) => [e|/eqP ne]; last by have [] := C65_reload m ne hc erefl ok.
have ec : cur s = Some c by rewrite e0.
rewrite (@flat_vec s c s) /=; last by rewrite /load ec eqxx.
have q := quiet_inv hq ec ok; split=> //.
by apply: vec_eq => n nn; apply: q.
Qed.

(* The vector has one entry for each trainable tensor, however many names it has. *)
Theorem C65_count : size firsts = size (undup [seq cell n | n <- names & grad (cell n)]).
Proof.
rewrite -(size_map cell); apply/perm_size/uniq_perm; last first.
- move=> a; rewrite mem_undup; apply/mapP/mapP => -[n hn ->].
    by exists n => //; move: hn; rewrite !mem_filter => /andP [/andP [_ ->]].
  move: hn; rewrite mem_filter => /andP [g nn]; exists (head n (group n)); first exact: first_in.
  by apply/esym/group_cell; move: (mem_group nn); case: (group n) => // x r _; rewrite inE eqxx.
- exact: undup_uniq.
- by rewrite map_inj_in_uniq ?firsts_uniq // => x y; apply: firsts_inj.
Qed.

(* The function evaluated at a vector sees its entries at every name of the tensors, frozen ones from the model. *)
Theorem C65_network (s : st N V) (d : V) v : size v = size firsts ->
  network mdl grad s v = Ok [seq (n, if grad (cell n) then nth d v (index (head n (group n)) firsts) else mm s (cell n))
                            | n <- names].
Proof.
move=> hv; rewrite /network namedE // -map_comp map_id /fcall.
have zf q : List.In q (zip firsts v) -> q.1 \in firsts.
  move: hv; elim: firsts v => [|y fs IH] [|a v] //= [hv] [<-|hq]; rewrite inE ?eqxx //.
  by rewrite (IH v) ?orbT.
have -> : clash mdl (zip firsts v) = false.
  apply/negP; rewrite /clash => /has_In [q hq /has_In [q' hq' /andP [ne]]].
  rewrite tiedE ?(firsts_names (zf _ hq)) ?(firsts_names (zf _ hq')) // => /eqP e.
  by move/eqP: ne; case; apply: firsts_inj (zf _ hq) (zf _ hq') e.
congr Ok; rewrite /LiveSpec.names /dkeys -map_comp; apply/eq_in_map => p pm /=; congr pair.
have pn := mem_name pm; rewrite (mem_cell um pm).
case g: (grad p.2).
  rewrite (@zip_pick N V d (fun x => tied mdl x p.1) (head p.1 (group p.1))) ?firsts_uniq //.
    by apply: first_in; rewrite ?(mem_cell um pm).
  move=> y yf; rewrite tiedE ?(firsts_names yf) //.
  have hf : head p.1 (group p.1) \in firsts by apply: first_in; rewrite ?(mem_cell um pm).
  have hc : cell (head p.1 (group p.1)) = cell p.1.
    by apply: group_cell; move: (mem_group pn); case: (group p.1) => // x r _; rewrite inE eqxx.
  apply/eqP/eqP => [e|->//]; apply: firsts_inj yf hf _; by rewrite hc.
rewrite (@zip_none N V (fun x => tied mdl x p.1)) // => y yf; rewrite tiedE ?(firsts_names yf) //.
apply/eqP => e; move: yf; rewrite mem_filter => /andP [/andP [_]].
by rewrite e (mem_cell um pm) g.
Qed.

(* Together: with checkpoints that agree on tied names the function computes with exactly the checkpoint asked for. *)
Theorem C65_checkpoint m cs h c val v : let s := run (init m cs) h in
  quiet h -> c < size (entries cs h) -> complete (nth [::] (entries cs h) c) val -> consistent val ->
  (get_flat s c).2 = Ok v ->
  v = [seq val n | n <- firsts] /\ network mdl grad (get_flat s c).1 v = Ok [seq (n, val n) | n <- names].
Proof.
move=> s hq hc ok co; have [-> em] := C65_params m hq hc ok.
rewrite (vec_eq (g := val)) => [|n nn]; last exact: loaded_consistent.
rewrite /vec; case ef: firsts => [//|x r] [<-]; rewrite -[val x :: _]/(map val (x :: r)) -ef; split=> //.
rewrite (C65_network _ (val x)) ?size_map //; congr Ok; apply/eq_in_map => n nn; congr pair.
case: ifP => [g|_]; last by rewrite em // loaded_consistent.
have hf := first_in nn g; rewrite (nth_map x) ?index_mem // nth_index //.
have hg : head n (group n) \in group n.
  by move: (mem_group nn); case: (group n) => // y t _; rewrite inE eqxx.
by apply: co; [exact: group_names hg|by []|exact: group_cell hg].
Qed.

(* An entry that is the model's own state dict, not copied, holds no parameters of its own: asking for it gives
   those of the checkpoint loaded before. *)
Theorem C65_live m cs h c c' : let s := run (init m cs) h in
  nth [::] (entries cs h) c = own_dict V mdl -> c < size (entries cs h) -> latest (size cs) h = Some c' ->
  (get_flat s c).2 = (get_flat s c').2.
Proof.
move=> s hn hc hl; have [e0 _] := run_cur m cs h; rewrite -/s hl in e0.
rewrite (@flat_vec s c' s); last by rewrite /load e0 eqxx.
case: (c' =P c) => [e|ne].
  by rewrite (@flat_vec s c s) // /load e0 e eqxx.
rewrite (@flat_vec s c (St (load_sd mdl (own_dict V mdl) (mm s)) (Some c) (cks s) (held s))) /=; last first.
  rewrite /load e0 run_cks hc hn; case: eqP => // -[e]; by case: ne.
by apply: vec_eq => n _; apply: load_own.
Qed.

(* A tuple from layer_split=True keeps no values: read at any later time it has the parameters that a request for
   the current checkpoint returns at that time. *)
Theorem C65_split (m : mem V) cs h i c : let s := run (init m cs) h in
  i < size (held s) -> latest (size cs) h = Some c -> firsts != [::] ->
  get_flat s c = (s, Ok (read_tuple s i)).
Proof.
move=> s hi hl hf; have [e0 _] := run_cur m cs h; rewrite -/s hl in e0.
have K : forall x, x \in held s -> x = [seq cell n | n <- firsts].
  rewrite /s /LiveModel.run; elim/last_ind: (h) => [//|h' o IH] x.
  rewrite -cats1 foldl_cat /=; move: (foldl _ _ _) IH => t IH.
  case: o => [b|b|a v|j ck|ck] //=.
  - by rewrite load_held; apply: IH.
  - rewrite /LiveModel.get_split; case: (load mdl t b).2 => [[]|e] /=; rewrite ?load_held; last exact: IH.
    by rewrite mem_rcons inE => /orP [/eqP ->|]; [rewrite namedE // -map_comp|exact: IH].
  - exact: IH.
  - by case: ifP => _; apply: IH.
  - exact: IH.
rewrite (@flat_vec s c s); last by rewrite /load e0 eqxx.
rewrite /read_tuple (K (nth [::] (held s) i)) ?mem_nth // /vec -map_comp.
by move: hf; case: firsts.
Qed.
End Props.

(* Cases: a network with names 0 (embedding), 1 (a frozen buffer), 2 (a layer), 3 (output, tied to 0). *)
Section Cases.
Definition m4 : dict nat_eqType nat := [:: (0, 0); (1, 1); (2, 2); (3, 0)].
Definition g4 (a : nat) : bool := a != 1.
Definition ck4 (f : nat -> nat) : ckpt nat_eqType nat := [seq (n, Saved (f n)) | n <- [:: 0; 1; 2; 3]].
Definition vA (n : nat) : nat := if n == 3 then 10 else 10 + n.
Definition vB (n : nat) : nat := if n == 3 then 20 else 20 + n.
Definition vC (n : nat) : nat := 30 + n.
Example cA : complete m4 (ck4 vA) vA. Proof. by move=> n; rewrite !inE => /or4P [] /eqP ->. Qed.
Example cB : complete m4 (ck4 vB) vB. Proof. by move=> n; rewrite !inE => /or4P [] /eqP ->. Qed.
Example cC : complete m4 (ck4 vC) vC. Proof. by move=> n; rewrite !inE => /or4P [] /eqP ->. Qed.
Example kA : consistent m4 vA.
Proof. by move=> n n'; rewrite !inE => /or4P [] /eqP -> /or4P [] /eqP ->. Qed.
Example f4 : firsts m4 g4 = [:: 0; 2]. Proof. by []. Qed.
Local Notation P := (Param nat_eqType nat).
Local Notation S := (Split nat_eqType nat).
Local Notation go := (run m4 g4).
Local Notation get := (get_flat m4 g4).
Definition two : seq (ckpt nat_eqType nat) := [:: ck4 vA; ck4 vB].
Definition s0 := init (fun _ => 7) two.
(* reading 1 after 0, then 0 again, with an optimiser step in between *)
Example params_case : [seq (get (go s0 h) 0).2 | h <- [:: [::]; [:: P 0]; [:: P 0; P 1]; [:: P 0; S 1; P 5]]] =
  nseq 4 (Ok [:: 10; 12]). Proof. by []. Qed.
Example write_case : (get (go s0 [:: P 0; Write _ 2 99]) 0).2 = Ok [:: 10; 99] /\
  (get (go s0 [:: P 0; Write _ 2 99; P 1]) 0).2 = Ok [:: 10; 12]. Proof. by []. Qed.
Example network_case : network m4 g4 (get s0 0).1 [:: 10; 12] = Ok [:: (0, 10); (1, 11); (2, 12); (3, 10)].
Proof. by []. Qed.
Example clash_case : fcall m4 (get s0 0).1 [:: (0, 1); (3, 2)] = Err ValueError /\
  fcall m4 (get s0 0).1 [:: (3, 2)] = Ok [:: (0, 2); (1, 11); (2, 12); (3, 2)]. Proof. by []. Qed.
Example replace_case : (get (go s0 [:: P 0; Replace 0 (ck4 vC)]) 0).2 = Ok [:: 10; 12] /\
  (get (go s0 [:: P 0; Replace 0 (ck4 vC); P 1]) 0).2 = Ok [:: 33; 32] /\
  (get (go s0 [:: P 0; Append (ck4 vC)]) 2).2 = Ok [:: 33; 32]. Proof. by []. Qed.

(* "The values of a checkpoint are those stored under the parameter's name": not if tied names disagree *)
Theorem C65_tied_refuted : ~ (forall (mdl : dict nat_eqType nat) grad (m : mem nat) ck val v, uniq (dkeys mdl) ->
  complete mdl ck val -> (get_flat mdl grad (init m [:: ck]) 0).2 = Ok v ->
  v = [seq val p.1 | p <- named mdl grad]).
Proof.
by move=> /(_ m4 g4 (fun=> 7) (ck4 vC) vC [:: 33; 32] erefl cC erefl).
Qed.
(* "Asking for a checkpoint always gives the parameters it had when the task was made": not for
   checkpoints = [model.state_dict(), saved] *)
Theorem C65_live_refuted : ~ (forall (mdl : dict nat_eqType nat) grad (m : mem nat) cs h c, uniq (dkeys mdl) -> quiet h ->
  c < size cs -> (get_flat mdl grad (run mdl grad (init m cs) h) c).2 = (get_flat mdl grad (init m cs) c).2).
Proof.
by move=> /(_ m4 g4 (fun=> 7) [:: own_dict nat m4; ck4 vB] [:: P 0; P 1] 0 erefl erefl erefl).
Qed.
(* "A tuple of parameters keeps its values": not if another checkpoint is asked for *)
Theorem C65_split_refuted : ~ (forall (mdl : dict nat_eqType nat) grad (m : mem nat) cs c h, uniq (dkeys mdl) -> quiet h ->
  c < size cs -> let s := (get_split mdl grad (init m cs) c).1 in
  read_tuple (run mdl grad s h) 0 = read_tuple s 0).
Proof. by move=> /(_ m4 g4 (fun=> 7) two 0 [:: P 1] erefl erefl erefl). Qed.
End Cases.

Print Assumptions C65_reload.
Print Assumptions C65_current.
Print Assumptions C65_params.
Print Assumptions C65_count.
Print Assumptions C65_network.
Print Assumptions C65_checkpoint.
Print Assumptions C65_live.
Print Assumptions C65_split.
Print Assumptions C65_tied_refuted.
Print Assumptions C65_live_refuted.
Print Assumptions C65_split_refuted.
