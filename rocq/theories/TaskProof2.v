(* Partial functions over a shared dictionary: one call, and histories. *)
Set Warnings "-notation-overridden,-ambiguous-paths".
From mathcomp Require Import all_ssreflect all_algebra zify.
From Verif Require Import Py Dict TaskModel TaskSpec TaskProof.
Set Implicit Arguments. Unset Strict Implicit. Unset Printing Implicit Defensive.

Section Partial.
Variables (A : eqType) (F : Type).
Local Notation name := (name A).
Local Notation params := (params A F).
Local Notation arch := (arch A).
Implicit Types (m : arch) (ps : params) (L : seq name) (x v : seq F).

Lemma replace_build m ps L x : uniq (dkeys m) -> fits m ps ->
  replace ps L x = build m (fun k => if k \in L then part ps L x k else data ps k).
Proof.
move=> u f; have [e _] := fits_build u f.
rewrite {1}/replace [X in map _ X = _]e /build -map_comp; apply: eq_map => -[a q] /=.
by [].
Qed.

Lemma offset_le ps L k : k \in L -> offset ps L k + size (data ps k) <= total_of ps L.
Proof.
move=> hk; rewrite /offset /total_of -{3}(cat_take_drop (index k L) L) big_cat /= leq_add2l.
by rewrite (drop_nth k) ?index_mem // nth_index // big_cons leq_addr.
Qed.
Lemma size_part ps L x k : k \in L -> total_of ps L <= size x -> size (part ps L x k) = size (data ps k).
Proof.
move=> hk hx; have := offset_le ps hk; rewrite /part size_take size_drop.
case: ltnP => //; lia.
Qed.

(* parts and gather are inverse *)
Lemma part_gather ps L k : uniq L -> k \in L -> part ps L (gather ps L) k = data ps k.
Proof.
move=> u hk; rewrite /part /gather /offset.
have e : L = take (index k L) L ++ k :: drop (index k L).+1 L.
  by rewrite -[in LHS](cat_take_drop (index k L) L) (drop_nth k) ?index_mem // nth_index.
rewrite {3}e map_cat flatten_cat drop_size_cat.
  by rewrite /= take_size_cat.
by rewrite size_flatten /shape -map_comp sumnE big_map.
Qed.
Lemma size_gather ps L : size (gather ps L) = total_of ps L.
Proof. by rewrite /gather size_flatten /shape -map_comp sumnE big_map. Qed.

(* parts depend on the dictionary only through sizes *)
Lemma eq_part ps1 ps2 L x k : (forall k, size (data ps1 k) = size (data ps2 k)) ->
  part ps1 L x k = part ps2 L x k.
Proof.
by move=> h; rewrite /part /offset h; congr (take _ (drop _ _)); apply: eq_bigr => l _; rewrite h.
Qed.
Lemma eq_total_of ps1 ps2 L : (forall k, size (data ps1 k) = size (data ps2 k)) ->
  total_of ps1 L = total_of ps2 L.
Proof. by move=> h; apply: eq_bigr. Qed.

Lemma uniq_trainable m : uniq (dkeys m) -> uniq (dkeys (trainable m)).
Proof.
move=> u; apply: subseq_uniq u; elim: m => //= -[a q] m IH /=.
case: (p_grad q); rewrite /= ?eqxx //.
exact: subseq_trans IH (subseq_cons _ _).
Qed.

Section Call.
Variables (V : Type) (val : name -> V -> tensor F) (mk : tensor F -> V).
Hypothesis val_mk : forall k t, val k (mk t) = t.
Implicit Type full : dict [eqType of name] V.

Definition after full L x := over mk full L (part (view val full) L x).

Lemma loop_after full L x : uniq (dkeys full) -> uniq L -> {subset L <= dkeys full} ->
  partial_loop val mk full L 0 x = (after full L x, Ok tt).
Proof. by move=> *; rewrite loop_over. Qed.

Lemma data_after full L x k : {subset L <= dkeys full} ->
  data (view val (after full L x)) k
  = if k \in L then part (view val full) L x k else data (view val full) k.
Proof. by move=> sub; rewrite data_over //; case hk: (k \in L) => //=; rewrite (sub _ hk). Qed.

Lemma size_after full L x k : {subset L <= dkeys full} -> total_of (view val full) L <= size x ->
  size (data (view val (after full L x)) k) = size (data (view val full) k).
Proof. by move=> sub h; rewrite data_after //; case: ifP => // hk; rewrite size_part. Qed.

Lemma view_flat m full : dkeys full = dkeys m -> uniq (dkeys m) ->
  [seq t_data p.2 | p <- view val full] = [seq data (view val full) p.1 | p <- m].
Proof.
move=> e u.
have E : forall f : name -> seq F, [seq f p.1 | p <- m] = map f (dkeys m) by move=> f; rewrite /dkeys -map_comp.
rewrite E -e; rewrite -e in u; elim: full u {e E} => //= -[a r] full IH /= /andP [na u].
rewrite IH // data_cons /= eqxx; congr (_ :: _); apply/eq_in_map => k hk.
rewrite data_cons /=; by case: (a =P k) na => // ->; rewrite hk.
Qed.

Lemma call_build (R : Type) m (g : params -> res R) full L x :
  uniq (dkeys m) -> dkeys full = dkeys (trainable m) -> trainable m <> [::] ->
  sized (trainable m) (data (view val full)) ->
  uniq L -> {subset L <= dkeys full} -> total_of (view val full) L <= size x ->
  partial_call val mk (fun w => flatten_func m g (Flat w)) full L x
  = (after full L x,
     g (build (trainable m) (fun k => if k \in L then part (view val full) L x k else data (view val full) k))).
Proof.
move=> u ek ne sz uL sub hx.
have ut := uniq_trainable u.
rewrite /partial_call loop_after ?ek //; last by rewrite -ek.
rewrite /= flattenE; last first.
  move=> e; have := congr1 (fun d => size (dkeys d)) e; rewrite dkeys_view dkeys_over ek /= /dkeys size_map.
  by case: (trainable m) ne.
have ka : dkeys (after full L x) = dkeys (trainable m) by rewrite dkeys_over.
have sz' : sized (trainable m) (data (view val (after full L x))).
  by rewrite (@eq_size_sized _ _ _ _ (data (view val full))) // => k _; rewrite size_after.
have := unflatten_build [::] sz'; rewrite cats0 /= (view_flat ka ut) /flatten_func => -> /=.
by congr (_, g _); apply: eq_build => k _; rewrite data_after.
Qed.
End Call.

(* ---- a dictionary of tensors *)
Local Notation tval := (@tval A F).
Lemma view_id (ps : params) : view tval ps = ps.
Proof. by rewrite /view; elim: ps => //= -[a t] ps ->. Qed.

Lemma valid_rcons ps h e : valid ps (rcons h e) ->
  valid ps h /\ (selection ps e.1 /\ total_of ps e.1 <= size e.2).
Proof.
move=> H; split=> [i hi|].
  by have := H i; rewrite size_rcons ltnS nth_rcons hi => /(_ (ltnW hi)).
by have := H (size h); rewrite size_rcons nth_rcons ltnn eqxx; apply.
Qed.

Lemma size_last ps h : valid ps h -> forall k, size (last_value ps h k) = size (data ps k).
Proof.
elim/last_ind: h => // h e IH /valid_rcons [vh [[ue sube] he]] k.
rewrite /last_value -cats1 foldl_cat /= -/(last_value ps h k) -?cats1.
case: ifP => hk; [exact: size_part | exact: IH].
Qed.
Lemma exec_ok ps h : uniq (dkeys ps) -> valid ps h ->
  dkeys (exec ps h) = dkeys ps /\ forall k, data (exec ps h) k = last_value ps h k.
Proof.
move=> u; elim/last_ind: h => // h e IH vh; have [/[dup] vh' /IH [ek ed] [[ue sube] he]] := valid_rcons vh.
rewrite /exec -cats1 foldl_cat /= -/(exec ps h).
rewrite loop_after ?ek //= ; split=> [|k]; first by rewrite /after dkeys_over.
rewrite -[after _ _ _ _ _]view_id data_after ?ek // view_id /last_value foldl_cat /= -/(last_value ps h k).
case: ifP => hk; last exact: ed.
by apply: eq_part => l; rewrite ed size_last.
Qed.

Lemma last_value_in ps h k L : (forall e, List.In e h -> {subset e.1 <= L}) ->
  k \notin L -> last_value ps h k = data ps k.
Proof.
move=> H hk; rewrite /last_value.
elim: h (data ps k) H => //= e h IH v H.
rewrite IH; last by move=> e' he'; apply: H; right.
case: ifP => // he; have /(_ k he) : {subset e.1 <= L} by apply: H; left.
by rewrite (negbTE hk).
Qed.
Lemma last_value_own ps h k : (forall e, List.In e h -> uniq e.1 /\ e.2 = gather ps e.1) ->
  last_value ps h k = data ps k.
Proof.
move=> H; rewrite /last_value.
have : forall v, v = data ps k ->
  foldl (fun v e => if k \in e.1 then part ps e.1 e.2 k else v) v h = data ps k.
  elim: h H => //= e h IH H v ->; apply: IH; first by move=> e' he'; apply: H; right.
  have [u ->] : uniq e.1 /\ e.2 = gather ps e.1 by apply: H; left.
  by case: ifP => // hk; apply: part_gather.
by apply.
Qed.

Lemma current_build m ps h : uniq (dkeys m) -> fits m ps ->
  current ps h = build m (last_value ps h).
Proof.
move=> u f; have [e _] := fits_build u f.
by rewrite {1}/current [X in map _ X = _]e /build -map_comp; apply: eq_map => -[a q].
Qed.

(* ---- a short argument *)
Lemma exec_shrinks ps h : uniq (dkeys ps) ->
  dkeys (exec ps h) = dkeys ps /\ forall k, size (data (exec ps h) k) <= size (data ps k).
Proof.
move=> u; elim/last_ind: h => // h e [ek ed].
rewrite /exec -cats1 foldl_cat /= -/(exec ps h).
have [||e1 e2] := @loop_shrinks A F _ tval id _ (exec ps h) e.1 0 e.2; rewrite ?ek //.
split=> [|k]; first by rewrite e1.
by have := e2 k; rewrite !view_id => h1; apply: leq_trans h1 (ed k).
Qed.

Lemma flat_size_lt (ks : seq name) (f g : name -> seq F) :
  (forall k, size (f k) <= size (g k)) -> (exists2 k, k \in ks & size (f k) < size (g k)) ->
  size (flatten [seq f k | k <- ks]) < size (flatten [seq g k | k <- ks]).
Proof.
move=> le; elim: ks => [[k]|a ks IH [k]] //=; rewrite inE !size_cat => /orP [/eqP ->|hk] lt.
  rewrite -addSn leq_add //; elim: ks {IH} => //= b ks IH; by rewrite !size_cat leq_add.
have := IH (ex_intro2 _ _ k hk lt); have := le a; lia.
Qed.

Lemma short_part ps L x : uniq L -> size x < total_of ps L ->
  exists2 k, k \in L & size (part ps L x k) < size (data ps k).
Proof.
elim/last_ind: L => [|L k IH]; first by rewrite /total_of big_nil.
rewrite rcons_uniq => /andP [kL uL].
have o : offset ps (rcons L k) k = total_of ps L.
  by rewrite /offset -cats1 index_cat (negbTE kL) /= eqxx addn0 take_size_cat.
rewrite {1}/total_of -cats1 big_cat big_seq1 /= -/(total_of ps L) cats1 => hx.
case: (ltnP (size x) (total_of ps L)) => h.
  have [k' hk' hs] := IH uL h; exists k'; first by rewrite mem_rcons inE hk' orbT.
  move: hs; rewrite /part /offset -cats1 index_cat hk' takel_cat //; exact: index_size.
exists k; first by rewrite mem_rcons inE eqxx.
by rewrite /part o size_take size_drop; case: ifP => hh; lia.
Qed.

Lemma short_errors (R : Type) m (g : params -> res R) full L x :
  uniq (dkeys full) -> size (flatten [seq data full k | k <- dkeys full]) < total m ->
  exists e, (partial_call tval id (fun w => flatten_func m g (Flat w)) full L x).2 = Err e.
Proof.
move=> u h; rewrite /partial_call.
have [ek ed] := @loop_shrinks A F _ tval id (fun _ _ => erefl) full L 0 x u.
set r := partial_loop _ _ _ _ _ _ in ek ed *.
case e2: r.2 => [t|e] /=; last by exists e.
rewrite view_id; case e1: r.1 => [|p ps]; first by exists StopIteration.
rewrite flattenE // -e1 /flatten_func /= /unflatten_params unflatten_short; first by exists RuntimeError.
- rewrite add0n total_lE -totalE; apply: leq_ltn_trans h.
  have -> : [seq t_data p0.2 | p0 <- r.1] = [seq data r.1 k | k <- dkeys full].
    rewrite -ek; have : uniq (dkeys r.1) by rewrite ek.
    elim: (r.1) => //= -[a q] d IH /= /andP [na ud]; rewrite IH // data_cons /= eqxx.
    congr (_ :: _); apply/eq_in_map => k hk; rewrite data_cons /=; by case: (a =P k) na => // ->; rewrite hk.
  elim: (dkeys full) => //= k ks IH; rewrite !size_cat leq_add //.
  by have := ed k; rewrite !view_id.
- by [].
Qed.
End Partial.
