(* C63: settings of the training script, blocks of the WikiText data set. *)
Set Warnings "-notation-overridden,-ambiguous-paths".
From Coq Require String.
From mathcomp Require Import all_ssreflect zify.
From Verif Require Import Py Dict ConfModel ConfSpec.
Import String.
Set Implicit Arguments. Unset Strict Implicit. Unset Printing Implicit Defensive.

Lemma split_none (a : word) : eqs \notin a -> split_eq a = [:: a].
Proof. by elim: a => [|c a IH] //=; rewrite inE negb_or eq_sym => /andP [/negbTE -> /IH ->]. Qed.
Lemma split_two (k v : word) : eqs \notin k -> split_eq (k ++ eqs :: v) = k :: split_eq v.
Proof. by elim: k => [|c k IH] //=; rewrite inE negb_or eq_sym => /andP [/negbTE -> /IH ->]. Qed.
Lemma size_split (a : word) : size (split_eq a) = (count_mem eqs a).+1.
Proof. by elim: a => [|c a IH] //=; case: ifP => _ /=; rewrite ?size_behead IH. Qed.
Lemma asg_facts kv : plain kv -> [/\ eqs \in asg kv, dashed (asg kv) & split_eq (asg kv) = [:: dashes ++ kv.1; kv.2]].
Proof.
case: kv => k v /andP [/= nk nv]; split; first by rewrite /asg !inE mem_cat inE eqxx !orbT.
  by rewrite /dashed /= take0.
by rewrite /= (split_two v nk) split_none.
Qed.

Lemma last_mem k kvs v : last_text k kvs = Some v -> (k, v) \in kvs.
Proof.
rewrite /last_text; elim/last_ind: kvs => [|kvs [a b] IH] //=; rewrite filter_rcons /=; case: (a =P k) => [->|_].
  by rewrite map_rcons last_rcons /= => -[->]; rewrite mem_rcons inE eqxx.
by move=> /IH h; rewrite mem_rcons inE h orbT.
Qed.

Section Conf.
Variables (V : Type) (Ty : eqType) (ty : V -> Ty) (vstr : word -> V) (vfile : V) (lit : word -> res V).
Notation globals := (dict word V).
Variable file : word -> option (globals -> globals * res unit).
Notation conf_arg := (conf_arg ty vstr vfile lit file). Notation conf := (conf ty vstr vfile lit file).
Notation means := (means vstr lit). Notation fits := (fits ty vstr lit).
Implicit Type g : globals.

Definition touch g k v : globals := dset (dset (dset g (w "arg") (vstr (asg (k, v)))) (w "key") (vstr k)) (w "val") (vstr v).
Lemma conf_asg g kv : plain kv -> conf_arg g (asg kv) =
  let: (k, v) := kv in let g1 := touch g k v in
  if dhas g1 k then
    match (match lit v with Ok x => Ok x | Err ValueError => Ok (vstr v) | Err e => Err e end) with
    | Err e => (g1, Err e)
    | Ok x =>
      let g2 := dset g1 (w "attempt") x in
      if (if dget g2 k is Some old then ty x == ty old else false) then (dset g2 k x, Ok tt) else (g2, Err AssertionError)
    end
  else (g1, Err ValueError).
Proof.
move=> p; have [h1 h2 h3] := asg_facts p; case: kv p h1 h2 h3 => k v p h1 h2 h3.
by rewrite /ConfModel.conf_arg h1 h2 h3 /= drop0.
Qed.
Lemma get_touch g k v k' : k' \notin internal -> dget (touch g k v) k' = dget g k'.
Proof. by rewrite !inE !negb_or /touch => /and5P [/negbTE h1 /negbTE h2 /negbTE h3 _ _]; rewrite !dgetE h1 h2 h3. Qed.
Lemma means_eq v x : means v x -> match lit v with Ok x => Ok x | Err ValueError => Ok (vstr v) | Err e => Err e end = Ok x.
Proof. by case=> [->|[-> ->]]. Qed.
(* one accepted setting *)
Lemma conf_fits g kv : plain kv -> kv.1 \notin internal -> fits g kv ->
  exists2 x, means kv.2 x & (conf_arg g (asg kv)).2 = Ok tt /\
    forall k, k \notin internal -> dget (conf_arg g (asg kv)).1 k = if k == kv.1 then Some x else dget g k.
Proof.
move=> p ni [x [old [mx e t]]]; exists x => //; rewrite conf_asg //; case: kv p ni mx e => k v p ni mx e; rewrite /= in ni mx e.
cbv zeta; rewrite (means_eq mx) dget_has get_touch // e.
have na k' : k' \notin internal -> (k' == w "attempt") = false by rewrite !inE !negb_or => /and5P [_ _ _ /negbTE -> _].
by rewrite dgetE na // get_touch // e t eqxx; split=> // k' ni'; rewrite dgetE; case: ifP => // _; rewrite dgetE na // get_touch.
Qed.
Lemma fits_step g kv kv' : plain kv -> kv.1 \notin internal -> kv'.1 \notin internal -> fits g kv -> fits g kv' ->
  fits (conf_arg g (asg kv)).1 kv'.
Proof.
move=> p ni ni' f [x' [old' [m' e' t']]]; have [x mx [_ H]] := conf_fits p ni f.
exists x', (if kv'.1 == kv.1 then x else old'); rewrite H //; case: eqP => [ek|_]; last by split.
split=> //; move: f => [x2 [old2 [m2 e2 t2]]].
have -> : x = x2 by move: (means_eq mx); rewrite (means_eq m2) => -[].
by rewrite t' t2; move: e2; rewrite -ek e' => -[->].
Qed.

(* Settings given as --name=value, all for names the script knows and with a value of exactly the type of the default:
   they are accepted, the last value for a name counts, and everything else is as before *)
Theorem C63_settings g kvs : all plain kvs -> (forall kv, kv \in kvs -> kv.1 \notin internal /\ fits g kv) ->
  (conf g (map asg kvs)).2 = Ok tt /\
  forall k, k \notin internal ->
    match last_text k kvs with
    | Some v => exists2 x, means v x & dget (conf g (map asg kvs)).1 k = Some x
    | None => dget (conf g (map asg kvs)).1 k = dget g k
    end.
Proof.
elim: kvs g => [|kv kvs IH] g //= /andP [p ps] H.
have [ni f] := H kv (mem_head _ _); have [x mx [e1 e2]] := conf_fits p ni f; rewrite e1.
have [|e3 e4] := IH (conf_arg g (asg kv)).1 ps.
  move=> kv' h; have [ni' f'] := H kv' (@mem_behead _ (kv :: kvs) _ h); split=> //; exact: fits_step.
split=> // k nk; have := e4 k nk; rewrite /last_text /=; case: (kv.1 =P k) => [ek|ne] /=; last first.
  have -> : last None [seq Some kv0.2 | kv0 <- kvs & kv0.1 == k] = last_text k kvs by [].
  by case: (last_text k kvs) => // ->; rewrite e2 //; case: (k =P kv.1) => // e; case: ne.
rewrite e2 // -ek eqxx.
case: [seq kv0 <- kvs | kv0.1 == kv.1] => [|a l] /=; first by move=> ->; exists x.
have [u ->] // : exists u, last (Some a.2) [seq Some kv0.2 | kv0 <- l] = Some u.
by elim: l (a.2) => [|b l IHl] c /=; [exists c|exact: IHl].
Qed.

(* The first argument that does not fit ends the script: an unknown name with ValueError, a value of another type (an
   int for a float, for example) with AssertionError, two equals signs with ValueError, a missing -- or a flag without
   value with AssertionError *)
Lemma conf_cat g a b : (conf g a).2 = Ok tt -> conf g (a ++ b) = conf (conf g a).1 b.
Proof. by elim: a g => [|x a IH] g //=; case e: (conf_arg g x).2 => [[]|] //=; [exact: IH|rewrite e]. Qed.
Theorem C63_refused g kvs a rest : all plain kvs -> (forall kv, kv \in kvs -> kv.1 \notin internal /\ fits g kv) ->
  let out := (conf g (map asg kvs ++ a :: rest)).2 in
  [/\ forall k v, a = asg (k, v) -> plain (k, v) -> k \notin internal -> dget g k = None -> out = Err ValueError,
      forall k v x old, a = asg (k, v) -> plain (k, v) -> k \notin internal -> dget g k = Some old -> means v x ->
        ty x <> ty old -> out = Err AssertionError,
      dashed a -> 1 < count_mem 61 a -> out = Err ValueError,
      dashed a -> 61 \notin a -> out = Err AssertionError &
      ~~ dashed a -> 61 \in a -> out = Err AssertionError].
Proof.
move=> ps H out; have [e1 e2] := C63_settings ps H.
have eo : out = (conf (conf g (map asg kvs)).1 (a :: rest)).2 by rewrite /out conf_cat.
set g' := (conf g _).1 in e2 eo.
have tys k old : k \notin internal -> dget g k = Some old -> exists2 o, dget g' k = Some o & ty o = ty old.
  move=> ni eg; have := e2 k ni; case el: (last_text k kvs) => [v|]; last by move=> ->; exists old.
  move=> [x mx ->]; exists x => //.
  have hk := last_mem el.
  have [_ [x2 [o2 [m2 eg2 t2]]]] := H _ hk; rewrite /= in eg2 m2.
  have -> : x = x2 by move: (means_eq mx); rewrite (means_eq m2) => -[].
  by rewrite t2; move: eg2; rewrite eg => -[->].
rewrite eo /=; split.
- move=> k v -> p ni eg; rewrite conf_asg //; cbv zeta; rewrite dget_has get_touch //.
  have -> : dget g' k = None.
    have := e2 k ni; case el: (last_text k kvs) => [u|]; last by rewrite eg.
    by have [_ [? [? [_ /= h _]]]] := H _ (last_mem el); rewrite eg in h.
  by [].
- move=> k v x old -> p ni eg mx ne; rewrite conf_asg //.
  have [o eo' t] := tys k old ni eg.
  cbv zeta; rewrite (means_eq mx) dget_has get_touch // eo'.
  have na : (k == w "attempt") = false by move: ni; rewrite !inE !negb_or => /and5P [_ _ _ /negbTE -> _].
  by rewrite dgetE na get_touch // eo' t (_ : (ty x == ty old) = false) //; apply/eqP.
- move=> da c; have : eqs \in a by rewrite -has_pred1 has_count; exact: leq_trans c.
  move=> h; rewrite /ConfModel.conf_arg h da /=; have := size_split a.
  by case: (split_eq a) => [|u [|v [|? ?]]] //= [ec]; move: c; rewrite -ec.
- by move=> da ne; rewrite /ConfModel.conf_arg ne da.
- by move=> nd ne; rewrite /ConfModel.conf_arg ne nd.
Qed.

(* A configuration file overrides the settings before it and is overridden by those after it, with the types it has left *)
Theorem C63_file_order g pre c run g' kvs : (conf g pre).2 = Ok tt -> 61 \notin c -> ~~ dashed c -> file c = Some run ->
  (forall h, (forall k, k \notin internal -> dget h k = dget (conf g pre).1 k) ->
     (run h).2 = Ok tt /\ forall k, k \notin internal -> dget (run h).1 k = dget g' k) ->
  all plain kvs -> (forall kv, kv \in kvs -> kv.1 \notin internal /\ fits g' kv) ->
  (conf g (pre ++ c :: map asg kvs)).2 = Ok tt /\
  forall k, k \notin internal ->
    match last_text k kvs with
    | Some v => exists2 x, means v x & dget (conf g (pre ++ c :: map asg kvs)).1 k = Some x
    | None => dget (conf g (pre ++ c :: map asg kvs)).1 k = dget g' k
    end.
Proof.
move=> e nc nd ef hr ps H; rewrite (conf_cat _ e) /= /ConfModel.conf_arg nc (negbTE nd) ef; cbv zeta.
set h := dset _ (w "f") _; have [|e1 e2] := hr h.
  by move=> k; rewrite !inE !negb_or => /and5P [/negbTE h1 _ _ _ /andP [/negbTE h5 /negbTE h6]]; rewrite /h !dgetE h1 h5 h6.
have [|e3 e4] := @C63_settings (run h).1 kvs ps; last first.
  by rewrite e1; split=> // k ni; have := e4 k ni; rewrite e2.
move=> kv hk; have [ni [x [old [m eo t]]]] := H kv hk; split=> //; exists x, old; by rewrite e2.
Qed.

(* The names arg, key and val are accepted like settings: a string for them is silently ignored *)
Theorem C63_internal_names g k v : (forall u u', ty (vstr u) = ty (vstr u')) ->
  k \in [:: w "arg"; w "key"; w "val"] -> 61 \notin v -> lit v = Err ValueError ->
  (conf g [:: asg (k, v)]).2 = Ok tt /\
  forall k', k' \notin internal -> dget (conf g [:: asg (k, v)]).1 k' = dget g k'.
Proof.
move=> hs hk nv lv; have p : plain (k, v) by move: hk; rewrite /plain nv !inE => /or3P [] /eqP ->.
have [x ex] : exists x, dget (touch g k v) k = Some (vstr x).
  by move: hk; rewrite !inE => /or3P [] /eqP ->; rewrite /touch !dgetE /=; eexists.
have na : (k == w "attempt") = false by move: hk; rewrite !inE => /or3P [] /eqP ->.
rewrite /= conf_asg //; cbv zeta; rewrite dget_has ex lv; cbv zeta; rewrite dgetE na ex (hs v x) eqxx /=; split=> // k' ni.
have nk : (k' == k) = false by apply/eqP => e; move: ni hk; rewrite e !inE !negb_or => /and5P [/negbTE -> /negbTE -> /negbTE -> _ _].
by rewrite dgetE nk dgetE get_touch //; move: ni; rewrite !inE !negb_or => /and5P [_ _ _ /negbTE -> _].
Qed.

(* Arguments of the form --name=value cannot introduce a setting; train.py has no default for dataset_path, so without
   a configuration file the training never starts *)
Theorem C63_needs_file keys g (args : seq word) : all (fun a : word => 61 \in a) args -> dget g (w "dataset_path") = None ->
  exists e, start ty vstr vfile lit file keys g args = Err e.
Proof.
move=> al e0; rewrite /start.
suff H : dget (conf g args).1 (w "dataset_path") = None by rewrite H; case: (conf g args).2 => [u|e]; [exists UnboundLocalError|exists e].
elim: args g al e0 => [|a args IH] g //= /andP [ha al] e0.
have e1 : dget (conf_arg g a).1 (w "dataset_path") = None.
  rewrite /ConfModel.conf_arg ha /=; case: ifP => _; first by rewrite dgetE.
  case: (split_eq a) => [|k [|v [|? ?]]] /=; rewrite ?dgetE //.
  case: ifP => hk; last by rewrite !dgetE.
  set r := match lit v with Ok _ => _ | Err _ => _ end; case: r => [x|e]; last by rewrite !dgetE.
  case: ifP => _; last by rewrite !dgetE.
  rewrite !dgetE /=; case: eqP => // ek; move: hk; rewrite -ek dget_has !dgetE /= e0 //.
by case: (conf_arg g a).2 => //= _; exact: IH.
Qed.
End Conf.

Section Wiki.
Variables (T : Type) (K : eqType) (ids labels : K).
Notation columns := (dict K (seq (seq T))).
Notation group_texts := (group_texts (T := T) ids labels). Notation map_batches := (map_batches (T := T) ids labels).

Lemma flatten_blocks (X : Type) bs m (t : seq X) : flatten [seq take bs (drop (i * bs) t) | i <- iota 0 m] = take (m * bs) t.
Proof.
elim: m => [|m IH]; first by rewrite take0.
by rewrite -addn1 iotaD map_cat flatten_cat IH /= cats0 add0n mulnDl mul1n takeD.
Qed.
Lemma blocksP bs (t : seq T) : 0 < bs -> full_blocks bs t (blocks bs (size t %/ bs * bs) t).
Proof.
move=> b0; rewrite /blocks mulnK //; split.
  rewrite all_map; apply/allP => i; rewrite mem_iota add0n => /andP [_ hi] /=; apply/eqP.
  rewrite size_takel // size_drop leq_subRL; last first.
    by apply: leq_trans (leq_trunc_div _ bs); rewrite leq_mul2r ltnW ?orbT.
  by rewrite addnC -mulSn; apply: leq_trans (leq_trunc_div _ bs); rewrite leq_mul2r hi orbT.
exists (drop (size t %/ bs * bs) t); rewrite flatten_blocks cat_take_drop; split=> //.
by rewrite size_drop; rewrite {1}(divn_eq (size t) bs) addKn ltn_mod.
Qed.

Lemma dget_mapv (V W : Type) (f : V -> W) (d : dict K V) k : dget [seq (c.1, f c.2) | c <- d] k = omap f (dget d k).
Proof. by elim: d => [|[a b] d IH] //=; rewrite !dget_cons; case: (a == k). Qed.
Lemma dkeys_mapv (V W : Type) (f : V -> W) (d : dict K V) : dkeys [seq (c.1, f c.2) | c <- d] = dkeys d.
Proof. by rewrite /dkeys -map_comp. Qed.
Lemma groupP bs (cols : columns) : 0 < bs -> dhas cols ids -> aligned cols ->
  exists2 r, group_texts bs cols = Ok r &
    r <> [::] /\ (forall k, k != labels -> dget r k = omap (fun rows => blocks bs (size (flatten rows) %/ bs * bs) (flatten rows)) (dget cols k))
    /\ dget r labels = omap (fun rows => blocks bs (size (flatten rows) %/ bs * bs) (flatten rows)) (dget cols ids).
Proof.
case: cols => [|[c0 rows0] cols] // b0 hi al; rewrite /ConfModel.group_texts eqn0Ngt b0 /=.
set cs := _ :: cols in hi al *; set tot := size (flatten rows0) %/ bs * bs.
have tots k rows : dget cs k = Some rows -> size (flatten rows) %/ bs * bs = tot.
  move=> e; have := al k c0; rewrite e /cs dget_cons eqxx /= => h.
  rewrite /tot !size_flatten /shape h //; first by have := dget_mem e.
  by rewrite inE eqxx.
rewrite -[(c0, _) :: _]/([seq (c.1, (fun rows => blocks bs tot (flatten rows)) c.2) | c <- cs]) dget_mapv.
move: hi; rewrite dget_has; case ei: (dget cs ids) => [rows|] //= _.
set r := dset _ _ _; exists r => //; split; last split.
- have := dgetE [seq (c.1, blocks bs tot (flatten c.2)) | c <- cs] labels labels (blocks bs tot (flatten rows)).
  by rewrite eqxx -/r; case: (r).
- move=> k nk; rewrite /r dgetE (negbTE nk).
  pose B (rows : seq (seq T)) := blocks bs tot (flatten rows).
  rewrite -[(c0, _) :: _]/([seq (c.1, B c.2) | c <- cs]) (dget_mapv B) {}/B.
  by case e: (dget cs k) => [rows'|] //=; rewrite (tots _ _ e).
- by rewrite /r dgetE eqxx (tots _ _ ei).
Qed.

Lemma row_batchE mb i (cols : columns) k : dget (row_batch mb i cols) k = omap (fun rows => take mb (drop (i * mb) rows)) (dget cols k).
Proof. exact: (dget_mapv (fun rows => take mb (drop (i * mb) rows))). Qed.
Lemma aligned_batch mb i (cols : columns) : aligned cols -> aligned (row_batch mb i cols).
Proof.
move=> al c c'; rewrite (dkeys_mapv (fun rows => take mb (drop (i * mb) rows))) => h h'; have := al c c' h h'; rewrite !row_batchE.
have H (o : option (seq (seq T))) : [seq size r | r <- odflt [::] (omap (fun rows => take mb (drop (i * mb) rows)) o)]
    = take mb (drop (i * mb) [seq size r | r <- odflt [::] o]) by case: o => [r|] //=; rewrite map_take map_drop.
by rewrite !H => ->.
Qed.
Lemma appendE (a b : columns) k : a <> [::] -> dget (append_cols a b) k = omap (fun x => x ++ odflt [::] (dget b k)) (dget a k).
Proof.
rewrite /append_cols; case: a => [|x a] // _; elim: (x :: a) => [|[c v] l IH] //=.
by rewrite !dget_cons; case: (c =P k) => [->|_].
Qed.
Lemma map_batchesP mb bs n i (cols : columns) : 0 < bs -> dhas cols ids -> aligned cols ->
  exists2 r, map_batches mb bs n i cols = Ok r &
    (forall k, k != labels -> n > 0 -> dget r k = omap (fun rows =>
        flatten [seq let t := flatten (take mb (drop (j * mb) rows)) in blocks bs (size t %/ bs * bs) t | j <- iota i n]) (dget cols k))
    /\ (n > 0 -> dget r labels = omap (fun rows =>
        flatten [seq let t := flatten (take mb (drop (j * mb) rows)) in blocks bs (size t %/ bs * bs) t | j <- iota i n]) (dget cols ids))
    /\ (n = 0 -> r = [::]).
Proof.
move=> b0 hi al; elim: n i => [|n IH] i; first by exists [::].
have hb : dhas (row_batch mb i cols) ids by rewrite dget_has row_batchE; move: hi; rewrite dget_has; case: (dget cols ids).
have [a ea [na [ga la]]] := groupP b0 hb (aligned_batch (mb := mb) (i := i) al).
have [b eb [gb [lb zb]]] := IH i.+1; exists (append_cols a b); first by rewrite /= ea /= eb.
split; last split=> // _.
- move=> k nk _; rewrite appendE // ga // row_batchE; case ek: (dget cols k) => [rows|] //=; congr (Some (_ ++ _)).
  by case: (n) gb zb => [|n'] gb zb; [rewrite zb|rewrite gb // ek].
rewrite appendE // la row_batchE; case ek: (dget cols ids) => [rows|] //=; congr (Some (_ ++ _)).
by case: (n) lb zb => [|n'] lb zb; [rewrite zb|rewrite lb // ek].
Qed.

(* The blocks of a data set: the rows are taken [mb] (1000) at a time; for every column, each such batch contributes
   the full blocks of its entries one after the other and loses the rest, less than a block; labels are the tokens *)
Theorem C63_wiki_blocks mb max_len bs (cols : columns) n : 0 < bs -> bs <= max_len -> 0 < mb -> dhas cols ids -> aligned cols ->
  size (odflt [::] (dget cols ids)) = n -> 0 < n ->
  exists2 r, wiki ids labels mb max_len bs cols = Ok r &
    dget r labels = dget r ids /\
    forall k rows, k != labels -> dget cols k = Some rows -> exists bss : seq (seq (seq T)),
      [/\ dget r k = Some (flatten bss), flatten (mkseq (fun i => take mb (drop (i * mb) rows)) (size bss)) = rows &
          forall i, i < size bss -> full_blocks bs (flatten (take mb (drop (i * mb) rows))) (nth [::] bss i)].
Proof.
move=> b0 bm m0 hi al en n0; rewrite /wiki ltnNge bm (minn_idPl bm) /=.
have [c0 [rows0 [cs ec]]] : exists c0 rows0 cs, cols = (c0, rows0) :: cs by case: (cols) hi => [|[c r] l] // _; exists c, r, l.
have sz k rows : dget cols k = Some rows -> size rows = n.
  move=> e; rewrite -en; have := al k ids (dget_mem e); rewrite e /=.
  move: hi; rewrite /dhas => -> /(_ isT) /(congr1 size); by rewrite !size_map.
have -> : size (odflt [::] (omap snd (ohead cols))) = n.
  by rewrite ec /= (sz c0) // ec dget_cons eqxx.
set nb := n %/ mb + _; have nb0 : 0 < nb.
  by rewrite /nb; case: (leqP mb n) => h; [rewrite ltn_addr // divn_gt0|rewrite modn_small // -lt0n n0 addn1].
have cover : n <= nb * mb.
  rewrite /nb {1}(divn_eq n mb) mulnDl leq_add2l; case: eqP => [->|_] //; rewrite mul1n; exact/ltnW/ltn_pmod.
have [r er [gr [lr _]]] := map_batchesP mb nb 0 b0 hi al; exists r => //; split.
  rewrite lr //; case ei: (ids == labels); last by rewrite gr ?ei.
  by rewrite (eqP ei) lr // -(eqP ei).
move=> k rows nk ek; rewrite gr // ek /=; eexists; split; first reflexivity.
  rewrite size_map size_iota /mkseq flatten_blocks take_oversize // (sz k) //.
move=> i; rewrite size_map size_iota => hi'; rewrite (nth_map 0) ?size_iota // nth_iota // add0n; exact: blocksP.
Qed.
(* block_size above the limit of the tokenizer ends in TypeError (the warning cannot be issued), 0 in ZeroDivisionError *)
Theorem C63_wiki_refused mb max_len bs (cols : columns) :
  (max_len < bs -> wiki ids labels mb max_len bs cols = Err TypeError) /\
  (0 < mb -> 0 < size (odflt [::] (omap snd (ohead cols))) -> wiki ids labels mb max_len 0 cols = Err ZeroDivisionError).
Proof.
split=> [h|m0]; first by rewrite /wiki h.
case: cols => [|[c rows] cs] //= n0; rewrite /wiki /= min0n.
have : 0 < size rows %/ mb + (size rows %% mb != 0).
  by case: (leqP mb (size rows)) => h; [rewrite ltn_addr // divn_gt0|rewrite modn_small // -lt0n n0 addn1].
by case: (_ + _).
Qed.
End Wiki.

(* ------------------------------------------------------------------------------------ examples *)
Inductive pv := PInt (n : nat) | PFloat (n : nat) | PStr (u : word) | PFile.
Definition pty (x : pv) : nat := match x with PInt _ => 0 | PFloat _ => 1 | PStr _ => 2 | PFile => 3 end.
Definition plit (u : word) : res pv :=
  if u == w "1" then Ok (PInt 1) else if u == w "0.5" then Ok (PFloat 5) else Err ValueError.
Definition pfile (u : word) : option (dict word pv -> dict word pv * res unit) :=
  if u == w "cfg.py" then Some (fun g => (dset (dset g (w "dataset_path") (PStr (w "d"))) (w "subset_ratio") (PFloat 7), Ok tt)) else None.
(* three of the defaults of train.py 34-75 *)
Definition defaults : dict word pv := [:: (w "subset_ratio", PInt 1); (w "dropout", PFloat 0); (w "out_dir", PStr (w "out"))].
Notation pconf := (conf pty PStr PFile plit pfile defaults).
Example accepted : let r := pconf [:: w "--dropout=0.5"; w "--out_dir=a"; w "--out_dir=b"] in
  r.2 = Ok tt /\ [seq dget r.1 k | k <- [:: w "dropout"; w "out_dir"; w "subset_ratio"]] = [:: Some (PFloat 5); Some (PStr (w "b")); Some (PInt 1)].
Proof. by vm_compute. Qed.
(* the fraction of the data cannot be given on the command line, the default being the integer 1 *)
Example fraction_refused : (pconf [:: w "--subset_ratio=0.5"]).2 = Err AssertionError. Proof. by vm_compute. Qed.
Example others : [seq (pconf [:: u]).2 | u <- [:: w "--dropout=1"; w "--dataset_path=d"; w "--out_dir=a=b"; w "--eval_only"; w "out_dir=b"; w "no.py"; w "--key=x"]] =
  [:: Err AssertionError; Err ValueError; Err ValueError; Err AssertionError; Err AssertionError; Err FileNotFoundError; Ok tt].
Proof. by vm_compute. Qed.
Example with_file : let r := pconf [:: w "--out_dir=a"; w "cfg.py"; w "--subset_ratio=0.5"] in
  r.2 = Ok tt /\ [seq dget r.1 k | k <- [:: w "dataset_path"; w "out_dir"; w "subset_ratio"]] = [:: Some (PStr (w "d")); Some (PStr (w "a")); Some (PFloat 5)].
Proof. by vm_compute. Qed.
Example fits_ex : fits pty PStr plit defaults (w "dropout", w "0.5").
Proof. by exists (PFloat 5), (PFloat 0); split=> //; left. Qed.
Definition docs : dict nat_eqType (seq (seq nat)) := [:: (0, [:: [:: 1; 2; 3]; [:: 4]; [:: 5; 6; 7]]); (1, [:: [:: 9; 9; 9]; [:: 8]; [:: 7; 7; 7]])].
Example blocks_ex : wiki 0 2 2 1024 3 docs = Ok [:: (0, [:: [:: 1; 2; 3]; [:: 5; 6; 7]]); (1, [:: [:: 9; 9; 9]; [:: 7; 7; 7]]); (2, [:: [:: 1; 2; 3]; [:: 5; 6; 7]])].
Proof. by vm_compute. Qed.
Example docs_ok : dhas docs 0 && (0 < size (odflt [::] (dget docs 0))) /\ aligned docs.
Proof. by split=> // c c'; rewrite !inE => /orP [] /eqP -> /orP [] /eqP ->. Qed.

Print Assumptions C63_settings.
Print Assumptions C63_refused.
Print Assumptions C63_file_order.
Print Assumptions C63_internal_names.
Print Assumptions C63_needs_file.
Print Assumptions C63_wiki_blocks.
Print Assumptions C63_wiki_refused.
