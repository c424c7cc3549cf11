Set Warnings "-notation-overridden,-ambiguous-paths".
From mathcomp Require Import all_ssreflect zify.
From Verif Require Import Py Dict Tensor OffModel OffSpec OffProof DiskModel DiskSpec DiskProof DiskProof2.
Set Implicit Arguments. Unset Strict Implicit. Unset Printing Implicit Defensive.

(* ------------------------------------------------------------------ well-formed batches *)
Section Good.
Variables (T : Type) (z : T).
Notation gr := (gr T). Notation t2 := (t2 T).
Implicit Type ts : seq t2.

Lemma goodP ds (gs : seq gr) : good ds gs -> exists ts,
  [/\ gs = [seq G2 t | t <- ts], all (fun t => (nrows t == brows gs) && wf_t2 t) ts,
      [seq t2c t | t <- ts] = ds, 0 < brows gs & 0 < sumn ds].
Proof.
case/and4P => /eqP sz n0 d0; move: (brows gs) n0 => n n0 al.
suff [ts [h1 h2 h3]] : exists ts, [/\ gs = [seq G2 t | t <- ts],
    all (fun t => (nrows t == n) && wf_t2 t) ts & [seq t2c t | t <- ts] = ds] by exists ts.
elim: gs ds sz al {d0} => [|g gs IH] [|d ds] //=; first by exists [::].
case=> sz; case/andP; case: g => // t /and3P [h1 /eqP h2 h3] /(IH _ sz) [ts [-> h4 <-]].
by exists (t :: ts); rewrite /= h1 h3 h4 h2.
Qed.

Variables (n : nat) (ts : seq t2).
Hypothesis al : all (fun t => (nrows t == n) && wf_t2 t) ts.
Hypothesis n0 : 0 < n.
Hypothesis d0 : 0 < sumn [seq t2c t | t <- ts].

Lemma good_detect : detect_dims [seq G2 t | t <- ts] = Ok [seq t2c t | t <- ts].
Proof.
rewrite detectE; have -> : has (@is_none T) [seq G2 t | t <- ts] = false by elim: (ts).
congr Ok; rewrite -map_comp; move: al; elim: (ts) => [|t l IH] //= /andP [/andP [/eqP h _] /IH ->].
congr (_ :: _); move: h n0; rewrite /nrows => <-; rewrite lt0n => -> /=.
by case: (t2c t).
Qed.
Lemma good_first : first_rows [seq G2 t | t <- ts] = Ok n.
Proof.
move: al d0; elim: (ts) => [|t l IH] //= /andP [/andP [/eqP h _] a]; case e: (t2c t) => [|c] /=.
  by rewrite muln0 /=; apply: IH.
by move=> _; rewrite h mulnS addn_gt0 n0.
Qed.
Lemma good_features : features z n [seq t2c t | t <- ts] [seq G2 t | t <- ts] = Ok ts.
Proof.
rewrite /features; move: al; elim: (ts) => [|t l IH] //= /andP [/andP [/eqP h w] /IH ->] /=.
congr Ok; congr (_ :: _); rewrite h muln_gt0 n0 /=; case e: (t2c t) => [|c] //.
rewrite /= [RHS](_ : _ = T2 (t2c t) (t2r t)); last by case: (t).
rewrite e; congr T2; move: h w; rewrite /nrows /wf_t2 e => <-.
by elim: (t2r t) => [|r rs IH2] //= /andP [/eqP/size0nil -> /IH2 ->].
Qed.
Lemma good_cat1 : cat1 ts = Ok (T2 (sumn [seq t2c t | t <- ts])
   (mkseq (fun i => flatten [seq nth [::] (t2r t) i | t <- ts]) n)).
Proof.
rewrite /cat1; case: (ts) al d0 => [|t l] //= /andP [/andP [/eqP -> _] a] _.
have -> : all (fun t' => nrows t' == n) l by apply: sub_all a => ? /andP [].
by rewrite eqxx.
Qed.
Lemma good_split_from (pre : nat -> seq T) s N l : all (fun t : t2 => (nrows t == n) && wf_t2 t) l ->
  (forall i, size (pre i) = s) -> s + sumn [seq t2c t | t <- l] <= N ->
  split_from s [seq t2c t | t <- l]
    (T2 N (mkseq (fun i => pre i ++ flatten [seq nth [::] (t2r t) i | t <- l]) n)) = [seq G2 t | t <- l].
Proof.
elim: l pre s => [|t l IH] pre s //= /andP [/andP [/eqP h w] a] sp le.
have sz i : i < n -> size (nth [::] (t2r t) i) = t2c t.
  move=> li; apply/eqP; move/all_nthP: w => /(_ [::] i); apply; by rewrite -/(nrows t) h.
congr (_ :: _).
  rewrite /cols /=; have -> : slice_len N s (s + t2c t) = t2c t by rewrite /slice_len; move: le; clear; lia.
  congr G2; rewrite [RHS](_ : _ = T2 (t2c t) (t2r t)); last by case: (t).
  congr T2; apply: (@eq_from_nth _ [::]); first by rewrite size_map size_mkseq -h.
  rewrite size_map size_mkseq => i li; rewrite (nth_map [::]) ?size_mkseq // nth_mkseq //.
  rewrite addKn drop_cat sp ltnn subnn drop0 take_cat sz // ltnn subnn take0 cats0 //.
have -> : mkseq (fun i => pre i ++ nth [::] (t2r t) i ++ flatten [seq nth [::] (t2r t') i | t' <- l]) n
        = mkseq (fun i => (if i < n then pre i ++ nth [::] (t2r t) i else nseq (s + t2c t) z)
                          ++ flatten [seq nth [::] (t2r t') i | t' <- l]) n.
  by apply/eq_in_map => i; rewrite mem_iota add0n /= => ->; rewrite catA.
apply: IH => //; last by rewrite -addnA.
by move=> i; case: ifP => li; rewrite ?size_nseq // size_cat sp sz.
Qed.
End Good.

Section Good2.
Variables (T : eqType) (z : T) (ds : seq nat).
Lemma batch_rows_ts (ts : seq (t2 T)) : batch_rows [seq G2 t | t <- ts] =
  mkseq (fun i => flatten [seq nth [::] (t2r t) i | t <- ts]) (brows [seq G2 t | t <- ts]).
Proof. by apply: eq_map => i; rewrite /sample_row -map_comp. Qed.
Lemma good_split gs : good ds gs -> split_rows ds (batch_rows gs) = gs :> seq (gr T).
Proof.
case/goodP => ts [e al <- n0 d0]; rewrite /split_rows e batch_rows_ts -e.
by have := @good_split_from T z (brows gs) (fun=> [::]) 0 _ ts al (fun=> erefl) (leqnn _); rewrite add0n -e.
Qed.
Lemma size_batch_rows (gs : seq (gr T)) : size (batch_rows gs) = brows gs. Proof. by rewrite size_mkseq. Qed.
Lemma good_width (gs : seq (gr T)) : good ds gs -> all (fun r => size r == sumn ds) (batch_rows gs).
Proof.
case/goodP => ts [e al <- n0 d0]; rewrite e batch_rows_ts -e; apply/allP => r /mapP [i].
rewrite mem_iota add0n /= => li ->; rewrite size_flatten /shape -map_comp; apply/eqP; congr sumn.
elim: (ts) al => [|t l IH] //= /andP [/andP [/eqP h w] /IH ->]; congr (_ :: _); apply/eqP.
by move/all_nthP: w => /(_ [::] i); apply; rewrite -/(nrows t) h.
Qed.
Lemma good_moved gs : good ds gs -> [seq moved g | g <- gs] = read_back gs :> seq (gr T).
Proof.
case/goodP => ts [e al _ n0 _]; move: (brows gs) al n0 => n al n0; rewrite e /read_back -!map_comp {gs e}.
elim: (ts) al => [|t l IH] //= /andP [/andP [/eqP -> _] /IH ->]; rewrite muln_gt0 n0 /=.
by case: (t2c t).
Qed.
End Good2.

(* ------------------------------------------------------------------- storing a batch *)
Section Store.
Variables (T : eqType) (z : T) (cs mx : nat).
Variable listing : seq fkey -> seq fkey.
Hypothesis lperm : forall l, perm_eq (listing l) l.
Variable ds : seq nat.
Notation W := (sumn ds).
Notation row := (seq T). Notation gr := (gr T). Notation dstate := (dstate T). Notation task := (task T).
Notation entry := (entry T).
Notation Inv := (Inv cs ds).
Implicit Types (S : seq entry) (s : dstate).

Definition with_buf (key : ckey) s :=
  if dhas (d_bufs s) key then s else upd_bufs (dset (d_bufs s) key (buf0 T)) s.
Definition room (key : ckey) bs s :=
  if mx < size (b_rows (odflt (buf0 T) (dget (d_bufs s) key))) + bs
  then let f := flush_key key s in upd_bufs (dset (d_bufs f) key (buf0 T)) f else s.
Definition add_rows (key : ckey) b (rows : seq row) s :=
  let bf := odflt (buf0 T) (dget (d_bufs s) key) in
  upd_bufs (dset (d_bufs s) key (Buf (b_rows bf ++ rows)
     (rcons (b_info bf) (b, (size (b_rows bf), size (b_rows bf) + size rows))))) s.
Definition flush_if (key : ckey) s := if complete cs key s then flush_key key s else s.
Definition stored k b gs s :=
  let key : ckey := (k, b %/ cs) in
  flush_if key (add_rows key b (batch_rows gs) (room key (brows gs) (with_buf key (upd_dims (Some ds) s)))).

Lemma storeE k b gs s : get_dims listing k gs s = Ok ds -> good ds gs -> brows gs <= mx ->
  store_batch z cs mx listing k b gs s = (stored k b gs s, Ok tt).
Proof.
move=> gd g le; rewrite /store_batch gd.
have [ts [e al dd n0 d0]] := goodP g; rewrite -dd in d0.
have fr : first_rows gs = Ok (brows gs) by rewrite {1}e; apply: good_first.
have ft : rbind (features z (brows gs) ds gs) (@cat1 T) = Ok (T2 W (batch_rows gs)).
  rewrite {2}e -dd good_features //= (good_cat1 al) // dd; congr (Ok (T2 _ _)).
  by rewrite {2}e batch_rows_ts -e.
rewrite fr; move: n0; case eb: (brows gs) => [|bs] n0; first by [].
rewrite -eb ft.
have -> : (mx < brows gs) = false by rewrite ltnNge le.
have -> : to_width z W (T2 W (batch_rows gs)) = Ok (batch_rows gs) by rewrite /to_width eqxx.
by rewrite /stored /flush_if /add_rows /room /with_buf size_batch_rows.
Qed.
Lemma get_dimsE S s k gs : Inv S s -> good ds gs ->
  get_dims listing k gs s = Ok ds \/ [/\ k, d_dims s = None & get_dims listing k gs s = Err ValueError].
Proof.
move=> I g; have [ts [e al dd n0 d0]] := goodP g; rewrite -dd in d0.
case: (i_dims I) => [de|[de dk _ _ _]]; first by left; rewrite /get_dims /ensure_dims_disk /ensure_dims de; case: k.
case: k; [right; split=> //|left]; rewrite /get_dims.
  have l0 : listing [::] = [::] by apply/perm_small_eq.
  by rewrite /ensure_dims_disk de dk /load_dims /chunk_files /= l0.
rewrite /ensure_dims de e -dd; exact: good_detect al n0.
Qed.

Lemma with_bufP key s : dhas (d_bufs (with_buf key s)) key.
Proof. by rewrite /with_buf; case: ifP => // _; rewrite /= dhas_set eqxx. Qed.
Lemma roomP key bs s : dhas (d_bufs s) key -> dhas (d_bufs (room key bs s)) key.
Proof. by rewrite /room; case: ifP => // _ _; rewrite /= dhas_set eqxx. Qed.
Lemma dhas_get (K : eqType) V (d : dict K V) k : dhas d k -> exists v, dget d k = Some v.
Proof. by rewrite dget_has; case: (dget d k) => // v _; exists v. Qed.
Lemma dims_flush key s : d_dims (flush_key key s) = d_dims s.
Proof. by rewrite /flush_key; case: dget. Qed.
Lemma dims_with_buf key s : d_dims (with_buf key s) = d_dims s.
Proof. by rewrite /with_buf; case: ifP. Qed.
Lemma dims_room key bs s : d_dims (room key bs s) = d_dims s.
Proof. by rewrite /room; case: ifP => // _; rewrite /= dims_flush. Qed.
Lemma flush_nokey key s : ~~ dhas (d_bufs (flush_key key s)) key.
Proof.
rewrite /flush_key; case g: (dget (d_bufs s) key) => [bf|] /=; rewrite dget_has ?g //.
by rewrite dget_del eqxx.
Qed.

Lemma inv_added S s k b gs : Inv S s -> good ds gs -> (k, b) \notin [seq e.1 | e <- S] ->
  Inv (rcons S ((k, b), batch_rows gs))
    (add_rows (k, b %/ cs) b (batch_rows gs)
      (room (k, b %/ cs) (brows gs) (with_buf (k, b %/ cs) (upd_dims (Some ds) s)))).
Proof.
move=> I g nS; have W0 : 0 < W by case/goodP: g => ts [].
set key : ckey := (k, b %/ cs).
have I1 := inv_set_dims I; move: (upd_dims _ s) I1 (erefl : d_dims (upd_dims (Some ds) s) = Some ds) => s1 I1 de.
have I2 : Inv S (with_buf key s1).
  by rewrite /with_buf; case: ifP => // /negbT h; apply: inv_newbuf.
have I3 : Inv S (room key (brows gs) (with_buf key s1)).
  rewrite /room; case: ifP => // _ /=; apply: inv_newbuf => //; first exact: inv_flush.
    by rewrite dims_flush dims_with_buf.
  exact: flush_nokey.
have h3 : dhas (d_bufs (room key (brows gs) (with_buf key s1))) key by apply/roomP/with_bufP.
have d3 : d_dims (room key (brows gs) (with_buf key s1)) = Some ds by rewrite dims_room dims_with_buf.
move: (room _ _ _) I3 h3 d3 => s3 I3 h3 d3.
have [bf gb] := dhas_get h3.
rewrite /add_rows gb /=; apply: inv_add => //; first exact: good_width.
by rewrite size_batch_rows; case/goodP: g => ts [].
Qed.
Lemma inv_stored S s k b gs : Inv S s -> good ds gs -> (k, b) \notin [seq e.1 | e <- S] ->
  Inv (rcons S ((k, b), batch_rows gs)) (stored k b gs s).
Proof.
by move=> I g nS; have := inv_added I g nS; rewrite /stored /flush_if; case: ifP => // _; apply: inv_flush.
Qed.

Lemma inv_store S s k b gs s' r : Inv S s -> good ds gs -> brows gs <= mx -> (k, b) \notin [seq e.1 | e <- S] ->
  store_batch z cs mx listing k b gs s = (s', r) ->
  [/\ r = Ok tt, s' = stored k b gs s & Inv (rcons S ((k, b), batch_rows gs)) s'] \/
  [/\ k, d_dims s = None, r = Err ValueError & s' = s].
Proof.
move=> I g le nS; case: (get_dimsE k I g) => [gd|[hk hd gd]].
  by rewrite storeE // => -[<- <-]; left; split=> //; apply: inv_stored.
by rewrite /store_batch gd => -[<- <-]; right.
Qed.
End Store.
