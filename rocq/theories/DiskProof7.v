(* The chunk data set and its loader. *)
Set Warnings "-notation-overridden,-ambiguous-paths".
From mathcomp Require Import all_ssreflect zify.
From Verif Require Import Py Dict Tensor TensorProof OffModel OffSpec OffProof OffProof2 DiskModel DiskSpec.
From Verif Require Import DiskProof DiskProof2 DiskProof3 DiskProof4 DiskProof5 DiskProof6.
Set Implicit Arguments. Unset Strict Implicit. Unset Printing Implicit Defensive.

Notation nmap := (dict nat_eqType (nat * nat)).

Section Contents.
Variable T : eqType.
Notation item := (item T).
Implicit Types (its : seq item) (it : item).

Lemma contents_keys (B : Type) (f : nat * nat -> B) (m : nmap) : uniq (dkeys m) ->
  [seq (e.1, f e.2) | e <- m] = [seq (b, f (odflt (0, 0) (dget m b))) | b <- dkeys m].
Proof.
move=> u; rewrite /dkeys -map_comp; have : forall e, List.In e m -> dget m e.1 = Some e.2 by move=> e; apply: dget_in.
move: {2 4}m => m'; elim: m {u} => [|e m IH] //= h.
by rewrite h ?IH //=; [move=> x xi; apply: h; right|left].
Qed.
Lemma In_nth_ex (A : Type) (x0 : A) (l : seq A) a : List.In a l -> exists2 i, i < size l & nth x0 l i = a.
Proof.
elim: l => [|x l IH] //= [->|/IH [i li <-]]; first by exists 0.
by exists i.+1.
Qed.
Lemma map_flatten_in (A C : Type) (B : eqType) (h : A -> seq B) (g : B -> C) (g' : A -> B -> C) (l : seq A) :
  (forall a b, List.In a l -> b \in h a -> g b = g' a b) ->
  [seq g b | b <- flatten [seq h a | a <- l]] = flatten [seq [seq g' a b | b <- h a] | a <- l].
Proof.
elim: l => [|a l IH] //= H; rewrite map_cat IH; last by move=> x b xl; apply: H; right.
by congr (_ ++ _); apply/eq_in_map => b; apply: H; left.
Qed.

Lemma collate_contents its n : 0 < size its -> all (fun it => t2c it.1 == n) its ->
  uniq (flatten [seq dkeys it.2 | it <- its]) ->
  (forall it b se, List.In it its -> dget it.2 b = Some se -> se.2 <= nrows it.1) ->
  exists it, [/\ collate_async its = Ok it, t2c it.1 = n,
    dkeys it.2 = flatten [seq dkeys it.2 | it <- its],
    t2r it.1 = flatten [seq t2r it.1 | it <- its] &
    contents it = flatten [seq contents it | it <- its]].
Proof.
move=> pos al u bd.
case e1: its pos => [|it0 [|it1 its']] // _.
  exists it0; split=> //=; rewrite ?cats0 //.
  by move: al; rewrite e1 /= andbT => /eqP.
rewrite -e1; pose g o (se : nat * nat) := (o + se.1, o + se.1 + (se.2 - se.1)).
pose t := T2 n (flatten [seq t2r t | t <- [seq it.1 | it <- its]]).
pose m := (cfold g its 0 [::]).2.
have ce : collate_async its = rbind (cat0 [seq it.1 | it <- its]) (fun t => Ok (t, m)) by rewrite /m e1.
have c0 : cat0 [seq it.1 | it <- its] = Ok t.
  by apply: cat0_ok; [rewrite size_map e1|rewrite all_map].
have km : dkeys m = flatten [seq dkeys it.2 | it <- its] by rewrite /m cfold_keys ?cat0s.
exists (t, m); split=> //; first by rewrite ce c0.
  by rewrite /t /= -map_comp.
rewrite /contents /= contents_keys ?km //.
have ui it : List.In it its -> uniq (dkeys it.2).
  move=> h; move: u; elim: (its) h => [|x l IH] //= [->|/IH h]; rewrite cat_uniq => /and3P [u1 _ u2] //; exact: h.
rewrite (@map_flatten_in _ _ _ (fun it => dkeys it.2) _
   (fun it b => (b, rows_at it.1 (odflt (0, 0) (dget it.2 b))))).
  have H l : (forall it, List.In it l -> uniq (dkeys it.2)) ->
     flatten [seq [seq (b, rows_at it.1 (odflt (0, 0) (dget it.2 b))) | b <- dkeys it.2] | it <- l] =
     flatten [seq [seq (e.1, rows_at it.1 e.2) | e <- it.2] | it : item <- l].
    elim: l => [|it l IH] //= h; rewrite IH; last by move=> x xl; apply: h; right.
    by rewrite (contents_keys (rows_at it.1)) //; apply: h; left.
  exact: H.
move=> it b /(In_nth_ex (T2 0 [::], [::])) [i li ei] bi; congr (_, _).
have [se gse] : exists se, dget it.2 b = Some se by apply: dhas_get.
rewrite gse /= /m (@cfold_at _ _ its 0 [::] i b se) ?ei //=; last first.
  move=> i' h1 h2; apply/negP => h.
  move: u (bi) (h) h1 h2; rewrite -{1}ei; clear -li; elim: its i i' li => [|x l IH] [|i] [|i'] //= li.
    rewrite cat_uniq => /and3P [_ /hasPn nh _] h1 h2 _ li'; have := nh b; rewrite /= h1 => /(_ _) /negP; apply=> //.
    apply/flattenP; exists (dkeys (nth (T2 0 [::], [::]) l i').2) => //.
    by rewrite -(nth_map _ [::] (fun it : item => dkeys it.2)) // mem_nth // size_map.
  by rewrite cat_uniq => /and3P [_ _ u] h1 h2; apply: (IH i i').
rewrite add0n /g; have := @rows_cat T [seq it.1 | it <- its] i n se.
rewrite !size_map (nth_map (T2 0 [::], [::])) ?size_map // ei => /(_ li).
rewrite -map_take -map_comp; apply.
by apply: (bd it b) => //; rewrite -ei; apply: In_nth.
Qed.
End Contents.

Lemma pmap_filter (A : eqType) (B : Type) (p : pred A) (f : A -> B) (g : A -> option B) (l : seq A) :
  {in l, forall a, g a = if p a then Some (f a) else None} -> pmap g l = [seq f a | a <- l & p a].
Proof.
elim: l => [|a l IH] //= h; rewrite h ?mem_head // IH; last by move=> x xl; apply: h; rewrite inE xl orbT.
by case: (p a).
Qed.

Section Loader.
Variables (T : eqType) (z : T) (cs mx : nat).
Variable listing : seq fkey -> seq fkey.
Hypothesis lperm : forall l, perm_eq (listing l) l.
Variable fle : ssrbool.rel fkey.
Variable ds : seq nat.
Notation W := (sumn ds).
Notation item := (item T). Notation entry := (entry T).
Notation Inv := (Inv cs ds).
Implicit Types (S : seq entry) (d : disk T).

(* the rows of an item are the rows of its batches, in order *)
Definition tightit (it : item) : Prop := t2r it.1 = flatten [seq e.2 | e <- contents it].
Definition sel (range : option (nat * nat)) (info : binfo) := [seq x <- info | in_range range x.1].

(* one chunk *)
Lemma load_rangeE d fk f m range : uniq (dkeys d) -> all (okfile ds) d -> dget d fk = Some f ->
  f_meta f = Some (MFull m) -> uniq [seq x.1 | x <- mt_info m] -> sel range (mt_info m) != [::] ->
  exists it, [/\ load_range d range fk = Ok it, t2c it.1 = W, dkeys it.2 = [seq x.1 | x <- sel range (mt_info m)],
    (forall b se, dget it.2 b = Some se -> se.2 <= nrows it.1) &
    contents it = [seq (x.1, slice x.2 (f_data f)) | x <- sel range (mt_info m)] /\ tightit it].
Proof.
move=> ud al g mf un ns; rewrite /load_range (load_full ud al g mf) /=.
have := all_dget al g; rewrite /okfile mf /= => /and5P [/and3P [_ ok /eqP tight] _ _ /eqP sh _].
rewrite sh; case: range ns => [[a b]|] ns; last first.
  have se : sel None (mt_info m) = mt_info m by rewrite /sel (eq_filter (a2 := predT)) ?filter_predT.
  rewrite se.
  have fe : foldl (fun (mp : nmap) (x : nat * (nat * nat)) => dset mp x.1 x.2) [::] (mt_info m) = mt_info m.
    have H (l mp : nmap) : uniq (dkeys mp ++ dkeys l) ->
       foldl (fun (mp : nmap) (x : nat * (nat * nat)) => dset mp x.1 x.2) mp l = mp ++ l.
      elim: l mp => [|[k v] l IH] mp /=; first by rewrite !cats0.
      rewrite -cat_rcons => u; have nk : dhas mp k = false.
        apply/negbTE; move: u; rewrite cat_uniq rcons_uniq => /andP [/andP [nk _] _]; exact: nk.
      have ks : dkeys (dset mp k v) = rcons (dkeys mp) k by rewrite dkeys_set nk.
      rewrite IH ?ks //; by rewrite /dset nk cat_rcons.
    by rewrite H //.
  rewrite fe; eexists; split; [reflexivity|by []|by []| |by split; rewrite // /tightit /contents /= -map_comp -[LHS]tight].
  by move=> b se' gse; have := all_dget (P := fun x : nat * (nat * nat) => x.2.1 < x.2.2 <= size (f_data f)) ok gse => /andP [].
have okl : all (fun x => x.2.1 < x.2.2 <= size (f_data f)) (sel (Some (a, b)) (mt_info m)).
  by apply/allP => x; rewrite mem_filter => /andP [_ /(allP ok)].
have ul : uniq [seq x.1 | x <- sel (Some (a, b)) (mt_info m)].
  by apply: subseq_uniq un; apply: map_subseq; apply: filter_subseq.
rewrite -/(sel (Some (a, b)) (mt_info m)) in ns okl ul *.
move: (sel (Some (a, b)) (mt_info m)) ns okl ul => l ns okl ul.
pose F := fun (acc : seq (seq T) * nmap * nat) (x : nat * (nat * nat)) =>
  let: (rows, m, o) := acc in
        (rows ++ slice x.2 (f_data f), dset m x.1 (o, o + (x.2.2 - x.2.1)), o + (x.2.2 - x.2.1)).
have H l' rows mp : uniq (dkeys mp ++ [seq x.1 | x <- l']) ->
    all (fun x => x.2.1 < x.2.2 <= size (f_data f)) l' ->
    (forall b se, dget mp b = Some se -> se.2 <= size rows) ->
    exists rows' mp', [/\ foldl F (rows, mp, size rows) l' = (rows ++ rows', mp ++ mp', size (rows ++ rows')),
      dkeys mp' = [seq x.1 | x <- l'],
      (forall b se, dget (mp ++ mp') b = Some se -> se.2 <= size (rows ++ rows')),
      rows' = flatten [seq slice x.2 (f_data f) | x <- l'] &
      [seq (e.1, rows_at (T2 W (rows ++ rows')) e.2) | e <- mp'] = [seq (x.1, slice x.2 (f_data f)) | x <- l']].
  elim: l' rows mp => [|[i [p q]] l' IH] rows mp.
    by move=> _ _ h; exists [::], [::]; rewrite /= !cats0; split=> // b0 se; rewrite cats0; apply: h.
  rewrite [map _ _]/= -cat_rcons => u /andP [/= hpq okl'] bnd.
  have nk : dhas mp i = false.
    apply/negbTE; move: u; rewrite cat_uniq rcons_uniq => /andP [/andP [nk _] _]; exact: nk.
  have ds_ v : dset mp i v = rcons mp (i, v) by rewrite /dset nk.
  have ks v : dkeys (rcons mp (i, v)) = rcons (dkeys mp) i by rewrite /dkeys map_rcons.
  have szs : size (slice (p, q) (f_data f)) = q - p by apply: size_slice.
  rewrite ds_ -szs -size_cat.
  set v := (size rows, size (rows ++ slice (p, q) (f_data f))).
  have [|||rows' [mp' [e1 e2 e3 e4 e5]]] := IH (rows ++ slice (p, q) (f_data f)) (rcons mp (i, v)).
  - by rewrite ks.
  - by [].
  - move=> b0 se; rewrite dget_rcons ?nk //; case: eqP => [_ [<-] //|_ /bnd h].
    by rewrite size_cat; apply: leq_trans h (leq_addr _ _).
  exists (slice (p, q) (f_data f) ++ rows'), ((i, v) :: mp'); rewrite e1 !catA -cat_rcons; split=> //=.
  - by rewrite e2.
  - by rewrite e4.
  congr (_ :: _); last exact: e5.
  have h1 : 0 < size (slice (p, q) (f_data f)) by rewrite szs; case/andP: hpq => hp _; rewrite subn_gt0.
  congr (_, _); rewrite /rows_at /= drop_cat size_cat; case: ltnP => h.
    rewrite drop_cat ltnn subnn drop0 take_cat addKn ltnn subnn take0 cats0 //.
  by move: h h1; rewrite -{2}[size rows]addn0 leq_add2l leqn0 => /eqP ->.
have [|rows' [mp' [e1 e2 e3 e4 e5]]] := H l [::] [::] ul okl; first by [].
rewrite -/F e1 /=.
have nr : nilp rows' = false.
  apply/negbTE; rewrite e4; case: (l) ns okl => [|[i [p q]] l'] //= _ /andP [h _].
  by rewrite /nilp size_cat size_slice // addn_eq0 subn_eq0 leqNgt; case/andP: h => ->.
rewrite nr; eexists; split; [reflexivity|by []|exact: e2|exact: e3|split; first exact: e5].
rewrite /tightit /contents /= [map _ mp']e5 -map_comp e4; congr flatten.
Qed.

Definition metaof d (fk : fkey) : meta := if read_meta d fk is Ok m then m else Meta [::] (0, 0) [::].
Definition kept d range (fk : fkey) : bool := sel range (mt_info (metaof d fk)) != [::].

Section Dir.
Variables (S : seq entry) (d : disk T).
Hypothesis I : Inv S (open_disk listing d).

Lemma dir_full fk f : dget d fk = Some f -> exists2 m, f_meta f = Some (MFull m) & metaof d fk = m.
Proof.
move=> g; case mf: (f_meta f) => [[|m]|]; try by
  have [|w [t [n []]]] := i_part I g; rewrite /unfull ?mf.
by exists m => //; rewrite /metaof (read_full g mf).
Qed.
Lemma dir_ents : perm_eq (flat (@ef T) d) S. Proof. exact: (i_ents I). Qed.
Lemma ef_full (fk : fkey) (f : file T) m : f_meta f = Some (MFull m) -> ef (fk, f) = entp fk.1 (f_data f) (mt_info m).
Proof. by rewrite /ef /= => ->. Qed.
Lemma info_uniq fk f m : dget d fk = Some f -> f_meta f = Some (MFull m) -> uniq [seq x.1 | x <- mt_info m].
Proof.
move=> g mf.
have pe : perm_eq (ef (fk, f) ++ flat (@ef T) (ddel d fk)) S.
  apply: perm_trans dir_ents; rewrite perm_sym; apply/permP => p.
  by rewrite count_cat (count_ddel _ p (i_ud I) g).
have := i_uS I; rewrite -(perm_uniq (perm_map _ pe)) map_cat cat_uniq (ef_full fk mf) => /andP [u _].
move: u; rewrite /entp -map_comp.
rewrite (_ : [seq _ | _ <- _] = [seq (fk.1, i) | i <- [seq x.1 | x <- mt_info m]]); last by rewrite -map_comp.
exact: map_uniq.
Qed.

Lemma chunk_infoE k range : exists2 L, chunk_info listing fle k d range = [seq (fk, metaof d fk) | fk <- L]
  & perm_eq L [seq fk <- dkeys d | (fk.1 == k) && kept d range fk].
Proof.
rewrite /chunk_info (@pmap_filter _ _ (kept d range) (fun fk => (fk, metaof d fk))).
  rewrite sort_map; eexists; first by reflexivity.
  rewrite perm_sort; apply: (@perm_trans _ [seq fk <- [seq fk <- dkeys d | fk.1 == k] | kept d range fk]); last first.
    by rewrite -filter_predI (eq_filter (a2 := fun fk : fkey => (fk.1 == k) && kept d range fk)) // => fk /=; rewrite andbC.
  apply: perm_filter; rewrite perm_sort; apply: perm_trans (lperm _) _.
  rewrite (eq_in_filter (a2 := fun fk : fkey => fk.1 == k)) // => fk fi.
  have [f g] : exists f, dget d fk = Some f by apply: dhas_get.
  have [m mf _] := dir_full g; by rewrite g mf andbT.
move=> fk; rewrite (mem_chunk_files lperm) => /and3P [fi _ _].
have [f g] : exists f, dget d fk = Some f by apply: dhas_get.
have [m mf em] := dir_full g; rewrite (read_full g mf) /kept em.
have := all_dget (i_files I) g; rewrite /okfile mf /= => /and5P [_ ni _ _ _].
case: range => [[a b]|]; first by rewrite has_filter.
by rewrite /sel (eq_filter (a2 := predT)) // filter_predT; case: (mt_info m) ni.
Qed.

Lemma load_itemE range fk : fk \in dkeys d -> kept d range fk -> exists f m,
  [/\ dget d fk = Some f, f_meta f = Some (MFull m) &
  let it := load_item d range (fk, metaof d fk) in
  [/\ t2c it.1 = W, dkeys it.2 = [seq x.1 | x <- sel range (mt_info m)],
    (forall b se, dget it.2 b = Some se -> se.2 <= nrows it.1) &
    contents it = [seq (x.1, slice x.2 (f_data f)) | x <- sel range (mt_info m)] /\ tightit it]].
Proof.
move=> fi; have [f g] : exists f, dget d fk = Some f by apply: dhas_get.
have [m mf em] := dir_full g; rewrite /kept em => ks.
have [it [h1 h2 h3 h4 h5]] := load_rangeE (i_ud I) (i_files I) g mf (info_uniq g mf) ks.
by exists f, m; split=> //; rewrite /load_item h1.
Qed.

Definition wanted (k : bool) range : seq (nat * seq (seq T)) :=
  [seq (e.1.2, e.2) | e <- S & (e.1.1 == k) && in_range range e.1.2].

Lemma perm_flat_map (A : eqType) (B : eqType) (h : A -> seq B) (l l' : seq A) : perm_eq l l' ->
  perm_eq (flatten [seq h a | a <- l]) (flatten [seq h a | a <- l']).
Proof. by move=> pe; apply/perm_flatten/perm_map. Qed.

(* every item of the data set, in the order of the loader *)
Lemma items_contents k range : let its := [seq load_item d range c | c <- chunk_info listing fle k d range] in
  [/\ all (fun it => t2c it.1 == W) its,
      (forall it b se, List.In it its -> dget it.2 b = Some se -> se.2 <= nrows it.1),
      (forall it, List.In it its -> dkeys it.2 = [seq e.1 | e <- contents it]) &
      perm_eq (flatten [seq contents it | it <- its]) (wanted k range) /\ (forall it, List.In it its -> tightit it)].
Proof.
have [L -> pL] := chunk_infoE k range; rewrite /= -map_comp.
have inL fk : fk \in L -> [/\ fk \in dkeys d, fk.1 = k & kept d range fk].
  by rewrite (perm_mem pL) mem_filter => /andP [/andP [/eqP -> ->] ->].
have InL it : List.In it [seq load_item d range (fk, metaof d fk) | fk <- L] ->
   exists2 fk, fk \in L & it = load_item d range (fk, metaof d fk).
  elim: (L) => [|fk l IH] //= [<-|/IH [fk' h ->]]; first by exists fk => //; rewrite mem_head.
  by exists fk' => //; rewrite inE h orbT.
split.
- rewrite all_map; apply/allP => fk /inL [h1 h2 h3] /=.
  by have [f [m [_ _ [/eqP -> _ _ _]]]] := load_itemE h1 h3.
- by move=> it b se /InL [fk /inL [h1 h2 h3] ->]; have [f [m [_ _ [_ _ h _]]]] := load_itemE h1 h3; apply: h.
- by move=> it _; rewrite /contents -map_comp.
split; last by move=> it /InL [fk /inL [h1 h2 h3] ->]; have [f [m [_ _ [_ _ _ []]]]] := load_itemE h1 h3.
pose C fk := if dget d fk is Some f then
  [seq (e.1.2, e.2) | e <- ef (fk, f) & (e.1.1 == k) && in_range range e.1.2] else [::].
have CE fk f m : dget d fk = Some f -> f_meta f = Some (MFull m) -> fk.1 = k ->
   C fk = [seq (x.1, slice x.2 (f_data f)) | x <- sel range (mt_info m)].
  move=> g mf k1; rewrite /C g (ef_full fk mf) /entp filter_map -map_comp /sel.
  by congr map; apply: eq_filter => x /=; rewrite k1 eqxx.
rewrite -map_comp (_ : map _ L = map C L); last first.
  apply/eq_in_map => fk /inL [h1 h2 h3] /=.
  have [f [m [g mf [_ _ _ [-> _]]]]] := load_itemE h1 h3; by rewrite (CE _ _ _ g mf h2).
apply: (perm_trans (perm_flat_map C pL)).
have -> : flatten [seq C fk | fk <- dkeys d & (fk.1 == k) && kept d range fk] = flatten [seq C fk | fk <- dkeys d].
  have : {subset dkeys d <= dkeys d} by [].
  elim: {1 3 4}(dkeys d) => [|fk l IH] //= sb.
  have fi : fk \in dkeys d by apply: sb; rewrite mem_head.
  rewrite -IH; last by move=> x xl; apply: sb; rewrite inE xl orbT.
  case: ifP => //= /negbT; rewrite negb_and.
  have [f g] : exists f, dget d fk = Some f by apply: dhas_get.
  have [m mf em] := dir_full g.
  case/orP => [nk|nk]; rewrite [C fk](_ : _ = [::]) //.
    rewrite /C g (ef_full fk mf) /entp filter_map -map_comp.
    by rewrite (eq_filter (a2 := pred0)) ?filter_pred0 // => x /=; rewrite (negbTE nk).
  case: (fk.1 =P k) => [k1|/eqP/negbTE nk1].
    by rewrite (CE _ _ _ g mf k1); move: nk; rewrite /kept em negbK => /eqP ->.
  rewrite /C g (ef_full fk mf) /entp filter_map -map_comp.
  by rewrite (eq_filter (a2 := pred0)) ?filter_pred0 // => x /=; rewrite nk1.
have -> : flatten [seq C fk | fk <- dkeys d] =
   [seq (e.1.2, e.2) | e <- flat (@ef T) d & (e.1.1 == k) && in_range range e.1.2].
  have : forall kv, List.In kv d -> dget d kv.1 = Some kv.2 by move=> kv; apply: dget_in (i_ud I).
  rewrite /C; move: {2 3}d => d'; elim: (d) => [|[fk f] l IH] //= h.
  rewrite IH; last by move=> kv kl; apply: h; right.
  by rewrite flat_cons filter_cat map_cat (h (fk, f)) //; left.
exact/perm_map/perm_filter/dir_ents.
Qed.
End Dir.

Lemma collate_all (bl : seq (seq item)) : all (fun b => 0 < size b) bl ->
  all (fun it => t2c it.1 == W) (flatten bl) -> uniq (flatten [seq dkeys it.2 | it <- flatten bl]) ->
  (forall it b se, List.In it (flatten bl) -> dget it.2 b = Some se -> se.2 <= nrows it.1) ->
  (forall it, List.In it (flatten bl) -> tightit it) ->
  exists outs, [/\ [seq collate_async b | b <- bl] = [seq Ok it | it <- outs],
      all (fun it => t2c it.1 == W) outs &
      flatten [seq contents it | it <- outs] = flatten [seq contents it | it <- flatten bl] /\
      (forall it, List.In it outs -> tightit it)].
Proof.
elim: bl => [|b bl IH] /=; first by exists [::].
case/andP => b0 al; rewrite all_cat => /andP [w1 w2] u bd tt.
have /and3P [u1 _ u2] : [&& uniq (flatten [seq dkeys it.2 | it : item <- b]),
    ~~ has (mem (flatten [seq dkeys it.2 | it : item <- b])) (flatten [seq dkeys it.2 | it : item <- flatten bl])
    & uniq (flatten [seq dkeys it.2 | it : item <- flatten bl])].
  by rewrite -cat_uniq -flatten_cat -map_cat.
have [|it [h1 h2 _ h4 h3]] := collate_contents b0 w1 u1.
  by move=> x c se xi; apply: bd; apply/List.in_app_iff; left.
have [||outs [e1 e2 [e3 e4]]] := IH al w2 u2.
- by move=> x c se xi; apply: bd; apply/List.in_app_iff; right.
- by move=> x xi; apply: tt; apply/List.in_app_iff; right.
exists (it :: outs); split=> /=.
- by rewrite h1 e1.
- by rewrite h2 eqxx.
- split; first by rewrite h3 e3 map_cat flatten_cat.
  move=> x [<-|/e4 //]; rewrite /tightit h4 h3.
  have tb y : List.In y b -> tightit y by move=> yb; apply: tt; apply/List.in_app_iff; left.
  elim: (b) tb => //= y l IHl h; rewrite map_cat flatten_cat (h y (or_introl erefl)) IHl // => y' hy; apply: h; by right.
Qed.

Lemma loaderP S d k range bs : Inv S (open_disk listing d) -> 0 < bs -> exists outs,
  [/\ disk_loader listing fle k d range bs = [seq Ok it | it <- outs],
      all (fun it => t2c it.1 == W) outs,
      perm_eq (flatten [seq contents it | it <- outs]) (wanted S k range),
      uniq (flatten [seq dkeys it.2 | it <- outs]) &
      forall it, List.In it outs -> tightit it].
Proof.
move=> I b0; have [aw bd ke [pe ti]] := items_contents I k range.
rewrite /disk_loader; set its := [seq _ | _ <- _] in aw bd ke pe ti *.
have ck (l : seq item) : flatten [seq dkeys it.2 | it <- l] = [seq e.1 | e <- flatten [seq contents it | it <- l]].
  elim: l => [|it l IHl] //=; rewrite map_cat -IHl; congr (_ ++ _); by rewrite /contents -map_comp.
have uw : uniq [seq e.1 | e <- wanted S k range].
  rewrite /wanted -map_comp; apply: (@map_uniq _ _ (fun b => (k, b))).
  have u : uniq [seq e.1 | e <- S & (e.1.1 == k) && in_range range e.1.2].
    by apply: subseq_uniq (i_uS I); apply: map_subseq; apply: filter_subseq.
  rewrite -map_comp; move: u; congr uniq; apply/eq_in_map => e.
  by rewrite mem_filter => /andP [/andP [/eqP <- _] _] /=; case: (e.1).
have uk : uniq (flatten [seq dkeys it.2 | it <- its]) by rewrite ck (perm_uniq (perm_map _ pe)).
pose L := Loader its bs false.
have fl : flatten [seq batch L j | j <- iota 0 (nbatches L)] = its by apply: flatten_all_batches.
have [|||||outs [e1 e2 [e3 e4]]] := @collate_all [seq batch L j | j <- iota 0 (nbatches L)].
- rewrite all_map; apply/allP => j; rewrite mem_iota add0n /=; exact: chunk_gt0.
- by rewrite fl.
- by rewrite fl.
- by rewrite fl.
- by rewrite fl.
exists outs; rewrite fl in e3; split=> //.
- by rewrite -e1 /enum_batches -!map_comp.
- by rewrite e3.
- by rewrite ck e3 -ck.
Qed.

(* the prefetching data set *)
Section Prefetch.
Variables (d : disk T) (range : option (nat * nat)) (pf : nat) (ci : seq (fkey * meta)).
Definition pgood (s : pstate T) := forall i it, dget (p_cache s) i = Some it ->
  i < size ci /\ it = load_item d range (nth ci_dflt ci i).
Lemma p_getP s i : pgood s -> pgood (p_get d range ci i s).1 /\
  (p_get d range ci i s).2 = if i < size ci then Ok (load_item d range (nth ci_dflt ci i)) else Err IndexError.
Proof.
move=> g; rewrite /p_get; case: leqP => h //; case e: (dget (p_cache s) i) => [it|].
  by split=> //; have [_ ->] := g _ _ e.
rewrite /load_item; case e2: (load_range d range (nth ci_dflt ci i).1) => [it|er] //; split=> // j it' /=.
by rewrite dgetE; case: eqP => [-> [<-]|_ /g //]; rewrite /load_item e2.
Qed.
Lemma dget_filter (V : Type) (c : dict nat_eqType V) (p : pred nat) i v :
  dget [seq kv <- c | p kv.1] i = Some v -> dget c i = Some v.
Proof.
elim: c => [|[a w] c IH] //=; case: ifP => h; rewrite !dget_cons; case: eqP => // ea.
move=> hg; have := @dget_mem _ _ _ _ _ hg.
have -> : dkeys [seq kv <- c | p kv.1] = [seq b <- dkeys c | p b] by rewrite /dkeys filter_map.
by rewrite mem_filter -ea h.
Qed.
Lemma p_loadP s i cur : pgood s -> pgood (p_load d range pf ci i cur s).
Proof.
move=> g; rewrite /p_load; case: leqP => // h.
case e: (load_range d range (nth ci_dflt ci i).1) => [it|er] //.
have g' : forall j it', dget (dset (p_cache s) i it) j = Some it' ->
    j < size ci /\ it' = load_item d range (nth ci_dflt ci j).
  by move=> j it'; rewrite dgetE; case: eqP => [-> [<-]|_ /g //]; rewrite /load_item e.
move=> j it' /=; case: ifP => _; last exact: g'.
move=> h'; apply: g'; exact: (dget_filter (p := fun b => cur.-1 <= b)) h'.
Qed.
Lemma p_runP s ls : pgood s -> p_run d range pf ci s ls =
  pmap (fun l => if l is PGet i then Some (if i < size ci then Ok (load_item d range (nth ci_dflt ci i))
                                            else Err IndexError) else None) ls.
Proof.
elim: ls s => [|[i|i cur] ls IH] s g //=; last by apply: IH; apply: p_loadP.
by have [h1 ->] := p_getP i g; rewrite IH.
Qed.
End Prefetch.
End Loader.
