(* Invariants and the simulation of PoolModel by DiskModel. *)
Set Warnings "-notation-overridden,-ambiguous-paths".
From mathcomp Require Import all_ssreflect all_algebra zify.
From Verif Require Import Py Dict Tensor OffModel DiskModel PoolModel.
Set Implicit Arguments. Unset Strict Implicit. Unset Printing Implicit Defensive.

Section DictMap.
Variables (K : eqType) (A B : Type).
Implicit Type d : dict K A.
Definition dmap (f : A -> B) d : dict K B := [seq (p.1, f p.2) | p <- d].
Lemma dget_dmap f d k : dget (dmap f d) k = omap f (dget d k).
Proof. by elim: d => [|[a b] d IH] //=; rewrite /dmap /= !dget_cons; case: (a == k). Qed.
Lemma dhas_dmap f d k : dhas (dmap f d) k = dhas d k.
Proof. by rewrite !dget_has dget_dmap; case: (dget d k). Qed.
Lemma dkeys_dmap f d : dkeys (dmap f d) = dkeys d.
Proof. by rewrite /dkeys /dmap -map_comp. Qed.
Lemma dset_dmap f d k v : dmap f (dset d k v) = dset (dmap f d) k (f v).
Proof.
rewrite /dset dhas_dmap; case: ifP => _; last by rewrite /dmap map_rcons.
by rewrite /dmap -!map_comp; apply: eq_map => -[a b] /=; case: (a == k).
Qed.
Lemma ddel_dmap f d k : dmap f (ddel d k) = ddel (dmap f d) k.
Proof. by elim: d => [|[a b] d IH] //=; rewrite /dmap /ddel /=; case: (a != k) => //=; rewrite -/(ddel d k) -/(dmap _ _) IH. Qed.
Lemma dmap_ext f g d : uniq (dkeys d) -> (forall k v, dget d k = Some v -> f v = g v) -> dmap f d = dmap g d.
Proof.
elim: d => [|[a b] d IH] //= /andP [na u] h; rewrite (h a b) ?dget_cons ?eqxx // -!/(dmap _ _) IH // => k v e.
apply: (h k v); rewrite dget_cons; case: (a =P k) => // ak; by case/negP: na; rewrite ak; apply: dget_mem e.
Qed.
(* one value changes *)
Lemma dmap_upd f g d k v : uniq (dkeys d) -> dget d k = Some v ->
  (forall k' v', k' != k -> dget d k' = Some v' -> f v' = g v') -> dmap g d = dset (dmap f d) k (g v).
Proof.
move=> u e h; have hk : dhas d k by rewrite dget_has e.
rewrite /dset dhas_dmap hk /dmap -map_comp; elim: d u e h {hk} => [|[a b] d IH] //= /andP [na u] e h.
case: (a =P k) e => [ak|ak]; rewrite dget_cons ?eqxx.
  subst k; rewrite eqxx => -[->]; congr (_ :: _); rewrite -!/(dmap _ _).
  have nk k' v' : dget d k' = Some v' -> k' != a by move=> e; apply: contraNneq na => <-; apply: dget_mem e.
  have -> : [seq ((fun p : K * B => if p.1 == a then (a, g v) else p) \o (fun p => (p.1, f p.2))) i | i <- d] = dmap f d.
    by apply/esym; elim: d na {IH u h nk} => [|[x y] d IH] //=; rewrite inE negb_or eq_sym => /andP [/negbTE -> /IH ->].
  by apply: dmap_ext => // k' v' e; apply/esym; apply: (h k') => //; [exact: nk e|rewrite dget_cons eq_sym (negbTE (nk _ _ e))].
case: (a =P k) => // _ e; congr (_ :: _); last first.
  apply: IH => // k' v' ne e'; apply: (h k') => //; rewrite dget_cons; case: (a =P k') => // ak'.
  by case/negP: na; rewrite ak'; apply: dget_mem e'.
by rewrite (h a b) ?dget_cons ?eqxx //; apply/eqP.
Qed.
Lemma dset_dset d k v w : dset (dset d k v) k w = dset d k w.
Proof.
rewrite /dset; case h: (dhas d k).
  have -> : dhas [seq if p.1 == k then (k, v) else p | p <- d] k = dhas (dset d k v) k by rewrite /dset h.
  rewrite dhas_set eqxx -map_comp; apply: eq_map => -[a b] /=; by case e: (a == k) => /=; rewrite ?eqxx ?e.
have -> : dhas (rcons d (k, v)) k = dhas (dset d k v) k by rewrite /dset h.
rewrite dhas_set eqxx map_rcons /= eqxx; congr rcons.
elim: d h => [|[a b] d IH] //=; rewrite /dhas /= inE eq_sym => /negbT; rewrite negb_or => /andP [/negbTE -> h].
by rewrite IH //; apply/negbTE.
Qed.
End DictMap.

Section Pool.
Variables (T : Type) (z : T) (cs mx psz : nat) (listing : seq fkey -> seq fkey) (cpu : bool).
Notation gr := (gr T). Notation mstate := (mstate T). Notation cell := (cell T).
Notation mstore := (mstore z cs mx psz listing). Notation mflush := (mflush psz).
Notation pool_size := (pool_size psz).
Implicit Type m : mstate.

Definition buf_of (c : cell) : buf T := Buf (seq.take (c_cur c) (c_rows c)) (c_info c).
(* the state of DiskModel a state with buffers stands for *)
Definition abs m : dstate T := upd_bufs (dmap (fun i => buf_of (cell_at m i)) (m_open m)) (m_rest m).

Record cell_ok (ds : option (seq nat)) (c : cell) : Prop := {
  co_rows : size (c_rows c) = mx; co_cur : c_cur c <= mx; co_idx : c_idx c = [seq x.1 | x <- c_info c];
  co_w : ds = Some (odflt [::] ds) /\ c_w c = sumn (odflt [::] ds) }.
(* no buffer has two owners *)
Record minv m : Prop := {
  mi_ko : uniq (dkeys (m_open m));
  mi_oo : forall k1 k2 i, dget (m_open m) k1 = Some i -> dget (m_open m) k2 = Some i -> k1 = k2;
  mi_lo : forall k i, dget (m_open m) k = Some i -> i < size (m_heap m);
  mi_uq : forall k q, dget (m_pool m) k = Some q -> uniq q;
  mi_lq : forall k q i, dget (m_pool m) k = Some q -> i \in q -> i < size (m_heap m);
  mi_qq : forall k1 k2 q1 q2 i, dget (m_pool m) k1 = Some q1 -> dget (m_pool m) k2 = Some q2 -> i \in q1 -> i \in q2 -> k1 = k2;
  mi_oq : forall k k' q i, dget (m_open m) k = Some i -> dget (m_pool m) k' = Some q -> i \notin q;
  mi_cap : forall k q, dget (m_pool m) k = Some q -> size q <= pool_size;
  mi_has : forall key, dhas (m_open m) key -> dhas (m_pool m) key.1;
  mi_cell : forall i, i < size (m_heap m) -> cell_ok (d_dims (m_rest m)) (cell_at m i) }.

Lemma minv_open d : minv (mopen listing d).
Proof. by split. Qed.
Lemma abs_open d : abs (mopen listing d) = open_disk listing d.
Proof. by []. Qed.
Lemma pool_pos : 0 < pool_size. Proof. by rewrite /pool_size leq_max. Qed.

Lemma get_dims_abs k gs m : get_dims listing k gs (m_rest m) = get_dims listing k gs (abs m).
Proof. by []. Qed.
Lemma get_dims_some k gs (s : dstate T) ds l : get_dims listing k gs s = Ok ds -> d_dims s = Some l -> ds = l.
Proof. by rewrite /get_dims /ensure_dims_disk /ensure_dims => + e; rewrite e; case: k => -[->]. Qed.

(* the dimensions are set once *)
Lemma minv_dims ds m : minv m -> (forall l, d_dims (m_rest m) = Some l -> ds = l) ->
  minv (set_rest (upd_dims (Some ds) (m_rest m)) m).
Proof.
move=> I H; split=> /=; [exact: (mi_ko I)|exact: (mi_oo I)|exact: (mi_lo I)|exact: (mi_uq I)|exact: (mi_lq I)|exact: (mi_qq I)|
  exact: (mi_oq I)|exact: (mi_cap I)|exact: (mi_has I)|].
move=> i hi; have [? ? ? [e w]] := mi_cell I hi; split=> //=; split=> //.
by case: (d_dims (m_rest m)) e w H => [l|] //= _ -> /(_ l erefl) ->.
Qed.
Lemma abs_dims ds m : abs (set_rest (upd_dims (Some ds) (m_rest m)) m) = upd_dims (Some ds) (abs m).
Proof. by []. Qed.

Lemma cell_at_cat m h p o r i : i < size (m_heap m) -> cell_at (MState (m_heap m ++ h) p o r) i = cell_at m i.
Proof. by move=> hi; rewrite /cell_at /= nth_cat hi. Qed.
Lemma get_poolP k ds m : minv m -> d_dims (m_rest m) = Some ds -> let m' := get_pool z mx psz k (sumn ds) m in
  [/\ minv m', abs m' = abs m, dhas (m_pool m') k & m_rest m' = m_rest m /\ m_open m' = m_open m].
Proof.
move=> I ed; rewrite /get_pool; case: ifP => [h|/negbT h] //=.
have gp k' : dget (dset (m_pool m) k (iota (size (m_heap m)) pool_size)) k'
   = if k' == k then Some (iota (size (m_heap m)) pool_size) else dget (m_pool m) k' by rewrite dgetE.
split=> //; last by rewrite dhas_set eqxx.
- split=> /=; first exact: (mi_ko I); first exact: (mi_oo I).
  + by move=> k0 i /(mi_lo I) h0; rewrite size_cat; apply: leq_trans h0 (leq_addr _ _).
  + by move=> k0 q; rewrite gp; case: ifP => _; [case=> <-; exact: iota_uniq|move=> /(mi_uq I)].
  + move=> k0 q i; rewrite gp size_cat size_nseq; case: ifP => _; first by case=> <-; rewrite mem_iota => /andP [].
    by move=> e /(mi_lq I e) h0; apply: leq_trans h0 (leq_addr _ _).
  + move=> k1 k2 q1 q2 i; rewrite !gp; case: (k1 =P k) => [->|_]; case: (k2 =P k) => [->|_] //.
    * by case=> <- e2; rewrite mem_iota => /andP [h1 _] /(mi_lq I e2); rewrite ltnNge h1.
    * by move=> e1 [<-] /(mi_lq I e1) h1; rewrite mem_iota leqNgt h1.
    * exact: (mi_qq I).
  + move=> k0 k' q i e; rewrite gp; case: ifP => _; last exact: (mi_oq I e).
    by case=> <-; rewrite mem_iota leqNgt (mi_lo I e).
  + by move=> k0 q; rewrite gp; case: ifP => _; [case=> <-; rewrite size_iota|move=> /(mi_cap I)].
  + by move=> key hk; rewrite dhas_set (mi_has I hk) orbT.
  + move=> i; rewrite size_cat size_nseq => hi; have [h0|h0] := ltnP i (size (m_heap m)).
      by rewrite cell_at_cat //; exact: (mi_cell I).
    rewrite /cell_at /= nth_cat ltnNge h0 nth_nseq /=; case: ifP => [_|/negP []]; last by lia.
    by split=> //=; rewrite ?size_nseq // ed.
- rewrite /abs /=; congr (upd_bufs _ _); apply: dmap_ext; first exact: (mi_ko I).
  move=> k0 v /(mi_lo I) hv; by rewrite cell_at_cat.
Qed.

Lemma cell_set m i c p o r j : i < size (m_heap m) ->
  cell_at (MState (m_heap (set_cell i c m)) p o r) j = if j == i then c else cell_at m j.
Proof. by move=> hi; rewrite /cell_at /= nth_set_nth. Qed.
Lemma size_set m i c : i < size (m_heap m) -> size (m_heap (set_cell i c m)) = size (m_heap m).
Proof. by move=> hi; rewrite /= size_set_nth; apply/maxn_idPr. Qed.

Lemma abs_same m m' (b : dict ckey (buf T)) : m_rest m' = m_rest m ->
  dmap (fun i => buf_of (cell_at m' i)) (m_open m') = b -> abs m' = upd_bufs b (abs m).
Proof. by rewrite /abs => -> ->. Qed.
(* a buffer of the pool is opened *)
Lemma open_some key m i q : minv m -> ~~ dhas (m_open m) key -> dget (m_pool m) key.1 = Some (i :: q) ->
  let m' := set_open key i (get_buffer key.1 m).1 in
  [/\ (get_buffer key.1 m).2 = Some i, minv m' & abs m' = upd_bufs (dset (d_bufs (abs m)) key (buf0 T)) (abs m)].
Proof.
move=> I hk e; rewrite /get_buffer e /=; split=> //.
- have hi : i < size (m_heap m) by apply: (mi_lq I e); rewrite inE eqxx.
  have gk : dget (m_open m) key = None by move: hk; rewrite dget_has; case: (dget _ key).
  have gp k' : dget (dset (m_pool m) key.1 q) k' = if k' == key.1 then Some q else dget (m_pool m) k' by rewrite dgetE.
  have go k' : dget (dset (m_open m) key i) k' = if k' == key then Some i else dget (m_open m) k' by rewrite dgetE.
  have no k' : dget (m_open m) k' = Some i -> False by move=> /(mi_oq I) /(_ e); rewrite inE eqxx.
  have nq k' q' : dget (m_pool m) k' = Some q' -> k' != key.1 -> i \notin q'.
    by move=> e'; apply: contra => iq; rewrite (mi_qq I e' e iq) // inE eqxx.
  have uq := mi_uq I e; have iq : i \notin q by case/andP: uq.
  split=> /=.
  + exact: uniq_dset (mi_ko I).
  + move=> k1 k2 j; rewrite !go; case: (k1 =P key) => [->|_]; case: (k2 =P key) => [->|_] //.
    * by move=> [<-] /no.
    * by move=> e1 [ej]; move: e1; rewrite -ej => /no.
    * exact: (mi_oo I).
  + move=> k j; rewrite go (size_set _ hi); case: ifP => _; [by case=> <-|exact: (mi_lo I)].
  + by move=> k q'; rewrite gp; case: ifP => _; [case=> <-; case/andP: uq|move=> /(mi_uq I)].
  + move=> k q' j; rewrite gp (size_set _ hi); case: ifP => _; last exact: (mi_lq I).
    by case=> <- jq; apply: (mi_lq I e); rewrite inE jq orbT.
  + move=> k1 k2 q1 q2 j; rewrite !gp; case: (k1 =P key.1) => [->|_]; case: (k2 =P key.1) => [->|_] //.
    * by move=> [<-] e2 jq; apply: (mi_qq I e e2 _); rewrite inE jq orbT.
    * by move=> e1 [<-] j1 jq; apply: (mi_qq I e1 e j1 _); rewrite inE jq orbT.
    * exact: (mi_qq I).
  + move=> k k' q' j; rewrite go gp; case: (k =P key) => _.
      case=> <-; case: (k' =P key.1) => [_ [<-] //|/eqP ne e']; exact: nq e' ne.
    case: (k' =P key.1) => [_ e1 [<-]|_]; last exact: (mi_oq I).
    by have := mi_oq I e1 e; rewrite inE negb_or => /andP [].
  + move=> k q'; rewrite gp; case: ifP => _; last by move=> /(mi_cap I).
    by case=> <-; apply: ltnW (mi_cap I e).
  + move=> k; rewrite !dhas_set; case: (k =P key) => [->|_]; first by rewrite eqxx.
    by move=> /(mi_has I) ->; rewrite orbT.
  + move=> j; rewrite (size_set _ hi) cell_set // => hj.
    have [? ? ? ?] := mi_cell I hj; have [? ? ? ?] := mi_cell I hi; by case: ifP => _; split.
apply: abs_same => //; rewrite [m_open _]/= dset_dmap.
have hi : i < size (m_heap m) by apply: (mi_lq I e); rewrite inE eqxx.
rewrite cell_set // eqxx /buf_of /= take0; congr dset; apply: dmap_ext; first exact: (mi_ko I).
move=> k v ek; rewrite cell_set //; case: (v =P i) => // ev; exfalso; move: ek; rewrite ev => /(mi_oq I) /(_ e); by rewrite inE eqxx.
Qed.
(* a new buffer, the pool being empty *)
Lemma open_new key ds m : minv m -> d_dims (m_rest m) = Some ds -> ~~ dhas (m_open m) key -> dget (m_pool m) key.1 = Some [::] ->
  let m' := open_buffer z mx key.1 (sumn ds) key m in
  minv m' /\ abs m' = upd_bufs (dset (d_bufs (abs m)) key (buf0 T)) (abs m).
Proof.
move=> I ed hk e; rewrite /open_buffer /get_buffer e /=.
have go k' : dget (dset (m_open m) key (size (m_heap m))) k' = if k' == key then Some (size (m_heap m)) else dget (m_open m) k' by rewrite dgetE.
have no k' : dget (m_open m) k' = Some (size (m_heap m)) -> False by move=> /(mi_lo I); rewrite ltnn.
have ca j p o r : cell_at (MState (rcons (m_heap m) (fresh z mx (sumn ds))) p o r) j =
    if j == size (m_heap m) then fresh z mx (sumn ds) else cell_at m j.
  rewrite /cell_at /= nth_rcons; case: ltngtP => // h; by rewrite nth_default // ltnW.
split.
  split=> //=; rewrite ?size_rcons.
  + exact: uniq_dset (mi_ko I).
  + move=> k1 k2 j; rewrite !go; case: (k1 =P key) => [->|_]; case: (k2 =P key) => [->|_] //.
    * by move=> [<-] /no.
    * by move=> e1 [ej]; move: e1; rewrite -ej => /no.
    * exact: (mi_oo I).
  + by move=> k j; rewrite go; case: ifP => _; [case=> <-|move=> /(mi_lo I) /ltnW].
  + exact: (mi_uq I).
  + by move=> k q j e1 /(mi_lq I e1) /ltnW.
  + exact: (mi_qq I).
  + move=> k k' q j; rewrite go; case: ifP => _; last exact: (mi_oq I).
    by case=> <- e'; apply/negP => /(mi_lq I e'); rewrite ltnn.
  + exact: (mi_cap I).
  + move=> k; rewrite dhas_set => /orP [/eqP ->|/(mi_has I) //]; by rewrite dget_has e.
  + move=> j hj; rewrite ca; case: (j =P size (m_heap m)) => [_|ne]; first by split=> //=; rewrite ?size_nseq // ed.
    by apply: (mi_cell I); move: hj ne; clear; lia.
apply: abs_same => //; rewrite [m_open _]/= dset_dmap ca eqxx /buf_of /= take0; congr dset.
by apply: dmap_ext; [exact: (mi_ko I)|move=> k v ek; rewrite ca; case: (v =P _) => // ev; move: ek; rewrite ev => /no].
Qed.
Lemma open_bufferP key ds m : minv m -> d_dims (m_rest m) = Some ds -> ~~ dhas (m_open m) key -> dhas (m_pool m) key.1 ->
  let m' := open_buffer z mx key.1 (sumn ds) key m in
  [/\ minv m', abs m' = upd_bufs (dset (d_bufs (abs m)) key (buf0 T)) (abs m), dhas (m_open m') key & m_rest m' = m_rest m].
Proof.
move=> I ed hk hp; have ho : dhas (m_open (open_buffer z mx key.1 (sumn ds) key m)) key.
  by rewrite /open_buffer; case: (get_buffer _ _).2 => [i|] /=; rewrite dhas_set eqxx.
have hr : m_rest (open_buffer z mx key.1 (sumn ds) key m) = m_rest m.
  by rewrite /open_buffer /get_buffer; case: (dget _ _) => [[|i q]|].
case e: (dget (m_pool m) key.1) hp => [[|i q]|]; rewrite dget_has ?e // => _.
  by have [] := open_new I ed hk e.
have [e2 I' a] := open_some I hk e; rewrite /= in I' a *; by split=> //; rewrite /open_buffer e2.
Qed.

(* a buffer goes back to the pool *)
Lemma mflushP key m : minv m -> [/\ minv (mflush key m), abs (mflush key m) = flush_key key (abs m),
  ~~ dhas (m_open (mflush key m)) key, d_dims (m_rest (mflush key m)) = d_dims (m_rest m) &
  (dhas (m_open m) key -> exists i q, dget (m_pool (mflush key m)) key.1 = Some (i :: q))].
Proof.
move=> I; rewrite /mflush /flush_key /abs /= dget_dmap; case e: (dget (m_open m) key) => [i|]; last first.
  by split=> //; rewrite dget_has e.
have hp : dhas (m_pool m) key.1 by apply: (mi_has I); rewrite dget_has e.
move: hp; rewrite dget_has /return_buffer /=; case eq: (dget (m_pool m) key.1) => [q|] // _.
have hi := mi_lo I e; have iq := mi_oq I e eq.
have gd k' : dget (ddel (m_open m) key) k' = if k' == key then None else dget (m_open m) k' by rewrite dget_del.
have inj k' : k' != key -> dget (m_open m) k' = Some i -> False by move=> ne /(mi_oo I e) ek; rewrite -ek eqxx in ne.
split.
- case hs: (size q < pool_size); split=> //=.
  + exact: uniq_ddel (mi_ko I).
  + by move=> k1 k2 j; rewrite !gd; case: ifP => // _; case: ifP => // _; exact: (mi_oo I).
  + by move=> k j; rewrite gd; case: ifP => // _; exact: (mi_lo I).
  + move=> k q'; rewrite dgetE; case: ifP => _; last by move=> /(mi_uq I).
    by case=> <-; rewrite rcons_uniq iq (mi_uq I eq).
  + move=> k q' j; rewrite dgetE; case: ifP => _; last exact: (mi_lq I).
    by case=> <-; rewrite mem_rcons inE => /orP [/eqP ->|]; last exact: (mi_lq I eq).
  + have nq k' q' : dget (m_pool m) k' = Some q' -> i \notin q' by exact: (mi_oq I e).
    move=> k1 k2 q1 q2 j; rewrite !dgetE; case: (k1 =P key.1) => [->|_]; case: (k2 =P key.1) => [->|_] //.
    * case=> <- e2; rewrite mem_rcons inE => /orP [/eqP -> h|jq jq2]; last exact: (mi_qq I eq e2 jq jq2).
      by case/negP: (nq _ _ e2).
    * move=> e1 [<-] j1; rewrite mem_rcons inE => /orP [/eqP ej|jq]; last exact: (mi_qq I e1 eq j1 jq).
      by case/negP: (nq _ _ e1); rewrite -ej.
    * exact: (mi_qq I).
  + move=> k k' q' j; rewrite gd dgetE; case: (k =P key) => // /eqP ne ek; case: ifP => _; last exact: (mi_oq I ek).
    case=> <-; rewrite mem_rcons inE negb_or (mi_oq I ek eq) andbT; apply/eqP => ej; by apply: inj ne _; rewrite -ej.
  + by move=> k q'; rewrite dgetE; case: ifP => _; [case=> <-; rewrite size_rcons|move=> /(mi_cap I)].
  + move=> k; rewrite dhas_set dget_has gd; case: (k =P key) => // _.
    by have := mi_has I (key := k); rewrite dget_has; case: (dget (m_open m) k) => // a /(_ isT) ->; rewrite orbT.
  + exact: (mi_cell I).
  + exact: uniq_ddel (mi_ko I).
  + by move=> k1 k2 j; rewrite !gd; case: ifP => // _; case: ifP => // _; exact: (mi_oo I).
  + by move=> k j; rewrite gd; case: ifP => // _; exact: (mi_lo I).
  + exact: (mi_uq I).
  + exact: (mi_lq I).
  + exact: (mi_qq I).
  + by move=> k k' q' j; rewrite gd; case: ifP => // _; exact: (mi_oq I).
  + exact: (mi_cap I).
  + move=> k; rewrite dget_has gd; case: (k =P key) => // _.
    by have := mi_has I (key := k); rewrite dget_has.
  + exact: (mi_cell I).
- by case: (size q < pool_size) => /=; rewrite ddel_dmap.
- by case: (size q < pool_size) => /=; rewrite dget_has gd eqxx.
- by [].
move=> _; case hs: (size q < pool_size) => /=; last by rewrite eq; case: q eq hs {iq} => [|a q] // _ ; [rewrite pool_pos|exists a, q].
by rewrite dgetE eqxx; case: q {eq iq hs} => [|a q]; [exists i, [::]|exists a, (rcons q i)].
Qed.
End Pool.
