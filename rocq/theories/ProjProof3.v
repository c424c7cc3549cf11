(* Lemmas about ChunkedCudaProjector. *)
Set Warnings "-notation-overridden,-ambiguous-paths".
From mathcomp Require Import all_ssreflect all_algebra zify.
From Coq Require ZArith.
From Verif Require Import Py Tensor TensorProof Seeds SeedSpec SeedProof ProjModel ProjSpec ProjProof ProjProof2.
Set Implicit Arguments. Unset Strict Implicit. Unset Printing Implicit Defensive.
Import GRing.Theory.
Local Open Scope ring_scope.

Section Chunked.
Variable F : fieldType.
Variable G : rng F.
Notation row := (seq F).
Hypothesis perm : forall sd n, perm_eq (g_perm G sd n) (iota 0 n).
Variable c : chcfg.
Definition c0 := CCfg 0 0 no_ens PIdentity.
Definition p0 := c_init F 0.
Hypothesis hfits : all fits (ch_cfgs c).
Hypothesis hpd : all (fun q => c_pd q == ch_pd c) (ch_cfgs c).
Hypothesis hdims : ch_dims c = map c_fd (ch_cfgs c).

Definition prep (ps : seq (cproj F)) : Prop :=
  size ps = size (ch_cfgs c) /\
  forall k, (k < size ps)%N -> crep G (nth c0 (ch_cfgs c) k) (nth p0 ps k).
Definition brect (b : seq row) : Prop := size b = ch_fb c /\ all (fun r => size r == ch_max c) b.
Definition orect (n : nat) (o : seq row) : Prop := size o = n /\ all (fun r => size r == ch_pd c) o.

Definition vadd (a b : row) : row := [seq p.1 + p.2 | p <- zip a b].

Lemma add_rowsE n O R : orect n O -> orect n R ->
  add_rows O R = Ok [seq vadd p.1 p.2 | p <- zip O R] /\ orect n [seq vadd p.1 p.2 | p <- zip O R].
Proof.
move=> [<-] {n}; elim: O R => [|o O IH] [|r R] //=; try by move=> _ [].
case/andP => ho hO [[e]] /andP [hr hR].
have [-> [e1 h1]] := IH R hO (conj e hR).
rewrite /add_row (eqP ho) hr /=; split=> //; split; first by rewrite /= e1.
by rewrite /= h1 andbT size_map size_zip (eqP ho) (eqP hr) minnn.
Qed.

Lemma nth_omap (T : Type) (x0 : T) s k : (k < size s)%N -> nth None (map Some s) k = Some (nth x0 s k).
Proof. by move=> h; rewrite (nth_map x0). Qed.

Lemma nth_omap_none (T : Type) (s : seq T) k : (size s <= k)%N -> nth None (map Some s) k = None.
Proof. by move=> h; rewrite nth_default // size_map. Qed.

Lemma ch_call_rep ps k X e : prep ps -> prep (ch_call G c ps k X e).1.
Proof.
move=> [h1 h2]; rewrite /ch_call; case: (ltnP k (size (ch_cfgs c))) => hk; last first.
  by rewrite (nth_omap_none hk).
rewrite (nth_omap c0 hk) (nth_omap p0); last by rewrite h1.
split; first by rewrite size_set_nth h1; apply/maxn_idPr.
move=> j; rewrite size_set_nth h1 (maxn_idPr hk) => hj.
rewrite /= (set_nth_default (nth p0 ps k)); last by rewrite size_set_nth h1 (maxn_idPr hk).
rewrite nth_set_nth /=; case: eqP => [->|_]; last first.
  by rewrite (set_nth_default p0) ?h1 //; apply: h2; rewrite h1.
by apply: (@c_project_rep F G _ _ X e); apply: h2; rewrite h1.
Qed.

Lemma ch_call_ok ps k X e : prep ps -> e <> no_ens -> (k < size (ch_cfgs c))%N ->
  all (fun x => size x == c_fd (nth c0 (ch_cfgs c) k)) X ->
  (ch_call G c ps k X e).2 = Ok [seq crow G (nth c0 (ch_cfgs c) k) e x | x <- X]
  /\ orect (size X) [seq crow G (nth c0 (ch_cfgs c) k) e x | x <- X].
Proof.
move=> [h1 h2] he hk hX; have hf := all_nthP c0 hfits _ hk.
rewrite /ch_call (nth_omap c0 hk) (nth_omap p0) ?h1 //=; split.
  apply: c_project_ok => //; first by apply: h2; rewrite h1.
  by move: hf; rewrite /fits => + g; rewrite g.
split; first by rewrite size_map.
rewrite all_map; apply/allP => x _ /=; rewrite size_crow //.
exact: (all_nthP c0 hpd _ hk).
Qed.

(* ------------------------------------------------------------ flat tensors *)
Lemma ch_proj_loop_rep e X ps k ptr dims out : prep ps ->
  prep (ch_proj_loop G c e X ps k ptr dims out).1.
Proof.
elim: dims ps k ptr out => [|d dims IH] ps k ptr out h //=.
have := ch_call_rep k [seq take d (drop ptr x) | x <- X] e h.
case: ch_call => ps1 r /= h1; case: rbind => [o|x] //=; exact: IH.
Qed.

Lemma ch_proj_loop_ok e X ps k ptr out : e <> no_ens -> prep ps -> orect (size X) out ->
  (k <= size (ch_cfgs c))%N ->
  all (fun x => size x == ptr + sumn (drop k (ch_dims c)))%N X ->
  (ch_proj_loop G c e X ps k ptr (drop k (ch_dims c)) out).2 =
  Ok [seq chunk_row G e (drop k (ch_cfgs c)) (drop ptr p.1) p.2 | p <- zip X out].
Proof.
move=> he; move em : (size (ch_cfgs c) - k)%N => m; elim: m k ptr ps out em => [|m IH] k ptr ps out em hps ho hk hX.
  have e1 : k = size (ch_cfgs c) by lia.
  rewrite e1 hdims -map_drop drop_size /=; congr Ok.
  case: ho => + _; elim: (X) (out) => [|x X' IHX] [|o out'] //= [h]; congr cons; exact: IHX.
have hk' : (k < size (ch_cfgs c))%N by lia.
have ed : drop k (ch_dims c) = c_fd (nth c0 (ch_cfgs c) k) :: drop k.+1 (ch_dims c).
  by rewrite (drop_nth 0%N) hdims ?size_map // (nth_map c0).
rewrite ed /= in hX *; set d := c_fd _ in hX *.
have hX1 : all (fun x => size x == d) [seq take d (drop ptr x) | x <- X].
  rewrite all_map; apply/allP => x xX /=; move/eqP: (allP hX x xX) => es.
  rewrite size_take size_drop es; case: ltnP; lia.
have [e1 r1] := ch_call_ok hps he hk' hX1; have hr := ch_call_rep k [seq take d (drop ptr x) | x <- X] e hps.
rewrite e1 /=; rewrite size_map in r1; have [-> ho'] := add_rowsE ho r1.
rewrite (IH k.+1 (ptr + d)%N) //; first last.
- by apply/allP => x xX; rewrite -addnA (eqP (allP hX x xX)).
- by lia.
congr Ok; rewrite [in RHS](drop_nth c0) //=.
case: ho => + _; elim: (X) (out) => [|x X' IHX] [|o out'] //= [h].
by rewrite IHX // drop_drop [in RHS]addnC.
Qed.

Lemma ch_project_ok s X e : e <> no_ens -> prep (ch_projs s) ->
  all (fun x => size x == sumn (ch_dims c)) X ->
  (ch_project G c s X e).2 = Ok [seq chunk_row G e (ch_cfgs c) x (nseq (ch_pd c) 0) | x <- X].
Proof.
move=> he hp hX; have ho : orect (size X) (zeros2 F (size X) (ch_pd c)).
  by split; rewrite /zeros2 ?size_nseq // all_nseq size_nseq eqxx orbT.
rewrite /ch_project /= -[X in ch_proj_loop _ _ _ _ _ _ _ X _]drop0 (ch_proj_loop_ok he hp ho) //.
  by congr Ok; rewrite drop0 /zeros2; elim: (X) => //= x X' ->; rewrite drop0.
by rewrite drop0.
Qed.

(* -------------------------------------------------------------------- dict *)
Definition pwf (n : nat) (p : pflat F) : bool := (size p.2 == n) && all (fun r => size r == p.1) p.2.
Definition pwf0 (p : pflat F) : bool := all (fun r => size r == p.1) p.2.

Definition cat_row (params : seq (pflat F)) (i : nat) : row := flatten [seq nth [::] p.2 i | p <- params].

Lemma copy_in_ok buf ptr p : brect buf -> pwf0 p -> (size p.2 <= ch_fb c)%N -> (ptr + p.1 <= ch_max c)%N ->
  exists buf', [/\ copy_in c buf ptr p = Ok buf', brect buf'
    & forall i, (i < size p.2)%N -> take (ptr + p.1) (nth [::] buf' i) = take ptr (nth [::] buf i) ++ nth [::] p.2 i].
Proof.
move=> [hb1 hb2] hp hn hm; rewrite /copy_in hn hm /=.
have sbi i : (i < size p.2)%N -> size (nth [::] buf i) = ch_max c.
  move=> hi; apply/eqP; apply: (all_nthP [::] hb2); rewrite hb1; exact: leq_trans hi hn.
have spi i : (i < size p.2)%N -> size (nth [::] p.2 i) = p.1.
  by move=> hi; apply/eqP; apply: (all_nthP [::] hp).
eexists; split; first by reflexivity.
  split.
    by rewrite size_cat size_map size_zip size_take size_drop; case: ltnP; lia.
  rewrite all_cat; apply/andP; split; last by apply/allP => r /mem_drop; apply: (allP hb2).
  rewrite all_map; apply/(all_nthP ([::], [::])) => i.
  rewrite size_zip size_take => hi; have hi2 : (i < size p.2)%N by move: hi; case: ltnP; lia.
  rewrite /= nth_zip_cond; set z := (if _ then _ else _).
  have -> : z = (nth [::] buf i, nth [::] p.2 i).
    rewrite /z size_zip size_take ifT //; by rewrite nth_take.
  rewrite /set_slice /= !size_cat size_take size_drop.
  rewrite sbi // spi //.
  by apply/eqP; case: ltnP; lia.
move=> i hi; rewrite nth_cat size_map size_zip size_take.
have hs : minn (if (size p.2 < size buf)%N then size p.2 else size buf) (size p.2) = size p.2.
  by case: ltnP; lia.
rewrite hs hi (nth_map ([::], [::])); last by rewrite size_zip size_take hs.
rewrite nth_zip_cond size_zip size_take hs hi nth_take //= /set_slice.
rewrite catA take_size_cat // size_cat size_take sbi // spi //; case: ltnP; lia.
Qed.

Lemma copy_in_rep buf ptr p : brect buf -> pwf0 p ->
  match copy_in c buf ptr p with Ok b => brect b | Err _ => True end.
Proof.
move=> hb hp; case: (boolP ((size p.2 <= ch_fb c)%N && (ptr + p.1 <= ch_max c)%N)) => [/andP [h1 h2]|h].
  by have [b [-> hb' _]] := copy_in_ok hb hp h1 h2.
by rewrite /copy_in (negbTE h).
Qed.

Lemma flush_rep e ps buf l : prep ps -> prep (ch_flush G c e ps buf l).1.
Proof.
move=> h; rewrite /ch_flush; case: nth => [d|] //; case: ifP => // _ /=; exact: ch_call_rep.
Qed.

Lemma ch_loop_rep e params ps buf l : prep ps -> brect buf -> all pwf0 params ->
  let r := ch_loop G c e params ps buf l in prep r.1.1 /\ brect r.1.2.
Proof.
elim: params ps buf l => [|p params IH] ps buf l hp hb //= /andP [hw hws].
set fl := (if _ then _ else _).
have hfl : prep fl.1 by rewrite /fl; case: ifP => // _; apply: flush_rep.
case: fl.2 => [l1|x] //=; have := copy_in_rep (l_ptr l1) hb hw.
by case: copy_in => [b|x] //= hb'; apply: IH.
Qed.

Lemma ch_dict_rep s params e : prep (ch_projs s) -> brect (ch_alloc c s) -> all pwf0 params ->
  let r := (ch_dict_project G c s params e).1 in prep (ch_projs r) /\ (exists b, ch_buf r = Some b /\ brect b).
Proof.
move=> hp hb hw; rewrite /ch_dict_project.
have [h1 h2] := ch_loop_rep e (DLoc 0 0 (zeros2 F (ch_fb c) (ch_pd c)) None) hp hb hw.
set r := ch_loop _ _ _ _ _ _ _ in h1 h2 *.
case: r.2 => [l|x] /=; last by split=> //; exists r.1.2.
case: nth => [d|] /=; last by split=> //; exists r.1.2.
case: ifP => _ /=; first by split=> //; exists r.1.2.
case: l_bs => [bs|] /=; last by split=> //; exists r.1.2.
by split; [apply: ch_call_rep | exists r.1.2].
Qed.

Lemma flush_ok e ps buf l k : e <> no_ens -> prep ps -> brect buf -> orect (ch_fb c) (l_out l) ->
  l_idx l = k -> (k < size (ch_cfgs c))%N -> c_fd (nth c0 (ch_cfgs c) k) = l_ptr l -> (l_ptr l <= ch_max c)%N ->
  exists o', [/\ (ch_flush G c e ps buf l).2 = Ok (DLoc 0 k.+1 o' (l_bs l)), orect (ch_fb c) o'
    & forall i, (i < ch_fb c)%N -> nth [::] o' i = vadd (nth [::] (l_out l) i)
                     (crow G (nth c0 (ch_cfgs c) k) e (take (l_ptr l) (nth [::] buf i)))].
Proof.
move=> he hp [hb1 hb2] ho ek hk ed hl; rewrite /ch_flush ek.
rewrite hdims (nth_omap 0%N) ?size_map // (nth_map c0) // ed eqxx /=.
have hX : all (fun x => size x == c_fd (nth c0 (ch_cfgs c) k)) [seq take (l_ptr l) x | x <- buf].
  rewrite all_map; apply/allP => x xb /=; rewrite size_take (eqP (allP hb2 x xb)) ed.
  by apply/eqP; case: ltnP; lia.
have [-> r1] := ch_call_ok hp he hk hX; rewrite size_map hb1 in r1; rewrite /=.
have [-> r2] := add_rowsE ho r1; eexists; split; [by reflexivity | exact: r2 |].
move=> i hi; case: ho => ho1 ho2; case: r1 => r11 r12.
rewrite (nth_map ([::], [::])); last by rewrite size_zip ho1 r11 minnn.
by rewrite nth_zip_cond size_zip ho1 r11 minnn hi /= -map_comp (nth_map [::]) ?hb1.
Qed.

Lemma size_chunk_row e cfgs x acc : size acc = ch_pd c -> all fits cfgs -> all (fun q => c_pd q == ch_pd c) cfgs ->
  size (chunk_row G e cfgs x acc) = ch_pd c.
Proof.
elim: cfgs x acc => [|q cfgs IH] x acc ha //= /andP [f1 f2] /andP [g1 g2]; apply: IH => //.
by rewrite size_map size_zip ha size_crow // (eqP g1) minnn.
Qed.

Lemma take_cat_exact (T : Type) (a b : seq T) k : size a = k -> take k (a ++ b) = a /\ drop k (a ++ b) = b.
Proof. by move=> <-; rewrite take_size_cat // drop_size_cat. Qed.

Lemma ch_loop_ok n e params ps buf l : e <> no_ens -> (n <= ch_fb c)%N -> prep ps -> brect buf ->
  orect (ch_fb c) (l_out l) -> all (pwf n) params -> (l_ptr l <= ch_max c)%N ->
  all (fun p => p.1 <= ch_max c)%N params ->
  (params = [::] -> l_bs l = Some n) ->
  drop (l_idx l) (ch_dims c) = pack (ch_max c) (l_ptr l) (map fst params) ->
  let r := ch_loop G c e params ps buf l in
  exists l', [/\ r.2 = Ok l', l_bs l' = Some n, orect (ch_fb c) (l_out l'), (l_ptr l' <= ch_max c)%N
    & drop (l_idx l') (ch_dims c) = [:: l_ptr l'] /\
      forall i, (i < n)%N ->
        chunk_row G e (drop (l_idx l) (ch_cfgs c)) (take (l_ptr l) (nth [::] buf i) ++ cat_row params i) (nth [::] (l_out l) i)
        = chunk_row G e (drop (l_idx l') (ch_cfgs c)) (take (l_ptr l') (nth [::] r.1.2 i)) (nth [::] (l_out l') i)].
Proof.
move=> he hn; elim: params ps buf l => [|p params IH] ps buf l hps hb ho /= hw hl hm hbs hd.
  by exists l; split=> //; [apply: hbs | split=> // i _; rewrite cats0].
case/andP: hw => /andP [/eqP sp wp] hw; case/andP: hm => pm hm.
set fl := (if _ then _ else _).
have [l1 [ef ol1 pl1 bl1 [hd1 hrow]]] : exists l1,
  [/\ fl.2 = Ok l1, orect (ch_fb c) (l_out l1), (l_ptr l1 + p.1 <= ch_max c)%N, l_bs l1 = l_bs l
   & drop (l_idx l1) (ch_dims c) = pack (ch_max c) (l_ptr l1 + p.1) (map fst params) /\
     forall i, (i < n)%N ->
        chunk_row G e (drop (l_idx l) (ch_cfgs c)) (take (l_ptr l) (nth [::] buf i) ++ cat_row (p :: params) i) (nth [::] (l_out l) i)
        = chunk_row G e (drop (l_idx l1) (ch_cfgs c)) (take (l_ptr l1) (nth [::] buf i) ++ cat_row (p :: params) i) (nth [::] (l_out l1) i)].
  rewrite /fl; case: (ltnP (ch_max c) (l_ptr l + p.1)) hd => h hd; last by exists l.
  have hk : (l_idx l < size (ch_cfgs c))%N.
    by rewrite ltnNge; apply/negP => hge; move: hd; rewrite drop_oversize // hdims size_map.
  have hk2 : (l_idx l < size (ch_dims c))%N by rewrite hdims size_map.
  move: hd; rewrite (drop_nth 0%N) // => -[hd1 hd2].
  have efd : c_fd (nth c0 (ch_cfgs c) (l_idx l)) = l_ptr l by rewrite -hd1 hdims (nth_map c0).
  have [o' [e1 e2 e3]] := flush_ok he hps hb ho erefl hk efd hl.
  exists (DLoc 0 (l_idx l).+1 o' (l_bs l)); split=> //.
  split; first by rewrite add0n -hd2.
  move=> i hi /=; rewrite (drop_nth c0 hk) /= take0 cat0s efd e3; last by lia.
  have sb : size (take (l_ptr l) (nth [::] buf i)) = l_ptr l.
    have hs : size (nth [::] buf i) = ch_max c.
      by case: hb => hb1 hb2; apply/eqP; apply: (all_nthP [::] hb2); lia.
    by rewrite size_take hs; case: ltnP; lia.
  by have [-> ->] := take_cat_exact (cat_row (p :: params) i) sb.
rewrite ef; have [|buf' [e1 hb' e2]] := @copy_in_ok buf (l_ptr l1) p hb wp _ pl1; first by rewrite sp.
have hfl : prep fl.1 by rewrite /fl; case: ifP => // _; apply: flush_rep.
rewrite e1 sp; set l2 := DLoc _ _ _ _.
have [|l' [r1 r2 r3 r4 [r5 r6]]] := IH fl.1 buf' l2 hfl hb' ol1 hw pl1 hm _ hd1.
  by move=> _; rewrite /l2 /= (minn_idPr hn).
exists l'; split=> //; split=> // i hi; rewrite hrow // -r6 // /l2 /= e2 ?sp //.
by rewrite /cat_row /= catA.
Qed.

Lemma ch_dict_ok s params e n : e <> no_ens -> (n <= ch_fb c)%N -> prep (ch_projs s) -> brect (ch_alloc c s) ->
  all (pwf n) params -> params <> [::] -> all (fun p => p.1 <= ch_max c)%N params ->
  ch_dims c = pack (ch_max c) 0 (map fst params) ->
  (ch_dict_project G c s params e).2 =
  Ok (mkseq (fun i => chunk_row G e (ch_cfgs c) (cat_row params i) (nseq (ch_pd c) 0)) n).
Proof.
move=> he hn hp hb hw hne hm hd.
have ho : orect (ch_fb c) (zeros2 F (ch_fb c) (ch_pd c)).
  by split; rewrite /zeros2 ?size_nseq // all_nseq size_nseq eqxx orbT.
set l0 := DLoc 0 0 (zeros2 F (ch_fb c) (ch_pd c)) None.
have hd0 : drop (l_idx l0) (ch_dims c) = pack (ch_max c) (l_ptr l0) (map fst params) by rewrite drop0.
have [l' [r1 r2 r3 r4 [r5 r6]]] := ch_loop_ok (l := l0) he hn hp hb ho hw (leq0n _) hm (fun q => False_ind _ (hne q)) hd0.
have hw0 : all pwf0 params by apply: sub_all hw => p /andP [].
have [h1 h2] := ch_loop_rep e l0 hp hb hw0.
rewrite /ch_dict_project -/l0; set r := ch_loop _ _ _ _ _ _ _ in r1 r6 h1 h2 *; rewrite r1.
have hk : (l_idx l' < size (ch_dims c))%N.
  by rewrite ltnNge; apply/negP => hge; move: r5; rewrite drop_oversize.
move: (r5); rewrite (drop_nth 0%N) // => -[q1 q2].
rewrite (nth_omap 0%N hk) q1 eqxx /= r2.
have hk2 : (l_idx l' < size (ch_cfgs c))%N by rewrite hdims size_map in hk.
have efd : c_fd (nth c0 (ch_cfgs c) (l_idx l')) = l_ptr l' by rewrite -q1 hdims (nth_map c0).
case: h2 => b1 b2; case: r3 => o1 o2.
have hX : all (fun x => size x == c_fd (nth c0 (ch_cfgs c) (l_idx l'))) [seq take (l_ptr l') x | x <- take n r.1.2].
  rewrite all_map; apply/allP => x /mem_take xb /=; rewrite size_take (eqP (allP b2 x xb)) efd.
  by apply/eqP; case: ltnP; lia.
have [-> t1] := ch_call_ok h1 he hk2 hX; rewrite /=.
have sn : size (take n r.1.2) = n by rewrite size_take b1; case: ltnP; lia.
rewrite size_map sn in t1.
have t2 : orect n (take n (l_out l')).
  split; first by rewrite size_take o1; case: ltnP; lia.
  by apply/allP => x /mem_take; apply: (allP o2).
have [-> _] := add_rowsE t2 t1; congr Ok; apply: (@eq_from_nth _ [::]).
  by rewrite size_map size_zip size_mkseq; case: t1 t2 => -> _ [-> _]; rewrite minnn.
move=> i; rewrite size_map size_zip => hi.
have hin : (i < n)%N by case: t1 t2 hi => -> _ [-> _]; rewrite minnn.
rewrite nth_mkseq // (nth_map ([::], [::])) ?size_zip // nth_zip_cond size_zip hi /=.
rewrite nth_take // -map_comp (nth_map [::]) ?sn // nth_take //=.
have := r6 i hin; rewrite /l0 /= drop0 take0 cat0s.
have -> : nth [::] (zeros2 F (ch_fb c) (ch_pd c)) i = nseq (ch_pd c) 0.
  by rewrite /zeros2 nth_nseq ifT //; lia.
move=> ->; rewrite (drop_nth c0) //= efd.
have -> : drop (l_idx l').+1 (ch_cfgs c) = [::].
  apply: drop_oversize; have := congr1 size q2; rewrite size_drop hdims size_map /=; lia.
by rewrite /= take_take.
Qed.

(* ------------------------------------------------- layouts that are refused *)
Definition refused (o : res (dloc F)) : Prop :=
  match o with
  | Err x => x = ValueError \/ x = RuntimeError
  | Ok l => exists2 d, nth None (map Some (ch_dims c)) (l_idx l) = Some d & d <> l_ptr l
  end.

Lemma stuck n e params ps buf l d : brect buf -> all (pwf n) params -> (n <= ch_fb c)%N ->
  l_ptr l = ch_max c ->
  nth None (map Some (ch_dims c)) (l_idx l) = Some d -> d <> ch_max c ->
  refused (ch_loop G c e params ps buf l).2.
Proof.
move=> hb; elim: params ps buf hb l => [|p params IH] ps buf hb l /= hw hn hl hd hne.
  by exists d => //; rewrite hl.
case/andP: hw => /andP [/eqP sp wp] hw; rewrite hl.
case: ltnP => h.
  rewrite /ch_flush hd hl ifT /=; first by left.
  by apply/eqP => z; apply: hne.
rewrite /= hl; have [|buf' [-> hb' _]] := @copy_in_ok buf (ch_max c) p hb wp _ h; first by rewrite sp.
apply: IH => //=; lia.
Qed.

Lemma unclean n e fuel params ps buf l acc : e <> no_ens -> (n <= ch_fb c)%N -> (0 < ch_max c)%N ->
  prep ps -> brect buf -> orect (ch_fb c) (l_out l) -> all (pwf n) params ->
  (l_ptr l <= ch_max c)%N -> l_idx l = size acc -> (l_ptr l = 0%N -> acc = [::]) ->
  all (fun p => p <= fuel)%N (map fst params) ->
  omap (cfinal) (chunk_loop (ch_max c) fuel (cstate (ch_max c) acc (l_ptr l)) (map fst params)) = Some (ch_dims c) ->
  ~~ clean (ch_max c) (l_ptr l) (map fst params) ->
  refused (ch_loop G c e params ps buf l).2.
Proof.
move=> he hn m0; elim: params ps buf l acc => [|p params IH] ps buf l acc hps hb ho //= hw hl ei ha hf hd hc.
case/andP: hw => /andP [/eqP sp wp] hw; case/andP: hf => fp ff.
(* the chunker has fixed [pre] before going on *)
have pre st1 (a b : seq nat) x : chunk_step (ch_max c) fuel (cstate (ch_max c) acc (l_ptr l)) p.1 = Some st1 ->
   st1.1 = acc ++ x :: b -> nth None (map Some (ch_dims c)) (l_idx l) = Some x.
  move=> e1 e2; move: hd; rewrite e1; case: st1 e1 e2 => a1 s1 e1 /= e2.
  have [b' [s' ->]] := chunk_loop_prefix a1 s1 m0 ff.
  rewrite e2 /cfinal /= => -[<-]; rewrite ei.
  have -> : (if (0 < s')%N then rcons ((acc ++ x :: b) ++ b') s' else (acc ++ x :: b) ++ b') =
       acc ++ x :: (b ++ b' ++ (if (0 < s')%N then [:: s'] else [::])).
    by case: ifP => _; rewrite ?cats0 -?cats1 -!catA.
  by case ec: (acc ++ _) => [|q qs]; [case: (acc) ec | rewrite -ec map_cat nth_cat size_map ltnn subnn].
have csE : chunk_step (ch_max c) fuel (cstate (ch_max c) acc (l_ptr l)) p.1 =
  let st := cstate (ch_max c) acc (l_ptr l) in
  Some (if (ch_max c <= st.2 + p.1)%N then (if (0 < st.2)%N then rcons st.1 st.2 else st.1) ++ nseq (p.1 %/ ch_max c) (ch_max c) else st.1,
        if (ch_max c <= st.2 + p.1)%N then (p.1 %% ch_max c)%N else (st.2 + p.1)%N).
  by rewrite /cstate; case: ifP => _; rewrite chunk_step_ok.
case: (leqP p.1 (ch_max c)) hc => pm /=; last first.
  (* a parameter larger than a chunk *)
  move=> _; have -> : (ch_max c < l_ptr l + p.1)%N by lia.
  case: (posnP (l_ptr l)) => l0.
    have d0 : nth None (map Some (ch_dims c)) (l_idx l) = Some (ch_max c).
      have e0 : (0 == ch_max c)%N = false by lia.
      have q0 : (p.1 %/ ch_max c)%N = (p.1 %/ ch_max c).-1.+1 by rewrite prednK // divn_gt0 // ltnW.
      apply: (pre _ [::] (nseq (p.1 %/ ch_max c).-1 (ch_max c)) _ csE).
      rewrite (ha l0) l0 /cstate e0 /= add0n (ltnW pm) q0 //=.
    rewrite /ch_flush d0 l0 ifT /=; first by left.
    by rewrite eq_sym -lt0n.
  have d0 : nth None (map Some (ch_dims c)) (l_idx l) = Some (l_ptr l).
    apply: (pre _ [::] (nseq (p.1 %/ ch_max c) (ch_max c)) _ csE).
    rewrite /cstate; case: (l_ptr l =P ch_max c) => [em|nm].
      by rewrite em /= add0n (ltnW pm) cat_rcons.
    by rewrite /= l0 ifT ?cat_rcons //; lia.
  have hk2 : (l_idx l < size (ch_dims c))%N.
    by rewrite ltnNge; apply/negP => hge; move: d0; rewrite nth_omap_none.
  have hk : (l_idx l < size (ch_cfgs c))%N by rewrite hdims size_map in hk2.
  have efd : c_fd (nth c0 (ch_cfgs c) (l_idx l)) = l_ptr l.
    by move: d0; rewrite (nth_omap 0%N hk2) => -[<-]; rewrite hdims (nth_map c0).
  have [o' [-> _ _]] := flush_ok he hps hb ho erefl hk efd hl.
  by rewrite /copy_in /= add0n [(p.1 <= _)%N]leqNgt pm andbF /=; right.
case: ltnP => h hc.
  (* a regular flush *)
  have e1 : chunk_step (ch_max c) fuel (cstate (ch_max c) acc (l_ptr l)) p.1 = Some (cstate (ch_max c) (rcons acc (l_ptr l)) p.1).
    by rewrite cstep_clean // h.
  have d0 : nth None (map Some (ch_dims c)) (l_idx l) = Some (l_ptr l).
    apply: (pre _ [::] (if p.1 == ch_max c then [:: ch_max c] else [::]) _ e1).
    by rewrite /cstate; case: ifP => _ /=; rewrite -?cats1 -?catA.
  have hk2 : (l_idx l < size (ch_dims c))%N.
    by rewrite ltnNge; apply/negP => hge; move: d0; rewrite nth_omap_none.
  have hk : (l_idx l < size (ch_cfgs c))%N by rewrite hdims size_map in hk2.
  have efd : c_fd (nth c0 (ch_cfgs c) (l_idx l)) = l_ptr l.
    by move: d0; rewrite (nth_omap 0%N hk2) => -[<-]; rewrite hdims (nth_map c0).
  have [o' [ef oo _]] := flush_ok he hps hb ho erefl hk efd hl.
  rewrite ef /=; have [|buf' [-> hb' _]] := @copy_in_ok buf 0 p hb wp _ pm; first by rewrite sp.
  apply: (IH _ _ _ (rcons acc (l_ptr l))) => //=.
  - exact: flush_rep.
  - by rewrite ei size_rcons.
  - by lia.
  - by move: hd; rewrite e1.
rewrite /=; have [|buf' [-> hb' _]] := @copy_in_ok buf (l_ptr l) p hb wp _ h; first by rewrite sp.
move: hc; rewrite negb_and => /orP []; last first.
  move=> hc; case: (boolP ((l_ptr l + p.1 == ch_max c)%N ==> ((l_ptr l == 0%N) || (p.1 == 0%N)))) => hcl.
    have e1 : chunk_step (ch_max c) fuel (cstate (ch_max c) acc (l_ptr l)) p.1 = Some (cstate (ch_max c) acc (l_ptr l + p.1)).
      by rewrite cstep_clean // ?hcl ?orbT // ltnNge h.
    apply: (IH _ _ _ acc) => //=; first by move=> z; apply: ha; lia.
    by move: hd; rewrite e1.
  move: hcl; rewrite negb_imply negb_or => /and3P [/eqP em l0 p0'].
  apply: (@stuck n e params ps buf' _ (l_ptr l)) => //=; last by lia.
  apply: (pre _ [::] (nseq (p.1 %/ ch_max c) (ch_max c)) _ csE).
  rewrite /cstate; case: eqP => [?|nm]; first by lia.
  by rewrite /= em leqnn lt0n l0 cat_rcons.
rewrite negb_imply negb_or => /and3P [/eqP em l0 p0'].
apply: (@stuck n e params ps buf' _ (l_ptr l)) => //=; last by lia.
apply: (pre _ [::] (nseq (p.1 %/ ch_max c) (ch_max c)) _ csE).
rewrite /cstate; case: eqP => [?|nm]; first by lia.
by rewrite /= em leqnn lt0n l0 cat_rcons.
Qed.

Lemma ch_dict_refused s params e n fuel : e <> no_ens -> (n <= ch_fb c)%N -> (0 < ch_max c)%N ->
  prep (ch_projs s) -> brect (ch_alloc c s) -> all (pwf n) params ->
  all (fun p => p <= fuel)%N (map fst params) ->
  chunk_sizes (ch_max c) fuel (map fst params) = Some (ch_dims c) ->
  ~~ clean (ch_max c) 0 (map fst params) ->
  (ch_dict_project G c s params e).2 = Err ValueError \/
  (ch_dict_project G c s params e).2 = Err RuntimeError.
Proof.
move=> he hn m0 hp hb hw hf hd hc.
have ho : orect (ch_fb c) (zeros2 F (ch_fb c) (ch_pd c)).
  by split; rewrite /zeros2 ?size_nseq // all_nseq size_nseq eqxx orbT.
set l0 := DLoc 0 0 (zeros2 F (ch_fb c) (ch_pd c)) None.
have : refused (ch_loop G c e params (ch_projs s) (ch_alloc c s) l0).2.
  apply: (@unclean n e fuel params _ _ l0 [::]) => //.
  by move: hd; rewrite chunk_sizesE /cstate /=; case: eqP => // z; move: m0; rewrite -z.
rewrite /ch_dict_project -/l0; case: ch_loop => r [l|x] /=; last by case=> ->; [left|right].
by case=> d -> hd' /=; left; rewrite ifT //; apply/eqP => z; apply: hd'.
Qed.
End Chunked.
