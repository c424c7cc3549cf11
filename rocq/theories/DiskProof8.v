(* Termination of finalize_batch_range, acceptance of stores, reading a directory after a crash. *)
Set Warnings "-notation-overridden,-ambiguous-paths".
From mathcomp Require Import all_ssreflect zify.
From Verif Require Import Py Dict Tensor OffModel OffSpec OffProof DiskModel DiskSpec.
From Verif Require Import DiskProof DiskProof2 DiskProof3 DiskProof4 DiskProof5 DiskProof6.
Set Implicit Arguments. Unset Strict Implicit. Unset Printing Implicit Defensive.

Section More.
Variables (T : eqType) (z : T) (cs mx : nat).
Variable listing : seq fkey -> seq fkey.
Hypothesis lperm : forall l, perm_eq (listing l) l.
Variable ds : seq nat.
Notation W := (sumn ds).
Hypothesis W0 : 0 < W.
Hypothesis cs0 : 0 < cs.
Notation gr := (gr T). Notation dstate := (dstate T). Notation task := (task T).
Notation entry := (entry T).
Notation Inv := (Inv cs ds).
Notation step := (step z cs mx listing). Notation exec := (exec z cs mx listing).
Notation PInv := (PInv cs).
Implicit Types (S : seq entry) (s : dstate) (d : disk T).

(* ---------------------------------------------------------------- worker steps are bounded *)
Definition todo (kv : nat * (task * nat)) : seq unit := nseq (5 - kv.2.2) tt.
Definition mu s : nat := 6 * size (d_queue s) + count predT (flat todo (d_busy s)).
Lemma count_todo w t n : count predT (todo (w, (t, n))) = 5 - n.
Proof. by rewrite count_predT size_nseq. Qed.
Lemma take_mu s w s' : uniq (dkeys (d_busy s)) -> take w s = Some s' -> mu s' < mu s.
Proof.
move=> u; rewrite /take; case: ifP => // nw; case q: (d_queue s) => [|t q'] // [<-].
rewrite /mu /= q count_dset // ddel_id ?(negbT nw) // count_todo /=; move: (count _ _) (size q') => a b; clear; lia.
Qed.
Lemma work_mu S s w s' : Inv S s -> work z w s = Some s' -> mu s' < mu s.
Proof.
move=> I; have u := i_uw I; rewrite /work; case gw: (dget (d_busy s) w) => [[t n]|] //.
have /and3P [_ n4 _] := all_dget (i_busy I) gw; rewrite /= in n4.
have m0 : mu s = 6 * size (d_queue s) + (5 - n + count predT (flat todo (ddel (d_busy s) w))).
  by rewrite /mu (count_ddel todo predT u gw) count_todo.
have mp f : n < 5 -> mu (DState (d_dims s) (d_bufs s) (d_queue s) (dset (d_busy s) w (t, n.+1)) (d_pend s) (d_range s)
    (d_wait s) (d_cache s) f) < mu s.
  move=> h; rewrite m0 /mu /= count_dset // count_todo; move: (count _ _) (size _) h => a b h; clear -h; lia.
have md p : mu (DState (d_dims s) (d_bufs s) (d_queue s) (ddel (d_busy s) w) p (d_range s)
    (d_wait s) (d_cache s) (d_disk s)) < mu s.
  rewrite m0 /mu /=; move: (count _ _) (size _) n4 => a b h; clear -h; lia.
case: n gw n4 m0 mp md => [|[|[|[|[|n]]]]] gw n4 m0 mp md //.
- by case: ifP => _ [<-]; [apply: md|apply: mp].
- by case=> <-; apply: mp.
- by case=> <-; apply: mp.
- by case=> <-; apply: mp.
- by case=> <-; apply: md.
Qed.
Lemma workers_stores (ls : seq (label T)) rg : all (@is_worker T) ls ->
  [/\ stores ls = [::], disciplined cs rg ls & ~~ has (@is_clear T) ls].
Proof. by elim: ls => [|l ls IH] //= /andP [hl /IH [h1 h2 h3]]; case: l hl. Qed.
Lemma workers_run rg S s ls s' log : Inv S s -> PInv rg S s -> all (@is_worker T) ls ->
  (forall k c, csum cs S k c <= mx) ->
  exec s ls = Some (s', log) -> [/\ Inv S s', PInv rg S s', size ls + mu s' <= mu s & d_wait s' = d_wait s].
Proof.
move=> I P al ch ex.
elim: ls s s' log I P al ex => [|l ls IH] s s' log I P /=; first by move=> _ [<- _].
case/andP => hl al; case st: (step s l) => [[s1 r]|] //; case ex: (exec s1 ls) => [[s2 log2]|] //= [<- _].
have okl : okstore mx ds S l by case: l hl {st}.
have I1 := inv_step lperm W0 I okl st.
have P1 : PInv (next cs rg l) (S ++ [seq entry_of x | x <- acc1 l r]) s1.
  apply: (pinv_step lperm W0 cs0 I P _ okl _ st); first by case: l hl {st okl I1}.
  move=> k c; have -> : stores [:: l] = [::] by case: l hl {st okl I1}.
  by rewrite /chunk_samples /= addn0.
have e1 : S ++ [seq entry_of x | x <- acc1 l r] = S by case: l hl {st okl I1 P1} => //= *; rewrite cats0.
have e2 : next cs rg l = rg by case: l hl {st okl I1 P1 e1}.
rewrite e1 in I1 P1; rewrite e2 in P1.
have [I2 P2 le w2] := IH _ _ _ I1 P1 al ex.
have [lt w1] : mu s1 < mu s /\ d_wait s1 = d_wait s.
  case: l hl st {okl P1 I1 IH al ex e1 e2} => // w _ /=.
    case e: (take w s) => [s3|] //= [<- _]; split; first exact: (take_mu (i_uw I) e).
    by have [_ _ []] := core_take (p_core P) (i_uw I) e.
  case e: (work z w s) => [s3|] //= [<- _]; split; first exact: (work_mu I e).
  by have [_ _ []] := core_work W0 I (p_core P) e.
split=> //; last by rewrite w2.
by rewrite addSn; apply: leq_ltn_trans le lt.
Qed.
Lemma progress rg S s : PInv rg S s -> d_wait s ->
  isSome (step s (@LFinish T)) \/ exists2 l, is_worker l & isSome (step s l).
Proof.
move=> P w; have PC := p_core P; case ep: (d_pend s) => [|key p].
  by left; rewrite /= w ep.
right; have : key \in infl s by rewrite -(p_mem PC) ep mem_head.
case eb: (d_busy s) => [|[w0 [t n]] l].
  rewrite /infl eb /= cats0; case eq: (d_queue s) => [|t q] // _.
  by exists (LTake T 0) => //; rewrite /= /take eb eq.
exists (LWork T w0) => //=; rewrite /work eb dget_cons eqxx.
by case: n {eb} => [|[|[|[|n]]]] //=; case: ifP.
Qed.

(* ------------------------------------------------------------- gradients are never refused *)
Lemma accepted_grads S s ls s' log : Inv S s -> ~~ has (@is_clear T) ls -> okstores mx ds (stores ls) ->
  uniq (keys S ++ [seq x.1 | x <- stores ls]) -> exec s ls = Some (s', log) ->
  [seq x <- accepted_stores log | ~~ x.1.1] = [seq x <- stores ls | ~~ x.1.1] /\
  ((exists x, List.In x (accepted_stores log)) \/ d_dims s = Some ds -> d_dims s' = Some ds).
Proof.
elim: ls S s s' log => [|l ls IH] S s s' log I nc ok u; first by case=> <- <-; split=> // -[[x []]|].
set st0 := stores (l :: ls); have es : st0 = stores [:: l] ++ stores ls := stores_cons l ls; rewrite /=.
case st: (step s l) => [[s1 r]|] //; case ex: (exec s1 ls) => [[s2 log2]|] //= [<- <-].
have okl := ok_first nc ok u; have I1 := inv_step lperm W0 I okl st.
have [|||h1 h2] := IH _ _ _ _ I1 _ _ _ ex.
- by case/norP: nc.
- by move: ok; rewrite stores_cons /okstores all_cat => /andP [].
- exact: uniq_next u.
rewrite accepted_cons es !filter_cat h1.
have H : [seq x <- acc1 l r | ~~ x.1.1] = [seq x <- stores [:: l] | ~~ x.1.1] /\
   ((exists x, List.In x (acc1 l r)) \/ d_dims s = Some ds -> d_dims s1 = Some ds).
  case: l {nc ok u I1 h1 h2 IH st0 es} okl st => [a e|k b gs|k b| | | |w|w] /=.
  - by move=> _; case: (d_wait s) => // -[]; rewrite /start_range; case: ifP => _ [<- _]; split=> // -[[x []]|].
  - case/and3P => g le nS; case: (d_wait s) => // -[] /(inv_store lperm I g le nS) [[-> -> _]|[hk dn -> ->]] /=.
      split=> // _; rewrite /stored /flush_if; case: ifP => _; rewrite ?dims_flush /add_rows /=.
        by rewrite dims_room dims_with_buf.
      by rewrite dims_room dims_with_buf.
    by rewrite hk; split=> // -[[x []]|]; rewrite dn.
  - move=> _; case: (d_wait s) => // -[<- _]; split=> //.
    case=> [[x []]|]; rewrite /retrieve_batch /ensure_dims_disk => ->.
    case: (if _ is Some _ then _ else None) => //; case: (if _ is Some _ then _ else None) => [x|].
      by case: (dget _ _).
    case: (scan _ _ _) => [[[[]]|]|] //=; by case: (dget _ _).
  - move=> _; case: (d_wait s) => // -[]; case: (d_range s) => [ab|] [<- _]; split=> // -[[x []]|] //=.
    rewrite /flush_all; move: (dkeys (d_bufs s)) => ks.
    by elim: ks (s) => [|key l IH] s0 //= h; apply: IH; rewrite dims_flush.
  - by move=> _; case: ifP => // _ [<- _]; split=> // -[[x []]|].
  - by [].
  - move=> _; rewrite /take; case: ifP => // _; case: (d_queue s) => //= t q [<- _]; by split=> // -[[x []]|].
  - move=> _; rewrite /work; case: (dget _ _) => [[t n]|] //=.
    by case: n => [|[|[|[|n]]]] //=; first (case: ifP => _ /=); case=> <- _; split=> // -[[x []]|].
have [H1 H2] := H; rewrite H1; split=> // -[[x]|dd]; last by apply: h2; right; apply: H2; right.
case/List.in_app_iff => h; apply: h2; last by left; exists x.
by right; apply: H2; left; exists x.
Qed.

(* ------------------------------------------------------------------ reading after a crash *)
Lemma crash_read d k b : uniq (dkeys d) -> all (okfile ds) d ->
  let r := (retrieve_batch cs listing k b (open_disk listing d)).2 in
  match r with
  | Ok gs => (exists fk f m se, [/\ dget d fk = Some f, f_meta f = Some (MFull m), fk.1 = k,
                 find_info b (mt_info m) = Some se & gs = split_rows ds (slice se (f_data f))]) \/
             [/\ gs = nseq (size ds) G1, ~~ has (lists k b) d & nopart k d]
  | Err e => e = ValueError /\
      (~~ nopart k d \/ forall k', chunk_files listing k' d = [::] \/ ~~ nopart k' d)
  end.
Proof.
move=> u al /=; rewrite /retrieve_batch.
have ee : ensure_dims_disk listing (open_disk listing d) = if load_dims listing d is Some l then Ok l else Err ValueError.
  by rewrite /ensure_dims_disk /=; case: (load_dims listing d).
rewrite ee; case: (load_dimsE lperm u al) => [->|[-> h]] /=; last by split=> //; right.
have := scanP lperm k b u al; case: (scan _ _ _) => [[[[chunk info] rows]|]|e] /=.
- move=> [fk [f [m [se [[g1 g2 e3 -> ->] [fi ->]]]]]]; left; by exists fk, f, m, se.
- by case=> h1 h2; right.
- by case=> -> h; split=> //; left.
Qed.
End More.
