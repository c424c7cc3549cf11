(* A directory without running writers, and what a later process leaves untouched. *)
Set Warnings "-notation-overridden,-ambiguous-paths".
From mathcomp Require Import all_ssreflect zify.
From Verif Require Import Py Dict Tensor OffModel OffSpec OffProof DiskModel DiskSpec.
From Verif Require Import DiskProof DiskProof2 DiskProof3 DiskProof4 DiskProof5 DiskProof6 DiskProof7 DiskProof8.
Set Implicit Arguments. Unset Strict Implicit. Unset Printing Implicit Defensive.

Lemma count_has_flatten (A E : Type) (f : A -> seq E) (p : pred E) (q : pred A) (l : seq A) :
  (forall a, q a = has p (f a)) -> count p (flatten [seq f a | a <- l]) <= 1 ->
  count q l = count p (flatten [seq f a | a <- l]).
Proof.
move=> qe; elim: l => [|a l IH] //=; rewrite count_cat qe has_count => h.
rewrite IH; last by move: h; clear; lia.
by move: h; move: (count p (f a)) (count p _) => x y; clear; lia.
Qed.

Lemma uniq_fst (A B : eqType) (l : seq (A * B)) a b b' : uniq [seq x.1 | x <- l] ->
  (a, b) \in l -> (a, b') \in l -> b = b'.
Proof.
elim: l => [|[x y] l IH] //= /andP [nx u]; rewrite !inE !xpair_eqE.
case/orP => [/andP [/eqP e1 /eqP e2]|h1]; case/orP => [/andP [/eqP e3 /eqP e4]|h2]; try by [rewrite e2 e4|exact: IH].
  by case/negP: nx; rewrite -e1; apply/mapP; exists (a, b').
by case/negP: nx; rewrite -e3; apply/mapP; exists (a, b).
Qed.

Section Quiet.
Variables (T : eqType) (z : T) (cs mx : nat).
Variable listing : seq fkey -> seq fkey.
Hypothesis lperm : forall l, perm_eq (listing l) l.
Variable ds : seq nat.
Notation W := (sumn ds).
Hypothesis W0 : 0 < W.
Hypothesis cs0 : 0 < cs.
Notation gr := (gr T). Notation dstate := (dstate T). Notation task := (task T).
Notation entry := (entry T).
Notation Inv := (Inv cs ds).
Notation step := (step z cs mx listing). Notation exec := (exec z cs mx listing).
Notation PInv := (PInv cs).
Implicit Types (S : seq entry) (s : dstate) (d : disk T).

Lemma listsE k b (kv : fkey * file T) : lists k b kv = has (fun e : entry => e.1 == (k, b)) (ef kv).
Proof.
rewrite /lists /ef; case: (f_meta kv.2) => [[|m]|]; rewrite ?andbF //.
rewrite /entp has_map; apply/andP/hasP => [[/eqP e /mapP [x xi xb]]|[x xi /=]].
  by exists x => //=; rewrite e xb eqxx.
by rewrite xpair_eqE => /andP [-> /eqP <-]; split=> //; apply: map_f.
Qed.
Lemma listed_once S s k b : Inv S s -> d_bufs s = [::] -> d_queue s = [::] -> d_busy s = [::] ->
  count (lists k b) (d_disk s) = ((k, b) \in keys S).
Proof.
move=> I eb eq ew; have /permP pe := i_ents I.
have ce : count (fun e : entry => e.1 == (k, b)) (flat (@ef T) (d_disk s)) = ((k, b) \in keys S).
  have := pe (fun e : entry => e.1 == (k, b)); rewrite /ents eb eq ew /= => ->.
  rewrite -(count_uniq_mem _ (i_uS I)) /keys count_map; by apply: eq_count => x /=.
rewrite -ce; apply: count_has_flatten; first exact: listsE.
by rewrite -/(flat _ _) ce; case: (_ \in _).
Qed.
Lemma quiet_nopart S s k : Inv S s -> d_busy s = [::] -> nopart k (d_disk s).
Proof.
move=> I ew; have ud := i_ud I; rewrite /nopart.
have H : forall kv, List.In kv (d_disk s) -> (if f_meta kv.2 is Some MPart then false else true).
  move=> [fk f] h; have g := In_dget ud h; case mf: (f_meta f) => [[|m]|] //=.
  have [|w [t [n [gw _ _]]]] := i_part I g; first by rewrite /unfull mf.
  by move: gw; rewrite ew.
by elim: (d_disk s) H => [|kv l IH] //= h; rewrite h ?implybT ?IH //; [move=> x xl; apply: h; right|left].
Qed.
Lemma quiet_read S s k b : Inv S s -> d_bufs s = [::] -> d_queue s = [::] -> d_busy s = [::] ->
  (forall rows, ((k, b), rows) \in S -> (retrieve_batch cs listing k b s).2 = Ok (split_rows ds rows)) /\
  ((k, b) \notin keys S -> (retrieve_batch cs listing k b s).2 = Ok (nseq (size ds) G1) \/
       S = [::] /\ (retrieve_batch cs listing k b s).2 = Err ValueError).
Proof.
move=> I eb eq ew; have lo := listed_once k b I eb eq ew; have np := quiet_nopart k I ew.
have S0 : d_dims s = None -> S = [::].
  case: (i_dims I) => [-> //|[_ ed _ _ _] _]; apply/nilP; rewrite /nilp -(perm_size (i_ents I)).
  by rewrite /ents eb eq ew ed.
have [_ [h _]] := inv_read lperm k b I; move: h.
case: (retrieve_batch cs listing k b s).2 => [gs|e].
- case=> [[rows rS ->]|[-> nl _]]; split.
  + by move=> rows' h; rewrite (uniq_fst (i_uS I) rS h).
  + by move=> /negP []; apply/mapP; exists ((k, b), rows).
  + move=> rows h; case/negP: nl; rewrite has_count lo lt0b; by apply/mapP; exists ((k, b), rows).
  + by left.
- case=> -> [dn|/negP //]; rewrite (S0 dn); split=> // _; by right.
Qed.

(* complete files stay as they are *)
Lemma full_step S s l s' r fk f m : Inv S s -> okstore mx ds S l -> step s l = Some (s', r) ->
  dget (d_disk s) fk = Some f -> f_meta f = Some (MFull m) -> dget (d_disk s') fk = Some f.
Proof.
move=> I ok st g mf.
have fl key s0 : d_disk (flush_key key s0) = d_disk s0 by rewrite /flush_key; case: (dget _ _).
case: l ok st => [a e|k b gs|k b| | | |w|w] /=.
- by move=> _; case: (d_wait s) => // -[]; rewrite /start_range; case: ifP => _ [<- _].
- case/and3P => gd le nS; case: (d_wait s) => // -[] /(inv_store lperm I gd le nS) [[_ -> _]|[hk dn _ -> ]] //.
  rewrite /stored /flush_if; case: ifP => _; rewrite ?fl /add_rows /=; rewrite /room; case: ifP => _ /=;
    rewrite ?fl /with_buf; by case: ifP.
- move=> _; case: (d_wait s) => // -[<- _]; by have [_ [_ [_ [_ [_ [_ [_ [_ ->]]]]]]]] := inv_read lperm k b I.
- move=> _; case: (d_wait s) => // -[]; case: (d_range s) => [ab|] [<- _] //=.
  rewrite /flush_all; move: (dkeys (d_bufs s)) g => ks.
  by elim: ks (s) => [|key l IH] s0 //= h; apply: IH; rewrite fl.
- by move=> _; case: ifP => // _ [<- _].
- by [].
- by move=> _; rewrite /take; case: ifP => // _; case: (d_queue s) => //= t q [<- _].
- move=> _; rewrite /work; case gw: (dget (d_busy s) w) => [[t n]|] //=.
  have /and3P [okt n4 nn] := all_dget (i_busy I) gw; rewrite /= in okt n4 nn.
  have K f' : n < 4 -> ~~ nilp (t_info t) -> dget (dset (d_disk s) (file_key t) f') fk = Some f.
    move=> n4' ni; apply: (full_keep f' I g mf) => g0 gg; by have [] := task_file_free W0 I gw n4' ni gg.
  case: n gw n4 nn K => [|[|[|[|n]]]] gw n4 nn K //=.
  + case: ifP => [_ [<- _]|/negbT] //; rewrite negb_or => /andP [ni _] [<- _]; exact: K.
  + by case=> <- _; apply: K.
  + by case=> <- _; apply: K.
  + by case=> <- _; apply: K.
  + by case=> <- _.
Qed.
Lemma full_exec S s ls s' log fk f m : Inv S s -> ~~ has (@is_clear T) ls -> okstores mx ds (stores ls) ->
  uniq (keys S ++ [seq x.1 | x <- stores ls]) -> exec s ls = Some (s', log) ->
  dget (d_disk s) fk = Some f -> f_meta f = Some (MFull m) -> dget (d_disk s') fk = Some f.
Proof.
move=> I nc ok u ex g mf.
elim: ls S s s' log I nc ok u ex g => [|l ls IH] S s s' log I nc ok u; first by case=> <- _.
rewrite /=; case st: (step s l) => [[s1 r]|] //; case ex: (exec s1 ls) => [[s2 log2]|] //= [<- _] g.
have okl := ok_first nc ok u; have I1 := inv_step lperm W0 I okl st.
have g1 := full_step I okl st g mf; apply: (IH _ _ _ _ I1 _ _ _ ex) => //.
- by case/norP: nc.
- by move: ok; rewrite stores_cons /okstores all_cat => /andP [].
- exact: uniq_next u.
Qed.
Lemma lists_persist S s ls s' log k b : Inv S s -> ~~ has (@is_clear T) ls -> okstores mx ds (stores ls) ->
  uniq (keys S ++ [seq x.1 | x <- stores ls]) -> exec s ls = Some (s', log) ->
  has (lists k b) (d_disk s) -> has (lists k b) (d_disk s').
Proof.
move=> I nc ok u ex /has_In [[fk f] h]; have g := In_dget (i_ud I) h; rewrite /lists /=.
case/andP => k1; case mf: (f_meta f) => [[|m]|] // bm.
have g' := full_exec I nc ok u ex g mf.
by apply: (In_has (dget_In g')); rewrite /lists /= k1 mf.
Qed.

(* nothing is refused once the layer widths are known *)
Lemma accepted_all S s ls s' log : Inv S s -> ~~ has (@is_clear T) ls -> okstores mx ds (stores ls) ->
  uniq (keys S ++ [seq x.1 | x <- stores ls]) -> exec s ls = Some (s', log) -> d_dims s = Some ds ->
  accepted_stores log = stores ls.
Proof.
elim: ls S s s' log => [|l ls IH] S s s' log I nc ok u; first by case=> _ <-.
set st0 := stores (l :: ls); have es : st0 = stores [:: l] ++ stores ls := stores_cons l ls; rewrite /=.
case st: (step s l) => [[s1 r]|] //; case ex: (exec s1 ls) => [[s2 log2]|] //= [_ <-] dd.
have okl := ok_first nc ok u; have I1 := inv_step lperm W0 I okl st.
have d1 : d_dims s1 = Some ds.
  have [] := @accepted_grads T z cs mx listing lperm ds W0 S s [:: l] s1 [:: (l, r)] I.
  - by move: nc; rewrite /= orbF => /norP [].
  - by move: ok; rewrite stores_cons /okstores all_cat => /andP [].
  - by apply: subseq_uniq u; apply: cat_subseq => //; rewrite (stores_cons l ls) map_cat; apply: prefix_subseq.
  - by rewrite /= st.
  by move=> _; apply; right.
rewrite accepted_cons es (IH _ _ _ _ I1 _ _ _ ex d1).
- case: l {nc ok u I1 IH st0 es} okl st => //= k b gs /and3P [g le nS].
  by case: (d_wait s) => // -[] /(inv_store lperm I g le nS) [[-> _]|[_ dn _ _]] //; rewrite dn in dd.
- by case/norP: nc.
- by move: ok; rewrite stores_cons /okstores all_cat => /andP [].
- exact: uniq_next u.
Qed.

Lemma inv_empty : Inv ([::] : seq entry) (open_disk listing [::]).
Proof.
have l0 : listing [::] = [::] by apply/perm_small_eq.
by split=> //=; right; rewrite /load_dims /chunk_files /= l0.
Qed.

Lemma session_noclear (ls : seq (label T)) rg : disciplined cs rg ls -> ~~ has (@is_clear T) ls.
Proof.
elim: ls rg => [|l ls IH] rg //; case: l => //= [a e|k b gs|k b| | |w|w].
- by case: rg => // /IH.
- by case: rg => // -[a e] /andP [_ /IH].
- exact: IH. - exact: IH. - exact: IH. - exact: IH. - exact: IH.
Qed.

(* several processes *)
Lemma processes_grads d lss d' log S : Inv S (open_disk listing d) -> all (session cs) lss ->
  okstores mx ds (stores (flatten lss)) -> uniq (keys S ++ [seq x.1 | x <- stores (flatten lss)]) ->
  (forall k c, csum cs S k c + chunk_samples cs k c (stores (flatten lss)) <= mx) ->
  processes z cs mx listing d lss = Some (d', log) ->
  [seq x <- accepted_stores log | ~~ x.1.1] = [seq x <- stores (flatten lss) | ~~ x.1.1] /\
  subseq [seq x.1 | x <- accepted_stores log] [seq x.1 | x <- stores (flatten lss)].
Proof.
elim: lss d d' log S => [|ls lss IH] d d' log S I; first by move=> _ _ _ _ [_ <-].
move=> al ok u ch; rewrite /=; case ex: (exec (open_disk listing d) ls) => [[s log1]|] //.
case pr: (processes z cs mx listing (d_disk s) lss) => [[d2 log2]|] //= [e1 e2]; rewrite -e2 in e1 *.
move: al ok u ch; rewrite /= => /andP [/andP [di fi] al].
have sc : stores (ls ++ flatten lss) = stores ls ++ stores (flatten lss) by rewrite /stores pmap_cat.
rewrite sc /okstores all_cat -!/(okstores mx ds _) map_cat => /andP [ok1 ok2] u ch.
have u1 : uniq (keys S ++ [seq x.1 | x <- stores ls]).
  by apply: subseq_uniq u; rewrite catA; apply: prefix_subseq.
have chs k c : chunk_samples cs k c (stores ls ++ stores (flatten lss)) =
   chunk_samples cs k c (stores ls) + chunk_samples cs k c (stores (flatten lss)).
  by rewrite /chunk_samples filter_cat map_cat sumn_cat.
have ch1 k c : csum cs S k c + chunk_samples cs k c (stores ls) <= mx.
  by apply: leq_trans (ch k c); rewrite chs addnA leq_addr.
have I1 := inv_exec lperm W0 I (session_noclear di) ok1 u1 ex.
have q := exec_finish lperm W0 cs0 I (pinv_open _ _ _ _) di fi ok1 u1 ch1 ex.
have I2 := inv_reopen lperm I1 q.
have [rg' _ cle] := pinv_exec lperm W0 cs0 I (pinv_open _ _ _ _) di ok1 u1 ch1 ex.
have [g1 _] := accepted_grads lperm W0 I (session_noclear di) ok1 u1 ex.
have ac : accepted_stores (log1 ++ log2) = accepted_stores log1 ++ accepted_stores log2 by rewrite /accepted_stores pmap_cat.
have [||g2 sb] := IH _ _ _ _ I2 al ok2 _ _ pr.
- apply: subseq_uniq u; rewrite keys_cat keys_entry -catA; do 2![apply: cat_subseq => //].
  exact: accepted_sub ex.
- by move=> k c; apply: leq_trans (ch k c); rewrite chs addnA leq_add2r.
rewrite ac !filter_cat g1 g2; split=> //; rewrite map_cat; apply: cat_subseq => //; exact: accepted_sub ex.
Qed.
End Quiet.
