Set Warnings "-notation-overridden,-ambiguous-paths".
From mathcomp Require Import all_ssreflect zify.
From Verif Require Import Py Dict Tensor OffModel OffSpec OffProof DiskModel DiskSpec.
From Verif Require Import DiskProof DiskProof2 DiskProof3 DiskProof4 DiskProof5.
Set Implicit Arguments. Unset Strict Implicit. Unset Printing Implicit Defensive.

Lemma size_slice (A : Type) (p q : nat) (rows : seq (seq A)) : p < q <= size rows ->
  size (slice (p, q) rows) = q - p.
Proof.
case/andP => h1 h2; rewrite /slice /= size_take size_drop.
have : q - p <= size rows - p by rewrite leq_sub2r.
by rewrite leq_eqVlt => /orP [/eqP ->|->] //; rewrite ltnn.
Qed.

Section Sessions.
Variables (T : eqType) (z : T) (cs mx : nat).
Variable listing : seq fkey -> seq fkey.
Hypothesis lperm : forall l, perm_eq (listing l) l.
Variable ds : seq nat.
Notation W := (sumn ds).
Hypothesis W0 : 0 < W.
Hypothesis cs0 : 0 < cs.
Notation row := (seq T). Notation gr := (gr T). Notation dstate := (dstate T). Notation task := (task T).
Notation entry := (entry T).
Notation Inv := (Inv cs ds).
Notation step := (step z cs mx listing). Notation exec := (exec z cs mx listing).
Notation PInv := (PInv cs).
Implicit Types (S : seq entry) (s : dstate) (d : disk T).

Definition csum S (k : bool) (c : nat) := sumn [seq size e.2 | e <- S & (e.1.1 == k) && (e.1.2 %/ cs == c)].
Lemma csum_cat S S' k c : csum (S ++ S') k c = csum S k c + csum S' k c.
Proof. by rewrite /csum filter_cat map_cat sumn_cat. Qed.
Lemma csum_perm S S' k c : perm_eq S S' -> csum S k c = csum S' k c.
Proof. by move=> pe; apply/perm_sumn/perm_map/perm_filter. Qed.

Lemma buf_le S s (k : bool) c bf : Inv S s -> PCore s -> dget (d_bufs s) (k, c) = Some bf ->
  size (b_rows bf) <= csum S k c.
Proof.
move=> I P g; rewrite -(csum_perm k c (i_ents I)) /ents csum_cat; apply: leq_trans (leq_addr _ _).
have pe : perm_eq (flat (@eb T) (d_bufs s)) (eb ((k, c), bf) ++ flat (@eb T) (ddel (d_bufs s) (k, c))).
  by apply/permP => p; rewrite count_cat (count_ddel _ p (i_ub I) g).
rewrite (csum_perm k c pe) csum_cat; apply: leq_trans (leq_addr _ _).
have /andP [/and3P [_ ok _] ch] := all_dget (i_bufs I) g.
have [_ ->] := p_b P g.
rewrite /csum /eb /entp /= filter_map -map_comp.
rewrite (eq_in_filter (a2 := predT)) ?filter_predT; last first.
  by move=> x xi /=; rewrite eqxx (allP ch _ xi).
apply: eq_leq; congr sumn; apply/eq_in_map => x /(allP ok) /=.
by case: x => i [p q] /= h; rewrite size_slice.
Qed.

Lemma pinv_eq rg S s s' : PInv rg S s -> d_bufs s' = d_bufs s -> d_queue s' = d_queue s -> d_busy s' = d_busy s ->
  d_pend s' = d_pend s -> d_range s' = d_range s -> d_wait s' = d_wait s -> PInv rg S s'.
Proof.
case: s s' => d1 b1 q1 w1 p1 r1 x1 c1 k1 [d2 b2 q2 w2 p2 r2 x2 c2 k2] /= P e1 e2 e3 e4 e5 e6.
move: P; rewrite -e1 -e2 -e3 -e4 -e5 -e6 => P.
case: P => [[h1 h2 h3 h4 h5 h6] h7 h8 h9 h10].
by split=> //; split.
Qed.

Lemma pinv_store S s a e k b gs : Inv S s -> PInv (Some (a, e)) S s -> d_wait s = false -> a <= b < e ->
  good ds gs -> (k, b) \notin keys S -> csum S k (b %/ cs) + brows gs <= mx ->
  PInv (Some (a, e)) (rcons S ((k, b), batch_rows gs)) (stored cs mx ds k b gs s).
Proof.
move=> I P nw rg g nS le; have PC := p_core P.
pose key : ckey := (k, b %/ cs); pose bf := odflt (buf0 T) (dget (d_bufs s) key).
pose nb := Buf (b_rows bf ++ batch_rows gs)
  (rcons (b_info bf) (b, (size (b_rows bf), size (b_rows bf) + size (batch_rows gs)))).
have cur : size (b_rows bf) <= csum S k (b %/ cs).
  by rewrite /bf; case gb: (dget (d_bufs s) key) => [bf'|] //=; apply: (buf_le I PC gb).
have I4 := inv_added mx I g nS.
set s1 := upd_dims (Some ds) s in I4.
have gw : odflt (buf0 T) (dget (d_bufs (with_buf key s1)) key) = bf.
  rewrite /bf /with_buf /s1; case: ifP => h //=; rewrite dgetE eqxx /=.
  by move: h; rewrite dget_has /=; case: dget.
have er : room mx key (brows gs) (with_buf key s1) = with_buf key s1.
  by rewrite /room gw ifF //; apply/negbTE; rewrite -leqNgt; apply: leq_trans le; rewrite leq_add2r.
rewrite /stored -/key -/s1 er; rewrite -/key er in I4.
set s3 := add_rows key b (batch_rows gs) (with_buf key s1) in I4 *.
have gs3 key' : dget (d_bufs s3) key' = if key' == key then Some nb else dget (d_bufs s) key'.
  rewrite /s3 /add_rows /= gw dgetE; case: eqP => // nk; rewrite /with_buf; case: ifP => //= _.
  by rewrite dgetE; case: eqP nk.
have f3 : [/\ d_queue s3 = d_queue s, d_busy s3 = d_busy s, d_pend s3 = d_pend s, d_range s3 = d_range s
             & d_wait s3 = d_wait s].
  by rewrite /s3 /add_rows /with_buf; case: ifP.
case: f3 => q3 w3 p3 r3 x3.
have i3 : infl s3 = infl s by rewrite /infl q3 w3.
have nk : key \notin infl s.
  apply/negP => h; have := p_done P nw (erefl _) h rg (erefl _); by rewrite (negbTE nS).
have P3 : PCore s3.
  split.
  - by rewrite i3; apply: (p_uniq PC).
  - by move=> x; rewrite p3 i3; apply: (p_mem PC).
  - by rewrite q3; apply: (p_q PC).
  - by rewrite w3; apply: (p_w PC).
  - move=> key' bf'; rewrite gs3; case: eqP => [_ [<-]|_]; last exact: (p_b PC).
    rewrite /nb /=; split; first by case: (b_info bf).
    rewrite map_rcons -cats1 sumn_cat /= addKn addn0 size_cat; congr (_ + _).
    by rewrite /bf; case gb: (dget (d_bufs s) key) => [bf1|] //=; have [] := p_b PC gb.
  - move=> key'; rewrite i3 dget_has gs3 => h; case: eqP => [ek|_]; first by move: nk; rewrite -ek h.
    by have := p_disj PC h; rewrite dget_has.
have kS : keys (rcons S ((k, b), batch_rows gs)) = rcons (keys S) (k, b) by rewrite /keys map_rcons.
have dn3 key' i : key' \in infl s -> a <= i < e -> i %/ cs = key'.2 ->
    (key'.1, i) \in keys (rcons S ((k, b), batch_rows gs)).
  by move=> h hi hc; rewrite kS mem_rcons inE (p_done P nw (erefl _) h hi hc) orbT.
rewrite /flush_if; case cc: (complete cs key s3); last first.
  split=> //; first by rewrite r3 (p_range P).
    by rewrite x3 nw.
  by move=> _ a' e' [<- <-] key' h i; rewrite i3 in h; apply: dn3.
have [f1 f2 _] := flush_fields key s3.
split.
- exact: core_flush.
- by rewrite f1 r3 (p_range P).
- by [].
- by rewrite f2 x3 nw.
- move=> _ a' e' [<- <-] key' h i hi hc.
  have : (key' == key) || (key' \in infl s).
    have gk : dget (d_bufs s3) key = Some nb by rewrite gs3 eqxx.
    move: h; rewrite /flush_key gk /infl /= q3 w3 map_rcons !mem_cat mem_rcons inE /= orbA.
    by [].
  case/orP => [/eqP ek|h']; last exact: dn3.
  move: cc; rewrite /complete r3 (p_range P) gs3 eqxx => /andP [_ /allP al].
  have : i \in [seq x.1 | x <- b_info nb].
    apply: al; rewrite mem_iota; move: hi hc; rewrite ek /= => /andP [h1 h2] h3.
    have h4 := leq_trunc_div i cs; have h5 := ltn_ceil i cs0; rewrite h3 in h4 h5.
    by move: h1 h2 h4 h5; clear; lia.
  case/mapP => x xi ->; rewrite ek /= /keys -(perm_mem (perm_map _ (i_ents I4))).
  have gk : dget (d_bufs s3) key = Some nb by rewrite gs3 eqxx.
  have := @has_flat_dget _ _ _ (@eb T) (fun q => q == ((k, x.1), slice x.2 (b_rows nb))) _ _ _ gk.
  have -> : has (fun q => q == ((k, x.1), slice x.2 (b_rows nb))) (eb (key, nb)).
    by apply/hasP; exists ((k, x.1), slice x.2 (b_rows nb)) => //; apply/mapP; exists x.
  move=> /(_ isT) /hasP [q qi /eqP eq]; apply/mapP; exists ((k, x.1), slice x.2 (b_rows nb)) => //.
  by rewrite -eq /ents mem_cat qi.
Qed.

(* the range in progress after a step *)
Definition next (rg : option (nat * nat)) (l : label T) : option (nat * nat) :=
  match l with
  | LStart a e => if a %% cs == 0 then Some (a, e) else None
  | LFinish => None
  | _ => rg end.
Lemma disciplined_cons rg l ls : disciplined cs rg (l :: ls) ->
  [/\ disciplined cs (next rg l) ls, ~~ is_clear l, is_start l -> rg = None &
      (if l is LStore k b gs then if rg is Some (a, e) then a <= b < e else false else true)].
Proof. by case: l => [a e|k b gs|k b| | | |w|w] //=; case: rg => [[a' e']|] //= /andP [-> ->]. Qed.

Lemma sumn_acc k c (l : label T) r :
  csum [seq entry_of x | x <- acc1 l r] k c <= chunk_samples cs k c (stores [:: l]).
Proof.
case: l => //= k' b gs; case: r => //= _; rewrite /csum /chunk_samples /=; case: ifP => //= _.
by rewrite size_batch_rows.
Qed.

Lemma pinv_step rg S s l s' r : Inv S s -> PInv rg S s -> disciplined cs rg [:: l] ->
  okstore mx ds S l -> (forall k c, csum S k c + chunk_samples cs k c (stores [:: l]) <= mx) ->
  step s l = Some (s', r) -> PInv (next rg l) (S ++ [seq entry_of x | x <- acc1 l r]) s'.
Proof.
move=> I P /disciplined_cons [_ nc ns st].
case: l nc ns st => [a e|k b gs|k b| | | |w|w] //= _ ns st; rewrite ?cats0.
- move=> _ _; case nw: (d_wait s) => // -[]; have rn := ns isT; rewrite rn in P; rewrite /start_range.
  have [pb pi _] := p_none P erefl; have PC := p_core P.
  case: ifP => [h [<- _]|/negbFE h [<- _]]; first by rewrite (negbTE h).
  rewrite h; split=> //=; first by case: PC.
  by move=> _ a' e' _ key; rewrite [infl _]pi.
- case: rg P st {ns} => [[a e]|] // P rb /and3P [g le nS] ch; case nw: (d_wait s) => // -[].
  have cle : csum S k (b %/ cs) + brows gs <= mx.
    by have := ch k (b %/ cs); rewrite /chunk_samples /= !eqxx /= addn0.
  move/(inv_store lperm I g le nS) => [[-> -> _]|[_ _ -> ->]] /=; last by rewrite cats0.
  by rewrite cats1; apply: pinv_store.
- move=> _ _; case nw: (d_wait s) => // -[<- _].
  have [_ [_ [h1 [h2 [h3 [h4 [h5 [h6 _]]]]]]]] := inv_read lperm k b I.
  exact: (pinv_eq P).
- move=> _ _; case nw: (d_wait s) => // -[]; rewrite (p_range P); case: rg P {ns st} => [[a e]|] P [<- _] //.
  have [h1 h2 h3 h4] := core_flush_all (p_core P).
  by split=> //=; [case: h1|rewrite h3 (p_range P)].
- move=> _ _; case: ifP => // /andP [w n] [<- _]; have PC := p_core P.
  have ie : infl s = [::].
    by apply: size0nil; apply/eqP; rewrite -leqn0 leqNgt -has_predT; apply/hasP => -[x]; rewrite -(p_mem PC); case: (d_pend s) n.
  by split=> //=; [case: PC|move=> _; split=> //; apply: (p_wait P)].
- move=> _ _; case e: (take w s) => [s1|] //= [<- _].
  have [h1 h2 [h3 h4 h5]] := core_take (p_core P) (i_uw I) e.
  have em : infl s1 =i infl s by move=> x; rewrite (perm_mem h2).
  split=> //; first by rewrite h3 (p_range P).
  + move=> rn; have [x1 x2 x3] := p_none P rn; rewrite h5 h4; split=> //.
    by apply/perm_small_eq => //; rewrite -x2.
  + by rewrite h4 h5; apply: (p_wait P).
  + by rewrite h4 => nw a e' re key; rewrite em; apply: (p_done P nw re).
- move=> _ _; case e: (work z w s) => [s1|] //= [<- _].
  have [h1 h2 [h3 h4 h5]] := core_work W0 I (p_core P) e.
  split=> //; first by rewrite h3 (p_range P).
  + move=> rn; have [x1 x2 x3] := p_none P rn; rewrite h5 h4; split=> //.
    by case ei: (infl s1) h2 => [|x l] // /(_ x); rewrite x2 inE eqxx => /(_ isT).
  + by rewrite h4 h5; apply: (p_wait P).
  + by rewrite h4 => nw a e' re key /h2; apply: (p_done P nw re).
Qed.

Lemma disciplined_head rg (l : label T) ls : disciplined cs rg (l :: ls) -> disciplined cs rg [:: l].
Proof. by case: l => [a e|k b gs|k b| | | |w|w] //=; case: rg => [[a' e']|] //= /andP [-> _]. Qed.
Lemma disciplined_clear rg (ls : seq (label T)) : disciplined cs rg ls -> ~~ has (@is_clear T) ls.
Proof.
elim: ls rg => [|l ls IH] rg //= h; have [h1 h2 _ _] := disciplined_cons h.
by rewrite (negbTE h2) (IH _ h1).
Qed.

Lemma pinv_exec rg S s ls s' log : Inv S s -> PInv rg S s -> disciplined cs rg ls ->
  okstores mx ds (stores ls) -> uniq (keys S ++ [seq x.1 | x <- stores ls]) ->
  (forall k c, csum S k c + chunk_samples cs k c (stores ls) <= mx) ->
  exec s ls = Some (s', log) ->
  exists2 rg', PInv rg' (S ++ [seq entry_of x | x <- accepted_stores log]) s' &
    forall k c, csum (S ++ [seq entry_of x | x <- accepted_stores log]) k c <=
                csum S k c + chunk_samples cs k c (stores ls).
Proof.
elim: ls rg S s s' log => [|l ls IH] rg S s s' log I P di ok u ch /=.
  by case=> <- <-; exists rg; rewrite cats0 // => k c; rewrite leq_addr.
case st: (step s l) => [[s1 r]|] //; case ex: (exec s1 ls) => [[s2 log2]|] //= [<- <-].
have nc := disciplined_clear di.
have okl := ok_first nc ok u.
have I1 := inv_step lperm W0 I okl st.
have chc k c : chunk_samples cs k c (stores (l :: ls)) =
    chunk_samples cs k c (stores [:: l]) + chunk_samples cs k c (stores ls).
  by rewrite stores_cons /chunk_samples filter_cat map_cat sumn_cat.
have P1 := pinv_step I P (disciplined_head di) okl
  (fun k c => leq_trans (leq_add (leqnn _) (leq_trans (leq_addr _ _) (eq_leq (esym (chc k c))))) (ch k c)) st.
have [d1 _ _ _] := disciplined_cons di.
have le k c : csum (S ++ [seq entry_of x | x <- acc1 l r]) k c + chunk_samples cs k c (stores ls)
              <= csum S k c + chunk_samples cs k c (stores (l :: ls)).
  by rewrite chc csum_cat -addnA leq_add2l leq_add2r sumn_acc.
rewrite accepted_cons map_cat catA.
have [|||rg' P2 le2] := IH _ _ _ _ _ I1 P1 d1 _ _ _ ex.
- by move: ok; rewrite stores_cons /okstores all_cat => /andP [].
- exact: uniq_next u.
- by move=> k c; apply: leq_trans (le k c) (ch k c).
by exists rg' => // k c; apply: leq_trans (le2 k c) (le k c).
Qed.

Lemma exec_rcons s ls l s' log : exec s (rcons ls l) = Some (s', log) -> exists s1 log1 r,
  [/\ exec s ls = Some (s1, log1), step s1 l = Some (s', r) & log = rcons log1 (l, r)].
Proof.
elim: ls s s' log => [|l' ls IH] s s' log /=.
  case st: (step s l) => [[s1 r]|] //= [<- <-]; by exists s, [::], r.
case st: (step s l') => [[s1 r]|] //; case ex: (exec s1 (rcons ls l)) => [[s2 log2]|] //= [<- <-].
have [s3 [log3 [r3 [h1 h2 ->]]]] := IH _ _ _ ex; rewrite h1 /=; by exists s3, ((l', r) :: log3), r3.
Qed.

(* what is left after a finished session *)
Definition quiet s := [/\ d_bufs s = [::], d_queue s = [::], d_busy s = [::] & d_wait s = false].
Lemma exec_finish rg S s ls s' log : Inv S s -> PInv rg S s -> disciplined cs rg ls ->
  is_finish (last (@LClear T) ls) -> okstores mx ds (stores ls) -> uniq (keys S ++ [seq x.1 | x <- stores ls]) ->
  (forall k c, csum S k c + chunk_samples cs k c (stores ls) <= mx) ->
  exec s ls = Some (s', log) -> quiet s'.
Proof.
move=> I P di fi ok u ch ex; have [rg' P' _] := pinv_exec I P di ok u ch ex.
have rn : d_range s' = None.
  case/lastP: ls fi ex {di ok u ch} => [|ls l] //; rewrite last_rcons => fl /exec_rcons [s1 [log1 [r [_ st _]]]].
  by case: l fl st => //= _; case: ifP => // _ [<- _].
have [pb pi pw] : [/\ d_bufs s' = [::], infl s' = [::] & d_wait s' = false].
  by apply: (p_none P'); rewrite -(p_range P').
split=> //; first by move: pi; rewrite /infl; case: (d_queue s').
by move: pi; rewrite /infl; case: (d_queue s') => //=; case: (d_busy s').
Qed.

Lemma inv_reopen S s : Inv S s -> quiet s -> Inv S (open_disk listing (d_disk s)).
Proof.
move=> I [eb eq ew _].
have full fk f : dget (d_disk s) fk = Some f -> ~~ unfull f.
  by move=> g; apply/negP => uf; have [w [t [n [gw _ _]]]] := i_part I g uf; move: gw; rewrite ew.
split=> //=.
- have np k : nopart k (d_disk s).
    apply/negPn/negP; rewrite /nopart -has_predC => /has_In [kv ind] /=; rewrite negb_imply => /andP [_ hp].
    have := full _ _ (dget_in (i_ud I) ind); rewrite /unfull; by case: (f_meta kv.2) hp => [[]|].
  case: (load_dimsE lperm (i_ud I) (i_files I)) => [->|[-> h]]; first by left.
  right; split=> //; case ed: (d_disk s) => [|[fk f] l] //.
  have g : dget (d_disk s) fk = Some f by rewrite ed dget_cons eqxx.
  case: (h fk.1) => [e|]; last by rewrite np.
  have : fk \in chunk_files listing fk.1 (d_disk s).
    rewrite (mem_chunk_files lperm) (dget_mem g) eqxx g; have := full _ _ g; rewrite /unfull.
    by case: (f_meta f).
  by rewrite e.
- exact: (i_uS I).
- by have := i_ents I; rewrite /ents eb eq ew /open_disk /=.
- exact: (i_ud I).
- exact: (i_files I).
- by move=> fk f g uf; have := full _ _ g; rewrite uf.
Qed.
Lemma pinv_open S d : PInv None S (open_disk listing d).
Proof. by split=> //; split. Qed.

Lemma accepted_sub ls s s' log : exec s ls = Some (s', log) ->
  subseq [seq x.1 | x <- accepted_stores log] [seq x.1 | x <- stores ls].
Proof.
elim: ls s s' log => [|l ls IH] s s' log; first by case=> _ <-.
rewrite stores_cons map_cat /=; case: (step s l) => [[s2 r]|] //; case e2: (exec s2 ls) => [[s3 log3]|] //= [es <-].
rewrite accepted_cons map_cat; apply: cat_subseq; last exact: IH e2.
by case: (l) => //= k b gs; case: (r) => //= _; rewrite eqxx.
Qed.
Lemma processesP S d lss d' log : Inv S (open_disk listing d) -> all (session cs) lss ->
  okstores mx ds (stores (flatten lss)) -> uniq (keys S ++ [seq x.1 | x <- stores (flatten lss)]) ->
  (forall k c, csum S k c + chunk_samples cs k c (stores (flatten lss)) <= mx) ->
  processes z cs mx listing d lss = Some (d', log) ->
  Inv (S ++ [seq entry_of x | x <- accepted_stores log]) (open_disk listing d').
Proof.
have sc (l1 l2 : seq (label T)) : stores (l1 ++ l2) = stores l1 ++ stores l2 by rewrite /stores pmap_cat.
have ac l1 l2 : accepted_stores (l1 ++ l2) = accepted_stores l1 ++ accepted_stores l2 :> seq (bool * nat * seq gr).
  by rewrite /accepted_stores pmap_cat.
elim: lss S d d' log => [|ls lss IH] S d d' log I /=; first by move=> _ _ _ _ [<- <-]; rewrite cats0.
case/andP => /andP [di fi] se; rewrite sc /okstores all_cat map_cat => /andP [ok1 ok2] u ch; rewrite catA in u.
case ex: (exec _ ls) => [[s1 log1]|] //; case pr: (processes _ _ _ _ _ lss) => [[d2 log2]|] //= [<- <-].
have chs k c : chunk_samples cs k c (stores ls ++ stores (flatten lss)) =
   chunk_samples cs k c (stores ls) + chunk_samples cs k c (stores (flatten lss)).
  by rewrite /chunk_samples filter_cat map_cat sumn_cat.
have u1 : uniq (keys S ++ [seq x.1 | x <- stores ls]) by apply: subseq_uniq u; apply: prefix_subseq.
have ch1 k c : csum S k c + chunk_samples cs k c (stores ls) <= mx.
  by apply: leq_trans (ch k c); rewrite chs leq_add2l leq_addr.
have I1 := inv_exec lperm W0 I (disciplined_clear di) ok1 u1 ex.
have qs := exec_finish I (pinv_open S d) di fi ok1 u1 ch1 ex.
have [rg' _ le] := pinv_exec I (pinv_open S d) di ok1 u1 ch1 ex.
rewrite ac map_cat catA; apply: IH pr => //; first exact: inv_reopen.
- apply: subseq_uniq u; apply: cat_subseq => //; rewrite keys_cat keys_entry; apply: cat_subseq => //.
  exact: accepted_sub ex.
- by move=> k c; apply: leq_trans (ch k c); rewrite chs addnA leq_add2r.
Qed.
End Sessions.
