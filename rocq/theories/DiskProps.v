(* C36, C37, C39: the chunked gradient store on disk. *)
Set Warnings "-notation-overridden,-ambiguous-paths".
From Coq Require String Ascii DecimalString.
From mathcomp Require Import all_ssreflect zify.
From Verif Require Import Py Dict Tensor OffModel OffSpec OffProof DiskModel DiskSpec.
From Verif Require Import DiskProof DiskProof2 DiskProof3 DiskProof4 DiskProof5 DiskProof6 DiskProof7 DiskProof8 DiskProof9.
Set Implicit Arguments. Unset Strict Implicit. Unset Printing Implicit Defensive.

Lemma uniq_key_In (K : eqType) (V : Type) (l : seq (K * V)) k v v' : uniq [seq x.1 | x <- l] ->
  List.In (k, v) l -> List.In (k, v') l -> v = v'.
Proof.
have mi (m : seq (K * V)) w : List.In (k, w) m -> k \in [seq x.1 | x <- m].
  by elim: m => [|y m IH] //= [->|/IH h]; rewrite inE ?eqxx // h orbT.
elim: l => [|[a b] l IH] //= /andP [na u] [[ea <-]|h1] [[ea' <-]|h2] //.
- by case/negP: na; rewrite ea; apply: mi h2.
- by case/negP: na; rewrite ea'; apply: mi h1.
- exact: IH.
Qed.

Section Disk.
Variables (T : eqType) (z : T) (cs mx : nat).
Variable listing : seq fkey -> seq fkey.
Hypothesis lperm : forall l, perm_eq (listing l) l.
Variable ds : seq nat.
Hypothesis W0 : 0 < sumn ds.
Hypothesis cs0 : 0 < cs.
Notation gr := (gr T). Notation exec := (exec z cs mx listing). Notation step := (step z cs mx listing).
Notation processes := (processes z cs mx listing).
Implicit Types (d : disk T) (lss : seq (seq (label T))).

Lemma legal_ok (st : seq (bool * nat * seq gr)) : legal cs mx ds st -> okstores mx ds st.
Proof.
case=> g _ ch; rewrite /okstores.
have H : forall x, List.In x st -> good ds x.2 && (brows x.2 <= mx).
  move=> x xi; apply/andP; split; first by elim: st g xi {ch} => [|y l IH] //= /andP [gy gl] [<-|/IH]; last exact.
  apply: leq_trans (ch x.1.1 (x.1.2 %/ cs)); rewrite /chunk_samples.
  elim: st xi {g ch} => [|y l IH] //= [->|/IH h]; first by rewrite !eqxx /= leq_addr.
  by case: ifP => _ //=; apply: leq_trans h _; rewrite leq_addl.
by elim: st H {g ch} => [|y l IH] //= h; rewrite h ?IH //; [move=> x xl; apply: h; right|left].
Qed.
Lemma okstores_In st (x : bool * nat * seq gr) : okstores mx ds st -> List.In x st -> good ds x.2.
Proof. by elim: st => [|y l IH] //= /andP [/andP [g _] al] [<-|/IH]; last exact. Qed.
Lemma In_entry (x : bool * nat * seq gr) l : List.In x l -> entry_of x \in [seq entry_of y | y <- l].
Proof. by elim: l => [|y l IH] //= [->|/IH h]; rewrite inE ?eqxx // h orbT. Qed.
Lemma entry_In (e : entry T) l : e \in [seq entry_of y | y <- l] -> exists2 x : bool * nat * seq gr, List.In x l & e = entry_of x.
Proof.
elim: l => [|y l IH] //=; rewrite inE => /orP [/eqP ->|/IH [x xl ->]]; first by exists y => //; left.
by exists x => //; right.
Qed.
Lemma acc_In s ls s' log (x : bool * nat * seq gr) : exec s ls = Some (s', log) ->
  List.In x (accepted_stores log) -> List.In x (stores ls).
Proof.
elim: ls s s' log => [|l ls IH] s s' log /=; first by case=> _ <-.
case st: (step s l) => [[s1 r]|] //; case ex: (exec s1 ls) => [[s2 log2]|] //= [_ <-].
rewrite accepted_cons => /List.in_app_iff [h|/(IH _ _ _ ex) h].
  by case: l h {st} => //= k b gs; case: r => // _ [->|//]; left.
by case: l {st} => //= *; right.
Qed.
Lemma proc_In d lss d' log (x : bool * nat * seq gr) : processes d lss = Some (d', log) ->
  List.In x (accepted_stores log) -> List.In x (stores (flatten lss)).
Proof.
elim: lss d d' log => [|ls lss IH] d d' log /=; first by case=> _ <-.
case ex: (exec _ ls) => [[s log1]|] //; case pr: (processes _ lss) => [[d2 log2]|] //= [_ <-].
rewrite /accepted_stores pmap_cat -!/(accepted_stores _) /stores pmap_cat -!/(stores _) => /List.in_app_iff h.
by apply/List.in_app_iff; case: h => [/(acc_In ex)|/(IH _ _ _ pr)]; [left|right].
Qed.
Lemma chunk_cat k c (st st' : seq (bool * nat * seq gr)) :
  chunk_samples cs k c (st ++ st') = chunk_samples cs k c st + chunk_samples cs k c st'.
Proof. by rewrite /chunk_samples filter_cat map_cat sumn_cat. Qed.
Lemma exec_csum s ls s' log k c : exec s ls = Some (s', log) ->
  csum cs [seq entry_of x | x <- accepted_stores log] k c <= chunk_samples cs k c (stores ls).
Proof.
elim: ls s s' log => [|l ls IH] s s' log; first by case=> _ <-.
rewrite stores_cons chunk_cat /=; case st: (step s l) => [[s1 r]|] //; case ex: (exec s1 ls) => [[s2 log2]|] //= [_ <-].
by rewrite accepted_cons map_cat csum_cat; apply: leq_add (sumn_acc _ _ _ _ _) (IH _ _ _ ex).
Qed.
Lemma processes_csum d lss d' log k c : processes d lss = Some (d', log) ->
  csum cs [seq entry_of x | x <- accepted_stores log] k c <= chunk_samples cs k c (stores (flatten lss)).
Proof.
elim: lss d d' log => [|ls lss IH] d d' log /=; first by case=> _ <-.
case ex: (exec _ ls) => [[s log1]|] //; case pr: (processes _ lss) => [[d2 log2]|] //= [_ <-].
rewrite /accepted_stores pmap_cat -!/(accepted_stores _) /stores pmap_cat -!/(stores _) chunk_cat map_cat csum_cat.
exact: leq_add (exec_csum k c ex) (IH _ _ _ pr).
Qed.
Lemma read_good (gs : seq gr) : good ds gs -> [seq moved g | g <- split_rows ds (batch_rows gs)] = read_back gs.
Proof. by move=> g; rewrite (good_split z g) (good_moved g). Qed.
Lemma read_none n : [seq moved g | g <- nseq n (@G1 T)] = nseq n G1.
Proof. by elim: n => [|n IH] //=; rewrite IH. Qed.
Lemma nopartE k d : nopart k d = ~~ has (truncated k) d.
Proof.
rewrite /nopart -all_predC; apply: eq_all => kv /=; rewrite /truncated.
by case: (_ == _); case: (f_meta _) => [[]|].
Qed.
Lemma legal_inv lss d log : all (session cs) lss -> legal cs mx ds (stores (flatten lss)) ->
  processes [::] lss = Some (d, log) ->
  Inv cs ds [seq entry_of x | x <- accepted_stores log] (open_disk listing d) /\ okstores mx ds (accepted_stores log).
Proof.
move=> al lg pr; have ok := legal_ok lg; split.
  by apply: (processesP lperm W0 cs0 (inv_empty _ _ lperm _) al ok (lg_once lg) _ pr) => k c; apply: (lg_chunk lg).
have H : forall x, List.In x (accepted_stores log) -> good ds x.2 && (brows x.2 <= mx).
  move=> x /(proc_In pr); move: ok; rewrite /okstores; elim: (stores _) => [|y l IH] //= /andP [h /IH hl] [<-|/hl //]; exact: h.
rewrite /okstores; elim: (accepted_stores log) H => [|y l IH] //= h.
by rewrite h ?IH //; [move=> x xl; apply: h; right|left].
Qed.

(* C36: any number of processes one after the other on the same directory, each following the protocol
   of the attributor, in every interleaving of the main thread with any number of write workers: a new
   manager on the directory reads every accepted batch exactly as stored, the batch is in exactly one
   file, and nothing else is in the directory; gradient stores are never refused *)
Theorem C36_finish lss d log : all (session cs) lss -> legal cs mx ds (stores (flatten lss)) ->
  processes [::] lss = Some (d, log) ->
  [/\ [seq x <- accepted_stores log | ~~ x.1.1] = [seq x <- stores (flatten lss) | ~~ x.1.1],
      forall k b gs, List.In (k, b, gs) (accepted_stores log) ->
        (retrieve_disk cs listing k b (open_disk listing d)).2 = Ok (read_back gs) /\ count (lists k b) d = 1 &
      forall k b, (k, b) \notin [seq x.1 | x <- accepted_stores log] ->
        ~~ has (lists k b) d /\
        ((retrieve_disk cs listing k b (open_disk listing d)).2 = Ok (nseq (size ds) G1) \/
         accepted_stores log = [::] /\ (retrieve_disk cs listing k b (open_disk listing d)).2 = Err ValueError)].
Proof.
move=> al lg pr; have [I ok] := legal_inv al lg pr.
have lo k b := listed_once (s := open_disk listing d) k b I erefl erefl erefl.
have rd k b := quiet_read (s := open_disk listing d) lperm k b I erefl erefl erefl.
split.
- by have [] := processes_grads lperm W0 cs0 (inv_empty _ _ lperm _) al (legal_ok lg) (lg_once lg) (lg_chunk lg) pr.
- move=> k b gs h; have eS := In_entry h; have [rd1 _] := rd k b; split.
    by rewrite /retrieve_disk /= (rd1 _ eS) /= read_good // (okstores_In ok h).
  by have := lo k b; rewrite /= => ->; rewrite (_ : _ \in _ = true) //; apply/mapP; exists (entry_of (k, b, gs)).
move=> k b nk; have nk' : (k, b) \notin keys [seq entry_of x | x <- accepted_stores log] by rewrite keys_entry.
split; first by rewrite has_count -leqNgt leqn0; have := lo k b => /= ->; rewrite (negbTE nk').
have [_ /(_ nk') [e|[S0 e]]] := rd k b; rewrite /retrieve_disk /= e /=; first by left; rewrite read_none.
by right; split=> //; case: (accepted_stores log) S0.
Qed.

(* the same for the manager that has written the last batches, whatever it has read meanwhile *)
Theorem C36_same_manager lss d0 log0 ls s log : all (session cs) (rcons lss ls) ->
  legal cs mx ds (stores (flatten (rcons lss ls))) ->
  processes [::] lss = Some (d0, log0) -> exec (open_disk listing d0) ls = Some (s, log) ->
  forall k b, let acc := accepted_stores (log0 ++ log) in
  (forall gs, List.In (k, b, gs) acc -> (retrieve_disk cs listing k b s).2 = Ok (read_back gs)) /\
  ((k, b) \notin [seq x.1 | x <- acc] -> (retrieve_disk cs listing k b s).2 = Ok (nseq (size ds) G1) \/
     acc = [::] /\ (retrieve_disk cs listing k b s).2 = Err ValueError).
Proof.
move=> al lg pr ex.
have pr1 : processes [::] (rcons lss ls) = Some (d_disk s, log0 ++ log).
  elim: lss [::] d0 log0 pr ex {al lg} => [|l lss IH] d d0 log0 /=.
    by case=> <- <- ->; rewrite cats0.
  case: (exec _ l) => [[s1 log1]|] //; case pr: (processes _ lss) => [[d2 log2]|] //= [<- <-] ex.
  by rewrite (IH _ _ _ pr ex) /= catA.
have [_ ok] := legal_inv al lg pr1.
move: al (lg); rewrite all_rcons => /andP [/andP [di fi] al] [g1 u1 c1].
have sc : stores (flatten (rcons lss ls)) = stores (flatten lss) ++ stores ls by rewrite flatten_rcons /stores pmap_cat.
have okk := legal_ok lg; move: okk u1 c1; rewrite sc map_cat => okk u1 c1.
have chs k c : chunk_samples cs k c (stores (flatten lss) ++ stores ls) =
   chunk_samples cs k c (stores (flatten lss)) + chunk_samples cs k c (stores ls).
  by rewrite /chunk_samples filter_cat map_cat sumn_cat.
have lg0 : legal cs mx ds (stores (flatten lss)).
  split; first by move: g1; rewrite sc all_cat => /andP [].
    by move: u1; rewrite cat_uniq => /and3P [].
  by move=> k c; apply: leq_trans (c1 k c); rewrite chs leq_addr.
have [I0 _] := legal_inv al lg0 pr.
have [_ sub] := processes_grads lperm W0 cs0 (inv_empty _ _ lperm _) al (legal_ok lg0) (lg_once lg0) (lg_chunk lg0) pr.
have ok1 : okstores mx ds (stores ls) by move: okk; rewrite /okstores all_cat => /andP [].
have uu : uniq (keys [seq entry_of x | x <- accepted_stores log0] ++ [seq x.1 | x <- stores ls]).
  by apply: subseq_uniq u1; rewrite keys_entry; apply: cat_subseq.
have I := inv_exec lperm W0 I0 (session_noclear di) ok1 uu ex.
have ch k c : csum cs [seq entry_of x | x <- accepted_stores log0] k c + chunk_samples cs k c (stores ls) <= mx.
  apply: leq_trans (c1 k c); rewrite chs leq_add2r.
  exact: (processes_csum k c pr).
have [eb eq ew _] := exec_finish lperm W0 cs0 I0 (pinv_open _ _ _ _) di fi ok1 uu ch ex.
move=> k b; have [rd1 rd2] := quiet_read lperm k b I eb eq ew.
have ac : [seq entry_of x | x <- accepted_stores log0] ++ [seq entry_of x | x <- accepted_stores log] =
   [seq entry_of x | x <- accepted_stores (log0 ++ log)] by rewrite -map_cat /accepted_stores pmap_cat.
rewrite ac in rd1 rd2; split.
  move=> gs h; have eS := In_entry h; rewrite /retrieve_disk /= (rd1 _ eS) /= read_good //.
  exact: (okstores_In ok h).
move=> nk; have [|e|[S0 e]] := rd2; first by rewrite keys_entry.
  by left; rewrite /retrieve_disk /= e /= read_none.
by right; rewrite /retrieve_disk /= e; split=> //; case: (accepted_stores _) S0.
Qed.

(* ---------------------------------------------------------------------------------------------- *)
(* processes that have finished, and one more process stopped anywhere *)
Lemma setup lss d0 log0 ls s log : all (session cs) lss -> legal cs mx ds (stores (flatten lss)) ->
  loose mx ds (stores (flatten lss) ++ stores ls) -> ~~ has (@is_clear T) ls ->
  processes [::] lss = Some (d0, log0) -> exec (open_disk listing d0) ls = Some (s, log) ->
  [/\ Inv cs ds [seq entry_of x | x <- accepted_stores (log0 ++ log)] s,
      Inv cs ds [seq entry_of x | x <- accepted_stores log0] (open_disk listing d0),
      okstores mx ds (stores ls),
      uniq (keys [seq entry_of x | x <- accepted_stores log0] ++ [seq x.1 | x <- stores ls]) &
      forall k b rows, ((k, b), rows) \in [seq entry_of x | x <- accepted_stores (log0 ++ log)] ->
         exists2 gs, List.In (k, b, gs) (accepted_stores (log0 ++ log)) &
                     [seq moved g | g <- split_rows ds rows] = read_back gs].
Proof.
move=> al lg /andP [okk]; rewrite map_cat => u1 nc pr ex.
have [I0 ok0] := legal_inv al lg pr.
have [_ sub] := processes_grads lperm W0 cs0 (inv_empty _ _ lperm _) al (legal_ok lg) (lg_once lg) (lg_chunk lg) pr.
have ok1 : okstores mx ds (stores ls) by move: okk; rewrite /okstores all_cat => /andP [].
have uu : uniq (keys [seq entry_of x | x <- accepted_stores log0] ++ [seq x.1 | x <- stores ls]).
  by apply: subseq_uniq u1; rewrite keys_entry; apply: cat_subseq.
have ac : [seq entry_of x | x <- accepted_stores log0] ++ [seq entry_of x | x <- accepted_stores log] =
   [seq entry_of x | x <- accepted_stores (log0 ++ log)] by rewrite -map_cat /accepted_stores pmap_cat.
have I := inv_exec lperm W0 I0 nc ok1 uu ex; rewrite ac in I; split=> // k b rows.
case/entry_In => -[[k' b'] gs] h [-> -> ->]; exists gs => //; apply: read_good.
move: h; rewrite /accepted_stores pmap_cat -!/(accepted_stores _) => /List.in_app_iff [h|/(acc_In ex) h].
  exact: (okstores_In ok0 h).
exact: (okstores_In ok1 h).
Qed.

(* C36: reading at any moment, also while batches are being stored and written, and also when chunks
   overflow: a batch is never mixed up or read partially *)
Theorem C36_read_anytime lss d0 log0 ls s log : all (session cs) lss -> legal cs mx ds (stores (flatten lss)) ->
  loose mx ds (stores (flatten lss) ++ stores ls) -> ~~ has (@is_clear T) ls ->
  processes [::] lss = Some (d0, log0) -> exec (open_disk listing d0) ls = Some (s, log) ->
  forall k b, let acc := accepted_stores (log0 ++ log) in
  match (retrieve_disk cs listing k b s).2 with
  | Ok g => (exists2 gs, List.In (k, b, gs) acc & g = read_back gs) \/
            (g = nseq (size ds) G1 /\ ~~ has (lists k b) (d_disk s))
  | Err e => e = ValueError /\ (acc = [::] \/ has (truncated k) (d_disk s))
  end.
Proof.
move=> al lg lo nc pr ex k b acc; have [I _ _ _ back] := setup al lg lo nc pr ex.
have [_ [h _]] := inv_read lperm k b I; move: h; rewrite /retrieve_disk /=.
case: (retrieve_batch cs listing k b s).2 => [g|e] /=.
  case=> [[rows rS ->]|[-> nl _]]; last by right; rewrite read_none.
  by left; have [gs h ->] := back _ _ _ rS; exists gs.
case=> -> h; split=> //; rewrite nopartE negbK in h; case: h => h; last by right.
left; case: (i_dims I) => [|[_ e1 e2 e3 e4]]; first by rewrite h.
have : size [seq entry_of x | x <- acc] = 0 by rewrite -(perm_size (i_ents I)) /ents e1 e2 e3 e4.
by case: acc.
Qed.

(* C36: finalize_batch_range returns: while it waits, there is a bound on the number of steps the
   workers can make, and until it can return some worker can make a step *)
Theorem C36_finish_returns lss d0 log0 ls s log : all (session cs) lss -> disciplined cs None ls ->
  legal cs mx ds (stores (flatten (rcons lss ls))) ->
  processes [::] lss = Some (d0, log0) -> exec (open_disk listing d0) ls = Some (s, log) -> d_wait s ->
  exists bound, forall ls' s' log', all (@is_worker T) ls' -> exec s ls' = Some (s', log') ->
    size ls' <= bound /\
    (isSome (step s' (@LFinish T)) \/ exists2 l, is_worker l & isSome (step s' l)).
Proof.
move=> al di lg pr ex w; case: (lg); rewrite flatten_rcons /stores pmap_cat -!/(stores _) => g1 u1 c1.
have lg0 : legal cs mx ds (stores (flatten lss)).
  split; first by move: g1; rewrite all_cat => /andP [].
    by move: u1; rewrite map_cat cat_uniq => /and3P [].
  by move=> k c; apply: leq_trans (c1 k c); rewrite chunk_cat leq_addr.
have okk := legal_ok lg; rewrite flatten_rcons /stores pmap_cat -!/(stores _) in okk.
have nc := session_noclear di.
have lo : loose mx ds (stores (flatten lss) ++ stores ls) by apply/andP; split.
have [I I0 ok1 uu _] := setup al lg0 lo nc pr ex.
have ch k c : csum cs [seq entry_of x | x <- accepted_stores log0] k c + chunk_samples cs k c (stores ls) <= mx.
  by apply: leq_trans (c1 k c); rewrite chunk_cat leq_add2r; apply: (processes_csum k c pr).
have [rg P cle] := pinv_exec lperm W0 cs0 I0 (pinv_open _ _ _ _) di ok1 uu ch ex.
have ac : [seq entry_of x | x <- accepted_stores log0] ++ [seq entry_of x | x <- accepted_stores log] =
   [seq entry_of x | x <- accepted_stores (log0 ++ log)] by rewrite -map_cat /accepted_stores pmap_cat.
rewrite ac in P cle; exists (mu s) => ls' s' log' aw ex'.
have [|I' P' le we] := workers_run lperm W0 cs0 I P aw _ ex'.
  by move=> k c; apply: leq_trans (cle k c) (ch k c).
split; first by apply: leq_trans le; apply: leq_addr.
by apply: (progress z mx listing P'); rewrite we.
Qed.

(* C37: a crash at any step of any execution (also inside the write of a file), then a new manager on
   the directory: a read gives the stored batch, or "not stored" when no complete file has it; it raises
   ValueError when a metadata file of that kind is truncated or no complete file has the batch *)
Theorem C37_crash lss d0 log0 ls s log : all (session cs) lss -> legal cs mx ds (stores (flatten lss)) ->
  loose mx ds (stores (flatten lss) ++ stores ls) -> ~~ has (@is_clear T) ls ->
  processes [::] lss = Some (d0, log0) -> exec (open_disk listing d0) ls = Some (s, log) ->
  forall k b, let acc := accepted_stores (log0 ++ log) in
  let d := d_disk s in
  match (retrieve_disk cs listing k b (open_disk listing d)).2 with
  | Ok g => (exists gs, [/\ List.In (k, b, gs) acc, g = read_back gs & has (lists k b) d]) \/
            [/\ g = nseq (size ds) G1, ~~ has (lists k b) d & ~~ has (truncated k) d]
  | Err e => e = ValueError /\ (has (truncated k) d \/ ~~ has (lists k b) d)
  end.
Proof.
move=> al lg lo nc pr ex k b acc d; have [I _ _ _ back] := setup al lg lo nc pr ex.
have := crash_read cs lperm k b (i_ud I) (i_files I); rewrite /retrieve_disk /= -/d.
case: (retrieve_batch cs listing k b (open_disk listing d)).2 => [g|e] /=.
  case=> [[fk [f [m [se [g1 g2 g3 g4 ->]]]]]|[-> nl np]]; last by right; rewrite read_none -nopartE.
  left; have := mem_ef g1 g2 g4; rewrite g3 (perm_mem (i_ents I)) => h.
  have [gs hi he] := back _ _ _ h; exists gs; split=> //.
  apply: (In_has (dget_In g1)); rewrite /lists /= g3 eqxx g2 /=.
  by rewrite -[_ \in _]negbK -find_info_none g4.
case=> -> h; split=> //; rewrite nopartE negbK in h; case: h => [h|/(_ k) [h|h]]; first by left.
  right; apply/negP => /has_In [[fk f] hf]; rewrite /lists /= => /andP [/eqP k1].
  have gf := In_dget (i_ud I) hf; case mf: (f_meta f) => [[|m]|] // bm.
  have : fk \in chunk_files listing k d; last by rewrite h.
  by rewrite mem_chunk_files // gf mf k1 eqxx !andbT; apply: (dget_mem gf).
by left; rewrite nopartE negbK in h.
Qed.
(* C37: what earlier processes have finished is still in the directory after a crash of a later one, and
   is read exactly unless a metadata file is truncated *)
Theorem C37_durable lss d0 log0 ls s log : all (session cs) lss -> legal cs mx ds (stores (flatten lss)) ->
  loose mx ds (stores (flatten lss) ++ stores ls) -> ~~ has (@is_clear T) ls ->
  processes [::] lss = Some (d0, log0) -> exec (open_disk listing d0) ls = Some (s, log) ->
  forall k b gs, List.In (k, b, gs) (accepted_stores log0) -> let d := d_disk s in
  has (lists k b) d /\
  (~~ has (truncated k) d -> (retrieve_disk cs listing k b (open_disk listing d)).2 = Ok (read_back gs)).
Proof.
move=> al lg lo nc pr ex k b gs hi d; have [I I0 ok1 uu _] := setup al lg lo nc pr ex.
have l0 : has (lists k b) d0.
  rewrite has_count; have [_ /(_ k b gs hi) [_ ->]] := C36_finish al lg pr; by [].
have l1 := lists_persist lperm W0 I0 nc ok1 uu ex l0; split=> // nt.
have := C37_crash al lg lo nc pr ex k b; cbv zeta; rewrite -/d.
case: (retrieve_disk cs listing k b (open_disk listing d)).2 => [g|e].
  case=> [[gs' [hi' -> _]]|[_]]; last by rewrite l1.
  congr (Ok (read_back _)).
  have hi2 : List.In (k, b, gs) (accepted_stores (log0 ++ log)).
    by rewrite /accepted_stores pmap_cat; apply/List.in_app_iff; left.
  have := i_uS I; rewrite -map_comp => u2; apply: (uniq_key_In u2 hi' hi2).
by case=> _; rewrite (negbTE nt) l1; case.
Qed.
(* C37: as long as a truncated metadata file is there, reading a batch that is in no complete file fails *)
Theorem C37_truncated_blocks lss d0 log0 ls s log k b : all (session cs) lss ->
  legal cs mx ds (stores (flatten lss)) ->
  loose mx ds (stores (flatten lss) ++ stores ls) -> ~~ has (@is_clear T) ls ->
  processes [::] lss = Some (d0, log0) -> exec (open_disk listing d0) ls = Some (s, log) ->
  has (truncated k) (d_disk s) -> ~~ has (lists k b) (d_disk s) ->
  (retrieve_disk cs listing k b (open_disk listing (d_disk s))).2 = Err ValueError.
Proof.
move=> al lg lo nc pr ex ht nl; have := C37_crash al lg lo nc pr ex k b; cbv zeta.
case: (retrieve_disk _ _ _ _ _).2 => [g|e]; last by case=> ->.
by case=> [[gs [_ _]]|[_ _]]; [rewrite (negbTE nl)|rewrite ht].
Qed.

(* C39: the loader over the finished directory: items of the full width; together they contain each
   accepted batch of the kind, within the requested range, exactly once with its rows, and no other rows *)
Theorem C39_loader (fle : ssrbool.rel fkey) lss d log k range bs : all (session cs) lss ->
  legal cs mx ds (stores (flatten lss)) -> processes [::] lss = Some (d, log) -> 0 < bs ->
  exists outs : seq (item T),
  [/\ disk_loader listing fle k d range bs = [seq Ok it | it <- outs],
      all (fun it => t2c it.1 == sumn ds) outs,
      perm_eq (flatten [seq contents it | it <- outs])
        [seq (x.1.2, batch_rows x.2) | x <- accepted_stores log & (x.1.1 == k) && in_range range x.1.2],
      uniq (flatten [seq dkeys it.2 | it <- outs]) &
      forall it, List.In it outs -> t2r it.1 = flatten [seq e.2 | e <- contents it]].
Proof.
move=> al lg pr b0; have [I _] := legal_inv al lg pr.
have [outs [h1 h2 h3 h4 h5]] := loaderP lperm fle k range I b0; exists outs; split=> //.
by apply: perm_trans h3 _; rewrite /wanted filter_map -map_comp.
Qed.
(* C39: the prefetch thread changes nothing: whatever it loads and evicts and whenever, item i is what
   loading chunk i gives *)
Theorem C39_prefetch d range pf (ci : seq (fkey * meta)) (ls : seq plabel) :
  p_run d range pf ci (PState 0 [::]) ls =
  pmap (fun l => if l is PGet i then
          Some (if i < size ci then Ok (load_item d range (nth ci_dflt ci i)) else Err IndexError) else None) ls.
Proof. by apply: p_runP. Qed.
End Disk.
Print Assumptions C36_finish.
Print Assumptions C36_same_manager.
Print Assumptions C36_read_anytime.
Print Assumptions C36_finish_returns.
Print Assumptions C37_crash.
Print Assumptions C37_durable.
Print Assumptions C37_truncated_blocks.
Print Assumptions C39_loader.
Print Assumptions C39_prefetch.

(* ------------------------------------------------------------------------ a run of the store *)
Section Run.
Notation id_listing := (@id (seq fkey)).
Notation ex := (exec 0 2 4 id_listing).
(* layers of width 2 and 1; batches 0 and 2 of two samples, batch 1 of one sample *)
Definition b0 : seq (gr nat) := [:: G2 (T2 2 [:: [:: 1; 2]; [:: 4; 5]]); G2 (T2 1 [:: [:: 3]; [:: 6]])].
Definition b1 : seq (gr nat) := [:: G2 (T2 2 [:: [:: 7; 8]]); G2 (T2 1 [:: [:: 9]])].
Definition b2 : seq (gr nat) := [:: G2 (T2 2 [:: [:: 10; 11]; [:: 13; 14]]); G2 (T2 1 [:: [:: 12]; [:: 15]])].
Definition write w := [:: LTake nat w; LWork nat w; LWork nat w; LWork nat w; LWork nat w; LWork nat w].
(* two workers; the first chunk is being written while the third batch is stored and another one read *)
Definition p1 : seq (label nat) :=
  [:: LStart nat 0 3; LStore false 0 b0; LStore false 1 b1; LTake nat 0; LWork nat 0; LStore false 2 b2;
      LRead nat false 2; LWork nat 0; LFlushAll nat; LTake nat 1; LWork nat 1; LWork nat 1; LWork nat 0;
      LWork nat 1; LWork nat 0; LWork nat 0; LWork nat 1; LWork nat 1; LFinish nat].
(* a second process stores IFVPs *)
Definition p2 : seq (label nat) :=
  [:: LStart nat 0 2; LStore true 0 b2; LFlushAll nat] ++ write 0 ++ [:: LFinish nat].
Definition runs := processes 0 2 4 id_listing [::] [:: p1; p2].
Example run_ok : isSome runs && all (session 2) [:: p1; p2]. Proof. by vm_compute. Qed.
Example run_legal : legal 2 4 [:: 2; 1] (stores (flatten [:: p1; p2])).
Proof.
split; [by vm_compute|by vm_compute|move=> k c].
by case: k; case: c => [|[|c]]; rewrite /chunk_samples.
Qed.
Example run_reads : if runs is Some (d, log) then
   [/\ size (accepted_stores log) = 4,
       (retrieve_disk 2 id_listing false 1 (open_disk id_listing d)).2 = Ok b1,
       (retrieve_disk 2 id_listing true 0 (open_disk id_listing d)).2 = Ok b2 &
       (retrieve_disk 2 id_listing true 1 (open_disk id_listing d)).2 = Ok [:: G1; G1]] else False.
Proof. by vm_compute. Qed.
Example run_wait : if ex (open_disk id_listing [::]) (seq.take 9 p1) is Some (s, _) then d_wait s else false.
Proof. by vm_compute. Qed.
(* a crash while the metadata of the first chunk is being written *)
Example run_crash : if ex (open_disk id_listing [::]) (seq.take 13 p1) is Some (s, _) then
   has (truncated false) (d_disk s) && ~~ has (lists false 0) (d_disk s) else false.
Proof. by vm_compute. Qed.
Example run_loader : if runs is Some (d, _) then
  disk_loader id_listing (fun a b => a.2.1 <= b.2.1) false d (Some (1, 3)) 2 =
   [:: Ok (T2 3 [:: [:: 7; 8; 9]; [:: 10; 11; 12]; [:: 13; 14; 15]], [:: (1, (0, 1)); (2, (1, 3))])] else False.
Proof. by vm_compute. Qed.

(* --------------------------------------------------------------------------------- findings *)
(* When a chunk overflows (more than max_samples_per_chunk samples), it is written as two files under one
   pending key; the first write clears the key: finalize_batch_range returns while the second file is
   still in the queue, the batch reads as empty, and it is lost if the process ends here. *)
Definition c0 : seq (gr nat) := [:: G2 (T2 1 [:: [:: 5]])].
Definition c1 : seq (gr nat) := [:: G2 (T2 1 [:: [:: 6]])].
Definition overflow : seq (label nat) :=
  [:: LStart nat 0 2; LStore false 0 c0; LStore false 1 c1; LFlushAll nat] ++ write 0 ++ [:: LFinish nat].
Theorem C36_overflow_refuted :
  session 2 overflow && loose 1 [:: 1] (stores overflow) /\
  if exec 0 2 1 id_listing (open_disk id_listing [::]) overflow is Some (s, log) then
    [/\ accepted_stores log = stores overflow,
        (retrieve_disk 2 id_listing false 1 s).2 = Ok [:: G1] &
        (retrieve_disk 2 id_listing false 1 (open_disk id_listing (d_disk s))).2 = Ok [:: G1]]
  else False.
Proof. by vm_compute. Qed.

(* A batch without samples leaves an empty buffer; its write fails in the worker and stays pending. *)
Section Hang.
Variables (T : eqType) (z : T) (cs mx : nat) (listing : seq fkey -> seq fkey).
Definition stuck (s : dstate T) : bool :=
  [&& d_wait s, ~~ nilp (d_pend s), all (fun t => nilp (t_info t)) (d_queue s) &
      all (fun kv => nilp (t_info kv.2.1) && (kv.2.2 == 0)) (d_busy s)].
Lemma stuck_run s ls s' log : stuck s -> all (@is_worker T) ls ->
  exec z cs mx listing s ls = Some (s', log) -> stuck s'.
Proof.
elim: ls s s' log => [|l ls IH] s s' log; first by move=> st _ [<- _].
move=> st; case/andP => wl al; rewrite [exec _ _ _ _ _ _]/=.
case e: (step z cs mx listing s l) => [[s1 r]|] //; case ex: (exec _ _ _ _ s1 ls) => [[s2 log2]|] //= [<- _].
apply: (IH s1 _ _ _ al ex); case/and4P: st => h1 h2 h3 h4.
case: l wl e {ex} => // w _ /=; rewrite /take /work.
  case: ifP => // _; case eq: (d_queue s) h3 => [|t q] //= /andP [ht hq] [<- _].
  by rewrite /stuck /= h1 h2 hq all_dset //= ht.
case g: (dget (d_busy s) w) => [[t n]|] //=; have /andP [ht /eqP n0] := all_dget h4 g; rewrite /= in ht n0.
by rewrite n0 ht /= => -[<- _]; rewrite /stuck /= h1 h2 h3 all_ddel.
Qed.
End Hang.
Definition empty_batch : seq (label nat) :=
  [:: LStart nat 0 1; LStore false 0 [:: G2 (T2 1 [::])]; LFlushAll nat].
Theorem C36_empty_batch_hangs ls s log :
  exec 0 2 4 id_listing (open_disk id_listing [::]) empty_batch = Some (s, log) -> all (@is_worker nat) ls ->
  forall s' log', exec 0 2 4 id_listing s ls = Some (s', log') ->
  d_wait s' /\ step 0 2 4 id_listing s' (LFinish nat) = None.
Proof.
move=> e al s' log' ex; have st : stuck s by case: e => <- _; vm_compute.
have /and4P [h1 h2 _ _] := stuck_run st al ex; split=> //=.
by rewrite h1; case: (d_pend s') h2.
Qed.
Example empty_batch_runs :
  if exec 0 2 4 id_listing (open_disk id_listing [::]) (empty_batch ++ [:: LTake nat 0; LWork nat 0]) is Some (s, _)
  then d_wait s && nilp (d_queue s) && nilp (d_busy s) else false.
Proof. by vm_compute. Qed.

(* A batch stored twice in one range keeps its first gradients. *)
Definition twice : seq (label nat) :=
  [:: LStart nat 0 1; LStore false 0 c0; LFlushAll nat] ++ write 0 ++ [:: LFinish nat].
Definition again : seq (label nat) :=
  [:: LStart nat 0 1; LStore false 0 c1; LFlushAll nat] ++ write 0 ++ [:: LFinish nat].
Theorem C36_duplicate_first :
  if exec 0 2 4 id_listing (open_disk id_listing [::])
       ([:: LStart nat 0 2; LStore false 0 c0; LStore false 0 c1; LFlushAll nat] ++ write 0 ++ [:: LFinish nat])
     is Some (s, log) then
    size (accepted_stores log) = 2 /\ (retrieve_disk 2 id_listing false 0 s).2 = Ok c0 else False.
Proof. by vm_compute. Qed.
(* A batch stored again later: the new gradients are in the directory (a new manager reads them), but a
   manager that has read the chunk before keeps giving the old ones. *)
Theorem C36_rewrite_stale :
  if exec 0 2 4 id_listing (open_disk id_listing [::]) (twice ++ LRead nat false 0 :: again) is Some (s, _) then
    (retrieve_disk 2 id_listing false 0 s).2 = Ok c0 /\
    (retrieve_disk 2 id_listing false 0 (open_disk id_listing (d_disk s))).2 = Ok c1 else False.
Proof. by vm_compute. Qed.
(* clear_cache deletes the files but neither the read cache nor the unwritten buffers. *)
Theorem C36_clear_leaves :
  if exec 0 2 4 id_listing (open_disk id_listing [::])
       (twice ++ [:: LRead nat false 0; LStart nat 2 4; LStore false 2 c1; LClear nat]) is Some (s, _) then
    [/\ d_disk s = [::], (retrieve_disk 2 id_listing false 0 s).2 = Ok c0 &
        (retrieve_disk 2 id_listing false 2 s).2 = Ok c1] else False.
Proof. by vm_compute. Qed.
(* Between the flush of a complete chunk and the end of its write, its batches read as empty. *)
Theorem C36_inflight_invisible :
  if exec 0 2 4 id_listing (open_disk id_listing [::])
       [:: LStart nat 0 1; LStore false 0 c0; LTake nat 0] is Some (s, log) then
    size (accepted_stores log) = 1 /\ (retrieve_disk 2 id_listing false 0 s).2 = Ok [:: G1] else False.
Proof. by vm_compute. Qed.
(* A second process stores the batch again and crashes after creating the file: the old metadata now
   describes a file of zeros, and the read returns them without an error. *)
Theorem C37_overwrite_refuted :
  if processes 0 2 4 id_listing [::] [:: twice] is Some (d, _) then
  if exec 0 2 4 id_listing (open_disk id_listing d)
       [:: LStart nat 0 1; LStore false 0 c1; LTake nat 0; LWork nat 0] is Some (s, _) then
    (retrieve_disk 2 id_listing false 0 (open_disk id_listing (d_disk s))).2 = Ok [:: G2 (T2 1 [:: [:: 0]])]
  else False else False.
Proof. by vm_compute. Qed.
(* A truncated metadata file of an earlier chunk makes a batch in a complete file unreadable. *)
Theorem C37_truncated_hides :
  if exec 0 1 4 id_listing (open_disk id_listing [::])
       ([:: LStart nat 0 2; LStore false 0 c0; LStore false 1 c1; LTake nat 0; LWork nat 0; LWork nat 0; LWork nat 0]
         ++ write 1) is Some (s, log) then
    [/\ has (truncated false) (d_disk s), has (lists false 1) (d_disk s) &
        (retrieve_disk 1 id_listing false 1 (open_disk id_listing (d_disk s))).2 = Err ValueError]
  else False.
Proof. by vm_compute. Qed.

(* The data set orders the chunks by file name, as strings: chunk 10 comes before chunk 1. *)
Definition num (n : nat) : String.string := DecimalString.NilEmpty.string_of_uint (Nat.to_uint n).
Definition fname (fk : fkey) : String.string :=
  String.append (num fk.2.1) (String.append (String.String (Ascii.ascii_of_nat 95) String.EmptyString) (num fk.2.2)).
Definition name_le (a b : fkey) : bool := if String.compare (fname a) (fname b) is Gt then false else true.
Definition three : seq (label nat) :=
  LStart nat 0 11 :: flatten [seq LStore false b c0 :: write 0 | b <- iota 0 11] ++ [:: LFlushAll nat; LFinish nat].
Theorem C39_name_order :
  if processes 0 1 4 id_listing [::] [:: three] is Some (d, _) then
    [seq (if r is Ok it then dkeys it.2 else [::]) | r <- disk_loader id_listing name_le false d (Some (1, 11)) 1] =
    [seq [:: b] | b <- 10 :: iota 1 9] else False.
Proof. by vm_compute. Qed.
End Run.
Print Assumptions C36_overflow_refuted.
Print Assumptions C36_empty_batch_hangs.
Print Assumptions C36_rewrite_stale.
Print Assumptions C37_overwrite_refuted.
Print Assumptions C39_name_order.
