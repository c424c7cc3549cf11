(* Properties C30, C31, C32: retraining and ground truth. *)
Set Warnings "-notation-overridden,-ambiguous-paths".
From mathcomp Require Import all_ssreflect all_algebra zify.
From Verif Require Import Py Dict Tensor TensorProof RetrainModel RetrainSpec RetrainProof RetrainProof2.
Set Implicit Arguments. Unset Strict Implicit. Unset Printing Implicit Defensive.
Import Order.TTheory GRing.Theory Num.Theory.
Local Open Scope ring_scope.

Section Lds.
Variables (P : eqType) (M G : Type).
Implicit Types (w : world P M) (p : P).
Variable choice : int -> nat -> nat -> seq nat.
Variable reseed : int -> G.
Variable train : seq nat -> int -> G -> res M * G.

(* What a successful job leaves on disk, for every training function: subset i has the sample drawn
   from (seed + i), checkpoint j of it came from a training call on that sample with a seed that is
   different for every (i, j), and no other directory changed. *)
Theorem C30_job w g p jb w' g' :
  retrain_lds choice reseed train w g p jb = ((w', g'), Ok tt) ->
  exists sds : nat -> nat -> int,
  [/\ (forall i j, sds i j = jb_seed jb + (i * jb_runs jb + j)%N%:Z),
      (forall i j i' j', (j < jb_runs jb)%N -> (j' < jb_runs jb)%N -> sds i j = sds i' j' ->
         i = i' /\ j = j'),
      (forall i, covers jb i ->
         let idx := choice (jb_seed jb + i%:Z) (jb_n jb) `|jb_len jb|%N in
         (contents w' p (jb_runs jb) i).1 = Some idx /\
         forall j, (j < jb_runs jb)%N -> exists m g1 g2,
           checkpoint w' p i j = Some m /\ train idx (sds i j) g1 = (Ok m, g2)) &
      (forall q i, ~~ ((q == p) && covers jb i) -> get_dir w' (q, i) = get_dir w (q, i))].
Proof.
move=> h; have [va f hi _] := retrain_ok h.
exists (fun i j => jb_seed jb + (i * jb_runs jb + j)%N%:Z); split=> //.
- move=> i j i' j' ji ji' /addrI [e].
  have rp : (0 < jb_runs jb)%N by lia.
  have := congr1 (fun x => x %/ jb_runs jb)%N e; rewrite !divnMDl // !divn_small // !addn0 => e1.
  by split=> //; move: e; rewrite e1; lia.
- move=> i ci idx; have [sd e [e1 e2]] := hi i ci.
  rewrite /contents /checkpoint e /=; split=> // j jr.
  by have [m em [g1 [g2 et]]] := e2 j jr; exists m, g1, g2.
by move=> q i ni; apply: f.
Qed.

(* Exactly the valid argument combinations are accepted (by training functions that do not raise);
   invalid ones are rejected with ValueError, or ZeroDivisionError for num_subsets = 0, for every
   training function, without touching any subset directory or metadata. *)
Theorem C30_accepts w g p jb :
  (forall i j g, covers jb i -> (j < jb_runs jb)%N ->
     exists m g', train (choice (jb_seed jb + i%:Z) (jb_n jb) `|jb_len jb|%N)
                        (jb_seed jb + (i * jb_runs jb + j)%N%:Z) g = (Ok m, g')) ->
  (retrain_lds choice reseed train w g p jb).2 = Ok tt <-> valid_job jb.
Proof.
move=> tot; split=> [h|va].
  case e: (retrain_lds _ _ _ _ _ _ _) h => [[w' g'] r] /= er; rewrite er in e.
  by have [] := retrain_ok e.
by have [w' [g' ->]] := @retrain_total P M G choice reseed train w g p jb va tot.
Qed.

Theorem C30_rejects w g p jb : ~~ valid_job jb ->
  let: ((w', _), r) := retrain_lds choice reseed train w g p jb in
  [/\ r = Err (if (0 <= jb_total jb) && (jb_num jb == 0%N) then ZeroDivisionError else ValueError),
      forall d, get_dir w' d = get_dir w d &
      forall q, rt_meta (get_root w' q) = rt_meta (get_root w q)].
Proof.
rewrite /valid_job /retrain_lds; case: (ltrP (jb_total jb) 0) => //= t0.
case: (posnP (jb_num jb)) => [//|np] /=; case: (_ %| _)%N => //=.
case: (ltrP (jb_seed jb) 0) => [s0 _|s0 /=].
  by split=> [//|d|q]; rewrite ?get_dir_mkroot ?meta_mkroot.
case: (jb_num jb) np => // num _ /negbTE nl; rewrite [sfold _ _ _]/= {1}/one_subset nl.
by split=> [//|d|q]; rewrite ?get_dir_mkroot ?meta_mkroot.
Qed.

(* The caller's global generator state is irrelevant. *)
Theorem C30_reproducible w g1 g2 p jb :
  (retrain_lds choice reseed train w g1 p jb).1.1 = (retrain_lds choice reseed train w g2 p jb).1.1
  /\ (retrain_lds choice reseed train w g1 p jb).2 = (retrain_lds choice reseed train w g2 p jb).2.
Proof. by have [-> ->] := retrain_g choice reseed train w g1 g2 p jb. Qed.

Section Split.
Variable tr : seq nat -> int -> res M.
Hypothesis ss : self_seeding train tr.

Lemma ss_total jb i j g : trainable choice tr jb -> covers jb i -> (j < jb_runs jb)%N ->
  exists m g', train (choice (jb_seed jb + i%:Z) (jb_n jb) `|jb_len jb|%N)
                     (jb_seed jb + (i * jb_runs jb + j)%N%:Z) g = (Ok m, g').
Proof.
move=> tn ci jr; have [m e] := tn i j ci jr.
have := ss (choice (jb_seed jb + i%:Z) (jb_n jb) `|jb_len jb|%N) (jb_seed jb + (i * jb_runs jb + j)%N%:Z) g.
by rewrite e; case: (train _ _ _) => r g' /= ->; exists m, g'.
Qed.

Lemma contents_job w g p jb i : valid_job jb -> trainable choice tr jb ->
  contents (retrain_lds choice reseed train w g p jb).1.1 p (jb_runs jb) i =
  if covers jb i then
    let idx := choice (jb_seed jb + i%:Z) (jb_n jb) `|jb_len jb|%N in
    (Some idx, [seq (if tr idx (jb_seed jb + (i * jb_runs jb + j)%N%:Z) is Ok m then Some m else None)
               | j <- iota 0 (jb_runs jb)])
  else contents w p (jb_runs jb) i.
Proof.
move=> va tn.
have [w' [g' e]] := @retrain_total P M G choice reseed train w g p jb va (fun i j g => @ss_total jb i j g tn).
have [_ f hi _] := retrain_ok e; rewrite e /=; case: ifP => c.
  have [sd es [e1 e2]] := hi i c; rewrite /contents es e1; congr (_, _).
  apply/eq_in_map => j; rewrite mem_iota => /andP [_ jr].
  have [m -> [g1 [g2 et]]] := e2 j jr; have := ss (choice (jb_seed jb + i) (jb_n jb) `|jb_len jb|)
    (jb_seed jb + (i * jb_runs jb + j)%N) g1.
  by rewrite et => /= <-.
by rewrite /contents f //= eqxx c.
Qed.

(* For a training function that seeds itself the work can be split at will: whatever jobs of one
   experiment are run, in whatever order, with whatever job sizes, overlaps and earlier contents of
   the two output paths, each covered subset has the same contents as after one big job. *)
Theorem C30_split w g p w1 g1 p1 (l : seq job) (one : job) i :
  valid_job one -> trainable choice tr one -> covers one i ->
  (forall jb, List.In jb l -> [/\ valid_job jb, trainable choice tr jb & same_experiment jb one]) ->
  has (fun jb => covers jb i) l ->
  contents (run_jobs choice reseed train w g p l).1 p (jb_runs one) i =
  contents (retrain_lds choice reseed train w1 g1 p1 one).1.1 p1 (jb_runs one) i.
Proof.
move=> v1 t1 c1; rewrite contents_job // c1.
elim: l w g => // jb l IH w g H; rewrite [has _ _]/= run_jobs_cons.
have [vj tj [en el er es]] := H jb (or_introl erefl).
have H' x : List.In x l -> [/\ valid_job x, trainable choice tr x & same_experiment x one] by move=> xi; apply: H; right.
have [hl _|/negbTE hl] := boolP (has (fun jb => covers jb i) l); first exact: IH.
rewrite orbF => cj.
have F : forall l w g, (forall x, List.In x l -> [/\ valid_job x, trainable choice tr x & same_experiment x one]) ->
    has (fun jb => covers jb i) l = false ->
    contents (run_jobs choice reseed train w g p l).1 p (jb_runs one) i = contents w p (jb_runs one) i.
  move=> {w g IH H H' hl} l0; elim: l0 => // x l0 IH w g H /= /norP [ncx nh].
  rewrite run_jobs_cons IH; last 2 first.
  - by move=> y yi; apply: H; right.
  - exact/negbTE.
  have [vx tx [_ _ rx _]] := H x (or_introl erefl).
  by rewrite -rx contents_job // (negbTE ncx).
by rewrite F // -er contents_job // cj en el es.
Qed.
End Split.

(* The positions are positions below len(sampler) in the underlying data set: a sampler that selects
   other samples is ignored. *)
Theorem C30_sampler_ignored w g p jb w' g' (sampler : seq nat) :
  samples_without_replacement choice ->
  retrain_lds choice reseed train w g p jb = ((w', g'), Ok tt) ->
  size sampler = jb_n jb -> all (fun x => (jb_n jb <= x)%N) sampler ->
  forall i, covers jb i -> exists idx,
    [/\ (contents w' p (jb_runs jb) i).1 = Some idx, size idx = `|jb_len jb|%N, (0 < size idx)%N,
        uniq idx & forall x, x \in idx -> (x < jb_n jb)%N /\ x \notin sampler].
Proof.
move=> sw h _ /allP al i ci; have [va _ hi _] := retrain_ok h.
have [sd e [e1 _]] := hi i ci; move: va => /and5P [_ _ _ _ /andP [l1 l2]].
have ln : (`|jb_len jb| <= jb_n jb)%N by lia.
have [sz un /allP lt] := sw (jb_seed jb + i%:Z) _ _ ln.
exists (choice (jb_seed jb + i%:Z) (jb_n jb) `|jb_len jb|%N); split=> //.
- by rewrite /contents e.
- by rewrite sz; lia.
move=> x xi; split; first exact: lt.
by apply/negP => /al; rewrite leqNgt lt.
Qed.

(* C31 ------------------------------------------------------------------ *)
Variables (R : numFieldType) (nt : nat) (target : M -> seq R).
Hypothesis target_size : forall m, size (target m) = nt.

Lemma dget_idmap (p : P) a n i :
  dget ([seq (k, (p, k)) | k <- iota a n] : dict nat_eqType (P * nat)) i =
  if (a <= i < a + n)%N then Some (p, i) else None.
Proof.
elim: n a => [|n IH] a; first by rewrite addn0 /=; case: ltnP; rewrite ?andbF.
rewrite [iota _ _]/= map_cons dget_cons IH addnS -addSn.
case: (a =P i) => [->|ne]; first by rewrite leqnn ltnS leq_addr.
by congr (if _ then _ else _); lia.
Qed.

(* After a successful complete job (total_num_subsets = 0, or a first job that is the only one) on
   any file system, the reader returns the negated mean target values of the checkpoints on disk
   (which C30_job describes) and the subset of each row; with zero runs every value is nan. *)
Theorem C31_roundtrip w g p jb w' g' :
  samples_without_replacement choice ->
  retrain_lds choice reseed train w g p jb = ((w', g'), Ok tt) ->
  jb_total jb = 0 \/ (jb_start jb = 0%N /\ jb_total jb = (jb_num jb)%:Z) ->
  (forall i j, (i < jb_num jb)%N -> (j < jb_runs jb)%N -> checkpoint w' p i j <> None) /\
  lds_ground_truth nt target w' p =
  Ok (if jb_runs jb == 0%N then None
      else Some (negated_means nt (jb_num jb) (jb_runs jb) target (checkpoint w' p)),
      mkseq (fun i => choice (jb_seed jb + i%:Z) (jb_n jb) `|jb_len jb|%N) (jb_num jb)).
Proof.
move=> sw h fin; have [va f hi mt] := retrain_ok h.
have f0 : first_subset jb = 0%N.
  by rewrite /first_subset; case: fin => [->|[-> _]]; rewrite ?eqxx //; case: ifP.
have cv i : covers jb i = (i < jb_num jb)%N by rewrite /covers f0.
have ln : (`|jb_len jb| <= jb_n jb)%N by move: va => /and5P [_ _ _ _ /andP [l1 l2]]; lia.
have em : rt_meta (get_root w' p) =
    Some (LMeta (jb_num jb) (jb_runs jb) [seq (i, (p, i)) | i <- iota 0 (jb_num jb)]).
  rewrite mt eqxx f0 mul1n; case: fin => [->|[_ ->]]; by rewrite eqxx ?orbT.
have rm i j : (i < jb_num jb)%N -> (j < jb_runs jb)%N -> exists2 m,
   read_model w' [seq (i, (p, i)) | i <- iota 0 (jb_num jb)] i j = Ok m & checkpoint w' p i j = Some m.
  move=> il jl; have [|sd e [_ e2]] := hi i; first by rewrite cv.
  have [m em' _] := e2 j jl; exists m.
    by rewrite /read_model dget_idmap add0n il /= e em'.
  by rewrite /checkpoint e em'.
split; first by move=> i j il jl; have [m _ ->] := rm i j il jl.
rewrite (@truthE _ _ _ nt target target_size w' p _ (checkpoint w' p)
  (fun i => choice (jb_seed jb + i%:Z) (jb_n jb) `|jb_len jb|%N) `|jb_len jb|%N em) //=.
move=> i il; have [|sd e [e1 _]] := hi i; first by rewrite cv.
split; first by rewrite /read_indices dget_idmap add0n il /= e e1.
by case: (sw (jb_seed jb + i%:Z) _ _ ln).
Qed.

Lemma truth_keyerror w p mt : rt_meta (get_root w p) = Some mt -> (0 < lm_num mt)%N ->
  dget (lm_map mt) 0%N = None -> lds_ground_truth nt target w p = Err KeyError.
Proof.
move=> e np k0; rewrite /lds_ground_truth e; case: (lm_num mt) np => // n _.
by rewrite /= /read_indices k0.
Qed.

(* A later job (start_id > 0) that does write metadata makes the directory unreadable. *)
Theorem C31_later_job_unreadable w g p jb w' g' :
  retrain_lds choice reseed train w g p jb = ((w', g'), Ok tt) ->
  jb_total jb <> 0 -> (0 < jb_start jb)%N ->
  rt_meta (get_root w' p) <> rt_meta (get_root w p) ->
  lds_ground_truth nt target w' p = Err KeyError.
Proof.
move=> h /eqP/negbTE t0 sp; have [va _ _ mt] := retrain_ok h.
have f0 : first_subset jb = jb_start jb by rewrite /first_subset t0.
have := mt p; rewrite eqxx t0 f0 /=; case: ifP => [_ em _|_ -> //].
apply: (truth_keyerror em) => /=.
  by move: va => /and5P [_ np _ _ _]; rewrite muln_gt0.
by rewrite dget_idmap leqNgt sp.
Qed.

(* The documented parallel use, J >= 2 jobs of m subsets with start_id = 0, m, 2m, ... and
   total_num_subsets = J*m, in any order on a fresh path: all jobs succeed, and then the ground truth
   can never be read. *)
Theorem C31_parallel_unreadable w g p n len m runs seed J (qs : seq nat) :
  (forall i j g, (i < J * m)%N -> (j < runs)%N ->
     exists md g', train (choice (seed + i%:Z) n `|len|%N) (seed + (i * runs + j)%N%:Z) g = (Ok md, g')) ->
  rt_meta (get_root w p) = None -> (1 < J)%N -> (0 < m)%N -> 0 <= seed -> 0 < len -> len <= n%:Z ->
  perm_eq qs (iota 0 J) ->
  let jobs := [seq Job n len m runs (q * m)%N (J * m)%N%:Z seed | q <- qs] in
  (forall jb, List.In jb jobs -> valid_job jb) /\
  lds_ground_truth nt target (run_jobs choice reseed train w g p jobs).1 p =
  Err (if (m %| J.-1)%N then KeyError else FileNotFoundError).
Proof.
move=> tot nm J1 mp s0 l1 l2 pq.
have va q : valid_job (Job n len m runs (q * m)%N (J * m)%N%:Z seed).
  by rewrite /valid_job /= mp s0 l1 l2 dvdn_mull.
split.
  by move=> jb; elim: (qs) => //= q l IH [<-//|]; apply: IH.
have t0 : ((J * m)%N%:Z == 0) = false by apply/eqP; lia.
have key l : all (fun q => q < J)%N l -> rt_meta (get_root (run_jobs choice reseed train w g p
     [seq Job n len m runs (q * m)%N (J * m)%N%:Z seed | q <- l]).1 p) =
   if has (fun q => (q * m).+1 == J) l then
     Some (LMeta (J * m) runs [seq (i, (p, i)) | i <- iota J.-1 m]) else None.
  elim/last_ind: l => [|l q IH]; first by rewrite /= nm.
  rewrite all_rcons => /andP [qJ lJ]; have {}IH := IH lJ.
  rewrite map_rcons /run_jobs -cats1 foldl_cat -/(run_jobs _ _ _ _ _ _ _) has_rcons.
  case: (run_jobs _ _ _ _ _ _ _) IH => [w1 g1] IH /=.
  have [|w2 [g2 e2]] := @retrain_total P M G choice reseed train w1 g1 p _ (va q).
    move=> i j g2 /andP [_]; rewrite /first_subset /= t0 => lt jr; apply: tot => //.
    by apply: leq_trans lt _; rewrite -mulSnr leq_mul2r qJ orbT.
  have [_ _ _ mt] := retrain_ok e2; rewrite e2 mt eqxx /first_subset /= t0 /=.
  have -> : ((q * m).+1 * m)%N%:Z == (J * m)%N%:Z = ((q * m).+1 == J) by rewrite eqz_nat eqn_pmul2r.
  by case: eqP => [<-|_] //=.
have {}key := key qs; have al : all (fun q => q < J)%N qs by rewrite (perm_all _ pq); apply/allP => q; rewrite mem_iota.
have {al}key := key al.
have -> : (m %| J.-1)%N = has (fun q => (q * m).+1 == J) qs.
  rewrite (eq_has_r (perm_mem pq)); apply/idP/hasP => [/dvdnP [q e]|[q _ /eqP <-]]; last by rewrite /= dvdn_mull.
  exists q; last by rewrite -e prednK // ltnW.
  rewrite mem_iota /=; have : (q <= q * m)%N by rewrite leq_pmulr.
  by rewrite -e; lia.
case: ifP => hq.
  apply: (truth_keyerror (mt := LMeta (J * m) runs [seq (i, (p, i)) | i <- iota J.-1 m])).
  - by rewrite key hq.
  - by rewrite /= muln_gt0 mp andbT ltnW.
  by rewrite dget_idmap leqNgt -ltnS prednK ?J1 // ltnW.
by rewrite /lds_ground_truth key hq.
Qed.

(* metadata.yml records the output path as it was given: a directory that was moved afterwards
   cannot be read at its new place. *)
Theorem C31_moved_unreadable w g p q jb w' g' :
  retrain_lds choice reseed train w g p jb = ((w', g'), Ok tt) ->
  jb_total jb = 0 -> q != p ->
  lds_ground_truth nt target (ddel (dset w' q (get_root w' p)) p) q = Err FileNotFoundError.
Proof.
move=> h t0 qp; have [va _ _ mt] := retrain_ok h.
have np : (0 < jb_num jb)%N by move: va => /and5P [].
have f0 : first_subset jb = 0%N by rewrite /first_subset t0 eqxx.
have eq : get_root (ddel (dset w' q (get_root w' p)) p) q = get_root w' p.
  by rewrite {1}/get_root dget_del (negbTE qp) dgetE eqxx.
have ep : get_root (ddel (dset w' q (get_root w' p)) p) p = root0.
  by rewrite /get_root dget_del eqxx.
rewrite /lds_ground_truth eq mt eqxx t0 eqxx f0 /= mul1n.
have r0 : read_indices (ddel (dset w' q (get_root w' p)) p)
    [seq (i, (p, i)) | i <- iota 0 (jb_num jb)] 0 = Err FileNotFoundError.
  by rewrite /read_indices dget_idmap np /= /get_dir /= ep.
move: [seq (i, (p, i)) | i <- _] r0 => mp r0.
by case: (jb_num jb) np => // k _; rewrite /= r0.
Qed.
End Lds.

(* C32 ------------------------------------------------------------------ *)
Section Loo.
Variables (M G : Type).
Variable reseed : int -> G.
Variable train : seq nat -> option int -> G -> res M * G.
Variables (R : numFieldType) (nt : nat) (target : M -> seq R).
Hypothesis target_size : forall m, size (target m) = nt.

Section Ok.
Variable tr : seq nat -> option int -> res M.
Variable md : seq nat -> option int -> M.
Hypothesis ss : self_seeding train tr.

(* After any history of leave-one-out calls into one directory the reader returns, in increasing
   numeric order, every index any call was asked for, with the target values of the model that the
   last such call trained on all positions but that index. *)
Theorem C32_history g (h : seq loo_call) :
  (forall e, e \in events h -> tr (all_but e.2.1 e.1) e.2.2 = Ok (md (all_but e.2.1 e.1) e.2.2)) ->
  exists idx : seq int,
  [/\ sorted <%R idx, forall i, (i \in idx) = (i \in [seq e.1 | e <- events h]) &
      loo_ground_truth nt target (run_loo reseed train (LRoot [::] false) g h).1 =
      Ok ([seq if last_event i (events h) is Some x then target (md (all_but x.1 i) x.2) else [::]
          | i <- idx], idx)].
Proof.
move=> ok.
have [s' [g' [e b u d]]] := @run_looE M G reseed train tr md ss (LRoot [::] false) g h erefl ok.
rewrite e /=; exists (sort <=%R (dkeys (lr_dirs s'))).
have mk i : (i \in dkeys (lr_dirs s')) = (i \in [seq e.1 | e <- events h]).
  rewrite -[_ \in dkeys _]/(dhas _ _) dget_has d last_event_mem.
  by case: last_event.
split.
- by rewrite sort_lt_sorted.
- by move=> i; rewrite mem_sort.
pose val i := if last_event i (events h) is Some x then md (all_but x.1 i) x.2 else md [::] None.
have vE i : i \in dkeys (lr_dirs s') -> dget (lr_dirs s') i = Some (Some (val i)).
  by rewrite mk last_event_mem d /val; case: last_event.
rewrite (@looE _ _ _ _ target_size _ val) ?b //; congr (Ok (_, _)).
apply/eq_in_map => i; rewrite mem_sort mk last_event_mem /val; by case: last_event.
Qed.

(* Without explicit indices the rows are 0, 1, ..., n-1, row i trained without i: what loo_corr
   expects. *)
Theorem C32_full g n seed :
  (forall i, (i < n)%N -> tr (iota 0 i ++ iota i.+1 (n - i.+1)) seed = Ok (md (iota 0 i ++ iota i.+1 (n - i.+1)) seed)) ->
  loo_ground_truth nt target (retrain_loo reseed train (LRoot [::] false) g n None seed).1.1 =
  Ok (mkseq (fun i => target (md (iota 0 i ++ iota i.+1 (n - i.+1)) seed)) n, mkseq Posz n).
Proof.
move=> ok.
have [|s' [g' [e b u d]]] := @retrain_looE M G reseed train tr md ss (LRoot [::] false) g (n, None, seed) erefl.
  by move=> i /mapP [k]; rewrite mem_iota => /andP [_ kn] -> /=; rewrite kn; apply: ok.
rewrite /= in e d; rewrite e /=.
pose val i := md (all_but n i) seed.
have mk i : (i \in dkeys (lr_dirs s')) = (i \in [seq k%:Z | k <- iota 0 n]).
  by rewrite -[_ \in dkeys _]/(dhas _ _) dget_has d; case: ifP.
rewrite (@looE _ _ _ _ target_size _ val) ?b //; last first.
  by move=> i; rewrite mk d => ->.
have es : sort <=%R (dkeys (lr_dirs s')) = mkseq Posz n.
  apply: (@sorted_eq _ <=%R le_trans le_anti).
  - exact: sort_le_sorted.
  - have : sorted ltn (iota 0 n) by apply: iota_ltn_sorted.
    move=> so; rewrite /mkseq sorted_map; apply: sub_sorted so => a c /= ac; by rewrite lez_nat ltnW.
  apply: uniq_perm; rewrite ?sort_uniq // ?mkseq_uniq //; first by move=> a c [].
  by move=> i; rewrite mem_sort mk.
rewrite es; congr (Ok (_, _)); rewrite /mkseq -map_comp; apply/eq_in_map => i.
by rewrite mem_iota => /andP [_ lt]; rewrite /= /val /= lt.
Qed.

(* An index that is not a position (negative or too large) is trained on everything, and is still
   reported as a removed index. *)
Theorem C32_not_a_position g n (i : int) seed : (i < 0) || (n%:Z <= i) ->
  tr (iota 0 n) seed = Ok (md (iota 0 n) seed) ->
  loo_ground_truth nt target (retrain_loo reseed train (LRoot [::] false) g n (Some [:: i]) seed).1.1 =
  Ok ([:: target (md (iota 0 n) seed)], [:: i]).
Proof.
move=> oi ok.
have ab : all_but n i = iota 0 n by case: i oi => k //=; case: ltnP => //; lia.
have [|idx [so mi ->]] := @C32_history g [:: (n, Some [:: i], seed)].
  by move=> e; rewrite /= inE => /eqP -> /=; rewrite ab.
have -> : idx = [:: i].
  case: idx so mi => [|a [|c l]] so mi.
  - by have := mi i; rewrite /= inE eqxx.
  - by have := mi a; rewrite /= !inE eqxx => /esym /eqP ->.
  move: so => /= /andP [ac _]; have := mi a; have := mi c; rewrite /= !inE !eqxx orbT /=.
  by move=> /esym/eqP ec /esym/eqP ea; rewrite ec ea ltxx in ac.
by rewrite /= eqxx /= ab.
Qed.
End Ok.

(* A training call that raises leaves a directory without weights behind; from then on the reader
   fails, although all other models are there. *)
Theorem C32_failed_call g n seed (a b : seq int) (i : int) (tr : seq nat -> option int -> res M) e :
  self_seeding train tr -> i \notin a ->
  (forall k, k \in a -> exists m, tr (all_but n k) seed = Ok m) ->
  tr (all_but n i) seed = Err e ->
  let: ((s, _), r) := retrain_loo reseed train (LRoot [::] false) g n (Some (a ++ i :: b)) seed in
  r = Err e /\ loo_ground_truth nt target s = Err FileNotFoundError.
Proof.
move=> ss ia ok er; rewrite /retrain_loo /= sfold_cat.
move: (if seed is Some sd then reseed sd else g) => g0.
have L : exists s g1, [/\ sfold (loo_one train n seed) (LRoot [::] false, g0) a = ((s, g1), Ok tt),
    lr_bad s = false, dget (lr_dirs s) i = None &
    forall k, k \in dkeys (lr_dirs s) -> exists m, dget (lr_dirs s) k = Some (Some m)].
  elim/last_ind: a ia ok => [|a k IH]; first by exists (LRoot [::] false), g0.
  rewrite mem_rcons inE negb_or => /andP [ik ia] ok.
  have [|s [g1 [e1 b1 d1 m1]]] := IH ia.
    by move=> k' k'a; apply: ok; rewrite mem_rcons inE k'a orbT.
  have [|m em] := ok k; first by rewrite mem_rcons mem_head.
  have [|g2 e2] := @loo_one_run M G train n seed s g1 k m; first by rewrite ss.
  exists (LRoot (dset (if dhas (lr_dirs s) k then lr_dirs s else dset (lr_dirs s) k None) k (Some m)) (lr_bad s)), g2.
  split=> //=.
  - by rewrite -cats1 sfold_cat e1 /= e2.
  - by rewrite dget_dir (negbTE ik).
  move=> k'; rewrite dget_dir; case: (k' =P k) => [_ _|ne]; first by exists m.
  rewrite -[_ \in dkeys _]/(dhas _ _) dget_has dget_dir; case: eqP ne => // _ _ kin; apply: m1.
  by rewrite -[_ \in dkeys _]/(dhas _ _) dget_has.
have [s [g1 [-> b1 d1 m1]]] := L.
have hi : dhas (lr_dirs s) i = false by rewrite dget_has d1.
rewrite /= {1}/loo_one remainingE /= hi.
have := ss (all_but n i) seed g1; rewrite er; case: (train _ _ _) => r g2 /= ->.
split=> //; rewrite /loo_ground_truth /= b1.
have mi : i \in sort <=%R (dkeys (dset (lr_dirs s) i None)).
  by rewrite mem_sort -[_ \in _]/(dhas _ _) dhas_set eqxx.
have di : dget (dset (lr_dirs s) i None) i = Some None by rewrite dgetE eqxx.
have dk k : k \in sort <=%R (dkeys (dset (lr_dirs s) i None)) ->
    k == i \/ exists m, dget (dset (lr_dirs s) i None) k = Some (Some m).
  rewrite mem_sort -[_ \in _]/(dhas _ _) dhas_set; case: eqP => [_|/eqP ne] /=; [by left|right].
  by rewrite dgetE (negbTE ne); apply: m1.
move: (sort _ _) mi dk => l; move: (dset _ _ _) di => d di mi dk.
have : rfold (fun (rows : seq (seq R)) k => match dget d k with
    | Some (Some m) => rmap (fun v => rcons rows v) (bc_row nt (target m))
    | _ => Err FileNotFoundError end) [::] l = Err FileNotFoundError; last by move=> ->.
move: [::] => acc; elim: l acc mi dk => // k l IH acc mi dk /=.
case: (dk k (mem_head _ _)) => [/eqP ->|[m em]]; first by rewrite di.
rewrite em /bc_row target_size eqxx /=; apply: IH.
  by move: mi; rewrite inE => /orP [/eqP e0|//]; rewrite -e0 di in em.
by move=> k' kl; apply: dk; rewrite inE kl orbT.
Qed.

(* A directory called index_<something> whose suffix is not a number makes the reader raise. *)
Theorem C32_foreign_directory d : loo_ground_truth nt target (LRoot d true) = Err ValueError.
Proof. by []. Qed.
End Loo.

(* When the target function does not return one value per test sample: a single value is repeated
   for every test sample, any other length makes the reader raise. *)
Theorem C32_target_shape (M : Type) (R : numFieldType) (nt : nat) (target : M -> seq R)
    (s : lroot M) (val : int -> M) :
  ~~ lr_bad s -> (forall i, i \in dkeys (lr_dirs s) -> dget (lr_dirs s) i = Some (Some (val i))) ->
  let is_ := sort <=%R (dkeys (lr_dirs s)) in
  loo_ground_truth nt target s =
  if all (fun i => (size (target (val i)) == nt) || (size (target (val i)) == 1%N)) is_
  then Ok ([seq mkseq (fun t => nth 0 (target (val i)) (if size (target (val i)) == nt then t else 0%N)) nt
           | i <- is_], is_)
  else Err RuntimeError.
Proof.
move=> /negbTE nb H; rewrite /loo_ground_truth nb.
have [is_ ise] : {is_ | is_ = sort <=%R (dkeys (lr_dirs s))} by eexists.
have Hm i : i \in is_ -> dget (lr_dirs s) i = Some (Some (val i)).
  by rewrite ise mem_sort; apply: H.
rewrite -ise /=; elim/last_ind: {ise} is_ Hm => [|l i IH] Hm //=.
have F : forall k, k \in l -> dget (lr_dirs s) k = Some (Some (val k)).
  by move=> k kl; apply: Hm; rewrite mem_rcons inE kl orbT.
rewrite rfold_rcons all_rcons andbC; move: (IH F).
case: (all _ l) => /=; last by case: (rfold _ _ _).
case: (rfold _ _ _) => //= rows [->]; rewrite (Hm i) ?mem_rcons ?mem_head //= /bc_row map_rcons.
case: eqP => [e|ne] /=; first by rewrite -e mkseq_nth.
case: eqP => [e1|//] /=; congr (Ok (rcons _ _, _)).
by rewrite nseq_mkseq; apply: eq_mkseq => t; rewrite nth0.
Qed.

(* Refutations and concrete cases --------------------------------------- *)
(* A training function that draws from the global generator instead of its seed. *)
Definition global_train (idx : seq nat) (s : int) (g : nat) : res nat * nat := (Ok g, g.+1).
(* A self-seeding one that raises for seed 4. *)
Definition raising_train (idx : seq nat) (s : int) (g : nat) : res nat * nat :=
  (if s == 4 then Err RuntimeError else Ok `|s|%N, g).
Definition first_k (s : int) (n k : nat) : seq nat := iota 0 k.
(* k consecutive positions from a seed-dependent offset, cyclically *)
Definition rotation (s : int) (n k : nat) : seq nat := take k (rot (`|s| %% n.+1) (iota 0 n)).

Lemma rotation_ok : samples_without_replacement rotation.
Proof.
move=> s n k kn; split.
- by rewrite size_take size_rot size_iota; case: ltngtP kn.
- by apply: take_uniq; rewrite rot_uniq iota_uniq.
by apply/allP => x /mem_take; rewrite mem_rot mem_iota.
Qed.

(* Splitting is not transparent for training functions that use the global generator. *)
Theorem C30_split_global_generator_refuted :
  ~ (forall (train : seq nat -> int -> nat -> res nat * nat) (a b one : job) i,
     (forall idx s g, exists m g', train idx s g = (Ok m, g')) ->
     valid_job one -> covers one i -> valid_job a -> valid_job b ->
     same_experiment a one -> same_experiment b one -> covers b i ->
     contents (run_jobs rotation absz train [::] 0%N 0%N [:: a; b]).1 0%N (jb_runs one) i =
     contents (retrain_lds rotation absz train [::] 0%N 0%N one).1.1 0%N (jb_runs one) i).
Proof.
move=> /(_ global_train (Job 3 1 1 1 0 2 0) (Job 3 1 1 1 1 2 0) (Job 3 1 2 1 0 0 0) 1%N) H.
by have := H (fun idx s g => ex_intro _ g (ex_intro _ g.+1 erefl)) erefl erefl erefl erefl
  (And4 erefl erefl erefl erefl) (And4 erefl erefl erefl erefl) erefl.
Qed.

(* A job that raises half way leaves a directory from which the reader silently returns a mixture:
   row 0 from the new job (seed 3), row 1 from the old one (seed 0). *)
Theorem C31_interrupted_job_mixes :
  let old := Job 3 1 2 1 0 0 0 in let new := Job 3 1 2 1 0 0 3 in
  let w1 := (retrain_lds rotation absz raising_train [::] 0%N 0%N old).1.1 in
  let: ((w2, _), r) := retrain_lds rotation absz raising_train w1 0%N 0%N new in
  r = Err RuntimeError /\
  exists a b : rat, lds_ground_truth 1 (fun m : nat => [:: m%:R : rat]) w2 0%N =
     Ok (Some [:: [:: a]; [:: b]], [:: rotation 3 3 1; rotation 4 3 1]) /\ a = - 3%:R /\ b = - 1.
Proof.
split; first by vm_compute.
do 2 eexists; split; first by vm_compute; reflexivity.
by split; apply/eqP; vm_compute.
Qed.

(* The round trip on a concrete job: two subsets of two out of three samples. *)
Example C31_concrete :
  let jb := Job 3 2 2 1 5 0 1 in
  let w := (retrain_lds rotation absz raising_train [::] 0%N 0%N jb).1.1 in
  valid_job jb /\ (retrain_lds rotation absz raising_train [::] 0%N 0%N jb).2 = Ok tt
  /\ contents w 0%N 1 0 = (Some [:: 1; 2]%N, [:: Some 1%N])
  /\ contents w 0%N 1 1 = (Some [:: 2; 0]%N, [:: Some 2%N]).
Proof. by vm_compute. Qed.

Example C32_concrete :
  let tr (idx : seq nat) (s : option int) (g : unit) := (Ok (sumn idx), g) in
  let s := (run_loo (fun _ => tt) tr (LRoot [::] false) tt
             [:: (4%N, Some [:: 2; 0], None) ; (3%N, Some [:: 10; 2], Some 7)]).1 in
  exists a b c : rat, loo_ground_truth 1 (fun m : nat => [:: m%:R : rat]) s =
    Ok ([:: [:: a]; [:: b]; [:: c]], [:: 0; 2; 10]%R) /\ a = 6%:R /\ b = 1 /\ c = 3%:R.
Proof.
do 3 eexists; split; first by vm_compute; reflexivity.
by do 2 (split; first by apply/eqP; vm_compute); apply/eqP; vm_compute.
Qed.

Print Assumptions C30_job. Print Assumptions C30_accepts. Print Assumptions C30_rejects.
Print Assumptions C30_reproducible. Print Assumptions C30_split. Print Assumptions C30_sampler_ignored.
Print Assumptions C30_split_global_generator_refuted.
Print Assumptions C31_roundtrip. Print Assumptions C31_later_job_unreadable.
Print Assumptions C31_parallel_unreadable. Print Assumptions C31_moved_unreadable.
Print Assumptions C31_interrupted_job_mixes.
Print Assumptions C32_history. Print Assumptions C32_full. Print Assumptions C32_not_a_position.
Print Assumptions C32_failed_call. Print Assumptions C32_foreign_directory. Print Assumptions C32_target_shape.
