(* Lemmas about the LDS retraining loops. *)
Set Warnings "-notation-overridden,-ambiguous-paths".
From mathcomp Require Import all_ssreflect all_algebra.
From Verif Require Import Py Dict Tensor TensorProof RetrainModel RetrainSpec.
Set Implicit Arguments. Unset Strict Implicit. Unset Printing Implicit Defensive.
Import Order.TTheory GRing.Theory Num.Theory.
Local Open Scope ring_scope.

Lemma sfold_cat (S B : Type) (f : S -> B -> S * res unit) s a b :
  sfold f s (a ++ b) =
  (let: (s', r) := sfold f s a in if r is Err e then (s', Err e) else sfold f s' b).
Proof. by elim: a s => [|x a IH] s //=; case: (f s x) => s' [u|e]. Qed.

Section Lds.
Variables (P : eqType) (M G : Type).
Implicit Types (w : world P M) (p : P).

Lemma get_rootE w p r q : get_root (dset w p r) q = if q == p then r else get_root w q.
Proof. by rewrite /get_root dgetE; case: ifP. Qed.

Lemma get_dir_mkroot w p d : get_dir (mkroot w p) d = get_dir w d.
Proof. by rewrite /get_dir /mkroot get_rootE; case: eqP => // ->. Qed.
Lemma meta_mkroot w p q : rt_meta (get_root (mkroot w p) q) = rt_meta (get_root w q).
Proof. by rewrite /mkroot get_rootE; case: eqP => // ->. Qed.

Lemma get_dir_upd w p i f d :
  get_dir (upd_dir w p i f) d =
  if d == (p, i) then Some (f (odflt subdir0 (get_dir w (p, i)))) else get_dir w d.
Proof.
case: d => q k; rewrite /get_dir /upd_dir get_rootE /= xpair_eqE.
case: (q =P p) => [->|//] /=; rewrite dgetE; by case: ifP.
Qed.
Lemma meta_upd w p i f q : rt_meta (get_root (upd_dir w p i f) q) = rt_meta (get_root w q).
Proof. by rewrite /upd_dir get_rootE; case: eqP => // ->. Qed.

Lemma get_dir_meta w p mt d : get_dir (save_meta w p mt) d = get_dir w d.
Proof. by rewrite /get_dir /save_meta get_rootE; case: eqP => // ->. Qed.
Lemma meta_meta w p mt q :
  rt_meta (get_root (save_meta w p mt) q) = if q == p then Some mt else rt_meta (get_root w q).
Proof. by rewrite /save_meta get_rootE; case: eqP. Qed.

Variable choice : int -> nat -> nat -> seq nat.
Variable reseed : int -> G.
Variable train : seq nat -> int -> G -> res M * G.

Let seed_of (jb : job) (i j : nat) : int := jb_seed jb + (i * jb_runs jb + j)%N%:Z.
Let idx_of (jb : job) (i : nat) := choice (jb_seed jb + i%:Z) (jb_n jb) `|jb_len jb|%N.


(* only directories in S change, no metadata does *)
Definition frame w w' (S : pred (P * nat)) : Prop :=
  (forall d, ~~ S d -> get_dir w' d = get_dir w d) /\
  (forall q, rt_meta (get_root w' q) = rt_meta (get_root w q)).

Definition trained idx s m : Prop := exists g1 g2, train idx s g1 = (Ok m, g2).

Lemma runs_ok p i jb idx a r w g w' g' sd :
  get_dir w (p, i) = Some sd ->
  sfold (one_run train p i jb idx) (w, g) (iota a r) = ((w', g'), Ok tt) ->
  frame w w' (pred1 (p, i)) /\
  exists2 sd', get_dir w' (p, i) = Some sd' &
    sd_indices sd' = sd_indices sd /\
    (forall j, if (a <= j < a + r)%N
               then exists2 m, dget (sd_models sd') j = Some m & trained idx (seed_of jb i j) m
               else dget (sd_models sd') j = dget (sd_models sd) j).
Proof.
elim: r a w g sd => [|r IH] a w g sd e /=.
  move=> [<- _]; split; first by split.
  by exists sd => //; split=> // j; rewrite addn0 leqNgt; case: (j < a)%N.
rewrite {1}/one_run; case et: (train _ _ _) => [[m|?] g1] //= h.
have e1 : get_dir (save_model w p i a m) (p, i) =
    Some (SubDir (sd_indices sd) (dset (sd_models sd) a m)).
  by rewrite /save_model get_dir_upd eqxx e.
have [[f1 f2] [sd' e' [i' m']]] := IH a.+1 _ _ _ e1 h.
split.
  split=> [d nd|q]; last by rewrite f2 /save_model meta_upd.
  by rewrite f1 // /save_model get_dir_upd ifN.
exists sd' => //; split=> // j; have := m' j; rewrite /= dgetE addSnnS.
case: (ltngtP a j) => [aj|ja|<-] /=.
- by [].
- by [].
rewrite -addSnnS ltn_addr // => ->.
by exists m => //; exists g, g1.
Qed.

Lemma subset_ok p jb i w g w' g' :
  one_subset choice train p jb (w, g) i = ((w', g'), Ok tt) ->
  [/\ 0 < jb_len jb, jb_len jb <= (jb_n jb)%:Z, frame w w' (pred1 (p, i)) &
   exists2 sd, get_dir w' (p, i) = Some sd &
     sd_indices sd = Some (idx_of jb i) /\
     (forall j, (j < jb_runs jb)%N ->
        exists2 m, dget (sd_models sd) j = Some m & trained (idx_of jb i) (seed_of jb i j) m)].
Proof.
rewrite /one_subset; case: ifP => // /andP [l1 l2] /= h.
have e0 : get_dir (save_indices w p i (idx_of jb i)) (p, i) =
    Some (SubDir (Some (idx_of jb i)) (sd_models (odflt subdir0 (get_dir w (p, i))))).
  by rewrite /save_indices get_dir_upd eqxx.
have [[f1 f2] [sd' e' [i' m']]] := runs_ok e0 h; split=> //.
  split=> [d nd|q]; last by rewrite f2 /save_indices meta_upd.
  by rewrite f1 // /save_indices get_dir_upd ifN.
exists sd' => //; split=> // j jr; by have := m' j; rewrite /= jr.
Qed.

Lemma subsets_ok p jb a r w g w' g' :
  sfold (one_subset choice train p jb) (w, g) (iota a r) = ((w', g'), Ok tt) ->
  [/\ (0 < r)%N -> 0 < jb_len jb /\ jb_len jb <= (jb_n jb)%:Z,
      frame w w' (fun d => (d.1 == p) && (a <= d.2 < a + r)%N) &
   forall i, (a <= i < a + r)%N -> exists2 sd, get_dir w' (p, i) = Some sd &
     sd_indices sd = Some (idx_of jb i) /\
     (forall j, (j < jb_runs jb)%N ->
        exists2 m, dget (sd_models sd) j = Some m & trained (idx_of jb i) (seed_of jb i j) m)].
Proof.
elim: r a w g => [|r IH] a w g /=.
  by move=> [<- _]; split=> // i; rewrite addn0 leqNgt; case: (i < a)%N.
case e1: (one_subset _ _ _ _ _ _) => [[w1 g1] [[]|?]] // h.
have [l1 l2 [f1 f2] [sd es hs]] := subset_ok e1.
have [_ [f3 f4] hi] := IH _ _ _ h.
split=> //.
  split=> [[q k] /= nd|q]; last by rewrite f4.
  rewrite f3 ?f1 //=.
    apply: contra nd => /eqP [-> ->]; by rewrite eqxx leqnn addnS ltnS leq_addr.
  apply: contra nd => /andP [-> /andP [x y]] /=; by rewrite ltnW //= addnS -addSn.
move=> i /andP []; rewrite leq_eqVlt => /orP [/eqP <- _|x y]; last by apply: hi; rewrite x addSnnS.
by exists sd => //; rewrite f3 //= eqxx ltnn.
Qed.

Lemma retrain_ok w g p jb w' g' :
  retrain_lds choice reseed train w g p jb = ((w', g'), Ok tt) ->
  [/\ valid_job jb,
      (forall d, ~~ ((d.1 == p) && covers jb d.2) -> get_dir w' d = get_dir w d),
      (forall i, covers jb i -> exists2 sd, get_dir w' (p, i) = Some sd &
         sd_indices sd = Some (idx_of jb i) /\
         (forall j, (j < jb_runs jb)%N ->
            exists2 m, dget (sd_models sd) j = Some m & trained (idx_of jb i) (seed_of jb i j) m)) &
      (forall q, rt_meta (get_root w' q) =
        if (q == p) && ((jb_total jb == 0) || (((first_subset jb).+1 * jb_num jb)%N%:Z == jb_total jb))
        then Some (LMeta ((first_subset jb).+1 * jb_num jb)%N (jb_runs jb)
                    [seq (i, (p, i)) | i <- iota (first_subset jb) (jb_num jb)])
        else rt_meta (get_root w q))].
Proof.
rewrite /retrain_lds; case: ltrP => // tp; case: eqP => // /eqP; rewrite -lt0n => np.
case: ifP => // /negbFE dv; case: ltrP => // sp; rewrite -/(first_subset jb).
case e: (sfold _ _ _) => [[w2 g2] [[]|?]] //.
have [/(_ np) [l1 l2] [f1 f2] hi] := subsets_ok e.
have va : valid_job jb by rewrite /valid_job tp np dv sp l1.
have H : [/\ forall d, ~~ ((d.1 == p) && covers jb d.2) -> get_dir w2 d = get_dir w d,
  forall i, covers jb i -> exists2 sd, get_dir w2 (p, i) = Some sd &
         sd_indices sd = Some (idx_of jb i) /\
         (forall j, (j < jb_runs jb)%N ->
            exists2 m, dget (sd_models sd) j = Some m & trained (idx_of jb i) (seed_of jb i j) m) &
  forall q, rt_meta (get_root w2 q) = rt_meta (get_root w q)].
  split=> [d nd|//|q]; last by rewrite f2 meta_mkroot.
  by rewrite f1 // get_dir_mkroot.
case: H => h1 h2 h3; case: ifP => c [<- _]; split=> //.
- by move=> d nd; rewrite get_dir_meta h1.
- by move=> i ci; rewrite get_dir_meta; apply: h2.
- by move=> q; rewrite meta_meta h3 andbT.
by move=> q; rewrite h3 andbF.
Qed.

(* success is guaranteed when training does not raise *)
Lemma runs_total p i jb idx l w g :
  (forall j g, j \in l -> exists m g', train idx (jb_seed jb + (i * jb_runs jb + j)%N%:Z) g = (Ok m, g')) ->
  exists w' g', sfold (one_run train p i jb idx) (w, g) l = ((w', g'), Ok tt).
Proof.
elim: l w g => [|j l IH] w g tot /=; first by exists w, g.
rewrite {1}/one_run; have [m [g1 ->]] := tot j g (mem_head _ _).
by apply: IH => j' g' jl; apply: tot; rewrite inE jl orbT.
Qed.
Lemma subsets_total p jb l w g : 0 < jb_len jb -> jb_len jb <= (jb_n jb)%:Z ->
  (forall i j g, i \in l -> (j < jb_runs jb)%N ->
     exists m g', train (idx_of jb i) (jb_seed jb + (i * jb_runs jb + j)%N%:Z) g = (Ok m, g')) ->
  exists w' g', sfold (one_subset choice train p jb) (w, g) l = ((w', g'), Ok tt).
Proof.
move=> l1 l2; elim: l w g => [|i l IH] w g tot; first by exists w, g.
rewrite /= {1}/one_subset l1 l2.
have [|w1 [g1 e]] := @runs_total p i jb (idx_of jb i) (iota 0 (jb_runs jb)) (save_indices w p i (idx_of jb i)) g.
  by move=> j g'; rewrite mem_iota /= => jr; apply: tot => //; apply: mem_head.
by rewrite /= e; apply: IH => i' j g' il; apply: tot; rewrite inE il orbT.
Qed.
Lemma retrain_total w g p jb : valid_job jb ->
  (forall i j g, covers jb i -> (j < jb_runs jb)%N ->
     exists m g', train (idx_of jb i) (jb_seed jb + (i * jb_runs jb + j)%N%:Z) g = (Ok m, g')) ->
  exists w' g', retrain_lds choice reseed train w g p jb = ((w', g'), Ok tt).
Proof.
case/and5P => t0 np dv s0 /andP [l1 l2] tot; rewrite /retrain_lds; case: ltrP => [|_].
  by rewrite ltNge t0.
case: eqP np => [->//|_ np]; rewrite dv /=; case: ltrP => [|_]; first by rewrite ltNge s0.
have [|w2 [g2 ->]] := @subsets_total p jb (iota (if jb_total jb == 0 then 0%N else jb_start jb) (jb_num jb))
   (mkroot w p) (reseed (jb_seed jb)) l1 l2.
  by move=> i j g'; rewrite mem_iota => c; apply: tot.
case: ifP => _; [by exists (save_meta w2 p (LMeta ((if jb_total jb == 0 then 0%N else jb_start jb).+1 * jb_num jb)%N (jb_runs jb)
  [seq (i, (p, i)) | i <- iota (if jb_total jb == 0 then 0%N else jb_start jb) (jb_num jb)])), g2|by exists w2, g2].
Qed.

(* the global generator of the caller is irrelevant once the arguments are valid *)
Lemma retrain_g w g1 g2 p jb :
  (retrain_lds choice reseed train w g1 p jb).2 = (retrain_lds choice reseed train w g2 p jb).2 /\
  (retrain_lds choice reseed train w g1 p jb).1.1 = (retrain_lds choice reseed train w g2 p jb).1.1.
Proof. by rewrite /retrain_lds; do 4 (case: ifP => // _). Qed.

(* a sequence of jobs, each run to its end (successful or not) *)
Definition run_jobs w g p (l : seq job) : world P M * G :=
  foldl (fun wg jb => (retrain_lds choice reseed train wg.1 wg.2 p jb).1) (w, g) l.
Lemma run_jobs_cons w g p jb l :
  run_jobs w g p (jb :: l) = run_jobs (retrain_lds choice reseed train w g p jb).1.1
                                      (retrain_lds choice reseed train w g p jb).1.2 p l.
Proof. by rewrite /run_jobs /= -surjective_pairing. Qed.
End Lds.

Section Truth.
Variables (P : eqType) (M : Type) (R : numFieldType).
Variables (nt : nat) (target : M -> seq R).
Hypothesis target_size : forall m, size (target m) = nt.

Lemma rfold_rcons_map (A : eqType) (B : Type) (f : A -> res B) (h : A -> B) (acc : seq B) (l : seq A) :
  (forall a, a \in l -> f a = Ok (h a)) ->
  rfold (fun acc a => rmap (fun b => rcons acc b) (f a)) acc l = Ok (acc ++ map h l).
Proof.
elim: l acc => [|a l IH] acc H /=; first by rewrite cats0.
rewrite H ?mem_head //= IH ?cat_rcons // => x xi.
by apply: H; rewrite inE xi orbT.
Qed.

Lemma bc_row_full m : bc_row nt (target m) = Ok (target m).
Proof. by rewrite /bc_row target_size eqxx. Qed.

Lemma row_sum (f : nat -> res M) (md : nat -> option M) r acc :
  (forall j, (j < r)%N -> exists2 m, f j = Ok m & md j = Some m) -> size acc = nt ->
  rfold (fun acc j => rbind (f j) (fun m => rbind (bc_row nt (target m)) (fun v =>
           Ok [seq a.1 + a.2 | a <- zip acc v]))) acc (iota 0 r)
  = Ok (mkseq (fun t => nth 0 acc t +
       \sum_(j < r) (if md j is Some m then nth 0 (target m) t else 0)) nt).
Proof.
elim: r acc => [|r IH] acc H sa.
  rewrite /=; congr Ok; apply: (@eq_from_nth _ 0); rewrite ?size_mkseq // => t tn.
  by rewrite nth_mkseq -?sa // big_ord0 addr0.

rewrite iotaSr rfold_rcons IH // => [|j jr]; last by apply: H; rewrite ltnW.
have [m e1 e2] := H r (ltnSn r); rewrite /= e1 /= bc_row_full /=; congr Ok.
have sz : size [seq a.1 + a.2 | a <- zip (mkseq (fun t => acc`_t +
    \sum_(j < r) (if md j is Some m0 then (target m0)`_t else 0)) nt) (target m)] = nt.
  by rewrite size_map size_zip size_mkseq target_size minnn.
apply: (@eq_from_nth _ 0); rewrite sz ?size_mkseq // => t tn.
rewrite (nth_map (0, 0)) ?size_zip ?size_mkseq ?target_size ?minnn // nth_zip ?size_mkseq ?target_size //.
by rewrite !nth_mkseq //= big_ord_recr /= e2 addrA.
Qed.

Lemma truthE (w : world P M) p mt (md : nat -> nat -> option M) (idx : nat -> seq nat) k :
  rt_meta (get_root w p) = Some mt ->
  (forall i, (i < lm_num mt)%N -> read_indices w (lm_map mt) i = Ok (idx i) /\ size (idx i) = k) ->
  (forall i j, (i < lm_num mt)%N -> (j < lm_runs mt)%N ->
     exists2 m, read_model w (lm_map mt) i j = Ok m & md i j = Some m) ->
  lds_ground_truth nt target w p =
  Ok (if lm_runs mt == 0%N then None
      else Some (negated_means nt (lm_num mt) (lm_runs mt) target md), mkseq idx (lm_num mt)).
Proof.
move=> em hi hm; rewrite /lds_ground_truth em.
rewrite (@rfold_rcons_map _ _ _ idx) /=; last first.
  by move=> i; rewrite mem_iota => /andP [_ lt]; have [] := hi i lt.
have -> : all (fun l : seq nat => size l == size (head [::] [seq idx i | i <- iota 0 (lm_num mt)]))
            [seq idx i | i <- iota 0 (lm_num mt)].
  case e: (lm_num mt) => [|n] //; apply/allP => l /mapP [i]; rewrite mem_iota -e => /andP [_ lt] ->.
  by rewrite (hi i lt).2 e /= (hi 0%N _).2 // e.
rewrite /= (@rfold_rcons_map _ _ _ (fun i => mkseq (fun t =>
   \sum_(j < lm_runs mt) (if md i j is Some m then nth 0 (target m) t else 0)) nt)) /=; last first.
  move=> i; rewrite mem_iota => /andP [_ lt].
  rewrite (@row_sum _ (md i)) ?size_nseq // => [|j jr]; last exact: hm.
  congr Ok; apply/eq_mkseq => t; rewrite nth_nseq; by case: ifP; rewrite add0r.
congr (Ok (_, _)); case: ifP => // _; congr Some; rewrite -map_comp /negated_means /mkseq.
by apply: eq_map => i /=; rewrite -map_comp.
Qed.
End Truth.
