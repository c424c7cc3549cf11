(* C58: projection settings, and TracIn with the projectors it builds. *)
Set Warnings "-notation-overridden,-ambiguous-paths".
From mathcomp Require Import all_ssreflect all_algebra zify.
From Coq Require ZArith.
From Verif Require Import Py Dict Tensor TensorProof Seeds SeedSpec ProjModel ProjSpec ProjProof CompModel AttrModel AttrProof AttrProps ParamModel ParamSpec.
Set Implicit Arguments. Unset Strict Implicit. Unset Printing Implicit Defensive.
Import GRing.Theory Num.Theory Order.Theory.
Local Open Scope ring_scope.

(* ---- settings ---- *)

(* A settings object is accepted exactly when every field it knows is either absent with a default or readable, and
   then holds what was written or the documented default. *)
Theorem C58_settings (c : pcls) (k : kwargs) (q : params) : validate c k = Ok q <-> described c k q.
Proof.
case: q => d b s t; rewrite /validate /described /=.
have hb db : field as_nat db (kw_get k FBatch) = (if written int_only (Some db) (kw_get k FBatch) is Some n then Ok n else Err ValueError).
  by case: kw_get => [[]|].
have hs : field as_nat 0%N (kw_get k FSeed) = (if written int_only (Some 0%N) (kw_get k FSeed) is Some n then Ok n else Err ValueError).
  by case: kw_get => [[]|].
have ht dt : field as_type dt (kw_get k FType) = (if written name_only (Some dt) (kw_get k FType) is Some n then Ok n else Err ValueError).
  by case: kw_get => [[?||[]]|].
rewrite hb hs ht.
case: c => /=; case: (kw_get k _) => [[n||t']|] //=; rewrite ?/as_nat /=;
  do 3 (case: (written _ _ _) => [?|] //=);
  split; first [by [] | by case | by case=> -> -> -> -> | by case=> [[->] [->] [->] [->]]].
Qed.
(* and is refused with a ValueError otherwise *)
Theorem C58_settings_refused (c : pcls) (k : kwargs) : (forall q, ~ described c k q) <-> validate c k = Err ValueError.
Proof.
split; last by move=> e q /C58_settings; rewrite e.
move=> h; have : forall q, validate c k <> Ok q by move=> q /C58_settings; exact: h.
rewrite /validate.
have hn dn v : exists n, field as_nat dn v = Ok n \/ field as_nat dn v = Err ValueError.
  by case: v => [[n||?]|]; [exists n; left|exists 0%N; right|exists 0%N; right|exists dn; left].
set D := match _ with Some _ => _ | None => _ end.
have hd : (exists d, D = Ok d) \/ D = Err ValueError.
  rewrite /D; case: c {h D} => /=; case: kw_get => [[n||?]|] /=; first [by right | by left; eexists; reflexivity].
case: hd => [[d ->]|-> //] /=.
have [b [->|-> //]] := hn (batch_default c) (kw_get k FBatch); rewrite /=.
have [s [->|-> //]] := hn 0%N (kw_get k FSeed); rewrite /=.
case: (kw_get k FType) => [[n||[t|?|]]|] //= H; first [by have := H (Params d b s t) erefl | by have := H (Params d b s (type_default c)) erefl].
Qed.
(* Keywords the class does not know — a misspelt name, or the other family's dimension — change nothing. *)
Definition known (c : pcls) (f : pfield) : bool :=
  match f with FBatch | FSeed | FType => true | FDim => if c is (CGeneral|CTracIn|CTrak) then true else false
  | FDimLayer => if c is (CLoGra|CFactGrass|CDvemb) then true else false | FOther _ => false end.
Theorem C58_unknown_ignored (c : pcls) (k : kwargs) (f : pfield) (v : pval) :
  ~~ known c f -> validate c (dset k (pfield_code f) v) = validate c k.
Proof.
have g f1 : pfield_code f != pfield_code f1 -> kw_get (dset k (pfield_code f) v) f1 = kw_get k f1.
  by move=> h; rewrite /kw_get dgetE eq_sym (negbTE h).
move=> h; rewrite /validate !g //; by case: c f h {g} => -[|||||n] //= _; rewrite addnC.
Qed.
(* TracIn and TRAK settings always carry a dimension, so TracIn's branch without projection is never taken. *)
Theorem C58_always_projects (c : pcls) (k : kwargs) (q : params) : c <> CDvemb -> validate c k = Ok q -> exists d, a_dim q = Some d.
Proof.
move=> hc /C58_settings; rewrite /described; case: c hc => // _ /= [h _ _ _];
  by move: h; case: kw_get => [[n||?]|] //= [<-]; eexists.
Qed.
(* "grass_N" is documented but never accepted: the multiplier is always 4 *)
Theorem C58_grass_n_refused (c : pcls) (k : kwargs) (n : nat) :
  kw_get k FType = Some (VText (TGrassN n)) -> validate c k = Err ValueError.
Proof. by move=> h; apply/C58_settings_refused => q; rewrite /described h; case: c => /= -[]. Qed.
Theorem C58_grass_multiplier (c : pcls) (k : kwargs) (q : params) (t : ptext) :
  kw_get k FType = Some (VText t) -> validate c k = Ok q -> parse_grass t = (TName (a_type q), 4%N).
Proof.
by move=> h /C58_settings; rewrite /described h; case: c => /= -[_ _ _]; case: t {h} => //= t [->].
Qed.

(* ---- one batch ---- *)
Section Batch.
Variable F : fieldType.
Variable G : rng F.
Notation row := (seq F).
Definition perms := forall sd n, perm_eq (g_perm G sd n) (iota 0 n).
Definition uniform (w : nat) (X : seq row) := all (fun x => size x == w) X.

Lemma numel_uniform w (X : seq row) : uniform w X -> sumn (map size X) = (size X * w)%N.
Proof. by elim: X => //= x X IH /andP[/eqP -> /IH ->]; rewrite mulSn. Qed.
Lemma project_ok' (q : params) d (c n w : nat) (X : seq row) : a_dim q = Some d -> perms -> (0 < d)%N -> on_cpu (a_type q) -> (0 < n)%N -> uniform w X ->
  rbind (random_project G (n * w) n (Some d) (BinInt.Z.of_nat (a_seed q)) (a_type q))
           (fun p => (b_project G (pj_cfg p) (pj_st p) X (BinInt.Z.of_nat c)).2) = Ok [seq prow G w d (a_seed q) (a_type q) c x | x <- X].
Proof.
move=> _ hp d0 ht n0 hX; rewrite /random_project -(negbK (n == 0%N)) -lt0n n0 /= mulKn //.
have -> (A : Type) (x y : A) : (if a_type q is (PSjlt | PGrass) then x else y) = y by case: (a_type q) ht.
set cfg := BCfg _ _ _ _ _.
have bs0 : b_bs cfg = minn d 100 by [].
have bsp : (0 < b_bs cfg)%N by rewrite bs0; lia.
have [s es] : exists s, b_init G cfg BinNums.Z0 = Ok s.
  rewrite /b_init -(negbK (_ == 0%N)) -lt0n bsp /= /b_gen_dense /cfg /=.
  by case: (a_type q) ht => //= _; eexists.
rewrite es /=; have [_ hr ty] := b_init_ok es.
rewrite (b_project_ok _ bsp hr ty hp) // !andbF /= ?andbF; congr Ok.
rewrite /bresult /prow /cfg /= /bentry /=; case: (a_type q) ht => //= _; by rewrite map_id.
Qed.
(* On the CPU a non-empty batch of rows of one width is projected row by row; the result for a row depends on the
   settings, the ensemble, the width and that row only — not on the batch it came in. *)
Theorem C58_rowwise (q : params) (d c w : nat) (X : seq row) :
  a_dim q = Some d -> perms -> (0 < d)%N -> on_cpu (a_type q) -> X != [::] -> uniform w X ->
  project_batch G Cpu q c X = Ok [seq prow G w d (a_seed q) (a_type q) c x | x <- X].
Proof.
move=> hd hp d0 ht hX hu; rewrite /project_batch hd size_eq0 (negbTE hX) (numel_uniform hu).
by apply: project_ok' => //; rewrite lt0n size_eq0.
Qed.
(* so cutting a batch in two changes nothing *)
Theorem C58_split (q : params) (d c w : nat) (X Y : seq row) :
  a_dim q = Some d -> perms -> (0 < d)%N -> on_cpu (a_type q) -> X != [::] -> Y != [::] -> uniform w X -> uniform w Y ->
  project_batch G Cpu q c (X ++ Y) =
  rbind (project_batch G Cpu q c X) (fun X' => rmap (fun Y' => X' ++ Y') (project_batch G Cpu q c Y)).
Proof.
move=> hd hp d0 ht hX hY uX uY; rewrite !(C58_rowwise _ hd hp d0 ht _ (w := w)) //= ?map_cat //.
  by case: X hX {uX}.
by rewrite /uniform all_cat; apply/andP.
Qed.
Lemma size_prow (d seed c w : nat) t (x : row) : perms -> size x = w -> size (prow G w d seed t c x) = outw w d t.
Proof.
move=> hp e; rewrite /prow /outw; case: t => //; rewrite ?size_mkseq //.
by rewrite size_map size_sort size_take (perm_size (hp _ _)) size_iota /minn; case: ltnP.
Qed.
(* Every projected row has the same width: the requested one, at most the feature count for a mask, the feature
   count itself for the identity — whose proj_dim is ignored. *)
Theorem C58_width (q : params) (d c w : nat) (X Y : seq row) :
  a_dim q = Some d -> perms -> uniform w X -> project_batch G Cpu q c X = Ok Y ->
  size Y = size X /\ uniform (outw w d (a_type q)) Y.
Proof.
move=> hd hp hu.
case X0: (X == [::]); first by rewrite (eqP X0) /project_batch hd.
case d0: (d == 0%N).
  rewrite /project_batch hd size_eq0 X0 /random_project size_eq0 X0 (eqP d0).
  by case: (a_type q).
case ht: (on_cpu (a_type q)); last by rewrite /project_batch hd size_eq0 X0 /random_project size_eq0 X0; case: (a_type q) ht.
rewrite (C58_rowwise _ hd hp _ ht _ hu) ?X0 // ?lt0n ?d0 // => -[<-]; rewrite size_map; split=> //.
rewrite /uniform all_map; apply/allP => x /(allP hu) /eqP e /=; by rewrite (size_prow _ _ _ _ hp e).
Qed.
(* What fails, and how. *)
Theorem C58_errors (q : params) (c w : nat) (dv : device) (X : seq row) : perms -> uniform w X ->
  project_batch G dv q c X =
  match a_dim q with
  | None => Err ValueError
  | Some d => if X == [::] then Err ZeroDivisionError
              else if dv is OtherDevice then Err ValueError
              else if ~~ on_cpu (a_type q) then Err ValueError
              else if d == 0%N then Err ZeroDivisionError
              else Ok [seq prow G w d (a_seed q) (a_type q) c x | x <- X]
  end.
Proof.
move=> hp hu; case hd: (a_dim q) => [d|]; last by rewrite /project_batch hd.
case X0: (X == [::]); first by rewrite (eqP X0) /project_batch hd.
case: dv; last by rewrite /project_batch hd size_eq0 X0.
case ht: (on_cpu (a_type q)); last by rewrite /project_batch hd size_eq0 X0 /random_project size_eq0 X0; case: (a_type q) ht.
case d0: (d == 0%N); last by rewrite (C58_rowwise _ hd hp _ ht _ hu) ?X0 // ?lt0n ?d0.
by rewrite /project_batch hd size_eq0 X0 /random_project size_eq0 X0 (eqP d0); case: (a_type q) ht.
Qed.
(* A dictionary of per-parameter gradients is projected like the concatenation of its rows. *)
Theorem C58_dict (q : params) (c n : nat) (ws : seq nat) (P : seq (seq row)) :
  perms -> size P = size ws -> (forall i, (i < size P)%N -> size (nth [::] P i) = n /\ uniform (nth 0%N ws i) (nth [::] P i)) ->
  project_dict G q c n P = project_batch G Cpu q c (rows_of n P).
Proof.
move=> hp hs hP; rewrite /project_dict /project_batch; case: (a_dim q) => // d; rewrite size_mkseq.
case: n hP => [//|n] hP; rewrite -[n.+1 == 0%N]/false; cbn iota.
have hsz : [seq (sumn (map size X) %/ n.+1)%N | X <- P] = ws.
  apply: (@eq_from_nth _ 0%N); rewrite size_map // => i hi; rewrite (nth_map [::]) //.
  by have [e u] := hP i hi; rewrite (numel_uniform u) e mulKn.
have hr : uniform (sumn ws) (rows_of n.+1 P).
  apply/(all_nthP [::]) => i; rewrite size_mkseq => hi; rewrite nth_mkseq // size_flatten -hsz.
  apply/eqP; congr sumn; rewrite /shape -map_comp; apply: (@eq_from_nth _ 0%N); rewrite !size_map // => j hj.
  rewrite !(nth_map [::]) //=; have [e u] := hP j hj.
  by rewrite (numel_uniform u) e mulKn //; apply/eqP; apply: (all_nthP [::] u); rewrite e.
by rewrite (numel_uniform hr) hsz size_mkseq.
Qed.
End Batch.

(* ---- TracIn ---- *)
Section Scores.
Variables (F : rcfType) (X : Type).
Variable G : rng F.
Variables (gl gt : nat -> X -> seq F) (eps : F) (w : nat).
Hypothesis hgl : forall c x, size (gl c x) = w.
Hypothesis hgt : forall c x, size (gt c x) = w.
Hypothesis hp : perms G.
Variables (tr te : loader X) (q : params) (d : nat).
Hypothesis bs1 : (0 < ld_bs tr)%N.
Hypothesis bs2 : (0 < ld_bs te)%N.
Hypothesis hd : a_dim q = Some d.
Let P c x := prow G w d (a_seed q) (a_type q) c x.
Let ow := outw w d (a_type q).

Definition rv (n : nat) (x : seq F) : 'rV[F]_n := \row_i nth 0 x i.
Definition vr (n : nat) (v : 'rV[F]_n) : seq F := [seq v 0 i | i <- enum 'I_n].
Lemma vrK n x : size x = n -> vr (rv n x) = x.
Proof.
move=> e; apply: (@eq_from_nth _ 0); rewrite size_map size_enum_ord // => i hi.
by rewrite (nth_map (Ordinal hi)) ?size_enum_ord // mxE nth_enum_ord.
Qed.
Lemma sdotE n u v : size u = n -> sdot u v = dot (rv n u) (rv n v).
Proof. by move=> e; rewrite /sdot /dot e; apply: eq_bigr => i _; rewrite !mxE. Qed.
Lemma snormE n u : size u = n -> rv n (snormalize eps u) = normalize eps (rv n u).
Proof.
move=> e; apply/rowP => i; rewrite !mxE (nth_map 0) ?e // -(sdotE u e); congr (_ * _).
Qed.
Lemma real_refines nrm n ws : (0 < d)%N -> on_cpu (a_type q) ->
  tracin_real G gl gt eps Cpu (Some q) nrm n ws tr te =
  tracin_attribute (fun c x => rv w (gl c x)) (fun c x => rv w (gt c x)) (fun c v => rv ow (P c (vr v))) eps true true nrm n ws tr te.
Proof.
move=> d0 ht; rewrite /tracin_real /tracin_attribute /=; case: (n =P size ws) => [en|//] /=.
have nonempty (L : loader X) k : (0 < ld_bs L)%N -> k \in iota 0 (nbatches L) -> (0 < size (batch L k))%N.
  move=> h; rewrite mem_iota add0n => /= hk; have := nbatches_st h hk.
  by rewrite size_batch; lia.
have pr (g : nat -> X -> seq F) (L : loader X) k c : (forall c x, size (g c x) = w) -> (0 < ld_bs L)%N -> k \in iota 0 (nbatches L) ->
    project_or_not G Cpu q c [seq g c x | x <- batch L k] = Ok [seq P c (g c x) | x <- batch L k].
  move=> hg h hk; rewrite /project_or_not hd (C58_rowwise c hd hp d0 ht (w := w)).
  - by rewrite -map_comp.
  - by rewrite -size_eq0 size_map -lt0n; apply: nonempty hk.
  - by rewrite /uniform all_map; elim: (batch L k) => //= x l ->; rewrite hg eqxx.
elim: (zip _ _) (zeros2 _ _ _) => //= cw l IH out.
have -> : rfold (fun o pb => rbind (project_or_not G Cpu q cw.1 [seq gl cw.1 x | x <- pb.2]) (fun gs =>
      rfold (fun o' qb => rbind (project_or_not G Cpu q cw.1 [seq gt cw.1 y | y <- qb.2]) (fun hs =>
        add_block (st tr pb.1) (ed tr pb.1) (st te qb.1) (ed te qb.1)
          [seq [seq (if nrm then sdot (snormalize eps g) (snormalize eps h) else sdot g h) * cw.2 | h <- hs] | g <- gs] o'))
      o (enum_batches te))) out (enum_batches tr) =
   rfold (fun o pb => rfold (fun o' qb => add_block (st tr pb.1) (ed tr pb.1) (st te qb.1) (ed te qb.1)
                  (tracin_block (fun c x => rv w (gl c x)) (fun c x => rv w (gt c x)) (fun c v => rv ow (P c (vr v))) eps nrm cw.1 cw.2 pb.2 qb.2) o')
      o (enum_batches te)) out (enum_batches tr); last by case: (rfold _ _ _) => //= out'; apply: IH.
apply: eq_rfold_map => o i hi /=; rewrite pr //=.
apply: eq_rfold_map => o' j hj /=; rewrite pr //=; congr add_block.
rewrite /tracin_block -map_comp; apply: eq_map => x /=; rewrite -map_comp; apply: eq_map => y /=.
rewrite !vrK //; have s1 : size (P cw.1 (gl cw.1 x)) = ow by rewrite (size_prow _ _ _ _ hp (hgl _ _)).
have s2 : size (P cw.1 (gt cw.1 y)) = ow by rewrite (size_prow _ _ _ _ hp (hgt _ _)).
case: {IH} nrm; last by rewrite (sdotE _ s1).
by rewrite (sdotE (n := ow)) ?size_map // !snormE.
Qed.
Hypothesis nd1 : ld_drop tr = false.
Hypothesis nd2 : ld_drop te = false.
(* With the projectors it really builds, one per batch, TracIn returns the weighted sum of inner products of the
   projected gradients; the projection does not depend on how the loaders cut the data. *)
Theorem C58_tracin (ws : seq F) : (0 < d)%N -> on_cpu (a_type q) ->
  tracin_real G gl gt eps Cpu (Some q) false (size ws) ws tr te
  = Ok [seq [seq \sum_(c < size ws) nth 0 ws c *
        inner (outw w d (a_type q)) (prow G w d (a_seed q) (a_type q) c (gl c x)) (prow G w d (a_seed q) (a_type q) c (gt c y))
        | y <- ld_data te] | x <- ld_data tr].
Proof.
move=> d0 ht; rewrite real_refines // C05_tracin_weighted_sum //; congr Ok.
apply: eq_map => x; apply: eq_map => y; apply: eq_bigr => c _; congr (_ * _).
by apply: eq_bigr => i _; rewrite !mxE !vrK.
Qed.
(* CosIn: normalised projected gradients *)
Theorem C58_cosin (ws : seq F) : (0 < d)%N -> on_cpu (a_type q) -> 0 < eps ->
  let norm u := Num.sqrt (inner (outw w d (a_type q)) u u) in
  let pr c u := prow G w d (a_seed q) (a_type q) c u in
  (forall c x, eps <= norm (pr c (gl c x)) /\ eps <= norm (pr c (gt c x))) ->
  tracin_real G gl gt eps Cpu (Some q) true (size ws) ws tr te
  = Ok [seq [seq \sum_(c < size ws) nth 0 ws c *
        (inner (outw w d (a_type q)) (pr c (gl c x)) (pr c (gt c y)) / (norm (pr c (gl c x)) * norm (pr c (gt c y))))
        | y <- ld_data te] | x <- ld_data tr].
Proof.
move=> d0 ht e0 norm pr h; rewrite real_refines //.
have nE c u : size u = w -> Num.sqrt (\sum_k (rv ow (P c (vr (rv w u)))) 0 k ^+ 2) = norm (pr c u).
  by move=> su; rewrite /norm /inner vrK //; congr Num.sqrt; apply: eq_bigr => i _; rewrite !mxE expr2.
rewrite C05_tracin_normalized_is_cosine //; last by move=> c x; rewrite !nE.
congr Ok; apply: eq_map => x; apply: eq_map => y; apply: eq_bigr => c _; congr (_ * _).
by rewrite !nE //; congr (_ / _); apply: eq_bigr => i _; rewrite !mxE !vrK.
Qed.
(* Exact TracIn needs proj_type "identity" (any positive proj_dim). *)
Theorem C58_tracin_identity (ws : seq F) : (0 < d)%N -> a_type q = PIdentity ->
  tracin_real G gl gt eps Cpu (Some q) false (size ws) ws tr te
  = Ok [seq [seq \sum_(c < size ws) nth 0 ws c * inner w (gl c x) (gt c y) | y <- ld_data te] | x <- ld_data tr].
Proof. by move=> d0 e; rewrite C58_tracin // e. Qed.
End Scores.

(* sjlt and grass are accepted as settings and fail on the CPU as soon as there is a batch of training data *)
Theorem C58_tracin_cpu_types (F : rcfType) (X : Type) (G : rng F) (gl gt : nat -> X -> seq F) (eps : F) (q : params) (d : nat)
    (nrm : bool) (ws : seq F) (tr te : loader X) :
  a_dim q = Some d -> ~~ on_cpu (a_type q) -> ws != [::] -> (0 < nbatches tr)%N -> (0 < ld_bs tr)%N ->
  tracin_real G gl gt eps Cpu (Some q) nrm (size ws) ws tr te = Err ValueError.
Proof.
move=> hd ht; case: ws => [//|w0 ws] _ nb bs; rewrite /tracin_real /= eqxx /=.
case e: (nbatches tr) nb => [//|n] _; rewrite /enum_batches {1}e /=.
have h0 : (0 < nbatches tr)%N by rewrite e.
have := nbatches_st bs h0; rewrite -subn_gt0 => /andP[h _].
have z : (size (batch tr 0) == 0)%N = false by apply: negbTE; rewrite -lt0n size_batch.
have -> : project_or_not G Cpu q 0 [seq gl 0%N x | x <- batch tr 0] = Err ValueError; last by [].
by rewrite /project_or_not hd /project_batch hd size_map z /random_project z; case: (a_type q) ht.
Qed.
(* The default: one train and one test sample whose gradients have one coordinate each.  The score is the exact one
   multiplied by the mean square of 512 normal draws. *)
Theorem C58_tracin_default (F : rcfType) (X : Type) (G : rng F) (g h : F) (eps : F) (x y : X) (wt : F) :
  perms G -> g_root G 512 ^+ 2 = 512%:R ->
  tracin_real G (fun _ _ => [:: g]) (fun _ _ => [:: h]) eps Cpu None false 1 [:: wt] (Loader [:: x] 1 false) (Loader [:: y] 1 false)
  = Ok [:: [:: wt * (g * h) * ((\sum_(j < 512) basic_entry G 1 100 BinNums.Z0 BinNums.Z0 PNormal 0 j ^+ 2) / 512%:R)]].
Proof.
move=> hp hr; pose q := Params (Some 512%N) 32 0 PNormal.
have eN : settings CTracIn None = settings CTracIn (Some q) by [].
have -> a b l1 l2 ws n : tracin_real G a b eps Cpu None false n ws l1 l2 = tracin_real G a b eps Cpu (Some q) false n ws l1 l2.
  by rewrite /tracin_real eN.
have -> := @C58_tracin F X G (fun _ _ => [:: g]) (fun _ _ => [:: h]) eps 1 (fun _ _ => erefl) (fun _ _ => erefl) hp
  (Loader [:: x] 1 false) (Loader [:: y] 1 false) q 512 isT isT erefl erefl erefl [:: wt] isT isT.
congr (Ok [:: [:: _]]); cbn [a_type a_seed q outw].
rewrite big_ord1 -mulrA; congr (_ * _); rewrite /inner mulrA mulr_sumr mulr_suml; apply: eq_bigr => j _.
rewrite /prow /apply_matrix !nth_mkseq // !big_ord1 /= -hr expr2 invfM.
rewrite (_ : minn 512 100 = 100%N) //; set e := g_normal _ _ _ _ _ _; set r := (g_root G 512)^-1.
by rewrite mulrACA [g * e * _]mulrACA.
Qed.

(* So "no proj_params" is not exact TracIn, although the random source behaves as documented (permutations, exact
   roots): with draws all equal to 2 the score is four times too large. *)
Definition rng_two (F : rcfType) : rng F :=
  Rng (fun _ _ _ _ _ => 2%:R) (fun _ _ _ _ _ => true) (fun _ n => iota 0 n) (fun _ _ _ _ => ([::], [::])) (fun n => Num.sqrt n%:R).
Theorem C58_default_exact_refuted (F : rcfType) : exists G : rng F, [/\ perms G, (forall n, g_root G n ^+ 2 = n%:R) &
  tracin_real G (fun _ (_ : unit) => [:: 1]) (fun _ _ => [:: 1]) 1 Cpu None false 1 [:: 1] (Loader [:: tt] 1 false) (Loader [:: tt] 1 false)
  <> Ok [:: [:: 1]]].
Proof.
exists (rng_two F); have hp : perms (rng_two F) by move=> s n; exact: perm_refl.
have hr n : g_root (rng_two F) n ^+ 2 = n%:R by rewrite sqr_sqrtr // ler0n.
split; [exact: hp|exact: hr|].
have n0 : (512%:R : F) != 0 by rewrite pnatr_eq0.
rewrite (C58_tracin_default _ _ _ _ _ _ hp (hr _)) => -[] /eqP.
rewrite !mul1r sumr_const card_ord -[_ *+ 512]mulr_natr mulfK //.
by rewrite -natrX (@eqr_nat F (2 ^ 2) 1).
Qed.

(* ---- examples ---- *)
Example C58_ex_typo : exists q, validate CTracIn [:: (pfield_code (FOther 7), VInt 0); (pfield_code FType, VText (TName PSjlt))] = Ok q
  /\ a_dim q = Some 512%N /\ on_cpu (a_type q) = false.
Proof. by eexists. Qed.
Example C58_ex_refused : (forall q, ~ described CTrak [:: (pfield_code FDim, VNone)] q) /\ ~ exists q, described CGeneral [::] q.
Proof. by split=> [q []|[q []]]. Qed.
Example C58_ex_dvemb : described CDvemb [:: (pfield_code FDimLayer, VNone); (pfield_code FSeed, VInt 3)] (Params None 64 3 PIdentity).
Proof. by []. Qed.
Example C58_ex_known : ~~ known CTracIn FDimLayer && ~~ known CLoGra FDim && known CDvemb FDimLayer.
Proof. by []. Qed.
Example C58_ex_grass : kw_get [:: (pfield_code FType, VText (TGrassN 2))] FType = Some (VText (TGrassN 2)).
Proof. by []. Qed.
(* two samples of three features, a mask to two of them *)
Example C58_ex_batch (F : rcfType) : let X : seq (seq F) := [:: [:: 1; 2%:R; 3%:R]; [:: 4%:R; 5%:R; 6%:R]] in
  perms (rng_two F) /\ uniform 3 X /\ project_batch (rng_two F) Cpu (Params (Some 2%N) 8 5 PMask) 1 X = Ok [:: [:: 1; 2%:R]; [:: 4%:R; 5%:R]].
Proof.
have hp : perms (rng_two F) by move=> s n; exact: perm_refl.
by split=> //; split=> //; rewrite (@C58_rowwise F (rng_two F) _ 2 1 3) //= /prow /=.
Qed.
Example C58_ex_dict (F : rcfType) : let P : seq (seq (seq F)) := [:: [:: [:: 1; 2%:R]; [:: 3%:R; 4%:R]]; [:: [:: 5%:R]; [:: 6%:R]]] in
  (forall i, (i < size P)%N -> size (nth [::] P i) = 2%N /\ uniform (nth 0%N [:: 2; 1]%N i) (nth [::] P i))
  /\ rows_of 2 P = [:: [:: 1; 2%:R; 5%:R]; [:: 3%:R; 4%:R; 6%:R]].
Proof. by split=> // -[|[|i]]. Qed.
(* cutting three samples into batches of two or of one gives the same exact scores *)
Example C58_ex_tracin (F : rcfType) : let g := fun (c : nat) (x : nat) => [:: x%:R; c%:R] : seq F in
  tracin_real (rng_two F) g g 1 Cpu (Some (Params (Some 7%N) 8 5 PIdentity)) false 2 [:: 1; 1] (Loader [:: 1; 2; 3]%N 2 false) (Loader [:: 4; 5]%N 1 false)
  = tracin_real (rng_two F) g g 1 Cpu (Some (Params (Some 1%N) 8 0 PIdentity)) false 2 [:: 1; 1] (Loader [:: 1; 2; 3]%N 1 false) (Loader [:: 4; 5]%N 5 false).
Proof.
have hp : perms (rng_two F) by move=> s n; exact: perm_refl.
by move=> g; rewrite (@C58_tracin_identity F _ _ g g 1 2 _ _ hp _ _ _ 7 _ _ _ _ _ [:: 1; 1]) //
  (@C58_tracin_identity F _ _ g g 1 2 _ _ hp _ _ _ 1 _ _ _ _ _ [:: 1; 1]).
Qed.
Print Assumptions C58_settings.
Print Assumptions C58_settings_refused.
Print Assumptions C58_unknown_ignored.
Print Assumptions C58_always_projects.
Print Assumptions C58_grass_n_refused.
Print Assumptions C58_grass_multiplier.
Print Assumptions C58_rowwise.
Print Assumptions C58_split.
Print Assumptions C58_width.
Print Assumptions C58_errors.
Print Assumptions C58_dict.
Print Assumptions C58_tracin.
Print Assumptions C58_cosin.
Print Assumptions C58_tracin_identity.
Print Assumptions C58_tracin_cpu_types.
Print Assumptions C58_tracin_default.
Print Assumptions C58_default_exact_refuted.
