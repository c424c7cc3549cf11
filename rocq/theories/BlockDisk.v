(* C41 with offload="disk": the same scores from the chunked store, for every schedule of its writers. *)
Set Warnings "-notation-overridden,-ambiguous-paths".
From mathcomp Require Import all_ssreflect all_algebra zify.
From Verif Require Import Py Dict Tensor TensorProof MetaModel MetaSpec MetaProof OffModel OffSpec.
From Verif Require Import BlockModel BlockSpec BlockProof BlockProof2 BlockProof3 BlockProof4 BlockProof5 BlockProof6.
From Verif Require DiskModel DiskSpec DiskProps BlockProps.
Set Implicit Arguments. Unset Strict Implicit. Unset Printing Implicit Defensive.
Import GRing.Theory.
Local Open Scope ring_scope.

Section Disk.
Variables (F : fieldType) (Name X Y : Type) (names : seq Name) (ef : bool) (lam : option F).
Variables (ds : seq nat) (g : nat -> X -> seq F) (h : nat -> Y -> seq F).
Hypothesis hn : size names = size ds.
Hypothesis s0 : (0 < sumn ds)%N.
Hypothesis sg : forall l x, (l < size ds)%N -> size (g l x) = nth 0%N ds l.
Hypothesis sh : forall l y, (l < size ds)%N -> size (h l y) = nth 0%N ds l.
Variables (cs mx : nat) (listing : seq DiskModel.fkey -> seq DiskModel.fkey) (fle : ssrbool.rel DiskModel.fkey).
Hypothesis lperm : forall l, perm_eq (listing l) l.
Hypothesis cs0 : (0 < cs)%N.
Notation d l := (nth 0%N ds l). Notation nl := (size ds).
Notation processes := (DiskSpec.processes (0 : F) cs mx listing).
Notation log := (seq (DiskModel.label F * res unit)).
Notation from_disk := (DiskModel.disk_loader listing fle).
Notation lamv := (lam_of lam).

(* the accepted stores of one kind: each index once, with the given gradients *)
Definition stored (lg : log) (k : bool) (calls : seq (nat * seq (gr F))) : Prop :=
  perm_eq [seq x.1.2 | x <- DiskSpec.accepted_stores lg & x.1.1 == k] [seq c.1 | c <- calls] /\
  forall x, List.In x (DiskSpec.accepted_stores lg) -> x.1.1 = k -> List.In (x.1.2, x.2) calls.
Definition grad_calls (Z : Type) (u : nat -> Z -> seq F) (E : seq (seq Z)) : seq (nat * seq (gr F)) :=
  [seq (b, mkseq (fun l => G2 (T2 (d l) [seq u l x | x <- nth [::] E b])) nl) | b <- iota 0 (size E)].

Section Holds.
Variables (Z : Type) (u : nat -> Z -> seq F).
Lemma batch_rows_grads b : DiskSpec.batch_rows (grads_of ds u b) = [seq fl ds u x | x <- b].
Proof.
rewrite /DiskSpec.batch_rows /DiskSpec.brows.
have -> : grows (head (@G1 F) (grads_of ds u b)) = size b.
  by rewrite /grads_of; case: (ds) s0 => //= k ks _; rewrite /nrows /= size_map.
case: b => [|x0 b] //; apply: (@eq_from_nth _ [::]); first by rewrite size_mkseq size_map.
move=> i; rewrite size_mkseq => ib; rewrite nth_mkseq // (nth_map x0) // /DiskSpec.sample_row /grads_of /fl /mkseq -!map_comp.
by congr flatten; apply: eq_map => l /=; rewrite -[LHS]/(nth [::] [seq u l x | x <- x0 :: b] i) (nth_map x0).
Qed.
Lemma disk_holds lss dk lg k E bs : all (DiskSpec.session cs) lss -> DiskSpec.legal cs mx ds (DiskSpec.stores (flatten lss)) ->
  processes [::] lss = Some (dk, lg) -> (0 < bs)%N -> stored lg k (grad_calls u E) ->
  exists2 outs, from_disk k dk None bs = [seq Ok it | it <- outs] & holds ds outs (stored_rows ds u E).
Proof.
move=> al le pr b0 [pe fn].
have [outs [h1 h2 h3 h4 h5]] := DiskProps.C39_loader lperm s0 cs0 fle k None al le pr b0.
exists outs => //; split=> //.
  by move=> it hi; move: h2; elim: (outs) hi => //= y l IH [->|hi] /andP [/eqP e al'] //; exact: IH.
apply: perm_trans h3 _.
pose f b := [seq fl ds u x | x <- nth [::] E b].
have -> : [seq (x.1.2, DiskSpec.batch_rows x.2) | x <- DiskSpec.accepted_stores lg & (x.1.1 == k) && true] =
          [seq (b, f b) | b <- [seq x.1.2 | x <- DiskSpec.accepted_stores lg & x.1.1 == k]].
  elim: (DiskSpec.accepted_stores lg) fn {pe} => //= x l IH fn.
  rewrite andbT; case: eqP => [kx|_] /=; rewrite IH //; try by move=> y hy; apply: fn; right.
  have hx := fn x (or_introl erefl) kx; have [b _ [e1 e2]] := In_map hx.
  by congr cons; rewrite e2 -/(grads_of ds u (nth [::] E b)) batch_rows_grads e1.
rewrite /stored_rows; apply: perm_map; apply: perm_trans pe _.
by rewrite /grad_calls -map_comp map_id.
Qed.
End Holds.

Variable (dir : dirst Name).
Hypothesis nometa : d_meta dir = None.
(* compute_preconditioners and compute_ifvp on the items of a loader *)
Definition precs_from (its : seq (res (item F))) : seq (nat * seq (seq F)) * res unit :=
  match accumulate nl ds its with Ok a => prec_calls lam a | Err e => ([::], Err e) end.
Definition ifvp_from (mp : dict nat_eqType (nat * nat)) (its : nat -> seq (res (item F))) : seq (nat * seq (gr F)) * res unit :=
  if ef then ifvp_calls (ifvp_batch nl ds (mkseq (fun l => dget (precs_from (its 4%N)).1 l) nl)) mp (its 4%N)
  else ifvp_calls (copy_batch nl ds) mp (its 1%N).

(* d1, log1: the directory after caching the loader L; d2, log2: after storing the preconditioned
   gradients computed from it.  For every interleaving of the background writers the scores are those of
   the attributor in memory. *)
Theorem C41_disk (L : loader X) (Le : loader Y) lss1 lss2 d1 d2 log1 log2 :
  (0 < ld_bs L)%N -> (0 < nbatches L)%N -> (0 < ld_bs Le)%N -> (0 < nbatches Le)%N ->
  BlockProps.invertible ef lam ds g L ->
  all (DiskSpec.session cs) lss1 -> DiskSpec.legal cs mx ds (DiskSpec.stores (flatten lss1)) ->
  processes [::] lss1 = Some (d1, log1) -> stored log1 false (grad_calls g (batches L)) ->
  all (DiskSpec.session cs) lss2 -> DiskSpec.legal cs mx ds (DiskSpec.stores (flatten lss2)) ->
  processes [::] lss2 = Some (d2, log2) ->
  let mp := mapping (initialize (of_loader L) (fresh names) dir).1.1 in
  let c := ifvp_from mp.2 (from_disk false d1 None) in
  [/\ ef -> (precs_from (from_disk false d1 None 4%N)).2 = Ok tt, c.2 = Ok tt &
      stored log2 true c.1 ->
      scores mp.2 (m_total mp.1) (T2 (sumn ds) [seq flatten (mkseq (h ^~ y) nl) | y <- samples Le]) (from_disk true d2 None 2%N) =
      Ok (BlockProps.the_scores ef lam ds g h L Le)].
Proof.
move=> b0 n0 b2 n2 U al1 lg1 pr1 st1 al2 lg2 pr2 mp c.
have mE : metaE mp.1 (batches L).
  have [|_] := metaE_init dir b0 (metaE_fresh X names); first by move=> e; move: n0; rewrite -e.
  by rewrite over_nil /mp => mE; rewrite (mapping1 mE).
pose M := Mof ef lam ds g (samples L).
pose g1 (V : seq (seq F)) := mkseq (fun l => G2 (T2 (d l) [seq mulrow (d l) (rows_of (M l)) (lay ds l v) | v <- V])) nl.
pose g2 (V : seq (seq F)) := mkseq (fun l => G2 (T2 (d l) [seq lay ds l v | v <- V])) nl.
have E0 : (0 < size (batches L))%N by rewrite size_batches.
have mp2 : mp.2 = (mapping mp.1).2.
  by have [|_] := metaE_init dir b0 (metaE_fresh X names); [move=> e; move: n0; rewrite -e|move=> q; rewrite /mp (mapping1 q)].
have keys b : b \in [seq e.1 | e <- stored_rows ds g (batches L)] -> dhas mp.2 b.
  by rewrite -map_comp map_id mem_iota dget_has mp2 (mapping_get _ mE) => /andP [_]; rewrite add0n => ->.
have V0 : (0 < size [seq fl ds g x | x <- samples L])%N by rewrite size_map (samples_pos hn s0 b0 n0).
have pcE : ef -> precs_from (from_disk false d1 None 4%N) =
   ([seq (l, prec_of ds lam [seq fl ds g x | x <- samples L] l) | l <- iota 0 nl & (0 < d l)%N], Ok tt).
  move=> hef; have [outs eo ho] := disk_holds al1 lg1 pr1 (isT : (0 < 4)%N) st1.
  rewrite /precs_from eo (holds_accumulate ho) flat_stored flatten_samples // prec_callsE // => l ln dl.
  by rewrite (dmp_fl _ _ sg) //; exact: U.
have cE : exists2 R', perm_eq R' (stored_rows ds g (batches L)) &
   c = ([seq (e.1, (if ef then g1 else g2) e.2) | e <- R'], Ok tt).
  rewrite /c /ifvp_from; case: (boolP ef) => hef; last first.
    have [outs -> ho] := disk_holds al1 lg1 pr1 (isT : (0 < 1)%N) st1.
    by apply: (holds_calls (g := g2) ho keys) => V; exact: copy_batchE.
  have [outs eo ho] := disk_holds al1 lg1 pr1 (isT : (0 < 4)%N) st1.
  rewrite pcE // eo; apply: (holds_calls (g := g1) ho keys) => V; apply: ifvp_batchE => // l ln.
  rewrite nth_mkseq //= dget_pairs mem_filter mem_iota ln leq0n !andbT.
  case: ltnP => dl; first by left; rewrite /prec_of (dmp_fl _ _ sg) // /M /Mof hef.
  by right; split=> //; apply: mx_empty; apply/eqP; rewrite -leqn0.
have [R' pR ce] := cE.
split=> [hef||]; [by rewrite pcE|by rewrite ce|].
have Hg : hooks_give ds g (fun b => Ok (mkseq (fun l => G2 (T2 (d l) [seq g l x | x <- b])) nl)) by split.
have M1 : ~~ ef -> forall l, M l = 1%:M by rewrite /M /Mof => /negbTE -> l.
have cc : c.1 = [seq (b, grads_of ds (iv g M) (nth [::] (batches L) b)) | b <- [seq e.1 | e <- R']].
  rewrite ce /= -map_comp; apply/eq_in_map => e; rewrite (perm_mem pR) => /mapP [b]; rewrite mem_iota add0n => /= bE ->.
  rewrite [LHS]/= [RHS]/=; have q1 := lay_iv Hg M bE; have q2 := fun e => lay_g Hg bE (M1 e).
  by move: q1 q2; rewrite /g1 /g2; case: (ef) => [<-|_ /(_ isT) <-].
have kR : perm_eq [seq e.1 | e <- R'] (iota 0 (size (batches L))).
  by apply: perm_trans (perm_map _ pR) _; rewrite -map_comp map_id.
move=> [pe fn]; have st2 : stored log2 true (grad_calls (iv g M) (batches L)).
  split.
    apply: perm_trans pe _; rewrite cc /grad_calls -!map_comp !map_id; exact: kR.
  move=> x hx kx; have := fn x hx kx; rewrite cc => hi; have [b bi ->] := In_map hi.
  apply: (map_In (fun b => (b, grads_of ds (iv g M) (nth [::] (batches L) b)))).
  by apply/In_mem; rewrite -(perm_mem kR); apply/In_mem.
have [outs -> ho] := disk_holds al2 lg2 pr2 (isT : (0 < 2)%N) st2.
have [x0 _] : exists x0 : X, True.
  by have := samples_pos hn s0 b0 n0; case: (samples L) => // x _ _; exists x.
have [y0 _] : exists y0 : Y, True.
  by have := samples_pos hn s0 b2 n2; case: (samples Le) => // y _ _; exists y.
have pl := placed_meta ds (iv g M) x0 mE; rewrite -mp2 in pl.
have [_ tot _ _] := mE; rewrite tot (scoresE ho pl) //; last by rewrite /nrows /= size_map (samples_pos hn s0 b2 n2).
congr Ok; rewrite /BlockProps.the_scores flatten_samples // /mk2 /mk /nrows /= size_map /table.
apply: (@eq_from_nth _ [::]); first by rewrite size_mkseq size_map.
move=> i; rewrite size_mkseq => iE; rewrite nth_mkseq // (nth_map x0) //.
apply: (@eq_from_nth _ 0); first by rewrite size_mkseq size_map.
move=> j; rewrite size_mkseq => jE; rewrite nth_mkseq // (nth_map y0) // /target /= (nth_map y0) //.
have := dot_fl (@siv _ _ _ g M) sh (nth x0 (samples L) i) (nth y0 (samples Le) j); rewrite /fl => ->.
rewrite /score /bilinear; apply: eq_bigr => l _; exact: dot_mulrow.
Qed.
End Disk.

(* ---- a concrete run: one layer of width 1, one batch of two samples, one worker, Identity *)
Section Run.
Import DiskModel DiskSpec.
Notation fR := [fieldType of rat].
Let g (l x : nat) : seq rat := [:: x%:R].
Let L := Loader [:: 3; 5]%N 2 false.
Let Le := Loader [:: 7]%N 1 false.
Let b0 : seq (gr rat) := [:: G2 (T2 1 [:: [:: 3%:R]; [:: 5%:R]])].
Let one k : seq (label rat) :=
  [:: LStart _ 0 1; LStore k 0 b0; LFlushAll _; LTake _ 0; LWork _ 0; LWork _ 0; LWork _ 0; LWork _ 0; LWork _ 0; LFinish _].
Let lss1 := [:: one false]. Let lss2 := [:: one false; one true].
Notation proc := (processes (0 : fR) 2 4 id [::]).
Let logs (lss : seq (seq (label rat))) acc := if proc lss is Some (_, l) then accepted_stores l = acc else False.
Let a1 : logs lss1 [:: (false, 0%N, b0)]. Proof. vm_compute; reflexivity. Qed.
Let a2 : logs lss2 [:: (false, 0%N, b0); (true, 0%N, b0)]. Proof. vm_compute; reflexivity. Qed.
Let bw : good [:: 1%N] b0 && (brows b0 == 2%N). Proof. vm_compute; reflexivity. Qed.
Let lg1 : DiskSpec.legal 2 4 [:: 1%N] (stores (flatten lss1)).
Proof.
have -> : stores (flatten lss1) = [:: (false, 0%N, b0)] by reflexivity.
case/andP: bw; clear a1 a2 bw; move: (b0) => bb w1 /eqP w2; split=> [||[] c] //=; first by rewrite w1.
by rewrite /chunk_samples /=; case: ifP => //= _; rewrite w2.
Qed.
Let lg2 : DiskSpec.legal 2 4 [:: 1%N] (stores (flatten lss2)).
Proof.
have -> : stores (flatten lss2) = [:: (false, 0%N, b0); (true, 0%N, b0)] by reflexivity.
case/andP: bw; clear a1 a2 bw lg1; move: (b0) => bb w1 /eqP w2; split=> [||[] c] //=; first by rewrite w1.
- by rewrite /chunk_samples /=; case: ifP => //= _; rewrite w2.
- by rewrite /chunk_samples /=; case: ifP => //= _; rewrite w2.
Qed.
Let gc : grad_calls [:: 1%N] (g : nat -> nat -> seq fR) (batches L) = [:: (0%N, b0)]. Proof. reflexivity. Qed.
Let s1 : all (session 2) lss1. Proof. vm_compute; reflexivity. Qed.
Let s2 : all (session 2) lss2. Proof. vm_compute; reflexivity. Qed.
Let use d1 l1 d2 l2 : proc lss1 = Some (d1, l1) -> proc lss2 = Some (d2, l2) ->
  accepted_stores l1 = [:: (false, 0%N, b0)] -> accepted_stores l2 = [:: (false, 0%N, b0); (true, 0%N, b0)] ->
  let mp := mapping (initialize (of_loader L) (fresh [:: 0%N]) (Dir None None)).1.1 in
  (ifvp_from false None [:: 1%N] mp.2 (disk_loader id (fun _ _ => true) false (d1 : disk fR) None)).1 = [:: (0%N, b0)] ->
  scores mp.2 (m_total mp.1) (T2 1 [:: [:: 7%:R]]) (disk_loader id (fun _ _ => true) true d2 None 2) =
  Ok (BlockProps.the_scores false None [:: 1%N] g g L Le).
Proof.
move=> e1 e2 q1 q2 mp q3.
have sz l x : (l < 1)%N -> size (g l x) = nth 0%N [:: 1%N] l by clear; case: l.
have lp (l : seq fkey) : perm_eq (id l) l by exact: perm_refl.
have inv : BlockProps.invertible false None [:: 1%N] (g : nat -> nat -> seq fR) L by move=> h; discriminate h.
have st1 : stored l1 false (grad_calls [:: 1%N] (g : nat -> nat -> seq fR) (batches L)).
  by rewrite gc /stored q1; clear; move: (b0) => bb; split=> //= x [<-|//] _; left.
have [_ _] := @C41_disk fR nat nat nat [:: 0%N] false None [:: 1%N] g g erefl isT sz sz
  2 4 id (fun _ _ => true) lp isT (Dir None None) L Le lss1 lss2 d1 d2 l1 l2 isT isT isT isT inv s1 lg1 e1 st1 s2 lg2 e2.
rewrite -/mp q3 /stored q2; clear; move: (b0) => bb H; apply: H; split=> //= x [<-|[<-|//]] //= _; by left.
Qed.
Let a3 : let mp := mapping (initialize (of_loader L) (fresh [:: 0%N]) (Dir None None)).1.1 in
  if proc lss1 is Some (d1, _) then
    (ifvp_from false None [:: 1%N] mp.2 (disk_loader id (fun _ _ => true) false (d1 : disk fR) None)).1 = [:: (0%N, b0)]
  else False.
Proof. vm_compute; reflexivity. Qed.
Example C41_disk_example : let mp := mapping (initialize (of_loader L) (fresh [:: 0%N]) (Dir None None)).1.1 in
  if proc lss2 is Some (d2, _) then
    scores mp.2 (m_total mp.1) (T2 1 [:: [:: 7%:R]]) (disk_loader id (fun _ _ => true) true d2 None 2) =
    Ok (BlockProps.the_scores false None [:: 1%N] g g L Le) else False.
Proof.
have := a1; have := a2; have := a3; rewrite /logs; case e1: (proc lss1) => [dl|] q3; last by case: q3.
case e2: (proc lss2) => [dl'|] q2; last by case: q2.
by clear a1 a2 a3; move: q2 q3; case: dl e1 => d1 l1 e1; case: dl' e2 => d2 l2 e2 q2 q3 q1; exact: (use e1 e2 q1 q2 q3).
Qed.
End Run.
Print Assumptions C41_disk.
