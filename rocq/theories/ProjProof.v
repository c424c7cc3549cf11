(* Lemmas about the projection models. *)
Set Warnings "-notation-overridden,-ambiguous-paths".
From mathcomp Require Import all_ssreflect all_algebra zify.
From Coq Require ZArith.
From Verif Require Import Py Tensor TensorProof Seeds SeedSpec SeedProof ProjModel ProjSpec.
Set Implicit Arguments. Unset Strict Implicit. Unset Printing Implicit Defensive.
Import GRing.Theory.
Local Open Scope ring_scope.

(* ---------------------------------------------------------------- chunking *)
Section Chunking.
Local Open Scope nat_scope.
Variable mx : nat.

Lemma split_while_ok fuel cur acc : 0 < mx -> cur <= fuel ->
  split_while mx fuel cur acc = Some (acc ++ nseq (cur %/ mx) mx, cur %% mx).
Proof.
move=> m0; elim: fuel cur acc => [|fuel IH] cur acc /= h.
  have -> : cur = 0 by lia.
  by rewrite leqNgt m0 /= div0n mod0n cats0.
case: (leqP mx cur) => hc; last by rewrite divn_small // modn_small // cats0.
rewrite IH; last by lia.
have e : cur = 1 * mx + (cur - mx) by lia.
have -> : cur %/ mx = ((cur - mx) %/ mx).+1 by rewrite {1}e divnMDl.
have -> : cur %% mx = (cur - mx) %% mx by rewrite {1}e modnMDl.
by rewrite -cats1 -catA.
Qed.

Lemma split_while0 fuel cur acc : mx = 0 -> split_while mx fuel cur acc = None.
Proof. by move=> m0; elim: fuel cur acc => [|f IH] cur acc /=; rewrite m0 //= -m0 IH. Qed.

Lemma chunk_step_ok fuel acc s ps : 0 < mx -> ps <= fuel ->
  chunk_step mx fuel (acc, s) ps =
  Some (if mx <= s + ps then (if 0 < s then rcons acc s else acc) ++ nseq (ps %/ mx) mx else acc,
        if mx <= s + ps then ps %% mx else s + ps).
Proof.
move=> m0 h; rewrite /chunk_step /=; case: (leqP mx (s + ps)) => hc.
  by rewrite split_while_ok.
rewrite split_while_ok // divn_small; last by lia.
by rewrite modn_small ?cats0 //; lia.
Qed.

Definition good (acc : seq nat) := all (fun d => 0 < d <= mx) acc.

Lemma chunk_loop_ok fuel l acc s : 0 < mx -> all (fun p => p <= fuel) l -> s < mx -> good acc ->
  exists acc' s', [/\ chunk_loop mx fuel (acc, s) l = Some (acc ++ acc', s'), good (acc ++ acc'), s' < mx
                   & sumn acc' + s' = s + sumn l].
Proof.
move=> m0; elim: l acc s => [|p l IH] acc s /= hf hs ha.
  by exists [::], s; rewrite cats0 /= add0n addn0.
case/andP: hf => hp hl; rewrite chunk_step_ok //.
set a1 := (if _ then (if 0 < s then _ else _) ++ _ else _).
set s1 := (if _ then _ %% _ else _).
have [b ea] : exists b, a1 = acc ++ b /\ sumn b + s1 = s + p /\ good a1.
  rewrite /a1 /s1; case: (leqP mx (s + p)) => hc; last by exists [::]; rewrite cats0.
  exists ((if 0 < s then [:: s] else [::]) ++ nseq (p %/ mx) mx); split.
    by case: ifP; rewrite catA // cats1.
  split; first by rewrite sumn_cat sumn_nseq mulnC; case: ifP => h /=; have := divn_eq p mx; lia.
  by rewrite /good all_cat all_nseq m0 leqnn orbT andbT; case: ifP => h //; rewrite all_rcons h /= ltnW.
case: ea => [ea [eb eg]].
have s1m : s1 < mx by rewrite /s1; case: (leqP mx (s + p)) => // _; rewrite ltn_mod.
have [a' [s' [e1 e2 e3 e4]]] := IH a1 s1 hl s1m eg.
exists (b ++ a'), s'; rewrite catA -ea; split=> //.
by rewrite sumn_cat; lia.
Qed.

Lemma chunk_sizes_ok fuel l : 0 < mx -> all (fun p => p <= fuel) l ->
  exists r, [/\ chunk_sizes mx fuel l = Some r, sumn r = sumn l
             & r = [:: 0] \/ good r].
Proof.
move=> m0 hf; have [a [s [e1 e2 e3 e4]]] := chunk_loop_ok (acc := [::]) m0 hf m0 isT.
rewrite /chunk_sizes e1 /=; rewrite !cat0s in e1 e2 *.
case: (posnP s) => [s0|s0].
  exists (if a is [::] then [:: 0] else a); split=> //; last by case: (a) e2 => [|? ?] ; [left|right].
  by rewrite -[RHS]add0n -e4 s0 addn0; case: (a).
exists (rcons a s); split.
- by case: (a).
- by rewrite -cats1 sumn_cat /= addn0 e4.
- by right; rewrite /good all_rcons s0 /= ltnW.
Qed.

Lemma sizes_le_sum l : all (fun p => p <= sumn l) l.
Proof.
elim: l => //= p l IH; rewrite leq_addr /=; apply: sub_all IH => x; lia.
Qed.

(* the fuel does not matter *)
Lemma split_while_mono f f' cur acc q : f <= f' ->
  split_while mx f cur acc = Some q -> split_while mx f' cur acc = Some q.
Proof. by elim: f f' cur acc => [|f IH] [|f'] cur acc //=; case: ifP => // _ hf; apply: IH. Qed.

Lemma chunk_loop_mono f f' l st r : f <= f' -> chunk_loop mx f st l = Some r -> chunk_loop mx f' st l = Some r.
Proof.
move=> hf; elim: l st => [|a l IH] st //=; rewrite /chunk_step.
by case es: split_while => [[a1 c1]|] //; rewrite (split_while_mono hf es); apply: IH.
Qed.

Lemma chunk_fuel f f' l r : 0 < mx -> all (fun p => p <= f') l ->
  chunk_sizes mx f l = Some r -> chunk_sizes mx f' l = Some r.
Proof.
move=> m0 hl; have [r' [e1 _ _]] := chunk_sizes_ok m0 hl; rewrite e1 => e.
move: e e1; rewrite /chunk_sizes.
case el: (chunk_loop mx f) => [[a s]|] // e; case el': (chunk_loop mx f') => [[a' s']|] // e'.
have := chunk_loop_mono (leq_maxl f f') el; rewrite (chunk_loop_mono (leq_maxr f f') el') => -[ea es].
by rewrite -e -e' ea es.
Qed.

(* grouping: when no parameter reaches the limit, chunks are groups of whole parameters *)
Lemma chunk_loop_groups fuel l acc s g gs : 0 < mx -> all (fun p => p <= fuel) l -> all (fun p => p < mx) l ->
  s < mx -> sumn g = s -> map sumn gs = acc ->
  exists gs' g' s', [/\ chunk_loop mx fuel (acc, s) l = Some (map sumn gs', s'), sumn g' = s'
     , flatten gs' ++ g' = flatten gs ++ g ++ l & (s' = 0 -> gs' = gs /\ s = 0)].
Proof.
move=> m0; elim: l acc s g gs => [|p l IH] acc s g gs /= hf hm hs eg ea.
  by exists gs, g, s; rewrite ea cats0.
case/andP: hf => hp hl; case/andP: hm => pm hm; rewrite chunk_step_ok //.
rewrite (divn_small pm) (modn_small pm) /= cats0.
case: (leqP mx (s + p)) => hc.
  have s0 : 0 < s by lia.
  have [|gs' [g' [s' [e1 e2 e3 e4]]]] := IH (rcons acc s) p [:: p] (rcons gs g) hl hm pm (addn0 _).
    by rewrite map_rcons ea eg.
  exists gs', g', s'; rewrite s0; split=> //; last by move=> /e4 [_ ?]; lia.
  by rewrite e3 -cats1 flatten_cat /= cats0 -!catA.
have [||gs' [g' [s' [e1 e2 e3 e4]]]] := IH acc (s + p) (rcons g p) gs hl hm hc.
- by rewrite -cats1 sumn_cat /= addn0 eg.
- exact: ea.
exists gs', g', s'; split=> //; first by rewrite e3 -cats1 -!catA.
by move=> /e4 [? ?]; split=> //; lia.
Qed.

Lemma chunk_sizes_groups fuel l : 0 < mx -> all (fun p => p <= fuel) l -> all (fun p => p < mx) l ->
  exists gs, chunk_sizes mx fuel l = Some (map sumn gs) /\ flatten gs = l.
Proof.
move=> m0 hf hm.
have [gs [g [s [e1 e2 e3 e4]]]] := chunk_loop_groups (acc := [::]) (g := [::]) (gs := [::]) m0 hf hm m0 erefl erefl.
rewrite /chunk_sizes e1; case: (posnP s) => [s0|s0].
  have [eg _] := e4 s0; exists [:: l]; rewrite eg /= cats0; split=> //.
  by move: e3; rewrite eg /= => <-; rewrite e2 s0.
exists (rcons gs g); split; first by rewrite map_rcons e2; case: (gs).
by rewrite -[RHS]e3 -cats1 flatten_cat /= cats0.
Qed.

(* -------------------- greedy packing with "flush when strictly exceeding" *)
Fixpoint pack (c : nat) (l : seq nat) : seq nat :=
  if l is p :: l' then if mx < c + p then c :: pack p l' else pack (c + p) l' else [:: c].

(* the chunker's state when the packer holds c *)
Definition cstate (acc : seq nat) (c : nat) : seq nat * nat :=
  if c == mx then (rcons acc mx, 0) else (acc, c).

Definition cfinal (st : seq nat * nat) : seq nat :=
  let a := if 0 < st.2 then rcons st.1 st.2 else st.1 in if a is [::] then [:: 0] else a.

Lemma chunk_sizesE fuel l : chunk_sizes mx fuel l = omap cfinal (chunk_loop mx fuel ([::], 0) l).
Proof. by rewrite /chunk_sizes; case: chunk_loop => [[a s]|]. Qed.

(* one step of the chunker on a parameter that keeps the packing clean *)
Lemma cstep_clean fuel acc c p : 0 < mx -> p <= fuel -> c <= mx -> p <= mx -> (c = 0 -> acc = [::]) ->
  (mx < c + p) || ((c + p == mx) ==> ((c == 0) || (p == 0))) ->
  chunk_step mx fuel (cstate acc c) p =
  Some (if mx < c + p then cstate (rcons acc c) p else cstate acc (c + p)).
Proof.
move=> m0 hf hc hp ha hcl; rewrite /cstate.
have dv : p %/ mx = (p == mx).
  case: eqP => [->|ne]; first by rewrite divnn m0.
  by rewrite divn_small //; lia.
have md : p %% mx = if p == mx then 0 else p.
  case: eqP => [->|ne]; first by rewrite modnn.
  by rewrite modn_small //; lia.
case: (c =P mx) => [ec|nc]; rewrite chunk_step_ok // dv md.
  rewrite add0n ltnn /=; case: (p =P mx) => [ep|np].
    rewrite ep leqnn /= ec; have -> : mx < mx + mx by lia.
    by rewrite cats1.
  have -> : (mx <= p) = false by lia.
  case: (posnP p) => p0.
    have -> : (mx < c + p) = false by lia.
    by have -> : c + p == mx; rewrite p0 ?addn0 ?ec.
  have -> : mx < c + p by lia.
  by rewrite ec.
case: (leqP mx (c + p)) => h.
  case: (ltnP mx (c + p)) => h2.
    have c0 : 0 < c by lia.
    rewrite c0; case: (p =P mx) => [ep|np] /=; first by rewrite cats1.
    by rewrite cats0.
  have e : c + p = mx by lia.
  move: hcl; rewrite ltnNge h2 /= e eqxx /= => /orP [] /eqP z; last by lia.
  have -> : p == mx by apply/eqP; lia.
  by rewrite z /= cats1.
have -> : (mx < c + p) = false by lia.
by case: eqP => //; lia.
Qed.

Lemma chunk_loop_pack fuel l acc c : 0 < mx -> all (fun p => p <= fuel) l -> c <= mx ->
  (c = 0 -> acc = [::]) -> clean mx c l ->
  omap cfinal (chunk_loop mx fuel (cstate acc c) l) = Some (acc ++ pack c l).
Proof.
move=> m0; elim: l acc c => [|p l IH] acc c /= hf hc ha.
  move=> _; rewrite /cstate /cfinal; case: eqP => [->|nc] /=; first by rewrite cats1; case: (acc).
  case: posnP => [c0|c0]; first by rewrite (ha c0) c0.
  by rewrite cats1; case: (acc).
case/andP: hf => fp fl /andP [pm hcl].
have -> : chunk_step mx fuel (cstate acc c) p =
  Some (if mx < c + p then cstate (rcons acc c) p else cstate acc (c + p)).
  by apply: cstep_clean => //; case: ltnP hcl => // _ /andP [->]; rewrite orbT.
case: (ltnP mx (c + p)) hcl => h hcl.
  by rewrite IH ?cat_rcons //; lia.
case/andP: hcl => _ hcl.
by rewrite IH // => z; apply: ha; lia.
Qed.

Lemma chunk_sizes_pack fuel l : 0 < mx -> all (fun p => p <= fuel) l -> clean mx 0 l ->
  chunk_sizes mx fuel l = Some (pack 0 l).
Proof.
move=> m0 hf hc; rewrite chunk_sizesE.
have := chunk_loop_pack (acc := [::]) m0 hf (leq0n _) (fun _ => erefl) hc.
by rewrite /cstate; case: eqP => // e; move: m0; rewrite -e.
Qed.

(* the chunks decided so far are never revised *)
Lemma chunk_loop_prefix fuel l acc s : 0 < mx -> all (fun p => p <= fuel) l ->
  exists b s', chunk_loop mx fuel (acc, s) l = Some (acc ++ b, s').
Proof.
move=> m0; elim: l acc s => [|p l IH] acc s /= hf; first by exists [::], s; rewrite cats0.
case/andP: hf => hp hl; rewrite chunk_step_ok //.
set a1 := (if _ then (if _ then _ else _) ++ _ else _); set s1 := (if _ then _ else _).
have [b [s' e]] := IH a1 s1 hl.
have [b' e'] : exists b', a1 = acc ++ b'.
  rewrite /a1; case: ifP => _; last by exists [::]; rewrite cats0.
  case: ifP => _; last by eexists.
  by exists (s :: nseq (p %/ mx) mx); rewrite cat_rcons.
by exists (b' ++ b), s'; rewrite e e' catA.
Qed.
End Chunking.

(* ---------------------------------------------------------- BasicProjector *)
Section Basic.
Variable F : fieldType.
Variable G : rng F.
Notation row := (seq F).

Lemma denseE t s r k i j : is_dense t -> dense G t s r k i j = draw G t s r k i j.
Proof.
case: t => //= _; rewrite /dense /draw; case: g_bern; rewrite /= ?mul0r ?sub0r // mul1r.
by rewrite [2%:R]mulr2n addrK.
Qed.

Lemma matmul_ok (rows cols : nat) M (X : seq row) : all (fun x => size x == rows) X ->
  matmul rows cols M X = Ok [seq mkseq (fun j => \sum_(i < rows) nth 0 x i * M i j) cols | x <- X].
Proof.
move=> h; rewrite /matmul h; congr Ok; apply/eq_in_map => x xX.
by rewrite /mkseq; apply: eq_map => j; rewrite /dot (eqP (allP h x xX)).
Qed.

Section Cfg.
Variable c : bcfg.
Hypothesis bs0 : (0 < b_bs c)%N.

Lemma nb_lt k : (k < b_nb c)%N = (k * b_bs c < b_pd c)%N.
Proof. rewrite /b_nb leq_divRL // mulSn; apply/idP/idP; lia. Qed.
Lemma nb_ge : (b_pd c <= b_nb c * b_bs c)%N.
Proof. by rewrite leqNgt -nb_lt ltnn. Qed.
Lemma nb1 : b_nb c = 1%N -> b_bs c = b_pd c.
Proof.
move=> e; have := nb_ge; rewrite e mul1n => h; apply/eqP; rewrite eqn_leq h andbT.
exact: geq_minl.
Qed.
Lemma nb0 : (0 < b_pd c)%N -> (0 < b_nb c)%N.
Proof. by move=> h; rewrite nb_lt mul0n. Qed.
Lemma pd0 : (0 < b_pd c)%N.
Proof. by apply: leq_trans bs0 _; apply: geq_minl. Qed.

Lemma nth_seeds e i : (i < b_nb c)%N -> nth no_ens (b_seeds c e) i = spec_seed (b_seed c) e i.
Proof. by move=> h; rewrite /b_seeds (nth_map 0%N) ?size_iota // nth_iota // block_seedE. Qed.

Definition bentry e := basic_entry G (b_fd c) (b_bs c) (b_seed c) e (b_type c).

(* the block loop *)
Definition partial_row e k (x : row) : row :=
  mkseq (fun j => if (j < minn (k * b_bs c) (b_pd c))%N
                  then \sum_(i < b_fd c) nth 0 x i * bentry e i j else 0) (b_pd c).

Lemma set_block e k (x : row) : (k < b_nb c)%N ->
  set_slice (k * b_bs c) (minn (k.+1 * b_bs c) (b_pd c)) (partial_row e k x)
    (mkseq (fun j => \sum_(i < b_fd c) nth 0 x i * draw G (b_type c) (spec_seed (b_seed c) e k) (b_fd c) (b_bs c) i j)
       (minn (k.+1 * b_bs c) (b_pd c) - k * b_bs c)) =
  partial_row e k.+1 x.
Proof.
move=> hk; have hk' := hk; rewrite nb_lt in hk'.
set st := (k * _)%N; set ed := minn (k.+1 * _) _.
have hse : (st <= ed)%N by rewrite /ed leq_min (ltnW hk') andbT mulSn leq_addl.
have hed : (ed <= b_pd c)%N by exact: geq_minr.
rewrite /set_slice; apply: (@eq_from_nth _ 0).
  rewrite !size_cat size_take size_drop !size_mkseq hk'; lia.
rewrite !size_cat size_take size_drop !size_mkseq hk' => j hj.
have jp : (j < b_pd c)%N by lia.
rewrite [RHS]nth_mkseq // nth_cat size_take size_mkseq hk'.
case: (ltnP j st) => js.
  rewrite nth_take // nth_mkseq // ifT; last by rewrite leq_min js /=; lia.
  by rewrite ifT // leq_min /st; lia.
rewrite nth_cat size_mkseq; case: (ltnP (j - st) (ed - st)) => je.
  rewrite nth_mkseq // ifT; last by lia.
  apply: eq_bigr => i _; congr (_ * _); rewrite /bentry /basic_entry.
  have jb : (j < k.+1 * b_bs c)%N by move: je; rewrite /ed; lia.
  have -> : (j %/ b_bs c)%N = k.
    have -> : j = (k * b_bs c + (j - st))%N by rewrite /st in js *; lia.
    rewrite divnMDl // divn_small ?addn0 //; rewrite /st in js *; lia.
  have -> : (j %% b_bs c)%N = (j - st)%N; last by [].
  have {1}-> : j = (k * b_bs c + (j - st))%N by rewrite /st in js *; lia.
  rewrite modnMDl modn_small //; rewrite /st in js *; lia.
rewrite nth_drop nth_mkseq; last by lia.
rewrite ifF; last by apply/negbTE; rewrite -leqNgt geq_min; apply/orP; left; rewrite /st in js *; lia.
by rewrite ifF //; apply/negbTE; rewrite -leqNgt -/ed; lia.
Qed.

Lemma zip_map_same (A B C : Type) (f : A -> B) (g : A -> C) (l : seq A) :
  zip (map f l) (map g l) = map (fun x => (f x, g x)) l.
Proof. by elim: l => //= a l ->. Qed.

Hypothesis ty : is_dense (b_type c).

Lemma gen_denseE s sd : b_gen_dense G c s sd =
  Ok (BProj (bp_ens s) (bp_seeds s) (Some (dense G (b_type c) sd (b_fd c) (b_bs c))) (bp_mask s)).
Proof. by rewrite /b_gen_dense; case: b_type ty. Qed.

Lemma loop_ok s e (X : seq row) k : bp_seeds s = b_seeds c e -> (k <= b_nb c)%N ->
  all (fun x => size x == b_fd c) X ->
  (foldl (b_block G c X) (s, Ok (zeros2 F (size X) (b_pd c))) (iota 0 k)).2 =
  Ok [seq partial_row e k x | x <- X]
  /\ bp_seeds (foldl (b_block G c X) (s, Ok (zeros2 F (size X) (b_pd c))) (iota 0 k)).1 = b_seeds c e.
Proof.
move=> es hk hX; elim: k hk => [|k IH] hk.
  split=> //=; congr Ok; rewrite /zeros2.
  have -> : nseq (size X) (nseq (b_pd c) (0 : F)) = [seq nseq (b_pd c) 0 | _ <- X].
    by elim: (X) => //= _ l ->.
  apply: eq_map => x; rewrite /partial_row mul0n min0n.
  apply: (@eq_from_nth _ 0); rewrite ?size_nseq ?size_mkseq // => i hi.
  by rewrite nth_nseq hi nth_mkseq.
have [e1 e2] := IH (ltnW hk).
rewrite iotaSr foldl_rcons; set r := foldl _ _ _ in e1 e2 *.
rewrite /b_block e1 gen_denseE /= e2; split=> //.
rewrite matmul_ok //= /set_cols zip_map_same -map_comp; congr Ok; apply: eq_map => x /=.
rewrite -(@set_block e k x) // nth_seeds //; congr set_slice.
rewrite /mkseq; apply: eq_map => j; apply: eq_bigr => i _; by rewrite denseE.
Qed.

Lemma loop_state s (X : seq row) r l :
  let q := (foldl (b_block G c X) (s, r) l).1 in
  [/\ bp_ens q = bp_ens s, bp_seeds q = bp_seeds s & bp_mask q = bp_mask s].
Proof.
elim: l s r => [|k l IH] s r //=.
case eb: (b_block G c X (s, r) k) => [s1 r1].
have [q1 q2 q3] := IH s1 r1; rewrite q1 q2 q3; move: eb; rewrite /b_block /=.
by case: r => [A|x] /=; rewrite ?gen_denseE /= => -[<-].
Qed.
End Cfg.

(* reachable states: what the attributes hold, given the current ensemble and
   whether memory was freed since that ensemble became current *)
Definition brep (c : bcfg) (s : bproj F) (cur : Z) (fr : bool) : Prop :=
  [/\ bp_ens s = cur, bp_seeds s = b_seeds c cur,
      (b_type c = PMask -> bp_mask s = mask G (spec_seed (b_seed c) cur 0) (b_fd c) (b_pd c))
    & (is_dense (b_type c) -> b_nb c = 1%N ->
         bp_mat s = if fr then None
                    else Some (dense G (b_type c) (spec_seed (b_seed c) cur 0) (b_fd c) (b_bs c)))].

Lemma b_init_ok c ens s : b_init G c ens = Ok s ->
  [/\ (0 < b_bs c)%N, brep c s ens false & (is_dense (b_type c) || (if b_type c is (PMask | PIdentity) then true else false))].
Proof.
rewrite /b_init; case: eqP => [//|/eqP]; rewrite -lt0n => h.
have n0 := nb0 h (pd0 h).
rewrite /b_gen_dense; case et: (b_type c) => //= -[<-]; split=> //; split=> //= ; rewrite ?et // ?nth_seeds //.
Qed.

Lemma b_free_ok c s cur fr : brep c s cur fr -> brep c (b_free s) cur true.
Proof. by case=> [h1 h2 h3 h4]; split. Qed.

(* the documented result *)
Definition bresult (c : bcfg) (e : Z) (X : seq row) : seq row :=
  match b_type c with
  | PMask => [seq [seq nth 0 x i | i <- mask G (spec_seed (b_seed c) e 0) (b_fd c) (b_pd c)] | x <- X]
  | PIdentity => X
  | _ => [seq apply_matrix G (b_fd c) (b_pd c) (bentry c e) x | x <- X]
  end.

Lemma b_switch_ok c s cur fr e : (0 < b_bs c)%N -> brep c s cur fr ->
  is_dense (b_type c) || (if b_type c is (PMask | PIdentity) then true else false) ->
  exists s1, b_switch G c s e = Ok s1 /\ brep c s1 e (if zeqb e cur then fr else false).
Proof.
move=> h [h1 h2 h3 h4] ty; rewrite /b_switch h1.
have n0 := nb0 h (pd0 h).
case: zeqbP => [->|ne]; first by exists s.
case et: (b_type c) ty => //= _.
- by eexists; split; first by []; split; rewrite /= ?et.
- case: eqP => n1; eexists; split; try by [rewrite /b_gen_dense et; reflexivity|reflexivity].
    by split; rewrite /= ?et // nth_seeds.
  by split; rewrite /= ?et.
- case: eqP => n1; eexists; split; try by [rewrite /b_gen_dense et; reflexivity|reflexivity].
    by split; rewrite /= ?et // nth_seeds.
  by split; rewrite /= ?et.
- by eexists; split; first by []; split; rewrite /= ?et // nth_seeds.
Qed.

Lemma b_project_state c s cur fr X e : (0 < b_bs c)%N -> brep c s cur fr ->
  is_dense (b_type c) || (if b_type c is (PMask | PIdentity) then true else false) ->
  brep c (b_project G c s X e).1 e (if zeqb e cur then fr else false).
Proof.
move=> h hr ty; have [s1 [e1 r1]] := b_switch_ok e h hr ty; rewrite /b_project e1.
have gd (d : is_dense (b_type c)) : brep c
   (if b_nb c == 1%N then (s1, if bp_mat s1 is Some M then matmul (b_fd c) (b_bs c) M X else Err AttributeError)
    else foldl (b_block G c X) (s1, Ok (zeros2 F (size X) (b_pd c))) (iota 0 (b_nb c))).1 e
   (if zeqb e cur then fr else false).
  case: eqP => [n1 //|n1].
  have [q1 q2 q3] := loop_state d s1 X (Ok (zeros2 F (size X) (b_pd c))) (iota 0 (b_nb c)).
  by case: r1 => [a1 a2 a3 a4]; split; rewrite ?q1 ?q2 ?q3.
by case et: (b_type c) ty gd => [|||||] //= _ gd; apply: gd.
Qed.

Lemma sorted_mask s n k : sorted leq (mask G s n k).
Proof. by apply: sort_sorted; exact: leq_total. Qed.

Lemma mask_lt s n k : perm_eq (g_perm G s n) (iota 0 n) -> {in mask G s n k, forall i, (i < n)%N}.
Proof.
move=> hp i; rewrite mem_sort => /mem_take; rewrite (perm_mem hp) mem_iota; lia.
Qed.

Lemma mask_kept s n k : perm_eq (g_perm G s n) (iota 0 n) -> kept (mask G s n k) n k.
Proof.
move=> hp; split; last exact: mask_lt.
- rewrite ltn_sorted_uniq_leq sorted_mask andbT sort_uniq take_uniq // (perm_uniq hp); exact: iota_uniq.
- rewrite size_sort size_take (perm_size hp) size_iota /minn; by case: ltnP.
Qed.

Lemma select_ok idx (X : seq row) n : all (fun x => size x == n) X -> {in idx, forall i, (i < n)%N} ->
  select idx X = Ok [seq [seq nth 0 x i | i <- idx] | x <- X].
Proof.
move=> hX hi; rewrite /select ifT //; apply/allP => x xX; apply/allP => i ii.
by rewrite (eqP (allP hX x xX)) hi.
Qed.

Lemma b_project_ok c s cur fr X e : (0 < b_bs c)%N -> brep c s cur fr ->
  is_dense (b_type c) || (if b_type c is (PMask | PIdentity) then true else false) ->
  (forall sd n, perm_eq (g_perm G sd n) (iota 0 n)) ->
  all (fun x => size x == b_fd c) X ->
  (b_project G c s X e).2 =
  if [&& is_dense (b_type c), b_nb c == 1%N, fr & zeqb e cur] then Err AttributeError
  else Ok (bresult c e X).
Proof.
move=> h hr ty hp hX; have [s1 [e1 [r1 r2 r3 r4]]] := b_switch_ok e h hr ty; rewrite /b_project e1.
have gd (d : is_dense (b_type c)) : (
   (if b_nb c == 1%N then (s1, if bp_mat s1 is Some M then matmul (b_fd c) (b_bs c) M X else Err AttributeError)
    else foldl (b_block G c X) (s1, Ok (zeros2 F (size X) (b_pd c))) (iota 0 (b_nb c)))).2 =
   if [&& b_nb c == 1%N, fr & zeqb e cur] then Err AttributeError
   else Ok [seq partial_row c e (b_nb c) x | x <- X].
  case: eqP => [n1|n1] /=; last by have [-> _] := loop_ok h d r2 (leqnn _) hX.
  rewrite r4 //; have -> : fr && zeqb e cur = (if zeqb e cur then fr else false) by case: zeqb; rewrite ?andbT ?andbF.
  case: ifP => // _; rewrite matmul_ok //; congr Ok; apply: eq_map => x.
  rewrite /partial_row n1 mul1n -(nb1 h n1) minnn (nb1 h n1).
  rewrite /mkseq; apply/eq_in_map => j; rewrite mem_iota add0n => /= hj.
  rewrite ifT //; apply: eq_bigr => i _; rewrite denseE // /bentry /basic_entry.
  by rewrite divn_small ?modn_small // (nb1 h n1).
have pr x : [seq v / g_root G (b_pd c) | v <- partial_row c e (b_nb c) x] =
   apply_matrix G (b_fd c) (b_pd c) (bentry c e) x.
  rewrite /partial_row /apply_matrix /mkseq -map_comp; apply/eq_in_map => j.
  rewrite mem_iota add0n => /= hj; rewrite ifT //.
  by rewrite leq_min hj andbT; apply: leq_trans hj (nb_ge h).
rewrite /bresult; case et: (b_type c) ty gd r3 => [|||||] //= _ gd r3.
- by rewrite gd ?et //; case: ifP => //= _; congr Ok; rewrite -map_comp; apply: eq_map => x /=; rewrite pr.
- by rewrite gd ?et //; case: ifP => //= _; congr Ok; rewrite -map_comp; apply: eq_map => x /=; rewrite pr.
- by rewrite r3 // (select_ok hX) //; apply: mask_lt.
Qed.

(* histories *)
Definition b_do (c : bcfg) (s : bproj F) (o : bop F) : bproj F :=
  if o is BProject X e then (b_project G c s X e).1 else b_free s.
Definition b_run c s ops := foldl (b_do c) s ops.

Lemma b_run_ok c s cur fr ops : (0 < b_bs c)%N -> brep c s cur fr ->
  is_dense (b_type c) || (if b_type c is (PMask | PIdentity) then true else false) ->
  brep c (b_run c s ops) (freed_state cur fr ops).1 (freed_state cur fr ops).2.
Proof.
move=> h + ty; elim: ops s cur fr => [|o ops IH] s cur fr hr //=.
case: o => [X e|] /=; last by apply: IH; apply: b_free_ok hr.
have := b_project_state X e h hr ty.
by case: zeqbP => [->|ne] hq; apply: IH.
Qed.
End Basic.
