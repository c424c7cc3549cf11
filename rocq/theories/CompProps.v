(* C44: the compressed gradient of a Linear layer. *)
Set Warnings "-notation-overridden,-ambiguous-paths".
From mathcomp Require Import all_ssreflect all_algebra zify.
From Coq Require ZArith.
From Verif Require Import Py Tensor TensorProof Seeds SeedSpec SeedProof ProjModel ProjSpec ProjProof CompModel CompSpec CompProof CompProof2.
Set Implicit Arguments. Unset Strict Implicit. Unset Printing Implicit Defensive.
Import GRing.Theory.
Local Open Scope ring_scope.

Section Props.
Variable F : fieldType.
Variable G : rng F.
Variable Name : eqType.
Notation row := (seq F).
(* what torch.randperm promises *)
Definition perm_ok := forall sd n, perm_eq (g_perm G sd n) (iota 0 n).

(* the gradient of the specification exists and is unique: C44_compress speaks about exactly one matrix *)
Theorem C44_gradient l m (gs xs : seq row) : all (fun x => size x == l_in l) xs ->
  let x1 s i := if (i < l_in l)%N then nth 0 (nth [::] xs s) i else 1 in
  let Gr o i := m%:R * \sum_(s < size xs) nth 0 (nth [::] gs s) o * x1 s i in
  param_grad l m gs xs Gr /\
  forall Gr', param_grad l m gs xs Gr' -> forall o i, (o < l_out l)%N -> (i < l_in l + l_bias l)%N -> Gr' o i = Gr o i.
Proof.
move=> hw x1 Gr; have h : param_grad l m gs xs Gr.
  move=> D; rewrite mulr_sumr.
  transitivity (\sum_(o < l_out l) \sum_(i < l_in l + l_bias l) \sum_(s < size xs) m%:R * (nth 0 (nth [::] gs s) o * (x1 s i * D o i))).
    apply: eq_bigr => o _; apply: eq_bigr => i _; rewrite /Gr mulr_sumr mulr_suml; apply: eq_bigr => s _.
    by rewrite -!mulrA.
  rewrite exch2; apply: eq_bigr => s _; rewrite mulr_sumr; apply: eq_bigr => o _.
  rewrite -mulr_sumr; congr (_ * _); rewrite -mulr_sumr; congr (_ * _); rewrite /layer_change.
  case: (l_bias l) => /=.
    rewrite addn1 big_ord_recr /=; congr (_ + _); last by rewrite /x1 ltnn mul1r.
    by apply: eq_bigr => i _; rewrite /x1 ltn_ord mulrC.
  by rewrite addn0 addr0; apply: eq_bigr => i _; rewrite /x1 ltn_ord mulrC.
split=> // Gr' h' o i ho hi.
have := h' (fun a b => ((a == o) && (b == i))%:R); rewrite -(h (fun a b => ((a == o) && (b == i))%:R)).
have pick (H : nat -> nat -> F) : \sum_(a < l_out l) \sum_(b < l_in l + l_bias l) H a b * ((a == o :> nat) && (b == i :> nat))%:R = H o i.
  rewrite (bigD1 (Ordinal ho)) //= (bigD1 (Ordinal hi)) //= !eqxx mulr1 big1 => [|b nb]; last first.
    have -> : (b == i :> nat) = false by apply/negbTE; move: nb; apply: contra => /eqP e; apply/eqP/val_inj.
    by rewrite mulr0.
  rewrite addr0 big1 ?addr0 // => a na; rewrite big1 // => b _.
  have -> : (a == o :> nat) = false by apply/negbTE; move: na; apply: contra => /eqP e; apply/eqP/val_inj.
  by rewrite mulr0.
by rewrite !pick.
Qed.

Lemma pos_ones three m L w (x : act F) b : shaped three m L w x -> (b < m)%N -> pos (add_ones x) b = [seq rcons v 1 | v <- pos x b].
Proof. by case: x => [r|L2 r] /and4P [_ _ /eqP sr _] hb /=; rewrite (nth_map [::]) ?sr. Qed.

(* After any history, and for any batch of m samples -- [m, features] or [m, positions, features] -- row b of the
   compressed gradient is P (P1 (x) P2) applied to the exact gradient, in weight and bias, of m times the loss
   through sample b.  The matrices depend on the parameters, the seeds, the layer dimensions and the position of
   the layer in the model only. *)
Theorem C44_compress n L q1 q2 mid (nm : Name) l k hist three m L' (gout x : act F) :
  perm_ok -> setup_module G n L (Some q1) (Some q2) mid (Modu nm (MLinear l) true) = Ok (Some k) ->
  (0 < m)%N -> (0 < L')%N -> shaped three m L' (l_out l) gout -> shaped three m L' (l_in l) x ->
  let ins := (l_in l + l_bias l)%N in
  let k1 := out_dim (q_type q1) (asked q1 (l_out l)) (l_out l) in
  let k2 := out_dim (q_type q1) (asked q1 ins) ins in
  let kd := out_dim (q_type q2) (asked q2 (k1 * k2)%N) (k1 * k2)%N in
  let P1 := pmatrix G (q_type q1) (l_out l) (asked q1 (l_out l)) (layer_seed (q_seed q1) mid 0) in
  let P2 := pmatrix G (q_type q1) ins (asked q1 ins) (layer_seed (q_seed q1) mid 1) in
  let P := pmatrix G (q_type q2) (k1 * k2)%N (asked q2 (k1 * k2)%N) (layer_seed (q_seed q2) mid 1) in
  exists2 rows, (compressed_grad G (Some (life G k hist)) (l_bias l) gout x).2 = Ok rows &
    size rows = m /\
    forall b Gr, (b < m)%N -> param_grad l m (pos gout b) (pos x b) Gr ->
    nth [::] rows b = mkseq (fun j => \sum_(o < l_out l) \sum_(i < ins) Gr o i * kron k1 k2 P1 P2 P o i j) kd.
Proof.
move=> hp hs m0 L0 sg sx ins k1 k2 kd P1 P2 P.
have [ha e1 e2 e3 _] := setup_okP hp hs; have [hl [d1 d2 d3]] := life_alive hist ha.
rewrite e1 in d1; rewrite e2 in d2; rewrite e3 in d3.
set x1 := if l_bias l then add_ones x else x.
have sx1 : shaped three m L' ins x1.
  rewrite /x1 /ins; case: (l_bias l); last by rewrite addn0.
  move: sx; rewrite addn1; case: (x) => [r|L2 r] /and4P [t1 t2 t3 h] /=; rewrite t1 t2 size_map t3 /= all_map.
    by apply: sub_all h => v /eqP hv /=; rewrite size_rcons hv.
  apply: sub_all h => p /andP [hp1 hp2] /=; rewrite size_map hp1 /= all_map.
  by apply: sub_all hp2 => v /eqP hv /=; rewrite size_rcons hv.
have := forward_ok (v1 := gout) (v2 := x1) hp hl m0 L0; rewrite d1 d2 d3 => /(_ three erefl sg sx1) hf.
rewrite /compressed_grad [(_, _).2]/= -/x1 hf; eexists; first by [].
split=> [|b Gr hb hg]; first by rewrite size_mkseq.
have [sz hw] := pos_size sx hb.
rewrite nth_mkseq // /plinear /lin; apply: eq_mkseq => j.
rewrite -(compress_algebra k1 k2 P1 P2 P j sz hw hg) /=.
rewrite (sum_mul (fun t => nth 0 (inter _ _ _ _ _ _ _ _ b) t * pmx G _ t j)); apply: eq_bigr => a _; apply: eq_bigr => c _.
congr (_ * _); rewrite /inter (nth_flat_mk _ _ (ltn_ord a) (ltn_ord c)) add0n; apply: eq_bigr => s _.
rewrite /plinear /lin !nth_mkseq //; congr (_ * _); apply: eq_bigr => i _; congr (_ * _).
have -> : nth [::] (pos x1 b) s = if l_bias l then rcons (nth [::] (pos x b) s) 1 else nth [::] (pos x b) s; last by [].
rewrite /x1; case: (l_bias l) => //; rewrite (pos_ones sx hb) (nth_map [::]) ?sz //.
Qed.

(* with identity projections the row is the exact gradient, output by output, the bias last in each *)
Theorem C44_identity n L s1 s2 mid (nm : Name) l k hist three m L' (gout x : act F) :
  perm_ok -> setup_module G n L (Some (PParams None s1 PIdentity)) (Some (PParams None s2 PIdentity)) mid (Modu nm (MLinear l) true) = Ok (Some k) ->
  (0 < m)%N -> (0 < L')%N -> shaped three m L' (l_out l) gout -> shaped three m L' (l_in l) x ->
  exists2 rows, (compressed_grad G (Some (life G k hist)) (l_bias l) gout x).2 = Ok rows &
    size rows = m /\
    forall b Gr, (b < m)%N -> param_grad l m (pos gout b) (pos x b) Gr ->
    nth [::] rows b = [seq Gr o i | o <- iota 0 (l_out l), i <- iota 0 (l_in l + l_bias l)].
Proof.
move=> hp hs m0 L0 sg sx; have [rows e [sz h]] := C44_compress hist hp hs m0 L0 sg sx.
exists rows => //; split=> // b Gr hb hg; rewrite (h b Gr hb hg) /=.
set ins := (l_in l + l_bias l)%N.
apply: (@eq_from_nth _ 0) => [|t]; first by rewrite size_mkseq -[RHS]/(size (flatten [seq mkseq (Gr o) ins | o <- iota 0 (l_out l)])) size_flat_mk.
rewrite size_mkseq => ht; rewrite nth_mkseq //.
have i0 : (0 < ins)%N by case: (ins) ht => //; rewrite muln0.
have -> : t = (t %/ ins * ins + t %% ins)%N by exact: divn_eq.
set o0 := (t %/ ins)%N; set c0 := (t %% ins)%N.
have ho : (o0 < l_out l)%N by rewrite /o0 ltn_divLR.
have hc : (c0 < ins)%N by rewrite /c0 ltn_mod.
rewrite -[RHS]/(nth 0 (flatten [seq mkseq (Gr o) ins | o <- iota 0 (l_out l)]) (o0 * ins + c0)) (nth_flat_mk _ _ ho hc) add0n.
have kE (o i : nat) : (o < l_out l)%N -> (i < ins)%N ->
    kron (l_out l) ins (fun a b => (a == b)%:R) (fun a b => (a == b)%:R) (fun a b => (a == b)%:R) o i (o0 * ins + c0) =
    ((o == o0) && (i == c0))%:R :> F.
  move=> h1 h2; rewrite /kron (bigD1 (Ordinal h1)) //= (bigD1 (Ordinal h2)) //= !eqxx !mul1r.
  rewrite big1 => [|c nc]; last first.
    have -> : (i == c :> nat) = false by rewrite eq_sym; apply/negbTE; exact: nc.
    by rewrite mulr0 mul0r.
  rewrite addr0 big1 ?addr0 => [|a na].
    have -> // : (o * ins + i == o0 * ins + c0)%N = (o == o0) && (i == c0).
    apply/eqP/andP => [hh|[/eqP -> /eqP ->] //].
    have e1 : o = o0 by have := f_equal (divn^~ ins) hh; rewrite /= !divnMDl // !divn_small // !addn0.
    by split; apply/eqP => //; move: hh; rewrite e1 => /addnI.
  rewrite big1 // => c _.
  have -> : (o == a :> nat) = false by rewrite eq_sym; apply/negbTE; exact: na.
  by rewrite !mul0r.
rewrite (bigD1 (Ordinal ho)) //= (bigD1 (Ordinal hc)) //= kE // !eqxx mulr1 big1 => [|i ni]; last first.
  rewrite kE // eqxx /=; have -> : (i == c0 :> nat) = false by apply/negbTE; exact: ni.
  by rewrite mulr0.
rewrite addr0 big1 ?addr0 // => o no; rewrite big1 // => i _; rewrite kE //.
have -> : (o == o0 :> nat) = false by apply/negbTE; exact: no.
by rewrite mulr0.
Qed.

(* A mean loss: the same sample in two batches, with output gradients divided by the batch size, gives the same row
   -- whatever else is in the batches, and after any histories. *)
Theorem C44_mean_loss n L q1 q2 mid (nm : Name) l k h h' three three' m m' L' L'' (gout x gout' x' : act F) b b' :
  perm_ok -> setup_module G n L (Some q1) (Some q2) mid (Modu nm (MLinear l) true) = Ok (Some k) ->
  (0 < L')%N -> (0 < L'')%N -> (b < m)%N -> (b' < m')%N ->
  shaped three m L' (l_out l) gout -> shaped three m L' (l_in l) x ->
  shaped three' m' L'' (l_out l) gout' -> shaped three' m' L'' (l_in l) x' ->
  pos x b = pos x' b' ->
  (forall s o, m%:R * nth 0 (nth [::] (pos gout b) s) o = m'%:R * nth 0 (nth [::] (pos gout' b') s) o) ->
  exists rows rows', [/\ (compressed_grad G (Some (life G k h)) (l_bias l) gout x).2 = Ok rows,
    (compressed_grad G (Some (life G k h')) (l_bias l) gout' x').2 = Ok rows' & nth [::] rows b = nth [::] rows' b'].
Proof.
move=> hp hs L0 L0' hb hb' sg sx sg' sx' ex eg.
have [rows e [sz hr]] := C44_compress h hp hs (leq_ltn_trans (leq0n _) hb) L0 sg sx.
have [rows' e' [sz' hr']] := C44_compress h' hp hs (leq_ltn_trans (leq0n _) hb') L0' sg' sx'.
exists rows, rows'; split=> //.
have [_ hw] := pos_size sx hb.
have [g1 _] := C44_gradient m (pos gout b) hw; have hw' := hw; rewrite ex in hw'; have [g2 _] := C44_gradient m' (pos gout' b') hw'.
rewrite (hr _ _ hb g1) (hr' _ _ hb' g2); apply: eq_mkseq => j; apply: eq_bigr => o _; apply: eq_bigr => i _; congr (_ * _).
by rewrite ex !mulr_sumr; apply: eq_bigr => s _; rewrite !mulrA eg.
Qed.

(* A sum loss: the output gradients of a sample do not depend on the batch size, but its row is proportional to it:
   m' times the row from a batch of m samples is m times the row from a batch of m'. *)
Theorem C44_sum_loss_refuted n L q1 q2 mid (nm : Name) l k h h' three three' m m' L' L'' (gout x gout' x' : act F) b b' :
  perm_ok -> setup_module G n L (Some q1) (Some q2) mid (Modu nm (MLinear l) true) = Ok (Some k) ->
  (0 < L')%N -> (0 < L'')%N -> (b < m)%N -> (b' < m')%N ->
  shaped three m L' (l_out l) gout -> shaped three m L' (l_in l) x ->
  shaped three' m' L'' (l_out l) gout' -> shaped three' m' L'' (l_in l) x' ->
  pos x b = pos x' b' -> pos gout b = pos gout' b' ->
  exists rows rows', [/\ (compressed_grad G (Some (life G k h)) (l_bias l) gout x).2 = Ok rows,
    (compressed_grad G (Some (life G k h')) (l_bias l) gout' x').2 = Ok rows' &
    [seq m'%:R * v | v <- nth [::] rows b] = [seq m%:R * v | v <- nth [::] rows' b']].
Proof.
move=> hp hs L0 L0' hb hb' sg sx sg' sx' ex eg.
have [rows e [sz hr]] := C44_compress h hp hs (leq_ltn_trans (leq0n _) hb) L0 sg sx.
have [rows' e' [sz' hr']] := C44_compress h' hp hs (leq_ltn_trans (leq0n _) hb') L0' sg' sx'.
exists rows, rows'; split=> //.
have [_ hw] := pos_size sx hb.
have [g1 _] := C44_gradient m (pos gout b) hw; have hw' := hw; rewrite ex in hw'; have [g2 _] := C44_gradient m' (pos gout' b') hw'.
rewrite (hr _ _ hb g1) (hr' _ _ hb' g2) /mkseq -!map_comp; apply/eq_in_map => j _ /=.
rewrite !mulr_sumr; apply: eq_bigr => o _; rewrite !mulr_sumr; apply: eq_bigr => i _.
by rewrite ex eg !mulrA; congr (_ * _ * _); rewrite mulrC.
Qed.
End Props.
