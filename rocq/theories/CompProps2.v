(* C44, continued: which layers get a compressor, what LoGra and FactGraSS set up, and what goes wrong without
   parameters. *)
Set Warnings "-notation-overridden,-ambiguous-paths".
From mathcomp Require Import all_ssreflect all_algebra zify.
From Coq Require ZArith.
From Verif Require Import Py Tensor TensorProof Seeds SeedSpec ProjModel ProjSpec ProjProof CompModel CompSpec CompProof CompProof2 CompProps.
From Verif Require ProjProps.
Set Implicit Arguments. Unset Strict Implicit. Unset Printing Implicit Defensive.
Import GRing.Theory.
Local Open Scope ring_scope.

Lemma isqrt_fromP f n : (isqrt_from f n * isqrt_from f n <= n)%N /\ forall k, (k <= f)%N -> (k * k <= n)%N -> (k <= isqrt_from f n)%N.
Proof.
elim: f => [|f [h1 h2]] /=; first by split=> // k; lia.
case: ifP => hc; first by split.
split=> // k hk hkn; apply: h2 => //; rewrite leqNgt; apply/negP => hf.
have ek : k = f.+1 by move: hk hf; clear; lia.
by move: hkn; rewrite ek hc.
Qed.
Lemma isqrt_sq k : isqrt (k * k) = k.
Proof.
have [h1 h2] := isqrt_fromP (k * k) (k * k); rewrite -/(isqrt _) in h1 h2.
have h3 : (k <= isqrt (k * k))%N by apply: h2 => //; case: (k) => // k'; rewrite leq_pmull.
apply/eqP; rewrite eqn_leq h3 andbT leqNgt; apply/negP => h4.
by have := leq_mul h4 h4; move: h1; clear; nia.
Qed.

Section Props.
Variable F : fieldType.
Variable G : rng F.
Variable Name : eqType.

(* a Linear layer that the sample batch reaches gets its compressor exactly when the batch is not empty and both
   parameters ask for a projection that can be made on the CPU *)
Theorem C44_layer n L q1 q2 mid (nm : Name) l :
  perm_ok G -> (0 < l_out l)%N -> (0 < l_in l + l_bias l)%N ->
  (exists k, setup_module G n L (Some q1) (Some q2) mid (Modu nm (MLinear l) true) = Ok (Some k)) <->
  [/\ (0 < n)%N, (0 < L)%N, feasible q1 & feasible q2].
Proof.
move=> hp o0 i0; split=> [[k hk]|[n0 L0 f1 f2]].
  by have [_ _ _ _ /and4P []] := setup_okP hp hk.
exact: (setup_existsP hp mid nm n0 L0 o0 i0 f1 f2).
Qed.

Lemma index_lastE (names : seq Name) x : uniq names -> x \in names -> index_last names x = index x names.
Proof.
move=> hu hx; rewrite /index_last.
have hi : (index x names < size names)%N by rewrite index_mem.
have e : x = nth x (rev names) (size names - (index x names).+1).
  by rewrite nth_rev; [rewrite subnSK // subKn ?(ltnW hi) // nth_index | move: hi; clear; lia].
rewrite {1}e index_uniq ?rev_uniq ?size_rev //; last by move: hi; clear; lia.
by move: hi; clear; lia.
Qed.

(* the compressors of a model: those of the named layers that are Linear and that the sample batch reaches, at the
   position of their name, set up with their number in named_modules() *)
Theorem C44_setup n L (names : seq Name) q1 q2 (mods : seq (module Name)) cs d x0 :
  uniq names -> uniq (map (@m_name Name) mods) ->
  setup_model G n L names (Some q1) (Some q2) mods = Ok cs ->
  size cs = size names /\
  forall i, (i < size names)%N ->
    let x := nth x0 names i in
    let mid := index x (map (@m_name Name) mods) in
    if (mid < size mods)%N then
      setup_module G n L (Some q1) (Some q2) mid (nth d mods mid) = Ok (nth None cs i)
    else nth None cs i = None.
Proof.
move=> hu hm; rewrite /setup_model orTb; set f := fun cs mm => _.
suff H : forall j cs, (j <= size mods)%N ->
   rfold f (nseq (size names) None) (zip (iota 0 j) (take j mods)) = Ok cs ->
   size cs = size names /\
   forall i, (i < size names)%N ->
    let x := nth x0 names i in
    let mid := index x (map (@m_name Name) mods) in
    if (mid < j)%N then
      setup_module G n L (Some q1) (Some q2) mid (nth d mods mid) = Ok (nth None cs i)
    else nth None cs i = None.
  by move=> h; move: (H (size mods) cs (leqnn _)); rewrite take_size => /(_ h).
elim=> [|j IH] cs' hj; first by rewrite take0 /= => -[<-]; split=> [|i hi /=]; rewrite ?size_nseq // nth_nseq if_same.
rewrite (take_nth d hj) -addn1 iotaD -cats1 zip_cat ?size_iota ?size_take ?hj // -[zip (iota (0 + j) 1) [:: _]]/[:: (j, nth d mods j)] cats1 rfold_rcons.
case: (rfold f _ _) (IH^~ (ltnW hj)) => [c0|//] /(_ _ erefl) [sz0 hi0]; cbn [rbind].
rewrite /f [(_, _).2]/= [(_, _).1]/=; set M := nth d mods j.
have lt1 a : (a < j + 1)%N = (a == j) || (a < j)%N by rewrite addn1 ltnS leq_eqVlt.
have eM : nth x0 (map (@m_name Name) mods) j = m_name M by rewrite (nth_map d).
have jM : index (m_name M) (map (@m_name Name) mods) = j by rewrite -eM index_uniq ?size_map.
have midE i : (i < size names)%N -> (index (nth x0 names i) (map (@m_name Name) mods) == j) = (nth x0 names i == m_name M).
  move=> _; apply/eqP/eqP => [e|->] //; rewrite -eM -e nth_index //.
  by rewrite -index_mem e size_map.
case: ifP => hin; last first.
  move=> -[<-]; split=> // i hi; move: (hi0 i hi) => /=; rewrite lt1 midE //.
  by case: eqP => //= e; move: hin; rewrite -e mem_nth.
case es: (setup_module _ _ _ _ _ _ _) => [k|//]; cbn [rmap] => -[<-].
have idx : index_last names (m_name M) = index (m_name M) names by exact: index_lastE.
have lt : (index (m_name M) names < size names)%N by rewrite index_mem.
have neq i : (i < size names)%N -> (nth x0 names i == m_name M) = (i == index (m_name M) names).
  by move=> hi; rewrite -{1}(nth_index x0 hin) nth_uniq.
have jN i : (i < size names)%N -> i == index (m_name M) names -> (index (nth x0 names i) (map (@m_name Name) mods) = j).
  by move=> hi; rewrite -neq // => /eqP ->.
case: k es => [k|] es; (split; last (move=> i hi; cbv zeta)) => //.
- by rewrite size_set_nth sz0 idx; apply/maxn_idPr.
- rewrite nth_set_nth /= idx lt1 midE // neq //; case: (boolP (i == _)) => [h|h] /=; last exact: hi0.
  by rewrite (jN _ hi h).
rewrite lt1 midE // neq //; case: (boolP (i == _)) => [h|h]; last exact: hi0.
by move: (hi0 i hi); cbv zeta; rewrite orTb (jN _ hi h) ltnn es => ->.
Qed.

(* with only one of the two parameters, the first named Linear layer that is reached stops the set-up ... *)
Theorem C44_one_param n L (names : seq Name) (q1 q2 : option pparams) (mods : seq (module Name)) :
  (q1 : bool) (+) (q2 : bool) -> (forall q, q1 = Some q -> perm_ok G /\ feasible q) -> (0 < n)%N -> (0 < L)%N ->
  (forall i M, List.nth_error mods i = Some M -> m_name M \in names -> exists l, m_kind M = MLinear l /\ (0 < l_out l)%N /\ (0 < l_in l + l_bias l)%N) ->
  List.existsb (fun M => (m_name M \in names) && m_run M) mods ->
  setup_model G n L names q1 q2 mods = Err AttributeError.
Proof.
move=> hx hf n0 L0 hk; rewrite /setup_model.
have -> : (q1 : bool) || (q2 : bool) by move: hx; case: (q1); case: (q2).
set f := (X in rfold X).
have : forall i M, List.nth_error mods i = Some M -> forall c mid, m_name M \in names ->
   if m_run M then f c (mid, M) = Err AttributeError else f c (mid, M) = Ok c \/ f c (mid, M) = Err AttributeError.
  move=> i M hM c mid hin; have [l [el [o0 i0]]] := hk i M hM hin.
  rewrite /f [(_, _).2]/= [(_, _).1]/= hin; case: q1 hx hf f => [a|] /=; case: q2 => [b|] //= _ hf _.
    have [hp fa] := hf a erefl; case: M el {hM hin} => nm kd rn /= ->; case: rn => /=; last by left.
    have [k hk'] := @setup_existsP _ G hp Name n L a a mid nm l n0 L0 o0 i0 fa fa.
    by move: hk'; rewrite /setup_module /=; case: (setup_sparsifier _ _ _ _ _).
  by case: ifP => //; right.
have : forall i M, List.nth_error mods i = Some M -> forall c mid, m_name M \notin names -> f c (mid, M) = Ok c.
  by move=> i M _ c mid /negbTE hn; rewrite /f /= hn.
move: (nseq _ _) (0%N); move: f hk => f _ ; elim: mods => [//|M mods IH] c mid h1 h2 /=.
case: (boolP (m_name M \in names)) => hin /= hex.
  move: (h2 0%N M erefl c mid hin); case: (m_run M) hex => /= hex; first by move=> ->.
  case=> -> //=; apply: IH => //; [move=> i N hN; exact: (h1 i.+1 N hN)|move=> i N hN; exact: (h2 i.+1 N hN)].
rewrite (h1 0%N M erefl c mid hin) /=; apply: IH => //; [move=> i N hN; exact: (h1 i.+1 N hN)|move=> i N hN; exact: (h2 i.+1 N hN)].
Qed.

(* ... and without both, the set-up succeeds but every gradient of a hooked layer fails *)
Theorem C44_no_params n L (names : seq Name) (mods : seq (module Name)) :
  exists2 cs, setup_model G n L names None None mods = Ok cs &
    size cs = size names /\ forall i bias gout x, (compressed_grad G (nth None cs i) bias gout x).2 = Err AttributeError.
Proof. by eexists; first reflexivity; rewrite size_nseq; split=> // i b g x; rewrite nth_nseq if_same. Qed.

(* LoGra: one number per layer, which must be a square; every layer then gets that many numbers per sample *)
Theorem C44_logra u n L mid (nm : Name) l :
  perm_ok G -> (0 < n)%N -> (0 < L)%N -> (0 < l_out l)%N -> (0 < l_in l + l_bias l)%N -> (0 < u_dim u)%N ->
  ((forall k, u_dim u <> (k * k)%N) -> logra u = Err ValueError) /\
  forall s, u_dim u = (s * s)%N ->
  exists q1 q2 k, [/\ logra u = Ok (q1, q2),
    setup_module G n L (Some q1) (Some q2) mid (Modu nm (MLinear l) true) = Ok (Some k) &
    forall hist three m L' (gout x : act F), (0 < m)%N -> (0 < L')%N -> shaped three m L' (l_out l) gout -> shaped three m L' (l_in l) x ->
    exists2 rows, (compressed_grad G (Some (life G k hist)) (l_bias l) gout x).2 = Ok rows &
      size rows = m /\ forall b, (b < m)%N -> size (nth [::] rows b) = u_dim u].
Proof.
move=> hp n0 L0 o0 i0 d0; split=> [h|s es]; first by rewrite /logra ifT //; apply/eqP => e; apply: (h _ (esym e)).
rewrite /logra es isqrt_sq eqxx /=; do 2 eexists.
have s0 : (0 < s)%N by case: (s) es d0 => // ->.
have [k hk] := setup_existsP hp mid nm n0 L0 o0 i0 (s0 : feasible (PParams (Some s) (u_seed u) PNormal)) (erefl : feasible (PParams None (u_seed u) PIdentity)).
exists k; split; first reflexivity; first exact: hk.
move=> hist three m L' gout x m0 L0' sg sx; have [rows e [sz h]] := C44_compress hist hp hk m0 L0' sg sx.
exists rows => //; split=> // b hb.
have [_ hw] := pos_size sx hb; have [g1 _] := C44_gradient m (pos gout b) hw.
by rewrite (h b _ hb g1) size_mkseq.
Qed.

(* FactGraSS: the product of the dimension and the blow-up factor must be a square; the seed and the type the user
   gives are not used *)
Theorem C44_factgrass u blowup n L mid (nm : Name) l :
  perm_ok G -> (0 < n)%N -> (0 < L)%N -> (0 < l_out l)%N -> (0 < l_in l + l_bias l)%N -> (0 < u_dim u)%N -> (0 < blowup)%N ->
  ((forall k, (u_dim u * blowup)%N <> (k * k)%N) -> factgrass u blowup = Err ValueError) /\
  (forall seed t, factgrass (UParams (u_dim u) seed t) blowup = factgrass u blowup) /\
  forall s, (u_dim u * blowup)%N = (s * s)%N ->
  exists q1 q2 k, [/\ factgrass u blowup = Ok (q1, q2),
    setup_module G n L (Some q1) (Some q2) mid (Modu nm (MLinear l) true) = Ok (Some k) &
    forall hist three m L' (gout x : act F), (0 < m)%N -> (0 < L')%N -> shaped three m L' (l_out l) gout -> shaped three m L' (l_in l) x ->
    exists2 rows, (compressed_grad G (Some (life G k hist)) (l_bias l) gout x).2 = Ok rows &
      size rows = m /\ forall b, (b < m)%N -> size (nth [::] rows b) = u_dim u].
Proof.
move=> hp n0 L0 o0 i0 d0 b0; split=> [h|]; first by rewrite /factgrass ifT //; apply/eqP => e; apply: (h _ (esym e)).
split=> // s es; rewrite /factgrass es isqrt_sq eqxx /=; do 2 eexists.
have s0 : (0 < s)%N by case: (s) es => //; move: d0 b0; clear; nia.
have [k hk] := setup_existsP hp mid nm n0 L0 o0 i0 (s0 : feasible (PParams (Some s) BinNums.Z0 PMask)) (d0 : feasible (PParams (Some (u_dim u)) BinNums.Z0 PNormal)).
exists k; split; first reflexivity; first exact: hk.
move=> hist three m L' gout x m0 L0' sg sx; have [rows e [sz h]] := C44_compress hist hp hk m0 L0' sg sx.
exists rows => //; split=> // b hb.
have [_ hw] := pos_size sx hb; have [g1 _] := C44_gradient m (pos gout b) hw.
by rewrite (h b _ hb g1) size_mkseq.
Qed.
End Props.

(* concrete cases *)
Section Cases.
Notation Q := [fieldType of rat].
Let l : linear := Linear 2 1 true.
Let qn : pparams := PParams (Some 2%N) (BinInt.Z.of_nat 7) PNormal.
Let qi : pparams := PParams None BinNums.Z0 PIdentity.
(* sequences of two positions: two samples, one sample *)
Let gout : act Q := A3 2 [:: [:: [:: 1]; [:: 2%:R]]; [:: [:: 3%:R]; [:: 0]]].
Let x : act Q := A3 2 [:: [:: [:: 1; 0]; [:: 2%:R; 1]]; [:: [:: 0; 0]; [:: 5%:R; 1]]].
Let gout1 : act Q := A3 2 [:: [:: [:: 3%:R]; [:: 0]]].
Let x1 : act Q := A3 2 [:: [:: [:: 0; 0]; [:: 5%:R; 1]]].
Example C44_compress_case :
  exists k, [/\ setup_module ProjProps.rngQ 2 2 (Some qn) (Some qi) 3 (Modu 5%N (MLinear l) true) = Ok (Some k),
    CompProps.perm_ok ProjProps.rngQ, shaped true 2 2 (l_out l) gout && shaped true 2 2 (l_in l) x,
    pos x 1 = pos x1 0 & pos gout 1 = pos gout1 0 /\ shaped true 1 2 (l_out l) gout1 /\ shaped true 1 2 (l_in l) x1].
Proof.
have [k hk] := @setup_existsP Q ProjProps.rngQ ProjProps.rngQ_perm nat_eqType 2 2 qn qi 3 5%N l erefl erefl erefl erefl erefl erefl.
by exists k; split=> //; exact: ProjProps.rngQ_perm.
Qed.
(* the sample's row doubles when its batch does *)
Example C44_sum_loss_case k : setup_module ProjProps.rngQ 2 2 (Some qn) (Some qi) 3 (Modu 5%N (MLinear l) true) = Ok (Some k) ->
  exists rows rows', [/\ (compressed_grad ProjProps.rngQ (Some k) true gout x).2 = Ok rows,
    (compressed_grad ProjProps.rngQ (Some k) true gout1 x1).2 = Ok rows' &
    [seq 1%:R * v | v <- nth [::] rows 1] = [seq 2%:R * v | v <- nth [::] rows' 0]].
Proof.
move=> hk; exact: (@C44_sum_loss_refuted Q ProjProps.rngQ nat_eqType 2 2 qn qi 3 5%N l k [::] [::] true true 2 1 2 2 gout x gout1 x1 1 0 ProjProps.rngQ_perm hk).
Qed.
Example C44_setup_case : exists cs, setup_model ProjProps.rngQ 2 2 [:: 5; 9; 8]%N (Some qn) (Some qi)
    [:: Modu 0%N MOther true; Modu 5%N (MLinear l) true; Modu 9%N (MLinear l) false; Modu 6%N (MLinear l) true] = Ok cs /\
  (nth None cs 0 : bool) /\ nth None cs 1 = None /\ nth None cs 2 = None.
Proof.
have [k hk] := @setup_existsP Q ProjProps.rngQ ProjProps.rngQ_perm nat_eqType 2 2 qn qi 1 5%N l erefl erefl erefl erefl erefl erefl.
rewrite /setup_model; cbn [size iota zip rfold rbind m_name fst snd].
have e0 : (0%N \in [:: 5; 9; 8]%N) = false by [].
have e5 : (5%N \in [:: 5; 9; 8]%N) = true by [].
rewrite orTb e0; cbn [rbind]; rewrite e5 hk; cbn [rmap rbind].
by eexists; split; first reflexivity.
Qed.
Example C44_logra_case : logra (UParams 16 BinNums.Z0 PMask) = Ok (PParams (Some 4%N) BinNums.Z0 PNormal, PParams None BinNums.Z0 PIdentity)
  /\ logra (UParams 15 BinNums.Z0 PMask) = Err ValueError
  /\ factgrass (UParams 9 (BinInt.Z.of_nat 3) PRademacher) 4 = Ok (PParams (Some 6%N) BinNums.Z0 PMask, PParams (Some 9%N) BinNums.Z0 PNormal).
Proof. by []. Qed.
Example C44_one_param_case : setup_model ProjProps.rngQ 2 2 [:: 5]%N None (Some qi) [:: Modu 5%N (MLinear l) true] = Err AttributeError.
Proof. by apply: C44_one_param => // -[|[|i]] // M [<-] _; exists l. Qed.
End Cases.

Print Assumptions C44_gradient.
Print Assumptions C44_compress.
Print Assumptions C44_identity.
Print Assumptions C44_mean_loss.
Print Assumptions C44_sum_loss_refuted.
Print Assumptions C44_layer.
Print Assumptions C44_setup.
Print Assumptions C44_one_param.
Print Assumptions C44_no_params.
Print Assumptions C44_logra.
Print Assumptions C44_factgrass.
