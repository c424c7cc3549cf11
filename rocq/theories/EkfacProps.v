(* C15 EK-FAC statistics, C16 EK-FAC preconditioner. *)
Set Warnings "-notation-overridden,-ambiguous-paths".
From mathcomp Require Import all_ssreflect all_algebra zify.
From Verif Require Import Py TensorProof EkfacModel EkfacSpec EkfacProof.
Set Implicit Arguments. Unset Strict Implicit. Unset Printing Implicit Defensive.
Import Order.TTheory GRing.Theory Num.Theory.
Local Open Scope ring_scope.

(* ---------- C15 ---------- *)

(* The covariance factors are the plain averages over every sample of the selected
   batches, however those samples are distributed over batches; max_iter = m > 0
   selects the first m batches, m = 0 (and None) all of them. *)
Theorem C15_covariance_average (F : realFieldType) (L : eqType) (X : Type) (two_d : L -> bool)
    (inp : L -> X -> seq F) (grads : L -> X -> seq (seq F)) (layers : seq L) (bs : seq (seq X)) (max_iter : option nat) :
  uniq layers -> all two_d layers -> (0 < size bs)%N -> all (fun b => 0 < size b)%N bs ->
  exists2 est, estimate_covariance two_d inp grads layers bs max_iter = Ok est &
    let used := flatten (selected (odflt (size bs) max_iter) bs) in
    forall l, if l \in layers then
      exists ca cs, [/\ est l = Some (ca, cs),
        forall i j, ca i j = avg used (fun x => nth 0 (inp l x) i * nth 0 (inp l x) j)
      & forall i j, cs i j = avg used (fun x => \sum_(r <- grads l x) nth 0 r i * nth 0 r j)]
    else est l = None.
Proof.
move=> un al s0 nb.
have hd : is_true (if layers is l :: _ then two_d l else true) by move: al; case: (layers) => //= l ls /andP [].
have [est -> [h1 h2]] := est_cov inp grads max_iter un hd nb s0; exists est => // used l.
case: (boolP (l \in layers)) => [ll|/h2 //]; have := h1 _ ll; rewrite /covI src_of_id //.
Qed.
Print Assumptions C15_covariance_average.

(* The corrected eigenvalues are the plain averages over the same samples. *)
Theorem C15_lambda_average (F : realFieldType) (L : eqType) (X : Type) (two_d : L -> bool)
    (inp : L -> X -> seq F) (grads : L -> X -> seq (seq F)) (q : L -> (nat * mat F) * (nat * mat F))
    (layers : seq L) (bs : seq (seq X)) (max_iter : option nat) :
  uniq layers -> all two_d layers -> (0 < size bs)%N -> all (fun b => 0 < size b)%N bs ->
  exists2 est, estimate_lambda two_d inp grads q layers bs max_iter = Ok est &
    let used := flatten (selected (odflt (size bs) max_iter) bs) in
    forall l, if l \in layers then
      exists2 lam, est l = Some lam & forall i j,
        lam i j = avg used (fun x =>
          (\sum_(u < (q l).2.1) \sum_(w < (q l).1.1)
             (q l).2.2 i u * (\sum_(r <- grads l x) nth 0 r u * nth 0 (inp l x) w) * (q l).1.2 j w) ^+ 2)
        /\ 0 <= lam i j
    else est l = None.
Proof.
move=> un al s0 nb.
have hd : is_true (if layers is l :: _ then two_d l else true) by move: al; case: (layers) => //= l ls /andP [].
have [est -> [h1 h2]] := est_lam inp grads q max_iter un hd nb s0; exists est => // used l.
case: (boolP (l \in layers)) => [ll|/h2 //]; have := h1 _ ll; rewrite /lamI src_of_id //.
case=> lam [-> lE]; exists lam => // i j.
have -> : lam i j = avg used (fun x =>
          (\sum_(u < (q l).2.1) \sum_(w < (q l).1.1)
             (q l).2.2 i u * (\sum_(r <- grads l x) nth 0 r u * nth 0 (inp l x) w) * (q l).1.2 j w) ^+ 2).
  rewrite lE /avg; congr (_ / _); apply: eq_bigr => x _; rewrite /sample_lambda.
  by case: (q l) => -[da qa] [dd qs].
split=> //; rewrite divr_ge0 ?ler0n // sumr_ge0 // => x _; exact: sqr_ge0.
Qed.
Print Assumptions C15_lambda_average.

(* Consequence: two loaders over the same samples in the same order, batched in any two
   ways, give the same statistics. *)
Theorem C15_batching_irrelevant (F : realFieldType) (L : eqType) (X : Type) (two_d : L -> bool)
    (inp : L -> X -> seq F) (grads : L -> X -> seq (seq F)) (layers : seq L) (bs bs' : seq (seq X)) :
  uniq layers -> all two_d layers -> (0 < size bs)%N -> all (fun b => 0 < size b)%N bs ->
  (0 < size bs')%N -> all (fun b => 0 < size b)%N bs' -> flatten bs = flatten bs' ->
  exists est est', [/\ estimate_covariance two_d inp grads layers bs None = Ok est,
    estimate_covariance two_d inp grads layers bs' None = Ok est' &
    forall l, match est l, est' l with
      | Some c, Some c' => forall i j, c.1 i j = c'.1 i j /\ c.2 i j = c'.2 i j
      | None, None => True | _, _ => False end].
Proof.
move=> un al s0 nb s0' nb' fe.
have [est e h] := C15_covariance_average inp grads None un al s0 nb.
have [est' e' h'] := C15_covariance_average inp grads None un al s0' nb'.
exists est, est'; split=> // l; move: (h l) (h' l); rewrite /selected /=.
rewrite !(negbTE (lt0n_neq0 _)) // !take_size fe; case: (l \in layers) => [|-> ->] //.
move=> [ca [cs [-> a1 a2]]] [ca' [cs' [-> a1' a2']]] i j /=; by rewrite a1 a1' a2 a2'.
Qed.
Print Assumptions C15_batching_irrelevant.

(* Sequence (3-d) inputs are not supported, although the documentation describes them: if the
   first layer has one, every run fails... *)
Theorem C15_sequence_first_refuted (F : realFieldType) (L : eqType) (X : Type) (two_d : L -> bool)
    (inp : L -> X -> seq F) (grads : L -> X -> seq (seq F)) (l : L) (ls : seq L) (bs : seq (seq X)) (max_iter : option nat) :
  ~~ two_d l -> (0 < size bs)%N ->
  estimate_covariance two_d inp grads (l :: ls) bs max_iter = Err UnboundLocalError.
Proof.
by case: bs => // b bs nl _; rewrite /estimate_covariance /= /update_covariance /= /cov_layer /bind_a (negbTE nl).
Qed.
Print Assumptions C15_sequence_first_refuted.

(* ... and after a 2-d layer they silently get that layer's input covariance. *)
Theorem C15_sequence_stale_refuted (F : realFieldType) (L : eqType) (X : Type) (two_d : L -> bool)
    (inp : L -> X -> seq F) (grads : L -> X -> seq (seq F)) (p : seq L) (l : L) (q : seq L) (k : L)
    (bs : seq (seq X)) (max_iter : option nat) :
  uniq (p ++ l :: q) -> (if p is h :: _ then two_d h else true) = true -> two_d l -> all (predC two_d) q -> k \in q ->
  (0 < size bs)%N -> all (fun b => 0 < size b)%N bs ->
  exists2 est, estimate_covariance two_d inp grads (p ++ l :: q) bs max_iter = Ok est &
    exists ca cs, est k = Some (ca, cs) /\
      forall i j, ca i j = avg (flatten (selected (odflt (size bs) max_iter) bs))
                             (fun x => nth 0 (inp l x) i * nth 0 (inp l x) j).
Proof.
move=> un hp tl aq kq s0 nb.
have hd : is_true (if p ++ l :: q is h :: _ then two_d h else true) by case: (p) hp.
have [est -> [h1 h2]] := est_cov inp grads max_iter un hd nb s0; exists est => //.
have kin : k \in p ++ l :: q by rewrite mem_cat inE kq !orbT.
have [ca [cs [-> a1 _]]] := h1 _ kin; exists ca, cs; split=> // i j; rewrite a1.
suff -> : src_of two_d (p ++ l :: q) k = l by [].
have [kp kl] : k \notin p /\ (l == k) = false.
  move: un; rewrite cat_uniq /= => /and4P [_ hn nl _]; split.
    apply: contra hn => kp; apply/orP; right; by apply/hasP; exists k.
  by apply: contraNF nl => /eqP ->.
rewrite /src_of index_cat (negbTE kp) /= kl /src -addnS take_cat ltnNge leq_addr /= addKn /= filter_cat /= tl.
rewrite last_cat /= (_ : filter two_d _ = [::]) //; apply/eqP; rewrite -[_ == _]negbK -has_filter -all_predC.
by apply/allP => z /mem_take zq; exact: (allP aq).
Qed.
Print Assumptions C15_sequence_stale_refuted.

(* ---------- C16 ---------- *)

(* With orthogonal eigenvector matrices the transform is the exact inverse of the damped
   operator  x -> Qs' ((lambda + damping) o (Qs x Qa')) Qa, and it is non-finite exactly when
   some lambda + damping is zero. *)
Theorem C16_inverts_own_operator (F : fieldType) (o i : nat) (qs : 'M[F]_o) (qa : 'M[F]_i)
    (lam : 'M[F]_(o, i)) (damping : F) (v : 'M[F]_(o, i)) :
  orthogonal qs -> orthogonal qa ->
  if [exists r, exists c, lam r c + damping == 0] then ekfac_apply qs qa lam damping v = None
  else exists2 x, ekfac_apply qs qa lam damping v = Some x &
       qs^T *m (\matrix_(r, c) ((lam r c + damping) * (qs *m x *m qa^T) r c)) *m qa = v.
Proof.
move=> os oa; rewrite /ekfac_apply; case: ifP => [->//|nz]; rewrite nz.
eexists; first by []; have os' := mulmx1C os; have oa' := mulmx1C oa.
set D := \matrix_(r, c) (_ / _).
have -> : qs *m (qs^T *m D *m qa) *m qa^T = D.
  by rewrite !mulmxA os' mul1mx -mulmxA oa' mulmx1.
have -> : \matrix_(r, c) ((lam r c + damping) * D r c) = qs *m v *m qa^T.
  apply/matrixP => r c; rewrite mxE mxE mulrC divfK //.
  by apply: contraFN nz => z; apply/existsP; exists r; apply/existsP; exists c.
by rewrite !mulmxA os mul1mx -mulmxA oa mulmx1.
Qed.
Print Assumptions C16_inverts_own_operator.

(* If the eigenvector matrices of the covariances were passed transposed (eigenvectors as
   rows) and lambda held the eigenvalue products, the transform would invert the damped
   Kronecker curvature. *)
Theorem C16_correct_if_transposed (F : fieldType) (o i : nat) (S qs : 'M[F]_o) (A qa : 'M[F]_i)
    (ds : 'rV[F]_o) (da : 'rV[F]_i) (damping : F) (v : 'M[F]_(o, i)) x :
  orthogonal qs -> orthogonal qa ->
  S *m qs = qs *m diag_mx ds -> A *m qa = qa *m diag_mx da ->
  ekfac_apply qs^T qa^T (\matrix_(r, c) (ds 0 r * da 0 c)) damping v = Some x ->
  kron_damped S A damping x = v.
Proof.
move=> os oa eS eA; have os' := mulmx1C os; have oa' := mulmx1C oa.
rewrite /ekfac_apply; case: ifP => // nz [<-]; rewrite !trmxK /kron_damped.
set D := \matrix_(r, c) (_ / _).
have -> : S *m (qs *m D *m qa^T) *m A = qs *m (diag_mx ds *m D *m diag_mx da) *m qa^T.
  have SE : S = qs *m diag_mx ds *m qs^T by rewrite -eS -mulmxA os' mulmx1.
  have AE : A = qa *m diag_mx da *m qa^T by rewrite -eA -mulmxA oa' mulmx1.
  rewrite SE AE !mulmxA -[_ *m qs^T *m qs]mulmxA os mulmx1.
  by rewrite -[_ *m qa^T *m qa]mulmxA oa mulmx1.
rewrite scalemxAl scalemxAr -mulmxDl -mulmxDr.
have -> : diag_mx ds *m D *m diag_mx da + damping *: D = qs^T *m v *m qa.
  apply/matrixP => r c; rewrite mxE mul_mx_diag mxE mul_diag_mx mxE [in X in _ + X]mxE /D !mxE.
  set s := \sum_j _; rewrite mulrAC -[X in X + _]/(ds 0 r * da 0 c * (s / (ds 0 r * da 0 c + damping))) -mulrDl mulrC divfK //.
  by apply: contraFN nz => z; apply/existsP; exists r; apply/existsP; exists c; rewrite mxE.
by rewrite !mulmxA os' mul1mx -mulmxA oa' mulmx1.
Qed.
Print Assumptions C16_correct_if_transposed.

(* The matrices actually passed hold the eigenvectors as columns, so the transform is not the
   inverse of the curvature: one layer with one constant input and four outputs, one sample with
   output gradient h = (1,-1,-1,-1).  The curvature is h h' with eigenvalues 0, 0, 0, 4; a
   correct eigensolver may return Q below (last column h / 2).  In the basis of Q's rows all
   corrected eigenvalues are 1, so with damping 1 every gradient is just halved, although the
   damped curvature maps h to 5 h. *)
Definition tab (t : seq (seq rat)) : nat -> nat -> rat := fun r c => nth 0 (nth [::] t r) c.
Definition exh : seq rat := [:: 1; -1; -1; -1].
Definition exS r c : rat := nth 0 exh r * nth 0 exh c.
Definition exQ r c : rat :=
  tab [:: [:: 1; 1; 1; 1]; [:: 1; 1; -1; -1]; [:: 1; -1; 1; -1]; [:: -1; 1; 1; -1]] r c / 2%:R.
Definition exD : 'rV[rat]_4 := \row_c nth 0 [:: 0; 0; 0; 4%:R] c.
Definition exq (_ : nat) : (nat * mat [fieldType of rat]) * (nat * mat [fieldType of rat]) :=
  ((1%N, tab [:: [:: 1]]), (4%N, exQ)).
Definition exinp (_ : nat) (_ : seq rat) : seq rat := [:: 1].
Definition exgrads (_ : nat) (x : seq rat) : seq (seq rat) := [:: x].
Definition exbatch : seq (seq (seq rat)) := [:: [:: exh]].

Lemma mx4_eq m (A B : 'M[rat]_(4, m)) : (forall c, A 0 c = B 0 c) -> (forall c, A 1 c = B 1 c) ->
  (forall c, A 2%:R c = B 2%:R c) -> (forall c, A 3%:R c = B 3%:R c) -> A = B.
Proof.
move=> h0 h1 h2 h3; apply/matrixP => -[[|[|[|[|//]]]] p] c.
- by rewrite (_ : Ordinal p = 0) //; exact: val_inj.
- by rewrite (_ : Ordinal p = 1) //; exact: val_inj.
- by rewrite (_ : Ordinal p = 2%:R) //; exact: val_inj.
- by rewrite (_ : Ordinal p = 3%:R) //; exact: val_inj.
Qed.

Definition mxf o i (f : nat -> nat -> rat) : 'M[rat]_(o, i) := \matrix_(r, c) f r c.
Lemma ex_orth : orthogonal (mxf 4 4 exQ).
Proof.
by apply: mx4_eq => -[[|[|[|[|//]]]] p]; rewrite !mxE !big_ord_recl big_ord0 !mxE; apply/eqP; vm_compute.
Qed.
Lemma ex_eig : mxf 4 4 exS *m mxf 4 4 exQ = mxf 4 4 exQ *m diag_mx exD.
Proof.
by apply: mx4_eq => -[[|[|[|[|//]]]] p]; rewrite !mxE !big_ord_recl !big_ord0 !mxE; apply/eqP; vm_compute.
Qed.
Lemma ex_cov : exists2 est, estimate_covariance (fun=> true) exinp exgrads [:: 0%N] exbatch None = Ok est &
        exists ca cs, [/\ est 0%N = Some (ca, cs), ca 0%N 0%N = 1 & forall r c, cs r c = exS r c].
Proof.
have [est e h] := @C15_covariance_average [realFieldType of rat] nat_eqType _ (fun=> true) exinp exgrads [:: 0%N] exbatch None isT isT isT isT.
exists est => //; have [ca [cs [e0 a1 a2]]] := h 0%N; exists ca, cs; split=> //.
  by rewrite a1 /avg /= !big_cons big_nil; apply/eqP; vm_compute.
by move=> r c; rewrite a2 /avg /= !big_cons !big_nil invr1 mulr1 !addr0.
Qed.
Lemma avg1 (F : fieldType) (X : Type) (x : X) (f : X -> F) : avg [:: x] f = f x.
Proof. by rewrite /avg big_seq1 divr1. Qed.
Lemma lam_one4 (Q : nat -> nat -> rat) (h : seq rat) i :
  \sum_(u < 4) \sum_(w < 1) Q i u * (\sum_(r <- [:: h]) nth 0 r u * nth 0 [:: 1] w) * tab [:: [:: 1]] 0 w =
  Q i 0%N * nth 0 h 0 + Q i 1%N * nth 0 h 1 + Q i 2%N * nth 0 h 2 + Q i 3%N * nth 0 h 3.
Proof.
under eq_bigr => u _ do rewrite big_ord1 big_seq1 mulr1 mulr1.
by rewrite !big_ord_recl big_ord0 addr0 !addrA.
Qed.
Lemma ex_lam : exists2 est, estimate_lambda (fun=> true) exinp exgrads exq [:: 0%N] exbatch None = Ok est &
        exists lam', est 0%N = Some lam' /\ forall r, (r < 4)%N -> lam' r 0%N = 1.
Proof.
have [est e h] := @C15_lambda_average [realFieldType of rat] nat_eqType _ (fun=> true) exinp exgrads exq [:: 0%N] exbatch None isT isT isT isT.
exists est; first exact: e.
move: h; cbv zeta; rewrite (_ : flatten _ = [:: exh]); last by [].
move=> h; have [lam' e0 a1] := h 0%N; exists lam'; split; first exact: e0.
move=> r hr; rewrite (a1 _ _).1 avg1 (lam_one4 exQ).
by case: r hr => [|[|[|[|//]]]] _; apply/eqP; vm_compute.
Qed.
Lemma half_div (Q : 'M[rat]_4) (v : 'cV_4) :
  \matrix_(r, c) ((Q *m v) r c / (mxf 4 1 (fun _ _ => 1) r c + 1)) = 2%:R^-1 *: (Q *m v).
Proof. by apply/matrixP => r c; rewrite !mxE mulrC. Qed.
Lemma ex_wrong : let v := mxf 4 1 (fun r _ => nth 0 exh r) in
  kron_damped (mxf 4 4 exS) 1%:M 1 (2%:R^-1 *: v) <> v.
Proof.
move=> v; rewrite /kron_damped mulmx1 scale1r.
move/matrixP /(_ 0 0); rewrite !mxE !big_ord_recl big_ord0 !mxE => /eqP.
vm_compute; discriminate.
Qed.

Theorem C16_eigenbasis_refuted :
  let S := mxf 4 4 exS in let Q := mxf 4 4 exQ in
  let lam := mxf 4 1 (fun _ _ => 1) in let v := mxf 4 1 (fun r _ => nth 0 exh r) in
  [/\ (* the covariance computed from the data, its eigenvectors *)
      exists2 est, estimate_covariance (fun=> true) exinp exgrads [:: 0%N] exbatch None = Ok est &
        exists ca cs, [/\ est 0%N = Some (ca, cs), ca 0%N 0%N = 1 & forall r c, cs r c = exS r c],
      orthogonal Q, S *m Q = Q *m diag_mx exD,
      (* the corrected eigenvalues computed from the data with them *)
      exists2 est, estimate_lambda (fun=> true) exinp exgrads exq [:: 0%N] exbatch None = Ok est &
        exists lam', est 0%N = Some lam' /\ forall r, (r < 4)%N -> lam' r 0%N = 1
    & exists2 x, ekfac_apply Q 1%:M lam 1 v = Some x & kron_damped S 1%:M 1 x <> v].
Proof.
move=> S Q lam v.
split; [exact: ex_cov|exact: ex_orth|exact: ex_eig|exact: ex_lam|].
have tw : 1 + 1 != 0 :> rat by vm_compute.
rewrite /ekfac_apply; case: ifP => [/existsP [r /existsP [c]]|_]; first by rewrite mxE (negbTE tw).
eexists; first by [].
by rewrite trmx1 !mulmx1 half_div -scalemxAr mulmxA (ex_orth : Q^T *m Q = 1%:M) mul1mx; exact: ex_wrong.
Qed.
Print Assumptions C16_eigenbasis_refuted.

(* The flat test gradient is cut into one slice per module; entry (r, c) of module k's matrix is
   element r * cols + c of its slice, and the result is laid out in the same way. *)
Lemma split_cat (F : fieldType) (mods : seq modl) (row : seq F) k m0 :
  (k < size mods)%N ->
  let wb := nth ([::], [::]) (split_rep mods row) k in
  wb.1 ++ wb.2 = take (m_out (nth m0 mods k) * m_cols (nth m0 mods k))%N
                   (drop (\sum_(m <- take k mods) m_out m * m_cols m)%N row).
Proof.
elim: mods row k => [|m ms IH] row [|k] //= hk.
  rewrite big_nil drop0 /m_cols mulnDr; case: (m_bias m) => /=; last by rewrite cats0 muln0 addn0.
  by rewrite muln1 takeD.
rewrite big_cons addnC -drop_drop.
have -> : (m_out m * m_cols m = m_out m * m_bias m + m_out m * m_in m)%N by rewrite /m_cols mulnDr addnC.
rewrite -[drop (_ * _ + _) _]drop_drop.
by case: (m_bias m) => /=; rewrite IH // ?muln1 // muln0 drop0.
Qed.
Lemma flat_blocks (F : fieldType) (op : nat -> (nat -> nat -> F) -> (nat -> nat -> F)) m0 mods wbs s k r c :
  size wbs = size mods -> (k < size mods)%N ->
  let m := nth m0 mods k in (r < m_out m)%N -> (c < m_cols m)%N ->
  nth 0 (flatten [seq flat_mat p.2.1 (op p.1 (v_mat p.2.1 p.2.2)) | p <- zip (iota s (size mods)) (zip mods wbs)])
      ((\sum_(m <- take k mods) m_out m * m_cols m) + r * m_cols m + c) =
  op (s + k)%N (v_mat m (nth ([::], [::]) wbs k)) r c.
Proof.
elim: mods wbs s k => [|m ms IH] [|wb wbs] s [|k] //= [sz] hk hr hc.
  rewrite big_nil add0n addn0 nth_cat size_mkseq.
  have lt : (r * m_cols m + c < m_out m * m_cols m)%N.
    by apply: (@leq_trans (r.+1 * m_cols m)); [rewrite mulSn; lia|rewrite leq_mul2r hr orbT].
  rewrite lt nth_mkseq // divnMDl ?modnMDl ?divn_small ?modn_small ?addn0 //; lia.
rewrite big_cons nth_cat size_mkseq ltnNge -!addnA leq_addr /= addKn addnA IH //.
by rewrite addSnnS.
Qed.
Lemma size_split (F : fieldType) mods (row : seq F) : size (split_rep mods row) = size mods.
Proof. by elim: mods row => //= m ms IH row; case: ifP => _ /=; rewrite IH. Qed.

Theorem C16_layout (F : fieldType) (op : nat -> (nat -> nat -> F) -> (nat -> nat -> F)) (mods : seq modl) (row : seq F) m0 :
  exists2 out, ekfac_transform op mods 0 row = Ok out &
  forall k r c, (k < size mods)%N ->
    let m := nth m0 mods k in let off := (\sum_(m <- take k mods) m_out m * m_cols m)%N in
    (r < m_out m)%N -> (c < m_cols m)%N ->
    nth 0 out (off + r * m_cols m + c) =
      op k (fun r' c' => nth 0 (take (m_out m * m_cols m) (drop off row)) (r' * m_cols m + c')) r c.
Proof.
eexists; first by [].
move=> k r c hk m off hr hc.
rewrite (flat_blocks op 0 (size_split _ _) hk hr hc) add0n; congr (op _ _ _ _).
by rewrite /v_mat (split_cat row m0 hk).
Qed.
Print Assumptions C16_layout.

(* What a user expects in column m_in of row r is the bias of output r.  For every layer with a
   bias, at least two outputs and one input, row 0 holds weight (1, 0) there instead. *)
Theorem C16_bias_misplaced_refuted (F : fieldType) (o i : nat) (W : nat -> nat -> F) (b : nat -> F) :
  let w := mkseq (fun k => W (k %/ i)%N (k %% i)%N) (o * i) in
  let m := Modl o i true in
  (0 < i)%N ->
  ((1 < o)%N -> v_mat m (w, mkseq b o) 0%N i = W 1%N 0%N) /\
  (o = 1%N -> v_mat m (w, mkseq b o) 0%N i = b 0%N /\ forall c, (c < i)%N -> v_mat m (w, mkseq b o) 0%N c = W 0%N c).
Proof.
move=> w m i0; rewrite /v_mat /=; split=> [o1|o1].
  have lt : (i < o * i)%N by rewrite -{1}[i]mul1n ltn_mul2r i0.
  by rewrite mul0n add0n nth_cat size_mkseq lt nth_mkseq // divnn i0 modnn.
rewrite /w o1 mul1n mul0n; split=> [|c hc]; rewrite nth_cat size_mkseq add0n ?ltnn ?subnn //.
by rewrite hc nth_mkseq // divn_small // modn_small.
Qed.
Print Assumptions C16_bias_misplaced_refuted.

(* Any checkpoint index other than 0 is refused. *)
Theorem C16_checkpoint (F : fieldType) op mods (c : nat) (row : seq F) :
  ekfac_transform op mods c row = Err ValueError <-> c <> 0%N.
Proof. by rewrite /ekfac_transform; case: c. Qed.
Print Assumptions C16_checkpoint.

(* The hypotheses of C15 are met by a two-batch, two-layer, three-sample run. *)
Example C15_example :
  let inp (l : nat) (x : nat) : seq rat := [:: (l + x)%:R; 1] in
  let gr (l : nat) (x : nat) : seq (seq rat) := [:: [:: x%:R]] in
  exists2 est, estimate_covariance (fun=> true) inp gr [:: 0%N; 1%N] [:: [:: 0%N; 1%N]; [:: 3%N]] None = Ok est &
    exists ca cs, [/\ est 1%N = Some (ca, cs), ca 0%N 1%N = 7%:R / 3%:R & cs 0%N 0%N = 10%:R / 3%:R].
Proof.
move=> inp gr.
have [est e h] := @C15_covariance_average [realFieldType of rat] nat_eqType nat (fun=> true) inp gr
  [:: 0%N; 1%N] [:: [:: 0%N; 1%N]; [:: 3%N]] None isT isT isT isT.
exists est; first exact: e.
have [ca [cs [e0 a1 a2]]] := h 1%N; exists ca, cs; split=> //.
  by rewrite a1 /avg !big_cons big_nil; apply/eqP; vm_compute.
by rewrite a2 /avg !big_cons !big_nil; apply/eqP; vm_compute.
Qed.

(* Two modules (2 outputs, 1 input, with bias; 1 output, 1 input, none), identity preconditioner:
   the row comes back unchanged. *)
Example C16_example (a b c d e : rat) :
  ekfac_transform (fun _ M => M) [:: Modl 2 1 true; Modl 1 1 false] 0 [:: a; b; c; d; e] = Ok [:: a; b; c; d; e].
Proof. by []. Qed.
