(* C67: the image classifiers of the benchmarks. *)
Set Warnings "-notation-overridden,-ambiguous-paths".
From mathcomp Require Import all_ssreflect all_algebra zify.
From Verif Require Import Py NetModel NetSpec NetProof NetProof2.
Set Implicit Arguments. Unset Strict Implicit. Unset Printing Implicit Defensive.
Import GRing.Theory Num.Theory Order.Theory.
Local Open Scope ring_scope.
Arguments upall : simpl never.
Arguments blocks : simpl never.
Arguments bouts : simpl never.
Arguments bsts : simpl never.
Arguments inps : simpl never.
Arguments sblocks : simpl never.

Section Resnet.
Variables (F : realFieldType) (isd : F -> F) (w : nat -> nat -> nat -> nat -> nat -> F).
Variables (classes : nat) (W : nat -> nat -> F) (b : nat -> F).
Local Notation resnet9 tr D := (resnet9 isd w tr D classes W b).
Lemma chain9 : chain 64 cfgs9 512. Proof. by []. Qed.
Lemma up22 h : up (up h 2) 2 = up h 4. Proof. by rewrite /up; lia. Qed.
Lemma upall9 h : upall h cfgs9 = up h 4. Proof. by rewrite -up22 -{2}(up1 h). Qed.
Definition takes (x : t4 F) := [&& tc x == 3%N, (0 < th x)%N & (0 < tw x)%N].
Lemma takes_good x : takes x -> good x 3. Proof. by case/and3P=> /eqP h1 h2 h3; split. Qed.
Lemma bad9 tr D x S : ~~ takes x -> resnet9 tr D x S = (S, Err RuntimeError).
Proof. by move=> h; rewrite /NetModel.resnet9 /net unit_bad. Qed.
Lemma empty9 D x S : takes x -> tn x = 0%N -> resnet9 false D x S = (S, Err RuntimeError).
Proof.
move=> /takes_good gx n0; have [h1 h2 h3] := gx; rewrite /NetModel.resnet9 /net unitE //= -/(z0 isd w false D 64 x S).
have [b1 b2 b3 b4] := z0_shape isd w false D 64 S gx.
have := blocksE isd w (tr := false) D 1 S chain9 b2 isT => -> /=.
have [d1 [d2 _ _] _ _] := bouts_shape isd w false D 1 S chain9 b2.
by rewrite /head d1 b1 n0 /= (bsts_eval _ _ _ _ _ _ chain9).
Qed.

(* Evaluation mode: the formula of NetSpec with batch norm folded into the convolutions, for every image of the batch;
   nothing is recorded. *)
Theorem C67_resnet_eval (x : t4 F) (S : nstate F) :
  let fw k o c a d := w k o c a d * (isd (rv (S k) o) * bg (S k) o) in
  let fb k o := bb (S k) o - rm (S k) o * (isd (rv (S k) o) * bg (S k) o) in
  if [&& (0 < tn x)%N, tc x == 3%N, (0 < th x)%N & (0 < tw x)%N] then
    exists y, [/\ resnet9 false None x S = (S, Ok y), rows y = tn x, cols y = classes
      & forall n o, at2 y n o = logits fw fb 512 [:: (64, 128, 1); (128, 256, 2); (256, 512, 2)]%N W b (th x) (tw x) (px x n) o]
  else resnet9 false None x S = (S, Err RuntimeError).
Proof.
move=> fw fb; case: ifP => [/andP [n0 tx]|/negbT]; last first.
  rewrite negb_and -/(takes x); case tx: (takes x) => /=; last by rewrite bad9 ?tx.
  by rewrite orbF -eqn0Ngt => /eqP; exact: empty9.
have gx := takes_good tx; have := netE isd w false None classes W b S chain9 gx n0 => e.
rewrite /NetModel.resnet9 e (bsts_eval _ _ _ _ _ _ chain9); eexists; split; [reflexivity|by []|by []|].
move=> n o; rewrite /= /logits; have [b1 b2 b3 b4] := z0_shape isd w false None 64 S gx.
have Z c i j : px (z0 isd w false None 64 x S) n c i j
     = pos (sconv 3 1 1 3 (th x) (tw x) (fused isd w S 0) (shift isd S 0) (px x n)) c i j.
  by rewrite /z0 /y0 (@fin_spec _ _ _ _ _ _ _ _ _ _ _ _ (px x n)).
have [e1 e2 e3] := bouts_spec isd w S 1 chain9 b2 Z.
move: e1 e2 e3; rewrite b3 b4 -[fused isd w S]/fw -[shift isd S]/fb -[map trip cfgs9]/[:: (64, 128, 1); (128, 256, 2); (256, 512, 2)]%N.
move: (bouts isd w false None 1 cfgs9 _ S) => B.
case: (sblocks _ _ _ _ _ _ _) => [[h' w'] y'] /= e1 e2 e3.
rewrite addrC; congr (_ + _); apply: eq_bigr => c _; congr (_ * _); rewrite /pool e1 e2; congr (_ / _).
by apply: eq_bigr => i _; apply: eq_bigr => j _; rewrite e3.
Qed.

(* Evaluation statistics, with or without dropout: a row is a function of its image (and its masks) alone.  Any
   selection idx of rows, in any order and with repetitions, gives the selected rows; a single image is the case
   m = 1 (what vmap over single samples computes). *)
Theorem C67_rows (D D' : option (masks F)) (idx : nat -> nat) m (x : t4 F) (S : nstate F) :
  (0 < tn x)%N -> (0 < m)%N -> tc x = 3%N -> (0 < th x)%N -> (0 < tw x)%N ->
  match D, D' with
  | Some d, Some d' => forall k n c i j, d' k n c i j = d k (idx n) c i j | None, None => True | _, _ => False end ->
  exists y y', [/\ resnet9 false D x S = (S, Ok y),
    resnet9 false D' (T4 m 3 (th x) (tw x) (fun n => px x (idx n))) S = (S, Ok y')
    & forall n o, at2 y' n o = at2 y (idx n) o].
Proof.
move=> n0 m0 h1 h2 h3 dd; set x' := T4 _ _ _ _ _.
have gx : good x 3 by split.
have gx' : good x' 3 by split.
have e := netE isd w false D classes W b S chain9 gx n0.
have e' := netE isd w false D' classes W b S chain9 gx' m0.
rewrite /NetModel.resnet9 e e' !(bsts_eval _ _ _ _ _ _ chain9); do 2 eexists; split; [reflexivity|reflexivity|].
move=> n o /=; congr (_ + _); apply: eq_bigr => c _; congr (_ * _).
have v0 : via idx (z0 isd w false D 64 x S) (z0 isd w false D' 64 x' S).
  by apply: fin_via => //; apply: conv_via; split.
have [_ a2 a3 a4] := bouts_via isd w S dd cfgs9 1 v0.
rewrite /pool a2 a3; congr (_ / _).
by apply: eq_bigr => i _; apply: eq_bigr => j _; rewrite a4.
Qed.

(* Training mode. *)
Lemma up4_1 h : (0 < h)%N -> (up h 4 == 1%N) = (h <= 4)%N.
Proof. by rewrite /up => h0; lia. Qed.
Theorem C67_train (D : option (masks F)) (x : t4 F) (S : nstate F) : (0 < tn x)%N ->
  if ~~ [&& tc x == 3%N, (0 < th x)%N & (0 < tw x)%N] then resnet9 true D x S = (S, Err RuntimeError)
  else if [&& tn x == 1%N, (th x <= 4)%N & (tw x <= 4)%N] then (resnet9 true D x S).2 = Err ValueError
  else exists S' y, [/\ resnet9 true D x S = (S', Ok y), rows y = tn x & cols y = classes].
Proof.
move=> n0; case tx: [&& _, _ & _] => /=; last by rewrite bad9 // /takes tx.
have gx := takes_good tx; have [_ g2 g3] := gx.
have := netE isd w true D classes W b S chain9 gx n0; rewrite !upall9 andTb one3 !up4_1 //.
case: ifP => _ e; first by rewrite -e.
by rewrite /NetModel.resnet9 e; do 2 eexists; split; [reflexivity| |].
Qed.

(* A failing training pass has changed the statistics of the layers before. *)
Theorem C67_failed_pass (D : option (masks F)) (x : t4 F) (S : nstate F) :
  tn x = 1%N -> tc x = 3%N -> (0 < th x <= 4)%N -> (0 < tw x <= 4)%N -> (1 < th x * tw x)%N ->
  (resnet9 true D x S).2 = Err ValueError /\
  forall c, rm ((resnet9 true D x S).1 0%N) c = (1 - 10%:R^-1) * rm (S 0%N) c + 10%:R^-1 *
    ((\sum_(i < th x) \sum_(j < tw x) sconv 3 1 1 3 (th x) (tw x) (w 0) (fun=> 0) (px x 0%N) c i j) / (th x * tw x)%:R).
Proof.
move=> n1 h1 /andP [h2 h2'] /andP [h3 h3'] h4; have gx : good x 3 by split.
have n0 : (0 < tn x)%N by rewrite n1.
split; first by have := C67_train D S n0; rewrite h1 h2 h3 n1 h2' h3'.
move=> c; rewrite /NetModel.resnet9 /net unitE //= -/(y0 w 64 x).
have ey : cnt (y0 w 64 x) = (th x * tw x)%N by rewrite /cnt /= !osizeE // !up1 n1 mul1n.
rewrite ey ifF; last by apply/negbTE; rewrite neq_ltn h4 orbT.
rewrite /= -/(z0 isd w true D 64 x S) -/(s0 w true 64 x S).
have [b1 b2 b3 b4] := z0_shape isd w true D 64 S gx.
rewrite (blocks_lt _ _ _ _ _ chain9 b2) // /s0 /setl eqxx /= /mom /bmean ey; congr (_ + _ * (_ / _)).
rewrite /= n1 big_ord1 !osizeE // !up1; apply: eq_bigr => i _; apply: eq_bigr => j _.
by rewrite -(convv_spec 3 1 1 3 64) addr0.
Qed.

Definition ninp D (x : t4 F) (S : nstate F) (k : nat) : option (t4 F) :=
  if k == 0%N then Some (y0 w 64 x) else inps isd w D 1%N cfgs9 (z0 isd w true D 64 x S) (s0 w true 64 x S) k.
Lemma binp_some D no g x S k : sk g -> (binp isd w D no g x S k : bool) = (no <= k < no + 3)%N.
Proof.
move=> sg; rewrite /binp sg; case: (k =P no) => [->|h1]; first by apply/esym/andP; split; lia.
case: (k =P no.+1) => [->|h2]; first by apply/esym/andP; split; lia.
case: (k =P no.+2) => [->|h3] /=; first by apply/esym/andP; split; lia.
by apply/esym/negbTE; rewrite negb_and; lia.
Qed.
Lemma inps_cons D no g gs x S k : inps isd w D no (g :: gs) x S k =
  if binp isd w D no g x S k is Some y then Some y
  else inps isd w D (no + 3)%N gs (bout isd w true D no g x S) (bst isd w true D no g x S) k.
Proof. by []. Qed.
Lemma ninp_some D x S k : (ninp D x S k : bool) = (k < 10)%N.
Proof.
rewrite /ninp; case: eqP => [->//|k0].
rewrite -[cfgs9]/[:: Cfg 64 128 1; Cfg 128 256 2; Cfg 256 512 2].
rewrite !inps_cons -[inps _ _ _ _ [::] _ _ _]/(@None (t4 F)).
set p1 := binp _ _ _ _ _ _ _ _; set p2 := binp _ _ _ _ _ _ _ _; set p3 := binp _ _ _ _ _ _ _ _.
have h1 : (p1 : bool) = (1 <= k < 1 + 3)%N by exact: binp_some.
have h2 : (p2 : bool) = (1 + 3 <= k < 1 + 3 + 3)%N by exact: binp_some.
have h3 : (p3 : bool) = (1 + 3 + 3 <= k < 1 + 3 + 3 + 3)%N by exact: binp_some.
case: p1 h1 => [y|] /= h1; first by move: h1; clear; lia.
case: p2 h2 => [y|] /= h2; first by move: h2; clear; lia.
by case: p3 h3 => [y|] /= h3; move: h1 h2 h3 k0; clear; lia.
Qed.
Lemma pass9 D x S S1 : good x 3 -> (0 < tn x)%N -> ~~ [&& tn x == 1%N, (th x <= 4)%N & (tw x <= 4)%N] ->
  same_affine S S1 ->
  (resnet9 true D x S1).2 = (resnet9 true D x S).2 /\
  forall k, (resnet9 true D x S1).1 k = upd (ninp D x S k) (S1 k).
Proof.
move=> gx n0 ne hS; have [_ g2 g3] := gx.
have e S2 := netE isd w true D classes W b S2 chain9 gx n0.
move: e; rewrite !upall9 andTb one3 !up4_1 // (negbTE ne) => e; rewrite /NetModel.resnet9 !e /=.
have ez : z0 isd w true D 64 x S1 = z0 isd w true D 64 x S.
  by case: (hS 0%N) => h1 h2; rewrite /z0 (outv_aff _ _ h1 h2).
have s0a S2 : same_affine S2 (s0 w true 64 x S2) by move=> k; rewrite /s0 /setl; case: eqP => [->|].
have ea : same_affine (s0 w true 64 x S) (s0 w true 64 x S1).
  by apply: aff_trans (s0a _); apply: aff_trans hS; apply: aff_sym; exact: s0a.
rewrite ez (bouts_aff isd w D cfgs9 1 _ ea); split=> // k; rewrite bsts_upd (inps_aff _ _ _ _ _ _ _ ea) /ninp.
case: (k =P 0%N) => [->|k0]; first by rewrite inps_lt //= /s0 /setl eqxx.
by congr (upd _ _); rewrite /s0 /setl ifF //; apply/negbTE/eqP.
Qed.

(* Passes over the same batch: outputs never change, and the recorded statistics approach those of the layer inputs
   geometrically. *)
Theorem C67_statistics (D : option (masks F)) (x : t4 F) (S : nstate F) : (0 < tn x)%N ->
  tc x = 3%N -> (0 < th x)%N -> (0 < tw x)%N -> ~~ [&& tn x == 1%N, (th x <= 4)%N & (tw x <= 4)%N] ->
  let after m := iter m (fun S => (resnet9 true D x S).1) in
  exists (y : t2 F) (inp : nat -> t4 F), forall S' m,
    (forall k, bg (S' k) = bg (S k) /\ bb (S' k) = bb (S k)) ->
    [/\ (resnet9 true D x (after m S')).2 = Ok y,
        forall k c, (k < 10)%N -> rm (after m S' k) c = bmean (inp k) c + (1 - 10%:R^-1) ^+ m * (rm (S' k) c - bmean (inp k) c),
        forall k c, (k < 10)%N -> let v := bvar (inp k) c * (cnt (inp k))%:R / (cnt (inp k)).-1%:R in
          rv (after m S' k) c = v + (1 - 10%:R^-1) ^+ m * (rv (S' k) c - v)
      & forall k, (10 <= k)%N -> after m S' k = S' k].
Proof.
move=> n0 h1 h2 h3 ne after; have gx : good x 3 by split.
have [y ey] : exists y, (resnet9 true D x S).2 = Ok y.
  have := C67_train D S n0; rewrite h1 h2 h3 /= (negbTE ne) => -[S' [y [-> _ _]]]; by exists y.
exists y, (fun k => odflt x (ninp D x S k)) => S' m hS.
have aff : same_affine S (after m S').
  elim: m => [|m IH] //=; have [_ h] := pass9 D gx n0 ne IH.
  by apply: aff_trans IH _ => k; rewrite h; case: ninp.
have st : forall m, [/\ same_affine S (after m S') & forall k, after m.+1 S' k = upd (ninp D x S k) (after m S' k)].
  elim=> [|q [IH1 IH2]]; first by split=> // k; have [_ h] := pass9 D gx n0 ne hS; rewrite -h.
  have a : same_affine S (after q.+1 S') by apply: aff_trans IH1 _ => k; rewrite IH2; case: ninp.
  by split=> // k; have [_ h] := pass9 D gx n0 ne a; rewrite -h.
have geo (a v u : F) : (1 - 10%:R^-1) * (v + a * (u - v)) + 10%:R^-1 * v = v + (1 - 10%:R^-1) * a * (u - v).
  by rewrite mulrDr mulrA addrAC -mulrDl subrK mul1r.
split.
- by have [-> _] := pass9 D gx n0 ne aff.
- move=> k c hk; have := ninp_some D x S k; rewrite hk; case ek: (ninp D x S k) => [z|] //= _.
  elim: (m) => [|q IH]; first by rewrite expr0 mul1r addrC subrK.
  by have [_ /(_ k)] := st q; rewrite ek => -> /=; rewrite IH geo exprS.
- move=> k c hk; have := ninp_some D x S k; rewrite hk; case ek: (ninp D x S k) => [z|] //= _.
  elim: (m) => [|q IH]; first by rewrite expr0 mul1r addrC subrK.
  by have [_ /(_ k)] := st q; rewrite ek => -> /=; rewrite IH geo exprS.
move=> k hk; have := ninp_some D x S k; rewrite ltnNge hk; case ek: (ninp D x S k) => [z|] //= _.
by elim: (m) => [|q IH] //; have [_ /(_ k)] := st q; rewrite ek => -> /=.
Qed.
End Resnet.

(* In training mode rows do see each other: two 1 x 1 images, the second one changed. *)
Section Couple.
Variables (F : realFieldType) (isd : F -> F).
Hypothesis isd_gt0 : forall v, 0 <= v -> 0 < isd v.
(* channel 0 of the first convolution and of the shortcuts, nothing else *)
Definition pick (k o c a d : nat) : F :=
  if [&& o == 0%N, c == 0%N & ((k == 0%N) && (a == 1%N) && (d == 1%N)) || ((k \in [:: 3; 6; 9]%N) && (a == 0%N) && (d == 0%N))]
  then 1 else 0.
Definition unitS : nstate F := fun _ => BN (fun=> 1) (fun=> 0) (fun=> 0) (fun=> 1).
Definition pair (u v : F) : t4 F := T4 2 3 1 1 (fun n _ _ _ => if n == 0%N then u else v).
Definition chan (x : t4 F) (u v : F) :=
  [/\ tn x = 2%N, th x = 1%N, tw x = 1%N, px x 0%N 0%N 0%N 0%N = u & px x 1%N 0%N 0%N 0%N = v].
Lemma conv_at k p cn co no x n s : kp k p -> th x = 1%N -> tw x = 1%N ->
  px (convv k s p cn co (pick no) x) n 0%N 0%N 0%N = \sum_(c < cn) pick no 0 c p p * px x n c 0%N 0%N.
Proof.
move=> h h1 h2; have := convv_spec k s p cn co (pick no) x (fun=> 0) n 0 0 0; rewrite addr0 => ->.
rewrite /sconv add0r h1 h2; apply: eq_bigr => c _; rewrite !big_ord1 mul0n add0n subn0.
by case/orP: h => /andP [/eqP -> /eqP ->].
Qed.
Lemma conv_pick k p cn co no x u v s : kp k p -> (0 < cn)%N -> (0 < s)%N -> pick no 0 0 p p = 1 ->
  chan x u v -> chan (convv k s p cn co (pick no) x) u v.
Proof.
move=> h c0 sp h1 [a1 a2 a3 a4 a5].
have E n : px (convv k s p cn co (pick no) x) n 0%N 0%N 0%N = px x n 0%N 0%N 0%N.
  rewrite conv_at // (bigD1 (Ordinal c0)) //= h1 mul1r big1 ?addr0 // => c /negbTE.
  rewrite -val_eqE /= => hc; by rewrite /pick hc /= mul0r.
by split; rewrite ?E //= ?a2 ?a3 osizeE // up_1.
Qed.
Lemma conv_none k p cn co no x s u v : kp k p -> (0 < s)%N -> no \notin [:: 0; 3; 6; 9]%N ->
  chan x u v -> chan (convv k s p cn co (pick no) x) 0 0.
Proof.
move=> h sp hn [a1 a2 a3 a4 a5]; move: hn; rewrite !inE !negb_or => /and4P [n0 n3 n6 n9].
have E n : px (convv k s p cn co (pick no) x) n 0%N 0%N 0%N = 0.
  rewrite conv_at // big1 // => c _; rewrite /pick !inE.
  by rewrite (negbTE n0) (negbTE n3) (negbTE n6) (negbTE n9) /= !andbF mul0r.
by split; rewrite ?E //= ?a2 ?a3 osizeE // up_1.
Qed.
Lemma bn_pair no x u v : chan x u v -> chan (outv isd true (unitS no) x)
  ((u - (u + v) / 2%:R) * isd (bvar x 0)) ((v - (u + v) / 2%:R) * isd (bvar x 0)).
Proof.
move=> [a1 a2 a3 a4 a5]; have m : bmean x 0 = (u + v) / 2%:R.
  by rewrite /bmean /cnt a1 a2 a3 !big_ord_recl !big_ord0 /= a4 a5 !addr0.
by split=> //=; rewrite m ?a4 ?a5 mulr1 addr0.
Qed.
Lemma bvar_ge0 (x : t4 F) c : 0 <= bvar x c.
Proof. by rewrite /bvar divr_ge0 ?ler0n //; do 3 (apply: sumr_ge0 => ? _); exact: sqr_ge0. Qed.
Lemma dbl (u : F) : u + u = u * 2%:R. Proof. by rewrite mulrDr mulr1. Qed.
Lemma half0 (u : F) : (u - (u + u) / 2%:R) = 0.
Proof. by rewrite dbl mulfK ?subrr // pnatr_eq0. Qed.
Lemma bn_same no x u : chan x u u -> chan (outv isd true (unitS no) x) 0 0.
Proof. by move/(bn_pair no); rewrite half0 mul0r. Qed.
Lemma bn_diff no x u : 0 < u -> chan x u 0 -> exists2 d, 0 < d & chan (outv isd true (unitS no) x) d (- d).
Proof.
move=> u0 /(bn_pair no); rewrite addr0 sub0r mulNr.
have -> : u - u / 2%:R = u / 2%:R.
  by apply: (canLR (addrK _)); rewrite -mulrDl dbl mulfK // pnatr_eq0.
by move=> h; eexists; last exact: h; rewrite mulr_gt0 ?divr_gt0 ?ltr0n // isd_gt0 // bvar_ge0.
Qed.
Lemma fin_act no x u v : chan x u v -> chan (fin None no true x) (relu u) (relu v).
Proof. by case=> a1 a2 a3 a4 a5; split=> //=; rewrite ?a4 ?a5. Qed.
Lemma relu_pos (u : F) : 0 < u -> relu u = u. Proof. by move=> h; rewrite /relu max_l // ltW. Qed.
Lemma relu_neg (u : F) : 0 <= u -> relu (- u) = 0. Proof. by move=> h; rewrite /relu max_r // oppr_le0. Qed.
Lemma relu0 : relu (0 : F) = 0. Proof. by rewrite /relu maxxx. Qed.
Definition dead (S : nstate F) := forall k, bg (S k) = (fun=> 1) /\ bb (S k) = (fun=> 0).
Lemma dead_outv S no y : dead S -> outv isd true (S no) y = outv isd true (unitS no) y.
Proof. by move=> h; case: (h no) => h1 h2; rewrite /outv /= h1 h2. Qed.
Definition lead (x : t4 F) := exists2 d, 0 < d & chan x d 0.
Lemma block_chan no g x S u v : dead S -> good x (cin g) -> (0 < cst g)%N -> (0 < cin g)%N -> sk g ->
  no.+2 \in [:: 3; 6; 9]%N -> chan x u v ->
  exists p q, chan (outv isd true (unitS no.+2) (y3 pick no g x)) p q /\
    chan (bout isd pick true None no g x S) (relu p) (relu q).
Proof.
move=> dS gx sg cg hk hn hx; set Y := outv _ _ _ _.
have hy : chan (y3 pick no g x) u v.
  by apply: conv_pick => //; rewrite /pick !eqxx hn orbT.
have hY := bn_pair no.+2 hy; rewrite -/Y in hY; do 2 eexists; split; first exact: hY.
have h1 : chan (z1 isd pick true None no g x S) 0 0.
  rewrite -relu0; apply: fin_act; rewrite dead_outv //; apply: (@bn_same no _ 0); rewrite /y1.
  apply: conv_none hx => //; move: hn; rewrite !inE; clear; lia.
have h2 : chan (z2 isd pick true None no g x S) 0 0.
  rewrite -relu0; apply: fin_act; rewrite dead_outv //; apply: (@bn_same no.+1 _ 0); rewrite /y2.
  apply: conv_none h1 => //; move: hn; rewrite !inE; clear; lia.
have e3 : z3 isd pick true None no g x S = Y by rewrite /z3 hk dead_outv.
case: h2 => b1 b2 b3 b4 b5; case: hY => c1 c2 c3 c4 c5.
have B n : px (bout isd pick true None no g x S) n 0%N 0%N 0%N
  = relu (px (z2 isd pick true None no g x S) n 0%N 0%N 0%N + px (z3 isd pick true None no g x S) n 0%N 0%N 0%N) by [].
by split; rewrite ?B ?e3 ?b4 ?b5 ?add0r ?c4 ?c5.
Qed.
Lemma chan_uniq x u v u' v' : chan x u v -> chan x u' v' -> u = u' /\ v = v'.
Proof. by case=> _ _ _ a4 a5 [_ _ _ b4 b5]; rewrite -a4 -a5. Qed.
Lemma block_lead no g x S : dead S -> good x (cin g) -> (0 < cst g)%N -> (0 < cin g)%N -> sk g ->
  no.+2 \in [:: 3; 6; 9]%N -> lead x -> lead (bout isd pick true None no g x S).
Proof.
move=> dS gx sg cg hk hn [d d0 hx]; have [p [q [h1 h2]]] := block_chan dS gx sg cg hk hn hx.
have hy : chan (y3 pick no g x) d 0 by apply: conv_pick => //; rewrite /pick !eqxx hn orbT.
have [d' d0' h3] := bn_diff no.+2 d0 hy.
have [ep eq] := chan_uniq h1 h3; exists d' => //.
by move: h2; rewrite ep eq relu_pos // relu_neg // ltW.
Qed.
Lemma block_zero no g x S : dead S -> good x (cin g) -> (0 < cst g)%N -> (0 < cin g)%N -> sk g ->
  no.+2 \in [:: 3; 6; 9]%N -> chan x 0 0 -> chan (bout isd pick true None no g x S) 0 0.
Proof.
move=> dS gx sg cg hk hn hx; have [p [q [h1 h2]]] := block_chan dS gx sg cg hk hn hx.
have hy : chan (y3 pick no g x) 0 0 by apply: conv_pick => //; rewrite /pick !eqxx hn orbT.
have [ep eq] := chan_uniq h1 (bn_same no.+2 hy).
by move: h2; rewrite ep eq relu0.
Qed.
Lemma dead_bst no g x S : dead S -> dead (bst isd pick true None no g x S).
Proof. by move=> h k; rewrite bst_upd; case: binp => //= y; exact: h. Qed.
Lemma bouts3 tr no g1 g2 g3 x S (w : nat -> nat -> nat -> nat -> nat -> F) D :
  bouts isd w tr D no [:: g1; g2; g3] x S =
  let S1 := bst isd w tr D no g1 x S in let x1 := bout isd w tr D no g1 x S in
  let S2 := bst isd w tr D (no + 3)%N g2 x1 S1 in let x2 := bout isd w tr D (no + 3)%N g2 x1 S1 in
  bout isd w tr D (no + 3 + 3)%N g3 x2 S2.
Proof. by []. Qed.
Lemma all3 (P : t4 F -> Prop) x S : dead S -> good x 64 ->
  (forall no g y T, dead T -> good y (cin g) -> (0 < cst g)%N -> (0 < cin g)%N -> sk g ->
     no.+2 \in [:: 3; 6; 9]%N -> P y -> P (bout isd pick true None no g y T)) -> P x ->
  P (bouts isd pick true None 1 cfgs9 x S).
Proof.
move=> dS gx step px0; rewrite -[cfgs9]/[:: Cfg 64 128 1; Cfg 128 256 2; Cfg 256 512 2] bouts3; cbv zeta.
set g1 := Cfg 64 128 1; set g2 := Cfg 128 256 2; set g3 := Cfg 256 512 2.
have [_ b1 _ _] := bout_shape isd pick true None 1 S (g := g1) gx isT.
set x1 := bout _ _ _ _ _ g1 _ _ in b1 *.
set S1 := bst isd pick true None 1 g1 x S; have d1 : dead S1 by exact: dead_bst.
have [_ b2 _ _] := bout_shape isd pick true None (1 + 3) S1 (g := g2) b1 isT.
set x2 := bout _ _ _ _ _ g2 _ _ in b2 *.
apply: (step) => //; first by exact: dead_bst.
by apply: (step) => //; apply: (step).
Qed.
Lemma pair_good u v : good (pair u v) 3. Proof. by []. Qed.
Lemma z0_chan u v : exists p q, chan (outv isd true (unitS 0%N) (y0 pick 64 (pair u v))) p q /\
  chan (z0 isd pick true None 64 (pair u v) unitS) (relu p) (relu q).
Proof.
have hy : chan (y0 pick 64 (pair u v)) u v by apply: conv_pick.
by do 2 eexists; split; [exact: (bn_pair 0%N hy)|apply: fin_act; exact: (bn_pair 0%N hy)].
Qed.
Lemma dead0 x : dead (s0 pick true 64 x unitS).
Proof. by move=> k; rewrite /s0 /setl; case: eqP. Qed.
Let W1 (o c : nat) : F := if c == 0%N then 1 else 0.
Lemma pickW m (f : nat -> F) : (0 < m)%N -> \sum_(c < m) W1 0 c * f c = f 0%N.
Proof. by case: m => // m _; rewrite big_ord_recl mul1r big1 ?addr0 // => c _; rewrite mul0r. Qed.
Lemma pickB m N K (B : t4 F) : (0 < m)%N -> th B = 1%N -> tw B = 1%N ->
  at2 (T2 N K (fun n o => \sum_(c < m) W1 o c * pool B n c + 0)) 0%N 0%N = px B 0%N 0%N 0%N 0%N.
Proof.
move=> m0 h2 h3; cbn [at2].
have -> : \sum_(c < m) W1 0 c * pool B 0 c = pool B 0 0 by exact: (pickW (fun c => pool B 0 c)).
by rewrite addr0 /pool h2 h3 !big_ord1 divr1.
Qed.
Lemma run9 u v p q : chan (bouts isd pick true None 1 cfgs9 (z0 isd pick true None 64 (pair u v) unitS)
     (s0 pick true 64 (pair u v) unitS)) p q ->
  exists y, (resnet9 isd pick true None 1 W1 (fun=> 0) (pair u v) unitS).2 = Ok y /\ at2 y 0%N 0%N = p.
Proof.
move=> h; have e := netE isd pick true None 1 W1 (fun=> 0) unitS chain9 (pair_good u v) isT.
rewrite /resnet9 e; eexists; split; first reflexivity.
case: h => h1 h2 h3 h4 h5.
rewrite -h4; exact: pickB.
Qed.
Theorem C67_train_rows_refuted :
  exists (w : nat -> nat -> nat -> nat -> nat -> F) (W : nat -> nat -> F) (b : nat -> F) (S : nstate F) (x x' : t4 F) y y',
    [/\ [/\ tn x = 2%N, tn x' = 2%N, tc x = 3%N & tc x' = 3%N], [/\ th x' = th x & tw x' = tw x],
        forall c i j, px x' 0%N c i j = px x 0%N c i j,
        (resnet9 isd w true None 1 W b x S).2 = Ok y /\ (resnet9 isd w true None 1 W b x' S).2 = Ok y'
      & at2 y 0%N 0%N <> at2 y' 0%N 0%N].
Proof.
have [d d0 hd] : lead (bouts isd pick true None 1 cfgs9 (z0 isd pick true None 64 (pair 1 0) unitS)
    (s0 pick true 64 (pair 1 0) unitS)).
  have [_ g _ _] := z0_shape isd pick true None 64 unitS (pair_good 1 0).
  apply: all3 => //; [exact: dead0|exact: block_lead|].
  have [p [q [h1 h2]]] := z0_chan 1 0; have hy : chan (y0 pick 64 (pair 1 0)) 1 0 by apply: conv_pick.
  have [d' d0' h3] := bn_diff 0%N ltr01 hy; have [ep eq] := chan_uniq h1 h3; exists d' => //.
  by move: h2; rewrite ep eq relu_pos // relu_neg // ltW.
have hz : chan (bouts isd pick true None 1 cfgs9 (z0 isd pick true None 64 (pair 1 1) unitS)
    (s0 pick true 64 (pair 1 1) unitS)) 0 0.
  have [_ g _ _] := z0_shape isd pick true None 64 unitS (pair_good 1 1).
  apply: (all3 (P := fun z => chan z 0 0)) => //; [exact: dead0|exact: block_zero|].
  have [p [q [h1 h2]]] := z0_chan 1 1; have hy : chan (y0 pick 64 (pair 1 1)) 1 1 by apply: conv_pick.
  have [ep eq] := chan_uniq h1 (bn_same 0%N hy); by move: h2; rewrite ep eq relu0.
have [y [e1 e2]] := run9 hd; have [y' [e1' e2']] := run9 hz.
exists pick, W1, (fun=> 0), unitS, (pair 1 0), (pair 1 1), y, y'; split; [by split|by split|by []|exact: (conj e1 e1')|].
by rewrite e2 e2' => e; rewrite e ltxx in d0.
Qed.
End Couple.

(* ---- the flat networks ---- *)
Section Flat.
Variable F : realFieldType.
Lemma mapM_ok (f : seq F -> res (seq F)) g rs : (forall r, r \in rs -> f r = Ok (g r)) -> mapM f rs = Ok (map g rs).
Proof.
elim: rs => [|r rs IH] //= h; rewrite h ?mem_head //= IH // => r' hr; apply: h; by rewrite inE hr orbT.
Qed.
Definition lin m k (W : nat -> nat -> F) (b : nat -> F) (r : seq F) : seq F :=
  mkseq (fun o => \sum_(c < m) W o c * nth 0 r c + b o) k.
Lemma linE m k W b r : size r = m -> linear m k W b r = Ok (lin m k W b r).
Proof. by move=> h; rewrite /linear h eqxx. Qed.
Definition mlp_row W1 b1 W2 b2 W3 b3 (r : seq F) : seq F :=
  lin 64 10 W3 b3 [seq Num.max v 0 | v <- lin 128 64 W2 b2 [seq Num.max v 0 | v <- lin (28 * 28) 128 W1 b1 r]].

Lemma row_size m i (e : seq F) : ((i * m + m) <= size e)%N -> size (take m (drop (i * m) e)) = m.
Proof. by move=> h; rewrite size_takel // size_drop; move: h; clear; lia. Qed.
Lemma row_nth m i (e : seq F) c : (c < m)%N -> nth 0 (take m (drop (i * m) e)) c = nth 0 e (i * m + c)%N.
Proof. by move=> h; rewrite nth_take // nth_drop. Qed.

(* logistic regression: one row per entry of the first dimension, each with exactly 28 * 28 numbers, or an exception *)
Theorem C67_lr W b (x : tensor F) : size (entries x) = prodn (shape x) ->
  match shape x with
  | [::] => lr_forward W b x = Err IndexError
  | n :: s => if (0 < n)%N && (prodn s == 28 * 28)%N
    then exists ys, [/\ lr_forward W b x = Ok ys, size ys = n & forall i, (i < n)%N ->
      nth [::] ys i = mkseq (fun o => \sum_(c < 28 * 28) W o c * nth 0 (entries x) (i * (28 * 28) + c) + b o) 10]
    else lr_forward W b x = Err RuntimeError
  end.
Proof.
rewrite /lr_forward; move: (28 * 28)%N => P.
case: x => -[|n s] e /= he; first by [].
rewrite /view_first /=; case: (n =P 0%N) => [->|/eqP n0]; first by [].
have n1 : (0 < n)%N by rewrite lt0n.
rewrite n1 he mulKn //=; set L := linear P 10 W b.
case: (prodn s =P P) => [eS|ne].
  rewrite eS (mapM_ok (g := lin P 10 W b)).
    eexists; split; [reflexivity|by rewrite !size_map size_iota|].
    move=> i hi; rewrite (nth_map [::]) ?size_map ?size_iota // (nth_map 0%N) ?size_iota // nth_iota // add0n.
    by apply: eq_mkseq => o; congr (_ + _); apply: eq_bigr => c _; rewrite row_nth.
  move=> r /mapP [i]; rewrite mem_iota add0n => /andP [_ hi] ->; apply: linE; apply: row_size.
  by rewrite he eS; nia.
case: n n0 n1 he => // n _ _ he; rewrite /= /L /linear drop0 size_take he.
have -> : (if (prodn s < n.+1 * prodn s)%N then prodn s else (n.+1 * prodn s)%N) = prodn s.
  by case: ltnP => //; nia.
by case: eqP.
Qed.

Lemma mlp_gen P A B C W1 b1 W2 b2 W3 b3 (x : tensor F) : (0 < P)%N ->
  if (P %| size (entries x))%N
  then exists ys, [/\ rbind (view_rows P x) (mapM (fun r =>
      rbind (linear P A W1 b1 r) (fun h =>
      rbind (linear A B W2 b2 (relus h)) (fun h' => linear B C W3 b3 (relus h'))))) = Ok ys,
    size ys = (size (entries x) %/ P)%N
    & forall i, (i < size ys)%N ->
      nth [::] ys i = lin B C W3 b3 [seq Num.max v 0 | v <- lin A B W2 b2 [seq Num.max v 0 | v <-
        lin P A W1 b1 (mkseq (fun c => nth 0 (entries x) (i * P + c)%N) P)]]]
  else rbind (view_rows P x) (mapM (fun r =>
      rbind (linear P A W1 b1 r) (fun h =>
      rbind (linear A B W2 b2 (relus h)) (fun h' => linear B C W3 b3 (relus h'))))) = Err RuntimeError.
Proof.
move=> P0; rewrite /view_rows /dvdn; case: ifP => [/eqP hd|/negbT hd] /=; last by rewrite hd.
have key i : (i < size (entries x) %/ P)%N -> size (take P (drop (i * P) (entries x))) = P.
  move=> hi; apply: row_size; have := divn_eq (size (entries x)) P; rewrite hd addn0.
  by move: hi; move: (size _ %/ P)%N => q hi ->; rewrite -mulSnr leq_mul2r hi orbT.
rewrite hd eqxx /= (mapM_ok (g := fun r => lin B C W3 b3 (relus (lin A B W2 b2 (relus (lin P A W1 b1 r)))))).
  eexists; split; [reflexivity|by rewrite !size_map size_iota|].
  move=> i; rewrite !size_map size_iota => hi.
  rewrite (nth_map [::]) ?size_map ?size_iota // (nth_map 0%N) ?size_iota // nth_iota // add0n.
  congr (lin _ _ _ _ (relus (lin _ _ _ _ (relus (lin _ _ _ _ _))))).
  apply: (@eq_from_nth _ 0); first by rewrite key // size_mkseq.
  by move=> c; rewrite key // => hc; rewrite row_nth // nth_mkseq.
move=> r /mapP [i]; rewrite mem_iota add0n => /andP [_ hi] ->.
rewrite linE; last exact: key.
rewrite /rbind linE; last by rewrite size_map size_mkseq.
by rewrite linE // size_map size_mkseq.
Qed.

(* the multi-layer perceptron cuts the entries of the whole batch into rows of 28 * 28 *)
Theorem C67_mlp W1 b1 W2 b2 W3 b3 (x : tensor F) :
  if (28 * 28 %| size (entries x))%N
  then exists ys, [/\ mlp_forward W1 b1 W2 b2 W3 b3 x = Ok ys, size ys = (size (entries x) %/ (28 * 28))%N
    & forall i, (i < size ys)%N ->
      nth [::] ys i = mlp_row W1 b1 W2 b2 W3 b3 (mkseq (fun c => nth 0 (entries x) (i * (28 * 28) + c)%N) (28 * 28))]
  else mlp_forward W1 b1 W2 b2 W3 b3 x = Err RuntimeError.
Proof. exact: mlp_gen. Qed.
(* images of 28 * 28 pixels: one row per image, a function of that image *)
Theorem C67_mlp_rows W1 b1 W2 b2 W3 b3 (x : tensor F) n s : size (entries x) = prodn (shape x) ->
  shape x = n :: s -> prodn s = (28 * 28)%N ->
  exists ys, [/\ mlp_forward W1 b1 W2 b2 W3 b3 x = Ok ys, size ys = n & forall i, (i < n)%N ->
    mlp_forward W1 b1 W2 b2 W3 b3 (Tensor (1%N :: s) (take (28 * 28) (drop (i * (28 * 28)) (entries x))))
    = Ok [:: nth [::] ys i]].
Proof.
have P0 : (0 < 28 * 28)%N by [].
move=> hx es hs; have := C67_mlp W1 b1 W2 b2 W3 b3 x.
have := C67_mlp W1 b1 W2 b2 W3 b3 (Tensor (1%N :: s) (take (28 * 28) (drop (_ * (28 * 28)) (entries x)))).
move: (mlp_forward W1 b1 W2 b2 W3 b3) (mlp_row W1 b1 W2 b2 W3 b3) hs P0 => fw row.
move: (28 * 28)%N => P hs P0 h1; rewrite {1 2}hx es [prodn _]/= hs dvdn_mull // mulnK //.
move=> [ys [-> sz hy]]; exists ys; split=> // i hi.
have sr : size (take P (drop (i * P) (entries x))) = P.
  by apply: row_size; rewrite hx es /= hs -mulSnr leq_mul2r hi orbT.
have := h1 i; rewrite [entries _]/= sr dvdnn divnn P0; move=> [zs [-> sz' hz]]; congr Ok.
case: zs sz' hz => [|z [|//]] //= _ /(_ 0%N isT) /= ->; congr [:: _]; rewrite hy ?sz //.
congr row; apply: (@eq_from_nth _ 0); rewrite ?size_mkseq // => c hc.
by rewrite !nth_mkseq // mul0n add0n row_nth.
Qed.
(* finding: two half images are accepted as one; logistic regression refuses them *)
Theorem C67_mlp_shapes_refuted W b W1 b1 W2 b2 W3 b3 :
  exists (x : tensor F) y, [/\ shape x = [:: 2; 14; 28]%N, size (entries x) = prodn (shape x),
    mlp_forward W1 b1 W2 b2 W3 b3 x = Ok [:: y] & lr_forward W b x = Err RuntimeError].
Proof.
pose x := Tensor [:: 2; 14; 28]%N (nseq (28 * 28) (0 : F)).
have sx : size (entries x) = (28 * 28)%N by rewrite size_nseq.
have es : shape x = [:: 2; 14; 28]%N by [].
have P0 : (0 < 28 * 28)%N by [].
have h0 : lr_forward W b x = Err RuntimeError by exact: (C67_lr W b (x := x) sx).
have [ys [h1 h2 _]] := C67_mlp W1 b1 W2 b2 W3 b3 x.
rewrite sx divnn P0 in h2.
by case: ys h2 h1 => [|y [|//]] // _ h1; exists x, y; split=> //; rewrite sx es.
Qed.
End Flat.

(* Non-vacuity: 1 / (1 + v) is a positive function of the variance, and a batch of two images is taken. *)
Example C67_nonvacuous :
  (forall v : rat, 0 <= v -> 0 < (1 + v)^-1) /\ takes (pair (1 : rat_realFieldType) 0) /\
  ~~ [&& tn (pair (1 : rat_realFieldType) 0) == 1%N, (1 <= 4)%N & (1 <= 4)%N] /\
  exists x : t4 rat_realFieldType, [/\ tn x = 1%N, tc x = 3%N, (0 < th x <= 4)%N, (0 < tw x <= 4)%N & (1 < th x * tw x)%N].
Proof.
split; first by move=> v v0; rewrite invr_gt0 ltr_paddr ?ltr01.
by split=> //; split=> //; exists (T4 1 3 2 3 (fun _ _ _ _ => 0)).
Qed.

Print Assumptions C67_resnet_eval.
Print Assumptions C67_rows.
Print Assumptions C67_train.
Print Assumptions C67_failed_pass.
Print Assumptions C67_statistics.
Print Assumptions C67_train_rows_refuted.
Print Assumptions C67_lr.
Print Assumptions C67_mlp.
Print Assumptions C67_mlp_rows.
Print Assumptions C67_mlp_shapes_refuted.
