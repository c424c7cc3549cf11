(* Lemmas for C67: blocks and the whole network. *)
Set Warnings "-notation-overridden,-ambiguous-paths".
From mathcomp Require Import all_ssreflect all_algebra zify.
From Verif Require Import Py NetModel NetSpec NetProof.
Set Implicit Arguments. Unset Strict Implicit. Unset Printing Implicit Defensive.
Import GRing.Theory Num.Theory Order.Theory.
Local Open Scope ring_scope.

Section Blocks.
Variables (F : realFieldType) (isd : F -> F) (w : nat -> nat -> nat -> nat -> nat -> F).
Variables (tr : bool) (D : option (masks F)).
Local Notation t4 := (t4 F).
Local Notation bn := (bn F).
Local Notation nstate := (nstate F).
Local Notation block := (block isd w tr D).
Local Notation blocks := (blocks isd w tr D).
Local Notation outv := (outv isd tr).

Definition sk g := (cst g != 1%N) || (cin g != cpl g).
Definition y1 no g x := convv 3 (cst g) 1 (cin g) (cpl g) (w no) x : t4.
Definition z1 no g x (S : nstate) := fin D no true (outv (S no) (y1 no g x)).
Definition y2 no g x S := convv 3 1 1 (cpl g) (cpl g) (w no.+1) (z1 no g x S).
Definition z2 no g x (S : nstate) := fin D no.+1 true (outv (S no.+1) (y2 no g x S)).
Definition y3 no g x := convv 1 (cst g) 0 (cin g) (cpl g) (w no.+2) x : t4.
Definition z3 no g x (S : nstate) := if sk g then fin D no.+2 false (outv (S no.+2) (y3 no g x)) else x.
Definition bout no g x S : t4 := T4 (tn (z2 no g x S)) (tc (z2 no g x S)) (th (z2 no g x S)) (tw (z2 no g x S))
  (fun n c i j => relu (px (z2 no g x S) n c i j + px (z3 no g x S) n c i j)).
Definition bst no g x (S : nstate) : nstate :=
  if tr then
    let S2 := setl (setl S no (bn_step (S no) (y1 no g x))) no.+1 (bn_step (S no.+1) (y2 no g x S)) in
    if sk g then setl S2 no.+2 (bn_step (S no.+2) (y3 no g x)) else S2
  else S.
Definition good (x : t4) c := [/\ tc x = c, (0 < th x)%N & (0 < tw x)%N].

Lemma z1_shape no g x S : good x (cin g) -> (0 < cst g)%N ->
  [/\ tn (z1 no g x S) = tn x, good (z1 no g x S) (cpl g),
      th (z1 no g x S) = up (th x) (cst g) & tw (z1 no g x S) = up (tw x) (cst g)].
Proof.
case=> h1 h2 h3 s0; case: (fin_shp isd D no true tr (S no) (y1 no g x)) => e1 e2 e3 e4.
rewrite /good /z1 e1 e2 e3 e4 /= !osizeE //; split=> //; split=> //; exact: up_gt0.
Qed.
Lemma z2_shape no g x S : good x (cin g) -> (0 < cst g)%N ->
  [/\ tn (z2 no g x S) = tn x, good (z2 no g x S) (cpl g),
      th (z2 no g x S) = up (th x) (cst g) & tw (z2 no g x S) = up (tw x) (cst g)].
Proof.
move=> gx s0; have [a1 [a2 a3 a4] a5 a6] := z1_shape no S gx s0.
case: (fin_shp isd D no.+1 true tr (S no.+1) (y2 no g x S)) => e1 e2 e3 e4.
by rewrite /good /z2 e1 e2 e3 e4 /= !osizeE // ?a1 !up1; split.
Qed.
Lemma z3_shape no g x S : good x (cin g) -> (0 < cst g)%N ->
  [/\ tn (z3 no g x S) = tn x, tc (z3 no g x S) = cpl g,
      th (z3 no g x S) = up (th x) (cst g) & tw (z3 no g x S) = up (tw x) (cst g)].
Proof.
case=> h1 h2 h3 s0; rewrite /z3; case: ifP => [_|].
  case: (fin_shp isd D no.+2 false tr (S no.+2) (y3 no g x)) => e1 e2 e3 e4.
  by rewrite e1 e2 e3 e4 /= !osizeE.
by case/norP => /negbNE /eqP -> /negbNE /eqP <-; rewrite !up1.
Qed.
Lemma bout_shape no g x S : good x (cin g) -> (0 < cst g)%N ->
  [/\ tn (bout no g x S) = tn x, good (bout no g x S) (cpl g),
      th (bout no g x S) = up (th x) (cst g) & tw (bout no g x S) = up (tw x) (cst g)].
Proof. exact: z2_shape. Qed.

Definition bcnt g (x : t4) := (tn x * (up (th x) (cst g) * up (tw x) (cst g)))%N.
Lemma blockE no g x S : good x (cin g) -> (0 < cst g)%N ->
  block no g x S = if tr && (bcnt g x == 1%N) then (S, Err ValueError) else (bst no g x S, Ok (bout no g x S)).
Proof.
move=> gx s0; have [h1 h2 h3] := gx; rewrite /NetModel.block unitE //= -/(y1 no g x).
have -> : cnt (y1 no g x) = bcnt g x by rewrite /cnt /= !osizeE.
case c1: (tr && _) => //=; set S1 := if tr then _ else S.
have [a1 [a2 a3 a4] a5 a6] := z1_shape no S gx s0.
rewrite -/(z1 no g x S) unitE //= -/(y2 no g x S).
have -> : cnt (y2 no g x S) = bcnt g x by rewrite /cnt /= !osizeE // a1 a5 a6 !up1.
rewrite c1 /=; have E1 : S1 no.+1 = S no.+1 by rewrite /S1; case: (tr) => //; rewrite /setl; case: eqP => //; lia.
rewrite E1 -/(z2 no g x S); set S2 := if tr then _ else S1.
have [b1 [b2 b3 b4] b5 b6] := z2_shape no S gx s0.
have [d1 d2 d3 d4] := z3_shape no S gx s0.
have A : add4 (z2 no g x S) (z3 no g x S) = Ok (T4 (tn (z2 no g x S)) (tc (z2 no g x S)) (th (z2 no g x S))
   (tw (z2 no g x S)) (fun n c i j => px (z2 no g x S) n c i j + px (z3 no g x S) n c i j)).
  by rewrite /add4 b1 b2 b5 b6 d1 d2 d3 d4 !eqxx.
have E2 : S2 no.+2 = S no.+2.
  by rewrite /S2 /S1; case: (tr) => //; rewrite /setl; case: eqP => [|_]; [lia|]; case: eqP => //; lia.
rewrite -/(sk g); case sg: (sk g).
  rewrite unitE //= -/(y3 no g x).
  have -> : cnt (y3 no g x) = bcnt g x by rewrite /cnt /= !osizeE.
  rewrite c1 /= E2; have -> : fin D no.+2 false (outv (S no.+2) (y3 no g x)) = z3 no g x S by rewrite /z3 sg.
  rewrite A /=; congr (_, _); rewrite /bst sg /S2 /S1; case: (tr) => //.
rewrite /bout; rewrite /z3 sg in A *; rewrite /= A /=; congr (_, _); rewrite /bst sg /S2 /S1; by case: (tr).
Qed.

Fixpoint chain (c : nat) (gs : seq cfg) (c' : nat) : bool :=
  if gs is g :: gs' then [&& cin g == c, (0 < cst g)%N & chain (cpl g) gs' c'] else c == c'.
Definition upall (h : nat) (gs : seq cfg) := foldl (fun h g => up h (cst g)) h gs.
Fixpoint bouts no gs x S : t4 := if gs is g :: gs' then bouts (no + 3)%N gs' (bout no g x S) (bst no g x S) else x.
Fixpoint bsts no gs x S : nstate := if gs is g :: gs' then bsts (no + 3)%N gs' (bout no g x S) (bst no g x S) else S.
Lemma up_le h s : (0 < s)%N -> (0 < h)%N -> (up h s <= h)%N.
Proof.
move=> s0 h0; rewrite /up; case: s s0 => // s _; rewrite -ltnS ltn_divLR //=; nia.
Qed.
Lemma up_1 s : (0 < s)%N -> up 1 s = 1%N.
Proof. by move=> s0; rewrite /up add1n prednK // divnn s0. Qed.
Lemma bouts_shape c c' gs : forall no x S, chain c gs c' -> good x c ->
  [/\ tn (bouts no gs x S) = tn x, good (bouts no gs x S) c', th (bouts no gs x S) = upall (th x) gs
    & tw (bouts no gs x S) = upall (tw x) gs].
Proof.
elim: gs c => [|g gs IH] c no x S /=; first by move=> /eqP <-.
case/and3P=> /eqP e s0 ch gx; rewrite -e in gx; have [b1 b2 b3 b4] := bout_shape no S gx s0.
by have [c1 c2 c3 c4] := IH _ (no + 3)%N (bout no g x S) (bst no g x S) ch b2; rewrite c1 c3 c4 b1 b3 b4.
Qed.
Lemma one3 a b c : ((a * (b * c))%N == 1%N) = [&& a == 1%N, b == 1%N & c == 1%N].
Proof. by rewrite !muln_eq1. Qed.
Lemma upall_one h c c' gs : chain c gs c' -> h = 1%N -> upall h gs = 1%N.
Proof. by move=> ch ->; elim: gs c ch => //= g gs IH c /and3P [_ s0 ch]; rewrite up_1 //; exact: IH ch. Qed.
Lemma blocksE c c' gs : forall no x S, chain c gs c' -> good x c -> ~~ (tr && (cnt x == 1%N)) ->
  if tr && ((tn x * (upall (th x) gs * upall (tw x) gs))%N == 1%N)
  then (blocks no gs x S).2 = Err ValueError
  else blocks no gs x S = (bsts no gs x S, Ok (bouts no gs x S)).
Proof.
elim: gs c => [|g gs IH] c no x S /=; first by move=> _ _ /negbTE; rewrite /cnt /upall /= => ->.
case/and3P=> /eqP e s0 ch gx _; rewrite -e in gx; rewrite blockE //.
have [b1 b2 b3 b4] := bout_shape no S gx s0.
case c1: (tr && (bcnt g x == 1%N)).
  case/andP: c1 => -> /=; rewrite /bcnt one3 => /and3P [/eqP e1 /eqP e2 /eqP e3].
  by rewrite e1 e2 e3 !(upall_one ch).
have := IH _ (no + 3)%N (bout no g x S) (bst no g x S) ch b2.
by rewrite /cnt b1 b3 b4 -/(bcnt g x) c1 => /(_ isT).
Qed.

Definition y0 c0 x := convv 3 1 1 3 c0 (w 0) x : t4.
Definition z0 c0 x (S : nstate) := fin D 0 true (outv (S 0%N) (y0 c0 x)).
Definition s0 c0 x (S : nstate) := if tr then setl S 0 (bn_step (S 0%N) (y0 c0 x)) else S.
Lemma z0_shape c0 x S : good x 3 -> [/\ tn (z0 c0 x S) = tn x, good (z0 c0 x S) c0,
  th (z0 c0 x S) = th x & tw (z0 c0 x S) = tw x].
Proof.
case=> h1 h2 h3; case: (fin_shp isd D 0 true tr (S 0%N) (y0 c0 x)) => e1 e2 e3 e4.
by rewrite /good /z0 e1 e2 e3 e4 /= !osizeE // !up1; split.
Qed.
Lemma netE c0 feat gs classes W b x S : chain c0 gs feat -> good x 3 -> (0 < tn x)%N ->
  if tr && ((tn x * (upall (th x) gs * upall (tw x) gs))%N == 1%N)
  then (net isd w tr D c0 feat gs classes W b x S).2 = Err ValueError
  else net isd w tr D c0 feat gs classes W b x S
     = (bsts 1 gs (z0 c0 x S) (s0 c0 x S),
        Ok (T2 (tn x) classes (fun n o => \sum_(c < feat) W o c * pool (bouts 1 gs (z0 c0 x S) (s0 c0 x S)) n c + b o))).
Proof.
move=> ch gx n0; have [h1 h2 h3] := gx; rewrite /net unitE //= -/(y0 c0 x).
have -> : cnt (y0 c0 x) = cnt x by rewrite /cnt /= !osizeE // !up1.
have [b1 b2 b3 b4] := z0_shape c0 S gx.
case c1: (tr && (cnt x == 1%N)).
  case/andP: c1 => -> /=; rewrite /cnt one3 => /and3P [/eqP e1 /eqP e2 /eqP e3].
  by rewrite e1 !(upall_one ch).
rewrite /= -/(z0 c0 x S) -/(s0 c0 x S).
have c2 : ~~ (tr && (cnt (z0 c0 x S) == 1%N)) by rewrite /cnt b1 b3 b4 -/(cnt x) c1.
have := blocksE 1 (s0 c0 x S) ch b2 c2; rewrite b1 b3 b4; case: ifP => [_ -> //|_ -> /=]; congr (_, _).
have [d1 [d2 _ _] _ _] := bouts_shape 1 (s0 c0 x S) ch b2.
by rewrite /head d1 b1 d2 eqxx /= ifF //; apply/negbTE; rewrite -lt0n.
Qed.
Lemma block_lt no g x S k : good x (cin g) -> (0 < cst g)%N -> (k < no)%N -> (block no g x S).1 k = S k.
Proof.
move=> gx sg hk; rewrite blockE //; case: ifP => //= _; rewrite /bst; case: (tr) => //.
by case: (sk g); rewrite /setl !ifF //; apply/negbTE; lia.
Qed.
Lemma blocks_lt c c' gs : forall no x S k, chain c gs c' -> good x c -> (k < no)%N -> (blocks no gs x S).1 k = S k.
Proof.
elim: gs c => [|g gs IH] c no x S k //= /and3P [/eqP e sg ch] gx hk; rewrite -e in gx.
have [b1 b2 b3 b4] := bout_shape no S gx sg.
have := block_lt S gx sg hk; rewrite blockE //; case: ifP => //= _ <-.
by rewrite (IH _ _ _ _ _ ch b2) //; lia.
Qed.
End Blocks.

(* evaluation mode without dropout: the formula *)
Section Eval.
Variables (F : realFieldType) (isd : F -> F) (w : nat -> nat -> nat -> nat -> nat -> F) (S : nstate F).
Definition fused (k o c a d : nat) : F := w k o c a d * (isd (rv (S k) o) * bg (S k) o).
Definition shift (k o : nat) : F := bb (S k) o - rm (S k) o * (isd (rv (S k) o) * bg (S k) o).
Lemma fin_spec k s p cin cout no act (x : t4 F) (f : image F) n o i j : (forall c i j, px x n c i j = f c i j) ->
  px (fin None no act (outv isd false (S no) (convv k s p cin cout (w no) x))) n o i j
  = (if act then @pos F else id) (sconv k s p cin (th x) (tw x) (fused no) (shift no) f) o i j.
Proof.
move=> hx; set y := convv _ _ _ _ _ _ x.
have E : px (outv isd false (S no) y) n o i j = sconv k s p cin (th x) (tw x) (fused no) (shift no) f o i j.
  have Y := convv_spec k s p cin cout (w no) x (fun=> 0) n o i j; rewrite addr0 -/y in Y.
  rewrite /outv /bnorm -[LHS]/((px y n o i j - _) * _ * _ + _) Y; rewrite (@sconv_ext _ _ _ _ _ _ _ _ (w no) _ (fun=> 0) _ f) //.
  rewrite -sconv_fuse /shift; move: (sconv _ _ _ _ _ _ _ _ _ _ _ _) (isd _) => v q.
  by rewrite -!mulrA mulrBl [bb _ _ - _]addrC addrA.
move: (outv _ _ _ y) E => z E; by case: act => /=; rewrite /pos /relu E.
Qed.
Lemma sblock_ext no c p s h wd (x x' : image F) : (forall c i j, x c i j = x' c i j) ->
  forall o i j, sblock fused shift no c p s h wd x o i j = sblock fused shift no c p s h wd x' o i j.
Proof.
move=> hx o i j; rewrite /sblock /pos; congr (Num.max (Num.max _ _ + _) _).
  by apply: sconv_ext => // *; congr (Num.max _ _); exact: sconv_ext.
by case: ifP => _ //; exact: sconv_ext.
Qed.
Lemma bout_spec no g (x : t4 F) (f : image F) n o i j : good x (cin g) -> (0 < cst g)%N ->
  (forall c i j, px x n c i j = f c i j) ->
  px (bout isd w false None no g x S) n o i j
  = sblock fused shift no (cin g) (cpl g) (cst g) (th x) (tw x) f o i j.
Proof.
move=> gx sg hx; have [b1 _ b3 b4] := z1_shape isd w false None no S gx sg.
rewrite -[LHS]/(relu (px (z2 isd w false None no g x S) n o i j + px (z3 isd w false None no g x S) n o i j)).
rewrite /sblock /pos /relu; congr (Num.max (_ + _) _).
  rewrite /z2 /y2 (@fin_spec _ _ _ _ _ _ _ _ (px (z1 isd w false None no g x S) n)) // b3 b4 /pos.
  by congr (Num.max _ _); apply: sconv_ext => // c i' j'; rewrite /z1 /y1 (fin_spec _ _ _ _ _ _ _ _ _ _ hx).
rewrite /z3 /sk; case: ifP => h.
  by rewrite /y3 (fin_spec _ _ _ _ _ _ _ _ _ _ hx) /= ifF //; apply/negbTE; rewrite negb_and.
by move/negbT: h; rewrite negb_or !negbK => ->.
Qed.
Definition trip (g : cfg) := (cin g, cpl g, cst g).
Lemma sblocks_ext gs : forall no h wd (x x' : image F), (forall c i j, x c i j = x' c i j) ->
  let r := sblocks fused shift no gs h wd x in let r' := sblocks fused shift no gs h wd x' in
  r.1 = r'.1 /\ forall c i j, r.2 c i j = r'.2 c i j.
Proof.
elim: gs => [|[[c p] s] gs IH] no h wd x x' hx //=; apply: IH => *; exact: sblock_ext.
Qed.
Lemma bouts_spec c c' gs : forall no (x : t4 F) (f : image F) n, chain c gs c' -> good x c ->
  (forall c i j, px x n c i j = f c i j) ->
  let y := bouts isd w false None no gs x S in
  let r := sblocks fused shift no (map trip gs) (th x) (tw x) f in
  [/\ th y = r.1.1, tw y = r.1.2 & forall c i j, px y n c i j = r.2 c i j].
Proof.
elim: gs c => [|g gs IH] c no x f n //= /and3P [/eqP e sg ch] gx hx; rewrite -e in gx.
have [b1 b2 b3 b4] := bout_shape isd w false None no S gx sg.
have := IH _ (no + 3)%N (bout isd w false None no g x S) _ n ch b2 (fun c i j => bout_spec _ _ _ _ gx sg hx).
by rewrite b3 b4 /bst.
Qed.
Lemma bsts_eval D c c' gs : forall no (x : t4 F), chain c gs c' -> bsts isd w false D no gs x S = S.
Proof. by elim: gs c => [|g gs IH] c no x //= /and3P [_ _ ch]; rewrite /bst (IH _ _ _ ch). Qed.
End Eval.

(* evaluation statistics: rows do not see each other *)
Section Rows.
Variables (F : realFieldType) (isd : F -> F) (w : nat -> nat -> nat -> nat -> nat -> F) (S : nstate F).
Variables (D D' : option (masks F)) (f : nat -> nat).
Hypothesis DD : match D, D' with
  | Some m, Some m' => forall k n c i j, m' k n c i j = m k (f n) c i j | None, None => True | _, _ => False end.
Definition via (x y : t4 F) := [/\ tc y = tc x, th y = th x, tw y = tw x & forall n c i j, px y n c i j = px x (f n) c i j].
Lemma conv_via k s p cin cout wt x y : via x y -> via (convv k s p cin cout wt x) (convv k s p cin cout wt y).
Proof.
case=> h1 h2 h3 h4; split; rewrite /= ?h2 ?h3 // => n o i j.
by do 3 (apply: eq_bigr => ? _); rewrite /pad h2 h3; case: ifP => // _; rewrite h4.
Qed.
Lemma fin_via no act x y l : via x y -> via (fin D no act (outv isd false l x)) (fin D' no act (outv isd false l y)).
Proof.
case=> h1 h2 h3 h4; rewrite /fin /dropout; case: D D' DD => [m|] [m'|] // hm; case: act => /=;
 split=> //= n c i j; by rewrite ?hm h4.
Qed.
Lemma bout_via no g x y : via x y -> via (bout isd w false D no g x S) (bout isd w false D' no g y S).
Proof.
move=> h; have v2 : via (z2 isd w false D no g x S) (z2 isd w false D' no g y S).
  by apply: fin_via; apply: conv_via; apply: fin_via; apply: conv_via.
have v3 : via (z3 isd w false D no g x S) (z3 isd w false D' no g y S).
  by rewrite /z3; case: ifP => // _; apply: fin_via; apply: conv_via.
by case: v2 v3 => a1 a2 a3 a4 [b1 b2 b3 b4]; split=> //= n c i j; rewrite a4 b4.
Qed.
Lemma bouts_via gs : forall no x y, via x y -> via (bouts isd w false D no gs x S) (bouts isd w false D' no gs y S).
Proof. by elim: gs => [|g gs IH] no x y h //=; apply: IH; exact: bout_via. Qed.
End Rows.

Arguments bst : simpl never.
Arguments bout : simpl never.
(* training mode: the recorded statistics are written but not read *)
Section Train.
Variables (F : realFieldType) (isd : F -> F) (w : nat -> nat -> nat -> nat -> nat -> F) (D : option (masks F)).
Definition same_affine (S S' : nstate F) := forall k, bg (S' k) = bg (S k) /\ bb (S' k) = bb (S k).
Local Notation z1 := (z1 isd w true D).
Local Notation y2 := (y2 isd w true D).
Local Notation z2 := (z2 isd w true D).
Local Notation bout := (bout isd w true D).
Local Notation bst := (bst isd w true D).
Lemma outv_aff (l l' : bn F) y : bg l' = bg l -> bb l' = bb l -> outv isd true l' y = outv isd true l y.
Proof. by rewrite /outv => -> ->. Qed.
Lemma z1_aff S S' no g x : same_affine S S' -> z1 no g x S' = z1 no g x S.
Proof. by move=> h; case: (h no) => h1 h2; rewrite /NetProof2.z1 (outv_aff _ h1 h2). Qed.
Lemma bout_aff S S' no g x : same_affine S S' -> bout no g x S' = bout no g x S.
Proof.
move=> h; have e : z2 no g x S' = z2 no g x S.
  by case: (h no.+1) => h1 h2; rewrite /NetProof2.z2 /NetProof2.y2 (z1_aff _ _ _ h) (outv_aff _ h1 h2).
rewrite /NetProof2.bout e /z3; case: ifP => // _; by case: (h no.+2) => h1 h2; rewrite (outv_aff _ h1 h2).
Qed.
Definition binp no g x (S : nstate F) (k : nat) : option (t4 F) :=
  if k == no then Some (y1 w no g x) else if k == no.+1 then Some (y2 no g x S)
  else if sk g && (k == no.+2) then Some (y3 w no g x) else None.
Lemma binp_aff S S' no g x k : same_affine S S' -> binp no g x S' k = binp no g x S k.
Proof. by move=> h; rewrite /binp /NetProof2.y2 (z1_aff _ _ _ h). Qed.
Definition upd (o : option (t4 F)) (l : bn F) := if o is Some y then bn_step l y else l.
Lemma bst_upd no g x S k : bst no g x S k = upd (binp no g x S k) (S k).
Proof.
rewrite /NetProof2.bst /binp; case sg: (sk g); rewrite /setl /=.
  case: (k =P no.+2) => [->|_]; first by rewrite !ifF //; apply/negbTE; lia.
  by case: (k =P no.+1) => [->|_]; [rewrite ifF //; apply/negbTE; lia|case: (k =P no) => [->|]].
by case: (k =P no.+1) => [->|_]; [rewrite ifF //; apply/negbTE; lia|case: (k =P no) => [->|]].
Qed.
Lemma upd_aff S o : same_affine S (fun k => upd (o k) (S k)).
Proof. by move=> k; case: (o k). Qed.
Lemma bst_aff no g x S : same_affine S (bst no g x S).
Proof. by move=> k; rewrite bst_upd; case: binp. Qed.
Lemma aff_trans S1 S2 S3 : same_affine S1 S2 -> same_affine S2 S3 -> same_affine S1 S3.
Proof. by move=> h h' k; case: (h k) (h' k) => -> -> []. Qed.
Lemma aff_sym S1 S2 : same_affine S1 S2 -> same_affine S2 S1.
Proof. by move=> h k; case: (h k) => -> ->. Qed.
Fixpoint inps no gs x S (k : nat) : option (t4 F) :=
  if gs is g :: gs' then
    if binp no g x S k is Some y then Some y else inps (no + 3)%N gs' (bout no g x S) (bst no g x S) k
  else None.
Lemma inps_lt gs : forall no x S k, (k < no)%N -> inps no gs x S k = None.
Proof.
elim: gs => [|g gs IH] no x S k hk //=; rewrite /binp.
have -> : (k == no) = false by lia.
have -> : (k == no.+1) = false by lia.
have -> : (k == no.+2) = false by lia.
by rewrite andbF IH //; lia.
Qed.
Lemma bsts_upd gs : forall no x S k, bsts isd w true D no gs x S k = upd (inps no gs x S k) (S k).
Proof.
elim: gs => [|g gs IH] no x S k //=; rewrite IH bst_upd; case e: (binp no g x S k) => [y|] //=.
rewrite inps_lt //; move: e; rewrite /binp.
case: (k =P no) => [->|_]; first by lia.
case: (k =P no.+1) => [->|_]; first by lia.
by case: (k =P no.+2) => [->|_]; [lia|rewrite andbF].
Qed.
Lemma inps_aff gs : forall no x S S' k, same_affine S S' -> inps no gs x S' k = inps no gs x S k.
Proof.
elim: gs => [|g gs IH] no x S S' k h //=; rewrite (binp_aff _ _ _ _ h) (bout_aff _ _ _ h); case: binp => //.
apply: IH; apply: aff_trans (bst_aff _ _ _ _); apply: aff_trans h; exact: (aff_sym (bst_aff _ _ _ _)).
Qed.
Lemma bouts_aff gs : forall no x S S', same_affine S S' ->
  bouts isd w true D no gs x S' = bouts isd w true D no gs x S.
Proof.
elim: gs => [|g gs IH] no x S S' h //=; rewrite (bout_aff _ _ _ h).
apply: IH; apply: aff_trans (bst_aff _ _ _ _); apply: aff_trans h; exact: (aff_sym (bst_aff _ _ _ _)).
Qed.
End Train.
