(* What a batch does under one attributor's hooks. *)
Set Warnings "-notation-overridden,-ambiguous-paths".
From mathcomp Require Import all_ssreflect zify.
From Verif Require Import Py HookModel HookSpec HookProof.
Set Implicit Arguments. Unset Strict Implicit. Unset Printing Implicit Defensive.

Section P.
Variables (X D C : Type) (Name : eqType).
Notation world := (world X D C Name).
Notation batch := (batch X D).
Notation modl := (modl Name).
Variable model : seq modl.
Hypothesis uid : uniq (map (@d_id Name) model).
Hypothesis unm : uniq (map (@d_name Name) model).
Variables (names : seq Name) (comp : nat -> D -> X -> res C).
Notation hid := (hidx model names).
Notation mine := (@mine X D C Name model names comp).

Lemma ohead_rev T (x : T) s : ohead (rev (x :: s)) = Some (if ohead (rev s) is Some y then y else x).
Proof. by rewrite rev_cons; case: (rev s). Qed.
Definition ins (w : world) g i := nth None (g_inputs (w_mgr w g)) i.
Definition grd (w : world) g i := nth None (g_grads (w_mgr w g)) i.
Definition nodef (g : nat) (c : nat * X) : node X := if hid c.1 is Some i then Hooked X g i else Native c.1 c.2.

Lemma route_mine (w0 w : world) g m : plain w0 -> mine w0 w g ->
  route w m = Ok (if hid m is Some i then Some (g, i) else None).
Proof.
move=> [p1 p2 p3] [m1 m2 m3 m4 _ _]; rewrite /route m1; case e: (hid m) => [i|]; last by rewrite p1.
have -> : g_on (w_mgr w g) = true by move: m4; rewrite /core => -[].
by rewrite /= m3 eqxx.
Qed.

Lemma fwd_mine (w0 w : world) g tape cs : plain w0 -> mine w0 w g ->
  let r := fwd_all w tape cs in
  [/\ r.2 = Ok (tape ++ map (nodef g) cs), mine w0 r.1 g, w_wgrad r.1 = w_wgrad w,
      forall i, grd r.1 g i = grd w g i &
      forall m i, hid m = Some i ->
        ins r.1 g i = if ohead (rev [seq c.2 | c <- cs & c.1 == m]) is Some x then Some x else ins w g i].
Proof.
move=> p0; elim: cs w tape => [|c cs IH] w tape hm /=; first by rewrite cats0.
have hr := route_mine c.1 p0 hm.
have hfr := frame_fwd w c; have hm' := mine_frame hfr hm.
move: hfr hm'; rewrite /fwd_call hr.
case e: (hid c.1) => [i|] /= hfr hm'; last first.
  have [h1 h2 h3 h4 h5] := IH w (rcons tape (Native c.1 c.2)) hm.
  split=> //; first by rewrite h1 -cats1 -catA /= {2}/nodef e.
  move=> m j hj; rewrite (h5 m) //; case: eqP => [em|] //; by move: hj; rewrite -em e.
have [h1 h2 h3 h4 h5] := IH _ (rcons tape (Hooked X g i)) hm'.
split=> //; first by rewrite h1 -cats1 -catA /= {2}/nodef e.
  by move=> j; rewrite h4 /grd /= /upd eqxx.
move=> m j hj; rewrite (h5 m) // /ins /= /upd eqxx /= nth_set_nth /=.
case: (c.1 =P m) => [em|nm]; last first.
  have -> // : (j == i) = false by apply/negbTE/eqP => eji; apply: nm; apply: (hidx_inj uid unm e); rewrite -eji.
move: hj; rewrite -em e => -[<-]; rewrite eqxx /= ohead_rev.
by case: (ohead _).
Qed.

Definition lok (i : nat) (inp : option X) (ds : seq D) : bool :=
  match ds with
  | [::] => true
  | d :: ds' => if inp is Some x then is_ok (comp i d x) && nilp ds' else false
  end.
Definition lnew (i : nat) (inp : option X) (ds : seq D) (old : option C) : option C :=
  match ds, inp with d :: _, Some x => if comp i d x is Ok c then Some c else old | _, _ => old end.

Lemma bwd_mine (w0 w : world) g (b : batch) bs : plain w0 -> mine w0 w g ->
  let r := bwd_all w (map (nodef g) (b_calls b)) bs in
  [/\ is_ok r.2 <-> (forall m i, hid m = Some i -> lok i (ins w g i) (pmap (reach1 b m) bs)),
      is_ok r.2 -> (forall m i, hid m = Some i -> grd r.1 g i = lnew i (ins w g i) (pmap (reach1 b m) bs) (grd w g i)) /\
                   w_wgrad r.1 = w_wgrad w ++ pmap (native1 b (fun m => ~~ hid m)) bs &
      forall e, r.2 = Err e -> (forall i d x, is_ok (comp i d x)) -> e = AttributeError].
Proof.
move=> p0; elim: bs w => [|[p d] bs IH] w hm /=; first by rewrite cats0.
have ne : List.nth_error (map (nodef g) (b_calls b)) p = omap (nodef g) (List.nth_error (b_calls b) p).
  by elim: (b_calls b) p => [|c cs IHc] [|p] //=.
rewrite ne /reach1 /native1 /=; case ec: (List.nth_error (b_calls b) p) => [c|] /=; last exact: IH.
rewrite /nodef; case eh: (hid c.1) => [i|] /=; last first.
  set w1 := World _ _ _ _ _ _.
  have hm1 : mine w0 w1 g by apply: mine_frame hm.
  have [h1 h2 h3] := IH w1 hm1.
  split=> //.
  - rewrite h1; split=> h m j hj; move: (h m j hj); case: eqP => // em; by move: hj; rewrite -em eh.
  - move=> /h2 [k1 k2]; split; last by rewrite k2 /= -cats1 -catA.
    move=> m j hj; rewrite (k1 m) //; case: eqP => // em; by move: hj; rewrite -em eh.
have -> : w_reg w g = true by case: hm => _ _ -> _ _ _; rewrite eqxx.
have cmpE : g_comp (w_mgr w g) = comp by case: hm => _ _ _; rewrite /core => -[].
rewrite /= cmpE -/(ins w g i).
case ei: (ins w g i) => [x|] /=; last first.
  split=> // [|e [<-]] //; split=> // h; move: (h _ _ eh); by rewrite eqxx /= ei.
case ecp: (comp i d x) => [v|e] /=; last first.
  split=> // [|e' [<-] h]; last by move: (h i d x); rewrite ecp.
  by split=> // h; move: (h _ _ eh); rewrite eqxx /= ei ecp.
set w1 := set_mgr _ _ _.
have hm1 : mine w0 w1 g by apply: mine_frame hm; apply: frame_mgr; rewrite /core cmpE.
have [h1 h2 h3] := IH w1 hm1.
have i1 j : ins w1 g j = if j == i then None else ins w g j by rewrite /ins /w1 /= /upd eqxx /= nth_set_nth.
have g1 j : grd w1 g j = if j == i then Some v else grd w g j by rewrite /grd /w1 /= /upd eqxx /= nth_set_nth.
have diff m j : hid m = Some j -> c.1 <> m -> (j == i) = false.
  by move=> hj nm; apply/negbTE/eqP => eji; apply: nm; apply: (hidx_inj uid unm eh); rewrite -eji.
split=> //.
- rewrite h1; split=> h m j hj; move: (h m j hj); rewrite i1 -/(reach1 b m).
    case: (c.1 =P m) => [em|nm]; last by rewrite (diff _ _ hj nm).
    move: hj; rewrite -em eh => -[<-]; rewrite eqxx /= ei ecp /=; by case: (pmap _ bs).
  case: (c.1 =P m) => [em|nm]; last by rewrite (diff _ _ hj nm).
  move: hj; rewrite -em eh => -[<-]; rewrite eqxx /= ei ecp /=; by case: (pmap _ bs).
move=> hok; have [k1 k2] := h2 hok; split; last by rewrite k2.
move=> m j hj; rewrite (k1 m) // i1 g1 -/(reach1 b m); case: (c.1 =P m) => [em|nm]; last by rewrite (diff _ _ hj nm).
move: hj; rewrite -em eh => -[<-]; rewrite eqxx /= ei ecp /=; by case: (pmap _ bs).
Qed.

Lemma step_mine (w0 w : world) g (b : batch) : plain w0 -> mine w0 w g ->
  let r := step w b in
  [/\ is_ok r.2 <-> is_ok (b_loss b) /\ (forall m i, hid m = Some i -> layer_ok comp b m i),
      mine w0 r.1 g,
      is_ok r.2 -> (forall m i, hid m = Some i -> grd r.1 g i = layer_new comp b m i (grd w g i)) /\
                   w_wgrad r.1 = weight_grads b (fun m => ~~ hid m) &
      forall e, is_ok (b_loss b) -> r.2 = Err e -> (forall i d x, is_ok (comp i d x)) -> e = AttributeError].
Proof.
move=> p0 hm r; have hmr : mine w0 r.1 g by apply: mine_frame hm; exact: frame_step.
move: hmr; rewrite /r /step; set w1 := World _ _ _ _ _ _.
have hm1 : mine w0 w1 g by apply: mine_frame hm.
have := fwd_mine [::] (b_calls b) p0 hm1; case: (fwd_all _ _ _) => w2 [tape|e] /= [] // [->] hm2 hw hg hi.
have redc m i : hid m = Some i -> reached b m <> [::] -> exists2 x, last_input b m = Some x & ins w2 g i = Some x.
  move=> him hne; have [x ex] : exists x, last_input b m = Some x.
    rewrite /last_input; case er: (rev (inputs_of b m)) => [|x l]; last by exists x.
    case: hne; have {er} e0 : inputs_of b m = [::] by rewrite -(revK (inputs_of b m)) er.
    have r0 q : reach1 b m q = None.
      rewrite /reach1; case en: (List.nth_error (b_calls b) q.1) => [c|] //; case: eqP => // ec.
      have : (0 < size (inputs_of b m))%N; last by rewrite e0.
      rewrite /inputs_of size_map size_filter -has_count; elim: (b_calls b) (q.1) en => [|a s IHs] [|n] //=.
        by move=> [->]; rewrite ec eqxx.
      by move=> /IHs ->; rewrite orbT.
    by rewrite /reached; elim: (b_back b) => [//|q qs IH] /=; rewrite r0 /=.
  by exists x => //; rewrite (hi m) // -/(inputs_of b m) -/(last_input b m) ex.
have lokE m i : hid m = Some i -> lok i (ins w2 g i) (pmap (reach1 b m) (b_back b)) = layer_ok comp b m i.
  move=> him; rewrite /layer_ok -/(reached b m); case er: (reached b m) => [//|d ds] /=.
  have [|x -> ->] := redc m i him; first by rewrite er.
  by case: ds er => [|? ?] _; rewrite ?andbT ?andbF.
have lnewE m i o : hid m = Some i -> lnew i (ins w2 g i) (pmap (reach1 b m) (b_back b)) o = layer_new comp b m i o.
  move=> him; rewrite /layer_new -/(reached b m); case er: (reached b m) => [//|d ds] /=.
  by have [|x -> ->] := redc m i him; first by rewrite er.
case el: (b_loss b) => [u|e] /= hmr; last by split=> //; split=> // -[].
have [h1 h2 h3] := bwd_mine b (b_back b) p0 hm2.
split=> //.
- rewrite h1; split=> [h|[_ h] m i hj]; last by rewrite lokE // h.
  by split=> // m i hj; rewrite -lokE // h.
- move=> /h2 [k1 k2]; split; last by rewrite k2 hw.
  by move=> m i hj; rewrite (k1 m) // lnewE // hg.
by move=> e _; apply: h3.
Qed.

Lemma loop_mine (w0 w : world) g acc (bs : seq batch) : plain w0 -> mine w0 w g ->
  let r := loop w g acc bs in
  [/\ is_ok r.2 <-> List.Forall (fun b => [/\ is_ok (b_loss b), is_ok (b_store b) & forall m i, hid m = Some i -> layer_ok comp b m i]) bs,
      mine w0 r.1 g &
      forall gs, r.2 = Ok gs -> exists2 gs', gs = acc ++ gs' & size gs' = size bs /\
        forall t m i, (t < size bs)%N -> hid m = Some i ->
          nth None (nth [::] gs' t) i = layer_after comp bs m i t.+1 (grd w g i)].
Proof.
move=> p0; elim: bs w acc => [|b bs IH] w acc hm /=.
  by split=> // gs [<-]; exists [::]; rewrite ?cats0.
have [h1 h2 h3 _] := step_mine b p0 hm; case es: (step w b) h1 h2 h3 => [w1 [u|e]] /= h1 h2 h3; last first.
  split=> //; split=> // hf; case: notF; apply/h1; inversion hf; subst; case: H1 => ? ? ?; by split.
have [k1 k2] := h1; have {k1} [kl kk] := k1 isT.
have {h3} [g1 g2] := h3 isT.
case eb: (b_store b) => [u'|e] /=; last first.
  by split=> //; split=> // hf; inversion hf; subst; case: H1 => ?; rewrite eb.
have [j1 j2 j3] := IH w1 (rcons acc (g_grads (w_mgr w1 g))) h2.
split=> //.
- rewrite j1; split=> hf; first by apply: List.Forall_cons => //; split=> //; rewrite eb.
  by inversion hf.
move=> gs /j3 [gs' -> [sz hn]]; exists (g_grads (w_mgr w1 g) :: gs'); first by rewrite -cats1 -catA.
split=> [|t m i ht hi]; first by rewrite /= sz.
case: t ht => [|t] ht /=.
  by rewrite -/(grd w1 g i) (g1 m) // /layer_after /= take0.
by rewrite (hn t m i) // (g1 m) // /layer_after.
Qed.
End P.
