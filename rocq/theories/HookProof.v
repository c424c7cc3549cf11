(* Lemmas about hooks. *)
Set Warnings "-notation-overridden,-ambiguous-paths".
From mathcomp Require Import all_ssreflect zify.
From Verif Require Import Py HookModel HookSpec.
Set Implicit Arguments. Unset Strict Implicit. Unset Printing Implicit Defensive.

Section P.
Variables (X D C : Type) (Name : eqType).
Notation world := (world X D C Name).
Notation batch := (batch X D).
Notation modl := (modl Name).
Variable model : seq modl.
Hypothesis uid : uniq (map (@d_id Name) model).
Hypothesis unm : uniq (map (@d_name Name) model).

(* ------------------------------------------------------------------ which layers *)
Definition hit (names : seq Name) (d : modl) : bool := (d_name d \in names) && d_linear d.
(* the entry of the last module processed with this id *)
Definition hidx_in (names : seq Name) (ms : seq modl) (m : nat) : option nat :=
  if [seq d <- ms | d_id d == m] is d :: _ then if hit names d then Some (name_idx names (d_name d)) else None else None.
Definition hidx (names : seq Name) (m : nat) : option nat := hidx_in names model m.

Lemma name_idxP (names : seq Name) x : x \in names ->
  [/\ (name_idx names x < size names)%N, nth x names (name_idx names x) = x &
      forall j, (name_idx names x < j < size names)%N -> nth x names j <> x].
Proof.
move=> hx; rewrite /name_idx; set k := index x (rev names).
have hk : (k < size names)%N by rewrite /k -(size_rev names) index_mem mem_rev.
split; first by move: hk; clear; lia.
  have := nth_index x (_ : x \in rev names); rewrite mem_rev => /(_ hx); rewrite -/k nth_rev //.
  by have -> : (size names - k.+1 = (size names).-1 - k)%N by move: hk; clear; lia.
move=> j /andP [h1 h2] e.
have hj : (size names - j.+1 < k)%N by move: h1 h2 hk; clear; lia.
have := before_find x hj; rewrite nth_rev; last by move: h1 h2 hk; clear; lia.
have -> : (size names - (size names - j.+1).+1 = j)%N by move: h2; clear; lia.
by rewrite /= e eqxx.
Qed.
Lemma name_idx_uniq (names : seq Name) x i : x \in names -> (i < size names)%N -> nth x names i = x ->
  (forall j, (i < j < size names)%N -> nth x names j <> x) -> i = name_idx names x.
Proof.
move=> hx hi e h; have [h1 h2 h3] := name_idxP hx.
apply/eqP; case: ltngtP => // hlt; first by case: (h _ _ h2); rewrite hlt.
by case: (h3 i _ e); rewrite hlt.
Qed.

Lemma In_filter T (p : pred T) d (s : seq T) : List.In d s -> p d -> List.In d (filter p s).
Proof. by elim: s => [//|a s IH] /= [-> -> | h hp]; [left|case: ifP => _; [right|]; apply: IH]. Qed.
Lemma filter_In T (p : pred T) d (s : seq T) : List.In d (filter p s) -> List.In d s /\ p d.
Proof. by elim: s => [//|a s IH] /=; case: ifP => hp /=; [case=> [<-|/IH [h1 h2]]|move=> /IH [h1 h2]]; split=> //; try (by left); right. Qed.

Lemma filter_none (n : nat) (s : seq modl) : n \notin map (@d_id Name) s -> [seq e <- s | d_id e == n] = [::].
Proof. by elim: s => [//|e s IH] /=; rewrite in_cons negb_or eq_sym => /andP [/negbTE -> /IH]. Qed.
Lemma filter_one (ms : seq modl) d : uniq (map (@d_id Name) ms) -> List.In d ms -> [seq e <- ms | d_id e == d_id d] = [:: d].
Proof.
have inm (e : modl) (s : seq modl) : List.In e s -> d_id e \in map (@d_id Name) s.
  by elim: s => [//|f s IH] /= [->|/IH h]; rewrite in_cons ?eqxx // h orbT.
elim: ms => [//|a ms IH] /= /andP [ha hu] [<-|hd]; first by rewrite eqxx filter_none.
case: eqP => [e|_]; last exact: IH.
by move: ha; rewrite e inm.
Qed.

Lemma hidxP names m i : hidx names m = Some i <-> hooked_layer model names m i.
Proof.
rewrite /hidx /hidx_in; split.
  case e: [seq d <- model | d_id d == m] => [//|d l].
  have [hin hm] : List.In d model /\ d_id d == m by apply: (@filter_In _ (fun f : modl => d_id f == m)); rewrite e; left.
  case: ifP => // /andP [hn hl] [<-]; exists d; have [h1 h2 h3] := name_idxP hn.
  by split=> //; apply/eqP.
case=> d [hin hm hl hi [hn hj]]; rewrite -hm (filter_one uid hin) /hit hl.
have hx : d_name d \in names by rewrite -hn mem_nth.
by rewrite hx (name_idx_uniq hx hi hn hj).
Qed.
Lemma hidx_inj names m m' i : hidx names m = Some i -> hidx names m' = Some i -> m = m'.
Proof.
move=> /hidxP [d [h1 h2 h3 h4 [h5 h6]]] /hidxP [d' [g1 g2 g3 g4 [g5 g6]]].
have e : d_name d = d_name d' by rewrite -h5 -g5; apply: set_nth_default.
rewrite -h2 -g2; congr (d_id _).
have one (s : seq modl) : uniq (map (@d_name Name) s) -> List.In d s -> List.In d' s -> d = d'.
  have inm (f : modl) (t : seq modl) : List.In f t -> d_name f \in map (@d_name Name) t.
    by elim: t => [//|a t IH] /= [->|/IH h]; rewrite in_cons ?eqxx // h orbT.
  elim: s => [//|a s IH] /= /andP [ha hu] [ea|hd] [ea'|hd'].
  - by rewrite -ea -ea'.
  - by move: ha; rewrite ea e inm.
  - by move: ha; rewrite ea' -e inm.
  exact: IH.
exact: one unm h1 g1.
Qed.
Lemma hidx_none names m : hidx names m = None <-> forall i, ~ hooked_layer model names m i.
Proof.
split=> [e i /hidxP|h]; first by rewrite e.
by case e: (hidx names m) => [i|//]; case: (h i); apply/hidxP.
Qed.

(* ------------------------------------------------------------------ what steps leave alone *)
Definition core (w : world) g := let a := w_mgr w g in (g_names a, g_cached a, g_on a, g_comp a).
Definition frame (w w' : world) : Prop :=
  [/\ w_fwd w' = w_fwd w, w_orig w' = w_orig w, w_reg w' = w_reg w, w_next w' = w_next w & forall g, core w' g = core w g].
Lemma frame_refl w : frame w w. Proof. by []. Qed.
Lemma frame_trans w1 w2 w3 : frame w1 w2 -> frame w2 w3 -> frame w1 w3.
Proof. by move=> [a1 a2 a3 a4 h] [b1 b2 b3 b4 h']; split; [rewrite b1|rewrite b2|rewrite b3|rewrite b4|move=> g; rewrite h']. Qed.
Lemma frame_mgr w g a : (g_names a, g_cached a, g_on a, g_comp a) = core w g -> frame w (set_mgr w g a).
Proof. by move=> e; split=> // g'; rewrite /core /= /upd; case: eqP => [->|]. Qed.
Lemma frame_fwd w c : frame w (fwd_call w c).1.
Proof. by rewrite /fwd_call; case: (route w c.1) => [[gi|]|e] //=; apply: frame_mgr. Qed.
Lemma frame_fwds w tape cs : frame w (fwd_all w tape cs).1.
Proof.
elim: cs w tape => [|c cs IH] w tape //=; have := frame_fwd w c; case: (fwd_call w c) => w' [t|e] //= h.
by apply: frame_trans h (IH _ _).
Qed.
Lemma frame_node w t d : frame w (bwd_node w t d).1.
Proof.
case: t => [m x|g i] //=; case: (w_reg w g) => //=; case: (nth _ _ _) => [x|] //=; case: (g_comp _ _ _ _) => [c|e] //=.
by apply: frame_mgr.
Qed.
Lemma frame_bwd w tape bs : frame w (bwd_all w tape bs).1.
Proof.
elim: bs w => [|b bs IH] w //=; case: (List.nth_error tape b.1) => [t|] //.
have := frame_node w t b.2; case: (bwd_node w t b.2) => w' [u|e] //= h; exact: frame_trans h (IH _).
Qed.
Lemma frame_step w b : frame w (step w b).1.
Proof.
rewrite /step; set w0 := World _ _ _ _ _ _; have h0 : frame w w0 by [].
have := frame_fwds w0 [::] (b_calls b); case: (fwd_all _ _ _) => w1 [tape|e] /= h1; last exact: frame_trans h0 h1.
case: (b_loss b) => [u|e]; last exact: frame_trans h0 h1.
by apply: frame_trans (frame_trans h0 h1) (frame_bwd _ _ _).
Qed.
Lemma frame_loop w g acc bs : frame w (loop w g acc bs).1.
Proof.
elim: bs w acc => [|b bs IH] w acc //=; have := frame_step w b; case: (step w b) => w' [u|e] //= h.
by case: (b_store b) => [u'|e] //=; apply: frame_trans h (IH _ _).
Qed.
Lemma route_frame w w' m : frame w w' -> route w' m = route w m.
Proof.
move=> [h1 h2 h3 h4 h5]; rewrite /route h1 h2 h3.
have on g : g_on (w_mgr w' g) = g_on (w_mgr w g) by have := h5 g; rewrite /core => -[].
case: (w_fwd w m) => [gi|] //; rewrite on; case: (g_on _) => //; case: (w_orig w m) => [[gi'|]|] //; by rewrite on.
Qed.

(* ------------------------------------------------------------------ attaching *)
Definition named_ids (names : seq Name) (ms : seq modl) : seq nat := [seq d_id d | d <- ms & d_name d \in names].
Record mine (names : seq Name) (comp : nat -> D -> X -> res C) (w0 w : world) (g : nat) : Prop := Mine {
  mi_fwd : forall m, w_fwd w m = if hidx names m is Some i then Some (g, i) else w_fwd w0 m;
  mi_orig : forall m, w_orig w m = if hidx names m is Some i then Some (w_fwd w0 m) else w_orig w0 m;
  mi_reg : forall g', w_reg w g' = if g' == g then true else w_reg w0 g';
  mi_core : core w g = (names, named_ids names model, true, comp);
  mi_other : forall g', g' != g -> core w g' = core w0 g';
  mi_next : (g < w_next w)%N }.

Lemma mine_frame names comp w0 w w' g : frame w w' -> mine names comp w0 w g -> mine names comp w0 w' g.
Proof.
move=> [h1 h2 h3 h4 h5] [m1 m2 m3 m4 m5 m6]; split.
- by move=> m; rewrite h1.
- by move=> m; rewrite h2.
- by move=> g'; rewrite h3.
- by rewrite h5.
- by move=> g' hg; rewrite h5 m5.
by rewrite h4.
Qed.

Lemma attach_mine names comp w : let r := attach model names comp w in
  [/\ mine names comp w r.1 r.2, r.2 = w_next w, w_next r.1 = (w_next w).+1, w_wgrad r.1 = w_wgrad w &
      g_inputs (w_mgr r.1 r.2) = nseq (size names) None /\ g_grads (w_mgr r.1 r.2) = nseq (size names) None].
Proof.
rewrite /attach /=; set g := w_next w; set w1 := World _ _ _ _ _ _.
suff H : forall ms, uniq (map (@d_id Name) ms) ->
   let w2 := foldl (wrap names g) w1 ms in
   [/\ (forall m, w_fwd w2 m = if hidx_in names ms m is Some i then Some (g, i) else w_fwd w m),
       (forall m, w_orig w2 m = if hidx_in names ms m is Some i then Some (w_fwd w m) else w_orig w m),
       w_reg w2 = w_reg w1 /\ w_next w2 = w_next w1 /\ w_wgrad w2 = w_wgrad w1,
       core w2 g = (names, named_ids names ms, true, comp) /\
         (g_inputs (w_mgr w2 g) = nseq (size names) None /\ g_grads (w_mgr w2 g) = nseq (size names) None) &
       (forall g', g' != g -> w_mgr w2 g' = w_mgr w g')].
  have := H model uid => /=; set w2 := foldl _ _ _.
  move=> [h1 h2 [h3 [h4 h4']] [h5 h5'] h6]; split=> //.
  split=> //; first by move=> g'; rewrite h3 /= /upd; case: eqP.
    by move=> g' hg; rewrite /core h6.
  by rewrite h4 /=.
elim/last_ind=> [|ms d IH] hu.
  rewrite /=; split=> // [|g' hg]; last by rewrite /upd (negbTE hg).
  by rewrite /core /= /upd eqxx.
move: hu; rewrite map_rcons rcons_uniq => /andP [hd /IH] /=; rewrite foldl_rcons; set w2 := foldl _ _ _.
move=> [h1 h2 [h3 [h4 h5]] [h6 [h7 h7']] h8].
have hin m : hidx_in names (rcons ms d) m = if d_id d == m then if hit names d then Some (name_idx names (d_name d)) else None else hidx_in names ms m.
  rewrite /hidx_in filter_rcons; case: eqP => [<-|//]; by rewrite filter_none.
have hnone : hidx_in names ms (d_id d) = None by rewrite /hidx_in filter_none.
have hids : named_ids names (rcons ms d) = if d_name d \in names then rcons (named_ids names ms) (d_id d) else named_ids names ms.
  by rewrite /named_ids filter_rcons; case: ifP => // _; rewrite map_rcons.
rewrite /wrap; case: (boolP (d_name d \in names)) => hn; last first.
  rewrite hids (negbTE hn); split=> // m; rewrite hin /hit (negbTE hn) /=; case: eqP => [<-|_]; by rewrite ?h1 ?h2 ?hnone.
have cE : core w2 g = (g_names (w_mgr w2 g), g_cached (w_mgr w2 g), g_on (w_mgr w2 g), g_comp (w_mgr w2 g)) by [].
move: h6; rewrite cE => -[k1 k2 k3 k4].
case: (boolP (d_linear d)) => hl; rewrite /= hids hn; split=> //=.
- by move=> m; rewrite hin /hit hn hl /= /upd eq_sym; case: eqP => // ->.
- by move=> m; rewrite hin /hit hn hl /= /upd eq_sym; case: eqP => // <-; rewrite h1 hnone.
- by rewrite /core /= /upd eqxx /= k1 k2 k3 k4.
- by move=> g' hg; rewrite /upd (negbTE hg) h8.
- by move=> m; rewrite hin /hit hn (negbTE hl) /=; case: eqP => // <-; rewrite h1 hnone.
- by move=> m; rewrite hin /hit hn (negbTE hl) /=; case: eqP => // <-; rewrite h2 hnone.
- by rewrite /core /= /upd eqxx /= k1 k2 k3 k4.
by move=> g' hg; rewrite /upd (negbTE hg) h8.
Qed.

(* ------------------------------------------------------------------ removing *)
Lemma unwraps_other (w : world) ms : let w' := foldl (@unwrap X D C Name) w ms in
  [/\ w_reg w' = w_reg w, w_mgr w' = w_mgr w, w_next w' = w_next w & w_wgrad w' = w_wgrad w].
Proof.
elim: ms w => [//|m ms IH] w /=; have [-> -> -> ->] := IH (unwrap w m).
by rewrite /unwrap; case: (w_orig w m).
Qed.
Lemma unwraps (w : world) ms m : let w' := foldl (@unwrap X D C Name) w ms in
  w_fwd w' m = (if m \in ms then if w_orig w m is Some f then f else w_fwd w m else w_fwd w m) /\
  w_orig w' m = (if m \in ms then None else w_orig w m).
Proof.
elim: ms w => [//|k ms IH] w /=; have [-> ->] := IH (unwrap w k).
rewrite /unwrap in_cons; case e: (w_orig w k) => [f|] /=; last first.
  by case: eqP => [->|] //=; rewrite e; case: ifP.
rewrite /upd; case: eqP => [->|_] //=; rewrite e; by case: ifP.
Qed.
Lemma mem_named names m i : hidx names m = Some i -> m \in named_ids names model.
Proof.
move=> /hidxP [d [h1 h2 h3 h4 [h5 _]]]; rewrite -h2 /named_ids.
have hx : d_name d \in names by rewrite -h5 mem_nth.
elim: (model) h1 => [//|a s IH] /= [->|/IH h]; first by rewrite hx /= in_cons eqxx.
by case: ifP => _ //=; rewrite in_cons h orbT.
Qed.
(* names of modules that are not Linear: nobody has ever patched them *)
Definition tidy (w : world) : Prop := forall d, List.In d model -> ~~ d_linear d -> w_orig w (d_id d) = None.
Lemma remove_mine names comp w0 w g : mine names comp w0 w g -> tidy w0 ->
  let w' := remove w g in
  [/\ forall m, w_fwd w' m = w_fwd w0 m, forall m, w_orig w' m = if hidx names m is Some i then None else w_orig w0 m,
      forall g', w_reg w' g' = if g' == g then false else w_reg w0 g',
      w_next w' = w_next w & forall g', core w' g' = core w g'].
Proof.
move=> [m1 m2 m3 m4 m5 m6] ht; rewrite /remove /=.
have -> : g_cached (w_mgr w g) = named_ids names model by move: m4; rewrite /core => -[].
have [k1 k2 k3 k4] := unwraps_other w (named_ids names model).
have nl m : hidx names m = None -> m \in named_ids names model -> w_orig w0 m = None.
  rewrite /named_ids => hm hin.
  have [d [hd hn e]] : exists d, [/\ List.In d model, d_name d \in names & d_id d = m].
    elim: (model) hin => [//|a s IH] /=; case: ifP => hn /=; last by move=> /IH [d [? ? ?]]; exists d; split=> //; right.
    rewrite in_cons => /orP [/eqP ->|/IH [d [? ? ?]]]; first by exists a; split=> //; left.
    by exists d; split=> //; right.
  rewrite -e; apply: ht => //; apply/negP => hl; move: hm; rewrite /hidx /hidx_in -e (filter_one uid hd) /hit hn hl //.
split.
- move=> m; have [-> _] := unwraps w (named_ids names model) m; rewrite m1 m2.
  case e: (hidx names m) => [i|]; first by rewrite (mem_named e).
  by case: ifP => // /(nl _ e) ->.
- move=> m; have [_ ->] := unwraps w (named_ids names model) m; rewrite m2.
  case e: (hidx names m) => [i|]; first by rewrite (mem_named e).
  by case: ifP => // /(nl _ e) ->.
- by move=> g'; rewrite k1 /upd m3; case: eqP.
- by rewrite k3.
by move=> g'; rewrite /core k2.
Qed.
End P.
