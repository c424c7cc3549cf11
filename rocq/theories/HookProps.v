(* C45: hooks are removed after every successful session, stay after a failing one, and what they do in between. *)
Set Warnings "-notation-overridden,-ambiguous-paths".
From mathcomp Require Import all_ssreflect zify.
From Verif Require Import Py HookModel HookSpec HookProof HookProof2.
Set Implicit Arguments. Unset Strict Implicit. Unset Printing Implicit Defensive.
Local Arguments remove : simpl never.

Section P.
Variables (X D C : Type) (Name : eqType).
Notation world := (world X D C Name).
Notation batch := (batch X D).
Notation modl := (modl Name).
Notation system := (system X D C Name).
Notation attr := (attr X D C Name).
Variable model : seq modl.
(* what named_modules() promises *)
Hypothesis uid : uniq (map (@d_id Name) model).
Hypothesis unm : uniq (map (@d_name Name) model).
Notation hid := (hidx model).

(* nothing patched, no session pending *)
Definition fresh (s : system) : Prop := plain (s_world s) /\ forall k, a_hm (s_attr s k) = None.

Lemma step_native (w : world) (b : batch) : (forall m, route w m = Ok None) ->
  let r := step w b in
  [/\ is_ok r.2 = is_ok (b_loss b), is_ok r.2 -> w_wgrad r.1 = weight_grads b xpredT & w_mgr r.1 = w_mgr w].
Proof.
move=> hr; rewrite /step; set w1 := World _ _ _ _ _ _.
have h1 m : route w1 m = Ok None by rewrite (@route_frame _ _ _ _ w w1).
have hf tape cs : fwd_all w1 tape cs = (w1, Ok (tape ++ [seq Native c.1 c.2 | c <- cs])).
  elim: cs tape => [|c cs IH] tape /=; first by rewrite cats0.
  by rewrite /fwd_call h1 /= IH -cats1 -catA.
rewrite hf /=; case: (b_loss b) => [u|e] //=.
suff H : forall bs (w2 : world), let r := bwd_all w2 [seq Native c.1 c.2 | c <- b_calls b] bs in
   [/\ is_ok r.2, w_wgrad r.1 = w_wgrad w2 ++ pmap (native1 b xpredT) bs & w_mgr r.1 = w_mgr w2].
  by have [-> k2 k3] := H (b_back b) w1; split=> // _; rewrite k2.
elim=> [|[p d] bs IH] w2 /=; first by rewrite cats0.
have ne : List.nth_error [seq Native c.1 c.2 | c <- b_calls b] p = omap (fun c => Native c.1 c.2) (List.nth_error (b_calls b) p).
  by elim: (b_calls b) p => [|c cs IHc] [|p] //=.
rewrite ne /native1 /=; case: (List.nth_error (b_calls b) p) => [c|] /=; last exact: IH.
by have [k1 k2 k3] := IH (World (w_fwd w2) (w_orig w2) (w_reg w2) (w_mgr w2) (w_next w2) (rcons (w_wgrad w2) (c.1, d, c.2))); split=> //; rewrite k2 /= -cats1 -catA.
Qed.

Lemma plain_route (w : world) m : plain w -> route w m = Ok None.
Proof. by move=> [h _ _]; rewrite /route h. Qed.
Lemma plain_frame (w w' : world) : frame w w' -> plain w -> plain w'.
Proof. by move=> [h1 h2 h3 _ _] [p1 p2 p3]; split; rewrite ?h1 ?h2 ?h3. Qed.

(* the state between the calls of a polite history *)
Definition inv (s0 s : system) (p : option nat) : Prop :=
  (forall k, a_names (s_attr s k) = a_names (s_attr s0 k) /\ a_comp (s_attr s k) = a_comp (s_attr s0 k)) /\
  match p with
  | None => plain (s_world s) /\ forall k, a_hm (s_attr s k) = None
  | Some k => exists g w0, [/\ plain w0, mine model (a_names (s_attr s k)) (a_comp (s_attr s k)) w0 (s_world s) g, a_hm (s_attr s k) = Some g
                             & forall k', k' <> k -> a_hm (s_attr s k') = None]
  end.
Definition start_grad (w : world) (a : attr) (i : nat) : option C :=
  if a_hm a is Some g then nth None (g_grads (w_mgr w g)) i else None.

Lemma session_inv s0 s p k bs fin : inv s0 s p -> (p == None) || (p == Some k) ->
  let a := s_attr s k in
  let r := session model (s_world s) a bs fin in
  let s' := (exec model s (Session k bs fin)).1 in
  [/\ inv s0 s' (if is_ok r.2 then None else Some k),
      is_ok r.2 <-> List.Forall (good model (a_names a) (a_comp a)) bs /\ is_ok fin &
      forall gs, r.2 = Ok gs -> size gs = size bs /\ forall t m i, (t < size bs)%N -> hooked_layer model (a_names a) m i ->
        nth None (nth [::] gs t) i = layer_after (a_comp a) bs m i t.+1 (start_grad (s_world s) a i)].
Proof.
move=> [hn hp] hk; set a := s_attr s k; set w := s_world s; cbv zeta.
have [w1 [g [w0 [e p0 hm hg oth]]]] : exists w1 g w0, [/\ (if a_hm a is Some g then (w, g) else attach model (a_names a) (a_comp a) w) = (w1, g),
    plain w0, mine model (a_names a) (a_comp a) w0 w1 g, forall i, grd w1 g i = start_grad w a i & forall k', k' <> k -> a_hm (s_attr s k') = None].
  case: p hp hk => [k0|] hp hk.
    move: hk => /orP [//|/eqP [ek]]; move: hp; rewrite ek => -[g [w0 [p0 hm hh oth]]].
    by exists w, g, w0; rewrite /start_grad hh; split.
  have [pl hh] := hp; have [hm k1 k2 k3 [k4 k5]] := @attach_mine X D C Name model uid (a_names a) (a_comp a) w.
  exists (attach model (a_names a) (a_comp a) w).1, (attach model (a_names a) (a_comp a) w).2, w.
  rewrite /start_grad hh; split=> //.
  by move=> i; rewrite /grd k5 nth_nseq if_same.
have [j1 j2 j3] := loop_mine uid unm [::] bs p0 hm.
have fE : List.Forall (fun b => [/\ is_ok (b_loss b), is_ok (b_store b) & forall m i, hid (a_names a) m = Some i -> layer_ok (a_comp a) b m i]) bs <->
          List.Forall (good model (a_names a) (a_comp a)) bs.
  split=> h; apply: (List.Forall_impl _ _ h) => b [h1 h2 h3]; split=> // m i him; apply: h3; exact/(hidxP uid).
rewrite /exec /session -/a -/w e; case el: (loop w1 g [::] bs) j1 j2 j3 => [w2 [gs|er]] /= j1 j2 j3; last first.
  split=> //.
    split=> [k'|]; first by rewrite /= /upd; case: eqP => // ->; exact: hn.
    exists g, w0; rewrite /= /upd eqxx /=; split=> // k' nk; by rewrite (introF eqP nk) oth.
  by split=> // -[/fE /j1].
have kf : List.Forall (good model (a_names a) (a_comp a)) bs by apply/fE/j1.
case: fin => [u|er] /=; last first.
  split=> //; last by split=> // -[].
  split=> [k'|]; first by rewrite /= /upd; case: eqP => // ->; exact: hn.
  exists g, w0; rewrite /= /upd eqxx /=; split=> // k' nk; by rewrite (introF eqP nk) oth.
split=> //.
  split=> [k'|]; first by rewrite /= /upd; case: eqP => // ->; exact: hn.
  have td : tidy model w0 by move=> d _ _; case: p0 => _ ->.
  have [r1 r2 r3 _ _] := remove_mine uid j2 td.
  split; last by move=> k'; rewrite /= /upd; case: eqP => // nk; rewrite oth.
  change (plain (remove w2 g)); case: p0 => q1 q2 q3.
  split=> [m|m|g']; [by rewrite r1|by rewrite r2 q2; case: (hid _ m)|by rewrite r3 q3; case: eqP].
move=> gs' [<-]; have [gs2 -> [sz hgs]] := j3 gs erefl; split=> // t m i ht /(hidxP uid) him.
by rewrite (hgs t m i ht him) hg.
Qed.

Lemma train_inv s0 s p (b : batch) : inv s0 s p -> inv s0 (exec model s (Train b)).1 p.
Proof.
move=> [hn hp]; split=> [k|]; first by rewrite /=; case: (step _ _) => w r /=; exact: hn.
rewrite /=; have := frame_step (s_world s) b; case: (step _ _) => w r /= hf.
case: p hp => [k [g [w0 [p0 hm hh oth]]]|[pl hh]]; last by split=> //; exact: plain_frame hf pl.
by exists g, w0; split=> //; exact: mine_frame hf hm.
Qed.

Lemma inv_run s0 s p h : inv s0 s p -> forall q, pending p (answers model s h) = Some q -> inv s0 (run model s h) q.
Proof.
elim: h s p => [|o h IH] s p hi q /=; first by move=> [<-].
case: o => [k bs fin|b]; last first.
  by move=> hq; apply: IH hq; exact: train_inv.
case: ifP => // hk; have [h1 h2 h3] := session_inv bs fin hi hk.
have e : (exec model s (Session k bs fin)).2 = is_ok (session model (s_world s) (s_attr s k) bs fin).2.
  by rewrite /=; case: (session _ _ _ _ _) => [[w a] [gs|e]].
by rewrite e => hq; apply: IH hq; case: ifP h1.
Qed.
Lemma fresh_inv s : fresh s -> inv s s None. Proof. by move=> [h1 h2]. Qed.

(* After any history of sessions and training steps in which no attributor starts a session while another one's failed
   session is pending: nothing is patched when no failed session is pending; otherwise exactly the layers of the
   attributor whose session failed last are. *)
Theorem C45_history s h p : fresh s -> pending None (answers model s h) = Some p ->
  let s' := run model s h in
  if p is Some k then
    exists2 g, a_hm (s_attr s' k) = Some g & patched model (a_names (s_attr s k)) (s_world s') g /\
      forall k', k' <> k -> a_hm (s_attr s' k') = None
  else fresh s'.
Proof.
move=> hf hp; have [hn] := inv_run (fresh_inv hf) hp; case: p hp => [k|] _ //= -[g [w0 [p0 hm hh oth]]].
exists g => //; split=> //; have [en ec] := hn k; rewrite -en; case: hm => m1 m2 m3 m4 m5 m6; case: p0 => q1 q2 q3; split.
- by move=> m i /(hidxP uid) him; rewrite m1 m2 him q1.
- by move=> m /(hidx_none uid) him; rewrite m1 m2 him q1 q2.
by move=> g'; rewrite m3 q3; case: eqP.
Qed.

(* A session then succeeds exactly when in every batch the loss can be computed, the gradients stored, and every hooked
   layer is reached by at most one gradient that its compressor accepts.  The gradient of a layer after batch t is the
   compressed one of the last batch that reached the layer -- with the last input the layer saw in that batch. *)
Theorem C45_session s h p k bs fin : fresh s -> pending None (answers model s h) = Some p -> (p == None) || (p == Some k) ->
  let s' := run model s h in
  let a := s_attr s k in
  let r := session model (s_world s') (s_attr s' k) bs fin in
  (is_ok r.2 <-> List.Forall (good model (a_names a) (a_comp a)) bs /\ is_ok fin) /\
  forall gs, r.2 = Ok gs -> size gs = size bs /\ forall t m i, (t < size bs)%N -> hooked_layer model (a_names a) m i ->
    nth None (nth [::] gs t) i = layer_after (a_comp a) bs m i t.+1 (start_grad (s_world s') (s_attr s' k) i).
Proof.
move=> hf hp hk; have hi := inv_run (fresh_inv hf) hp; have [_ h2 h3] := session_inv bs fin hi hk.
by have [hn _] := hi; have [en ec] := hn k; cbv zeta; rewrite -en -ec.
Qed.

(* hence the exact gradient of every batch, when every hooked layer runs and is reached once in it *)
Theorem C45_batch_gradient s h p k bs fin gs t m i d x : fresh s -> pending None (answers model s h) = Some p -> (p == None) || (p == Some k) ->
  let s' := run model s h in
  (session model (s_world s') (s_attr s' k) bs fin).2 = Ok gs -> hooked_layer model (a_names (s_attr s k)) m i ->
  (t < size bs)%N ->
  let b := nth (Batch [::] (Ok tt) [::] (Ok tt)) bs t in
  inputs_of b m = [:: x] -> reached b m = [:: d] ->
  exists2 c, a_comp (s_attr s k) i d x = Ok c & nth None (nth [::] gs t) i = Some c.
Proof.
move=> hf hp hk s' hr him ht b ei er; have [h1 h2] := C45_session bs fin hf hp hk.
have [sz hn] := h2 gs hr; rewrite (hn t m i ht him) /layer_after (take_nth (Batch [::] (Ok tt) [::] (Ok tt)) ht) foldl_rcons -/b.
have li : last_input b m = Some x by rewrite /last_input ei.
have hg : List.In b bs.
  rewrite /b; elim: (bs) (t) ht => [//|b0 bs0 IH] [|t0] ht /=; [by left | right; exact: IH].
have [h1' _] := h1; have [hall _] : List.Forall (good model (a_names (s_attr s k)) (a_comp (s_attr s k))) bs /\ is_ok fin by apply: h1'; rewrite hr.
move/List.Forall_forall: hall => /(_ b hg) [_ _ /(_ m i him)].
rewrite /layer_ok /layer_new er li; case: (a_comp _ i d x) => [c|//] _; by exists c.
Qed.

(* a layer that runs twice and is reached twice in one batch makes the session fail *)
Theorem C45_twice_fails s h p k bs fin b m i d1 d2 ds : fresh s -> pending None (answers model s h) = Some p -> (p == None) || (p == Some k) ->
  List.In b bs -> hooked_layer model (a_names (s_attr s k)) m i -> reached b m = [:: d1, d2 & ds] ->
  ~~ is_ok (session model (s_world (run model s h)) (s_attr (run model s h) k) bs fin).2.
Proof.
move=> hf hp hk hb him er; have [h1 _] := C45_session bs fin hf hp hk.
apply/negP => /h1 [/List.Forall_forall /(_ b hb) [_ _ /(_ m i him)]]; by rewrite /layer_ok er.
Qed.

(* Training steps of the user.  With nothing pending every weight gets its gradient.  While a failed session is pending
   the step runs without an error as long as no hooked layer is reached twice, but the hooked layers get no gradient. *)
Theorem C45_train s h p (b : batch) : fresh s -> pending None (answers model s h) = Some p ->
  let w := s_world (run model s h) in
  let r := step w b in
  if p is Some k then
    (is_ok r.2 <-> is_ok (b_loss b) /\ forall m i, hooked_layer model (a_names (s_attr s k)) m i -> layer_ok (a_comp (s_attr s k)) b m i) /\
    (is_ok r.2 -> exists2 S, w_wgrad r.1 = weight_grads b S & forall m, S m <-> forall i, ~ hooked_layer model (a_names (s_attr s k)) m i)
  else is_ok r.2 = is_ok (b_loss b) /\ (is_ok r.2 -> w_wgrad r.1 = weight_grads b xpredT).
Proof.
move=> hf hp; have [hn] := inv_run (fresh_inv hf) hp; case: p hp => [k|] _ /=; last first.
  by move=> [pl _]; have [h1 h2 _] := step_native b (fun m => plain_route m pl).
have [en ec] := hn k; rewrite -en -ec => -[g [w0 [p0 hm hh oth]]].
have [h1 h2 h3 _] := step_mine uid unm b p0 hm; split.
  rewrite h1; split=> -[k1 k2]; split=> // m i; last by move=> him; apply: k2; apply/(hidxP uid).
  by move=> /(hidxP uid); exact: k2.
move=> /h3 [_ k2]; exists (fun m => ~~ hid (a_names (s_attr (run model s h) k)) m) => // m.
by split=> [hm' |/(hidx_none uid) -> //]; apply/(hidx_none uid); case: (hid _ m) hm'.
Qed.

(* ------------------------------------------------------------------ two attributors out of turn *)
Lemma session_fresh (w : world) (a : attr) bs fin : a_hm a = None -> tidy model w ->
  let r := session model w a bs fin in is_ok r.2 ->
  [/\ forall m, w_fwd r.1.1 m = w_fwd w m, forall m, w_orig r.1.1 m = if hid (a_names a) m is Some i then None else w_orig w m,
      forall g, w_reg r.1.1 g = if g == w_next w then false else w_reg w g,
      w_next r.1.1 = (w_next w).+1 & (forall g, g <> w_next w -> core r.1.1 g = core w g) /\ a_hm r.1.2 = None].
Proof.
move=> ha td; rewrite /session ha; have [hm k1 k2 k3 _] := @attach_mine X D C Name model uid (a_names a) (a_comp a) w.
case ea: (attach _ _ _ _) hm k1 k2 k3 => [w1 g] hm k1 k2 k3; rewrite /= in hm k1 k2 k3.
have hfr := frame_loop w1 g [::] bs; have hm' := mine_frame hfr hm.
case: (loop w1 g [::] bs) hfr hm' => [w2 [gs|e]] // hfr hm'; case: fin => [u|e] // _.
have := remove_mine uid hm' td; cbv zeta; move: (remove w2 g) => w3 [r1 r2 r3 r4 r5]; rewrite /= in hfr hm' r4 r5 *.
have en : w_next w2 = (w_next w).+1 by case: hfr => _ _ _ -> _.
split=> //; first by move=> g'; rewrite r3 k1.
  by rewrite r4.
split=> // g' ng; rewrite r5; case: hm' => _ _ _ _ -> //; apply/eqP; by rewrite k1.
Qed.

(* a layer that refers to a manager that is gone *)
Definition dead (s : system) (m : nat) : Prop :=
  [/\ exists g i, [/\ w_fwd (s_world s) m = Some (g, i), g_on (w_mgr (s_world s) g), w_reg (s_world s) g = false & (g < w_next (s_world s))%N],
      w_orig (s_world s) m = None, tidy model (s_world s) & forall k, a_hm (s_attr s k) = None].
Lemma dead_raises s m x : dead s m -> (fwd_call (s_world s) (m, x)).2 = Err RuntimeError.
Proof. by move=> [[g [i [h1 h2 h3 _]]] _ _ _]; rewrite /fwd_call /route h1 h2 /= h3. Qed.
Lemma dead_run s m h : dead s m -> all (fun oa => if oa.1 is Session _ _ _ then oa.2 else true) (answers model s h) -> dead (run model s h) m.
Proof.
elim: h s => [//|o h IH] s hd /= /andP [ho ha]; apply: (IH _ _ ha); clear IH ha.
case: hd => [[g [i [h1 h2 h3 h4]]] h5 h6 h7]; case: o ho => [k bs fin|b] /=.
  have := @session_fresh (s_world s) (s_attr s k) bs fin (h7 k) h6.
  case: (session _ _ _ _ _) => [[w a] [gs|e]] //= /(_ isT) [f1 f2 f3 f4 [f5 f6]] _.
  have ng : g <> w_next (s_world s) by move: h4; clear; lia.
  split=> /=.
  - exists g, i; split; [by rewrite f1| |by rewrite f3 (introF eqP ng)|by rewrite f4; move: h4; clear; lia].
    by have := f5 g ng; rewrite /core => -[_ _ -> _].
  - by rewrite f2 h5; case: (hid _ m).
  - by move=> d hd hl; rewrite f2 h6 //; case: (hid _ _).
  by move=> k'; rewrite /upd; case: eqP.
have := frame_step (s_world s) b; case: (step _ _) => w r /= [f1 f2 f3 f4 f5] _; split=> //=.
- exists g, i; rewrite f1 f3 f4; split=> //; by have := f5 g; rewrite /core => -[_ _ -> _].
- by rewrite f2.
by move=> d hd hl; rewrite f2 h6.
Qed.

(* A's session fails, B's succeeds on the same model, A's is repeated and succeeds: a layer that both hook raises
   RuntimeError in every forward pass from then on -- whatever successful sessions and training steps follow. *)
Theorem C45_interleaved_refuted s kA kB b1 f1 b2 f2 b3 f3 m iA iB h x : fresh s -> kA <> kB ->
  hooked_layer model (a_names (s_attr s kA)) m iA -> hooked_layer model (a_names (s_attr s kB)) m iB ->
  map snd (answers model s [:: Session kA b1 f1; Session kB b2 f2; Session kA b3 f3]) = [:: false; true; true] ->
  let s3 := run model s [:: Session kA b1 f1; Session kB b2 f2; Session kA b3 f3] in
  all (fun oa => if oa.1 is Session _ _ _ then oa.2 else true) (answers model s3 h) ->
  (fwd_call (s_world (run model s3 h)) (m, x)).2 = Err RuntimeError.
Proof.
move=> hf nAB hA hB; cbn [map answers snd run foldl].
set s1 := (exec model s _).1; set s2 := (exec model s1 _).1; set s3 := (exec model s2 _).1.
move=> -[e1 e2 e3] hh; apply: dead_raises; apply: (dead_run _ hh); clear hh.
have [hi _ _] := @session_inv s s None kA b1 f1 (fresh_inv hf) erefl.
have a1 : is_ok (session model (s_world s) (s_attr s kA) b1 f1).2 = false.
  by move: e1; rewrite /=; case: (session _ _ _ _ _) => [[w a] [gs|e]].
move: hi; rewrite a1 -/s1 => -[hn [gA [w0 [p0 hm hhA oth]]]].
have td1 : tidy model (s_world s1).
  move=> d hd hl; case: hm => _ -> _ _ _ _; have [_ q2 _] := p0; rewrite q2.
  case eh: (hid _ _) => [i|//]; move/(hidxP uid): eh => [d' [g1 g2 g3 _ _]].
  by move: hl; rewrite (_ : d = d') ?g3 //; have := filter_one uid hd; rewrite -g2 (filter_one uid g1) => -[].
have hmB : a_hm (s_attr s1 kB) = None by apply: oth => e; apply: nAB.
have nB := proj1 (hn kB); have nA := proj1 (hn kA).
have a2 : is_ok (session model (s_world s1) (s_attr s1 kB) b2 f2).2.
  by move: e2; rewrite /=; case: (session _ _ _ _ _) => [[w a] [gs|e]].
have [r1 r2 r3 r4 [r5 r6]] := session_fresh hmB td1 a2.
have w2E : s_world s2 = (session model (s_world s1) (s_attr s1 kB) b2 f2).1.1 by rewrite /s2 /=; case: (session _ _ _ _ _) => [[w a] r].
have at2 : s_attr s2 = upd (s_attr s1) kB (session model (s_world s1) (s_attr s1 kB) b2 f2).1.2 by rewrite /s2 /=; case: (session _ _ _ _ _) => [[w a] r].
rewrite -w2E in r1 r2 r3 r4 r5.
have ngA : gA <> w_next (s_world s1) by case: hm => _ _ _ _ _; clear; lia.
have sA : s_attr s2 kA = s_attr s1 kA by rewrite at2 /upd (introF eqP nAB).
have hmA1 : hid (a_names (s_attr s1 kA)) m = Some iA by apply/(hidxP uid); rewrite nA.
have hmB1 : hid (a_names (s_attr s1 kB)) m = Some iB by apply/(hidxP uid); rewrite nB.
have fw2 : w_fwd (s_world s2) m = Some (gA, iA) by rewrite r1; case: hm => -> _ _ _ _ _; rewrite hmA1.
have or2 : w_orig (s_world s2) m = None by rewrite r2 hmB1.
have co2 : core (s_world s2) gA = (a_names (s_attr s1 kA), named_ids (a_names (s_attr s1 kA)) model, true, a_comp (s_attr s1 kA)).
  by rewrite r5 //; case: hm.
have td2 : tidy model (s_world s2) by move=> d hd hl; rewrite r2 td1 //; case: (hid _ _).
move: e3; rewrite /s3 /= /session sA hhA; clear s3; have := frame_loop (s_world s2) gA [::] b3.
case: (loop _ _ _ _) => [w [gs|e]] //= [k1 k2 k3 k4 k5]; case: (f3) => [u|e] //= _.
have kc : g_cached (w_mgr w gA) = named_ids (a_names (s_attr s1 kA)) model by have := k5 gA; rewrite co2 /core => -[].
have kon : g_on (w_mgr w gA) by have := k5 gA; rewrite co2 /core => -[_ _ -> _].
have [u1 u2 u3 u4] := unwraps_other w (g_cached (w_mgr w gA)).
split; rewrite /= /remove /=.
- exists gA, iA; rewrite u2 u3 kon; split=> //.
  + by have [-> _] := unwraps w (g_cached (w_mgr w gA)) m; rewrite k1 k2 fw2 or2 if_same.
  + by rewrite /upd eqxx.
  by rewrite k4 r4; case: hm => _ _ _ _ _; clear; lia.
- by have [_ ->] := unwraps w (g_cached (w_mgr w gA)) m; rewrite k2 or2 if_same.
- by move=> d hd hl /=; have [_ ->] := unwraps w (g_cached (w_mgr w gA)) (d_id d); rewrite k2 td2 // if_same.
move=> k; rewrite /upd; case: eqP => // nk; rewrite at2 /upd; case: eqP => // nk'; exact: oth.
Qed.

(* the same for two managers used directly, removed in either order *)
Theorem C45_overlap_refuted (w : world) n1 c1 n2 c2 m i1 i2 x : plain w -> hooked_layer model n1 m i1 -> hooked_layer model n2 m i2 ->
  let: (w1, gA) := attach model n1 c1 w in
  let: (w2, gB) := attach model n2 c2 w1 in
  (fwd_call (remove (remove w2 gA) gB) (m, x)).2 = Err RuntimeError /\
  (fwd_call (remove (remove w2 gB) gA) (m, x)).2 = Err RuntimeError.
Proof.
move=> pl /(hidxP uid) h1 /(hidxP uid) h2.
have [hmA a1 a2 _ _] := @attach_mine X D C Name model uid n1 c1 w; case ea: (attach model n1 c1 w) hmA a1 a2 => [w1 gA] hmA a1 a2.
have [hmB b1 b2 _ _] := @attach_mine X D C Name model uid n2 c2 w1; case eb: (attach model n2 c2 w1) hmB b1 b2 => [w2 gB] hmB b1 b2.
rewrite /= in hmA a1 a2 hmB b1 b2.
have nAB : gA != gB by apply/eqP; move: a1 a2 b1; clear; lia.
have f2 : w_fwd w2 m = Some (gB, i2) by case: hmB => -> _ _ _ _ _; rewrite h2.
have f1 : w_fwd w1 m = Some (gA, i1) by case: hmA => -> _ _ _ _ _; rewrite h1.
have o2 : w_orig w2 m = Some (Some (gA, i1)) by case: hmB => _ -> _ _ _ _; rewrite h2 f1.
have cA : core w2 gA = (n1, named_ids n1 model, true, c1) by case: hmB => _ _ _ _ -> //; case: hmA.
have cB : core w2 gB = (n2, named_ids n2 model, true, c2) by case: hmB.
have kA : g_cached (w_mgr w2 gA) = named_ids n1 model by move: cA; rewrite /core => -[].
have kB : g_cached (w_mgr w2 gB) = named_ids n2 model by move: cB; rewrite /core => -[].
have onA : g_on (w_mgr w2 gA) by move: cA; rewrite /core => -[_ _ ->].
have mA := mem_named uid h1; have mB := mem_named uid h2.
have rm g : w_mgr (remove w2 g) = w_mgr w2 by rewrite /remove /=; have [_ -> _ _] := unwraps_other w2 (g_cached (w_mgr w2 g)).
have key g g' : m \in g_cached (w_mgr w2 g) -> gA = g \/ gA = g' ->
    let w' := remove (remove w2 g) g' in
    [/\ w_fwd w' m = Some (gA, i1), w_reg w' gA = false & w_mgr w' = w_mgr w2].
  move=> hin hor; set w3 := remove w2 g.
  have u3 : w_fwd w3 m = Some (gA, i1) /\ w_orig w3 m = None.
    by rewrite /w3 /remove /=; have [-> ->] := unwraps w2 (g_cached (w_mgr w2 g)) m; rewrite hin o2.
  have rg : w_reg w3 = upd (w_reg w2) g false.
    by rewrite /w3 /remove /=; have [-> _ _ _] := unwraps_other w2 (g_cached (w_mgr w2 g)).
  have mg : w_mgr w3 = w_mgr w2 by exact: rm.
  rewrite /remove /=; have [-> -> _ _] := unwraps_other w3 (g_cached (w_mgr w3 g')).
  have [-> _] := unwraps w3 (g_cached (w_mgr w3 g')) m; case: u3 => -> ->; rewrite if_same; split=> //.
  by rewrite /upd rg /upd; case: hor => ->; rewrite eqxx // if_same.
have kA' : m \in g_cached (w_mgr w2 gA) by rewrite kA.
have kB' : m \in g_cached (w_mgr w2 gB) by rewrite kB.
have [p1 p2 p3] := key gA gB kA' (or_introl erefl).
have [q1 q2 q3] := key gB gA kB' (or_intror erefl).
rewrite /fwd_call /route [(m, x).1]/= p1 q1 [(gA, i1).1]/= p3 q3 onA p2 q2 //.
Qed.

(* a disabled manager leaves training alone: all weight gradients, no compressed ones; two disabled ones on a common
   layer call each other without end *)
Theorem C45_disabled (w : world) n1 c1 (b : batch) : plain w ->
  let: (w1, g) := attach model n1 c1 w in
  let r := step (set_on false w1 g) b in
  [/\ is_ok r.2 = is_ok (b_loss b), is_ok r.2 -> w_wgrad r.1 = weight_grads b xpredT &
      g_grads (w_mgr r.1 g) = nseq (size n1) None].
Proof.
move=> pl; have [hm a1 _ _ [_ hg]] := @attach_mine X D C Name model uid n1 c1 w.
case: (attach model n1 c1 w) hm a1 hg => [w1 g] hm a1 hg; rewrite /= in hm a1 hg.
have hr m : route (set_on false w1 g) m = Ok None.
  case: pl => q1 q2 q3; rewrite /route /=; case: (hm) => -> -> _ _ _ _; rewrite q1 q2.
  by case: (hid n1 m) => [i|] //=; rewrite /upd eqxx /=.
by have [k1 k2 k3] := step_native b hr; split=> //; rewrite k3 /= /upd eqxx.
Qed.
Theorem C45_disabled_twice_refuted (w : world) n1 c1 n2 c2 m i1 i2 x : plain w -> hooked_layer model n1 m i1 -> hooked_layer model n2 m i2 ->
  let: (w1, gA) := attach model n1 c1 w in
  let: (w2, gB) := attach model n2 c2 w1 in
  (fwd_call (set_on false (set_on false w2 gA) gB) (m, x)).2 = Err RuntimeError.
Proof.
move=> pl /(hidxP uid) h1 /(hidxP uid) h2.
have [hmA a1 a2 _ _] := @attach_mine X D C Name model uid n1 c1 w; case ea: (attach model n1 c1 w) hmA a1 a2 => [w1 gA] hmA a1 a2.
have [hmB b1 b2 _ _] := @attach_mine X D C Name model uid n2 c2 w1; case eb: (attach model n2 c2 w1) hmB b1 b2 => [w2 gB] hmB b1 b2.
rewrite /= in hmA a1 a2 hmB b1 b2.
have nAB : (gA == gB) = false by apply/eqP; move: a1 a2 b1; clear; lia.
rewrite /fwd_call /route /=.
have -> : w_fwd w2 m = Some (gB, i2) by case: hmB => -> _ _ _ _ _; rewrite h2.
have -> : w_orig w2 m = Some (Some (gA, i1)) by case: hmB => _ -> _ _ _ _; rewrite h2; case: hmA => -> _ _ _ _ _; rewrite h1.
by rewrite /= /upd eqxx nAB eqxx.
Qed.
End P.

(* concrete cases: two Linear layers, a ReLU; inputs, gradients and compressed gradients are numbers *)
Section Cases.
Let model : seq (modl nat_eqType) := [:: Modl 0 10 true; Modl (1 : nat_eqType) 11 false; Modl 2 12 true].
Let comp (i d x : nat) : res nat := Ok (d * x)%N.
Let s0 : system nat nat nat nat_eqType :=
  Sys (World (fun _ => None) (fun _ => None) (fun _ => false) (fun _ => Mgr [::] [::] true [::] [::] comp) 0 [::])
      (fun k => Attr (if k == 0%N then [:: 0; 2]%N else [:: 2]%N) comp None).
(* both layers run, both are reached, the last one first *)
Let b1 : batch nat nat := Batch [:: (10, 3); (12, 4)]%N (Ok tt) [:: (1, 7); (0, 5)]%N (Ok tt).
(* only the first layer is reached *)
Let b2 : batch nat nat := Batch [:: (10, 2); (12, 9)]%N (Ok tt) [:: (0, 1)]%N (Ok tt).
(* the loss fails after the forward pass *)
Let bad : batch nat nat := Batch [:: (10, 3); (12, 4)]%N (Err ValueError) [::] (Ok tt).
(* the first layer runs twice, only its first call is reached *)
Let b3 : batch nat nat := Batch [:: (10, 3); (10, 8)]%N (Ok tt) [:: (0, 1)]%N (Ok tt).
Let sess : op nat nat := Session 0 [:: b1; b2; b3] (Ok tt).

Example C45_fresh_case : fresh s0 /\ uniq (map (@d_id nat_eqType) model) /\ uniq (map (@d_name nat_eqType) model) /\
  hooked_layer model (a_names (s_attr s0 0)) 12 1 /\ hooked_layer model (a_names (s_attr s0 1)) 12 0.
Proof.
split; first by split=> //; split.
split=> //; split=> //; split; exists (Modl (2 : nat_eqType) 12 true); split=> //=; try (by right; right; left);
  split=> // -[|[|j]] //.
Qed.
(* the second batch repeats the stale gradient of layer 12; the third uses the input of the wrong call: 1 * 8, not 1 * 3 *)
Example C45_session_case : (session model (s_world s0) (s_attr s0 0) [:: b1; b2; b3] (Ok tt)).2 =
  Ok [:: [:: Some 15; Some 28]; [:: Some 2; Some 28]; [:: Some 8; Some 28]]%N.
Proof. by []. Qed.
Example C45_history_case : pending None (answers model s0 [:: sess; Train b1; Session 0 [:: b1; bad] (Ok tt); Train b1]) = Some (Some 0%N) /\
  w_wgrad (s_world (run model s0 [:: sess; Train b1])) = [:: (12, 7, 4); (10, 5, 3)]%N /\
  w_wgrad (s_world (run model s0 [:: sess; Session 0 [:: b1; bad] (Ok tt); Train b1])) = [::] /\
  pending None (answers model s0 [:: Session 0 [:: bad] (Ok tt); sess]) = Some None.
Proof. by []. Qed.
(* the hypotheses of C45_interleaved_refuted are met *)
Example C45_interleaved_case : map snd (answers model s0 [:: Session 0 [:: bad] (Ok tt); Session 1 [:: b1] (Ok tt); Session 0 [:: b1] (Ok tt)]) = [:: false; true; true]
  /\ (fwd_call (s_world (run model s0 [:: Session 0 [:: bad] (Ok tt); Session 1 [:: b1] (Ok tt); Session 0 [:: b1] (Ok tt); Session 1 [:: b1] (Ok tt)])) (12, 1)%N).2 = Err RuntimeError.
Proof. by []. Qed.
End Cases.

Print Assumptions C45_history.
Print Assumptions C45_session.
Print Assumptions C45_batch_gradient.
Print Assumptions C45_twice_fails.
Print Assumptions C45_train.
Print Assumptions C45_interleaved_refuted.
Print Assumptions C45_overlap_refuted.
Print Assumptions C45_disabled.
Print Assumptions C45_disabled_twice_refuted.
