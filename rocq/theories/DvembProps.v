(* C17, C18, C51: data value embeddings. *)
Set Warnings "-notation-overridden,-ambiguous-paths".
From mathcomp Require Import all_ssreflect all_algebra zify.
From Verif Require Import Py Dict TensorProof DvembModel DvembSpec DvembProof.
Set Implicit Arguments. Unset Strict Implicit. Unset Printing Implicit Defensive.
Import GRing.Theory.
Local Open Scope ring_scope.

Section H.
Variables (F : fieldType) (d : nat).
Notation call := (call F d).

(* What a user does with an attributor. *)
Inductive op := Rec of call | Ctx of call | Clear | Cache of bool.
(* one call; exceptions of Cache are swallowed by the user *)
Definition exec (m : mode) (s : st F d) (o : op) : st F d :=
  match o with
  | Rec c => (cache_gradients m s (c_epoch c) (Ok [seq p.2 | p <- c_samples c]) [seq p.1 | p <- c_samples c] (c_lr c)).1
  | Ctx c => (cache_gradients_context m s (c_epoch c) (Some [seq p.2 | p <- c_samples c]) None [seq p.1 | p <- c_samples c] (c_lr c)).1
  | Clear => clear_cache m s
  | Cache ms => (cache m s None None ms).1.1
  end.
(* the steps recorded since the cache was last emptied *)
Definition recorded_step (h : seq call) (o : op) : seq call :=
  match o with
  | Rec c | Ctx c => rcons h c
  | Clear => [::]
  | Cache ms => if ms && (0%N \in [seq c_epoch c | c <- h]) then [::] else h
  end.
Definition recorded (ops : seq op) : seq call := foldl recorded_step [::] ops.
(* batches are not empty; the context manager needs a factorised attributor *)
Definition op_ok (m : mode) (o : op) : bool :=
  match o with Rec c => call_ok c | Ctx c => call_ok c && is_fact m | _ => true end.
Definition state_after (m : mode) (ops : seq op) : st F d := foldl (exec m) (init F d) ops.

Lemma run_Inv m ops : all (op_ok m) ops -> Inv m (recorded ops) (state_after m ops) /\ all_ok (recorded ops).
Proof.
rewrite /recorded /state_after; elim/last_ind: ops => [|ops o IH]; first by split; [exact: Inv0|].
rewrite all_rcons => /andP [oo /IH [iv ok]]; rewrite !foldl_rcons.
move: iv ok; set h := foldl recorded_step _ _; set s := foldl (exec m) _ _ => iv ok.
have okr c : call_ok c -> all_ok (rcons h c).
  by move=> oc x; elim: h ok {iv} => /= [_ [<-//|//]|y h IHh H [<-|/IHh]]; [apply: H; left|apply=> z hz; apply: H; right].
case: o oo => [c|c||ms]; rewrite /exec /recorded_step /op_ok -?/(c_rows _) -?/(c_idx _) => oo.
- have [s' -> [iv' _]] := record_ok iv oo; split=> //; exact: okr.
- case/andP: oo => oc fm; rewrite context_eq //; have [s' -> [iv' _]] := record_ok iv oc; split=> //; exact: okr.
- by split=> //; apply: Inv_clear iv.
- rewrite mem_eps; case h0: (has_ep 0%N h); rewrite ?andbF ?andbT.
    have [s' [-> iv' _]] := cache_ok ms iv ok h0; by case: ms iv' => iv'; split.
  have [e|nn] : h = [::] \/ h <> [::] by case: h {iv ok okr h0} => [|a b]; [left|right].
    have iv0 : Inv m [::] s by rewrite -e.
    by rewrite (cache_empty ms iv0).
  by rewrite (cache_no0 ms iv ok nn (negbT h0)).
Qed.
End H.

(* C17/C18: after any sequence of recordings, clears and earlier cache() calls, cache() fails with
   ValueError when nothing is recorded, with KeyError when steps are recorded but none in epoch 0
   (the state is unchanged in both cases), and otherwise stores for every recorded epoch e and sample
   j the displacement that unrolled SGD propagates from j's occurrences in epoch e to the final
   parameters; embeddings of epochs that are not recorded any more are left as they were. *)
Theorem C17_embeddings (F : fieldType) (d : nat) (m : mode) (ops : seq (op F d)) (ms : bool) :
  all (op_ok m) ops ->
  let s := state_after m ops in let h := recorded ops in let eps := [seq c_epoch c | c <- h] in
  let r := (cache m s None None ms).1 in
  [/\ h = [::] -> r = (s, Some ValueError),
      h <> [::] -> 0%N \notin eps -> r = (s, Some KeyError) &
      0%N \in eps -> r.2 = None /\ forall e,
        if e \in eps then
          exists em, [/\ dget (embs r.1) e = Some em, e_n em = num_samples h &
            forall j, e_row em j = sample_effect e j (schedule h)]
        else dget (embs r.1) e = dget (embs s) e].
Proof.
move=> oo s h eps r; have [iv ok] := run_Inv oo; split.
- by move=> e; rewrite /r (@cache_empty F d m s ms) // -[[::]]e.
- by move=> nn; rewrite /eps mem_eps => n0; rewrite /r (cache_no0 ms iv ok nn n0).
- rewrite /eps mem_eps => h0; have [s' [e1 _ he]] := cache_ok ms iv ok h0.
  by rewrite /r e1; split=> // e; have := he e; rewrite mem_eps.
Qed.
Print Assumptions C17_embeddings.

(* When epochs are recorded in order, the schedule is the recorded list itself. *)
Lemma split_min (F : fieldType) (d : nat) (h : seq (call F d)) e :
  (forall c, List.In c h -> (e <= c_epoch c)%N) -> sorted (fun a b => c_epoch a <= c_epoch b)%N h ->
  h = [seq c <- h | c_epoch c == e] ++ [seq c <- h | c_epoch c != e].
Proof.
elim: h => //= c h IH lo so.
have lo' : forall x, List.In x h -> (e <= c_epoch x)%N by move=> x hx; apply: lo; right.
have so' := path_sorted so.
case: (c_epoch c =P e) => [ec|ne] /=; first by rewrite {1}(IH lo' so').
have gt : (e < c_epoch c)%N by rewrite ltn_neqAle eq_sym (introN eqP ne) lo //; left.
have all_gt : all (fun x => e < c_epoch x)%N h.
  elim: {IH lo lo' so'} h (c) gt so => //= x h IHh a ga /andP [ax px]; have gx : (e < c_epoch x)%N := leq_trans ga ax.
  by rewrite gx (IHh x gx px).
have -> : [seq x <- h | c_epoch x == e] = [::].
  by elim: {IH lo lo' so so'} h all_gt => //= x h IHh /andP [gx /IHh ->]; rewrite gtn_eqF.
by rewrite /=; congr (_ :: _); elim: {IH lo lo' so so'} h all_gt => //= x h IHh /andP [gx /IHh {1}->]; rewrite gtn_eqF.
Qed.
Lemma flat_blocks (F : fieldType) (d : nat) (es : seq nat) : sorted ltn es ->
  forall h : seq (call F d), (forall c, List.In c h -> c_epoch c \in es) ->
  sorted (fun a b => c_epoch a <= c_epoch b)%N h ->
  flatten [seq [seq c <- h | c_epoch c == e] | e <- es] = h.
Proof.
elim: es => [|e es IH] /= so h hin sh; first by case: h hin {sh} => // c h /(_ c (or_introl erefl)).
have mn : forall x, x \in es -> (e < x)%N by apply/allP; exact: (order_path_min ltn_trans so).
rewrite [RHS](@split_min _ _ h e) //; last first.
  by move=> c /hin; rewrite inE => /orP [/eqP ->//|/mn /ltnW].
congr (_ ++ _); set h' := [seq c <- h | _].
rewrite -[RHS](IH (path_sorted so)).
- congr flatten; apply/eq_in_map => e' he'; rewrite /h' -filter_predI; apply: eq_filter => c /=.
  by case: (c_epoch c =P e') => //= ->; rewrite gtn_eqF // mn.
- move=> c; rewrite /h' => hc.
  have [h1 h2] : List.In c h /\ c_epoch c != e.
    elim: (h) hc => //= x l IHl; case: ifP => [nx [<-|/IHl []]|_ /IHl []]; by [split=> //; left|split=> //; right|move=> ? ?; split=> //; right].
  by have := hin c h1; rewrite inE (negbTE h2).
- apply: sorted_filter sh => a b c; exact: leq_trans.
Qed.
Theorem C17_chronological (F : fieldType) (d : nat) (h : seq (call F d)) :
  sorted (fun a b => c_epoch a <= c_epoch b)%N h -> schedule h = h.
Proof.
move=> so; apply: flat_blocks => //.
  by rewrite ltn_sorted_uniq_leq sort_uniq undup_uniq; apply: sort_sorted; exact: leq_total.
move=> c hc; rewrite mem_sort mem_undup; elim: h hc {so} => //= x h IH [->|/IH e]; by rewrite inE ?eqxx ?e ?orbT.
Qed.
Print Assumptions C17_chronological.

(* attribute: inner products with the test gradients, for one epoch or summed over the recorded
   epochs, for an attributor whose recordings were never cleared and cached only once. *)
Lemma sum_dict (F : zmodType) (V : Type) (dct : dict nat_eqType V) (f : V -> F) (g : nat -> F) :
  uniq (dkeys dct) -> (forall e v, dget dct e = Some v -> f v = g e) ->
  \sum_(v <- dvals dct) f v = \sum_(e <- dkeys dct) g e.
Proof.
move=> u H; rewrite /dvals /dkeys !big_map.
have : forall p, List.In p dct -> f p.2 = g p.1 by move=> p /(dget_in u) /H.
elim: {u H} dct => [|p l IH] H; first by rewrite !big_nil.
rewrite !big_cons H; last by left.
by rewrite IH // => q hq; apply: H; right.
Qed.
Lemma epochs_uniq (F : fieldType) (d : nat) m n es : forall (s : st F d) M,
  uniq (dkeys (embs s)) -> uniq (dkeys (embs (epochs_loop m n es s M).1)).
Proof.
elim: es => //= e es IH s M u; case: (rfold _ _ _) => [[M' E]|//]; apply: IH; exact: uniq_dset.
Qed.
Lemma cache_uniq (F : fieldType) (d : nat) m (s : st F d) ms :
  uniq (dkeys (embs s)) -> uniq (dkeys (embs (cache m s None None ms).1.1)).
Proof.
move=> u; rewrite /cache andbF; case: ifP => // _; case: (total_samples _) => // n; case: (probe _ _) => // _.
set s1 := St _ _ _ _ _; have := @epochs_uniq F d m n (sort (fun a b => b <= a)%N (dkeys (lrs s1))) s1 0 u.
by case: (epochs_loop _ _ _ _ _) => s' [x|] //=; case: ms.
Qed.

Lemma rec_embs_gen (F : fieldType) (d : nat) (m : mode) (h : seq (call F d)) : forall s0 h0,
  Inv m h0 s0 -> all (op_ok m) [seq Rec c | c <- h] ->
  embs (foldl (exec m) s0 [seq Rec c | c <- h]) = embs s0.
Proof.
elim: h => // c h IH s0 h0 iv /= /andP [oc oo].
have [s1 e1 [iv1 em1]] := record_ok iv oc.
by rewrite -/(c_rows c) -/(c_idx c) (_ : then_ _ _ = (s1, None)) // (IH s1 (rcons h0 c)).
Qed.
Lemma rec_embs (F : fieldType) (d : nat) (m : mode) (h : seq (call F d)) :
  all (op_ok m) [seq Rec c | c <- h] -> embs (state_after m [seq Rec c | c <- h]) = [::].
Proof. by move=> oo; rewrite /state_after (rec_embs_gen (Inv0 F d m)). Qed.

Theorem C17_attribute (F : fieldType) (d : nat) (m : mode) (h : seq (call F d)) (ms : bool) (test : seq (seq 'rV[F]_d))
    (e : option nat) (sel : option (seq nat)) :
  all (op_ok m) [seq Rec c | c <- h] ->
  let eps := undup [seq c_epoch c | c <- h] in let n := num_samples h in
  0%N \in eps -> (0 < size test)%N -> (if e is Some x then x \in eps else true) ->
  let rows := odflt (iota 0 n) sel in all (fun j => j < n)%N rows ->
  attribute (cache m (state_after m [seq Rec c | c <- h]) None None ms).1.1 test e sel =
    Ok [seq [seq \sum_(x <- if e is Some x then [:: x] else eps) inner (sample_effect x j (schedule h)) g
            | g <- flatten test] | j <- rows].
Proof.
move=> oo eps n e0 t0 he rows hr.
have [_ _] := C17_embeddings ms oo.
have rec : recorded [seq Rec c | c <- h] = h.
  by rewrite /recorded -[RHS]cat0s; elim: h {oo eps n e0 he rows hr} [::] => [|c h IH] l /=; rewrite ?cats0 // IH cat_rcons.
rewrite rec -mem_undup -/eps => /(_ e0) [_ hh].
set s := state_after _ _ in hh *; set s' := (cache _ _ _ _ _).1.1 in hh *.
have em0 : embs s = [::] by exact: rec_embs.
have u : uniq (dkeys (embs s')) by apply: cache_uniq; rewrite em0.
have keys : dkeys (embs s') =i eps.
  move=> x; rewrite -/(dhas _ _) dget_has; have := hh x; rewrite -mem_undup.
  by case: ifP => [_ [em [-> _ _]]|_ ->]; rewrite ?em0.
have get x : x \in eps -> exists em, [/\ dget (embs s') x = Some em, e_n em = n &
            forall j, e_row em j = sample_effect x j (schedule h)].
  by move=> hx; have := hh x; rewrite -mem_undup hx.
rewrite /attribute; have -> : (size (embs s') == 0%N) = false.
  by have [em [g1 _ _]] := get _ e0; case: (embs s') g1.
rewrite eqn0Ngt t0 /=.
have fin (em : emb F d) (es : seq nat) : e_n em = n ->
    (forall j, e_row em j = \sum_(x <- es) sample_effect x j (schedule h)) ->
    rbind (match sel with
      | Some l => if has (fun i => e_n em <= i)%N l then Err IndexError else Ok (map (e_row em) l)
      | None => Ok (mkseq (e_row em) (e_n em)) end)
      (fun rows => Ok [seq [seq (r *m g^T) 0 0 | g <- flatten test] | r <- rows]) =
    Ok [seq [seq \sum_(x <- es) inner (sample_effect x j (schedule h)) g | g <- flatten test] | j <- rows].
  move=> en er.
  have -> : match sel with
      | Some l => if has (fun i => e_n em <= i)%N l then Err IndexError else Ok (map (e_row em) l)
      | None => Ok (mkseq (e_row em) (e_n em)) end = Ok (map (e_row em) rows).
    move: hr; rewrite /rows; case: (sel) => [l|] /= hr; last by rewrite en.
    rewrite (_ : has _ _ = false) //; apply/negbTE; rewrite -all_predC en; apply: sub_all hr => i /=; by rewrite -ltnNge.
  rewrite /= -map_comp; congr Ok; apply: eq_map => j /=; apply: eq_map => g.
  rewrite er mulmx_suml summxE; apply: eq_bigr => x _; by rewrite innerE.
case: e he => [x|] he.
  by have [em [-> en er]] := get _ he; apply: fin => // j; rewrite big_seq1.
have mem_n : forall em, List.In em (dvals (embs s')) -> e_n em = n.
  move=> em; rewrite /dvals => /List.in_map_iff [p [<- hp]].
  have [em' [g1 <- _]] := get p.1 (etrans (esym (keys p.1)) (dget_mem (dget_in u hp))).
  by move: g1; rewrite (dget_in u hp) => -[->].
have hd : e_n (head (Emb 0 (fun=> 0)) (dvals (embs s'))) = n.
  have [em [g1 _ _]] := get _ e0; move: mem_n g1; rewrite /dvals; case: (embs s') => //= p l H _; apply: H; by left.
rewrite hd (_ : all _ _ = true); last first.
  by elim: (dvals (embs s')) mem_n {hd} => //= em l IH H; rewrite H ?eqxx ?IH //=; [move=> q hq; apply: H; right|left].
apply: fin => // j /=.
rewrite (@sum_dict _ _ (embs s') (fun em => e_row em j) (fun x => sample_effect x j (schedule h))) //; last first.
  move=> x v gx; have hx : x \in eps by rewrite -keys; apply: dget_mem gx.
  by have [em [g1 _ er]] := get _ hx; move: gx; rewrite g1 => -[<-].
by apply: perm_big; apply: uniq_perm => //; exact: undup_uniq.
Qed.
Print Assumptions C17_attribute.

(* Non-vacuity of C17: two epochs, three steps, one coordinate; sample 0 is used twice. *)
Definition r1 (x : rat) : 'rV[rat]_1 := \row_(_ < 1) x.
Definition exh : seq (call [fieldType of rat] 1) :=
  [:: Call 0 1 [:: (0%N, r1 1)]; Call 0 1 [:: (1%N, r1 2%:R)]; Call 1 1 [:: (0%N, r1 1)]].
Example C17_example : all (op_ok Full) [seq Rec c | c <- exh] /\ 0%N \in undup [seq c_epoch c | c <- exh] /\
  sorted (fun a b => c_epoch a <= c_epoch b)%N exh.
Proof. by []. Qed.

(* C18: attribute refuses to run before cache() succeeded, and for unknown epochs. *)
Theorem C18_attribute_errors (F : fieldType) (d : nat) (m : mode) (h : seq (call F d)) (ms : bool)
    (test : seq (seq 'rV[F]_d)) (sel : option (seq nat)) (e : nat) :
  all (op_ok m) [seq Rec c | c <- h] ->
  (forall e', attribute (state_after m [seq Rec c | c <- h]) test e' sel = Err RuntimeError) /\
  (0%N \in [seq c_epoch c | c <- h] -> (0 < size test)%N -> e \notin [seq c_epoch c | c <- h] ->
   attribute (cache m (state_after m [seq Rec c | c <- h]) None None ms).1.1 test (Some e) sel = Err ValueError).
Proof.
move=> oo; split; first by move=> e'; rewrite /attribute rec_embs.
have [_ _] := C17_embeddings ms oo.
have -> : recorded [seq Rec c | c <- h] = h.
  by rewrite /recorded -[RHS]cat0s; elim: h {oo} [::] => [|c h IH] l /=; rewrite ?cats0 // IH cat_rcons.
move=> hh h0 t0 ne; have [_ he] := hh h0.
rewrite /attribute; have := he e; rewrite (negbTE ne) rec_embs //= => ->.
have := he 0%N; rewrite h0 => -[em [g _ _]].
by case: (embs _) g => // ? ? _; rewrite /= (_ : (size test == 0%N) = false) //; case: (size test) t0.
Qed.
Print Assumptions C18_attribute_errors.

(* clear_cache empties every recording and keeps the embeddings: attribute is not affected by it. *)
Theorem C18_clear (F : fieldType) (d : nat) (m : mode) (ops : seq (op F d)) (test : seq (seq 'rV[F]_d))
    (e : option nat) (sel : option (seq nat)) (ms : bool) :
  all (op_ok m) ops ->
  let s := state_after m ops in
  attribute (clear_cache m s) test e sel = attribute s test e sel /\
  (cache m (clear_cache m s) None None ms).1 = (clear_cache m s, Some ValueError).
Proof.
move=> oo s; split=> //; have [iv _] := run_Inv oo.
by rewrite (cache_empty ms (Inv_clear iv)).
Qed.
Print Assumptions C18_clear.

(* The recorded rows always match their indices: whatever was recorded, cleared and cached before,
   the dictionaries hold exactly the steps recorded since the last emptying, in order. *)
Theorem C18_recordings (F : fieldType) (d : nat) (m : mode) (ops : seq (op F d)) (e t : nat) (c0 : call F d) :
  all (op_ok m) ops ->
  let s := state_after m ops in let steps := [seq c <- recorded ops | c_epoch c == e] in
  (t < size steps)%N ->
  let c := nth c0 steps t in
  [/\ dnth (lrs s) e t = Ok (c_lr c / (size (c_samples c))%:R),
      dnth (idxs s) e t = Ok [seq p.1 | p <- c_samples c] &
      step_rows m s e t = Ok [seq p.2 | p <- c_samples c]].
Proof.
move=> oo s steps lt c; have [iv _] := run_Inv oo; have [hl hi _] := iv; split.
- exact: (dnth_holds c0 hl lt).
- exact: (dnth_holds c0 hi lt).
- exact: (rows_Inv c0 iv lt).
Qed.
Print Assumptions C18_recordings.

(* The context manager records in its finally block: a training step whose forward and backward
   ran but which then raised is recorded exactly like a completed one. *)
Theorem C18_failed_step_recorded (F : fieldType) (d : nat) (m : mode) (s : st F d) e rows idx lr x :
  is_fact m ->
  let ok := cache_gradients m s e (Ok rows) idx lr in
  ok.2 = None -> cache_gradients_context m s e (Some rows) (Some x) idx lr = (ok.1, Some x).
Proof.
move=> fm ok; rewrite /ok /cache_gradients /cache_gradients_context fm /=.
by case: (then_ _ _) => s' [].
Qed.
Print Assumptions C18_failed_step_recorded.

(* A step whose forward never ran is recorded too (factorised, unprojected attributor): if it was
   the first of epoch 0, cache() raises AttributeError, and so does a second attempt. *)
Theorem C18_poisoned_recording (F : fieldType) (d : nat) (x : exn) (idx : seq nat) (lr : F) (ms : bool) :
  (0 < size idx)%N ->
  let bad := cache_gradients_context FactRecon (init F d) 0 None (Some x) idx lr in
  let r := (cache FactRecon bad.1 None None ms).1 in
  bad.2 = Some x /\ r = (bad.1, Some AttributeError).
Proof.
move=> i0 bad.
have -> : bad = (St [:: (0%N, [::])] [:: (0%N, [:: None])] [:: (0%N, [:: lr / (size idx)%:R])] [:: (0%N, [:: idx])] [::], Some x).
  by rewrite /bad /cache_gradients_context /= /then_ /= /put_meta eqn0Ngt i0.
split=> //=; rewrite /cache /= /total_samples /= !cats0 eqn0Ngt i0 //.
Qed.
Print Assumptions C18_poisoned_recording.

(* External gradients: an attributor that recorded nothing itself cannot use them, because the
   sample indices come from its own recordings only. *)
Theorem C18_external_refuted (F : fieldType) (d : nat) (g : dict nat_eqType (seq (seq 'rV[F]_d)))
    (lr : option (dict nat_eqType (seq F))) (ms : bool) :
  any_vals g -> (cache Full (init F d) (Some g) lr ms).1.2 = Some RuntimeError.
Proof. by move=> ag; rewrite /cache /= ag. Qed.
Print Assumptions C18_external_refuted.

(* ... and with the default memory_saving=True a successful cache() empties the dictionaries the
   caller passed in. *)
Theorem C18_external_emptied (F : fieldType) (d : nat) (m : mode) (s : st F d) g lr :
  let r := cache m s g lr true in
  r.1.2 = None -> r.2 = (omap (fun=> [::]) g, omap (fun=> [::]) lr).
Proof.
rewrite /cache; case: ifP => // _; case: ifP => // _.
case: (total_samples _) => // n; case: (probe _ _) => // _.
by case: (epochs_loop _ _ _ _ _) => s' [x|].
Qed.
Print Assumptions C18_external_emptied.
(* such a success exists: one recorded step, other gradients passed explicitly *)
Example C18_external_example :
  let s := state_after Full [:: Rec (Call 0 1 [:: (0%N, r1 1)])] in
  (cache Full s (Some [:: (0%N, [:: [:: r1 2%:R]])]) None true).1.2 = None.
Proof. by []. Qed.

(* Embeddings of epochs that a later run does not have stay: asking for such an epoch after the
   second run is not refused but answered with the scores of the first run. *)
Theorem C18_stale_epochs_refuted (F : fieldType) (d : nat) (m : mode) (ops : seq (op F d)) (h2 : seq (call F d))
    (ms : bool) (test : seq (seq 'rV[F]_d)) (sel : option (seq nat)) (e : nat) :
  all (op_ok m) (ops ++ [:: Cache F d true] ++ [seq Rec c | c <- h2]) ->
  let first := [seq c_epoch c | c <- recorded ops] in
  0%N \in first -> e \in first -> 0%N \in [seq c_epoch c | c <- h2] -> e \notin [seq c_epoch c | c <- h2] ->
  let s1 := state_after m (ops ++ [:: Cache F d true]) in
  let s2 := state_after m (ops ++ [:: Cache F d true] ++ [seq Rec c | c <- h2]) in
  attribute (cache m s2 None None ms).1.1 test (Some e) sel = attribute s1 test (Some e) sel /\
  attribute s1 test (Some e) sel <> Err ValueError.
Proof.
move=> oo first f0 fe n0 ne s1 s2.
have oo1 : all (op_ok m) ops by move: oo; rewrite all_cat => /andP [].
have oo2 : all (op_ok m) [seq Rec c | c <- h2] by move: oo; rewrite !all_cat => /and3P [].
have s1E : s1 = (cache m (state_after m ops) None None true).1.1 by rewrite /s1 /state_after foldl_cat.
have rec1 : recorded (ops ++ [:: Cache F d true]) = [::].
  by rewrite /recorded foldl_cat /= -/(recorded ops) -/first f0.
have [iv1 _] : Inv m (recorded (ops ++ [:: Cache F d true])) s1 /\ all_ok (recorded (ops ++ [:: Cache F d true])).
  by apply: run_Inv; rewrite all_cat oo1.
have e2 : embs s2 = embs s1.
  by rewrite /s2 catA /state_after foldl_cat -/(state_after m _) -/s1 (rec_embs_gen iv1).
have rec2 : recorded (ops ++ [:: Cache F d true] ++ [seq Rec c | c <- h2]) = h2.
  rewrite catA /recorded foldl_cat -/(recorded _) rec1 -[RHS]cat0s.
  by elim: h2 [::] {oo oo2 n0 ne s2 e2} => [|c h IH] l /=; rewrite ?cats0 // IH cat_rcons.
have [_ _] := C17_embeddings ms oo; rewrite rec2 => /(_ n0) [_ he].
have [_ _] := C17_embeddings true oo1; rewrite -s1E => /(_ f0) [_ he1].
have := he1 e; rewrite -/first fe => -[em [ge _ _]].
have := he 0%N; rewrite n0 => -[em0 [g0 _ _]].
have := he e; rewrite (negbTE ne) -/s2 e2 ge => ge2.
have z1 : (size (embs s1) == 0%N) = false by case: (embs s1) ge.
have z2 : (size (embs (cache m s2 None None ms).1.1) == 0%N) = false by case: (embs _) g0.
rewrite /attribute z1 z2 ge ge2; split=> //.
case: ifP => // _ /=; case: sel => //= l; by case: ifP.
Qed.
Print Assumptions C18_stale_epochs_refuted.

(* C51: factorised gradients. *)
(* Without projection: entry (o, i) of a layer's block is the sum over positions of output gradient o
   times input i, followed by the bias gradient. *)
Theorem C51_reconstruct (F : fieldType) (its : seq (item F)) k it0 :
  (k < size its)%N ->
  let it := nth it0 its k in
  let off := (\sum_(x <- take k its) it_out x * (it_in x + it_bias x))%N in
  (forall o i, (o < it_out it)%N -> (i < it_in it)%N ->
    nth 0 (reconstruct its) (off + (o * it_in it + i))%N = \sum_(ab <- it_ab it) nth 0 ab.2 o * nth 0 ab.1 i) /\
  (it_bias it -> forall o, (o < it_out it)%N ->
    nth 0 (reconstruct its) (off + (it_out it * it_in it + o))%N = \sum_(ab <- it_ab it) nth 0 ab.2 o).
Proof.
rewrite /reconstruct; elim: its k => //= it its IH [|k] hk /=.
  rewrite big_nil; split=> [o i ho hi|hb o ho].
    have lt : (o * it_in it + i < it_out it * it_in it)%N.
      by apply: (@leq_trans (o.+1 * it_in it)); [rewrite mulSn; lia|rewrite leq_mul2r ho orbT].
    rewrite add0n -catA nth_cat size_mkseq lt nth_mkseq // divnMDl ?modnMDl; last by lia.
    by rewrite divn_small // modn_small // addn0.
  by rewrite add0n -catA nth_cat size_mkseq ltnNge leq_addr /= addKn hb nth_cat size_mkseq ho nth_mkseq.
have sz : size (mkseq (fun q => grad_w it (q %/ it_in it)%N (q %% it_in it)%N) (it_out it * it_in it) ++
       (if it_bias it then mkseq (grad_b it) (it_out it) else [::])) = (it_out it * (it_in it + it_bias it))%N.
  by rewrite size_cat size_mkseq mulnDr; case: (it_bias it); rewrite ?size_mkseq ?muln1 ?muln0.
have [h1 h2] := IH k hk; rewrite big_cons; split=> [o i ho hi|hb o ho].
  by rewrite nth_cat sz ltnNge -addnA leq_addr /= addKn h1.
by rewrite nth_cat sz ltnNge -addnA leq_addr /= addKn h2.
Qed.
Print Assumptions C51_reconstruct.

Lemma kron_sum (F : fieldType) n1 n2 (A B : nat -> F) (l : seq (seq F * seq F)) :
  \sum_(o < n1) \sum_(i < n2) A o * B i * (\sum_(ab <- l) nth 0 ab.2 o * nth 0 ab.1 i) =
  \sum_(ab <- l) (\sum_(o < n1) A o * nth 0 ab.2 o) * (\sum_(i < n2) B i * nth 0 ab.1 i).
Proof.
transitivity (\sum_(o < n1) \sum_(ab <- l) \sum_(i < n2) A o * nth 0 ab.2 o * (B i * nth 0 ab.1 i)).
  apply: eq_bigr => o _; rewrite exchange_big /=; apply: eq_bigr => i _; rewrite mulr_sumr.
  by apply: eq_bigr => ab _; rewrite mulrACA.
rewrite exchange_big /=; apply: eq_bigr => ab _; rewrite mulr_suml; apply: eq_bigr => o _.
by rewrite mulr_sumr.
Qed.

(* With projection: both variants are fixed linear images of the exact weight gradient of the layer
   (first index: output side, second: input side); the bias gradient does not enter. *)
Theorem C51_kronecker (F : fieldType) (K : nat) (pa pb : nat -> nat -> F) (it : item F) u w :
  (u < K)%N -> (w < K)%N ->
  let G o i := \sum_(ab <- it_ab it) nth 0 ab.2 o * nth 0 ab.1 i in
  let P u w := \sum_(o < it_out it) \sum_(i < it_in it) pb u o * pa w i * G o i in
  nth 0 (kron_item K false pa pb it) (u * K + w) = P u w /\
  nth 0 (kron_item K true pa pb it) (u * K + w) = P w u.
Proof.
move=> hu hw G P.
have lt : (u * K + w < K * K)%N.
  by apply: (@leq_trans (u.+1 * K)); [rewrite mulSn; lia|rewrite leq_mul2r hu orbT].
have E x y : P x y = \sum_(ab <- it_ab it) papply pb (it_out it) ab.2 x * papply pa (it_in it) ab.1 y.
  exact: kron_sum.
have dv : ((u * K + w) %/ K = u)%N by rewrite divnMDl ?divn_small ?addn0 //; lia.
have md : ((u * K + w) %% K = w)%N by rewrite modnMDl modn_small.
rewrite /kron_item !nth_mkseq // dv md !E; split=> //.
by apply: eq_bigr => ab _; rewrite mulrC.
Qed.
Print Assumptions C51_kronecker.

Theorem C51_elementwise (F : fieldType) (K : nat) (rootk : F) (pa pb : nat -> nat -> F) (it : item F) u :
  (u < K)%N ->
  let G o i := \sum_(ab <- it_ab it) nth 0 ab.2 o * nth 0 ab.1 i in
  nth 0 (elem_item K rootk pa pb it) u =
    rootk * \sum_(o < it_out it) \sum_(i < it_in it) pb u o * pa u i * G o i.
Proof.
move=> hu G; rewrite /elem_item nth_mkseq // mulrC; congr (_ * _).
rewrite /G kron_sum; by apply: eq_bigr => ab _; rewrite mulrC.
Qed.
Print Assumptions C51_elementwise.

(* So two layers that differ only in having a bias get the same projected gradient. *)
Theorem C51_bias_dropped_refuted (F : fieldType) (K : nat) (s3 : bool) (rootk : F) (pa pb : nat -> nat -> F) i o ab :
  kron_item K s3 pa pb (Item i o true ab) = kron_item K s3 pa pb (Item i o false ab) /\
  elem_item K rootk pa pb (Item i o true ab) = elem_item K rootk pa pb (Item i o false ab).
Proof. by []. Qed.
Print Assumptions C51_bias_dropped_refuted.

(* A layer given the same single-position data as (B, D) and as (B, 1, D) gets transposed
   coordinates, so gradients computed one way cannot be compared with the other. *)
Theorem C51_layout_refuted : exists (pa pb : nat -> nat -> rat) (it : item [fieldType of rat]),
  size (it_ab it) = 1%N /\ kron_item 2 false pa pb it <> kron_item 2 true pa pb it.
Proof.
exists (fun k i => if k == 0%N then 1 else 0), (fun k i => 1), (Item 1 1 false [:: ([:: 1], [:: 1])]).
split=> //; move/(congr1 (fun s => nth 0 s 1)).
rewrite /kron_item !nth_mkseq //= !big_seq1 /papply !big_ord1 /= => /eqP.
by vm_compute.
Qed.
Print Assumptions C51_layout_refuted.

Example C51_example : reconstruct [:: Item 1 2 true [:: ([:: 1 : rat], [:: 0; 1])]] = [:: 0; 1; 0; 1].
Proof. by rewrite /reconstruct /mkseq /= /grad_w /grad_b !big_seq1 /= !mul0r !mul1r. Qed.
