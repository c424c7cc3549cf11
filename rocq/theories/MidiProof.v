(* Lemmas for the MIDI codec. *)
Set Warnings "-notation-overridden,-ambiguous-paths".
From mathcomp Require Import all_ssreflect all_algebra zify.
From Verif Require Import Py Dict MidiModel MidiSpec.
Set Implicit Arguments. Unset Strict Implicit. Unset Printing Implicit Defensive.
Import GRing.Theory Num.Theory Order.Theory.
Local Open Scope ring_scope.

Lemma floorqP x : (floorq x)%:~R <= x /\ x < (floorq x + 1)%:~R.
Proof.
have d0 := denq_gt0 x; have e := divz_eq (numq x) (denq x); have := modz_ge0 (numq x) (lt0r_neq0 d0).
have := ltz_pmod (numq x) d0; move: e; rewrite -/(floorq x); set r := (_ %% _)%Z => e r1 r0.
have dq : 0 < (denq x)%:~R :> rat by rewrite ltr0z.
have xe : x = (numq x)%:~R / (denq x)%:~R by rewrite divq_num_den.
rewrite {2 3}xe ler_pdivl_mulr // ltr_pdivr_mulr // -!intrM ler_int ltr_int e mulrDl mul1r.
by split; [rewrite ler_addl|rewrite ltr_add2l].
Qed.
Lemma floorq_int k : floorq k%:~R = k.
Proof.
have [h1 h2] := floorqP k%:~R; move: h1 h2; rewrite ler_int ltr_int => h1 h2.
by move: h1 h2; lia.
Qed.
Lemma pyround_int k : pyround k%:~R = k.
Proof. by rewrite /pyround floorq_int subrr. Qed.
Lemma pyround_near x : `|(pyround x)%:~R - x| <= 2%:R^-1.
Proof.
have [h1 h2] := floorqP x; rewrite /pyround; set f := floorq x in h1 h2 *; set r := x - f%:~R.
have xe : x = f%:~R + r by rewrite /r addrC subrK.
have r0 : 0 <= r by rewrite /r subr_ge0.
have r1 : r < 1 by move: h2; rewrite intrD xe ltr_add2l.
have hh : 1 - 2%:R^-1 = 2%:R^-1 :> rat by [].
have A : r <= 2%:R^-1 -> `|f%:~R - x| <= 2%:R^-1 by rewrite xe opprD addrA subrr add0r normrN ger0_norm.
have B : 2%:R^-1 <= r -> `|(f + 1)%:~R - x| <= 2%:R^-1.
  move=> h; rewrite intrD xe opprD addrACA subrr add0r ger0_norm; first by rewrite -[X in _ <= X]hh ler_add2l ler_opp2.
  by rewrite subr_ge0 ltW.
case: ltP => [h|h]; first by apply: A; exact: ltW.
case: ltP => [h'|h']; first by exact: B.
by case: ifP => _; [exact: A|exact: B].
Qed.

(* ---- events *)
Lemma from_to e : valid e -> from_int (to_int e) = e.
Proof.
case: e => t v; rewrite /valid /from_int /to_int /=; case: t => /= /andP [h1 h2].
- by rewrite add0r h1 h2.
- have -> : (0 <= 128 + v < 128) = false by move: h1 h2; clear; lia.
  have -> : (128 <= 128 + v < 256) by move: h1 h2; clear; lia.
  by rewrite addrC addKr.
- have -> : (0 <= 256 + v < 128) = false by move: h1 h2; clear; lia.
  have -> : (128 <= 256 + v < 256) = false by move: h1 h2; clear; lia.
  have -> : (256 <= 256 + v < 356) by move: h1 h2; clear; lia.
  by rewrite addrC addKr.
- have -> : (0 <= 356 + v < 128) = false by move: h1 h2; clear; lia.
  have -> : (128 <= 356 + v < 256) = false by move: h1 h2; clear; lia.
  have -> : (256 <= 356 + v < 356) = false by move: h1 h2; clear; lia.
  by rewrite addrC addKr.
Qed.
Lemma to_from n : to_int (from_int n) = n.
Proof. by rewrite /from_int /to_int; case: ifP => _ /=; [rewrite add0r|do 2?[case: ifP => _ /=]; rewrite addrC subrK]. Qed.
Lemma valid_token e : valid e -> token (to_int e).
Proof. by case: e => -[] v; rewrite /valid /token /to_int /=; lia. Qed.
Lemma from_valid n : token n -> valid (from_int n).
Proof.
rewrite /token /from_int /valid; case: ifP => h1 /=; first by move: h1; clear; lia.
case: ifP => h2 /=; first by move: h2; clear; lia.
by case: ifP => h3 /=; move: h1 h2 h3; clear; lia.
Qed.

Lemma shift_loopP fuel (n : nat) : (n < fuel)%N ->
  all (fun e => if e_type e is TimeShift then valid e else false) (shift_loop fuel n) &&
  (\sum_(e <- shift_loop fuel n) (e_val e + 1) == n).
Proof.
elim: fuel n => // fuel IH n lt /=; case: (leP 100 n%:Z) => h.
  have -> : n%:Z - 100 = (n - 100)%N%:Z by move: h; clear; lia.
  have /IH : (n - 100 < fuel)%N by move: lt h; clear; lia.
  case/andP=> a /eqP b; rewrite /= a /= big_cons b /=; apply/eqP; move: h; clear; lia.
case: eqP => e /=; first by rewrite big_nil e.
rewrite big_seq1 /valid /= subrK eqxx andbT; move: h e; clear; lia.
Qed.

(* ---- decoding what was encoded *)
Lemma merge_real d s : merge_loop d s = merge_loop d (filter real s).
Proof.
by elim: s d => //= x s IH d; rewrite /real; case e: (s_type x) => /=; rewrite ?e ?IH.
Qed.
(* the velocities heard: the last one sent *)
Fixpoint heard (v : int) (cv : option int) (s : seq snote) : seq snote :=
  if s is x :: s' then
    let v' := if s_vel x is Some w then if cv != Some (w %/ 4)%Z then (w %/ 4)%Z * 4 else v else v in
    SNote (s_type x) (s_time x) (s_val x) (Some v') :: heard v' (s_vel x) s'
  else [::].
Lemma events_shift es t v rest :
  all (fun e => if e_type e is TimeShift then valid e else false) es ->
  filter real (events2snotes t v (es ++ rest)) =
  filter real (events2snotes (t + (\sum_(e <- es) (e_val e + 1))%:~R / 100%:R) v rest).
Proof.
elim: es t => [|e es IH] t /=; first by rewrite big_nil mul0r addr0.
case te: (e_type e) => //= /andP [_ a]; rewrite /real /= IH // big_cons; congr (filter _ (events2snotes _ _ _)).
by rewrite [in RHS]intrD mulrDl addrA.
Qed.
Lemma grid_diff (R : realFieldType) (c : R) (i j : nat) : 0 < c -> i%:R / c <= j%:R / c ->
  (j%:R / c - i%:R / c) * c = (j - i)%:R /\ i%:R / c + (j - i)%:R / c = j%:R / c.
Proof.
move=> c0; rewrite ler_pmul2r ?invr_gt0 // ler_nat => ij.
by rewrite -mulrBl divfK ?lt0r_neq0 // -natrB // -mulrDl -natrD subnKC.
Qed.
Lemma hundred : 0 < (100%:R : rat). Proof. by rewrite ltr0n. Qed.
Lemma centi_diff t x : centi t -> centi x -> t <= x -> exists k : nat, (x - t) * 100%:R = k%:~R /\ t + k%:~R / 100%:R = x.
Proof.
by case=> i -> [j ->] le; exists (j - i)%N; apply: grid_diff le; exact: hundred.
Qed.
Fixpoint rising (t : rat) (s : seq snote) : Prop :=
  if s is x :: s' then [/\ t <= s_time x, centi (s_time x) & rising (s_time x) s'] else True.
Lemma shift_centi t x : centi t -> centi x -> t <= x ->
  all (fun e => if e_type e is TimeShift then valid e else false) (shift_events t x) /\
  t + (\sum_(e <- shift_events t x) (e_val e + 1))%:~R / 100%:R = x.
Proof.
move=> ct cx le; have [k [e1 e2]] := centi_diff ct cx le.
rewrite /shift_events e1 pyround_int; have := @shift_loopP (k.+1) k (ltnSn _).
by case/andP=> a /eqP b; split=> //; rewrite b.
Qed.
Lemma decode_loop s t v cv : centi t -> rising t s -> all real s ->
  filter real (events2snotes t v (encode_loop t cv s)) = heard v cv s.
Proof.
elim: s t v cv => //= x s IH t v cv ct [le cx rs] /andP [rx ar].
have [a b] := shift_centi ct cx le; rewrite events_shift // b /snote2events -catA.
have E v' : filter real (events2snotes (s_time x) v' ([:: Ev (s_type x) (s_val x)] ++ encode_loop (s_time x) (s_vel x) s)) =
   SNote (s_type x) (s_time x) (s_val x) (Some v') :: heard v' (s_vel x) s.
  by move: rx; rewrite /= /real; case ty: (s_type x) => //= _; rewrite -(IH (s_time x)) //= /real ty.
case vx: (s_vel x) => [w|]; last by have := E v; rewrite vx.
by case: ifP => h; [have := E ((w %/ 4)%Z * 4)|have := E v]; rewrite vx.
Qed.
Definition inrange (x : snote) : bool :=
  [&& real x, 0 <= s_val x, s_val x < 128 & if s_vel x is Some w then (0 <= w) && (w < 128) else true].
Lemma encode_valid s t cv : centi t -> rising t s -> all inrange s -> all valid (encode_loop t cv s).
Proof.
elim: s t cv => //= x s IH t cv ct [le cx rs] /andP [rx ar].
have [a _] := shift_centi ct cx le; rewrite !all_cat IH // andbT; apply/andP; split.
  by apply: sub_all a => e; case: (e_type e).
move: rx; rewrite /inrange /snote2events => /and4P [rl v0 v1 h]; apply/andP; split.
  by case: (s_vel x) h => [w|] // /andP [w0 w1]; case: ifP => // _; rewrite /= /valid /= andbT; move: w0 w1; clear; lia.
by move: rl v0 v1; rewrite /= /valid /real /=; case: (s_type x) => //= _ -> ->.
Qed.

(* ---- merging *)
(* the velocity of a note_off does not matter *)
Definition strip (x : snote) : snote := if s_type x is NoteOff then SNote NoteOff (s_time x) (s_val x) None else x.
Lemma merge_strip d s : merge_loop d (map strip s) = merge_loop d s.
Proof.
by elim: s d => //= x s IH d; rewrite /strip; case ty: (s_type x) => /=; rewrite ?ty ?IH.
Qed.
Definition q (x : snote) : snote :=
  SNote (s_type x) (s_time x) (s_val x) (if s_vel x is Some w then Some ((w %/ 4)%Z * 4) else None).
(* on-s with a velocity, off-s without; no velocity equals a quarter of another *)
Definition onoff (x : snote) : bool :=
  match s_type x, s_vel x with NoteOn, Some _ => true | NoteOff, None => true | _, _ => false end.
Lemma heard_q s v cv : all onoff s ->
  (forall y w, List.In y s -> s_vel y = Some w -> cv <> Some (w %/ 4)%Z \/ v = (w %/ 4)%Z * 4) ->
  (forall x y w, List.In x s -> List.In y s -> s_vel y = Some w -> s_vel x <> Some (w %/ 4)%Z) ->
  map strip (heard v cv s) = map q s.
Proof.
elim: s v cv => //= x s IH v cv /andP [ox os] h1 h2.
set v' := if s_vel x is Some w then _ else _.
rewrite (IH v' (s_vel x)) //; last 2 first.
- by move=> y w hy e; left; apply: (h2 x y); [left|right|].
- by move=> a b w ha hb; apply: h2; right.
congr cons; move: ox; rewrite /onoff /strip /q /=; case ty: (s_type x) => //; case vx: (s_vel x) => [w|] // _.
rewrite /v' vx; case: ifP => // /negbFE /eqP e; congr (SNote _ _ _ (Some _)).
by have [//|] := h1 x w (or_introl erefl) vx.
Qed.
