(* Lemmas for the MIDI codec: the error of the decoded times, the sustain pedal. *)
Set Warnings "-notation-overridden,-ambiguous-paths".
From mathcomp Require Import all_ssreflect all_algebra zify.
From Verif Require Import Py Dict MidiModel MidiSpec MidiProof MidiProof2.
Set Implicit Arguments. Unset Strict Implicit. Unset Printing Implicit Defensive.
Import GRing.Theory Num.Theory Order.Theory.
Local Open Scope ring_scope.

(* ---- arbitrary times *)
Lemma pyround_ge0 x : 0 <= x -> 0 <= pyround x.
Proof.
move=> x0; have [_ h] := floorqP x; have f0 : 0 <= floorq x.
  have := le_lt_trans x0 h; rewrite ltr0z; move: (floorq x); clear; lia.
by rewrite /pyround; case: ifP => // _; case: ifP => _; [|case: ifP => // _]; move: f0; clear; lia.
Qed.
Lemma shift_sum t x : t <= x ->
  all (fun e => if e_type e is TimeShift then valid e else false) (shift_events t x) /\
  \sum_(e <- shift_events t x) (e_val e + 1) = pyround ((x - t) * 100%:R).
Proof.
move=> le; have : 0 <= pyround ((x - t) * 100%:R).
  by apply: pyround_ge0; apply: mulr_ge0; [rewrite subr_ge0|rewrite ler0n].
rewrite /shift_events; case: (pyround _) => // k _; have := @shift_loopP (k.+1) k (ltnSn _).
by case/andP=> a /eqP b.
Qed.
Fixpoint climbing (t : rat) (s : seq snote) : Prop :=
  if s is x :: s' then t <= s_time x /\ climbing (s_time x) s' else True.
(* the times of the decoded stream: rounded steps are added up *)
Fixpoint dtimes (t cur : rat) (s : seq snote) : seq rat :=
  if s is x :: s' then
    let t' := t + (pyround ((s_time x - cur) * 100%:R))%:~R / 100%:R in t' :: dtimes t' (s_time x) s'
  else [::].
Lemma decode_times s t cur v cv : climbing cur s -> all real s ->
  let d := filter real (events2snotes t v (encode_loop cur cv s)) in
  [/\ map s_time d = dtimes t cur s, map s_type d = map s_type s & map s_val d = map s_val s].
Proof.
elim: s t cur v cv => //= x s IH t cur v cv [le cl] /andP [rx ar].
have [a b] := shift_sum le; rewrite events_shift // b /snote2events -catA.
set t' := t + _.
have E v' : let d := filter real (events2snotes t' v' ([:: Ev (s_type x) (s_val x)] ++ encode_loop (s_time x) (s_vel x) s)) in
   [/\ map s_time d = t' :: dtimes t' (s_time x) s, map s_type d = s_type x :: map s_type s & map s_val d = s_val x :: map s_val s].
  move: rx; rewrite /= /real; have [h1 h2 h3] := IH t' (s_time x) v' (s_vel x) cl ar.
  by case ty: (s_type x) => //= _; rewrite h1 h2 h3.
case vx: (s_vel x) => [w|]; last by have := E v; rewrite vx.
by case: ifP => h; [have := E ((w %/ 4)%Z * 4)|have := E v]; rewrite vx.
Qed.
Lemma half_cent (F : realFieldType) (c a y : F) : 0 < c -> `|a - y * c| <= 2%:R^-1 -> `|a / c - y| <= (2%:R * c)^-1.
Proof.
move=> c0 h; have -> : a / c - y = (a - y * c) / c by rewrite mulrBl mulfK // lt0r_neq0.
rewrite normrM [`|c^-1|]ger0_norm; last by rewrite invr_ge0 ltW.
by rewrite [(2%:R * c)^-1]invfM; apply: ler_wpmul2r => //; rewrite invr_ge0 ltW.
Qed.
Lemma drift (e : rat) s t cur i : (forall x, `|(pyround (x * 100%:R))%:~R / 100%:R - x| <= e) ->
  `|t - cur| <= i%:R * e ->
  forall k, (k < size s)%N -> `|nth 0 (dtimes t cur s) k - nth 0 (map s_time s) k| <= (i + k.+1)%:R * e.
Proof.
move=> he; elim: s t cur i => //= x s IH t cur i h k.
set t' := t + _; have h' : `|t' - s_time x| <= i.+1%:R * e.
  rewrite /t'; set d := _ / _; have -> : t + d - s_time x = (t - cur) + (d - (s_time x - cur)).
    by rewrite opprB addrACA addKr.
  apply: (le_trans (ler_norm_add _ _)); rewrite -addn1 natrD mulrDl mul1r.
  by apply: ler_add; [exact: h|exact: he].
case: k => [_|k]; first by rewrite /= addn1.
by rewrite ltnS /= => lt; rewrite addnS -addSn; apply: IH.
Qed.

(* ---- no shift at all *)
Lemma pyround_small x : 0 <= x -> x <= 2%:R^-1 -> pyround x = 0.
Proof.
move=> x0 x1; have [h1 h2] := floorqP x.
have f0 : floorq x = 0.
  have a := le_lt_trans x0 h2; have b := le_lt_trans h1 (le_lt_trans x1 (_ : 2%:R^-1 < 1)).
  have b1 : (floorq x)%:~R < (1 : int)%:~R :> rat by exact: b.
  move: a b1; rewrite ltr0z ltr_int; move: (floorq x); clear; lia.
rewrite /pyround f0 subr0; case: ltP => // h; case: ltP => // h'.
by have := le_lt_trans x1 h'; rewrite ltxx.
Qed.
Lemma merge_same t s d : all (fun x => s_time x == t) s -> (forall p y, dget d p = Some y -> s_time y = t) ->
  merge_loop d s = [::].
Proof.
elim: s d => //= x s IH d /andP [/eqP tx ts] hd; case: (s_type x); try exact: IH.
  by apply: IH => // p y; rewrite dgetE; case: eqP => [_ [<-]|_ /hd].
by case e: (dget d _) => [y|]; [rewrite tx (hd _ _ e) subrr eqxx|]; exact: IH.
Qed.

(* ---- the pedal *)
Definition sus_tuple (u : sustain) := (u_start u, u_end u, u_notes u).
Lemma sus_tupleK : cancel sus_tuple (fun t => Sus t.1.1 t.1.2 t.2). Proof. by case. Qed.
Definition sus_eqMixin := CanEqMixin sus_tupleK.
Canonical sus_eqType := Eval hnf in EqType sustain sus_eqMixin.
Definition same_note (h h' : seq note) : Prop := forall r,
  [/\ n_start (nth note0 h' r) = n_start (nth note0 h r), n_pitch (nth note0 h' r) = n_pitch (nth note0 h r) &
      n_vel (nth note0 h' r) = n_vel (nth note0 h r)].
Lemma same_refl h : same_note h h. Proof. by []. Qed.
Lemma same_trans h1 h2 h3 : same_note h1 h2 -> same_note h2 h3 -> same_note h1 h3.
Proof. by move=> a b r; have [a1 a2 a3] := a r; have [b1 b2 b3] := b r; split; [rewrite b1|rewrite b2|rewrite b3]. Qed.
Lemma transpose_same e d h refs : same_note h (transpose_loop e d h refs).
Proof.
elim: refs d h => [|r refs IH] d h; first exact: same_refl.
apply: same_trans (IH _ _) => s; rewrite nth_set_nth /=; case: eqP => [->|] //=.
Qed.
Section Counts.
Variable st : nat -> rat.
Definition stx (h : seq note) := forall r, n_start (nth note0 h r) = st r.
Definition le_st : rel nat := fun r s => st r <= st s.
(* what the scan does on notes in the order of their starts *)
Lemma scanP h u l : stx h -> u_start u <= u_end u -> pairwise le_st l ->
  let: (a, m, b) := scan h u l in
  perm_eq (a ++ m) [seq r <- l | st r <= u_end u] /\
  b = (if has (fun r => u_end u < st r) l then Some [seq r <- l | u_end u < st r] else None).
Proof.
move=> hs le; elim: l => //= r l IH /andP [al pw]; rewrite hs.
have := IH pw; case: (scan h u l) => [[a m] b] [e1 e2].
case: (ltP (st r) (u_start u)) => c1.
  have c2 : st r <= u_end u by exact: ltW (lt_le_trans c1 le).
  by rewrite c2 ltNge c2 /=; split=> //; rewrite perm_cons.
case: (ltP (u_end u) (st r)) => c2.
  have g s : s \in l -> u_end u < st s by move=> hs'; exact: lt_le_trans c2 (allP al s hs').
  split; last by congr Some; congr cons; apply/esym/all_filterP/allP.
  by rewrite (@eq_in_filter _ _ pred0) ?filter_pred0 // => s /g; rewrite ltNge => /negbTE.
by split=> //; rewrite perm_catC /= perm_cons perm_catC.
Qed.
Definition late (l : seq nat) (sus : seq sustain) := [seq u <- sus | ~~ has (fun r => u_end u < st r) l].
Definition early (l : seq nat) (sus : seq sustain) := [seq u <- sus | has (fun r => u_end u < st r) l].
Definition refs_of (x : seq note * seq nat * seq sustain) := x.1.2 ++ flatten [seq u_notes u | u <- x.2].
Lemma count_filter_st (P : pred rat) r l : count_mem r [seq x <- l | P (st x)] = if P (st r) then count_mem r l else 0%N.
Proof.
elim: l => [|x l IH] /=; first by case: ifP.
case e: (P (st x)) => /=; rewrite IH.
  by case: (x =P r) e => [-> ->|_ _] //; case: ifP.
by case: (x =P r) e => [-> ->|_ _] //; case: ifP.
Qed.
Lemma pedal_loopP h l sus : stx h -> all (fun u => u_start u <= u_end u) sus ->
  all (fun u => u_notes u == [::]) sus ->
  pairwise (fun u u' => u_end u <= u_end u') sus -> pairwise le_st l ->
  same_note h (pedal_loop h l sus).1.1 /\
  forall r, count_mem r (refs_of (pedal_loop h l sus)) =
    ((if has (fun u => st r <= u_end u)%R (early l sus) then 1 else size (late l sus)) * count_mem r l)%N.
Proof.
elim: sus h l => [|u sus IH] h l hs /=.
  by move=> *; split; [exact: same_refl|move=> r; rewrite mul0n].
case/andP=> le als /andP [/eqP un aun] /andP [ue pw] pl.
have := scanP hs le pl; case: (scan h u l) => [[a m] b] [pe ->].
case hb: (has _ l) => /=.
  set u' := Sus _ _ _; set h' := transposition_notes u' h; set l' := filter _ l.
  have sh : same_note h h' by exact: transpose_same.
  have hs' : stx h' by move=> r; have [-> _ _] := sh r; exact: hs.
  have pl' : pairwise le_st l' by exact: pairwise_filter.
  have := IH h' l' hs' als aun pw pl'; case: (pedal_loop h' l' sus) => [[h2 app] us] /= [s2 c2].
  split; first exact: same_trans sh s2.
  move=> r; rewrite /refs_of /= un /=.
  have -> : count_mem r ((a ++ app) ++ m ++ flatten [seq u_notes u0 | u0 <- us]) =
            (count_mem r (a ++ m) + count_mem r (app ++ flatten [seq u_notes u0 | u0 <- us]))%N.
    by rewrite !count_cat addnACA.
  rewrite (permP pe) /early /late /= -/(refs_of (h2, app, us)) c2.
  rewrite (count_filter_st (fun t => t <= u_end u)) /l' (count_filter_st (fun t => u_end u < t)).
  have E v : v \in sus -> has (fun r => u_end v < st r) [seq x <- l | u_end u < st x] = has (fun r => u_end v < st r) l.
    move=> hv; rewrite has_filter -filter_predI -has_filter; apply: eq_in_has => x _ /=.
    by case: ltP => //= c; rewrite (le_lt_trans (allP ue v hv) c).
  rewrite /early /late (eq_in_filter E).
  have E2 v : v \in sus -> ~~ has (fun r => u_end v < st r) [seq x <- l | u_end u < st x] = ~~ has (fun r => u_end v < st r) l.
    by move=> hv; rewrite E.
  rewrite (eq_in_filter E2).
  by case: ltP => c /=; [rewrite add0n|rewrite muln0 addn0 mul1n].
have := IH h l hs als aun pw pl; case: (pedal_loop h l sus) => [[h2 app] us] /= [s2 c2].
split=> // r; rewrite /refs_of /= un /=.
have -> : count_mem r ((a ++ app) ++ m ++ flatten [seq u_notes u0 | u0 <- us]) =
          (count_mem r (a ++ m) + count_mem r (app ++ flatten [seq u_notes u0 | u0 <- us]))%N.
  by rewrite !count_cat addnACA.
rewrite (permP pe) /early /late /= -/(refs_of (h2, app, us)) c2.
have N v : v \in sus -> has (fun r => u_end v < st r) l = false.
  move=> hv; apply/hasPn => x hx; rewrite -leNgt.
  by apply: le_trans (allP ue v hv); move/negbT: hb => /hasPn /(_ x hx); rewrite -leNgt.
have N2 : early l sus = [::] by rewrite /early (@eq_in_filter _ _ pred0) ?filter_pred0.
have -> : [seq x <- l | st x <= u_end u] = l.
  by apply/all_filterP/allP => x hx; move/negbT: hb => /hasPn /(_ x hx); rewrite -leNgt.
by rewrite -/(early l sus) -/(late l sus) N2 /= mulSn.
Qed.
End Counts.

(* the sustains read from control changes in the order of time *)
Lemma control_stepP (t : rat) (cs : seq ctrl) sus open :
  path (fun t' c => t' <= c) t (map c_time cs) ->
  all (fun u => (u_start u <= u_end u) && (u_end u <= t)) sus -> all (fun u => u_notes u == [::]) sus ->
  pairwise (fun u u' => u_end u <= u_end u') sus -> (if open is Some s then s <= t else true) ->
  let r := (foldl control_step (sus, open) cs).1 in
  [/\ all (fun u => u_start u <= u_end u) r, all (fun u => u_notes u == [::]) r &
      pairwise (fun u u' => u_end u <= u_end u') r].
Proof.
elim: cs t sus open => [|c cs IH] t sus open /=.
  by move=> _ a b d _; split=> //; apply: sub_all a => u /andP [].
case/andP=> le pt a b d o.
have a' : all (fun u => (u_start u <= u_end u) && (u_end u <= c_time c)) sus.
  by apply: sub_all a => u /andP [-> /=] h; exact: le_trans h le.
case: open o => [s|] o.
  case: ifP => _; last by apply: IH pt _ _ _ _ => //; exact: le_trans o le.
  apply: IH pt _ _ _ _ => //; rewrite -cats1 ?all_cat ?pairwise_cat /= ?andbT ?a' ?b ?(le_trans o le) ?lexx ?d //.
  by rewrite allrel1r andbT; apply: sub_all a' => u /andP [_].
case: ifP => _; first by apply: IH pt _ _ _ _.
case/lastP: sus a b d a' => [|sus l] a b d a'; first by apply: IH pt _ _ _ _.
rewrite rev_rcons rev_cons revK; apply: IH pt _ _ _ _ => //.
- by move: a'; rewrite -!cats1 !all_cat /= lexx !andbT => /and3P [-> h1 h2]; exact: le_trans h1 h2.
- by move: b; rewrite -!cats1 !all_cat.
move: d a'; rewrite -!cats1 !pairwise_cat /= !all_cat !allrel1r /= => /andP [_ ->] /andP [h _].
by rewrite !andbT; apply: sub_all h => u /andP [].
Qed.

(* the ends given by the pedal *)
Lemma transpose_other e d h refs r : r \notin refs -> nth note0 (transpose_loop e d h refs) r = nth note0 h r.
Proof.
elim: refs d h => //= s refs IH d h; rewrite inE negb_or => /andP [n1 n2].
by rewrite IH // nth_set_nth /= (negbTE n1).
Qed.
Definition first_start (h : seq note) (p : int) (l : seq nat) : option rat :=
  if [seq s <- l | n_pitch (nth note0 h s) == p] is s :: _ then Some (n_start (nth note0 h s)) else None.
Lemma first_same h h' p l : same_note h h' -> first_start h' p l = first_start h p l.
Proof.
move=> s; rewrite /first_start.
have -> : [seq x <- l | n_pitch (nth note0 h' x) == p] = [seq x <- l | n_pitch (nth note0 h x) == p].
  by apply: eq_filter => x; have [_ -> _] := s x.
by case: (filter _ _) => // x y; have [-> _ _] := s x.
Qed.
Lemma transpose_end e d h l1 r l2 : uniq (l1 ++ r :: l2) ->
  n_end (nth note0 (transpose_loop e d h (rev (l1 ++ r :: l2))) r) =
  if first_start h (n_pitch (nth note0 h r)) l2 is Some t then t
  else if dget d (n_pitch (nth note0 h r)) is Some t then t else Num.max e (n_end (nth note0 h r)).
Proof.
elim/last_ind: l2 d h => [|l2 x IH] d h.
  rewrite cats1 rev_rcons rcons_uniq => /andP [n u] /=; rewrite transpose_other ?mem_rev // nth_set_nth /= eqxx /=.
  by rewrite /first_start.
rewrite -rcons_cons -rcons_cat rev_rcons rcons_uniq => /andP [n u] /=.
set h' := set_nth _ _ _ _; have sh : same_note h h'.
  by move=> s; rewrite /h' nth_set_nth /=; case: eqP => [->|] //=.
have rx : r != x by apply: contraNneq n => <-; rewrite mem_cat mem_head orbT.
rewrite IH // (first_same _ _ sh); have [_ -> _] := sh r.
rewrite /h' nth_set_nth /= (negbTE rx) /first_start filter_rcons dgetE [n_pitch (nth note0 h x) == _]eq_sym.
by case: eqP => [e1|ne] /=; case: (filter _ _).
Qed.

Lemma release_timesP cs :
  (forall sus s, map u_end (foldl control_step (sus, Some s) cs).1 = map u_end sus ++ release_times true cs) /\
  (forall sus, map u_end (foldl control_step (sus, None) cs).1 =
    (if rev sus is u :: r then
      map u_end (rev r) ++ (if cs is c :: _ then if c_value c < 64 then [::] else [:: u_end u] else [:: u_end u])
      ++ release_times true cs
    else release_times false cs)).
Proof.
elim: cs => [|c cs [IH1 IH2]]; first split=> [sus s|sus] /=; first by rewrite cats0.
  by case/lastP: sus => //= sus u; rewrite rev_rcons revK map_rcons cats1.
split=> [sus s|sus] /=.
  case: (ltP (c_value c) 64) => h /=; last by rewrite IH1.
  by rewrite IH2 rev_rcons revK; case: cs {IH1 IH2} => [|c' cs].
case: (ltP (c_value c) 64) => h /=.
  case/lastP: sus => [|sus u] /=; first by rewrite IH2.
  by rewrite rev_rcons IH2 revK /= revK; case: cs {IH1 IH2} => [|c' cs].
rewrite IH1; case/lastP: sus => //= sus u; rewrite rev_rcons revK map_rcons -cats1 -catA //.
Qed.
Lemma ends_spec cs : map u_end (control_preprocess cs) = release_times false cs.
Proof. by rewrite /control_preprocess (release_timesP cs).2. Qed.
(* tokens *)
Lemma encode_valid_any s t cv : climbing t s -> all inrange s -> all valid (encode_loop t cv s).
Proof.
elim: s t cv => //= x s IH t cv [le cx] /andP [rx ar].
have [a _] := shift_sum le; rewrite !all_cat IH // andbT; apply/andP; split.
  by apply: sub_all a => e; case: (e_type e).
move: rx; rewrite /inrange /snote2events => /and4P [rl v0 v1 h]; apply/andP; split.
  by case: (s_vel x) h => [w|] // /andP [w0 w1]; case: ifP => // _; rewrite /= /valid /= andbT; move: w0 w1; clear; lia.
by move: rl v0 v1; rewrite /= /valid /real /=; case: (s_type x) => //= _ -> ->.
Qed.
Lemma climbing_sorted t s : (forall x, x \in s -> t <= s_time x) -> pairwise le_time s -> climbing t s.
Proof.
elim: s t => //= x s IH t h /andP [a b]; split; first exact: h (mem_head _ _).
by apply: IH => // y hy; exact: (allP a).
Qed.
Lemma climbing_snotes ns : (forall n, n \in ns -> 0 <= n_start n <= n_end n) -> climbing 0 (snotes ns).
Proof.
move=> h; apply: climbing_sorted.
  move=> x /snotes_in [n /h /andP [h1 h2]]; rewrite !inE => /orP [] /eqP -> //=; exact: le_trans h1 h2.
by rewrite -(sorted_pairwise le_time_trans); exact: sort_sorted le_time_total _.
Qed.
Lemma inrange_snotes_any ns : (forall n, n \in ns -> midi_range n) -> all inrange (snotes ns).
Proof.
move=> cl; apply/allP => x /snotes_in [n /cl /and4P [v0 v1 p0 p1]].
by rewrite !inE => /orP [] /eqP ->; rewrite /inrange /= p0 p1 //= v0 v1.
Qed.
Lemma real_snotes ns : all real (snotes ns).
Proof. by apply/allP => x /snotes_in [n _]; rewrite !inE => /orP [] /eqP ->. Qed.
Lemma from_encode s : all valid s -> [seq from_int t | t <- [seq to_int e | e <- s]] = s.
Proof. by elim: s => //= e s IH /andP [v /IH ->]; rewrite from_to. Qed.
