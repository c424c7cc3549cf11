(* C46: the MIDI event codec. *)
Set Warnings "-notation-overridden,-ambiguous-paths".
From mathcomp Require Import all_ssreflect all_algebra zify.
From Verif Require Import Py Dict MidiModel MidiSpec MidiProof MidiProof2 MidiProof3.
Set Implicit Arguments. Unset Strict Implicit. Unset Printing Implicit Defensive.
Import GRing.Theory Num.Theory Order.Theory.
Local Open Scope ring_scope.

Lemma In_mem (A : eqType) (s : seq A) a : List.In a s -> a \in s.
Proof. by elim: s => //= x s IH [->|/IH h]; rewrite inE ?eqxx ?h ?orbT. Qed.

(* Tokens and events of the vocabulary correspond one to one. *)
Theorem C46_codec :
  (forall e, valid e -> from_int (to_int e) = e /\ token (to_int e)) /\
  (forall t, token t -> to_int (from_int t) = t /\ valid (from_int t)).
Proof.
split=> [e v|t h]; first by rewrite from_to // valid_token.
by rewrite to_from from_valid.
Qed.
Example C46_codec_example : from_int 299 = Ev TimeShift 43 /\ to_int (Ev Velocity 20) = 376 /\ valid (Ev NoteOff 60).
Proof. by []. Qed.

(* The time shifts emitted between two times are events of the vocabulary and add up to the interval, rounded to
   hundredths of a second; the rounding error is at most half a hundredth. *)
Theorem C46_time_shift prev post : prev <= post ->
  let es := shift_events prev post in
  [/\ all valid es, all (fun e => if e_type e is TimeShift then true else false) es,
      \sum_(e <- es) (e_val e + 1) = pyround ((post - prev) * 100%:R) &
      `|(\sum_(e <- es) (e_val e + 1))%:~R - (post - prev) * 100%:R| <= 2%:R^-1].
Proof.
move=> le es; have [a b] := shift_sum le; rewrite b; split=> //; last exact: pyround_near.
  by apply: sub_all a => e; case: (e_type e).
by apply: sub_all a => e; case: (e_type e).
Qed.

(* Encoded notes are tokens of the vocabulary, whatever the times. *)
Theorem C46_tokens_valid ns : (forall n, n \in ns -> midi_range n /\ 0 <= n_start n <= n_end n) ->
  all token (encode_notes ns).
Proof.
move=> h; rewrite /encode_notes -/(snotes ns) all_map.
have /encode_valid_any : climbing 0 (snotes ns) by apply: climbing_snotes => n /h [].
move=> /(_ (Some 0) (inrange_snotes_any _)) => H; have : all valid (encode_loop 0 (Some 0) (snotes ns)).
  by apply: H => n /h [].
by apply: sub_all => e; exact: valid_token.
Qed.

(* The decoded stream starts and ends the same notes in the same order, but rounding errors add up: the k-th of
   these is off by at most (k+1)/200 s. *)
Theorem C46_drift ns : (forall n, n \in ns -> midi_range n /\ 0 <= n_start n <= n_end n) ->
  let sent := sort_by s_time (divide_note ns) in
  let got := filter real (events2snotes 0 0 [seq from_int t | t <- encode_notes ns]) in
  [/\ map s_type got = map s_type sent, map s_val got = map s_val sent &
      forall k, (k < size sent)%N ->
        `|nth 0 (map s_time got) k - nth 0 (map s_time sent) k| <= k.+1%:R * (2%:R * 100%:R)^-1].
Proof.
move=> h sent got; have cl : climbing 0 (snotes ns) by apply: climbing_snotes => n /h [].
have va : all valid (encode_loop 0 (Some 0) (snotes ns)).
  by apply: encode_valid_any => //; apply: inrange_snotes_any => n /h [].
have [e1 e2 e3] := @decode_times (snotes ns) 0 0 0 (Some 0) cl (real_snotes ns).
rewrite /got /encode_notes -/(snotes ns) from_encode //; split=> // k lt; rewrite e1.
rewrite -[k.+1]add0n; apply: (@drift _ _ _ _ 0%N); [|by rewrite subrr normr0 mul0r|exact: lt].
by move=> x; apply: half_cent; [exact: hundred|exact: pyround_near].
Qed.

(* Notes on the grid of hundredths, no two of one pitch overlapping, and no velocity a quarter of another: decoding
   what was encoded gives the notes back, with velocities rounded down to multiples of 4. *)
Theorem C46_roundtrip ns : (forall n, n \in ns -> clean n) -> apart ns ->
  (forall n m, n \in ns -> m \in ns -> n_vel n <> (n_vel m %/ 4)%Z) ->
  perm_eq (decode (encode_notes ns)) (map quantised ns) /\
  sorted (fun n m => n_start n <= n_start m) (decode (encode_notes ns)).
Proof.
move=> cl ap hv; split; last by apply: sort_sorted => a b; exact: le_total.
rewrite /decode /sort_by perm_sort /encode_notes -/(snotes ns).
have rs := rising_snotes cl; have ir := inrange_snotes cl.
rewrite from_encode; last by apply: encode_valid rs ir; exact: centi0.
rewrite /merge_note merge_real decode_loop ?real_snotes //; last exact: centi0.
rewrite -merge_strip heard_q; first last.
- move=> x y w hx hy e1 e2.
  have [n hn] := snotes_in (In_mem hx); have [m hm] := snotes_in (In_mem hy).
  rewrite !inE => /orP [] /eqP ey; rewrite ey /= in e1 => //; case: e1 => e1.
  move=> /orP [] /eqP ex; rewrite ex /= in e2 => //; case: e2 => e2.
  by apply: (hv n m) => //; rewrite e1 e2.
- move=> y w hy e; case: (w %/ 4 =P 0)%Z => [->|ne]; first by right.
  by left => -[] /esym.
- exact: onoff_snotes.
by apply: merge_snotes => //; apply/allP => n /cl [].
Qed.

(* Velocities are lost when one equals a quarter of the next: the encoder compares the velocity of the previous
   note with a quarter of that of the next one.  The second of two overlapping notes then gets the velocity of the
   first. *)
Theorem C46_velocity_lost n m : clean n -> clean m -> n_pitch n <> n_pitch m ->
  n_start n <= n_start m -> n_start m < n_end n -> n_end n <= n_end m ->
  0 < n_vel n -> n_vel n = (n_vel m %/ 4)%Z ->
  let m' := Note (4 * (n_vel n %/ 4)%Z) (n_pitch m) (n_start m) (n_end m) in
  decode (encode_notes [:: n; m]) = [:: quantised n; m'] /\ n_vel m' <> n_vel (quantised m).
Proof.
move=> cn cm pp h1 h2 h3 v0 ve m'.
have cl x : x \in [:: n; m] -> clean x by rewrite !inE => /orP [] /eqP ->.
have sE : snotes [:: n; m] = [:: SNote NoteOn (n_start n) (n_pitch n) (Some (n_vel n));
   SNote NoteOn (n_start m) (n_pitch m) (Some (n_vel m)); SNote NoteOff (n_end n) (n_pitch n) None;
   SNote NoteOff (n_end m) (n_pitch m) None].
  have d1 : n_start n <= n_end n by case: cn => _ _ _ /ltW.
  have d2 : n_start m <= n_end m by case: cm => _ _ _ /ltW.
  have e1 : (n_end n <= n_start m) = false by rewrite leNgt h2.
  by rewrite /snotes /divide_note /sort_by /sort /= h1 /= d1 /= d2 /= e1 h1 /= h3.
have rs := rising_snotes cl; have ir := inrange_snotes cl.
have -> : decode (encode_notes [:: n; m]) = sort_by n_start [:: quantised n; m'].
  rewrite /decode /encode_notes -/(snotes _) from_encode; last by apply: encode_valid rs ir; exact: centi0.
  congr sort_by; rewrite /merge_note merge_real decode_loop ?real_snotes //; last exact: centi0.
  have w0 : (Some 0 != Some (n_vel n %/ 4)%Z) || (((n_vel n %/ 4)%Z * 4) == 0).
    case: ((n_vel n %/ 4)%Z =P 0) => [->|ne] //.
    by apply/orP; left; apply/eqP => -[] /esym.
  rewrite sE /= -ve eqxx /=.
  have -> : (if Some 0 != Some (n_vel n %/ 4)%Z then (n_vel n %/ 4)%Z * 4 else 0) = 4 * (n_vel n %/ 4)%Z.
    by move: w0; rewrite [4 * _]mulrC; case: (Some 0 != _) => //= /eqP ->.
  have np : (n_pitch m == n_pitch n) = false by apply/eqP => e; apply: pp.
  rewrite !dgetE eqxx [n_pitch n == n_pitch m]eq_sym np /=.
  rewrite subr_eq0 eq_sym lt_eqF; last by case: cn.
  rewrite eqxx /= subr_eq0 eq_sym lt_eqF //; by case: cm.
split; first by rewrite /sort_by sorted_sort //=; [move=> b a c; exact: le_trans|rewrite andbT].
by rewrite /m' /quantised /= -ve; move: v0; clear; lia.
Qed.

(* If successive starts and ends are at most 5 ms apart, nothing is left, however many notes there are. *)
Theorem C46_dense_notes_lost ns : (forall n, n \in ns -> midi_range n /\ 0 <= n_start n <= n_end n) ->
  path (fun a b => (b - a) * 100%:R <= 2%:R^-1) 0 (map s_time (sort_by s_time (divide_note ns))) ->
  decode (encode_notes ns) = [::].
Proof.
move=> h pt; have cl : climbing 0 (snotes ns) by apply: climbing_snotes => n /h [].
have va : all valid (encode_loop 0 (Some 0) (snotes ns)).
  by apply: encode_valid_any => //; apply: inrange_snotes_any => n /h [].
rewrite /decode /encode_notes -/(snotes _) from_encode // /merge_note merge_real.
have [e1 _ _] := @decode_times (snotes ns) 0 0 0 (Some 0) cl (real_snotes ns).
set got := filter real _ in e1 *.
have E : forall t cur s, climbing cur s -> path (fun a b => (b - a) * 100%:R <= 2%:R^-1) cur (map s_time s) ->
    all (fun x => x == t) (dtimes t cur s).
  move=> t cur s; elim: s cur => //= x s IH cur [c1 c2] /andP [p1 p2].
  rewrite pyround_small //; last by apply: mulr_ge0; [rewrite subr_ge0|rewrite ler0n].
  by rewrite mul0r addr0 eqxx IH.
rewrite (@merge_same 0) //.
by have := E 0 0 _ cl pt; rewrite -e1 all_map.
Qed.

(* ---- the sustain pedal *)
(* Notes and control changes in the order of time: the notes that start up to the last release before the last
   onset come out once; every later note comes out once for each release from then on, so not at all if there is
   none and twice or more if the pedal is used after the last onset. *)
Theorem C46_pedal_counts ns cs r :
  sorted (fun n m => n_start n <= n_start m) ns -> sorted <=%R (map c_time cs) -> (r < size ns)%N ->
  let rel := release_times false cs in
  let before := [seq t <- rel | has (fun n => t < n_start n) ns] in
  let after := [seq t <- rel | ~~ has (fun n => t < n_start n) ns] in
  count_mem r (note_preprocess (control_preprocess cs) ns).2 =
  if has (fun t => n_start (nth note0 ns r) <= t) before then 1%N else size after.
Proof.
move=> sn sc lt; rewrite /=; set st := fun r => n_start (nth note0 ns r).
have [a1 a2 a3] : [/\ all (fun u => u_start u <= u_end u) (control_preprocess cs),
   all (fun u => u_notes u == [::]) (control_preprocess cs) &
   pairwise (fun u u' => u_end u <= u_end u') (control_preprocess cs)].
  rewrite /control_preprocess; case: cs sc => [|c cs] //= sc.
  apply: (@control_stepP (c_time c) (c :: cs) [::] None) => //=.
  by rewrite lexx.
have pl : pairwise (le_st st) (iota 0 (size ns)).
  rewrite -sorted_pairwise; last by move=> a b c; exact: le_trans.
  apply/(sortedP 0%N) => i; rewrite size_iota => li.
  by move/(sortedP note0): sn => /(_ i li); rewrite /le_st !nth_iota // ltnW.
have [_] := @pedal_loopP st ns (iota 0 (size ns)) _ (fun=> erefl) a1 a2 a3 pl.
rewrite /note_preprocess; case: (pedal_loop _ _ _) => [[h app] us] /= /(_ r).
rewrite /refs_of /= /sort_by => E.
have -> : count_mem r (sort (fun a b => n_start (nth note0 h a) <= n_start (nth note0 h b)) (app ++ flatten [seq u_notes u | u <- us])) =
   count_mem r (app ++ flatten [seq u_notes u | u <- us]).
  by apply/permP; rewrite perm_sort.
rewrite E count_uniq_mem ?iota_uniq // mem_iota lt /= muln1 -(ends_spec cs).
have H t : has (fun r => t < st r) (iota 0 (size ns)) = has (fun n => t < n_start n) ns.
  by rewrite -[in RHS](mkseq_nth note0 ns) /mkseq has_map.
have He : [seq t <- map u_end (control_preprocess cs) | has (fun n => t < n_start n) ns] =
   map u_end (early st (iota 0 (size ns)) (control_preprocess cs)).
  by rewrite filter_map /early; congr map; apply: eq_filter => u /=; rewrite H.
have Hl : [seq t <- map u_end (control_preprocess cs) | ~~ has (fun n => t < n_start n) ns] =
   map u_end (late st (iota 0 (size ns)) (control_preprocess cs)).
  by rewrite filter_map /late; congr map; apply: eq_filter => u /=; rewrite H.
by rewrite He Hl has_map size_map.
Qed.

(* An instrument whose pedal is never released contributes nothing: a file without pedal data encodes to nothing. *)
Theorem C46_no_pedal_no_notes ins :
  (forall i, List.In i ins -> release_times false i.2 = [::]) -> encode_midi ins = [::].
Proof.
move=> h; rewrite /encode_midi; suff -> : flatten [seq pedalled i | i <- ins] = [::] by [].
elim: ins h => //= i ins IH h; rewrite IH ?cats0; last by move=> j hj; apply: h; right.
have := h i (or_introl erefl); rewrite -ends_spec /pedalled; case: i {h} => ns cs /=.
by case: (control_preprocess cs).
Qed.

(* Starts, pitches and velocities are never changed, whatever the order of the notes. *)
Theorem C46_pedal_keeps ns cs r : let h := (note_preprocess (control_preprocess cs) ns).1 in
  [/\ n_start (nth note0 h r) = n_start (nth note0 ns r), n_pitch (nth note0 h r) = n_pitch (nth note0 ns r) &
      n_vel (nth note0 h r) = n_vel (nth note0 ns r)].
Proof.
rewrite /= /note_preprocess; set sus := control_preprocess cs; set l := iota _ _; clearbody sus l.
suff : same_note ns (pedal_loop ns l sus).1.1 by case: (pedal_loop _ _ _) => [[h app] us] /=.
elim: sus ns l => [|u sus IH] h l /=; first exact: same_refl.
case: (scan h u l) => [[a m] [b|]] /=; last by have := IH h l; case: (pedal_loop h l sus) => [[h2 app] us].
set h' := transposition_notes _ h; have s1 : same_note h h' by exact: transpose_same.
by have := IH h' b; case: (pedal_loop h' b sus) => [[h2 app] us] /= s2; exact: same_trans s1 s2.
Qed.

(* When a pedal span is closed, a note played in it lasts until the next note of the same pitch in the span, or if
   there is none until the release (longer if it lasted longer). *)
Theorem C46_pedal_ends u ns before r rest : u_notes u = before ++ r :: rest -> uniq (u_notes u) ->
  let h := transposition_notes u ns in
  n_end (nth note0 h r) =
    (if [seq s <- rest | n_pitch (nth note0 ns s) == n_pitch (nth note0 ns r)] is s :: _
     then n_start (nth note0 ns s) else Num.max (u_end u) (n_end (nth note0 ns r))) /\
  (forall s, s \notin u_notes u -> nth note0 h s = nth note0 ns s).
Proof.
move=> e un h; split; last by move=> s; rewrite -mem_rev => hs; exact: transpose_other.
rewrite /h /transposition_notes e transpose_end -?e // /first_start.
by case: (filter _ _).
Qed.

(* ---- examples *)
Section Examples.
Let t (k : nat) : rat := k%:R / 100%:R.
Lemma t_lt i j : (i < j)%N -> t i < t j.
Proof. by move=> h; rewrite /t ltr_pmul2r ?ltr_nat // invr_gt0; exact: hundred. Qed.
Lemma t_le i j : (i <= j)%N -> t i <= t j.
Proof. by move=> h; rewrite /t ler_pmul2r ?ler_nat // invr_gt0; exact: hundred. Qed.
Lemma t_clean v p i j : 0 <= v < 128 -> 0 <= p < 128 -> (i < j)%N -> clean (Note v p (t i) (t j)).
Proof.
move=> /andP [v0 v1] /andP [p0 p1] ij; split; rewrite ?/midi_range /= ?v0 ?v1 ?p0 ?p1 //; [by exists i|by exists j|exact: t_lt].
Qed.
Let ns := [:: Note 80 60 (t 0) (t 50); Note 80 60 (t 50) (t 175); Note 83 64 (t 25) (t 50)].
Example C46_roundtrip_example :
  perm_eq (decode (encode_notes ns)) [:: Note 80 60 (t 0) (t 50); Note 80 60 (t 50) (t 175); Note 80 64 (t 25) (t 50)].
Proof.
have [] // := @C46_roundtrip ns.
- by move=> n; rewrite !inE => /or3P [] /eqP ->; apply: t_clean.
- by move=> n m; rewrite !inE => /or3P [] /eqP -> /or3P [] /eqP ->.
Qed.
(* velocities 20 and 80: the second note is decoded with velocity 20 *)
Example C46_velocity_lost_example :
  decode (encode_notes [:: Note 20 60 (t 0) (t 50); Note 80 64 (t 10) (t 60)]) =
  [:: Note 20 60 (t 0) (t 50); Note 20 64 (t 10) (t 60)].
Proof.
have [] // := @C46_velocity_lost (Note 20 60 (t 0) (t 50)) (Note 80 64 (t 10) (t 60)).
- exact: t_clean.
- exact: t_clean.
Qed.
(* 4 ms notes one after the other *)
Example C46_dense_example : decode (encode_notes [:: Note 80 60 0 250%:R^-1; Note 80 62 250%:R^-1 125%:R^-1]) = [::].
Proof. apply: C46_dense_notes_lost; [move=> n; rewrite !inE => /orP [] /eqP ->; vm_compute; by split|vm_compute; reflexivity]. Qed.
(* the pedal is pressed and released twice after the last onset: both notes come out twice *)
Example C46_pedal_twice : let ns := [:: Note 80 60 0 1; Note 80 62 1 2%:R] in
  let cs := [:: Ctrl 100 2%:R; Ctrl 0 3%:R; Ctrl 100 4%:R; Ctrl 0 5%:R] in
  pedalled (ns, cs) = [:: Note 80 60 0 1; Note 80 60 0 1; Note 80 62 1 2%:R; Note 80 62 1 2%:R].
Proof. vm_compute; reflexivity. Qed.
(* the pedal is released before the last onset: the last note is lost, the first is held *)
Example C46_pedal_lost : let ns := [:: Note 80 60 0 1; Note 80 62 5%:R 6%:R] in
  let cs := [:: Ctrl 100 0; Ctrl 0 3%:R] in pedalled (ns, cs) = [:: Note 80 60 0 3%:R].
Proof. vm_compute; reflexivity. Qed.
End Examples.
Print Assumptions C46_codec.
Print Assumptions C46_time_shift.
Print Assumptions C46_tokens_valid.
Print Assumptions C46_drift.
Print Assumptions C46_roundtrip.
Print Assumptions C46_velocity_lost.
Print Assumptions C46_dense_notes_lost.
Print Assumptions C46_pedal_counts.
Print Assumptions C46_no_pedal_no_notes.
Print Assumptions C46_pedal_keeps.
Print Assumptions C46_pedal_ends.
