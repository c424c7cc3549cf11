(* Merging the snotes of one pitch; the order of the snotes. *)
Set Warnings "-notation-overridden,-ambiguous-paths".
From mathcomp Require Import all_ssreflect all_algebra zify.
From Verif Require Import Py Dict MidiModel MidiSpec MidiProof.
Set Implicit Arguments. Unset Strict Implicit. Unset Printing Implicit Defensive.
Import GRing.Theory Num.Theory Order.Theory.
Local Open Scope ring_scope.

Definition etype_nat (t : etype) : nat := match t with NoteOn => 0 | NoteOff => 1 | TimeShift => 2 | Velocity => 3 end%N.
Definition nat_etype (n : nat) : etype := match n with 0 => NoteOn | 1 => NoteOff | 2 => TimeShift | _ => Velocity end%N.
Lemma etypeK : cancel etype_nat nat_etype. Proof. by case. Qed.
Definition etype_eqMixin := CanEqMixin etypeK.
Canonical etype_eqType := Eval hnf in EqType etype etype_eqMixin.
Definition snote_tuple (x : snote) := (s_type x, s_time x, s_val x, s_vel x).
Definition tuple_snote (t : etype * rat * int * option int) := SNote t.1.1.1 t.1.1.2 t.1.2 t.2.
Lemma snoteK : cancel snote_tuple tuple_snote. Proof. by case. Qed.
Definition snote_eqMixin := CanEqMixin snoteK.
Canonical snote_eqType := Eval hnf in EqType snote snote_eqMixin.

Lemma merge_pitch p s d d' : dget d p = dget d' p ->
  [seq n <- merge_loop d s | n_pitch n == p] = merge_loop d' [seq x <- s | s_val x == p].
Proof.
elim: s d d' => //= x s IH d d' e; case: (s_val x =P p) => [xp|np] /=.
  case ty: (s_type x) => /=; try exact: IH.
  - by apply: IH; rewrite !dgetE xp eqxx.
  - rewrite xp e; case: (dget d' p) => [on|] /=; last exact: IH.
    by case: ifP => _ /=; rewrite ?eqxx (IH _ d').
case ty: (s_type x) => /=; try exact: IH.
- by apply: IH; rewrite dgetE; case: eqP => // h; case: np.
- case: (dget d _) => [on|] /=; last exact: IH.
  by case: ifP => _ /=; rewrite ?(IH _ d') //; case: eqP.
Qed.
Definition two (n : note) : seq snote :=
  [:: SNote NoteOn (n_start n) (n_pitch n) (Some (n_vel n)); SNote NoteOff (n_end n) (n_pitch n) None].
Lemma merge_two (ns : seq note) d : all (fun n => n_start n < n_end n) ns ->
  merge_loop d (map q (flatten [seq two n | n <- ns])) = map quantised ns.
Proof.
elim: ns d => //= n ns IH d /andP [lt al]; rewrite dgetE eqxx /= subr_eq0 eq_sym (lt_eqF lt) IH //.
by congr cons; rewrite /quantised mulrC.
Qed.
Lemma filter_two p (ns : seq note) : [seq x <- flatten [seq two n | n <- ns] | s_val x == p] =
  flatten [seq two n | n <- [seq n <- ns | n_pitch n == p]].
Proof. by elim: ns => //= n ns ->; case: eqP. Qed.

Lemma perm_pairwise (T : eqType) (r : rel T) s1 s2 : symmetric r -> perm_eq s1 s2 -> pairwise r s1 -> pairwise r s2.
Proof.
move=> sy pe; apply: (@catCA_perm_ind _ (fun s => pairwise r s)) pe => a b c.
rewrite !pairwise_cat !allrel_catr => /and3P [/andP [ab ac] pa /and3P [bc pb pc]].
by rewrite pa pb pc ac bc !andbT allrelC; apply: sub_allrel ab => x y; rewrite sy.
Qed.
Lemma compatible_sym : symmetric compatible.
Proof. by move=> n m; rewrite /compatible eq_sym; case: (_ == _) => //=; rewrite orbC. Qed.

Definition le_start : rel note := fun a b => n_start a <= n_start b.
Definition le_time : rel snote := fun a b => s_time a <= s_time b.
Lemma le_start_total : total le_start. Proof. by move=> a b; exact: le_total. Qed.
Lemma le_start_trans : transitive le_start. Proof. by move=> a b c; exact: le_trans. Qed.
Lemma le_time_total : total le_time. Proof. by move=> a b; exact: le_total. Qed.
Lemma le_time_trans : transitive le_time. Proof. by move=> a b c; exact: le_trans. Qed.

(* one pitch: sorted by start and without overlaps, hence already in the order of time *)
Lemma two_sorted (p : int) (ns : seq note) : all (fun n => n_start n < n_end n) ns -> pairwise le_start ns ->
  pairwise compatible ns -> all (fun n => n_pitch n == p) ns ->
  pairwise le_time (flatten [seq two n | n <- ns]).
Proof.
elim: ns => //= n ns IH /andP [lt al] /andP [s1 s2] /andP [c1 c2] /andP [/eqP pn pa].
rewrite IH // andbT; have h1 : le_time (SNote NoteOn (n_start n) (n_pitch n) (Some (n_vel n))) (SNote NoteOff (n_end n) (n_pitch n) None).
  exact: ltW lt.
rewrite h1 /=.
have H m : m \in ns -> n_end n <= n_start m.
  move=> hm; have := allP c1 m hm; have := allP pa m hm; rewrite /compatible pn => /eqP ->; rewrite eqxx /=.
  case/orP => // h; have := allP s1 m hm; have := allP al m hm; rewrite /le_start => q1 q2.
  by have := le_lt_trans (le_trans h q2) q1; rewrite ltxx.
apply/andP; split; apply/allP => x /flattenP [t /mapP [m hm ->]]; rewrite /two /le_time !inE.
  case/orP=> /eqP -> /=; first exact: (allP s1).
  by apply: le_trans (allP s1 m hm) _; apply: ltW; apply: (allP al m hm).
case/orP=> /eqP -> /=; first exact: H.
by apply: le_trans (H m hm) _; apply: ltW; apply: (allP al m hm).
Qed.

Definition snotes (ns : seq note) : seq snote := sort_by s_time (divide_note ns).
Lemma snotes_pitch p ns : all (fun n => n_start n < n_end n) ns -> apart ns ->
  [seq x <- snotes ns | s_val x == p] = flatten [seq two n | n <- [seq n <- sort_by n_start ns | n_pitch n == p]].
Proof.
move=> al ap; rewrite /snotes /sort_by (filter_sort le_time_total le_time_trans).
rewrite -/(sort_by _ _) [in LHS]/divide_note (filter_two p (sort_by n_start ns)).
have pe : perm_eq (sort_by n_start ns) ns by rewrite /sort_by; apply/permPl; exact: perm_sort.
rewrite pairwise_sort //; apply: (@two_sorted p).
- by apply/allP => n; rewrite mem_filter => /andP [_]; rewrite (perm_mem pe); exact: (allP al).
- by apply: pairwise_filter; rewrite -(sorted_pairwise le_start_trans); exact: sort_sorted le_start_total _.
- by apply: pairwise_filter; apply: perm_pairwise ap => //; [exact: compatible_sym|rewrite perm_sym].
- by apply/allP => n; rewrite mem_filter => /andP [].
Qed.
Lemma filter_q p s : [seq x <- map q s | s_val x == p] = map q [seq x <- s | s_val x == p].
Proof. by rewrite filter_map. Qed.
Lemma perm_pitch (l1 l2 : seq note) :
  (forall p, [seq n <- l1 | n_pitch n == p] = [seq n <- l2 | n_pitch n == p]) -> perm_eq l1 l2.
Proof.
move=> h; apply/allP => x _ /=; apply/eqP.
have E (l : seq note) : count_mem x l = count_mem x [seq n <- l | n_pitch n == n_pitch x].
  by elim: l => //= n l ->; case: (n =P x) => [->|ne] /=; [rewrite eqxx /= eqxx|case: eqP => //= _; case: eqP].
by rewrite E h -E.
Qed.
Lemma merge_snotes ns : all (fun n => n_start n < n_end n) ns -> apart ns ->
  perm_eq (merge_note (map q (snotes ns))) (map quantised ns).
Proof.
move=> al ap; have pe : perm_eq (sort_by n_start ns) ns by rewrite /sort_by; apply/permPl; exact: perm_sort.
apply: perm_trans (perm_map quantised pe); apply: perm_pitch => p.
rewrite /merge_note (@merge_pitch p _ _ [::]) // filter_q snotes_pitch // merge_two.
  by rewrite filter_map.
by apply/allP => n; rewrite mem_filter => /andP [_]; rewrite (perm_mem pe); exact: (allP al).
Qed.

(* the snotes of clean notes *)
Lemma snotes_in ns x : x \in snotes ns -> exists2 n, n \in ns & x \in two n.
Proof.
rewrite /snotes /sort_by mem_sort => /flattenP [t /mapP [n]]; rewrite mem_sort => hn -> xt.
by exists n.
Qed.
Lemma rising_sorted t s : (forall x, x \in s -> centi (s_time x) /\ t <= s_time x) -> pairwise le_time s -> rising t s.
Proof.
elim: s t => //= x s IH t h /andP [a b]; have [c le] := h x (mem_head _ _); split=> //; apply: IH => // y hy.
by have [cy _] := h y (@mem_behead _ (x :: s) y hy); split=> //; exact: (allP a).
Qed.
Lemma rising_snotes ns : (forall n, n \in ns -> clean n) -> rising 0 (snotes ns).
Proof.
move=> cl; apply: rising_sorted.
  move=> x /snotes_in [n /cl [_ cs ce lt]]; have c0 (y : rat) : centi y -> 0 <= y.
    by case=> k ->; rewrite divr_ge0 ?ler0n.
  by rewrite !inE => /orP [] /eqP -> /=; split=> //; exact: c0.
by rewrite -(sorted_pairwise le_time_trans); exact: sort_sorted le_time_total _.
Qed.
Lemma onoff_snotes ns : all onoff (snotes ns).
Proof. by apply/allP => x /snotes_in [n _]; rewrite !inE => /orP [] /eqP ->. Qed.
Lemma inrange_snotes ns : (forall n, n \in ns -> clean n) -> all inrange (snotes ns).
Proof.
move=> cl; apply/allP => x /snotes_in [n /cl [/and4P [v0 v1 p0 p1] _ _ _]].
by rewrite !inE => /orP [] /eqP ->; rewrite /inrange /= p0 p1 //= v0 v1.
Qed.
Lemma centi0 : centi 0. Proof. by exists 0%N; rewrite mul0r. Qed.
