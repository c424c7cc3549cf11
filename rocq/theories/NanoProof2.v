(* Which checkpoint the nanoGPT loop keeps. *)
Set Warnings "-notation-overridden,-ambiguous-paths".
From mathcomp Require Import all_ssreflect all_algebra zify.
From Verif Require Import Py Dict RetrainModel NanoModel NanoSpec NanoProof.
Set Implicit Arguments. Unset Strict Implicit. Unset Printing Implicit Defensive.
Import GRing.Theory Num.Theory Order.Theory.

Lemma rfold_cat' (S T : Type) (f : S -> T -> res S) s l1 l2 :
  rfold f s (l1 ++ l2) = rbind (rfold f s l1) (fun s' => rfold f s' l2).
Proof. by elim: l1 s => [|x l1 IH] s //=; case: (f s x) => //= s'; apply: IH. Qed.

(* ---- running minima *)
Section Rec.
Variables (R : realFieldType) (big : R) (v : nat -> option R).
Notation recs n := [seq q <- iota 0 n | is_record big v q].
Notation last_rec n := (ohead (rev (recs n))).
Lemma last_recS n : last_rec n.+1 = if is_record big v n then Some n else last_rec n.
Proof.
rewrite -[n.+1]addn1 iotaD filter_cat rev_cat add0n /=.
by case: ifP.
Qed.
Lemma last_rec_min n : match last_rec n with
  | Some m => exists a, [/\ m < n, v m = Some a, (a < big)%R & forall p y, p < n -> v p = Some y -> (a <= y)%R]
  | None => forall p y, p < n -> v p = Some y -> (big <= y)%R end.
Proof.
elim: n => [|n IH] //; rewrite last_recS; case: ifP => [|nr].
  rewrite /is_record /below; case vn: (v n) => [a|//] /andP [ab al]; exists a; split=> // p y.
  rewrite ltnS leq_eqVlt => /orP [/eqP ->|pn]; first by rewrite vn => -[->].
  move=> vp; have /allP /(_ p) := al; rewrite mem_iota add0n vp => /(_ pn); exact: ltW.
have nb y : v n = Some y -> forall b, (b <= big)%R -> (forall p z, p < n -> v p = Some z -> (b <= z)%R) -> (b <= y)%R.
  move=> vn b bb al; rewrite leNgt; apply/negP => yb; move: nr; rewrite /is_record vn /below.
  rewrite (lt_le_trans yb bb) => /= /negP; apply; apply/allP => p; rewrite mem_iota add0n => pn.
  by case vp: (v p) => [z|//]; apply: lt_le_trans yb (al _ _ pn vp).
case: (last_rec n) IH => [m|] IH.
  have [a [mn vm ab al]] := IH; exists a; split=> //; first exact: ltnW.
  move=> p y; rewrite ltnS leq_eqVlt => /orP [/eqP ->|pn]; last exact: al.
  by move=> vn; apply: (nb _ vn) => //; exact: ltW.
move=> p y; rewrite ltnS leq_eqVlt => /orP [/eqP -> vn|pn]; last exact: IH.
exact: (nb _ vn).
Qed.
Lemma better_rec n : below (v n) (odflt big (obind v (last_rec n))) = is_record big v n.
Proof.
have := last_rec_min n; rewrite /is_record; case: (last_rec n) => [m|] /=.
  move=> [a [mn vm ab H]]; rewrite vm /=; case vn: (v n) => [y|//] /=; apply/idP/andP => [ya|[yb /allP al]].
    split; first exact: lt_trans ya ab.
    by apply/allP => p; rewrite mem_iota add0n => pn; case vp: (v p) => [z|//]; apply: lt_le_trans ya (H _ _ pn vp).
  by have := al m; rewrite mem_iota add0n vm => /(_ mn).
move=> H; case vn: (v n) => [y|//] /=; case: ltP => //= yb.
by apply/esym/allP => p; rewrite mem_iota add0n => pn; case vp: (v p) => [z|//]; apply: lt_le_trans yb (H _ _ pn vp).
Qed.
End Rec.

Section Loop.
Variables (R : realFieldType) (St : Type).
Notation batch := (seq (seq nat) * seq (seq nat))%type.
Variables (data vdata : seq nat) (block bsz : nat) (ind : seq nat).
Variable draw : St -> seq nat * St.
Variable forward : St -> batch -> res R * St.
Variable backward : St -> batch -> res St.
Variable update : R -> St -> St.
Variable rate : nat -> res R.
Variables (acc ev e : nat) (always : bool) (big : R).
Notation estimate := (estimate data vdata block bsz ind draw forward e).
Notation checkpoint := (checkpoint data vdata block bsz ind draw forward e always big).
Notation micro := (micro data vdata block bsz ind backward).
Notation iteration := (iteration data vdata block bsz ind draw forward backward update rate acc ev e always big).
Notation start := (start R data vdata block bsz ind).
Notation iterate := (iterate data vdata block bsz ind draw forward backward update rate acc ev e always big).
Notation run := (run R St).
Variable st0 : St.
Hypothesis e0 : 0 < ev.

(* the run in front of iteration it, and what evaluation number q finds *)
Definition before (it : nat) : res run := rbind (start st0) (iterate it).
Definition eval_at (q : nat) : option R :=
  if before (q * ev) is Ok r then if (estimate (r_s r, r_cur r)).1 is Ok l then l else None else None.
Definition state_at (q : nat) : option St :=
  if before (q * ev) is Ok r then Some (estimate (r_s r, r_cur r)).2.1 else None.
Definition saves (q : nat) : bool := always || is_record big eval_at q.
Definition last_save n := ohead (rev [seq q <- iota 0 n | saves q]).
Lemma last_saveS n : last_save n.+1 = if saves n then Some n else last_save n.
Proof.
rewrite /last_save -[n.+1]addn1 iotaD filter_cat rev_cat add0n /=.
by case: ifP.
Qed.
Definition kept_of (o : option nat) : option (St * nat) :=
  if o is Some q.+1 then omap (fun s => (s, q.+1 * ev)) (state_at q.+1) else None.

Lemma beforeS it : before it.+1 = rbind (before it) (iteration it).
Proof.
rewrite /before /iterate; case: (start st0) => [r|//]; cbn [rbind].
rewrite -[it.+1]addn1 iotaD rfold_cat' add0n; case: (rfold _ _ _) => //= r'.
by case: (iteration it r').
Qed.
Lemma micros_keep k i (r r' : run) : rfold (fun r (_ : nat) => micro r) r (iota i k) = Ok r' ->
  r_best r' = r_best r /\ r_saved r' = r_saved r.
Proof.
elim: k i r => [|k IH] i r; first by move=> [<-].
rewrite [iota _ _]/= [rfold _ _ _]/=; case E: (micro r) => [r1|//] E1; have [-> ->] := IH _ _ E1.
move: E; rewrite /micro; case: (backward _ _) => [st|//]; cbn [rbind].
by case: (fetch _ _ _ _ _ _) => -[b|//] c [<-].
Qed.
Definition inv (it : nat) (r : run) : Prop :=
  let n := (it + ev.-1) %/ ev in
  r_saved r = kept_of (last_save n) /\ (always = false -> r_best r = obind eval_at (last_save n)).
Lemma before_inv it r : before it = Ok r -> inv it r.
Proof.
elim: it r => [|it IH] r.
  rewrite /before; case E: (start st0) => [r0|//] /= -[<-]; move: E; rewrite /start.
  case: (fetch _ _ _ _ _ _) => -[b|//] c [<-]; rewrite /inv add0n divn_small //; move: e0; clear; lia.
rewrite beforeS; case Eb: (before it) => [r0|//]; cbn [rbind].
rewrite /iteration; case: (rate it) => [lr|//]; cbn [rbind]; rewrite ifN -?lt0n //.
case E1: (if _ then _ else _) => [r1|//]; cbn [rbind].
case E2: (rfold _ _ _) => [r2|//] [<-]; rewrite /inv /=.
have [-> ->] := micros_keep E2.
have {E2 IH} [i1 i2] := IH _ Eb.
rewrite -(evals_step e0); set n := (it + ev.-1) %/ ev in i1 i2 *.
move: E1; case: (it %% ev =P 0) => h; last by move=> [<-].
have en : it = n * ev.
  rewrite /n {2}(divn_eq it ev) h addn0 divnMDl // [ev.-1 %/ ev]divn_small ?addn0; last by move: e0; clear; lia.
  by rewrite {1}(divn_eq it ev) h addn0.
rewrite /checkpoint add1n last_saveS; case El: (estimate _) => [[l|x] [st c]]; last by [].
move=> [<-].
have vn : eval_at n = l by rewrite /eval_at -en Eb El.
have sn : state_at n = Some st by rewrite /state_at -en Eb El.
have -> : better big l (r_best r0) || always = saves n.
  rewrite /saves; case ea: always; first by rewrite orbT.
  rewrite orbF /= -better_rec -vn /better /below i2 // /last_save.
  have -> : [seq q <- iota 0 n | saves q] = [seq q <- iota 0 n | is_record big eval_at q] by apply: eq_filter => q; rewrite /saves ea.
  by case: (eval_at n).
case: ifP => _ //=; split; last by rewrite vn.
rewrite /kept_of; have -> : (0 < it) = (0 < n) by rewrite en muln_gt0 e0 andbT.
case en' : n sn => [|q] sn //=; last by rewrite sn /= -en' -en.
by rewrite i1 en' /last_save.
Qed.
End Loop.
