(* Lemmas for C67. *)
Set Warnings "-notation-overridden,-ambiguous-paths".
From mathcomp Require Import all_ssreflect all_algebra zify.
From Verif Require Import Py NetModel NetSpec.
Set Implicit Arguments. Unset Strict Implicit. Unset Printing Implicit Defensive.
Import GRing.Theory Num.Theory Order.Theory.
Local Open Scope ring_scope.

Section Conv.
Variable F : realFieldType.
(* one direction: sum over taps = sum over pixels *)
Lemma taps (k p t h : nat) (f : nat -> nat -> F) :
  \sum_(a < k) (if (p <= t + a < p + h)%N then f a (t + a - p)%N else 0)
  = \sum_(i < h) (if (t <= i + p)%N && (i + p < t + k)%N then f (i + p - t)%N i else 0).
Proof.
transitivity (\sum_(a < k) \sum_(i < h) (if (i + p == t + a)%N then f a i else 0)).
  apply: eq_bigr => a _; case: ifP => hh.
    have hi : (t + a - p < h)%N by lia.
    rewrite (bigD1 (Ordinal hi)) //= ifT; last by lia.
    by rewrite big1 ?addr0 // => i /eqP ne; rewrite ifF //; apply/negbTE/eqP => e; apply: ne; apply: val_inj => /=; lia.
  by rewrite big1 // => i _; rewrite ifF //; apply/negbTE/eqP; have := ltn_ord i; lia.
rewrite exchange_big; apply: eq_bigr => i _; case: ifP => hh.
  have hi : (i + p - t < k)%N by lia.
  rewrite (bigD1 (Ordinal hi)) //= ifT; last by lia.
  by rewrite big1 ?addr0 // => a /eqP ne; rewrite ifF //; apply/negbTE/eqP => e; apply: ne; apply: val_inj => /=; lia.
by rewrite big1 // => a _; rewrite ifF //; apply/negbTE/eqP; have := ltn_ord a; lia.
Qed.
Lemma taps2 (k p t u h wd : nat) (f : nat -> nat -> nat -> nat -> F) :
  \sum_(a < k) \sum_(b < k) (if (p <= t + a < p + h)%N && (p <= u + b < p + wd)%N
                              then f a b (t + a - p)%N (u + b - p)%N else 0)
  = \sum_(i < h) \sum_(j < wd) (if [&& (t <= i + p)%N, (i + p < t + k)%N, (u <= j + p)%N & (j + p < u + k)%N]
                                 then f (i + p - t)%N (j + p - u)%N i j else 0).
Proof.
transitivity (\sum_(a < k) (if (p <= t + a < p + h)%N
    then \sum_(j < wd) (if (u <= j + p)%N && (j + p < u + k)%N then f a (j + p - u)%N (t + a - p)%N j else 0) else 0)).
  apply: eq_bigr => a _; case: ifP => hh /=; last by rewrite big1.
  exact: (taps k p u wd (fun b j => f a b (t + a - p)%N j)).
rewrite (taps k p t h (fun a i => \sum_(j < wd)
   (if (u <= j + p)%N && (j + p < u + k)%N then f a (j + p - u)%N i j else 0))).
apply: eq_bigr => i _; case h1: (t <= i + p)%N; case h2: (i + p < t + k)%N => //=; by rewrite big1.
Qed.
Lemma osize31 s h : (0 < s)%N -> (0 < h)%N -> osize 3 s 1 h = up h s.
Proof.
move=> s0 h0; rewrite /osize /up; have -> : (h + 2 * 1 - 3 = h.-1)%N by lia.
have -> : (h + s.-1 = h.-1 + 1 * s)%N by lia.
by rewrite addnC divnMDl.
Qed.
Lemma osize10 s h : (0 < s)%N -> (0 < h)%N -> osize 1 s 0 h = up h s.
Proof.
move=> s0 h0; rewrite /osize /up muln0 addn0 subn1.
have -> : (h + s.-1 = h.-1 + 1 * s)%N by lia.
by rewrite addnC divnMDl.
Qed.
Lemma up1 h : up h 1 = h. Proof. by rewrite /up addn0 divn1. Qed.
Lemma up_gt0 h s : (0 < s)%N -> (0 < h)%N -> (0 < up h s)%N.
Proof. by move=> s0 h0; rewrite /up divn_gt0 //; lia. Qed.
Definition kp k p := ((k == 3) && (p == 1) || (k == 1) && (p == 0))%N.
Lemma osizeE k s p h : kp k p -> (0 < s)%N -> (0 < h)%N -> osize k s p h = up h s.
Proof. by case/orP=> /andP [/eqP -> /eqP ->]; [exact: osize31|exact: osize10]. Qed.
Definition convv (k s p cin cout : nat) (w : nat -> nat -> nat -> nat -> F) (x : t4 F) : t4 F :=
  T4 (tn x) cout (osize k s p (th x)) (osize k s p (tw x)) (fun n o i j =>
    \sum_(c < cin) \sum_(a < k) \sum_(b < k) w o c a b * pad p x n c (i * s + a)%N (j * s + b)%N).
Lemma convE k s p cin cout w (x : t4 F) : kp k p -> (0 < th x)%N -> (0 < tw x)%N ->
  conv k s p cin cout w x = if tc x == cin then Ok (convv k s p cin cout w x) else Err RuntimeError.
Proof.
move=> h h1 h2; rewrite /conv; case: ifP => [/negbTE ->|/negbFE ->] //.
by rewrite ifF //; case/orP: h => /andP [/eqP -> /eqP ->]; apply/negbTE; lia.
Qed.
Lemma convv_spec k s p cin cout w (x : t4 F) b n o i j :
  px (convv k s p cin cout w x) n o i j + b o = sconv k s p cin (th x) (tw x) w b (px x n) o i j.
Proof.
rewrite /= /sconv addrC; congr (_ + _); apply: eq_bigr => c _.
rewrite -(taps2 k p (i * s) (j * s) (th x) (tw x) (fun a b i' j' => w o c a b * px x n c i' j')).
apply: eq_bigr => a _; apply: eq_bigr => d _; rewrite /pad; case: ifP => // _; by rewrite mulr0.
Qed.
Lemma sconv_ext k s p cin h wd w w' b b' (x x' : image F) o i j :
  (forall o c a d, w o c a d = w' o c a d) -> (forall o, b o = b' o) -> (forall c i j, x c i j = x' c i j) ->
  sconv k s p cin h wd w b x o i j = sconv k s p cin h wd w' b' x' o i j.
Proof.
move=> hw hb hx; rewrite /sconv hb; congr (_ + _).
by apply: eq_bigr => c _; apply: eq_bigr => i' _; apply: eq_bigr => j' _; case: ifP => // _; rewrite hw hx.
Qed.
(* scale and shift after a convolution *)
Lemma sconv_fuse k s p cin h wd w (g sh : nat -> F) (x : image F) o i j :
  sconv k s p cin h wd w (fun=> 0) x o i j * g o + sh o
  = sconv k s p cin h wd (fun o c a d => w o c a d * g o) sh x o i j.
Proof.
rewrite /sconv add0r addrC; congr (_ + _); rewrite mulr_suml; apply: eq_bigr => c _.
rewrite mulr_suml; apply: eq_bigr => i' _; rewrite mulr_suml; apply: eq_bigr => j' _.
by case: ifP => _; rewrite ?mul0r // mulrAC.
Qed.
End Conv.

Section Units.
Variables (F : realFieldType) (isd : F -> F) (w : nat -> nat -> nat -> nat -> nat -> F).
Local Notation t4 := (t4 F).
Local Notation bn := (bn F).
Local Notation nstate := (nstate F).
Definition shp (x y : t4) := [/\ tn y = tn x, tc y = tc x, th y = th x & tw y = tw x].
Definition outv (tr : bool) (l : bn) (y : t4) : t4 :=
  if tr then bnorm isd (bg l) (bb l) (bmean y) (bvar y) y else bnorm isd (bg l) (bb l) (rm l) (rv l) y.
Definition fin (D : option (masks F)) no (act : bool) (z : t4) : t4 :=
  dropout D no (if act then map4 (fun _ _ _ _ => @relu F) z else z).
Lemma fin_shp D no act tr l y : shp y (fin D no act (outv tr l y)).
Proof. by rewrite /fin /dropout /outv; case: D act tr => [m|] [] []. Qed.
Lemma unitE tr D no k s p cin cout act (x : t4) (S : nstate) : kp k p -> (0 < th x)%N -> (0 < tw x)%N -> tc x = cin ->
  unit isd w tr D no k s p cin cout act x S =
  let y := convv k s p cin cout (w no) x in
  if tr && (cnt y == 1%N) then (S, Err ValueError)
  else (if tr then setl S no (bn_step (S no) y) else S, Ok (fin D no act (outv tr (S no) y))).
Proof.
by move=> h h1 h2 h3; rewrite /unit convE // h3 eqxx /bn_fwd /outv /fin; case: tr => //=; case: ifP.
Qed.
Lemma unit_bad tr D no s cin cout act (x : t4) (S : nstate) :
  ~~ [&& tc x == cin, (0 < th x)%N & (0 < tw x)%N] -> unit isd w tr D no 3 s 1 cin cout act x S = (S, Err RuntimeError).
Proof.
move=> h; rewrite /unit /conv; case: eqP h => //= _ h; rewrite ifT //; lia.
Qed.
End Units.
