(* Lemmas about dropout activation. *)
Set Warnings "-notation-overridden,-ambiguous-paths".
From mathcomp Require Import all_ssreflect.
From Coq Require String.
From Verif Require Import Py FlipModel.
Set Implicit Arguments. Unset Strict Implicit. Unset Printing Implicit Defensive.

Lemma prefixP s t : String.prefix s t <-> exists b, t = String.append s b.
Proof.
elim: s t => [|c s IH] t; first by split=> [_|_]; [exists t|case: t].
case: t => [|d t] /=; first by split=> // -[].
case: (Ascii.ascii_dec c d) => [->|ne].
  by rewrite IH; split=> -[b e]; exists b; [rewrite e|case: e].
by split=> // -[b [e]]; case: ne.
Qed.

Lemma str_inP sub s : str_in sub s <-> exists a b, s = String.append a (String.append sub b).
Proof.
elim: s => [|c s IH].
  rewrite [str_in _ _]orbF prefixP; split=> [[b e]|[[|d a] [b e]]] //; last by exists b.
  by exists String.EmptyString, b.
rewrite -[str_in _ _]/(String.prefix sub (String.String c s) || str_in sub s).
split=> [/orP [/prefixP [b e]|/IH [a [b ->]]]|[[|d a] [b e]]].
- by exists String.EmptyString, b.
- by exists (String.String c a), b.
- by apply/orP; left; apply/prefixP; exists b.
by apply/orP; right; apply/IH; case: e => _ ->; exists a, b.
Qed.

Section Dropout.
Variable Pr : Type.
Variable pr : Pr.
Implicit Types (ms : seq (module Pr)) (acts : seq nat) (m : module Pr).
Variable m0 : module Pr.

(* the model after activating the modules at the positions in [acts] *)
Definition after acts ms : seq (module Pr) :=
  mkseq (fun k => let m := nth m0 ms k in
    Module (m_name m) (m_class m) (m_subs m)
      (m_train m || has (fun i => k \in m_subs (nth m0 ms i)) acts)
      (if k \in acts then Some pr else m_p m)) (size ms).

Lemma size_after acts ms : size (after acts ms) = size ms. Proof. by rewrite size_mkseq. Qed.
Lemma nth_after acts ms k : k < size ms -> nth m0 (after acts ms) k =
  let m := nth m0 ms k in
    Module (m_name m) (m_class m) (m_subs m)
      (m_train m || has (fun i => k \in m_subs (nth m0 ms i)) acts)
      (if k \in acts then Some pr else m_p m).
Proof. by move=> kl; rewrite nth_mkseq. Qed.
Lemma eq_after a b ms : a =i b -> after a ms = after b ms.
Proof.
move=> e; apply/eq_mkseq => k /=; rewrite e; congr Module.
by rewrite (eq_has_r e).
Qed.
Lemma after_nil ms : after [::] ms = ms.
Proof.
apply: (@eq_from_nth _ m0); rewrite size_after // => k kl; rewrite nth_after //=.
by case: (nth m0 ms k) => ? ? ? ? ?; rewrite /= orbF.
Qed.

Lemma activateE acts ms i : i < size ms -> activate pr i (after acts ms) = after (rcons acts i) ms.
Proof.
move=> il; have sa := size_after acts ms.
have subE : (if after acts ms is m :: _ then m_subs (nth m (after acts ms) i) else [::]) =
    m_subs (nth m0 ms i).
  case e: (after acts ms) sa => [|m l] se; first by rewrite -se in il.
  by rewrite (set_nth_default m0) ?se // -e nth_after.
rewrite /activate subE; apply: (@eq_from_nth _ m0).
  by rewrite size_map size_zip size_iota minnn !size_after.
move=> k; rewrite size_map size_zip size_iota minnn sa => kl.
have ez : nth (0, m0) (zip (iota 0 (size ms)) (after acts ms)) k = (k, nth m0 (after acts ms) k).
  by rewrite nth_zip ?size_iota ?sa // nth_iota.
rewrite (nth_map (0, m0)) ?size_zip ?size_iota ?sa ?minnn // ez !nth_after //= mem_rcons inE has_rcons /=.
by case: (k == i); case: (k \in m_subs _); rewrite /= ?orbT.
Qed.

Lemma after_names acts ms k : k < size ms ->
  m_name (nth m0 (after acts ms) k) = m_name (nth m0 ms k) /\
  is_dropout (nth m0 (after acts ms) k) = is_dropout (nth m0 ms k).
Proof. by move=> kl; rewrite nth_after. Qed.

(* one step of the loop over the modules *)
Definition visit (pos : seq String.string) (st : seq (module Pr) * seq String.string) (i : nat) :=
  if st.1 is m0 :: _ then
    let m := nth m0 st.1 i in
    if nilp pos then if is_dropout m then (activate pr i st.1, st.2) else st
    else
      foldl (fun st nm =>
        if str_in nm (m_name m) then
          if is_dropout m then (activate pr i st.1, st.2) else (st.1, rcons st.2 nm)
        else st) st pos
  else st.

Definition sel (pos : seq String.string) m :=
  nilp pos || has (fun nm => str_in nm (m_name m)) pos.

Lemma visit_unfold pos (l : seq (module Pr)) inv i : i < size l ->
  visit pos (l, inv) i =
  (let m := nth m0 l i in
   if nilp pos then if is_dropout m then (activate pr i l, inv) else (l, inv)
   else
     foldl (fun st nm =>
        if str_in nm (m_name m) then
          if is_dropout m then (activate pr i st.1, st.2) else (st.1, rcons st.2 nm)
        else st) (l, inv) pos).
Proof.
case: l => // m l il; have e := set_nth_default m0 m il.
by rewrite /visit /= -!/(nth _ (_ :: _) _) e.
Qed.

Lemma visitE pos acts ms inv i : i < size ms ->
  exists acts' inv', visit pos (after acts ms, inv) i = (after acts' ms, inv') /\
    (acts' =i acts ++ (if is_dropout (nth m0 ms i) && sel pos (nth m0 ms i) then [:: i] else [::])) /\
    nilp inv' = nilp inv && ~~ (~~ is_dropout (nth m0 ms i) && ~~ nilp pos && sel pos (nth m0 ms i)).
Proof.
move=> il; rewrite visit_unfold ?size_after //=.
have [-> ->] := after_names acts il; rewrite /sel.
case np: (nilp pos) => /=.
  rewrite !andbT andbF andbT; case: ifP => dr; last by exists acts, inv; rewrite cats0.
  exists (rcons acts i), inv; rewrite activateE //; split=> //.
  by split=> // k; rewrite -cats1.
move: (m_name _) => nm; rewrite andbT.
case: (is_dropout _) => /=; last first.
  exists acts; elim: (pos) inv => [|x p IH] inv /=; first by exists inv; rewrite cats0 andbT.
  case: ifP => h; last exact: IH.
  have [inv' [-> [_ e2]]] := IH (rcons inv x); exists inv'; split=> //; split; first by rewrite cats0.
  by rewrite e2 /nilp size_rcons /= andbF.
clear np.
elim: pos acts => [|x p IH] acts /=; first by exists acts, inv; rewrite cats0 andbT.
case: ifP => h /=; last exact: IH.
rewrite activateE //; have [acts' [inv' [-> [e1 e2]]]] := IH (rcons acts i).
exists acts', inv'; split=> //; split=> // k; rewrite e1 !mem_cat mem_rcons inE.
by case: ifP => _; rewrite !inE ?orbF; case: (k == i); rewrite ?orbT ?orbF.
Qed.

Lemma loopE pos ms n : n <= size ms ->
  exists acts inv, foldl (visit pos) (ms, [::]) (iota 0 n) = (after acts ms, inv) /\
    (acts =i [seq i <- iota 0 n | is_dropout (nth m0 ms i) && sel pos (nth m0 ms i)]) /\
    nilp inv = ~~ has (fun i => ~~ is_dropout (nth m0 ms i) && ~~ nilp pos && sel pos (nth m0 ms i)) (iota 0 n).
Proof.
elim: n => [|n IH] nl; first by exists [::], [::]; rewrite after_nil.
have [acts [inv [e1 [e2 e3]]]] := IH (ltnW nl).
have [acts' [inv' [f1 [f2 f3]]]] := visitE pos acts inv nl.
exists acts', inv'; have -> : iota 0 n.+1 = rcons (iota 0 n) n by rewrite -addn1 iotaD cats1.
rewrite -cats1 foldl_cat e1 /= f1; split=> //; split.
  move=> k; rewrite f2 filter_cat !mem_cat e2 /=; by case: ifP.
by rewrite f3 e3 has_cat negb_or /= orbF.
Qed.

Lemma activate_dropoutE positions ms : let pos := odflt [::] positions in
  activate_dropout pr positions ms =
  (after [seq i <- iota 0 (size ms) | is_dropout (nth m0 ms i) && sel pos (nth m0 ms i)] (eval_all ms),
   if has (fun i => ~~ is_dropout (nth m0 ms i) && ~~ nilp pos && sel pos (nth m0 ms i)) (iota 0 (size ms))
   then Err ValueError else Ok tt).
Proof.
move=> pos; rewrite /activate_dropout -/pos.
have se : size (eval_all ms) = size ms by rewrite size_map.
have [acts [inv [e1 [e2 e3]]]] := @loopE pos (eval_all ms) (size ms) (eq_leq (esym se)).
have nE i : i < size ms -> is_dropout (nth m0 (eval_all ms) i) = is_dropout (nth m0 ms i) /\
   sel pos (nth m0 (eval_all ms) i) = sel pos (nth m0 ms i).
  by move=> il; rewrite (nth_map m0).
rewrite -/(visit pos) e1.
congr (_, _).
  apply: eq_after => k; rewrite e2 !mem_filter mem_iota /=.
  by case: ltnP => [kl|]; rewrite ?andbF // !andbT; have [-> ->] := nE k kl.
rewrite e3; set a := has _ _; set b := has _ _; have -> : a = b; last by case: b.
apply/eq_in_has => k; rewrite mem_iota => /andP [_ kl] /=; by have [-> ->] := nE k kl.
Qed.
End Dropout.
