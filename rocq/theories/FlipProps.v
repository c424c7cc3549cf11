(* Properties C33 (label flipping) and C34 (dropout activation). *)
Set Warnings "-notation-overridden,-ambiguous-paths".
From mathcomp Require Import all_ssreflect all_algebra zify.
From Coq Require String.
Import String.StringSyntax.
Delimit Scope string_scope with string.
From Verif Require Import Py FlipModel FlipSpec FlipProof FlipProof2.
Set Implicit Arguments. Unset Strict Implicit. Unset Printing Implicit Defensive.
Import Order.TTheory GRing.Theory Num.Theory.

Section Flip.
Variable pick : nat -> seq elt -> elt.
Hypothesis pick_in : forall t l, l <> [::] -> List.In (pick t l) l.
Variable choice : nat -> nat -> seq nat.
Hypothesis choice_ok : draws_without_replacement choice.

(* A sample exists whose label is the only member of the label space. *)
Definition nothing_else (sp : seq elt) (l : int) : bool := all (fun x => elt_eqb x (Num l)) sp.

Lemma otherE l sp : other l (set_of sp) = ~~ nothing_else sp l.
Proof. by rewrite /other has_set_of -has_predC. Qed.

(* Exactly when flip_label succeeds, and which exception it raises otherwise: a number of flips that
   is not between 1 and n (in particular int(p*n) = 0), a first flipped label that is the only label
   of the space, an array instead of a tensor, a tensor that is not int64. *)
Theorem C33_outcome h loc kd space k :
  let label := nth [::] h loc in
  let sp := odflt (np_unique label) space in
  let idx := choice (size label) `|k|%N in
  (flip_label pick choice h loc kd space k).2 =
  (if ~~ ((0 < k)%R && (k <= (size label)%:Z)%R) then Err ValueError
   else if nothing_else sp (nth 0%R label (head 0%N idx)) then Err ValueError
   else match kd with
        | Ndarray => Err AttributeError
        | OtherTensor => Err RuntimeError
        | LongTensor => Ok (size h, idx)
        end).
Proof.
move=> label sp idx; rewrite /flip_label -/label -/sp -/idx.
case: (boolP ((0 <= k)%R && (k <= (size label)%:Z)%R)) => /= [/andP [k0 kn]|nk]; last first.
  by have -> : (0 < k)%R && (k <= (size label)%:Z)%R = false by apply/negP => /andP [a b]; move: nk; lia.
have [sz un al] : [/\ size idx = `|k|%N, uniq idx & all (fun x => x < size label) idx].
  by apply: choice_ok; lia.
case e: idx sz => [|i0 idx'] sz.
  by have -> : k = 0%R by move: sz => /=; lia.
have -> : (0 < k)%R && (k <= (size label)%:Z)%R by move: sz => /=; lia.
rewrite map_cons [head _ _]/= [~~ true]/=.
have [h1 h2] := vectorizedE pick_in (nth 0%R label i0) [seq nth 0%R label i | i <- idx'] (set_of sp, 0).
case: ifP => ne.
  by rewrite h2 //= otherE ne.
have [|vs [e1 _ _]] := h1; first by rewrite /= otherE ne.
by rewrite e1; case: kd.
Qed.

(* On success: the input and every other live tensor keep their contents; the returned tensor is a
   new one; it differs from the input at most at the reported positions; the new label of a reported
   position is a member of the label space or the label of a reported position; and it differs from
   the old label unless the label space was given as a tensor. *)
Theorem C33_flips h loc kd space k loc' idx :
  (flip_label pick choice h loc kd space k).2 = Ok (loc', idx) ->
  let h' := (flip_label pick choice h loc kd space k).1 in
  let label := nth [::] h loc in
  let sp := odflt (np_unique label) space in
  let new := nth [::] h' loc' in
  [/\ (forall l, l < size h -> nth [::] h' l = nth [::] h l) /\ loc' = size h,
      [/\ idx = choice (size label) `|k|%N, size idx = `|k|%N, uniq idx & all (fun i => i < size label) idx],
      size new = size label /\ (forall i, i \notin idx -> nth 0%R new i = nth 0%R label i),
      (forall i, i \in idx -> (exists2 x, List.In x sp & elt_val x = nth 0%R new i) \/
                 exists2 j, j \in idx & nth 0%R new i = nth 0%R label j) &
      (forall x, List.In x sp -> exists v, x = Num v) ->
        forall i, i \in idx -> nth 0%R new i != nth 0%R label i].
Proof.
move=> ok; have := ok; rewrite C33_outcome.
set label := nth [::] h loc; set sp := odflt _ _; set ix := choice _ _.
case: ifP => // /negbFE /andP [k0 kn]; case: ifP => // /negbT ne.
case: kd ok => // ok [el ei]; subst loc' idx.
have [sz un al] : [/\ size ix = `|k|%N, uniq ix & all (fun x => x < size label) ix].
  by apply: choice_ok; lia.
have [i0 [idx' ex]] : exists i0 idx', ix = i0 :: idx'.
  by case e: ix sz => [|a b] /= sz; [lia|exists a, b].
have [h1 _] := vectorizedE pick_in (nth 0%R label i0) [seq nth 0%R label i | i <- idx'] (set_of sp, 0).
have [|vs [e1 s1 H]] := h1; first by rewrite /= otherE; move: ne; rewrite ex.
have eh : (flip_label pick choice h loc LongTensor space k).1 = rcons h (put_at label ix vs).
  rewrite /flip_label -/label -/sp -/ix ltW // kn [~~ _]/= ex map_cons.
  by rewrite e1.
rewrite eh /= nth_rcons ltnn eqxx.
have sv : size vs = size ix by rewrite s1 size_map ex.
have lx : [seq nth 0%R label i | i <- ix] = nth 0%R label i0 :: [seq nth 0%R label i | i <- idx'] by rewrite ex.
have IN i : i \in ix -> exists2 x, elt_val x = nth 0%R (put_at label ix vs) i /\ ~~ elt_eqb x (Num (nth 0%R label i)) &
      List.In x sp \/ exists2 j, j \in ix & x = Num (nth 0%R label j).
  move=> iin; have il : index i ix < size ix by rewrite index_mem.
  have pe : nth 0%R (put_at label ix vs) i = nth 0%R vs (index i ix).
    by rewrite -{1}(nth_index 0%N iin) put_in.
  have [|x [x1 x2] x3] := H (index i ix); first by rewrite size_map -[(size idx').+1]/(size (i0 :: idx')) -ex.
  exists x; first by rewrite pe; split=> //; move: x2; rewrite -lx (nth_map 0%N) // nth_index.
  case: x3 => [/In_set_of|[l ll ->]]; [by left|right].
  by move: ll; rewrite -lx => /mapP [j jx ->]; exists j.
split=> //.
- by split=> // l ll; rewrite nth_rcons ll.
- by split; [apply: size_put | move=> i; apply: put_out].
- move=> i /IN [x [x1 _] [xi|[j ji xe]]]; first by left; exists x.
  by right; exists j => //; rewrite -x1 xe.
move=> num i /IN [x [x1 x2] x3].
have [v ev] : exists v, x = Num v by case: x3 => [/num|[j _ ->]] //; exists (nth 0%R label j).
by rewrite -x1; move: x2; rewrite ev.
Qed.

(* Nothing that existed before is modified, whatever happens. *)
Theorem C33_input_untouched h loc kd space k l : l < size h ->
  nth [::] (flip_label pick choice h loc kd space k).1 l = nth [::] h l.
Proof.
move=> ll; rewrite /flip_label; case: ifP => // _.
case: vectorized => [vals|e] /=; last by rewrite nth_rcons ll.
by case: kd; rewrite nth_rcons ll.
Qed.
End Flip.

(* A label space given as a torch tensor (a documented type) does not exclude the old label: its
   members compare by identity. *)
Theorem C33_tensor_space_refuted :
  ~ (forall pick choice h loc space k loc' idx,
     (forall t l, l <> [::] -> List.In (pick t l) l) -> draws_without_replacement choice ->
     flip_label pick choice h loc LongTensor (Some space) k = (rcons h loc', Ok (size h, idx)) ->
     uniq (map elt_val space) ->
     forall i, i \in idx -> nth 0%R loc' i != nth 0%R (nth [::] h loc) i).
Proof.
move=> H; pose pk (t : nat) (l : seq elt) := head (Num 0) l.
have pin : forall t l, l <> [::] -> List.In (pk t l) l by move=> t [|x l] // _; left.
have ch : draws_without_replacement (fun n k => iota 0 k).
  move=> n k kn; split; rewrite ?size_iota ?iota_uniq //.
  by apply/allP => x; rewrite mem_iota => /andP [_ lt]; apply: leq_trans lt kn.
have := H pk (fun n k => iota 0 k) [:: [:: 0; 1]%R] 0 [:: Ten 0 0; Ten 1 1]%R 1%R [:: 0; 1]%R [:: 0%N] pin ch
  erefl erefl 0%N (mem_head _ _).
by [].
Qed.

(* A label outside a given label space enlarges it for the following flips. *)
Theorem C33_outside_label_enlarges :
  ~ (forall pick choice h loc space k new idx,
     (forall t l, l <> [::] -> List.In (pick t l) l) -> draws_without_replacement choice ->
     flip_label pick choice h loc LongTensor (Some [seq Num v | v <- space]) k = (rcons h new, Ok (size h, idx)) ->
     forall i, i \in idx -> nth 0%R new i \in space).
Proof.
move=> H; pose pk (t : nat) (l : seq elt) := last (Num 0) l.
have pin : forall t l, l <> [::] -> List.In (pk t l) l.
  move=> t [|x l] // _; rewrite /pk /=; elim: l x => [|y l IH] x; [by left|right; exact: IH].
have ch : draws_without_replacement (fun n k => iota 0 k).
  move=> n k kn; split; rewrite ?size_iota ?iota_uniq //.
  by apply/allP => x; rewrite mem_iota => /andP [_ lt]; apply: leq_trans lt kn.
have := H pk (fun n k => iota 0 k) [:: [:: 5; 0]%R] 0 [:: 0; 1]%R 2%R [:: 1; 5]%R [:: 0; 1]%N pin ch
  erefl 1%N (mem_last 0%N [:: 1]%N).
by [].
Qed.

Example C33_concrete :
  let pk (t : nat) (l : seq elt) := nth (Num 0) l (t %% size l) in
  flip_label pk (fun n k => iota 1 k) [:: [:: 7]; [:: 0; 1; 2; 1]]%R 1 LongTensor None 2%R
  = ([:: [:: 7]; [:: 0; 1; 2; 1]; [:: 0; 2; 0; 1]]%R, Ok (2, [:: 1; 2])).
Proof. by vm_compute. Qed.

(* C34 ------------------------------------------------------------------ *)
Section Dropout.
Variable Pr : Type.
Implicit Types (pr : Pr) (ms : seq (module Pr)) (m : module Pr).

Lemma is_dropoutP m : is_dropout m <-> dropout_class m.
Proof. by rewrite /is_dropout prefixP. Qed.

Lemma hasIn (T : Type) (a : pred T) (s : seq T) : has a s <-> exists2 x, List.In x s & a x.
Proof.
elim: s => [|y s IH] /=; first by split=> // -[].
split=> [/orP [ay|/IH [x xi ax]]|[x [<-|xi] ax]].
- by exists y => //; left.
- by exists x => //; right.
- by rewrite ax.
by apply/orP; right; apply/IH; exists x.
Qed.

Lemma pickedP pos m : is_dropout m && sel pos m <-> picked pos m.
Proof.
rewrite /picked -is_dropoutP /sel; split=> [/andP [-> /orP [/nilP ->|/hasIn [nm ni /str_inP c]]]|].
- by split=> //; left.
- by split=> //; right; exists nm.
case=> -> [->//|[nm ni c]] /=; apply/orP; right; apply/hasIn; exists nm => //; exact/str_inP.
Qed.

(* The effect of every call, module by module, and its outcome; the effect takes place also when the
   call raises. *)
Theorem C34_effect pr positions ms m0 :
  let: (ms', r) := activate_dropout pr positions ms in
  let pos := odflt [::] positions in
  [/\ same_architecture ms' ms,
      (forall k, k < size ms ->
         (picked pos (nth m0 ms k) -> m_p (nth m0 ms' k) = Some pr) /\
         (~ picked pos (nth m0 ms k) -> m_p (nth m0 ms' k) = m_p (nth m0 ms k))),
      (forall k, k < size ms ->
         m_train (nth m0 ms' k) <->
         exists2 i, i < size ms & picked pos (nth m0 ms i) /\ k \in m_subs (nth m0 ms i)) &
      (misnamed pos ms -> r = Err ValueError) /\ (~ misnamed pos ms -> r = Ok tt)].
Proof.
rewrite (activate_dropoutE pr m0); set pos := odflt _ _; set acts := filter _ _.
have se : size (eval_all ms) = size ms by rewrite size_map.
have ac k : k < size ms -> (k \in acts) = (is_dropout (nth m0 ms k) && sel pos (nth m0 ms k)).
  by move=> kl; rewrite mem_filter mem_iota /= kl andbT.
split.
- apply: (@eq_from_nth _ (m_name m0, m_class m0, m_subs m0)); rewrite !size_map ?size_iota ?se // => k kl.
  rewrite (nth_map m0) ?size_after ?se // nth_after ?se //=.
  by rewrite !(nth_map m0).
- move=> k kl; rewrite nth_after ?se //= ac // (nth_map m0) //=; split=> [/pickedP -> //|np].
  by case: ifP => // /pickedP.
- move=> k kl; rewrite nth_after ?se //= {1}/eval_all (nth_map m0) //=.
  split=> [/hasP [i ia ki]|[i il [/pickedP pi ki]]].
    move: ia; rewrite mem_filter mem_iota => /andP [/pickedP pi /= il].
    by exists i => //; split=> //; move: ki; rewrite (nth_map m0).
  by apply/hasP; exists i; [rewrite ac|rewrite (nth_map m0)].
have HI : has (fun i => ~~ is_dropout (nth m0 ms i) && ~~ nilp pos && sel pos (nth m0 ms i)) (iota 0 (size ms))
    <-> misnamed pos ms.
  split=> [/hasP [i]|[m [nm [mi ni c nd]]]].
    rewrite mem_iota => /andP [_ il] /andP [/andP [nd np]].
    rewrite /sel (negbTE np) /= => /hasIn [nm ni /str_inP c]; exists (nth m0 ms i), nm; split=> //.
      by elim: (ms) i il {nd c} => //= x l IH [|i] il; [left|right; apply: IH].
    by move/is_dropoutP; apply/negP.
  have [i il ei] : exists2 i, i < size ms & nth m0 ms i = m.
    elim: (ms) mi => //= x l IH [->|/IH [i il ei]]; first by exists 0.
    by exists i.+1.
  apply/hasP; exists i; rewrite ?mem_iota //= ei.
  have -> : ~~ is_dropout m by apply/negP => /is_dropoutP.
  have -> : ~~ nilp pos by case: (pos) ni.
  by apply/orP; right; apply/hasIn; exists nm => //; apply/str_inP.
by split=> [/HI ->|nm] //; case: ifP => // /HI.
Qed.

(* The usual case, dropout modules without submodules: exactly the picked ones are in training mode. *)
Theorem C34_leaf pr positions ms m0 k :
  (forall i, i < size ms -> dropout_class (nth m0 ms i) -> m_subs (nth m0 ms i) = [:: i]) ->
  k < size ms ->
  m_train (nth m0 (activate_dropout pr positions ms).1 k) <-> picked (odflt [::] positions) (nth m0 ms k).
Proof.
move=> leaf kl; have := C34_effect pr positions ms m0.
case: activate_dropout => ms' r [_ _ /(_ k kl) -> _]; split=> [[i il [pi]]|pk].
  by rewrite leaf //; [rewrite inE => /eqP -> | case: pi].
by exists k => //; split=> //; rewrite leaf ?inE //; case: pk.
Qed.

(* Modes are not cumulative: after any history they are decided by the last call alone. *)
Theorem C34_last_call pr positions ms1 ms2 : same_architecture ms1 ms2 ->
  map (@m_train Pr) (activate_dropout pr positions ms1).1 = map (@m_train Pr) (activate_dropout pr positions ms2).1
  /\ (activate_dropout pr positions ms1).2 = (activate_dropout pr positions ms2).2.
Proof.
move=> sa; case: ms1 ms2 sa => [|a l1] [|b l2] // sa.
rewrite !(activate_dropoutE pr a); move: (a :: l1) (b :: l2) sa => {}l1 {}l2 sa.
have sz : size l1 = size l2 by have := congr1 size sa; rewrite !size_map.
have E k : k < size l2 -> [/\ m_name (nth a l1 k) = m_name (nth a l2 k),
   m_class (nth a l1 k) = m_class (nth a l2 k) & m_subs (nth a l1 k) = m_subs (nth a l2 k)].
  move=> kl; have := congr1 (fun s => nth (m_name a, m_class a, m_subs a) s k) sa.
  by rewrite !(nth_map a) ?sz // => -[-> -> ->].
have eD k : k < size l2 -> is_dropout (nth a l1 k) = is_dropout (nth a l2 k).
  by move=> kl; have [_ e _] := E k kl; rewrite /is_dropout e.
have eS pos k : k < size l2 -> sel pos (nth a l1 k) = sel pos (nth a l2 k).
  by move=> kl; have [e _ _] := E k kl; rewrite /sel e.
set pos := odflt _ _.
have eA : [seq i <- iota 0 (size l1) | is_dropout (nth a l1 i) && sel pos (nth a l1 i)] =
          [seq i <- iota 0 (size l2) | is_dropout (nth a l2 i) && sel pos (nth a l2 i)].
  by rewrite sz; apply/eq_in_filter => i; rewrite mem_iota => /andP [_ il]; rewrite eD // eS.
split=> /=.
  rewrite eA; apply: (@eq_from_nth _ true); rewrite !size_map !size_iota ?size_map // => k kl.
  rewrite !(nth_map a) ?size_after ?size_map -?sz // !nth_after ?size_map -?sz //=.
  rewrite !(nth_map a) -?sz //=; apply/eq_in_has => i; rewrite mem_filter mem_iota => /andP [_ /= il].
  rewrite !(nth_map a) -?sz //=; by have [|_ _ ->] := E i; rewrite -?sz.
congr (if _ then _ else _); rewrite sz; apply/eq_in_has => i; rewrite mem_iota => /andP [_ il].
by rewrite eD // eS.
Qed.

(* A list of names that occur in no module name is accepted and does nothing but switch to eval. *)
Theorem C34_unmatched_names_ignored pr pos ms m0 : pos <> [::] ->
  (forall m nm, List.In m ms -> List.In nm pos -> ~ contains (m_name m) nm) ->
  let: (ms', r) := activate_dropout pr (Some pos) ms in
  r = Ok tt /\ forall k, k < size ms ->
    m_train (nth m0 ms' k) = false /\ m_p (nth m0 ms' k) = m_p (nth m0 ms k).
Proof.
move=> pn nc; have := C34_effect pr (Some pos) ms m0; case: activate_dropout => ms' r /= [_ hp ht [_ ho]].
have np k : k < size ms -> ~ picked pos (nth m0 ms k).
  move=> kl [_ [//|[nm ni]]]; apply: nc => //.
  by elim: (ms) k kl => //= x l IH [|k] kl; [left|right; apply: IH].
split; first by apply: ho => -[m [nm [mi ni c _]]]; apply: nc c.
move=> k kl; split; last by have [_ h] := hp k kl; apply: h; apply: np.
by apply/negP => /(ht k kl) [i il [pi _]]; exact: (np i il).
Qed.
End Dropout.

(* AlphaDropout and FeatureAlphaDropout layers are not switched on by the default call. *)
Theorem C34_alpha_dropout_missed :
  let ms := [:: Module "" "Net" [:: 0; 1; 2; 3] true None;
                Module "a" "Dropout" [:: 1] false (Some 5);
                Module "b" "AlphaDropout" [:: 2] true (Some 5);
                Module "c" "FeatureAlphaDropout" [:: 3] true (Some 5)]%string in
  activate_dropout 1 None ms =
  ([:: Module "" "Net" [:: 0; 1; 2; 3] false None;
       Module "a" "Dropout" [:: 1] true (Some 1);
       Module "b" "AlphaDropout" [:: 2] false (Some 5);
       Module "c" "FeatureAlphaDropout" [:: 3] false (Some 5)]%string, Ok tt).
Proof. by vm_compute. Qed.

(* Naming a block raises although it contains a dropout layer, which has been switched on; a dropout
   class with children takes them along. *)
Example C34_concrete :
  let ms := [:: Module "" "Net" [:: 0; 1; 2; 3; 4] true None;
                Module "blk" "Sequential" [:: 1; 2] true None;
                Module "blk.drop" "Dropout" [:: 2] true (Some 5);
                Module "own" "DropoutBlock" [:: 3; 4] true None;
                Module "own.bn" "BatchNorm1d" [:: 4] true None]%string in
  activate_dropout 1 (Some [:: "blk"; "own"]%string) ms =
  ([:: Module "" "Net" [:: 0; 1; 2; 3; 4] false None;
       Module "blk" "Sequential" [:: 1; 2] false None;
       Module "blk.drop" "Dropout" [:: 2] true (Some 1);
       Module "own" "DropoutBlock" [:: 3; 4] true (Some 1);
       Module "own.bn" "BatchNorm1d" [:: 4] true None]%string, Err ValueError).
Proof. by vm_compute. Qed.

Print Assumptions C33_outcome. Print Assumptions C33_flips. Print Assumptions C33_input_untouched.
Print Assumptions C33_tensor_space_refuted. Print Assumptions C33_outside_label_enlarges.
Print Assumptions C34_effect. Print Assumptions C34_leaf. Print Assumptions C34_last_call.
Print Assumptions C34_unmatched_names_ignored. Print Assumptions C34_alpha_dropout_missed.
