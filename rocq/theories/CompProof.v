(* Lemmas about compressors. *)
Set Warnings "-notation-overridden,-ambiguous-paths".
From mathcomp Require Import all_ssreflect all_algebra zify.
From Coq Require ZArith.
Require Import Field.
From Verif Require Import Py Tensor TensorProof Seeds SeedSpec SeedProof ProjModel ProjSpec ProjProof FieldSupport CompModel CompSpec.
Set Implicit Arguments. Unset Strict Implicit. Unset Printing Implicit Defensive.
Import GRing.Theory.
Local Open Scope ring_scope.

Section Alg.
Variable F : fieldType.
Add Field mcF : (@ffield F).
Lemma mul6 (g p m x q r : F) : g * p * m * (x * q) * r = m * (g * (p * q * r * x)).
Proof. by fnorm; ring. Qed.
End Alg.

Section Proof.
Variable F : fieldType.
Variable G : rng F.
Notation row := (seq F).
Hypothesis hperm : forall sd n, perm_eq (g_perm G sd n) (iota 0 n).

(* rows times a matrix *)
Definition lin (fd k : nat) (P : nat -> nat -> F) (x : row) : row := mkseq (fun j => \sum_(i < fd) nth 0 x i * P i j) k.

Definition usable (t : ptype) : bool := is_dense t || (if t is (PMask | PIdentity) then true else false).
(* a projector in use: ensemble 0, memory not freed *)
Definition live (p : pj F) : Prop :=
  [/\ (0 < b_bs (pj_cfg p))%N, brep G (pj_cfg p) (pj_st p) BinNums.Z0 false, usable (b_type (pj_cfg p)) & b_bs0 (pj_cfg p) = 100%N].

Lemma live_call p X : live p -> live (pj_call G p X).1 /\ pj_cfg (pj_call G p X).1 = pj_cfg p.
Proof.
case=> h1 h2 h3 h4; split=> //; split=> //=.
by have := b_project_state X BinNums.Z0 h1 h2 h3; rewrite /=.
Qed.

Lemma spec_seed0 s : spec_seed s BinNums.Z0 0 = s.
Proof. by rewrite /spec_seed; lia. Qed.

Lemma delta_sum (x : row) (P : nat -> nat) j n : size x = n -> (P j < n)%N ->
  \sum_(i < n) nth 0 x i * (i == P j :> nat)%:R = nth 0 x (P j).
Proof.
move=> hs hj; rewrite (bigD1 (Ordinal hj)) //= eqxx mulr1 big1 ?addr0 // => i ni.
have -> : (i == P j :> nat) = false by apply/negbTE; move: ni; apply: contra => /eqP e; apply/eqP/val_inj.
by rewrite mulr0.
Qed.

Lemma call_ok p X : live p -> let c := pj_cfg p in all (fun x => size x == b_fd c) X ->
  (pj_call G p X).2 = Ok [seq lin (b_fd c) (out_dim (b_type c) (b_pd c) (b_fd c)) (pmatrix G (b_type c) (b_fd c) (b_pd c) (b_seed c)) x | x <- X].
Proof.
case: p => c s [/= h1 h2 h3 h4] hX; rewrite (b_project_ok BinNums.Z0 h1 h2 h3 hperm hX) /= !andbF.
congr Ok; rewrite /bresult; case et: (b_type c) h3 => //= _.
- rewrite -[LHS]map_id; apply/eq_in_map => x /(allP hX) /eqP sx; apply: (@eq_from_nth _ 0) => [|j hj]; first by rewrite size_mkseq.
  by rewrite nth_mkseq -?sx // (delta_sum (P := id)).
- apply/eq_in_map => x /(allP hX) /eqP sx; rewrite /apply_matrix /lin; apply/eq_in_map => j _; rewrite mulr_suml; apply: eq_bigr => i _.
  by rewrite -mulrA; congr (_ * (_ / _)); rewrite /bentry /basic_entry et /b_bs h4.
- apply/eq_in_map => x /(allP hX) /eqP sx; rewrite /apply_matrix /lin; apply/eq_in_map => j _; rewrite mulr_suml; apply: eq_bigr => i _.
  by rewrite -mulrA; congr (_ * (_ / _)); rewrite /bentry /basic_entry et /b_bs h4.
- apply/eq_in_map => x /(allP hX) /eqP sx; have [_ sz hin] := mask_kept (b_pd c) (hperm (b_seed c) (b_fd c)).
  rewrite spec_seed0; apply: (@eq_from_nth _ 0) => [|j hj]; first by rewrite size_map sz size_mkseq.
  rewrite size_map in hj; rewrite (nth_map (b_fd c)) // nth_mkseq -?sz // -/(mask G (b_seed c) (b_fd c) (b_pd c)).
  rewrite (delta_sum (P := fun j => nth (b_fd c) (mask G (b_seed c) (b_fd c) (b_pd c)) j)) //.
  by apply: hin; exact: mem_nth.
Qed.

(* ---- shapes *)
Lemma shaped_flat three m L w (a : act F) : shaped three m L w a -> all (fun v => size v == w) (flat a).
Proof.
case: a => [r /and4P [_ _ _ //]|L' r /and4P [_ _ _ h]] /=.
elim: r h => [//|p r IH] /= /andP [/andP [_ h1] h2]; by rewrite all_cat h1 IH.
Qed.
Lemma shaped_n three m L w a : shaped three m L w a -> nsamples (a : act F) = m.
Proof. by case: a => [r /and4P [_ _ /eqP e _]|L' r /and4P [_ _ /eqP e _]]. Qed.

Lemma unflatten_map (f : row -> row) L (r : seq (seq row)) : all (fun p => size p == L) r ->
  unflatten L (size r) [seq f v | v <- flatten r] = [seq [seq f v | v <- p] | p <- r].
Proof.
move=> h; apply: (@eq_from_nth _ [::]) => [|b]; rewrite !size_map size_iota // => hb.
rewrite (nth_map 0%N) ?size_iota // nth_iota // add0n (nth_map [::]) //.
elim: r b h hb => [//|p r IH] [|b] /= /andP [/eqP hp h] hb.
  by rewrite mul0n drop0 map_cat take_size_cat // size_map.
have -> : (b.+1 * L = size [seq f v | v <- p] + b * L)%N by rewrite size_map hp mulSn.
by rewrite map_cat drop_cat ltnNge leq_addr /= addKn IH.
Qed.

(* ---- flattened outer products *)
Lemma nth_flat_mk (f : nat -> nat -> F) k2 n st a c : (a < n)%N -> (c < k2)%N ->
  nth 0 (flatten [seq mkseq (f a) k2 | a <- iota st n]) (a * k2 + c) = f (st + a)%N c.
Proof.
elim: n st a => [//|n IH] st a ha hc /=; rewrite nth_cat size_mkseq.
case: a ha => [|a] ha; first by rewrite mul0n add0n hc nth_mkseq // addn0.
have -> : (a.+1 * k2 + c < k2)%N = false by move: hc; clear; lia.
have -> : (a.+1 * k2 + c - k2 = a * k2 + c)%N by move: hc; clear; lia.
by rewrite IH // addSnnS.
Qed.
Lemma size_flat_mk (f : nat -> nat -> F) k2 n st : size (flatten [seq mkseq (f a) k2 | a <- iota st n]) = (n * k2)%N.
Proof. by elim: n st => [//|n IH] st /=; rewrite size_cat size_mkseq IH mulSn. Qed.
Lemma sum_mul (h : nat -> F) k1 k2 : \sum_(t < k1 * k2) h t = \sum_(a < k1) \sum_(c < k2) h (a * k2 + c)%N.
Proof.
elim: k1 => [|k1 IH]; first by rewrite mul0n !big_ord0.
rewrite big_ord_recr /= -IH -!(big_mkord xpredT h) -(big_mkord xpredT (fun c => h (k1 * k2 + c)%N)).
rewrite mulSnr (big_cat_nat _ _ _ (leq0n (k1 * k2)%N)) ?leq_addr //=; congr (_ + _).
rewrite -{1}[(k1 * k2)%N]add0n big_addn addKn; by apply: eq_bigr => i _; rewrite addnC.
Qed.

Lemma exch2 k1 k2 n (f : 'I_k1 -> 'I_k2 -> 'I_n -> F) :
  \sum_(a < k1) \sum_(c < k2) \sum_(s < n) f a c s = \sum_(s < n) \sum_(a < k1) \sum_(c < k2) f a c s.
Proof. by rewrite [RHS]exchange_big /=; apply: eq_bigr => a _; rewrite exchange_big. Qed.

Lemma compress_algebra (l : linear) (m L : nat) (gs xs : seq row) Gr k1 k2 (P1 P2 P : nat -> nat -> F) j :
  size xs = L -> all (fun x => size x == l_in l) xs -> param_grad l m gs xs Gr ->
  let x1 s := if l_bias l then rcons (nth [::] xs s) 1 else nth [::] xs s in
  \sum_(a < k1) \sum_(c < k2)
     (\sum_(s < L) (\sum_(o < l_out l) nth 0 (nth [::] gs s) o * P1 o a) * m%:R * (\sum_(i < fins l) nth 0 (x1 s) i * P2 i c))
     * P (a * k2 + c)%N j =
  \sum_(o < l_out l) \sum_(i < fins l) Gr o i * kron k1 k2 P1 P2 P o i j.
Proof.
move=> sz hw hg x1; rewrite (hg (fun o i => kron k1 k2 P1 P2 P o i j)) sz.
have hx (s : 'I_L) : size (nth [::] xs s) = l_in l by apply/eqP/(allP hw)/mem_nth; rewrite sz.
have hlc (s : 'I_L) o : layer_change l (fun o i => kron k1 k2 P1 P2 P o i j) (nth [::] xs s) o =
    \sum_(i < fins l) kron k1 k2 P1 P2 P o i j * nth 0 (x1 s) i.
  rewrite /layer_change /x1 /fins; case: (l_bias l) => /=.
    rewrite addn1 big_ord_recr /= nth_rcons hx ltnn eqxx mulr1; congr (_ + _).
    by apply: eq_bigr => i _; rewrite nth_rcons hx ltn_ord.
  by rewrite addn0 addr0.
transitivity (\sum_(s < L) \sum_(o < l_out l) \sum_(i < fins l) \sum_(a < k1) \sum_(c < k2)
   m%:R * (nth 0 (nth [::] gs s) o * (P1 o a * P2 i c * P (a * k2 + c)%N j * nth 0 (x1 s) i))); last first.
  rewrite mulr_sumr; apply: eq_bigr => s _; rewrite mulr_sumr; apply: eq_bigr => o _.
  rewrite hlc !mulr_sumr; apply: eq_bigr => i _; rewrite /kron mulr_suml !mulr_sumr; apply: eq_bigr => a _.
  by rewrite mulr_suml !mulr_sumr.
transitivity (\sum_(a < k1) \sum_(c < k2) \sum_(s < L) \sum_(o < l_out l) \sum_(i < fins l)
   m%:R * (nth 0 (nth [::] gs s) o * (P1 o a * P2 i c * P (a * k2 + c)%N j * nth 0 (x1 s) i))).
  apply: eq_bigr => a _; apply: eq_bigr => c _; rewrite mulr_suml; apply: eq_bigr => s _.
  rewrite !mulr_suml; apply: eq_bigr => o _; rewrite !mulr_sumr mulr_suml; apply: eq_bigr => i _.
  exact: mul6.
rewrite exch2; apply: eq_bigr => s _; rewrite exch2; apply: eq_bigr => o _; exact: exch2.
Qed.
(* ---- the pipeline *)
Definition alive (k : compressor F) := [/\ live (k_one k), live (k_two k) & live (k_proj k)].
Definition same_cfg (k k' : compressor F) :=
  [/\ pj_cfg (k_one k) = pj_cfg (k_one k'), pj_cfg (k_two k) = pj_cfg (k_two k') & pj_cfg (k_proj k) = pj_cfg (k_proj k')].
Lemma forward_alive k v1 v2 : alive k -> alive (forward G k v1 v2).1 /\ same_cfg (forward G k v1 v2).1 k.
Proof.
case=> h1 h2 h3; rewrite /forward.
have [a1 c1] := live_call (flat v1) h1; move: a1 c1; case: (pj_call G (k_one k) _) => p1 [x1|e] a1 c1; cbv iota beta; last by [].
have [a2 c2] := live_call (flat v2) h2; move: a2 c2; case: (pj_call G (k_two k) _) => p2 [x2|e] a2 c2; cbv iota beta; last by [].
set X := match v2 with A2 _ => _ | A3 _ _ => _ end.
by have [a3 c3] := live_call X h3; move: a3 c3; case: (pj_call G (k_proj k) _) => p3 r a3 c3.
Qed.
Lemma life_alive k h : alive k -> alive (life G k h) /\ same_cfg (life G k h) k.
Proof.
elim: h k => [//|v h IH] k hk /=; have [a1 [c1 c2 c3]] := forward_alive v.1 v.2 hk.
by have [a2 [d1 d2 d3]] := IH _ a1; split=> //; split; rewrite ?d1 ?d2 ?d3.
Qed.

(* the positions of a batch after a map over the rows *)
Definition plin (fd k : nat) (P : nat -> nat -> F) (a : act F) (b : nat) : seq row := [seq lin fd k P v | v <- pos a b].

Lemma pos_size three m L w (a : act F) b : shaped three m L w a -> (b < m)%N -> size (pos a b) = L /\ all (fun v => size v == w) (pos a b).
Proof.
case: a => [r /and4P [_ /eqP -> /eqP sr hw] hb|L' r /and4P [_ _ /eqP sr hw] hb] /=.
  by rewrite andbT; split=> //; apply: (allP hw); apply: mem_nth; rewrite sr.
by move: hb; rewrite -sr => /(mem_nth [::]) /(allP hw) /andP [/eqP -> h].
Qed.
Definition inter (m L k1 k2 : nat) (f1 f2 : row -> row) (v1 v2 : act F) (b : nat) : row :=
  flatten (mkseq (fun a => mkseq (fun c =>
    \sum_(s < L) nth 0 (f1 (nth [::] (pos v1 b) s)) a * m%:R * nth 0 (f2 (nth [::] (pos v2 b) s)) c) k2) k1).

Lemma wide_map (f : row -> row) k X : (0 < size X)%N -> (forall x, size (f x) = k) -> wide [seq f x | x <- X] = k.
Proof. by case: X => [//|x X] _ h; rewrite /wide /= h. Qed.

Lemma outer_ok three m L w1 w2 k1 k2 (f1 f2 : row -> row) (v1 v2 : act F) : (0 < m)%N -> (0 < L)%N ->
  shaped three m L w1 v1 -> shaped three m L w2 v2 ->
  (forall x, size (f1 x) = k1) -> (forall x, size (f2 x) = k2) ->
  let x1 := [seq f1 x | x <- flat v1] in let x2 := [seq f2 x | x <- flat v2] in
  match v2 with
  | A3 L _ => outer3 m (wide x1) (wide x2) L (unflatten L m x1) (unflatten L m x2)
  | A2 _ => outer2 m (wide x1) (wide x2) x1 x2
  end = mkseq (inter m L k1 k2 f1 f2 v1 v2) m.
Proof.
move=> m0 L0; case: v1 => [r1 /and4P [t3 /eqP L1 /eqP s1 h1]|L1 r1 /and4P [t3 /eqP L1E /eqP s1 h1]];
  case: v2 => [r2 /and4P [t4 _ /eqP s2 h2]|L2 r2 /and4P [t4 /eqP L2E /eqP s2 h2]] z1 z2 //=; try by case: three t3 t4.
  rewrite (wide_map _ z1) ?s1 // (wide_map _ z2) ?s2 // /outer2.
  apply: (@eq_from_nth _ [::]) => [|b hb]; first by rewrite size_map size_zip !size_map s1 s2 minnn ?size_mkseq ?size_iota.
  rewrite size_map size_zip !size_map s1 s2 minnn in hb.
  rewrite (nth_map ([::], [::])) ?size_zip ?size_map ?s1 ?s2 ?minnn // nth_zip ?size_map ?s1 ?s2 //= nth_mkseq // /inter.
  congr flatten; apply/eq_mkseq => a; apply/eq_mkseq => c.
  by rewrite L1 big_ord1 /= !(nth_map [::]) ?s1 ?s2.
have hs1 : all (fun p : seq row => size p == L) r1 by apply: sub_all h1 => p /andP [].
have hs2 : all (fun p : seq row => size p == L) r2 by apply: sub_all h2 => p /andP [].
have pos_flat (r : seq (seq row)) : size r = m -> all (fun p => size p == L) r -> (0 < size (flatten r))%N.
  by case: r => [e|p r _ /= /andP [/eqP e _]]; [move: m0; rewrite -e | rewrite size_cat e addn_gt0 L0].
rewrite L2E (wide_map _ z1) ?pos_flat // (wide_map _ z2) ?pos_flat // /outer3.
have := unflatten_map f1 hs1; rewrite s1 => ->; have := unflatten_map f2 hs2; rewrite s2 => ->.
apply: (@eq_from_nth _ [::]) => [|b hb]; first by rewrite size_map size_zip !size_map s1 s2 minnn ?size_mkseq ?size_iota.
rewrite size_map size_zip !size_map s1 s2 minnn in hb.
rewrite (nth_map ([::], [::])) ?size_zip ?size_map ?s1 ?s2 ?minnn // nth_zip ?size_map ?s1 ?s2 //= nth_mkseq // /inter.
congr flatten; apply/eq_mkseq => a; apply/eq_mkseq => c; apply: eq_bigr => s _.
have q1 : size (nth [::] r1 b) = L by apply/eqP/(allP hs1)/mem_nth; rewrite s1.
have q2 : size (nth [::] r2 b) = L by apply/eqP/(allP hs2)/mem_nth; rewrite s2.
by rewrite !(nth_map [::]) ?s1 ?s2 ?q1 ?q2.
Qed.

Lemma size_lin fd k P x : size (lin fd k P x) = k. Proof. exact: size_mkseq. Qed.
Lemma size_inter m L k1 k2 f1 f2 v1 v2 b : size (inter m L k1 k2 f1 f2 v1 v2 b) = (k1 * k2)%N.
Proof. exact: size_flat_mk. Qed.

Definition odim (c : bcfg) := out_dim (b_type c) (b_pd c) (b_fd c).
Definition pmx (c : bcfg) := pmatrix G (b_type c) (b_fd c) (b_pd c) (b_seed c).
Definition plinear (c : bcfg) (x : row) : row := lin (b_fd c) (odim c) (pmx c) x.

Lemma forward_ok three m L k (v1 v2 : act F) : alive k -> (0 < m)%N -> (0 < L)%N ->
  let c1 := pj_cfg (k_one k) in let c2 := pj_cfg (k_two k) in let c3 := pj_cfg (k_proj k) in
  b_fd c3 = (odim c1 * odim c2)%N ->
  shaped three m L (b_fd c1) v1 -> shaped three m L (b_fd c2) v2 ->
  (forward G k v1 v2).2 =
  Ok (mkseq (fun b => plinear c3 (inter m L (odim c1) (odim c2) (plinear c1) (plinear c2) v1 v2 b)) m).
Proof.
case=> h1 h2 h3 m0 L0 /= h s1 s2; rewrite /forward (shaped_n s2).
have := call_ok h1 (shaped_flat s1); case: (pj_call G (k_one k) _) => p1 r1; rewrite [X in X = _ -> _]/snd => ->; cbv iota beta.
have := call_ok h2 (shaped_flat s2); case: (pj_call G (k_two k) _) => p2 r2; rewrite [X in X = _ -> _]/snd => ->; cbv iota beta.
rewrite (outer_ok m0 L0 s1 s2 (k1 := odim (pj_cfg (k_one k))) (k2 := odim (pj_cfg (k_two k)))); try by move=> x; exact: size_lin.
set X := mkseq _ m; have hX : all (fun x => size x == b_fd (pj_cfg (k_proj k))) X.
  by apply/allP => x /mapP [b _ ->]; rewrite size_inter h.
have := call_ok h3 hX; case: (pj_call G (k_proj k) _) => p3 r3; rewrite [X in X = _ -> _]/snd => ->; cbv iota beta.
by rewrite /X /mkseq -map_comp.
Qed.
End Proof.
