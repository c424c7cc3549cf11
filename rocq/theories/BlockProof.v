(* Chunks of stored batches: covariances, preconditioned gradients and scores do not depend on how the
   batches are cut into chunks. *)
Set Warnings "-notation-overridden,-ambiguous-paths".
From mathcomp Require Import all_ssreflect all_algebra zify.
From Verif Require Import Py Dict Tensor TensorProof OffModel OffSpec MetaModel BlockModel BlockSpec.
From Verif Require DiskModel DiskSpec.
Set Implicit Arguments. Unset Strict Implicit. Unset Printing Implicit Defensive.
Import GRing.Theory.
Local Open Scope ring_scope.

Lemma zip_iota_mkseq (A : Type) (f : nat -> A) n : zip (iota 0 n) (mkseq f n) = [seq (i, f i) | i <- iota 0 n].
Proof. by rewrite /mkseq; elim: (iota 0 n) => //= i s ->. Qed.
Lemma rseq_ok (A B : Type) (f : A -> res B) g (s : seq A) :
  (forall a, List.In a s -> f a = Ok (g a)) -> rseq f s = Ok [seq g a | a <- s].
Proof.
elim: s => //= a s IH H; rewrite H; last by left.
by rewrite /= IH // => b h; apply: H; right.
Qed.
Lemma In_iota i a n : List.In i (iota a n) -> (a <= i < a + n)%N.
Proof. elim: n a => //= n IH a [<-|/IH]; lia. Qed.
Lemma In_map (A B : Type) (f : A -> B) s b : List.In b (map f s) -> exists2 a, List.In a s & b = f a.
Proof. by elim: s => //= a s IH [<-|/IH [a' h ->]]; [exists a; [left|]|exists a'; [right|]]. Qed.
Lemma In_mem (A : eqType) (s : seq A) a : List.In a s <-> a \in s.
Proof.
elim: s => //= b s IH; rewrite inE; split.
  by case=> [->|/IH ->]; rewrite ?eqxx ?orbT.
by case/orP => [/eqP ->|/IH ?]; [left|right].
Qed.

Section Core.
Variable F : fieldType.
Variable ds : seq nat.
Notation d l := (nth 0%N ds l). Notation nl := (size ds).
Notation rows := (seq (seq F)). Notation t2 := (t2 F). Notation item := (item F).

Definition colof l := sumn (take l ds).
(* layer l of a concatenated row *)
Definition lay l (v : seq F) : seq F := take (d l) (drop (colof l) v).
Lemma lcolsE l t : (l < nl)%N -> t2c t = sumn ds -> lcols ds l t = T2 (d l) [seq lay l v | v <- t2r t].
Proof.
move=> ln ct; rewrite /lcols /cols ct; congr T2.
  rewrite /slice_len; have : (colof l + d l <= sumn ds)%N.
    by have := congr1 sumn (cat_take_drop l ds); rewrite sumn_cat (drop_nth 0%N ln) /= /colof; lia.
  rewrite -/(colof l); lia.
by rewrite -/(colof l) addKn.
Qed.

(* accumulators *)
Definition gramm l (V : rows) : rows :=
  mkseq (fun a => mkseq (fun b => \sum_(v <- V) nth 0 (lay l v) a * nth 0 (lay l v) b) (d l)) (d l).
Definition accs_of (V : rows) : seq (option rows * nat) :=
  mkseq (fun l => if (0 < d l)%N then (Some (gramm l V), size V) else (None, 0%N)) nl.
Lemma accs0E : accs0 F nl ds = Ok (accs_of [::]).
Proof.
rewrite /accs0 leqnn; congr Ok; apply: eq_mkseq_lt => l _; case: ifP => //= _; congr (Some _, _).
by rewrite /gramm !nseq_mkseq; apply: eq_mkseq_lt => a _; apply: eq_mkseq_lt => b _; rewrite big_nil.
Qed.
Lemma acc_itemE V t : t2c t = sumn ds -> acc_item ds (accs_of V) t = Ok (accs_of (V ++ t2r t)).
Proof.
move=> ct; rewrite /acc_item size_mkseq zip_iota_mkseq.
pose h l := if (0 < d l)%N then (Some (gramm l (V ++ t2r t)), size (V ++ t2r t)) else (None, 0%N).
rewrite (@rseq_ok _ _ _ (fun la => h la.1)); first by rewrite -map_comp.
move=> la ha; have [l hl ->] := In_map ha; have ln := In_iota hl; rewrite /acc_layer lcolsE //= /h.
case: ifP => //= d0; rewrite /nrows /= size_map size_mkseq eqxx.
case: eqP => [e|ne].
  by rewrite (_ : t2r t = [::]) ?cats0 //; apply/size0nil; move: e d0; lia.
congr (Ok (Some _, _)); last by rewrite size_cat.
rewrite /gramm /addmm mapi_mkseq; apply: eq_mkseq_lt => a _; rewrite mapi_mkseq; apply: eq_mkseq_lt => b _.
by rewrite big_cat /= big_map.
Qed.
Lemma accumulateE (outs : seq item) : (forall it, List.In it outs -> t2c it.1 = sumn ds) ->
  accumulate nl ds [seq Ok it | it <- outs] = Ok (accs_of (flatten [seq t2r it.1 | it <- outs])).
Proof.
rewrite /accumulate accs0E /= => H; rewrite -[flatten _]cat0s.
elim: outs [::] H => [|it outs IH] V H /=; first by rewrite cats0.
rewrite acc_itemE ?H //=; last by left.
by rewrite IH ?catA // => i h; apply: H; right.
Qed.
Lemma accs_perm V V' : perm_eq V V' -> accs_of V = accs_of V'.
Proof.
move=> p; apply: eq_mkseq_lt => l _; rewrite (perm_size p); case: ifP => // _; congr (Some _, _).
by apply: eq_mkseq_lt => a _; apply: eq_mkseq_lt => b _; exact: perm_big.
Qed.

(* preconditioners *)
Definition cov l (V : rows) : 'M[F]_(d l) :=
  (size V)%:R^-1 *: \sum_(v <- V) (rv (d l) (lay l v))^T *m rv (d l) (lay l v).
Definition dmp (lam : F) l V : 'M[F]_(d l) := cov l V + (lam * \tr (cov l V) / (d l)%:R)%:M.
Lemma stable_cast k k' (H : rows) (e : size H = k) lam : k = k' ->
  stable_inverse lam H =
  (let M := mx_of k' H in let D := M + (lam_of lam * \tr M / k'%:R)%:M in
   if D \in unitmx then Ok (rows_of (invmx D)) else Err RuntimeError).
Proof. by move=> ek; subst k'; rewrite -e. Qed.
Lemma covE l V : mx_of (d l) [seq [seq x / (size V)%:R | x <- r] | r <- gramm l V] = cov l V.
Proof.
apply/matrixP => a b; rewrite !mxE (nth_map [::]) ?size_mkseq // nth_mkseq // (nth_map 0) ?size_mkseq //.
rewrite nth_mkseq // mulrC; congr (_ * _); rewrite summxE; apply: eq_bigr => v _.
by rewrite mxE big_ord_recl big_ord0 addr0 !mxE.
Qed.
Lemma stableE lam l V :
  stable_inverse lam [seq [seq x / (size V)%:R | x <- r] | r <- gramm l V] =
  if dmp (lam_of lam) l V \in unitmx then Ok (rows_of (invmx (dmp (lam_of lam) l V))) else Err RuntimeError.
Proof.
have e : size [seq [seq x / (size V)%:R | x <- r] | r <- gramm l V] = d l by rewrite size_map size_mkseq.
by rewrite (stable_cast e lam erefl) /= covE.
Qed.

Definition prec_of lam V l : rows := rows_of (invmx (dmp (lam_of lam) l V)).
Lemma calls_ok (A B : Type) (f : A -> res (option B)) g s :
  (forall a, List.In a s -> f a = Ok (g a)) -> calls f s = (pmap g s, Ok tt).
Proof.
elim: s => //= a s IH H; rewrite H; last by left.
have -> : calls f s = (pmap g s, Ok tt) by apply: IH => b h; apply: H; right.
by case: (g a).
Qed.
Lemma prec_callsE lam V : (0 < size V)%N ->
  (forall l, (l < nl)%N -> (0 < d l)%N -> dmp (lam_of lam) l V \in unitmx) ->
  prec_calls lam (accs_of V) = ([seq (l, prec_of lam V l) | l <- iota 0 nl & (0 < d l)%N], Ok tt).
Proof.
move=> V0 U; rewrite /prec_calls size_mkseq zip_iota_mkseq.
pose g (la : nat * (option rows * nat)) := if (0 < d la.1)%N then Some (la.1, prec_of lam V la.1) else None.
rewrite (@calls_ok _ _ _ g).
  by congr (_, _); elim: (iota 0 nl) => //= l s IH; rewrite IH /g /=; case: ifP.
move=> la ha; have [l hl ->] := In_map ha; have ln := In_iota hl; rewrite /g /=; case: ifP => //= d0.
by rewrite V0 stableE U.
Qed.
(* the first layer (in order) with a singular damped matrix makes the call fail *)
Lemma prec_calls_err lam V l : (0 < size V)%N -> (l < nl)%N -> (0 < d l)%N ->
  dmp (lam_of lam) l V \notin unitmx -> (prec_calls lam (accs_of V)).2 = Err RuntimeError.
Proof.
move=> V0 ln d0 U; rewrite /prec_calls size_mkseq zip_iota_mkseq.
have : l \in iota 0 nl by rewrite mem_iota.
elim: (iota 0 nl) => //= k s IH; rewrite inE.
case: (ltnP 0 (d k)) => dk /=; last first.
  by case/orP => [/eqP e|/IH //]; move: d0; rewrite e ltnNge dk.
rewrite V0 stableE; case: ifP => //= uk; case/orP => [/eqP e|/IH //].
by move: U; rewrite e uk.
Qed.
Lemma calls_cat (A B : Type) (f : A -> res (option B)) g s t : (forall a, List.In a s -> f a = Ok (g a)) ->
  calls f (s ++ t) = (pmap g s ++ (calls f t).1, (calls f t).2).
Proof.
elim: s => [|a s IH] H /=; first by case: (calls f t).
rewrite H; last by left.
by rewrite IH; [case: (g a)|move=> b h; apply: H; right].
Qed.
Lemma prec_calls_first lam V l0 : (0 < size V)%N -> (l0 < nl)%N -> (0 < d l0)%N -> dmp (lam_of lam) l0 V \notin unitmx ->
  (forall l, (l < l0)%N -> (0 < d l)%N -> dmp (lam_of lam) l V \in unitmx) ->
  prec_calls lam (accs_of V) = ([seq (l, prec_of lam V l) | l <- iota 0 l0 & (0 < d l)%N], Err RuntimeError).
Proof.
move=> V0 ln d0 U0 U; rewrite /prec_calls size_mkseq zip_iota_mkseq.
pose g (la : nat * (option rows * nat)) := if (0 < d la.1)%N then Some (la.1, prec_of lam V la.1) else None.
have -> : iota 0 nl = iota 0 l0 ++ l0 :: iota l0.+1 (nl - l0.+1).
  have -> : l0 :: iota l0.+1 (nl - l0.+1) = iota (0 + l0) (nl - l0.+1).+1 by [].
  by rewrite -iotaD; congr iota; move: ln; clear; lia.
rewrite map_cat (@calls_cat _ _ _ g); last first.
  move=> la ha; have [l hl ->] := In_map ha; have ln' := In_iota hl; rewrite /g /=; case: ifP => //= dl.
  by rewrite V0 stableE U //; move: ln'; lia.
rewrite /= d0 /= V0 stableE (negbTE U0) /= cats0; congr (_, _).
by elim: (iota 0 l0) => //= l s IH; rewrite IH /g /=; case: ifP.
Qed.

(* preconditioned gradients *)
Definition mulrow k (P : rows) (u : seq F) : seq F :=
  mkseq (fun a => \sum_(b < k) nth 0 (nth [::] P a) b * nth 0 u b) k.
Lemma rows_of_nth k (M : 'M[F]_k) (a b : 'I_k) : nth 0 (nth [::] (rows_of M) a) b = M a b.
Proof.
by rewrite (nth_map a) ?size_enum_ord // (nth_map b) ?size_enum_ord // !nth_ord_enum.
Qed.
Lemma size_rows_of k (M : 'M[F]_k) : size (rows_of M) = k.
Proof. by rewrite size_map size_enum_ord. Qed.
Lemma ifvp_batchE precs (M : forall l, 'M[F]_(d l)) bt :
  (forall l, (l < nl)%N -> nth None precs l = Some (rows_of (M l)) \/ nth None precs l = None /\ M l = 0) ->
  t2c bt = sumn ds ->
  ifvp_batch nl ds precs bt =
  Ok (mkseq (fun l => G2 (T2 (d l) [seq mulrow (d l) (rows_of (M l)) (lay l v) | v <- t2r bt])) nl).
Proof.
move=> HP ct; rewrite /ifvp_batch leqnn.
apply: rseq_ok => l hl; have ln := In_iota hl; rewrite /ifvp_layer lcolsE //.
have zE (n : nat) (s : seq (seq F)) (f : seq F -> seq F) : size s = n -> (forall v, v \in s -> f v = nseq (d l) 0) ->
    nseq n (nseq (d l) (0 : F)) = map f s.
  by move=> <-; elim: s => //= v s IH H; rewrite H ?mem_head // IH // => w h; apply: H; rewrite inE h orbT.
have [->|[-> M0]] := HP l ln; last first.
  congr (Ok (G2 (T2 _ _))); apply: zE => // v _; rewrite /mulrow nseq_mkseq; apply: eq_mkseq_lt => a ad.
  apply: big1 => b _; have := rows_of_nth (M l) (Ordinal ad) b; rewrite M0 /= => ->.
  by rewrite mxE mul0r.
rewrite /nrows /= size_map size_rows_of eqxx.
case: eqP => [e|_].
  case: (t2r bt) e => [//|v0 V] e; have d0 : d l = 0%N by move: e => /=; lia.
  congr (Ok (G2 (T2 _ _))); apply: zE => // v _; rewrite /mulrow nseq_mkseq; apply: eq_mkseq_lt => a ad.
  by exfalso; move: ad d0; lia.
rewrite -map_comp; congr (Ok (G2 (T2 _ _))); apply: eq_map => v /=.
apply: (@eq_from_nth _ 0); first by rewrite size_map size_rows_of size_mkseq.
by move=> a; rewrite size_map size_rows_of => ad; rewrite (nth_map [::]) ?size_rows_of // nth_mkseq.
Qed.
Lemma copy_batchE bt : t2c bt = sumn ds ->
  copy_batch nl ds bt = Ok (mkseq (fun l => G2 (T2 (d l) [seq lay l v | v <- t2r bt])) nl).
Proof.
move=> ct; rewrite /copy_batch leqnn; congr Ok; apply/eq_in_map => l; rewrite mem_iota => ln.
by rewrite lcolsE.
Qed.

(* outs: chunks that hold the batches R (index and rows), each exactly once *)
Record holds (outs : seq item) (R : seq (nat * rows)) : Prop := Holds {
  h_cols : forall it, List.In it outs -> t2c it.1 = sumn ds;
  h_rows : forall it, List.In it outs -> t2r it.1 = flatten [seq e.2 | e <- DiskSpec.contents it];
  h_perm : perm_eq (flatten [seq DiskSpec.contents it | it <- outs]) R;
  h_uniq : uniq (flatten [seq dkeys it.2 | it <- outs]) }.

Lemma holds_rows outs R : holds outs R ->
  perm_eq (flatten [seq t2r it.1 | it <- outs]) (flatten [seq e.2 | e <- R]).
Proof.
case=> _ hr hp _; have -> : flatten [seq t2r it.1 | it <- outs] = flatten [seq e.2 | e <- flatten [seq DiskSpec.contents it | it <- outs]].
  elim: outs hr {hp} => //= it outs IH hr; rewrite map_cat flatten_cat -IH; last by move=> i h; apply: hr; right.
  by rewrite hr //; left.
by apply: perm_flatten; apply: perm_map.
Qed.
Lemma holds_accumulate outs R : holds outs R ->
  accumulate nl ds [seq Ok it | it <- outs] = Ok (accs_of (flatten [seq e.2 | e <- R])).
Proof. by move=> h; rewrite accumulateE ?(accs_perm (holds_rows h)) //; case: h. Qed.

Lemma item_callsE (f : t2 -> res (seq (gr F))) mp (g : rows -> seq (gr F)) (it : item) :
  t2c it.1 = sumn ds -> (forall b, b \in dkeys it.2 -> dhas mp b) ->
  (forall V, f (T2 (sumn ds) V) = Ok (g V)) ->
  item_calls f mp it = ([seq (e.1, g e.2) | e <- DiskSpec.contents it], Ok tt).
Proof.
move=> ct hm fE; rewrite /item_calls /DiskSpec.contents.
rewrite (@calls_ok _ _ _ (fun e => Some (e.1, g (rows_at it.1 e.2)))).
  by congr (_, _); elim: (it.2) => //= e s ->.
move=> e he; rewrite hm /trows ?ct ?fE //=.
by elim: (it.2) he => //= x s IH [->|/IH]; rewrite inE ?eqxx // => ->; rewrite orbT.
Qed.
Lemma holds_calls (f : t2 -> res (seq (gr F))) mp (g : rows -> seq (gr F)) outs R : holds outs R ->
  (forall b, b \in [seq e.1 | e <- R] -> dhas mp b) ->
  (forall V, f (T2 (sumn ds) V) = Ok (g V)) ->
  exists2 R', perm_eq R' R &
  ifvp_calls f mp [seq Ok it | it <- outs] = ([seq (e.1, g e.2) | e <- R'], Ok tt).
Proof.
move=> H hm fE; exists (flatten [seq DiskSpec.contents it | it <- outs]); first by case: H.
case: H => hc _ hp _.
have : forall b, b \in [seq e.1 | e <- flatten [seq DiskSpec.contents it | it <- outs]] -> dhas mp b.
  by move=> b; rewrite (perm_mem (perm_map _ hp)); apply: hm.
elim: outs hc {hp} => //= it outs IH hc hm'.
rewrite (@item_callsE _ _ g) ?hc //=; last 2 first.
- by left.
- by move=> b h; apply: hm'; rewrite map_cat mem_cat /DiskSpec.contents -map_comp h.
rewrite IH ?map_cat //.
- by move=> i h; apply: hc; right.
- by move=> b h; apply: hm'; rewrite map_cat mem_cat h orbT.
Qed.
End Core.
