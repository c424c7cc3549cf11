(* Scores and self attribution from chunks; test gradients. *)
Set Warnings "-notation-overridden,-ambiguous-paths".
From mathcomp Require Import all_ssreflect all_algebra zify.
From Verif Require Import Py Dict Tensor TensorProof OffModel OffSpec MetaModel BlockModel BlockSpec BlockProof.
From Verif Require DiskModel DiskSpec.
Set Implicit Arguments. Unset Strict Implicit. Unset Printing Implicit Defensive.
Import GRing.Theory.
Local Open Scope ring_scope.

(* a loop of assignments that all agree with one target *)
Section Upd.
Variables (S I V : Type) (mkf : (I -> V) -> S) (dom : I -> bool) (G : I -> V).
Hypothesis mkf_ext : forall f g, (forall i, dom i -> f i = g i) -> mkf f = mkf g.
Lemma rfold_upd (B : Type) (step : S -> B -> res S) (p : B -> I -> bool) (l : seq B) f :
  (forall b g, List.In b l -> step (mkf g) b = Ok (mkf (fun i => if p b i then G i else g i))) ->
  rfold step (mkf f) l = Ok (mkf (fun i => if has (p^~ i) l then G i else f i)).
Proof.
elim: l f => //= b l IH f H; rewrite H; last by left.
rewrite /= IH; last by move=> c g h; apply: H; right.
by congr Ok; apply: mkf_ext => i _; case: (has _ l) => //; rewrite ?orbT ?orbF.
Qed.
End Upd.
Lemma has_In (A : Type) (p : pred A) s : has p s <-> exists2 a, List.In a s & p a.
Proof.
elim: s => /= [|a s IH]; first by split=> // -[].
split=> [/orP [pa|/IH [b h pb]]|[b [<- ->//|h pb]]].
- by exists a; [left|].
- by exists b; [right|].
- by apply/orP; right; apply/IH; exists b.
Qed.
Lemma In_flatten (A : Type) (ss : seq (seq A)) a : List.In a (flatten ss) <-> exists2 s, List.In s ss & List.In a s.
Proof.
elim: ss => /= [|s ss IH]; first by split=> // -[].
rewrite List.in_app_iff; split=> [[h|/IH [t h1 h2]]|[t [<-|h1] h2]].
- by exists s; [left|].
- by exists t; [right|].
- by left.
- by right; apply/IH; exists t.
Qed.
Lemma map_In (A B : Type) (f : A -> B) s a : List.In a s -> List.In (f a) (map f s).
Proof. by elim: s => //= b s IH [->|/IH]; [left|right]. Qed.

Section Scores.
Variable F : fieldType.
Variable ds : seq nat.
Notation d l := (nth 0%N ds l). Notation nl := (size ds).
Notation rows := (seq (seq F)). Notation t2 := (t2 F). Notation item := (item F).

(* the metadata places the batches R at the positions of the global rows W *)
Definition placed (mp : dict nat_eqType (nat * nat)) (total : nat) (W : nat -> seq F) (R : seq (nat * rows)) : Prop :=
  (forall (b : nat) (V : rows), (b, V) \in R -> exists a, [/\ dget mp b = Some (a, a + size V)%N, (a + size V <= total)%N &
     forall r, (r < size V)%N -> nth [::] V r = W (a + r)%N]) /\
  (forall i, (i < total)%N -> exists b a e, [/\ b \in [seq x.1 | x <- R], dget mp b = Some (a, e) & (a <= i < e)%N]).

Section Two.
Variables (mp : dict nat_eqType (nat * nat)) (total : nat) (tests : t2) (W : nat -> seq F).
Notation n := (nrows tests).
Definition dotn (c : nat) (u v : seq F) : F := \sum_(k < c) nth 0 u k * nth 0 v k.
Definition target (ij : nat * nat) : F := dotn (sumn ds) (W ij.1) (nth [::] (t2r tests) ij.2).
Definition mk2 (f : nat * nat -> F) : rows := mk total n (fun i j => f (i, j)).
Definition dom2 (ij : nat * nat) := (ij.1 < total)%N && (ij.2 < n)%N.
Lemma mk2_ext f g : (forall ij, dom2 ij -> f ij = g ij) -> mk2 f = mk2 g.
Proof. by move=> H; apply: eq_mk => i j hi hj; apply: H; rewrite /dom2 /= hi hj. Qed.

Definition inb (ts te : nat) (e : nat * (nat * nat)) (ij : nat * nat) : bool :=
  if dget mp e.1 is Some ab then (ab.1 <= ij.1 < ab.2)%N && (ts <= ij.2 < te)%N else false.

Lemma score_blockE outs R (it : item) tb k f : holds ds outs R -> placed mp total W R -> List.In it outs ->
  t2c tests = sumn ds -> (k * tb <= n)%N ->
  score_block mp tests tb it (mk2 f) k =
  Ok (mk2 (fun ij => if has ((inb (k * tb) (minn (k * tb + tb) n))^~ ij) it.2 then target ij else f ij)).
Proof.
move=> [hc _ hp _] [pl _] hit ct kn; set ts := (k * tb)%N; set te := minn (ts + tb) n.
rewrite /score_block /matmul_t /= hc // ct eqxx /=.
apply: (rfold_upd mk2_ext) => e g he.
have eR : (e.1, rows_at it.1 e.2) \in R.
  rewrite -(perm_mem hp); apply/In_mem/In_flatten; exists (DiskSpec.contents it); first exact: map_In.
  exact: (map_In (fun e => (e.1, rows_at it.1 e.2))).
have [a [ea tot nW]] := pl _ _ eR; rewrite /inb ea.
set V := rows_at _ _ in ea tot nW *.
rewrite /put_block; set blk := DiskModel.slice _ _.
have eblk : blk = [seq [seq dotn (sumn ds) u v | v <- DiskModel.slice (ts, te) (t2r tests)] | u <- V].
  by rewrite /blk /V /DiskModel.slice /rows_at /= map_take map_drop.
have sV : size blk = size V by rewrite eblk size_map.
have st : size (mk2 g) = total by rewrite size_mkseq.
have okb : bc_ok (size blk) (slice_len (size (mk2 g)) a (a + size V)).
  rewrite sV st /bc_ok /slice_len; apply/orP; left; apply/eqP.
  by move: tot; clear; lia.
rewrite okb; congr Ok; rewrite /mk2 /mk mapi_mkseq; apply: eq_mkseq_lt => i it'.
case: ifP => ir; last by [].
rewrite mapi_mkseq; apply: eq_mkseq_lt => j jn /=; case: ifP => // jr.
rewrite sV (_ : bc_idx (size V) (i - a) = (i - a)%N); last first.
  by rewrite /bc_idx; case: eqP => // e1; move: ir e1; clear; lia.
have iV : (i - a < size V)%N by move: ir; clear; lia.
have jt : (j - ts < size (DiskModel.slice (ts, te) (t2r tests)))%N.
  by rewrite /DiskModel.slice /= size_takel ?size_drop; move: jr; rewrite /te /nrows; clear; lia.
rewrite eblk (nth_map [::]) // (nth_map [::]) // nW // /target /=; congr dotn.
  by congr W; move: ir; clear; lia.
rewrite /DiskModel.slice /= nth_take; last by move: jr; clear; lia.
by rewrite nth_drop; congr nth; move: jr; clear; lia.
Qed.

Lemma scoresE outs R : holds ds outs R -> placed mp total W R -> t2c tests = sumn ds -> (0 < n)%N ->
  scores mp total tests [seq Ok it | it <- outs] = Ok (mk2 target).
Proof.
move=> H P ct n0; rewrite /scores.
set tb := minn 32 n; set nb := ((n + tb).-1 %/ tb)%N.
have tb0 : (0 < tb)%N by rewrite /tb; lia.
have nbP k : (k < nb)%N -> (k * tb <= n)%N.
  rewrite /nb => kb; have := leq_trunc_div (n + tb).-1 tb => h.
  have : (k.+1 * tb <= (n + tb).-1 %/ tb * tb)%N by rewrite leq_mul2r kb orbT.
  by rewrite mulSn; lia.
have -> : nseq total (nseq n (0 : F)) = mk2 (fun=> 0) by rewrite -[nseq _ _]/(zeros2 F total n) zeros2_mk.
have stp (it : item) f : List.In it outs ->
    rfold (score_block mp tests tb it) (mk2 f) (iota 0 nb) =
    Ok (mk2 (fun ij => if has (fun k => has ((inb (k * tb) (minn (k * tb + tb) n))^~ ij) it.2) (iota 0 nb)
                       then target ij else f ij)).
  move=> hit; apply: (rfold_upd mk2_ext (p := fun k ij => has ((inb (k * tb) (minn (k * tb + tb) n))^~ ij) it.2)) => k g hk.
  by apply: (score_blockE _ H P) => //; apply: nbP; have := In_iota hk; lia.
have loop f : rfold (fun S r => rbind r (fun it => rfold (score_block mp tests tb it) S (iota 0 nb)))
     (mk2 f) [seq Ok it | it <- outs] =
   Ok (mk2 (fun ij => if has (fun it : item => has (fun k => has ((inb (k * tb) (minn (k * tb + tb) n))^~ ij) it.2) (iota 0 nb)) outs
                      then target ij else f ij)).
  have := @rfold_upd _ _ _ mk2 dom2 target mk2_ext _
    (fun S (it : item) => rfold (score_block mp tests tb it) S (iota 0 nb))
    (fun it ij => has (fun k => has ((inb (k * tb) (minn (k * tb + tb) n))^~ ij) it.2) (iota 0 nb)) outs f.
  move=> <-; last by move=> it g; apply: stp.
  by elim: (outs) (mk2 f) => //= it os IH S; case: (rfold _ _ _) => //=.
rewrite loop; congr Ok; apply: mk2_ext => -[i j] /andP [/= iT jn].
case: ifP => // /negP []; case: (P) => pl cv.
have [b [a [e [bR mb ir]]]] := cv i iT.
have [it hit be] : exists2 it, List.In it outs & b \in dkeys it.2.
  have : b \in [seq x.1 | x <- flatten [seq DiskSpec.contents it | it <- outs]].
    by rewrite (perm_mem (perm_map _ (h_perm H))).
  case/mapP => x /In_mem /In_flatten [s hs hx] ->; have [it hit es] := In_map hs.
  exists it => //; rewrite es in hx; have [y hy ->] := In_map hx; apply/In_mem; exact: map_In.
apply/has_In; exists it => //.
apply/has_In; exists (j %/ tb)%N.
  apply/In_mem; rewrite mem_iota /= add0n /nb leq_divRL // mulSn; have := leq_trunc_div j tb.
  by move: jn; clear; lia.
case/mapP: be => x xin bx; have [y hy ey] : exists2 y, List.In y it.2 & y.1 = b by exists x; [apply/In_mem|].
apply/has_In; exists y => //; rewrite /inb ey mb /= ir /=.
have := divn_eq j tb; have := ltn_pmod j tb0; move: jn; rewrite leq_min; lia.
Qed.
End Two.

(* self attribution: two lists of chunks with the same batches in the same places *)
Lemma rowdotsE c (A B : rows) : size A = size B ->
  rowdots (T2 c A) (T2 c B) = Ok (mkseq (fun i => dotn c (nth [::] A i) (nth [::] B i)) (size A)).
Proof.
move=> e; rewrite /rowdots /nrows /= e !eqxx /=; congr Ok.
have -> : (if size B == 1%N then size B else size B) = size B by case: ifP.
apply: eq_mkseq_lt => i iB; rewrite (_ : bc_idx (size B) i = i); last first.
  by rewrite /bc_idx; case: eqP => // e1; move: iB; rewrite e1; case: i.
have -> : (if c == 1%N then c else c) = c by case: ifP.
apply: eq_bigr => j _; rewrite (_ : bc_idx c j = j) //.
by rewrite /bc_idx; case: eqP => // e1; case: j => j; rewrite /= e1; case: j.
Qed.
Section Self.
Variables (mp : dict nat_eqType (nat * nat)) (total : nat) (U W : nat -> seq F).
Definition starget (i : nat) : F := dotn (sumn ds) (U i) (W i).
Notation mk1 := (fun f : nat -> F => mkseq f total).
Lemma mk1_ext (f g : nat -> F) : (forall i, (i < total)%N -> f i = g i) -> mk1 f = mk1 g.
Proof. exact: eq_mkseq_lt. Qed.
Definition ins (e : nat * (nat * nat)) (i : nat) : bool :=
  if dget mp e.1 is Some ab then (ab.1 <= i < ab.2)%N else false.
Lemma self_scoresE og oi Rg Ri : holds ds og Rg -> holds ds oi Ri ->
  placed mp total U Rg -> placed mp total W Ri ->
  [seq dkeys it.2 | it <- og] = [seq dkeys it.2 | it <- oi] ->
  self_scores mp total [seq Ok it | it <- og] [seq Ok it | it <- oi] = Ok (mkseq starget total).
Proof.
move=> Hg Hi Pg Pi ek; rewrite /self_scores nseq_mkseq.
have szo : size og = size oi by rewrite -(size_map (fun it : item => dkeys it.2)) ek size_map.
have zE : zip [seq Ok it | it <- og] [seq Ok it | it <- oi] = [seq (Ok p.1, Ok p.2) | p <- zip og oi].
  by elim: (og) (oi) => [|a s IH] [|b s'] //=; rewrite IH.
have zP (p : item * item) : List.In p (zip og oi) ->
    [/\ List.In p.1 og, List.In p.2 oi & dkeys p.1.2 = dkeys p.2.2].
  elim: (og) (oi) ek => [|a s IH] [|b s'] //= [ek1 ek2] [<-|h]; first by split; [left|left|].
  by have [] := IH _ ek2 h; split=> //; right.
have entry o R (it : item) e : holds ds o R -> List.In it o -> List.In e it.2 -> (e.1, rows_at it.1 e.2) \in R.
  move=> [_ _ hp _] hit he; rewrite -(perm_mem hp); apply/In_mem/In_flatten.
  by exists (DiskSpec.contents it); [exact: map_In|exact: (map_In (fun e => (e.1, rows_at it.1 e.2)))].
have uk o R (it : item) : holds ds o R -> List.In it o -> uniq (dkeys it.2).
  move=> [_ _ _ hu]; elim: o hu => //= a s IH; rewrite cat_uniq => /and3P [u1 _ u2] [<-//|]; exact: IH.
have stp (p : item * item) f : List.In p (zip og oi) ->
   rfold (fun S (e : nat * (nat * nat)) =>
      match dget mp e.1, dget p.2.2 e.1 with
      | Some (a, b), Some se => rbind (rowdots (trows p.1.1 e.2) (trows p.2.1 se)) (fun v => put_vec a b v S)
      | _, _ => Ok S
      end) (mk1 f) p.1.2 =
   Ok (mk1 (fun i => if has (ins^~ i) p.1.2 then starget i else f i)).
  move=> hp; have [hg hi kk] := zP p hp.
  apply: (rfold_upd mk1_ext) => e g he.
  have eR := entry _ _ _ _ Hg hg he.
  have ek' : e.1 \in dkeys p.2.2 by rewrite -kk; apply/In_mem; exact: map_In.
  have [se ge] : exists se, dget p.2.2 e.1 = Some se.
    by have := dget_has p.2.2 e.1; rewrite /dhas ek'; case: dget => // se _; exists se.
  have sin : List.In (e.1, se) p.2.2.
    elim: (p.2.2) ge => //= -[k v] s IH; rewrite dget_cons; case: eqP => [-> [->]|_ /IH]; [by left|by right].
  have eI := entry _ _ _ _ Hi hi sin.
  have [a [ea tot nU]] := Pg.1 e.1 (rows_at p.1.1 e.2) eR; have [a' [ea' tot' nW]] := Pi.1 e.1 (rows_at p.2.1 se) eI.
  move: ea'; rewrite /= ea => -[e1 e2]; rewrite -e1 in nW e2; clear a' tot' e1.
  have sz : size (rows_at p.1.1 e.2) = size (rows_at p.2.1 se) by move: e2; clear; lia.
  rewrite ge /ins ea /trows (h_cols Hg hg) (h_cols Hi hi).
  rewrite -[DiskModel.slice e.2 _]/(rows_at p.1.1 e.2) -[DiskModel.slice se _]/(rows_at p.2.1 se) rowdotsE //=.
  rewrite /put_vec !size_mkseq (_ : bc_ok _ _ = true); last first.
    suff -> : slice_len total a (a + size (rows_at p.1.1 e.2)) = size (rows_at p.1.1 e.2) by rewrite /bc_ok eqxx.
    move: tot; rewrite /slice_len; move: (size _) => N; clear; lia.
  congr Ok; rewrite mapi_mkseq; apply: eq_mkseq_lt => i iT; case: ifP => // ir.
  rewrite (_ : bc_idx _ _ = (i - a)%N); last by rewrite /bc_idx; case: eqP => // e1; move: ir e1; clear; lia.
  rewrite nth_mkseq; last by move: ir; clear; lia.
  rewrite nU ?nW; try by move: ir sz; clear; lia.
  by rewrite /starget (_ : (a + (i - a))%N = i) //; move: ir; clear; lia.
rewrite zE.
have -> : rfold (fun S ab => rbind ab.1 (fun gi => rbind ab.2 (fun fi =>
    rfold (fun S (e : nat * (nat * nat)) =>
      match dget mp e.1, dget fi.2 e.1 with
      | Some (a, b), Some se => rbind (rowdots (trows gi.1 e.2) (trows fi.1 se)) (fun v => put_vec a b v S)
      | _, _ => Ok S
      end) S gi.2))) (mk1 (fun=> 0)) [seq (Ok p.1, Ok p.2) | p <- zip og oi] =
   Ok (mk1 (fun i => if has (fun p : item * item => has (ins^~ i) p.1.2) (zip og oi) then starget i else 0)).
  have := @rfold_upd _ _ _ mk1 (fun i => (i < total)%N) starget mk1_ext _
    (fun S (p : item * item) => rfold (fun S (e : nat * (nat * nat)) =>
      match dget mp e.1, dget p.2.2 e.1 with
      | Some (a, b), Some se => rbind (rowdots (trows p.1.1 e.2) (trows p.2.1 se)) (fun v => put_vec a b v S)
      | _, _ => Ok S
      end) S p.1.2) (fun p i => has (ins^~ i) p.1.2) (zip og oi) (fun=> 0).
  move=> <-; last by move=> p g; apply: stp.
  by elim: (zip og oi) (mk1 _) => //= p os IH S; case: (rfold _ _ _) => //=.
congr Ok; apply: mk1_ext => i iT; case: ifP => // /negP [].
have [b [a [e [bR mb ir]]]] := Pg.2 i iT.
have : b \in [seq x.1 | x <- flatten [seq DiskSpec.contents it | it <- og]].
  by rewrite (perm_mem (perm_map _ (h_perm Hg))).
case/mapP => x /In_mem /In_flatten [s hs hx] ex; have [it hit es] := In_map hs.
rewrite es in hx; have [y hy xy] := In_map hx.
have [p hp pit] : exists2 p, List.In p (zip og oi) & p.1 = it.
  elim: (og) (oi) szo hit => [|c o IH] [|c' o'] //= [sz] [->|h]; first by exists (it, c'); [left|].
  by have [p h1 h2] := IH _ sz h; exists p; [right|].
apply/has_In; exists p => //; rewrite pit; apply/has_In; exists y => //.
have ey : y.1 = b by rewrite ex xy.
by rewrite /ins ey mb.
Qed.
End Self.
End Scores.
