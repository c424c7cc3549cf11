(* Lemmas about the in-memory stores: concatenation, splitting, histories. *)
Set Warnings "-notation-overridden,-ambiguous-paths".
From mathcomp Require Import all_ssreflect all_algebra zify.
From Verif Require Import Py Dict Tensor TensorProof OffModel OffSpec.
Set Implicit Arguments. Unset Strict Implicit. Unset Printing Implicit Defensive.

Section Proof.
Variables (T P : Type) (z : T).
Notation gr := (gr T). Notation t2 := (t2 T). Notation off := (off T P).
Implicit Types (g : gr) (gs : seq gr) (ds : seq nat).

Lemma nonemptyE g : nonempty g = if is_none g then Err AttributeError else Ok (full g).
Proof. by case: g => //= t; rewrite /nrows muln_gt0 !lt0n. Qed.

Lemma detectE gs : detect_dims gs =
  if has (@is_none T) gs then Err AttributeError else Ok [seq (if full g then gcols g else 0) | g <- gs].
Proof.
rewrite /detect_dims; elim: gs => //= g gs IH; rewrite nonemptyE.
case: (boolP (is_none g)) => //= ng; rewrite IH; case: (has _ gs) => //=.
by case: g ng => //= t _.
Qed.

Lemma ensureE d gs : ensure_dims d gs = if dims_step d gs is Some ds then Ok ds else Err AttributeError.
Proof. by case: d => //=; rewrite detectE; case: (has _ gs). Qed.

Lemma first_rowsE gs : first_rows gs =
  if is_none (nth G1 gs (find (fun g => is_none g || full g) gs)) then Err AttributeError
  else Ok (nsamples gs).
Proof.
elim: gs => //= g gs IH; rewrite nonemptyE /nsamples /=.
case: g => [|//|t] //=.
by case: ifP => //= h; rewrite IH.
Qed.

Lemma nsamples_gt0 gs : has (@full T) gs -> 0 < nsamples gs.
Proof.
elim: gs => //= g gs IH; rewrite /nsamples /=; case: (boolP (full g)) => [|_ /=]; last by move/IH.
by case: g => //= t /andP [h _] _; rewrite lt0n.
Qed.
Lemma nsamples0 gs : ~~ has (@full T) gs -> nsamples gs = 0.
Proof. by move=> h; rewrite /nsamples nth_default // leqNgt -has_find. Qed.

(* matrices given by a function *)
Definition mkT (n m : nat) (f : nat -> nat -> T) : seq (seq T) := mkseq (fun i => mkseq (f i) m) n.
Lemma put_cols_mk bs n s d t f : s + d <= n ->
  put_cols z bs s d t (mkT bs n f) =
  if bc_ok (nrows t) bs && bc_ok (t2c t) d
  then Ok (mkT bs n (fun i j => if s <= j < s + d
         then gat z (G2 t) (bc_idx (nrows t) i) (bc_idx (t2c t) (j - s)) else f i j))
  else Err RuntimeError.
Proof.
move=> sd; rewrite /put_cols; case: ifP => // _; congr Ok.
by rewrite /mkT mapi_mkseq; apply: eq_mkseq => i; rewrite mapi_mkseq.
Qed.

(* effect of the filling loop *)
Fixpoint lay gs ds s (f : nat -> nat -> T) : nat -> nat -> T :=
  match gs, ds with
  | g :: gs', d :: ds' =>
    lay gs' ds' (s + d) (fun i j => if full g && (s <= j < s + d)
      then gat z g (bc_idx (grows g) i) (bc_idx (gcols g) (j - s)) else f i j)
  | _, _ => f
  end.
Lemma lay_ext gs ds s f f' i j : f i j = f' i j -> lay gs ds s f i j = lay gs ds s f' i j.
Proof.
elim: gs ds s f f' => [|g gs IH] [|d ds] //= s f f' e.
by apply: IH; rewrite e.
Qed.
Lemma lay_before gs ds s f i j : j < s -> lay gs ds s f i j = f i j.
Proof.
elim: gs ds s f => [|g gs IH] [|d ds] //= s f js; rewrite IH; last lia.
by rewrite leqNgt js andbF.
Qed.

Lemma fillE bs gs ds s n f : s + sumn ds <= n ->
  rfold (fun sr gd =>
    rbind (nonempty gd.1) (fun b =>
    rbind (if b then if gd.1 is G2 t then put_cols z bs sr.1 gd.2 t sr.2 else Ok sr.2 else Ok sr.2)
          (fun r => Ok (sr.1 + gd.2, r)))) (s, mkT bs n f) (zip gs ds) =
  let ps := zip gs ds in
  let j := find (fun p => ~~ fits bs p.2 p.1) ps in
  if j == size ps then Ok (s + sumn (take (size gs) ds), mkT bs n (lay gs ds s f))
  else if is_none (nth G1 gs j) then Err AttributeError else Err RuntimeError.
Proof.
elim: gs ds s f => [|g gs IH] [|d ds] s f //= h; rewrite ?addn0 //.
rewrite nonemptyE.
have [ng|ng] := boolP (is_none g); first by rewrite /fits ng /= ng.
have [fg|fg] := boolP (full g); last first.
  have -> : fits bs d g by rewrite /fits ng (negbTE fg).
  rewrite /= IH /=; last lia.
  by rewrite addnA.
case: g ng fg => // t _ fg; rewrite put_cols_mk; last lia.
have e : fits bs d (G2 t) = bc_ok (nrows t) bs && bc_ok (t2c t) d.
  by rewrite /fits fg.
rewrite e; case: ifP => //= _; rewrite IH /=; last lia.
by rewrite addnA.
Qed.

Lemma stored_at_cons g gs l r c : stored_at z (g :: gs) l.+1 r c = stored_at z gs l r c.
Proof. by []. Qed.
Lemma lay_flat gs ds s i f : (forall j, f i j = z) ->
  mkseq (fun j => lay gs ds s f i (s + j)) (sumn ds) = flat_row z ds gs i.
Proof.
elim: ds gs s f => [|d ds IH] gs s f fz //=.
rewrite /flat_row /= /mkseq iotaD map_cat add0n.
congr (_ ++ _); last first.
  have -> : iota d (sumn ds) = [seq d + x | x <- iota 0 (sumn ds)] by rewrite -{1}[d]addn0 iotaDl.
  rewrite -!map_comp; case: gs => [|g gs].
    have -> : [seq ((fun j => lay [::] (d :: ds) s f i (s + j)) \o addn d) x | x <- iota 0 (sumn ds)]
       = mkseq (fun j => lay [::] ds (s + d) f i (s + d + j)) (sumn ds).
      by apply: eq_map => j /=; rewrite !fz; case: (ds) => //=; rewrite fz.
    rewrite IH // /flat_row; congr flatten.
    have -> : iota 1 (size ds) = [seq 1 + x | x <- iota 0 (size ds)] by rewrite -{1}[1]addn0 iotaDl.
    rewrite -map_comp; apply: eq_map => l /=; apply: eq_map => c.
    by rewrite /stored_at !nth_nil.
  have -> : [seq ((fun j => lay (g :: gs) (d :: ds) s f i (s + j)) \o addn d) x | x <- iota 0 (sumn ds)]
     = mkseq (fun j => lay gs ds (s + d) f i (s + d + j)) (sumn ds).
    apply: eq_map => j /=; rewrite addnA; apply: lay_ext.
    by rewrite [s + d + j < s + d]ltnNge leq_addr andbF andbF.
  rewrite IH // /flat_row; congr flatten.
  have -> : iota 1 (size ds) = [seq 1 + x | x <- iota 0 (size ds)] by rewrite -{1}[1]addn0 iotaDl.
  by rewrite -map_comp; apply: eq_map.
apply/eq_in_map => j; rewrite mem_iota /= => jd.
case: gs => [|g gs] /=; first by rewrite fz /stored_at.
rewrite lay_before; last lia.
have -> : s <= s + j < s + d by lia.
rewrite andbT /stored_at /= addKn; case: (full g) => //.
Qed.

Lemma concatenateE d gs ds : dims_step d gs = Some ds ->
  concatenate z ds gs = if accepted d gs then Ok (T2 (sumn ds) (flat_batch z ds gs))
                        else if outcome d gs is Err e then Err e else Err AttributeError.
Proof.
move=> e; rewrite /concatenate /accepted /outcome e first_rowsE.
case: ifP => //= _.
have [hf|nf] := boolP (has (@full T) gs); last by rewrite /= /flat_batch nsamples0.
have pos := nsamples_gt0 hf; rewrite -[_ == 0]negbK -lt0n pos /=.
have -> : nseq (nsamples gs) (nseq (sumn ds) z) = mkT (nsamples gs) (sumn ds) (fun _ _ => z).
  by rewrite /mkT !nseq_mkseq.
rewrite /fill fillE //=; set j := find _ _.
case: ifP => //= _; last by case: ifP.
congr (Ok (T2 _ _)); rewrite /mkT /flat_batch; apply: eq_mkseq => i.
by rewrite -(@lay_flat gs ds 0 i (fun _ _ => z)).
Qed.

(* splitting the concatenation *)
Lemma size_flat_row ds gs r : size (flat_row z ds gs r) = sumn ds.
Proof.
rewrite /flat_row size_flatten /shape /mkseq -map_comp; congr sumn.
rewrite -[RHS](mkseq_nth 0) /mkseq; apply: eq_map => l /=; by rewrite size_map size_iota.
Qed.
Lemma split_fromE s ds n (pre : nat -> seq T) (seg : nat -> nat -> nat -> T) :
  (forall r, size (pre r) = s) ->
  forall N, s + sumn ds <= N ->
  split_from s ds (T2 N (mkseq (fun r =>
     pre r ++ flatten (mkseq (fun l => mkseq (fun c => seg l r c) (nth 0 ds l)) (size ds))) n)) =
  mkseq (fun l => G2 (T2 (nth 0 ds l) (mkseq (fun r => mkseq (fun c => seg l r c) (nth 0 ds l)) n))) (size ds).
Proof.
elim: ds s pre seg => [|d ds IH] s pre seg sp N h //=.
rewrite /mkseq /= -/(mkseq _ _); congr (_ :: _).
  rewrite /cols /= /slice_len; congr (G2 (T2 _ _)); first by rewrite /=; move: h => /=; lia.
  rewrite /mkseq -map_comp; apply: eq_map => r /=.
  rewrite drop_size_cat // addKn take_size_cat //.
  by rewrite size_map size_iota.
have e1 : iota 1 (size ds) = [seq 1 + x | x <- iota 0 (size ds)] by rewrite -{1}[1]addn0 iotaDl.
have := IH (s + d) (fun r => pre r ++ mkseq (fun c => seg 0 r c) d) (fun l => seg l.+1).
move=> /(_ _ N) IH'; rewrite /mkseq in IH'.
rewrite e1 -map_comp.
rewrite -IH'; first (congr (split_from _ _ (T2 _ _)); apply: eq_map => r; rewrite -catA; congr (_ ++ (_ ++ flatten _))).
- by rewrite -map_comp.
- by move=> r; rewrite size_cat sp size_map size_iota.
- by move: h => /=; lia.
Qed.
Lemma split_flat ds gs : split_from 0 ds (T2 (sumn ds) (flat_batch z ds gs)) = layer_tensors z ds gs.
Proof.
have := @split_fromE 0 ds (nsamples gs) (fun=> [::]) (fun l r c => stored_at z gs l r c).
by move=> /(_ (fun _ => erefl) (sumn ds)); apply.
Qed.

(* histories *)
Definition rel (o : off) (d : option (seq nat)) (acc : kind -> nat -> option (seq gr)) : Prop :=
  [/\ o_dims o = d,
      forall k b, dget (dict_of k o) b =
        omap (fun gs => T2 (sumn (odflt [::] d)) (flat_batch z (odflt [::] d) gs)) (acc k b),
      d = None -> forall k b, acc k b = None &
      forall k, uniq (dkeys (dict_of k o))].

Lemma same_kindP a b : reflect (a = b) (same_kind a b).
Proof. by case: a; case: b; constructor. Qed.
Lemma dget_set_batch k b t (o : off) k' b' :
  dget (dict_of k' (set_batch k b t o)) b' =
  if same_kind k k' && (b' == b) then Some t else dget (dict_of k' o) b'.
Proof. by case: k; case: k' => //=; rewrite dgetE. Qed.

Lemma storeE k b gs (o : off) : store z k b gs o =
  match outcome (o_dims o) gs with
  | Ok _ => let ds := odflt [::] (dims_step (o_dims o) gs) in
            (set_batch k b (T2 (sumn ds) (flat_batch z ds gs)) (set_dims (Some ds) o), Ok tt)
  | Err e => (set_dims (dims_step (o_dims o) gs) o, Err e)
  end.
Proof.
rewrite /store ensureE.
case e : (dims_step (o_dims o) gs) => [ds|]; last first.
  rewrite /outcome e; congr (_, _).
  by case: o e => [] [|] //=.
rewrite (concatenateE e) /accepted.
by case: (outcome _ _).
Qed.

Lemma dims_step_some d gs ds : d = Some ds -> dims_step d gs = Some ds.
Proof. by move=> ->. Qed.

Lemma rel_store o d acc k b gs : rel o d acc ->
  rel (store z k b gs o).1 (dims_step d gs)
      (fun k' b' => if same_kind k k' && (b == b') && accepted d gs then Some gs else acc k' b').
Proof.
case=> od ev no un; rewrite storeE od /accepted.
have keep : forall ds, dims_step d gs = Some ds -> d = None \/ d = Some ds.
  by case: (d) => [ds0|] ds /=; [move=> [<-]; right|left].
have dict_eq : forall k' b', dget (dict_of k' o) b' =
    omap (fun gs0 => T2 (sumn (odflt [::] (dims_step d gs))) (flat_batch z (odflt [::] (dims_step d gs)) gs0)) (acc k' b').
  move=> k' b'; rewrite ev; case: (d) no => [ds0|] no //=.
  by rewrite (no erefl).
case oc : (outcome d gs) => [u|e] /=; last first.
  split=> //.
  - move=> k' b'; rewrite andbF /= -dict_eq; by case: k'.
  - by move=> e' k' b'; rewrite andbF; apply: no; case: (d) e'.
have [ds eds] : exists ds, dims_step d gs = Some ds.
  by move: oc; rewrite /outcome; case: (dims_step d gs) => // ds _; exists ds.
rewrite eds /=; split.
- by case: (k).
- move=> k' b'; rewrite dget_set_batch andbT [b == b']eq_sym.
  case: ifP => // _; have := dict_eq k' b'; rewrite eds /=.
  by case: k'.
- by [].
- move=> k'; have := un k'; case: (k); case: k' => //= u'; exact: uniq_dset.
Qed.

Variable nl : nat.
Lemma rel_clear o d acc : rel o d acc -> rel (clear nl o) d (fun _ _ => None).
Proof. by case=> od ev no un; split=> //; case. Qed.
Lemma rel_prec o d acc l p : rel o d acc -> rel (store_prec l p o) d acc.
Proof. by case=> od ev no un; split=> // -[] b; rewrite -ev. Qed.

Lemma rel_run h o d acc : rel o d acc ->
  rel (run z nl h o) (dims_of h d) (fun k b => lasts k b h d (acc k b)).
Proof.
elim: h o d acc => [|[k b gs|l p|] h IH] o d acc r //=.
- exact: (IH _ _ _ (rel_store k b gs r)).
- exact: (IH _ _ _ (rel_prec l p r)).
- exact: (IH _ _ _ (rel_clear r)).
Qed.
Lemma rel0 d : rel (off0 T P nl d) d (fun _ _ => None).
Proof. by split=> //; case. Qed.
Lemma rel_hist h d : rel (run z nl h (off0 T P nl d)) (dims_of h d) (fun k b => last_stored k b h d).
Proof. exact: rel_run (rel0 d). Qed.

(* preconditioners *)
Lemma size_prec h (o : off) : size (o_prec o) = nl -> size (o_prec (run z nl h o)) = nl.
Proof.
elim: h o => [|[k b gs|l p|] h IH] o s //=; apply: IH => //=.
- by rewrite storeE; case: (outcome _ _) => //= _; case: k.
- by case: ifP => // h'; rewrite size_set_nth -s; apply/maxn_idPr.
- by rewrite size_nseq.
Qed.
Lemma prec_run l h (o : off) : l < nl -> size (o_prec o) = nl ->
  nth None (o_prec (run z nl h o)) l = last_prec l h (nth None (o_prec o) l).
Proof.
move=> ln; elim: h o => [|[k b gs|l' p|] h IH] o s //=; rewrite IH //=.
- by rewrite storeE; case: (outcome _ _) => //= _; case: k.
- by rewrite storeE; case: (outcome _ _) => //= _; case: k.
- case: ifP => [h'|/negbT h']; first by rewrite nth_set_nth /= eq_sym.
  by case: eqP => // e; move: h'; rewrite e s ln.
- by case: ifP => // h'; rewrite size_set_nth -s; apply/maxn_idPr.
- by rewrite nth_nseq if_same.
- by rewrite size_nseq.
Qed.
End Proof.
