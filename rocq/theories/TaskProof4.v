(* get_param: selection of layers and the map from parameters to layers. *)
Set Warnings "-notation-overridden,-ambiguous-paths".
From mathcomp Require Import all_ssreflect all_algebra zify.
From Verif Require Import Py Dict TaskModel TaskSpec TaskProof TaskProof2.
Set Implicit Arguments. Unset Strict Implicit. Unset Printing Implicit Defensive.

Section Param.
Variables (A : eqType) (F : Type) (dot : A).
Local Notation name := (name A).
Local Notation params := (params A F).
Implicit Types (ps : params) (l : option (lname A)).

Lemma layer_map_fromE (cur : name) idx ks :
  layer_map_from dot (Some cur) idx.+1 ks
  = mkseq (fun i => idx + ((cur != layer_of dot (nth [::] ks 0)) +
      \sum_(t < i) (layer_of dot (nth [::] ks t) != layer_of dot (nth [::] ks t.+1)))) (size ks).
Proof.
elim: ks cur idx => [|k ks IH] cur idx //.
have -> : layer_map_from dot (Some cur) idx.+1 (k :: ks)
  = (idx + (cur != layer_of dot k)) :: layer_map_from dot (Some (layer_of dot k)) (idx + (cur != layer_of dot k)).+1 ks.
  rewrite /= (_ : (Some cur == Some (layer_of dot k)) = (cur == layer_of dot k)) //.
  by case: eqP => _ /=; rewrite ?addn0 ?addn1.
rewrite IH /mkseq /= big_ord0 addn0; congr (_ :: _).
rewrite (iotaDl 1 0) -map_comp; apply/eq_in_map => i; rewrite mem_iota add0n /= => hi.
rewrite add1n big_ord_recl /= -!addnA; congr (_ + (_ + _)).
Qed.
Lemma layer_mapE ks : layer_map dot ks = mkseq (layer_index dot ks) (size ks).
Proof.
case: ks => [|k ks] //; rewrite /layer_map /= layer_map_fromE /mkseq /=.
rewrite /layer_index big_ord0; congr (_ :: _).
rewrite (iotaDl 1 0) -map_comp; apply/eq_in_map => i; rewrite mem_iota add0n /= => hi.
by rewrite add0n add1n big_ord_recl.
Qed.

Lemma first_occ_rcons L (k : name) :
  first_occ (rcons L k) = if k \in L then first_occ L else rcons (first_occ L) k.
Proof. by rewrite /first_occ rev_rcons /= mem_rev; case: ifP => // _; rewrite rev_cons. Qed.
Lemma mem_first_occ L : first_occ L =i (L : seq name).
Proof. by move=> k; rewrite /first_occ mem_rev mem_undup mem_rev. Qed.
Lemma uniq_first_occ (L : seq name) : uniq (first_occ L).
Proof. by rewrite /first_occ rev_uniq undup_uniq. Qed.
Lemma first_occ_id (L : seq name) : uniq L -> first_occ L = L.
Proof. by move=> u; rewrite /first_occ undup_id ?rev_uniq // revK. Qed.

Definition sel_fold (ps : params) (L : seq name) : params :=
  foldl (fun d k => if dget ps k is Some t then dset d k t else d) [::] L.
Lemma sel_foldE ps L :
  dkeys (sel_fold ps L) = first_occ [seq k <- L | k \in dkeys ps]
  /\ forall k, dget (sel_fold ps L) k = if k \in L then dget ps k else None.
Proof.
elim/last_ind: L => [|L k [e1 e2]] //; rewrite /sel_fold -cats1 foldl_cat /= -/(sel_fold ps L).
rewrite filter_cat /=; have := dget_has ps k; rewrite /dhas -/(dkeys ps).
case e: (dget ps k) => [t|] => -> /=; split.
- rewrite dkeys_set e1 /dhas -/(dkeys (sel_fold ps L)) e1 mem_first_occ cats1 first_occ_rcons //.
- move=> k'; rewrite dgetE e2 mem_cat inE orbC; case: (k' =P k) => [->|] //=.
- by rewrite e1 cats0.
- move=> k'; rewrite e2 mem_cat inE orbC; case: (k' =P k) => [->|] //=.
  by rewrite e; case: ifP.
Qed.

Lemma sel_keys ps l : uniq (dkeys ps) -> dkeys (select ps l) = selected ps l.
Proof. by case: l => // l _; case: (sel_foldE ps (names_of l)). Qed.
Lemma uniq_selected (ps : params) l : uniq (dkeys ps) -> uniq (selected ps l).
Proof. by case: l => //= l _; exact: uniq_first_occ. Qed.
Lemma vals_keys (ps : params) : uniq (dkeys ps) ->
  [seq t_data p.2 | p <- ps] = [seq data ps k | k <- dkeys ps].
Proof.
elim: ps => //= -[a q] d IH /= /andP [na ud]; rewrite IH // data_cons /= eqxx.
congr (_ :: _); apply/eq_in_map => k hk; rewrite data_cons /=; by case: (a =P k) na => // ->; rewrite hk.
Qed.
Lemma sel_vals ps l : uniq (dkeys ps) ->
  [seq t_data p.2 | p <- select ps l] = [seq data ps k | k <- selected ps l].
Proof.
move=> u; rewrite vals_keys; last by rewrite sel_keys // uniq_selected.
rewrite sel_keys //; apply/eq_in_map => k hk.
case: l hk => //= l; rewrite mem_first_occ mem_filter => /andP [_ hk].
by rewrite /data -/(sel_fold ps (names_of l)) (sel_foldE ps (names_of l)).2 hk.
Qed.

Lemma size_select ps l : uniq (dkeys ps) -> size (select ps l) = size (selected ps l).
Proof. by move=> u; rewrite -sel_keys // /dkeys size_map. Qed.

Definition param_of (ps : params) l (split : bool) (pm : option (seq nat)) : res (pval F) :=
  if split then
    match pm with
    | Some (i :: pm') =>
      if size (i :: pm') != size (select ps l) then Err ValueError
      else Ok (PTuple [seq t_data p.2 | p <- select ps l] (i :: pm'))
    | _ => Ok (PTuple [seq t_data p.2 | p <- select ps l] (layer_map dot (dkeys (select ps l))))
    end
  else rmap (@PFlat F) (flatten_params (select ps l)).
Lemma param_ofE ps l split pm : uniq (dkeys ps) -> param_of ps l split pm = param_spec dot ps l split pm.
Proof.
move=> u; rewrite /param_of /param_spec; case: split.
  rewrite sel_vals // layer_mapE sel_keys // size_select //.
  by case: pm => [[|i pm]|] //=; case: eqP.
have := sel_vals l u; have := sel_keys l u.
case: (select ps l) => [|p d] /=; first by move=> <-.
by case: (selected ps l) => [|k ks] //= _ [-> ->].
Qed.
End Param.
