(* Python dictionaries: association lists in insertion order with distinct keys. *)
Set Warnings "-notation-overridden,-ambiguous-paths".
From mathcomp Require Import all_ssreflect.
Set Implicit Arguments. Unset Strict Implicit. Unset Printing Implicit Defensive.

Section Dict.
Variables (K : eqType) (V : Type).
Definition dict := seq (K * V).
Implicit Type d : dict.

(* d.get(k) *)
Definition dget d k : option V := if [seq p <- d | p.1 == k] is p :: _ then Some p.2 else None.
(* k in d *)
Definition dhas d k : bool := k \in [seq p.1 | p <- d].
(* list(d.keys()), list(d.values()) *)
Definition dkeys d : seq K := [seq p.1 | p <- d].
Definition dvals d : seq V := [seq p.2 | p <- d].
(* d[k] = v: in place if present, else appended *)
Definition dset d k v : dict :=
  if dhas d k then [seq if p.1 == k then (k, v) else p | p <- d] else rcons d (k, v).
(* d.pop(k, None) *)
Definition ddel d k : dict := [seq p <- d | p.1 != k].

Lemma dget_has d k : dhas d k = (if dget d k is Some _ then true else false).
Proof.
rewrite /dhas /dget; elim: d => //= -[k' v'] d IH /=; rewrite inE [k == _]eq_sym.
by case: (k' == k).
Qed.
Lemma dget_cons k v d k' : dget ((k, v) :: d) k' = if k == k' then Some v else dget d k'.
Proof. by rewrite /dget /=; case: (k == k'). Qed.
Lemma dget_rcons d k v k' : ~~ dhas d k ->
  dget (rcons d (k, v)) k' = if k' == k then Some v else dget d k'.
Proof.
elim: d => [|[a b] d IH] /= h; first by rewrite dget_cons eq_sym.
move: h; rewrite /dhas /= inE negb_or => /andP [ak h]; rewrite !dget_cons IH //.
by case: (a =P k') => [<-|//]; rewrite eq_sym (negbTE ak).
Qed.
Lemma dgetE d k k' v : dget (dset d k v) k' = if k' == k then Some v else dget d k'.
Proof.
rewrite /dset; case: ifP => [h|/negbT]; last exact: dget_rcons.
elim: d h => // -[a b] d IH; rewrite /dhas /= inE => h.
case: (a =P k) h => [-> _|ak h] /=.
  rewrite !dget_cons eq_sym; case: ifP => // kk.
  elim: {IH} d => // -[a' b'] d IH /=; case: (a' =P k) => [->|_]; rewrite !dget_cons ?IH ?[k == k']eq_sym ?kk //.
rewrite !dget_cons; case: (a =P k') => [e|_].
  by rewrite -e; case: (a =P k).
by apply: IH; rewrite /dhas; case/orP: h => // /eqP e; case: ak.
Qed.
Lemma dkeys_set d k v : dkeys (dset d k v) = if dhas d k then dkeys d else rcons (dkeys d) k.
Proof.
rewrite /dset; case: ifP => h; last by rewrite /dkeys map_rcons.
rewrite /dkeys -map_comp; apply: eq_map => -[a b] /=; by case: eqP.
Qed.
Lemma uniq_dset d k v : uniq (dkeys d) -> uniq (dkeys (dset d k v)).
Proof. by move=> u; rewrite dkeys_set; case: ifP => // /negbT h; rewrite rcons_uniq u andbT. Qed.
Lemma dhas_set d k v k' : dhas (dset d k v) k' = (k' == k) || dhas d k'.
Proof. by rewrite !dget_has dgetE; case: (k' == k). Qed.
Lemma dget_del d k k' : dget (ddel d k) k' = if k' == k then None else dget d k'.
Proof.
elim: d => [|[a b] d IH] /=; first by case: ifP.
rewrite /ddel /=; case: (a =P k) => [->|ak] /=; rewrite -/(ddel d k).
  by rewrite IH dget_cons eq_sym; case: (k =P k').
rewrite !dget_cons IH; case: (a =P k') => [<-|//]; by case: eqP.
Qed.
Lemma uniq_ddel d k : uniq (dkeys d) -> uniq (dkeys (ddel d k)).
Proof.
have -> : dkeys (ddel d k) = [seq a <- dkeys d | a != k] by rewrite /dkeys filter_map.
exact: filter_uniq.
Qed.
Lemma dget_mem d k v : dget d k = Some v -> k \in dkeys d.
Proof. by move=> e; have := dget_has d k; rewrite e. Qed.
Lemma dget_in d p : uniq (dkeys d) -> List.In p d -> dget d p.1 = Some p.2.
Proof.
elim: d => // -[a b] d IH /= /andP [na u] [<-|h]; rewrite dget_cons ?eqxx //.
case: (a =P p.1) => [e|_]; last exact: IH.
case/negP: na; rewrite e; elim: {IH u} d h => //= q d IH [->|h]; first by rewrite inE eqxx.
by rewrite inE IH // orbT.
Qed.
End Dict.
