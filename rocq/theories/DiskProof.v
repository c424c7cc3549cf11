Set Warnings "-notation-overridden,-ambiguous-paths".
From mathcomp Require Import all_ssreflect zify.
From Verif Require Import Py Dict Tensor OffModel OffSpec DiskModel DiskSpec.
Set Implicit Arguments. Unset Strict Implicit. Unset Printing Implicit Defensive.

(* ------------------------------------------------------- dictionaries and counting *)
Section DictCount.
Variables (K : eqType) (V : Type) (E : Type).
Implicit Types (d : dict K V) (f : K * V -> seq E) (p : pred E).
Definition flat f d : seq E := flatten [seq f kv | kv <- d].
Lemma flat_cons f kv d : flat f (kv :: d) = f kv ++ flat f d. Proof. by []. Qed.
Lemma flat_rcons f d kv : flat f (rcons d kv) = flat f d ++ f kv.
Proof. by rewrite /flat map_rcons flatten_rcons. Qed.
Lemma ddel_id d k : k \notin dkeys d -> ddel d k = d.
Proof.
elim: d => [|[a v] d IH] //=; rewrite inE negb_or => /andP [ak nk].
by rewrite /ddel /= eq_sym ak -/(ddel d k) IH.
Qed.
Lemma count_ddel f p d k v : uniq (dkeys d) -> dget d k = Some v ->
  count p (flat f d) = count p (f (k, v)) + count p (flat f (ddel d k)).
Proof.
elim: d => [|[a w] d IH] //=; rewrite dget_cons => /andP [na u].
case: (a =P k) => [e [<-]|/eqP ak g].
  by rewrite /= ddel_id -?e // flat_cons count_cat.
by rewrite /= !flat_cons !count_cat IH //; lia.
Qed.
Lemma count_dset f p d k v : uniq (dkeys d) ->
  count p (flat f (dset d k v)) = count p (f (k, v)) + count p (flat f (ddel d k)).
Proof.
move=> u; rewrite /dset; case: ifP => h; last first.
  by rewrite flat_rcons count_cat ddel_id ?h //; [lia | apply/negbT].
elim: d u h => [|[a w] d IH] //= /andP [na u]; rewrite /dhas /= inE => h.
case: (a =P k) h => [e _|/eqP ak].
  rewrite flat_cons count_cat /=; congr (_ + _).
  rewrite ddel_id -?e //; congr (count p (flat f _)).
  rewrite -[RHS]map_id; elim: d na {IH u} => [|[b x] d IH] //=; rewrite inE negb_or => /andP [ab nd].
  by rewrite IH // [b == a]eq_sym (negbTE ab).
rewrite [k == a]eq_sym (negbTE ak) /= => h; rewrite !flat_cons count_cat IH //.
by rewrite /= count_cat; lia.
Qed.
Lemma all_dget (P : pred (K * V)) d k v : all P d -> dget d k = Some v -> P (k, v).
Proof.
elim: d => [|[a w] d IH] //= /andP [pa al]; rewrite dget_cons; case: eqP => [<- [<-]|_] //; exact: IH.
Qed.
Lemma all_dset (P : pred (K * V)) d k v : all P d -> P (k, v) -> all P (dset d k v).
Proof.
move=> al pk; rewrite /dset; case: ifP => _; last by rewrite all_rcons pk.
by elim: d al => [|[a w] d IH] //= /andP [pa al]; rewrite IH // andbT; case: eqP.
Qed.
Lemma all_ddel (P : pred (K * V)) d k : all P d -> all P (ddel d k).
Proof. by elim: d => [|[a w] d IH] //= /andP [pa al]; rewrite /ddel /=; case: ifP => _ //=; rewrite ?pa IH. Qed.
Lemma dget_In d k v : dget d k = Some v -> List.In (k, v) d.
Proof.
elim: d => [|[a w] d IH] //=; rewrite dget_cons; case: eqP => [-> [->]|_]; first by left.
by move=> /IH; right.
Qed.
Lemma In_ddel d k kv : List.In kv (ddel d k) -> List.In kv d.
Proof.
elim: d => [|[a w] d IH] //; rewrite /ddel /=; case: ifP => _ /=; last by move=> /IH; right.
by case=> [->|/IH]; [left|right].
Qed.
Lemma has_flat_dget f p d k v : dget d k = Some v -> has p (f (k, v)) -> has p (flat f d).
Proof.
elim: d => [|[a w] d IH] //=; rewrite dget_cons flat_cons has_cat; case: eqP => [<- [<-] ->|_] // g h.
by rewrite (IH g h) orbT.
Qed.
End DictCount.

Lemma has_flatten_ex (A E : Type) (f : A -> seq E) p (l : seq A) :
  has p (flatten [seq f a | a <- l]) -> exists2 a, List.In a l & has p (f a).
Proof.
elim: l => [|a l IH] //=; rewrite has_cat; case/orP => [h|/IH [x xl px]].
  by exists a => //; left.
by exists x => //; right.
Qed.
Lemma In_dget (K : eqType) V (d : dict K V) k v : uniq (dkeys d) -> List.In (k, v) d -> dget d k = Some v.
Proof. by move=> u h; rewrite (dget_in u h). Qed.

(* ------------------------------------------------------------- the stored entries *)
Section Entries.
Variable T : eqType.
Notation row := (seq T). Notation gr := (gr T). Notation dstate := (dstate T). Notation task := (task T).
Definition entry := prod_eqType (prod_eqType bool_eqType nat_eqType) (seq_eqType (seq_eqType T)).

Definition entp (k : bool) (rows : seq row) (info : binfo) : seq entry :=
  [seq ((k, x.1), slice x.2 rows) | x <- info].
Definition eb (kv : ckey * buf T) := entp kv.1.1 (b_rows kv.2) (b_info kv.2).
Definition et (t : task) := entp (t_key t).1 (t_rows t) (t_info t).
Definition ew (kv : nat * (task * nat)) := if kv.2.2 < 4 then et kv.2.1 else [::].
Definition ef (kv : fkey * file T) : seq entry :=
  if f_meta kv.2 is Some (MFull m) then entp kv.1.1 (f_data kv.2) (mt_info m) else [::].
Definition ents (s : dstate) : seq entry :=
  flat eb (d_bufs s) ++ flatten [seq et t | t <- d_queue s] ++ flat ew (d_busy s) ++ flat ef (d_disk s).

Lemma entp_nil k rows info : nilp (entp k rows info) = nilp info.
Proof. by case: info. Qed.
Lemma entp_min k rows info : ~~ nilp info ->
  has (fun e : entry => e.1 == (k, min_of [seq x.1 | x <- info])) (entp k rows info).
Proof.
move=> ni; have : min_of [seq x.1 | x <- info] \in [seq x.1 | x <- info].
  case: info ni => [|x info] //= _; rewrite /min_of /=.
  have H (l : seq nat) a : foldr minn a l \in a :: l.
    elim: l => [|c l IH]; rewrite /= ?inE //.
    have : minn c (foldr minn a l) \in [:: c; foldr minn a l].
      by rewrite !inE; case: (leqP c (foldr minn a l)) => ?; rewrite ?eqxx ?orbT.
    rewrite !inE => /orP [->|/eqP ->]; first by rewrite orbT.
    by move: IH; rewrite inE => /orP [->|->]; rewrite ?orbT.
  have := H [seq x.1 | x <- info] x.1; rewrite !inE.
  set m := foldr _ _ _ => hm; rewrite /minn; case: ifP => _; by [rewrite eqxx | rewrite hm].
case/mapP => x xi e; apply/hasP; exists ((k, x.1), slice x.2 rows); first by apply/mapP; exists x.
by rewrite /= e.
Qed.

(* ------------------------------------------------------------------ pieces *)
Variable ds : seq nat.
Notation W := (sumn ds).
Definition okp (rows : seq row) (info : binfo) : bool :=
  [&& all (fun r => size r == W) rows, all (fun x => x.2.1 < x.2.2 <= size rows) info &
      flatten [seq slice x.2 rows | x <- info] == rows].
Definition okfile (kv : fkey * file T) : bool :=
  if f_meta kv.2 is Some (MFull m) then
    [&& okp (f_data kv.2) (mt_info m), ~~ nilp (mt_info m),
        kv.1.2 == (min_of [seq x.1 | x <- mt_info m], max_of [seq x.1 | x <- mt_info m]),
        mt_shape m == (size (f_data kv.2), W) & mt_dims m == ds]
  else true.
Lemma slice_catl se (r1 r2 : seq row) : se.2 <= size r1 -> slice se (r1 ++ r2) = slice se r1.
Proof.
move=> h; rewrite /slice drop_cat; case: ltnP => h1; last first.
  have -> : se.2 - se.1 = 0 by lia.
  by rewrite !take0.
by rewrite takel_cat // size_drop; lia.
Qed.
Lemma entp_catl k (r1 r2 : seq row) info : all (fun x => x.2.1 < x.2.2 <= size r1) info ->
  entp k (r1 ++ r2) info = entp k r1 info.
Proof.
move=> al; apply/eq_in_map => x xi; rewrite slice_catl //.
by move/allP: al => /(_ x xi) /andP [].
Qed.
Lemma okp_add r1 r2 info b : okp r1 info -> all (fun r : row => size r == W) r2 -> 0 < size r2 ->
  okp (r1 ++ r2) (rcons info (b, (size r1, size r1 + size r2))).
Proof.
case/and3P => h1 h2 /eqP h4 h3 n0; rewrite /okp all_cat h1 h3 /= all_rcons size_cat /= leqnn andbT.
apply/andP; split.
  by apply/andP; split; [lia|apply: sub_all h2 => x /=; lia].
rewrite map_rcons -cats1 flatten_cat /= cats0 -[X in _ == X ++ _]h4; apply/eqP; congr (_ ++ _).
  congr flatten; apply/eq_in_map => x /(allP h2) /andP [_ h]; exact: slice_catl.
by rewrite /slice /= drop_size_cat // addKn take_size.
Qed.
Lemma entp_add k r1 (r2 : seq row) info b : all (fun x => x.2.1 < x.2.2 <= size r1) info ->
  entp k (r1 ++ r2) (rcons info (b, (size r1, size r1 + size r2))) = rcons (entp k r1 info) ((k, b), r2).
Proof.
move=> al; rewrite {1}/entp map_rcons -/(entp k _ info) entp_catl //; congr rcons.
by rewrite /slice /= addKn drop_size_cat // take_oversize.
Qed.
End Entries.
