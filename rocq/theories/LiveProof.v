(* Lemmas about the memory behind a task. *)
Set Warnings "-notation-overridden,-ambiguous-paths".
From mathcomp Require Import all_ssreflect zify.
From Verif Require Import Py Dict LiveModel LiveSpec.
Set Implicit Arguments. Unset Strict Implicit. Unset Printing Implicit Defensive.

Section Proof.
Variables (N : eqType) (V : Type) (mdl : dict N nat) (grad : nat -> bool).
Hypothesis um : uniq (dkeys mdl).
Local Notation cell := (cell mdl).
Local Notation group := (group mdl).
Local Notation load_sd := (load_sd mdl).

Lemma mem_get (p : N * nat) : p \in mdl -> dget mdl p.1 = Some p.2.
Proof.
move: um; elim: mdl => [//|[k a] l IH] /=; rewrite inE => /andP [nq ul].
rewrite dget_cons; case/orP => [/eqP ->|pl]; first by rewrite eqxx.
case: (k =P p.1) => [e|_]; last exact: IH.
by move/negP: nq; case; rewrite e; apply: map_f.
Qed.
Lemma mem_cell (p : N * nat) : p \in mdl -> cell p.1 = p.2.
Proof. by move=> h; rewrite /LiveSpec.cell (mem_get h). Qed.
Lemma mem_name (p : N * nat) : p \in mdl -> p.1 \in names mdl.
Proof. exact: map_f. Qed.
Lemma name_mem n : n \in names mdl -> (n, cell n) \in mdl.
Proof. by case/mapP => -[k a] h ->; rewrite (mem_cell h). Qed.
Lemma name_get n : n \in names mdl -> dget mdl n = Some (cell n).
Proof. by move/name_mem/mem_get. Qed.

Lemma groupE n : group n = [seq p.1 | p <- mdl & p.2 == cell n].
Proof.
rewrite /LiveSpec.group /names /dkeys filter_map; congr map.
by apply/eq_in_filter => p pm /=; rewrite mem_cell.
Qed.
Lemma mem_group n : n \in names mdl -> n \in group n.
Proof. by move=> h; rewrite mem_filter eqxx. Qed.
Lemma group_names n x : x \in group n -> x \in names mdl.
Proof. by rewrite mem_filter => /andP []. Qed.
Lemma group_cell n x : x \in group n -> cell x = cell n.
Proof. by rewrite mem_filter => /andP [/eqP]. Qed.
Lemma last_default (T : eqType) (x y : T) s : x \in s -> last x s = last y s.
Proof. by case: s. Qed.
Lemma head_default (T : eqType) (x y : T) s : x \in s -> head x s = head y s.
Proof. by case: s. Qed.

(* loading a checkpoint of its own tensors *)
Lemma load_list (ck : ckpt N V) val l m a : (forall p, p \in l -> dget ck p.1 = Some (Saved (val p.1))) ->
  foldl (load1 ck) m l a = if [seq p.1 | p <- l & p.2 == a] is x :: r then val (last x r) else m a.
Proof.
elim/last_ind: l => [//|l q IH] h.
rewrite -cats1 foldl_cat /= /load1 h ?mem_rcons ?inE ?eqxx //= /upd eq_sym filter_cat map_cat /=.
case: eqP => [e|ne] /=.
  by case: [seq _ | _ <- _] => [|x r] //=; rewrite last_cat.
by rewrite cats0 IH // => p pl; apply: h; rewrite mem_rcons inE pl orbT.
Qed.
Lemma load_sdE (ck : ckpt N V) val m n : complete mdl ck val -> n \in names mdl ->
  load_sd ck m (cell n) = loaded mdl val n.
Proof.
move=> hc hn; rewrite /LiveModel.load_sd (@load_list ck val) => [|p pm]; last first.
  by apply: hc; apply: mem_name.
rewrite -groupE /loaded; move: (mem_group hn).
by case: (group n).
Qed.
Lemma loaded_consistent (val : N -> V) n : consistent mdl val -> n \in names mdl -> loaded mdl val n = val n.
Proof.
move=> hc hn; have lg : last n (group n) \in group n.
  by move: (mem_group hn); case: (group n) => [//|x r] _ /=; apply: mem_last.
by apply: hc => //; [apply: group_names lg | apply: group_cell lg].
Qed.

(* loading the model's own state dict changes nothing *)
Lemma load_own m a : load_sd (@own_dict N V mdl) m a = m a.
Proof.
rewrite /LiveModel.load_sd.
have: forall p, p \in mdl -> dget (own_dict V mdl) p.1 = Some (Ref p.2).
  move=> p /mem_get; rewrite /own_dict; elim: (mdl) => [//|[k b] l IH] /=; rewrite !dget_cons /=.
  by case: eqP => // _ [->].
suff K : forall l, (forall p, p \in l -> dget (own_dict V mdl) p.1 = Some (Ref p.2)) ->
    forall m', m' =1 m -> foldl (load1 (own_dict V mdl)) m' l =1 m by move=> h; apply: K.
elim=> [//|q l IH] h m' e /=; apply: IH => [p pl|b]; first by apply: h; rewrite inE pl orbT.
rewrite /load1 h ?inE ?eqxx //= /upd; case: eqP => [->|_]; exact: e.
Qed.

(* the names of the parameters *)
Lemma dedupE seen (l : dict N nat) : uniq [seq p.1 | p <- l] -> dedup seen l =
  [seq p <- l | (p.2 \notin seen) && (p.1 == head p.1 [seq q.1 | q <- l & q.2 == p.2])].
Proof.
elim: l seen => [//|q l IH] seen /= /andP [nq ul]; rewrite eqxx /= eqxx andbT.
have nk p : p \in l -> (p.1 == q.1) = false.
  by move=> pl; apply/eqP => e; move/negP: nq; case; rewrite -e; apply: map_f.
case qs: (q.2 \in seen) => /=; rewrite IH //.
  apply/eq_in_filter => p pl; case: (q.2 =P p.2) => // e; by rewrite -e qs.
congr cons; apply/eq_in_filter => p pl; rewrite inE negb_or eq_sym.
by case: (q.2 =P p.2) => //= e; rewrite nk // andbF.
Qed.
Lemma namedE : named mdl grad = [seq (n, cell n) | n <- firsts mdl grad].
Proof.
rewrite /named dedupE // -filter_predI /firsts /names /dkeys filter_map -map_comp /=.
have -> : [seq p <- mdl | predI (fun p => grad p.2) (fun p => (p.2 \notin [::]) && (p.1 == head p.1 [seq q.1 | q <- mdl & q.2 == p.2])) p] =
   [seq p <- mdl | preim (fun p => p.1) (fun n => (n == head n (group n)) && grad (cell n)) p].
  by apply/eq_in_filter => p pm /=; rewrite groupE mem_cell // andbC.
rewrite -[LHS]map_id; apply/eq_in_map => p; rewrite mem_filter => /andP [_ pm] /=.
by rewrite mem_cell //; case: (p).
Qed.
Lemma firsts_names n : n \in firsts mdl grad -> n \in names mdl.
Proof. by rewrite mem_filter => /andP []. Qed.
Lemma firsts_uniq : uniq (firsts mdl grad).
Proof. exact: filter_uniq. Qed.
Lemma first_in n : n \in names mdl -> grad (cell n) -> head n (group n) \in firsts mdl grad.
Proof.
move=> hn g; have hg : head n (group n) \in group n.
  by move: (mem_group hn); case: (group n) => // x r _; rewrite inE eqxx.
rewrite mem_filter (group_names hg) (group_cell hg) g !andbT.
have -> : group (head n (group n)) = group n by rewrite {1}/LiveSpec.group (group_cell hg).
by apply/eqP; apply: head_default; move: (mem_group hn); case: (group n).
Qed.
Lemma firsts_inj n n' : n \in firsts mdl grad -> n' \in firsts mdl grad -> cell n = cell n' -> n = n'.
Proof.
move=> h h' e; have gg : group n = group n' by rewrite /LiveSpec.group e.
have hm := mem_group (firsts_names h).
move: (h) (h'); rewrite !mem_filter => /andP [/andP [/eqP -> _] hn] /andP [/andP [/eqP -> _] hn'].
by rewrite -gg; apply: head_default.
Qed.
Lemma tiedE n n' : n \in names mdl -> n' \in names mdl -> tied mdl n n' = (cell n == cell n').
Proof. by move=> h h'; rewrite /tied !name_get // eq_sym; apply/eqP/eqP => [[]|->]. Qed.

Lemma has_In (T : Type) (P : pred T) (l : seq T) : has P l -> exists2 x, List.In x l & P x.
Proof.
elim: l => [//|y l IH] /= /orP [h|/IH [x hx px]]; first by exists y => //; left.
by exists x => //; right.
Qed.
(* a search in zipped lists *)
Lemma zip_none (P : pred N) (fs : seq N) (v : seq V) : size v = size fs -> (forall y, y \in fs -> ~~ P y) ->
  [seq q.2 | q <- zip fs v & P q.1] = [::].
Proof.
elim: fs v => [[]//|y fs IH] [//|a v] /= [e] h.
rewrite (negbTE (h y _)) ?inE ?eqxx //; apply: IH => // z zf; apply: h; by rewrite inE zf orbT.
Qed.
Lemma zip_pick (d : V) (P : pred N) x (fs : seq N) v : uniq fs -> size v = size fs -> x \in fs ->
  (forall y, y \in fs -> P y = (y == x)) -> [seq q.2 | q <- zip fs v & P q.1] = [:: nth d v (index x fs)].
Proof.
elim: fs v => [//|y fs IH] [//|a v] /= /andP [ny uf] [e]; rewrite inE => hx hP.
have hf z : z \in fs -> P z = (z == x) by move=> zf; apply: hP; rewrite inE zf orbT.
rewrite hP ?inE ?eqxx //; case: (y =P x) hx => [yx|ne] /=.
  move=> _; congr cons; apply: zip_none => // z zf; rewrite hf //; apply/eqP => zx.
  by move/negP: ny; case; rewrite yx -zx.
by case: (x =P y) ne => [->//|_ _] /= hx; apply: IH.
Qed.
End Proof.
