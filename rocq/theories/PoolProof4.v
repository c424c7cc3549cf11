(* The preconditioner files, and which results share memory with a buffer. *)
Set Warnings "-notation-overridden,-ambiguous-paths".
From mathcomp Require Import all_ssreflect all_algebra zify.
From Verif Require Import Py Dict Tensor OffModel DiskModel PoolModel PoolSpec PoolProof PoolProof2 PoolProof3.
Set Implicit Arguments. Unset Strict Implicit. Unset Printing Implicit Defensive.

Section Prec.
Variable P : Type.
Notation prec := (prec P). Notation rlabel := (rlabel P).
Implicit Type s : prec.
Definition out s (i : nat) : seq (nat * P) := [seq t <- r_queue s ++ dvals (r_busy s) | t.1 == i].
(* cur: the content the file of layer i is to have *)
Record pinv (cur : nat -> option P) (seen : seq nat) s : Prop := {
  pi_u : uniq (dkeys (r_busy s));
  pi_i : forall i, (out s i = [::] /\ dget (r_dir s) i = omap (@Some P) (cur i)) \/
                   (i \in seen /\ exists p, out s i = [:: (i, p)] /\ cur i = Some p) }.

Lemma dvals_rcons (K : eqType) V (d : dict K V) k v : ~~ dhas d k -> dvals (dset d k v) = rcons (dvals d) v.
Proof. by rewrite /dset => /negbTE ->; rewrite /dvals map_rcons. Qed.
Lemma ddel_none (K : eqType) V (d : dict K V) k : k \notin dkeys d -> ddel d k = d.
Proof.
elim: d => [|[a b] d IH] //=; rewrite inE negb_or eq_sym => /andP [ne nk]; by rewrite /ddel /= ne -/(ddel d k) IH.
Qed.
Lemma dvals_del (K : eqType) V (d : dict K V) k v : uniq (dkeys d) -> dget d k = Some v ->
  exists a b, dvals d = a ++ v :: b /\ dvals (ddel d k) = a ++ b.
Proof.
elim: d => [|[k' v'] d IH] //= /andP [nk u]; rewrite dget_cons /ddel /= -/(ddel d k).
case: (k' =P k) => [ek [ev]|ne e] /=.
  by exists [::], (dvals d); rewrite ev; split=> //=; subst k'; rewrite ddel_none.
by have [a [b [e1 e2]]] := IH u e; exists (v' :: a), b; rewrite e1 e2.
Qed.
Lemma one_cat (X : Type) (x y : X) (a b : seq X) : a ++ x :: b = [:: y] -> [/\ a = [::], b = [::] & x = y].
Proof. by case: a => [|u [|? a]] //= [-> ->]. Qed.

Lemma pinv_step cur seen s l s' : pinv cur seen s -> spaced seen [:: l] -> ~~ is_fail l -> rstep s l = Some s' ->
  let cur' i := if l is RStore j (Some p) then if j == i then Some p else cur i else cur i in
  let seen' := match l with RStore j (Some _) => j :: seen | RWait => [::] | _ => seen end in
  pinv cur' seen' s'.
Proof.
move=> [u H]; case: l => [i [p|]|w|w|w|] //=.
- rewrite andbT => ni _ [<-]; split=> //= j; have := H j; rewrite /out /= -cats1 -catA /= !filter_cat /=.
  case: (i =P j) => [ej|ne]; last by rewrite inE => -[]; [left|move=> [sj h]; right; rewrite sj orbT].
  subst j; rewrite (negbTE ni) => -[[e1 _]|[] //]; right; rewrite inE eqxx; split=> //; exists p; split=> //.
  by case: (filter _ (r_queue s)) e1 => [|x a] //= ->.
- by move=> _ _ [<-]; split.
- move=> _ _; case hw: (dhas _ w) => //; case eq: (r_queue s) => [|t q] // [<-].
  have nw := negbT hw; split=> /=; first exact: uniq_dset.
  move=> i; have := H i; rewrite /out eq /= dvals_rcons // -cats1 !filter_cat /= dgetE.
  case: (t.1 =P i) => [et|ne]; last first.
    by rewrite cats0 (_ : (i == t.1) = false) //; apply/eqP => e; apply: ne.
  rewrite -et eqxx => -[[] //|[si [p [[-> h] c]]]]; right; split=> //; exists p; split=> //.
  by rewrite catA h.
- move=> _ _; case e: (dget _ w) => [t|] // [<-]; split=> /=; first exact: uniq_ddel.
  move=> i; have := H i; have [a [b [e1 e2]]] := dvals_del u e; rewrite /out /= e1 e2 !filter_cat /= dgetE.
  case: (t.1 =P i) => [et|ne].
    rewrite -et eqxx => -[[h _]|[_ [p [h ->]]]]; first by case: (filter _ (r_queue s)) h => //=; case: (filter _ a).
    rewrite catA in h; have [h1 h2 h3] := one_cat h; left; by rewrite catA h1 h2 h3.
  by rewrite (_ : (i == t.1) = false) //; apply/eqP => e'; apply: ne.
move=> _ _; case: ifP => // /andP [/nilP q0 /nilP b0] [<-]; split=> // i; have := H i.
by case=> [h|[_ [p []]]]; [left|rewrite /out q0 b0].
Qed.
Lemma pinv_ext cur cur' seen s : (forall i, cur i = cur' i) -> pinv cur seen s -> pinv cur' seen s.
Proof. by move=> e [u H]; split=> // i; rewrite -e. Qed.
Lemma last_cons i old l (ls : seq rlabel) : last_stored i old (l :: ls) =
  last_stored i (if l is RStore j (Some p) then if j == i then Some p else old else old) ls.
Proof. by rewrite /last_stored; case: l => [j [p|]|w|w|w|] //=; case: (j == i). Qed.
Lemma pinv_exec cur seen s ls s' : pinv cur seen s -> spaced seen ls -> ~~ has (@is_fail P) ls -> rexec s ls = Some s' ->
  exists seen', pinv (fun i => last_stored i (cur i) ls) seen' s'.
Proof.
elim: ls cur seen s => [|l ls IH] cur seen s I; first by move=> _ _ [<-]; exists seen.
move=> sp; rewrite [has _ _]/= negb_or => /andP [nf nfs]; rewrite [rexec _ _]/=.
case e: (rstep s l) => [s1|] //= ex.
have sp1 : spaced seen [:: l] by case: (l) sp => [i [p|]|w|w|w|] //= /andP [-> _].
have I1 := pinv_step I sp1 nf e.
have [|seen' I'] := IH _ _ _ I1 _ nfs ex; first by case: (l) sp => [i [p|]|w|w|w|] //= /andP [].
by exists seen'; apply: pinv_ext I' => i; rewrite last_cons.
Qed.
End Prec.

Section Alias.
Variables (T : Type) (z : T) (cs mx psz : nat) (listing : seq fkey -> seq fkey) (cpu : bool).
Notation mstate := (mstate T).
Notation mstep := (mstep z cs mx psz listing cpu). Notation mexec := (mexec z cs mx psz listing cpu).
Notation mread := (mread cs listing cpu).
Implicit Type m : mstate.
Lemma own_vals (r : res (seq (gr T))) hs : rmap (map (@HVal T)) r = Ok hs -> all (@own T) hs.
Proof. by case: r => // l [<-]; elim: l. Qed.
Lemma hsplit_own i w r0 r1 c0 (rows : seq (seq T)) ds : all (@own T) (hsplit false i w r0 r1 c0 rows ds).
Proof. by elim: ds c0 => [|d ds IH] c0 //=; rewrite IH. Qed.
Lemma read_own k b m hs : ~~ cpu || ~~ dhas (m_open m) (k, b %/ cs) -> (mread k b m).2 = Ok hs -> all (@own T) hs.
Proof.
move=> h; rewrite /mread; case: (ensure_dims_disk _ _) => [ds|] //.
set m0 := set_rest _ m; have -> : m_open m0 = m_open m by [].
case eo: (dget (m_open m) (k, b %/ cs)) => [i|]; last by move=> e; apply: own_vals e.
case: (find_info _ _) => [se|]; last by move=> e; apply: own_vals e.
by move: h; rewrite dget_has eo orbF; case: (cpu) => // _ [<-]; exact: hsplit_own.
Qed.
Lemma heap_flush key m : m_heap (mflush psz key m) = m_heap m /\ m_open (mflush psz key m) = ddel (m_open m) key.
Proof.
rewrite /mflush; case e: (dget _ _) => [i|]; last by split=> //; rewrite ddel_none //; move: e; have := dget_has (m_open m) key; rewrite /dhas => -> ->.
by rewrite /return_buffer /=; case: (dget _ _) => [q|] //=; case: ifP.
Qed.
Lemma foldl_del (K : eqType) V (l : seq K) (d : dict K V) : {subset dkeys d <= l} -> foldl (fun d k => ddel d k) d l = [::].
Proof.
elim: l d => [|k l IH] d h /=; first by case: d h => [|[a b] d] // /(_ a); rewrite /= inE eqxx => /(_ isT).
apply: IH => a; rewrite -[a \in _]/(dhas (ddel d k) a) dget_has dget_del; case: (a =P k) => // ne e.
have := h a; rewrite inE; case: (a =P k) => //= _; apply; by rewrite -[a \in _]/(dhas d a) dget_has.
Qed.
Lemma open_flush_all m : m_heap (mflush_all psz m) = m_heap m /\ m_open (mflush_all psz m) = [::].
Proof.
have H l : m_heap (foldl (fun m key => mflush psz key m) m l) = m_heap m /\
    m_open (foldl (fun m key => mflush psz key m) m l) = foldl (fun d k => ddel d k) (m_open m) l.
  by elim: l m => [|key l IH] m //=; have [-> ->] := IH (mflush psz key m); have [-> ->] := heap_flush key m.
by have [h1 h2] := H (dkeys (m_open m)); split=> //; rewrite /mflush_all h2 foldl_del.
Qed.
Lemma step_nostore l m m' r : ~~ is_store l -> mstep m l = Some (m', r) ->
  m_heap m' = m_heap m /\ (m_open m = [::] -> m_open m' = [::]).
Proof.
move=> ns; case o: (other l).
  have -> : mstep m l = omap (fun sr : dstate T * res unit => (set_rest sr.1 m, sr.2)) (step z cs mx listing (m_rest m) l) by case: (l) o.
  by case: (step _ _ _ _ _ _) => [[s' r']|] //= [<- _].
case: l ns o => [a b|k b gs|k b||||w|w] //= _ _; case: (d_wait _) => //.
  case=> <- _; rewrite /mread; case: (ensure_dims_disk _ _) => [ds|] //=.
  by case: (match dget _ _ with Some _ => _ | None => _ end) => [[i se]|].
case: (d_range _) => [[a b]|] [<- _] //=; by have [-> ->] := open_flush_all m.
Qed.
Lemma exec_nostore ls m m' log : ~~ has (@is_store T) ls -> mexec m ls = Some (m', log) ->
  m_heap m' = m_heap m /\ (m_open m = [::] -> m_open m' = [::]).
Proof.
elim: ls m m' log => [|l ls IH] m m' log /=; first by move=> _ [<- _].
rewrite negb_or => /andP [ns nss]; case e: (mstep m l) => [[m1 r]|] //; case ex: (mexec m1 ls) => [[m2 log2]|] //= [<- _].
have [h1 h2] := step_nostore ns e; have [h3 h4] := IH _ _ _ nss ex; by split=> [|/h2 /h4]; rewrite // h3 h1.
Qed.
End Alias.
