(* Lemmas about the training functions. *)
Set Warnings "-notation-overridden,-ambiguous-paths".
From mathcomp Require Import all_ssreflect all_algebra zify.
From Verif Require Import Py RetrainModel RetrainProof TrainModel TrainSpec.
Set Implicit Arguments. Unset Strict Implicit. Unset Printing Implicit Defensive.
Import GRing.Theory Num.Theory Order.Theory.
Local Open Scope ring_scope.

Section Sgd.
Variables (R : realFieldType) (V : lmodType R).

Definition feed (O : Type) (ostep : O -> V -> V -> O * V) (x : O * V) (ds : seq V) : O * V :=
  foldl (fun x dv => ostep x.1 x.2 dv) x ds.

Lemma feed_rcons O (ostep : O -> V -> V -> O * V) x ds dv :
  feed ostep x (rcons ds dv) = ostep (feed ostep x ds).1 (feed ostep x ds).2 dv.
Proof. by rewrite /feed -cats1 foldl_cat. Qed.

(* the buffer and the parameters after a sequence of gradients *)
Lemma feed_momentum lr mu (w : V) ds : mu != 0 ->
  feed (sgd_step lr mu 0) (None, w) ds =
  (if ds is [::] then None else Some (\sum_(s < size ds) mu ^+ (size ds - s.+1) *: nth 0 ds s),
   w - lr *: \sum_(s < size ds) (\sum_(k < size ds - s) mu ^+ k) *: nth 0 ds s).
Proof.
move=> m0; elim/last_ind: ds => [|ds g IH]; first by rewrite /= big_ord0 scaler0 subr0.
rewrite feed_rcons {}IH /sgd_step (negbTE m0) scale0r addr0 /=.
have Bf : (if (if ds is [::] then None
               else Some (\sum_(s < size ds) mu ^+ (size ds - s.+1) *: nth 0 ds s)) is Some b
           then mu *: b + g else g) =
    \sum_(s < (size ds).+1) mu ^+ ((size ds).+1 - s.+1) *: nth 0 (rcons ds g) s.
  rewrite big_ord_recr /= subnn expr0 scale1r nth_rcons ltnn eqxx.
  case: ds => [|d0 l]; first by rewrite big_ord0 add0r.
  congr (_ + g); rewrite scaler_sumr; apply: eq_bigr => i _.
  rewrite nth_rcons ltn_ord scalerA -exprS; congr (_ ^+ _ *: _).
  by have := ltn_ord i; lia.
rewrite Bf; have -> : (if rcons ds g is [::] then None else
    Some (\sum_(s < size (rcons ds g)) mu ^+ (size (rcons ds g) - s.+1) *: nth 0 (rcons ds g) s)) =
    Some (\sum_(s < size (rcons ds g)) mu ^+ (size (rcons ds g) - s.+1) *: nth 0 (rcons ds g) s).
  by case: ds {Bf}.
rewrite size_rcons; congr (_, _); rewrite -addrA -opprD -scalerDr; congr (_ - _ *: _).
rewrite [in RHS]big_ord_recr /= nth_rcons ltnn eqxx subSnn big_ord1 expr0.
rewrite [X in _ + X]big_ord_recr /= nth_rcons ltnn eqxx subnn expr0 addrA; congr (_ + _).
rewrite -big_split /=; apply: eq_bigr => i _; rewrite nth_rcons ltn_ord -scalerDl; congr (_ *: _).
have le : (i <= size ds)%N by rewrite ltnW.
by rewrite subSS [in RHS]subSn // big_ord_recr.
Qed.

(* weight decay without momentum *)
Lemma feed_decay lr wd (w : V) ds :
  (feed (sgd_step lr 0 wd) (None, w) ds).2 =
  (1 - lr * wd) ^+ size ds *: w - lr *: \sum_(s < size ds) (1 - lr * wd) ^+ (size ds - s.+1) *: nth 0 ds s.
Proof.
elim/last_ind: ds => [|ds g IH]; first by rewrite /= big_ord0 scaler0 subr0 scale1r.
rewrite feed_rcons {1}/sgd_step eqxx /= {}IH size_rcons big_ord_recr /= nth_rcons ltnn eqxx subnn expr0 scale1r.
set S := (X in lr *: (X + g)).
have -> : S = (1 - lr * wd) *: \sum_(s < size ds) (1 - lr * wd) ^+ (size ds - s.+1) *: nth 0 ds s.
  rewrite scaler_sumr; apply: eq_bigr => i _; rewrite scalerA -exprS nth_rcons ltn_ord; congr (_ ^+ _ *: _).
  by have := ltn_ord i; lia.
rewrite {S} exprS -scalerA; set A := _ *: w; set S := \sum_(s < _) _; set c := 1 - _.
rewrite [lr *: (c *: S + g)]scalerDr [lr *: (c *: S)]scalerA [lr * c]mulrC -scalerA opprD addrA -scalerBr.
rewrite [lr *: (g + _)]scalerDr opprD addrA addrAC; congr (_ - _).
by rewrite scalerA -{1}[A - _]scale1r -scalerBl.
Qed.
End Sgd.

Section Train.
Variables (V : zmodType) (GT GN GP B O : Type).
Notation gens := (gens GT GN GP).
Notation loader := (loader GT GN GP B).
Notation st := (st V GT GN GP O).
Variable loss_grad : bool -> V -> B -> gens -> res V * gens.
Variable ostep : O -> V -> V -> O * V.

Section Total.
Variable d : V -> B -> gens -> V * gens.
Hypothesis dE : forall w b g, loss_grad true w b g = (Ok (d w b g).1, (d w b g).2).
Definition at_ (s : st) : point V GT GN GP O := (s_w s, s_o s, s_g s).

Lemma batch_stepE s b : s_train s ->
  exists s', [/\ batch_step loss_grad ostep s b = (s', Ok tt), at_ s' = descend d ostep (at_ s) b & s_train s'].
Proof.
move=> tr; rewrite /batch_step /backward /= tr dE /opt_step /descend /=.
case: (d _ _ _) => dv g' /=; case: (ostep _ _ _) => o w /=.
by exists (St w (Some dv) o g' true).
Qed.
Lemma batch_step_wikitextE s b : s_train s -> s_grad s = None ->
  exists s', [/\ batch_step_wikitext loss_grad ostep s b = (s', Ok tt), at_ s' = descend d ostep (at_ s) b,
                 s_train s' & s_grad s' = None].
Proof.
move=> tr gn; rewrite /batch_step_wikitext /backward /= tr dE gn /opt_step /descend /=.
case: (d _ _ _) => dv g' /=; case: (ostep _ _ _) => o w /=.
by exists (St w None o g' true).
Qed.
Lemma steps_descend bs s : s_train s ->
  exists s', [/\ sfold (batch_step loss_grad ostep) s bs = (s', Ok tt),
                 at_ s' = foldl (descend d ostep) (at_ s) bs & s_train s'].
Proof.
elim: bs s => [|b bs IH] s tr; first by exists s.
have [s1 [e1 a1 t1]] := batch_stepE b tr; have [s2 [e2 a2 t2]] := IH s1 t1.
by exists s2; split; rewrite //= ?e1 // a2 a1.
Qed.
Lemma steps_wikitext bs s : s_train s -> s_grad s = None ->
  exists s', [/\ sfold (batch_step_wikitext loss_grad ostep) s bs = (s', Ok tt),
                 at_ s' = foldl (descend d ostep) (at_ s) bs, s_train s' & s_grad s' = None].
Proof.
elim: bs s => [|b bs IH] s tr gn; first by exists s.
have [s1 [e1 a1 t1 n1]] := batch_step_wikitextE b tr gn; have [s2 [e2 a2 t2 n2]] := IH s1 t1 n1.
by exists s2; split; rewrite //= ?e1 // a2 a1.
Qed.
Lemma passE ld s : s_train s ->
  exists s', [/\ pass (batch_step loss_grad ostep) ld s = (s', Ok tt),
                 at_ s' = round d ostep ld (at_ s) & s_train s'].
Proof.
move=> tr; rewrite /pass /round /=; case: (l_iter ld _) => bs g.
by have [s' [e a t]] := @steps_descend bs (set_g s g) tr; exists s'.
Qed.
Lemma epochE t ld s : s_train s -> s_grad s = None \/ t <> Wikitext -> report t ld = Ok tt ->
  exists s', [/\ epoch loss_grad ostep t ld s = (s', Ok tt), at_ s' = round d ostep ld (at_ s),
                 s_train s' & s_grad s' = None \/ t <> Wikitext].
Proof.
move=> tr gn rp; have [tw|tw] : t = Wikitext \/ t <> Wikitext by case: (t) => /=; [right|right|right|left].
  subst t; rewrite /epoch /pass /round /=; case: gn => [gn|//]; case: (l_iter ld _) => bs g.
  by have [s' [-> a t n]] := @steps_wikitext bs (set_g s g) tr gn; exists s'; split=> //; left.
have [s' [e a ts]] := passE ld tr; exists s'; split=> //; last by right.
by rewrite /epoch -rp; case: t tw {rp gn} => // _; rewrite e.
Qed.
Lemma epochsE t ld n k s : s_train s -> s_grad s = None \/ t <> Wikitext -> report t ld = Ok tt ->
  exists s', [/\ sfold (fun s (_ : nat) => epoch loss_grad ostep t ld s) s (iota k n) = (s', Ok tt),
                 at_ s' = iter n (round d ostep ld) (at_ s) & s_train s'].
Proof.
elim: n k s => [|n IH] k s tr gn rp; first by exists s.
have [s1 [e1 a1 t1 n1]] := epochE tr gn rp; have [s2 [e2 a2 t2]] := IH k.+1 s1 t1 n1 rp.
by exists s2; split=> //=; [rewrite e1 | rewrite a2 a1 -iterSr].
Qed.
End Total.

(* what does not read numpy's generator does not notice its state *)
Section Np.
Variable ld : loader.
Hypothesis bl : np_blind (l_iter ld).
Hypothesis bg : forall m w b, np_blind (loss_grad m w b).
Definition put_np (s : st) n : st := set_g s (with_np (s_g s) n).

Lemma backward_np s b n : backward loss_grad (put_np s n) b =
  (put_np (backward loss_grad s b).1 n, (backward loss_grad s b).2).
Proof. by rewrite /backward /= bg; case: (loss_grad _ _ _ _) => [[dv|e] g]. Qed.
Lemma opt_step_np s n : opt_step ostep (put_np s n) = put_np (opt_step ostep s) n.
Proof. by rewrite /opt_step /=; case: (s_grad s) => // dv; case: (ostep _ _ _). Qed.
Lemma batch_wikitext_np s b n : batch_step_wikitext loss_grad ostep (put_np s n) b =
  (put_np (batch_step_wikitext loss_grad ostep s b).1 n, (batch_step_wikitext loss_grad ostep s b).2).
Proof.
rewrite /batch_step_wikitext backward_np; case: (backward loss_grad s b) => s1 [u|e] //=.
by rewrite opt_step_np.
Qed.
Lemma sfold_np bs s n : sfold (batch_step_wikitext loss_grad ostep) (put_np s n) bs =
  (put_np (sfold (batch_step_wikitext loss_grad ostep) s bs).1 n,
   (sfold (batch_step_wikitext loss_grad ostep) s bs).2).
Proof.
elim: bs s => //= b bs IH s; rewrite batch_wikitext_np.
by case: (batch_step_wikitext _ _ s b) => s1 [u|e] //=; rewrite IH.
Qed.
Lemma epoch_np s n : epoch loss_grad ostep Wikitext ld (put_np s n) =
  (put_np (epoch loss_grad ostep Wikitext ld s).1 n, (epoch loss_grad ostep Wikitext ld s).2).
Proof.
rewrite /epoch /pass /= bl; case: (l_iter ld _) => bs g /=.
have -> : set_g (put_np s n) (with_np g n) = put_np (set_g s g) n by [].
rewrite sfold_np; case: (sfold _ _ _) => s1 [u|e] //=.
Qed.
Lemma epochs_np l s n : sfold (fun s (_ : nat) => epoch loss_grad ostep Wikitext ld s) (put_np s n) l =
  (put_np (sfold (fun s (_ : nat) => epoch loss_grad ostep Wikitext ld s) s l).1 n,
   (sfold (fun s (_ : nat) => epoch loss_grad ostep Wikitext ld s) s l).2).
Proof.
elim: l s => //= k l IH s; rewrite epoch_np.
by case: (epoch _ _ _ ld s) => s1 [u|e] //=; rewrite IH.
Qed.
End Np.
End Train.

Section MusicLemmas.
Variables (V : zmodType) (GT GN GP B O : Type) (R : realFieldType).
Notation gens := (gens GT GN GP).
Notation loader := (loader GT GN GP B).
Variable loss_grad : bool -> V -> B -> gens -> res V * gens.
Variable ostep : O -> V -> V -> O * V.
Variable evaluate : V -> seq B -> res (fl R * R).
Variable d : V -> B -> gens -> V * gens.
Hypothesis dE : forall w b g, loss_grad true w b g = (Ok (d w b g).1, (d w b g).2).
Notation music_epoch := (music_epoch loss_grad ostep evaluate).
Variable ld : loader.
Hypothesis len0 : l_len ld != 0%N.

(* the state in front of the evaluation number k *)
Definition before_eval (x0 : point V GT GN GP O) (k : nat) : point V GT GN GP O :=
  iter k (fun x => round d ostep ld (look ld x)) x0.
Definition shows (la : fl R * R) : bool := (0 < la.2) || (if la.1 is Fin _ then true else false).

Definition inv (m : mst V GT GN GP O R) (b : bool) : Prop :=
  b_set m = b /\ (b = false -> m_acc m = 0 /\ m_loss m = PInf R).

Lemma music_epochE m (first : bool) la b :
  inv m b ->
  let x1 := if first then at_ (m_s m) else round d ostep ld (at_ (m_s m)) in
  evaluate x1.1.1 (seen ld x1) = Ok la ->
  exists m', [/\ music_epoch ld m first = (m', Ok tt), at_ (m_s m') = look ld x1,
                 s_train (m_s m') = false & inv m' (b || shows la)].
Proof.
move=> [bs iv] x1 ev.
have [s1 [e1 a1]] : exists s1, (if first then (m_s m, Ok tt)
    else pass (batch_step loss_grad ostep) ld (set_mode (m_s m) true)) = (s1, Ok tt) /\ at_ s1 = x1.
  rewrite /x1; case: (first); first by exists (m_s m).
  by have [s' [e a t]] := @passE _ _ _ _ _ _ loss_grad ostep d dE ld (set_mode (m_s m) true) erefl; exists s'.
rewrite /music_epoch e1; move: ev; rewrite -a1 /seen /at_ /=.
rewrite /look /=; case: (l_iter ld (s_g s1)) => bt g2 /= ev; rewrite (negbTE len0) ev.
eexists; split; [by []|by []|by []|]; rewrite /inv /= bs /shows.
split; last first.
  move=> /norP [/negbTE bf /norP [na nf]]; have [-> ->] := iv bf.
  by rewrite (negbTE na); case: (la.1) nf.
case: (b) iv => [_|iv]; first by [].
by have [-> ->] := iv erefl; rewrite /=; case: (la.1) => //=; rewrite !orbF.
Qed.

Lemma music_loop n (ev : nat -> fl R * R) m b k x0 :
  inv m b -> (0 < k)%N -> at_ (m_s m) = look ld (before_eval x0 k.-1) -> s_train (m_s m) = false ->
  (forall j, (k <= j < k + n)%N ->
     evaluate (before_eval x0 j).1.1 (seen ld (before_eval x0 j)) = Ok (ev j)) ->
  exists m', [/\ sfold (fun m (e : nat) => music_epoch ld m (e == 0%N)) m (iota k n) = (m', Ok tt),
    at_ (m_s m') = look ld (before_eval x0 (k + n).-1), s_train (m_s m') = false &
    inv m' (b || has (fun j => shows (ev j)) (iota k n))].
Proof.
elim: n m b k => [|n IH] m b k iv k0 am tm He.
  by exists m; split; rewrite ?addn0 ?orbF.
have bk : round d ostep ld (at_ (m_s m)) = before_eval x0 k by rewrite am -[in RHS](prednK k0).
have := @music_epochE m false (ev k) b iv; rewrite /= bk => /(_ (He k _)) []; first by rewrite leqnn addnS ltnS leq_addr.
move=> m1 [e1 a1 t1 i1].
have [|m2 [e2 a2 t2 i2]] := IH m1 _ k.+1 i1 isT a1 t1.
  by move=> j jr; apply: He; rewrite addnS -addSn; case/andP: jr => /ltnW -> ->.
exists m2; split=> //=; last by rewrite orbA.
  by rewrite eqn0Ngt k0 /= e1 e2.
by rewrite a2 addSnnS.
Qed.
End MusicLemmas.
