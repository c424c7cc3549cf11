(* C47, C49, C50: data-set preparation. *)
Set Warnings "-notation-overridden,-ambiguous-paths".
From mathcomp Require Import all_ssreflect all_algebra zify.
From Verif Require Import Py Dict DataModel DataSpec.
Set Implicit Arguments. Unset Strict Implicit. Unset Printing Implicit Defensive.

(* ------------------------------------------------------------------------------------ C50 *)
Lemma adjust_loop (ts : seq nat) k : k <= size ts ->
  foldl adjust_one (ts, [::]) (iota 0 k) =
  (map relabel (take k ts) ++ drop k ts, [seq i <- iota 0 k | wanted (nth 0 ts i)]).
Proof.
elim: k => [|k IH] lt; first by rewrite take0 drop0.
rewrite -addn1 iotaD foldl_cat IH 1?ltnW // filter_cat /=.
have sm : size (map relabel (take k ts)) = k by rewrite size_map size_take lt.
have nk : nth 0 (map relabel (take k ts) ++ drop k ts) k = nth 0 ts k.
  by rewrite nth_cat sm ltnn subnn nth_drop addn0.
rewrite add0n nk addn1 (take_nth 0 lt) map_rcons cat_rcons /wanted [in RHS]/relabel.
have st v : set_nth 0 (map relabel (take k ts) ++ drop k ts) k v = map relabel (take k ts) ++ v :: drop k.+1 ts.
  apply: (@eq_from_nth _ 0).
    by rewrite size_set_nth !size_cat /= sm !size_drop; move: lt; clear; lia.
  move=> i _; rewrite nth_set_nth /= !nth_cat sm; case: eqP => [->|ne]; first by rewrite ltnn subnn.
  case: ltnP => // ki; rewrite nth_drop subnKC //.
  have -> : i - k = (i - k.+1).+1 by move: ki ne; clear; lia.
  by rewrite /= nth_drop subnKC //; move: ki ne; clear; lia.
case: (nth 0 ts k =P 3) => [e|n3] /=; first by rewrite st cats1.
case: (nth 0 ts k =P 5) => [e|n5] /=; first by rewrite st cats1.
by rewrite cats0 (drop_nth 0 lt).
Qed.
Theorem C50_adjust (ts : seq nat) :
  adjust ts = (map relabel ts, [seq i <- iota 0 (size ts) | wanted (nth 0 ts i)]).
Proof. by rewrite /adjust adjust_loop // take_size drop_size cats0. Qed.
Lemma wanted_relabel t : ~~ wanted (relabel t).
Proof. by rewrite /wanted /relabel; case: (t =P 3) => // n3; case: (t =P 5) => // n5; apply/norP; split; apply/eqP. Qed.
(* a second call on the same data set selects nothing and changes nothing *)
Theorem C50_second_call (ts : seq nat) : adjust (adjust ts).1 = ((adjust ts).1, [::]).
Proof.
rewrite !C50_adjust /= -map_comp; congr pair.
  by apply: eq_map => t /=; have := wanted_relabel t; rewrite {2}/relabel => /norP [/negbTE -> /negbTE ->].
apply/eqP; rewrite -size_eq0 size_filter -leqn0 leqNgt -has_count; apply/hasP => -[i].
by rewrite mem_iota size_map add0n => /= lt; rewrite (nth_map 0) // (negbTE (wanted_relabel _)).
Qed.
(* the resulting data set: the pairs of image and label of the cats and dogs, in order *)
Theorem C50_split (A : Type) (a0 : A) (data : seq A) (ts : seq nat) : size data = size ts ->
  let r := cifar2_split a0 data ts in
  let kept := [seq (x.1, relabel x.2) | x <- zip data ts & wanted x.2] in
  [/\ s_items r = kept, s_data r = unzip1 kept, s_targets r = unzip2 kept & all (fun t => t < 2) (s_targets r)].
Proof.
move=> sz; rewrite /cifar2_split C50_adjust /=.
have E : [seq (nth a0 data i, nth 0 (map relabel ts) i) | i <- [seq i <- iota 0 (size ts) | wanted (nth 0 ts i)]] =
         [seq (x.1, relabel x.2) | x <- zip data ts & wanted x.2].
  have -> : zip data ts = [seq (nth a0 data i, nth 0 ts i) | i <- iota 0 (size ts)].
    apply: (@eq_from_nth _ (a0, 0)); first by rewrite size_zip size_map size_iota sz minnn.
    move=> i; rewrite size_zip sz minnn => lt.
    by rewrite nth_zip // (nth_map 0) ?size_iota // nth_iota.
  rewrite filter_map -map_comp; apply/eq_in_map => i; rewrite mem_filter mem_iota add0n /= => /andP [_ lt].
  by rewrite (nth_map 0).
rewrite -E; split=> //; rewrite /unzip1 /unzip2 -?map_comp //.
apply/allP => t /mapP [i]; rewrite mem_filter mem_iota add0n /= => /andP [w lt] ->.
by rewrite (nth_map 0) // /relabel; move: w; rewrite /wanted; case: eqP => //=; case: eqP.
Qed.

(* ------------------------------------------------------------------------------------ C49 *)
Section Batches.
Variables (A : Type) (a0 : A).
(* every sample is in exactly one batch, the arguments stay aligned, and every batch but the last has the
   requested (clamped) size *)
Theorem C49_partition (xs : seq (arg A)) (perm : seq nat) n bs : 0 < n -> 0 < bs -> perm_eq perm (iota 0 n) ->
  exists ixs : seq (seq nat),
  [/\ random_batches a0 xs perm n bs = Ok [seq [seq index_select a0 x ix | x <- xs] | ix <- ixs],
      perm_eq (flatten ixs) (iota 0 n) &
      forall i, i < size ixs -> size (nth [::] ixs i) = if i.+1 < size ixs then minn bs n else n - i * minn bs n].
Proof.
move=> n0 b0 pe; rewrite /random_batches.
have -> : (if n < bs then n else bs) = minn bs n by rewrite /minn ltnNge leq_eqVlt; case: ltngtP.
set b := minn bs n; have b1 : 0 < b by rewrite /b; lia.
have bn : b <= n by rewrite /b; lia.
rewrite (gtn_eqF b1); set m := (n + b - 1) %/ b.
have sp : size perm = n by rewrite (perm_size pe) size_iota.
have m1 : n <= m * b.
  by rewrite /m; have := divn_eq (n + b - 1) b; have := ltn_pmod (n + b - 1) b1; move: b1; clear; lia.
have m2 : m.-1 * b < n.
  by rewrite /m; have := leq_trunc_div (n + b - 1) b; case: (_ %/ b) => //= k; move: b1 n0; clear; lia.
exists [seq drop (i * b) (take (minn n (i.+1 * b)) perm) | i <- iota 0 m]; split.
- by rewrite -map_comp.
- have -> : flatten [seq drop (i * b) (take (minn n (i.+1 * b)) perm) | i <- iota 0 m] = take (m * b) perm.
    elim: (m) => [|k IH]; first by rewrite take0.
    rewrite -addn1 iotaD map_cat flatten_cat IH /= add0n cats0 addn1.
    have -> : take (minn n (k.+1 * b)) perm = take (k.+1 * b) perm.
      by case: (leqP (k.+1 * b) n) => // h; rewrite !take_oversize ?sp // ltnW.
    by rewrite -[in RHS](cat_take_drop (k * b) (take (k.+1 * b) perm)) take_take // leq_mul2r leqnSn orbT.
  by rewrite take_oversize ?sp.
- move=> i; rewrite size_map size_iota => im; rewrite (nth_map 0) ?size_iota // nth_iota // add0n size_drop.
  have -> : size (take (minn n (i.+1 * b)) perm) = minn n (i.+1 * b).
    by rewrite size_take sp; case: ltnP => // h; move: h; clear; lia.
  case: ltnP => [lt|ge].
    have : i.+1 * b <= m.-1 * b by rewrite leq_mul2r; apply/orP; right; move: im lt; clear; lia.
    by move: m2; rewrite mulSn; clear; lia.
  have e : i.+1 = m by move: im ge; clear; lia.
  by rewrite e; move: m1; clear; lia.
Qed.
(* no samples, or batch size 0 *)
Theorem C49_zero (xs : seq (arg A)) (perm : seq nat) n bs : (n == 0) || (bs == 0) ->
  random_batches a0 xs perm n bs = Err ZeroDivisionError.
Proof. by rewrite /random_batches; case: n => [|n]; case: bs => [|bs]. Qed.
(* LiSSA's draw: distinct samples, as many as asked for or all of them *)
Theorem C49_draw (xs : seq (arg A)) (perm : seq nat) n bs : perm_eq perm (iota 0 n) ->
  exists ix : seq nat, [/\ sample_random_batch a0 xs perm bs = [seq index_select a0 x ix | x <- xs],
    uniq ix, size ix = minn bs n & {subset ix <= iota 0 n}].
Proof.
move=> pe; exists (take bs perm); split=> //.
- by apply: take_uniq; rewrite (perm_uniq pe) iota_uniq.
- by rewrite size_take (perm_size pe) size_iota /minn.
- by move=> i /mem_take; rewrite (perm_mem pe).
Qed.
(* the size check accepts exactly arguments of one common size *)
Definition lengths (xs : seq (arg A)) : seq nat := pmap (fun x => if x is Batched s then Some (size s) else None) xs.
Theorem C49_size_check (xs : seq (arg A)) :
  check_input_size xs = if lengths xs is k :: ks then if all (pred1 k) ks then Ok k else Err IHVPUsageError else Ok 1.
Proof.
rewrite /check_input_size.
have S k : check_sizes (Some k) xs = if all (pred1 k) (lengths xs) then Ok (Some k) else Err IHVPUsageError.
  by elim: xs => //= -[s|a] xs IH //=; rewrite eq_sym; case: ifP => //= _; rewrite IH.
elim: xs S => //= -[s|a] xs IH S /=.
  have -> : check_sizes (Some (size s)) xs = if all (pred1 (size s)) (lengths xs) then Ok (Some (size s)) else Err IHVPUsageError.
    by have := S (size s); rewrite /= eqxx.
  by case: ifP.
by apply: IH => k; have := S k.
Qed.
End Batches.

(* ------------------------------------------------------------------------------------ C47 *)
Lemma ceil_divP n s i : 0 < s -> (i < ceil_div n s) = (i * s < n).
Proof.
move=> s0; rewrite /ceil_div -ltnS -[i.+1]/(i.+1) ltnS -[i < _]/(i.+1 <= _) leq_divRL //.
by rewrite mulSn; move: s0; clear; lia.
Qed.
Lemma range_stepE n s : 0 < s -> range_step n s = [seq o <- iota 0 n | s %| o].
Proof.
move=> s0; apply: (@irr_sorted_eq _ ltn ltn_trans ltnn).
- rewrite /range_step; apply: (homo_sorted (e := ltn)); last exact: iota_ltn_sorted.
  by move=> i j ij; rewrite /= ltn_mul2r s0.
- by apply: sorted_filter; [exact: ltn_trans|exact: iota_ltn_sorted].
move=> o; rewrite mem_filter mem_iota add0n /=; apply/mapP/andP => [[i]|[/dvdnP [i ->] lt]].
  by rewrite mem_iota add0n ceil_divP //= => lt ->; rewrite dvdn_mull.
by exists i => //; rewrite mem_iota add0n ceil_divP.
Qed.
Lemma offsetsE max_seq s f : 0 < s -> range_step (size f - max_seq) s = offsets max_seq s f.
Proof.
move=> s0; rewrite range_stepE // /offsets.
have -> : iota 0 (size f) = iota 0 (size f - max_seq) ++ iota (size f - max_seq) (size f - (size f - max_seq)).
  by rewrite -[X in _ ++ iota X _]add0n -iotaD; congr iota; lia.
rewrite filter_cat [X in _ ++ X](_ : _ = [::]) ?cats0.
  by apply/eq_in_filter => o; rewrite mem_iota add0n /= => lt; rewrite [o + _ < _](_ : _ = true) ?andbT //; lia.
apply/eqP; rewrite -size_eq0 size_filter -leqn0 leqNgt -has_count; apply/hasP => -[o].
by rewrite mem_iota => h1 /andP [_ h2]; move: h1 h2; clear; lia.
Qed.

Section Numbered.
Variable V : Type.
Definition numbered (E : seq V) : dict nat_eqType V := zip (iota 0 (size E)) E.
Lemma size_numbered E : size (numbered E) = size E.
Proof. by rewrite size_zip size_iota minnn. Qed.
Lemma keys_numbered E : dkeys (numbered E) = iota 0 (size E).
Proof. by rewrite /dkeys -/(unzip1 _) unzip1_zip // size_iota. Qed.
Lemma dget_numbered e0 E i : dget (numbered E) i = if i < size E then Some (nth e0 E i) else None.
Proof.
case: ltnP => lt.
  have := @dget_in _ _ (numbered E) (i, nth e0 E i); rewrite keys_numbered iota_uniq => /(_ isT) -> //.
  have -> : (i, nth e0 E i) = nth (0, e0) (numbered E) i by rewrite nth_zip ?size_iota // nth_iota.
  have : i < size (numbered E) by rewrite size_numbered.
  by elim: (numbered E) i {lt} => //= x l IH [|i] lt; [left|right; apply: IH].
case e : (dget _ _) => [v|] //; have := dget_mem e; rewrite keys_numbered mem_iota add0n /=.
by rewrite ltnNge lt.
Qed.
Lemma dset_end E v : dset (numbered E) (size E) v = numbered (rcons E v).
Proof.
rewrite /dset /dhas -/(dkeys _) keys_numbered mem_iota add0n ltnn andbF /numbered size_rcons.
by rewrite -addn1 iotaD add0n /= -!cats1 zip_cat ?size_iota.
Qed.
End Numbered.

Section Piano.
Variables (pad eos : nat).
(* the windows of all files in order: number of the file and position *)
Definition all_windows (ms s k : nat) (files : seq (seq nat)) : seq (nat * nat) :=
  flatten [seq [seq (kf.1, o) | o <- offsets ms s kf.2] | kf <- zip (iota k (size files)) files].
Lemma number_offs (k : nat) (offs : seq nat) j idx (E : seq (nat * nat)) : idx + j = size E ->
  foldl (fun acc io => dset acc (idx + io.1) (k, io.2)) (numbered E) (zip (iota j (size offs)) offs) =
  numbered (E ++ [seq (k, o) | o <- offs]).
Proof.
elim: offs j E => [|o offs IH] j E e /=; first by rewrite cats0.
by rewrite e dset_end IH ?cat_rcons // size_rcons -e addnS.
Qed.
Lemma index_filesE ms s files k (E : seq (nat * nat)) : 0 < s ->
  index_files ms s k (size E) files (size E) (numbered E) =
  (size (E ++ all_windows ms s k files), numbered (E ++ all_windows ms s k files)).
Proof.
move=> s0; elim: files k E => [|f fs IH] k E /=; first by rewrite cats0.
rewrite number_offs ?addn0 // offsetsE //.
have -> : ceil_div (size f - ms) s = size (offsets ms s f) by rewrite -offsetsE // size_map size_iota.
have e : size E + size (offsets ms s f) = size (E ++ [seq (k, o) | o <- offsets ms s f]) by rewrite size_cat size_map.
by rewrite e IH /all_windows /= catA.
Qed.
Lemma take_mkseq (A : Type) (a0 : A) (s : seq A) n : n <= size s -> take n s = mkseq (nth a0 s) n.
Proof.
move=> le; have st : size (take n s) = n by rewrite size_take; case: ltnP => // h; apply/eqP; rewrite eqn_leq h le.
apply: (@eq_from_nth _ a0); first by rewrite size_mkseq st.
by move=> i; rewrite st => lt; rewrite nth_take // nth_mkseq.
Qed.
Lemma window_cut ms f start : start + ms < size f ->
  let data := take ms.+1 (drop start f) in (take ms data, behead (take ms.+1 data)) = window ms f start.
Proof.
move=> lt data; have sd : size (drop start f) = size f - start by rewrite size_drop.
have e : data = mkseq (fun j => nth 0 f (start + j)) ms.+1.
  rewrite /data (take_mkseq 0); last by rewrite sd; move: lt; clear; lia.
  by apply: eq_mkseq => j; rewrite nth_drop.
rewrite /window e (take_mkseq 0) ?size_mkseq // take_oversize ?size_mkseq //; congr pair.
  by apply: (@eq_from_nth _ 0); rewrite !size_mkseq // => i lt'; rewrite !nth_mkseq // ltnS ltnW.
apply: (@eq_from_nth _ 0); first by rewrite size_behead !size_mkseq.
by move=> i; rewrite size_behead size_mkseq => lt'; rewrite nth_behead !nth_mkseq ?addnS.
Qed.

(* the full version: constructing the data set never fails the assertion; its items are all windows of all
   files in order.  The window at position 0 is moved to a random position when random_seq is set. *)
Theorem C47_windows files ms rnd w : let s := odflt ms w in 0 < s ->
  exists2 p, new_piano files ms rnd true w = Ok p &
  [/\ piano_len p = sumn [seq size (offsets ms s f) | f <- files],
      forall draw, (forall n, draw n <= n) ->
        [seq piano_get pad eos draw p i | i <- iota 0 (piano_len p)] =
        flatten [seq [seq Ok (window ms f (if (o == 0) && rnd then draw (size f - ms.+1) else o))
                     | o <- offsets ms s f] | f <- files] &
      forall draw i, piano_len p <= i -> piano_get pad eos draw p i = Err KeyError].
Proof.
move=> s s0; rewrite /new_piano -/(odflt ms w) -/s (gtn_eqF s0) /=.
have := @index_filesE ms s files 0 [::] s0; rewrite /= => ->; rewrite size_numbered eqxx.
set E := all_windows ms s 0 files; eexists; first by [].
have szE : size E = sumn [seq size (offsets ms s f) | f <- files].
  rewrite /E /all_windows size_flatten /shape -map_comp; congr sumn.
  rewrite -[in RHS](unzip2_zip (_ : size files <= size (iota 0 (size files)))) ?size_iota // -map_comp.
  by apply: eq_map => kf /=; rewrite size_map.
rewrite /piano_len /=; split=> // [draw dr|draw i le]; last first.
  by rewrite /piano_get /= (dget_numbered (0, 0)) ltnNge le.
have -> : [seq piano_get pad eos draw (Piano ms rnd true files (size E) (numbered E)) i | i <- iota 0 (size E)] =
   [seq Ok (process_midi pad eos draw (nth [::] files e.1) ms rnd (Some e.2)) | e <- E].
  apply: (@eq_from_nth _ (Err KeyError)); first by rewrite !size_map size_iota.
  move=> i; rewrite size_map size_iota => lt; rewrite (nth_map 0) ?size_iota // nth_iota // add0n (nth_map (0, 0)) //.
  by rewrite /piano_get /= (dget_numbered (0, 0)) lt; case: (nth _ _ _).
rewrite /E /all_windows map_flatten -map_comp.
have zE : zip (iota 0 (size files)) files = [seq (i, nth [::] files i) | i <- iota 0 (size files)].
  apply: (@eq_from_nth _ (0, [::])); first by rewrite size_zip size_map size_iota minnn.
  move=> i; rewrite size_zip size_iota minnn => lt.
  by rewrite nth_zip ?size_iota // (nth_map 0) ?size_iota // nth_iota.
have fE : files = [seq nth [::] files i | i <- iota 0 (size files)] by rewrite -/(mkseq _ _) mkseq_nth.
rewrite zE [in RHS]fE -!map_comp; congr flatten; apply: eq_map => i /=; rewrite -map_comp.
apply/eq_in_map => o; rewrite mem_filter mem_iota add0n /= => /andP [/andP [_ lt] lo].
set f := nth [::] files i; congr Ok; rewrite /process_midi.
have f0 : (size f == 0) = false by apply/negbTE; rewrite -lt0n; exact: leq_ltn_trans lo.
have fl : (size f < ms.+1) = false by move: lt; rewrite -/f; clear; lia.
rewrite f0 fl; case: o lt lo => [|o] lt lo /=; last by rewrite window_cut.
case: (rnd); rewrite window_cut //; have := dr (size f - ms.+1); move: fl; clear; lia.
Qed.
(* which positions the windows cover: all but at most the last stride - 1 tokens *)
Theorem C47_coverage ms s f j : 0 < s <= ms.+1 -> ms < size f -> j + s <= size f ->
  exists2 o, o \in offsets ms s f & o <= j <= o + ms.
Proof.
case/andP=> s0 sm mf js.
have [le|gt] := leqP j ((size f - ms.+1) %/ s * s).
  exists (j %/ s * s); last by have := divn_eq j s; have := ltn_pmod j s0; move: sm; clear; lia.
  rewrite mem_filter mem_iota dvdn_mull // add0n /=.
  have := leq_trunc_div (size f - ms.+1) s; have := leq_trunc_div j s; move: le mf; clear; lia.
exists ((size f - ms.+1) %/ s * s).
  rewrite mem_filter mem_iota dvdn_mull // add0n /=.
  have := leq_trunc_div (size f - ms.+1) s; move: mf; clear; lia.
have := divn_eq (size f - ms.+1) s; have := ltn_pmod (size f - ms.+1) s0; move: gt js mf; clear; lia.
Qed.
(* files that are not longer than max_seq have no window: the full version drops them *)
Theorem C47_short_files_dropped ms s f : size f <= ms -> offsets ms s f = [::].
Proof.
move=> le; apply/eqP; rewrite -size_eq0 size_filter -leqn0 leqNgt -has_count; apply/hasP => -[o].
by rewrite mem_iota => h1 /andP [_ h2]; move: h1 h2 le; clear; lia.
Qed.
(* without full_version: one item per file, padded when it is too short *)
Theorem C47_plain files ms rnd w draw : (forall n, draw n <= n) ->
  exists2 p, new_piano files ms rnd false w = Ok p &
  [/\ piano_len p = size files,
      [seq piano_get pad eos draw p i | i <- iota 0 (piano_len p)] =
      [seq Ok (if ms < size f then window ms f (if rnd then draw (size f - ms.+1) else 0)
               else padded pad eos ms f) | f <- files] &
      forall i, piano_len p <= i -> piano_get pad eos draw p i = Err IndexError].
Proof.
move=> dr; eexists; first by []; rewrite /piano_len /=; split=> // [|i le]; last by rewrite /piano_get /= ltnNge le.
apply: (@eq_from_nth _ (Err KeyError)); first by rewrite !size_map size_iota.
move=> i; rewrite size_map size_iota => lt; rewrite (nth_map 0) ?size_iota // nth_iota // add0n (nth_map [::]) //.
rewrite /piano_get /= lt; set f := nth [::] files i; congr Ok; rewrite /process_midi /=.
case: (ltnP ms (size f)) => h.
  have f0 : (size f == 0) = false by move: h; clear; lia.
  have fl : (size f < ms.+1) = false by move: h; clear; lia.
  by rewrite f0 fl window_cut //; case: (rnd) => //; have := dr (size f - ms.+1); move: h; clear; lia.
case: eqP => [f0|/eqP f0].
  rewrite /padded f0; congr pair; apply: (@eq_from_nth _ 0); rewrite size_nseq ?size_mkseq // => j lj;
    by rewrite nth_nseq lj nth_mkseq.
rewrite ltnS h /padded; congr pair; apply: (@eq_from_nth _ 0).
- by rewrite size_cat size_nseq size_mkseq subnKC.
- move=> j; rewrite size_cat size_nseq subnKC // => lj; rewrite nth_mkseq // nth_cat nth_nseq.
  by case: ltnP => // fj; rewrite ifT //; move: lj fj; clear; lia.
- by rewrite !size_cat size_nseq size_mkseq size_behead /=; move: h f0; clear; lia.
move=> j; rewrite !size_cat size_nseq size_behead /= => lj; rewrite nth_mkseq; last by move: lj h f0; clear; lia.
rewrite !nth_cat size_cat size_behead /= nth_nseq nth_behead.
case: (ltngtP j.+1 (size f)) => hj.
- have -> : j < (size f).-1 + 1 by move: hj; clear; lia.
  by have -> : j < (size f).-1 by move: hj; clear; lia.
- have -> : (j < (size f).-1 + 1) = false by move: hj f0; clear; lia.
  by rewrite ifT //; move: lj hj f0; clear; lia.
- have -> : j < (size f).-1 + 1 by move: hj; clear; lia.
  have -> : (j < (size f).-1) = false by move: hj; clear; lia.
  by have -> : j - (size f).-1 = 0 by move: hj; clear; lia.
Qed.
(* accuracy counts exactly the positions whose target is not padding *)
Theorem C47_accuracy pred tgt : size pred = size tgt ->
  piano_accuracy pad pred tgt =
  let counted := [seq j <- iota 0 (size tgt) | nth 0 tgt j != pad] in
  if counted is [::] then None
  else Some (size [seq j <- counted | nth 0 pred j == nth 0 tgt j], size counted).
Proof.
move=> sz; rewrite /piano_accuracy.
have zE : zip pred tgt = [seq (nth 0 pred i, nth 0 tgt i) | i <- iota 0 (size tgt)].
  apply: (@eq_from_nth _ (0, 0)); first by rewrite size_zip size_map size_iota sz minnn.
  move=> i; rewrite size_zip sz minnn => lt.
  by rewrite nth_zip // (nth_map 0) ?size_iota // nth_iota.
rewrite zE filter_map /= size_map count_map; set c := [seq j <- _ | _].
by rewrite size_filter; case: c.
Qed.
End Piano.

(* ---- concrete cases *)
Example C50_example : adjust [:: 3; 0; 5; 1; 3] = ([:: 0; 0; 1; 1; 0], [:: 0; 2; 4]).
Proof. by []. Qed.
Example C49_example : random_batches 0 [:: Batched [:: 10; 11; 12]; Shared 7] [:: 2; 0; 1] 3 2 =
  Ok [:: [:: Batched [:: 12; 10]; Shared 7]; [:: Batched [:: 11]; Shared 7]] /\ perm_eq [:: 2; 0; 1] (iota 0 3).
Proof. by []. Qed.
Example C49_example_check : check_input_size [:: Batched [:: 1; 2]; Shared 0; Batched [:: 3]] = Err IHVPUsageError.
Proof. by []. Qed.
Example C47_example : if new_piano [:: [:: 1; 2; 3; 4; 5; 6]; [:: 7; 8]; [:: 1; 2; 3; 4]] 2 false true (Some 3) is Ok p then
  (piano_len p, [seq piano_get 0 9 (fun n => n) p i | i <- iota 0 4]) =
  (3, [:: Ok ([:: 1; 2], [:: 2; 3]); Ok ([:: 4; 5], [:: 5; 6]); Ok ([:: 1; 2], [:: 2; 3]); Err KeyError]) else False.
Proof. by []. Qed.
Example C47_example_cover : offsets 2 3 [:: 1; 2; 3; 4; 5; 6] = [:: 0; 3]. Proof. by []. Qed.
Example C47_example_accuracy : piano_accuracy 0 [:: 1; 2; 3] [:: 1; 5; 0] = Some (1, 2). Proof. by []. Qed.

Print Assumptions C50_adjust.
Print Assumptions C50_second_call.
Print Assumptions C50_split.
Print Assumptions C49_partition.
Print Assumptions C49_zero.
Print Assumptions C49_draw.
Print Assumptions C49_size_check.
Print Assumptions C47_windows.
Print Assumptions C47_coverage.
Print Assumptions C47_short_files_dropped.
Print Assumptions C47_plain.
Print Assumptions C47_accuracy.
