(* The block-projected influence attributor on top of a gradient store.
   Modelled: dattri/algorithm/block_projected_if/block_projected_if.py 49-156 (constructor), 184-204
   (_sync_layer_dims), 206-321 (cache), 323-436 (compute_preconditioners), 438-549 (compute_ifvp),
   551-600 (_copy_gradients_as_ifvp), 602-675 (compute_self_attribution), 677-805 (attribute), 807-908
   (_compute_test_gradients) and core/utils.py 14-47 (stable_inverse).

   Arithmetic is exact over a field.  The gradients of a batch as delivered by the hooks are parameters
   (one for cache, which uses the loss of the task, and one for attribute, which uses cross entropy or
   the loss of the model output); C44 and C45 are about them.  torch.linalg.cholesky followed by
   cholesky_inverse, and torch.inverse, are the matrix inverse; on a singular matrix the second one
   raises a RuntimeError.  Device moves, dtype conversions, logging and progress bars are dropped. *)
Set Warnings "-notation-overridden,-ambiguous-paths".
From mathcomp Require Import all_ssreflect all_algebra.
From Verif Require Import Py Dict Tensor OffModel MetaModel.
From Verif Require DiskModel.
Set Implicit Arguments. Unset Strict Implicit. Unset Printing Implicit Defensive.
Import GRing.Theory.
Local Open Scope ring_scope.

(* a loop whose body may make one call on the store or raise: the calls made, and how it ended *)
Fixpoint calls (A B : Type) (f : A -> res (option B)) (l : seq A) : seq B * res unit :=
  if l is a :: l' then
    match f a with
    | Err e => ([::], Err e)
    | Ok None => calls f l'
    | Ok (Some b) => let r := calls f l' in (b :: r.1, r.2)
    end
  else ([::], Ok tt).

Section Core.
Variable F : fieldType.
Notation row := (seq F). Notation rows := (seq (seq F)). Notation gr := (gr F). Notation t2 := (t2 F).
Notation item := (item F).

(* core/utils.py 14-47 *)
Definition mx_of (d : nat) (H : rows) : 'M[F]_d := \matrix_(a < d, b < d) nth 0 (nth [::] H a) b.
Definition rows_of (d : nat) (M : 'M[F]_d) : rows := [seq [seq M a b | b <- enum 'I_d] | a <- enum 'I_d].
Definition stable_inverse (damping : option F) (H : rows) : res rows :=
  let d := size H in
  let M := mx_of d H in
  let lam := (if damping is Some x then x else 10%:R ^- 5) * \tr M / d%:R in
  let D := M + lam%:M in
  if D \in unitmx then Ok (rows_of (invmx D)) else Err RuntimeError.

(* block_projected_if.py 390-392, 514-516, 583-585: the columns of layer l *)
Definition lcols (ds : seq nat) (l : nat) (t : t2) : t2 :=
  let s := sumn (take l ds) in cols s (s + nth 0%N ds l) t.
(* 355-372; self.layer_dims[layer_idx] raises IndexError *)
Definition accs0 (nl : nat) (ds : seq nat) : res (seq (option rows * nat)) :=
  if (nl <= size ds)%N
  then Ok (mkseq (fun l => let d := nth 0%N ds l in (if (0 < d)%N then Some (nseq d (nseq d 0)) else None, 0%N)) nl)
  else Err IndexError.
(* 400: H += g^T @ g *)
Definition addmm (g H : rows) : rows :=
  mapi (fun a r => mapi (fun b x => x + \sum_(v <- g) nth 0 v a * nth 0 v b) r) H.
(* 388-400 *)
Definition acc_layer (ds : seq nat) (t : t2) (la : nat * (option rows * nat)) : res (option rows * nat) :=
  let g := lcols ds la.1 t in
  if la.2.1 is Some H then
    if (nrows g * t2c g == 0)%N then Ok la.2
    else if t2c g == size H then Ok (Some (addmm (t2r g) H), (la.2.2 + nrows g)%N) else Err RuntimeError
  else Ok la.2.
Definition acc_item (ds : seq nat) (accs : seq (option rows * nat)) (t : t2) : res (seq (option rows * nat)) :=
  rseq (acc_layer ds t) (zip (iota 0 (size accs)) accs).
(* 374-402 *)
Definition accumulate (nl : nat) (ds : seq nat) (items : seq (res item)) : res (seq (option rows * nat)) :=
  rbind (accs0 nl ds) (fun a0 => rfold (fun a r => rbind r (fun it => acc_item ds a it.1)) a0 items).
(* 404-424: the calls of store_preconditioner *)
Definition prec_calls (damping : option F) (accs : seq (option rows * nat)) : seq (nat * rows) * res unit :=
  calls (fun la : nat * (option rows * nat) =>
    if la.2.1 is Some H then
      if (0 < la.2.2)%N then
        rmap (fun P => Some (la.1, P)) (stable_inverse damping [seq [seq x / la.2.2%:R | x <- r] | r <- H])
      else Ok None
    else Ok None) (zip (iota 0 (size accs)) accs).

(* 500-529: one layer of one batch; [P] is the preconditioner of the layer *)
Definition ifvp_layer (d : nat) (P : option rows) (bt g : t2) : res gr :=
  let zs := G2 (T2 d (nseq (nrows bt) (nseq d 0))) in
  if P is Some M then
    if (nrows g * t2c g == 0)%N then Ok zs
    else if size M == t2c g
    then Ok (G2 (T2 (size M) [seq [seq \sum_(b < size M) nth 0 p b * nth 0 v b | p <- M] | v <- t2r g]))
    else Err RuntimeError
  else Ok zs.
Definition ifvp_batch (nl : nat) (ds : seq nat) (precs : seq (option rows)) (bt : t2) : res (seq gr) :=
  if (nl <= size ds)%N
  then rseq (fun l => ifvp_layer (nth 0%N ds l) (nth None precs l) bt (lcols ds l bt)) (iota 0 nl)
  else Err IndexError.
(* 586-589 *)
Definition copy_batch (nl : nat) (ds : seq nat) (bt : t2) : res (seq gr) :=
  if (nl <= size ds)%N then Ok [seq G2 (lcols ds l bt) | l <- iota 0 nl] else Err IndexError.
(* chunk_tensor[start_row:end_row] *)
Definition trows (t : t2) (se : nat * nat) : t2 := T2 (t2c t) (DiskModel.slice se (t2r t)).
(* 487-534 and 571-592: the calls of store_ifvp *)
Definition item_calls (f : t2 -> res (seq gr)) (mp : dict nat_eqType (nat * nat)) (it : item) :=
  calls (fun e : nat * (nat * nat) =>
    if dhas mp e.1 then rmap (fun g => Some (e.1, g)) (f (trows it.1 e.2)) else Ok None) it.2.
Fixpoint ifvp_calls (f : t2 -> res (seq gr)) (mp : dict nat_eqType (nat * nat)) (items : seq (res item))
  : seq (nat * seq gr) * res unit :=
  if items is r :: items' then
    match r with
    | Err e => ([::], Err e)
    | Ok it =>
      let c := item_calls f mp it in
      if c.2 is Err e then c else let c' := ifvp_calls f mp items' in (c.1 ++ c'.1, c'.2)
    end
  else ([::], Ok tt).

(* 873-884: the features of one test batch of n samples *)
Definition test_features (ds : option (seq nat)) (n : nat) (gs : seq gr) : seq t2 :=
  pmap (fun lg : nat * gr =>
    let zs := if ds is Some l then if (lg.1 < size l)%N then Some (T2 (nth 0%N l lg.1) (nseq n (nseq (nth 0%N l lg.1) 0)))
              else None else None in
    if lg.2 is G2 t then if (0 < nrows t * t2c t)%N then Some t else zs else zs) (zip (iota 0 (size gs)) gs).
(* 886-892 *)
Definition batch_tensor (ds : option (seq nat)) (n : nat) (gs : seq gr) : res (option t2) :=
  let fs := test_features ds n gs in if nilp fs then Ok None else rmap Some (DiskModel.cat1 fs).
(* 904-908; None when no batch has features *)
Definition test_tensor (ts : seq (option t2)) : res (option t2) :=
  let ts := pmap id ts in if nilp ts then Ok None else rmap Some (cat0 ts).

(* torch.matmul(A, B.t()) *)
Definition matmul_t (A B : t2) : res t2 :=
  if t2c A == t2c B
  then Ok (T2 (nrows B) [seq [seq \sum_(c < t2c A) nth 0 u c * nth 0 v c | v <- t2r B] | u <- t2r A])
  else Err RuntimeError.
(* if_score[r0:r1, c0:c1] = blk *)
Definition put_block (r0 r1 c0 c1 : nat) (blk S : rows) : res rows :=
  if bc_ok (size blk) (slice_len (size S) r0 r1)
  then Ok (mapi (fun i r => if (r0 <= i < r1)%N then
             mapi (fun j x => if (c0 <= j < c1)%N
                              then nth 0 (nth [::] blk (bc_idx (size blk) (i - r0))) (j - c0) else x) r else r) S)
  else Err RuntimeError.
(* 765-795: one chunk against one block of test samples *)
Definition score_block (mp : dict nat_eqType (nat * nat)) (tests : t2) (tb : nat) (it : item) (S : rows) (k : nat)
  : res rows :=
  let ts := (k * tb)%N in let te := minn (ts + tb) (nrows tests) in
  rbind (matmul_t it.1 (trows tests (ts, te))) (fun cs =>
  rfold (fun S (e : nat * (nat * nat)) =>
    if dget mp e.1 is Some (a, b) then put_block a b ts te (DiskModel.slice e.2 (t2r cs)) S else Ok S) S it.2).
(* 742-805: nb blocks of tb = min(32, n) test samples *)
Definition scores (mp : dict nat_eqType (nat * nat)) (total : nat) (tests : t2) (items : seq (res item)) : res rows :=
  let n := nrows tests in
  let tb := minn 32 n in
  let nb := ((n + tb).-1 %/ tb)%N in
  rfold (fun S r => rbind r (fun it => rfold (score_block mp tests tb it) S (iota 0 nb)))
        (nseq total (nseq n 0)) items.

(* self_influence[a:b] = v *)
Definition put_vec (r0 r1 : nat) (v S : row) : res row :=
  if bc_ok (size v) (slice_len (size S) r0 r1)
  then Ok (mapi (fun i x => if (r0 <= i < r1)%N then nth 0 v (bc_idx (size v) (i - r0)) else x) S)
  else Err RuntimeError.
(* torch.sum(A * B, dim=1); shapes broadcast *)
Definition rowdots (A B : t2) : res row :=
  if ((t2c A == t2c B) || (t2c A == 1)%N || (t2c B == 1)%N) &&
     ((nrows A == nrows B) || (nrows A == 1)%N || (nrows B == 1)%N) then
    let n := if nrows A == 1%N then nrows B else nrows A in
    let c := if t2c A == 1%N then t2c B else t2c A in
    Ok (mkseq (fun i => \sum_(j < c)
          nth 0 (nth [::] (t2r A) (bc_idx (nrows A) i)) (bc_idx (t2c A) j) *
          nth 0 (nth [::] (t2r B) (bc_idx (nrows B) i)) (bc_idx (t2c B) j)) n)
  else Err RuntimeError.
(* 640-675: zip stops at the shorter loader *)
Definition self_scores (mp : dict nat_eqType (nat * nat)) (total : nat) (gits iits : seq (res item)) : res row :=
  rfold (fun S ab => rbind ab.1 (fun gi => rbind ab.2 (fun fi =>
    rfold (fun S (e : nat * (nat * nat)) =>
      match dget mp e.1, dget fi.2 e.1 with
      | Some (a, b), Some se => rbind (rowdots (trows gi.1 e.2) (trows fi.1 se)) (fun v => put_vec a b v S)
      | _, _ => Ok S
      end) S gi.2))) (nseq total 0) (zip gits iits).
End Core.

(* ------------------------------------------------- the attributor with offload="none" or "cpu" *)
Section Attributor.
Variables (F : fieldType) (Name X Y : Type).
Notation rows := (seq (seq F)). Notation gr := (gr F). Notation off := (off F rows).
Variables (names : seq Name) (efim : bool) (damping : option F).
Variable tg : seq X -> res (seq gr).        (* hooks during cache; the loss may raise *)
Variable eg : seq Y -> res (seq gr).        (* hooks during _compute_test_gradients *)
Notation nl := (size names).

Record att := Att {
  a_full : bool;                   (* full_train_dataloader is not None *)
  a_comp : bool;                   (* compressors is not None *)
  a_dims : option (seq nat);       (* layer_dims *)
  a_off : off; a_meta : mstate Name; a_dir : dirst Name }.
Definition with_off o a := Att (a_full a) (a_comp a) (a_dims a) o (a_meta a) (a_dir a).
Definition with_meta m a := Att (a_full a) (a_comp a) (a_dims a) (a_off a) m (a_dir a).
Definition with_comp a := Att (a_full a) true (a_dims a) (a_off a) (a_meta a) (a_dir a).
(* 49-156; the metadata manager reads the directory (cache_dir or the working directory) *)
Definition new_att (dir : dirst Name) : att :=
  Att false false None (off0 F rows nl None) (open_manager dir names) dir.

Definition sbind (A B : Type) (x : att * res A) (f : A -> att -> att * res B) : att * res B :=
  match x.2 with Ok v => f v x.1 | Err e => (x.1, Err e) end.

(* 158-182: next(iter(loader)) *)
Definition setup_comp (Z : Type) (L : loader Z) (a : att) : att * res unit :=
  if a_comp a then (a, Ok tt)
  else if enum_batches L is [::] then (a, Err StopIteration) else (with_comp a, Ok tt).
(* 184-204 *)
Definition sync (a : att) : att :=
  let d := if a_dims a is Some d then Some d
           else if m_dims (a_meta a) is Some d then Some d else o_dims (a_off a) in
  if d is Some ds then
    Att (a_full a) (a_comp a) d (set_dims (Some ds) (a_off a))
        (if m_dims (a_meta a) is Some _ then a_meta a else set_layer_dims ds (a_meta a)) (a_dir a)
  else a.
(* if not self.metadata.batch_info: self.metadata._load_metadata_if_exists() *)
Definition reload (a : att) : att :=
  if nilp (m_info (a_meta a)) then with_meta (load (a_dir a) (a_meta a)) a else a.

(* 262-289: layer dimensions from the first batch *)
Definition detect (gs : seq gr) : seq nat :=
  [seq (if g is G2 t then if (0 < nrows t * t2c t)%N then t2c t else 0%N else 0%N) | g <- gs].
Definition last_rows (gs : seq gr) : option nat :=
  foldl (fun acc g => if g is G2 t then if (0 < nrows t * t2c t)%N then Some (nrows t) else acc else acc) None gs.
Definition set_first (b : nat) (gs : seq gr) (a : att) : att * res unit :=
  if a_dims a is Some _ then (a, Ok tt) else
  let ds := detect gs in
  let a1 := Att (a_full a) (a_comp a) (Some ds) (a_off a) (a_meta a) (a_dir a) in
  if dhas (m_info (a_meta a)) b || (last_rows gs != None)
  then let m := set_layer_dims ds (add_batch_info b (odflt 0%N (last_rows gs)) (a_meta a)) in
       (Att (a_full a) (a_comp a) (Some ds) (set_dims (Some ds) (a_off a)) m (a_dir a), Ok tt)
  else (a1, Err TypeError).                       (* total_samples += None *)
(* 244-296: the loop over the batches *)
Fixpoint cache_loop (bs : seq (nat * seq X)) (a : att) : att * res unit :=
  if bs is (k, b) :: bs' then
    match tg b with
    | Err e => (a, Err e)
    | Ok gs =>
      sbind (set_first k gs a) (fun _ a1 =>
      let s := store (0 : F) KGrad k gs (a_off a1) in
      sbind (with_off s.1 a1, s.2) (fun _ => cache_loop bs'))
    end
  else (a, Ok tt).
Definition save_meta (a : att) : att :=
  let s := save (a_meta a) (a_dir a) in Att (a_full a) (a_comp a) (a_dims a) (a_off a) s.1 s.2.

Definition loader_of (k : kind) (bs : nat) (a : att) : seq (res (item F)) := mem_loader (dict_of k (a_off a)) None bs.
(* 323-436 *)
Definition compute_preconditioners (a : att) : att * res unit :=
  let a1 := sync (reload a) in
  if a_dims a1 is Some ds then
    if efim then
      match accumulate nl ds (loader_of KGrad 4 a1) with
      | Err e => (a1, Err e)
      | Ok accs =>
        let c := prec_calls damping accs in
        (with_off (foldl (fun o lp => store_prec lp.1 (Some lp.2) o) (a_off a1) c.1) a1, c.2)
      end
    else (with_off (foldl (fun o l => store_prec l None o) (a_off a1) (iota 0 nl)) a1, Ok tt)
  else (a1, Err ValueError).
(* the calls of store_ifvp one after the other; the store itself may raise *)
Fixpoint store_all (cs : seq (nat * seq gr)) (a : att) : att * res unit :=
  if cs is (b, gs) :: cs' then
    let s := store (0 : F) KIfvp b gs (a_off a) in
    sbind (with_off s.1 a, s.2) (fun _ => store_all cs')
  else (a, Ok tt).
(* 438-600 *)
Definition compute_ifvp (a : att) : att * res unit :=
  let a1 := sync (reload a) in
  if a_dims a1 is Some ds then
    let m := mapping (a_meta a1) in
    let a2 := with_meta m.1 a1 in
    let c := if efim
             then ifvp_calls (ifvp_batch nl ds (mkseq (fun l => retrieve_prec l (a_off a2)) nl)) m.2 (loader_of KGrad 4 a2)
             else ifvp_calls (copy_batch nl ds) m.2 (loader_of KGrad 1 a2) in
    sbind (store_all c.1 a2) (fun _ a3 => (a3, c.2))
  else (a1, Err ValueError).

(* 206-321 *)
Definition cache (L : loader X) (a : att) : att * res unit :=
  let a := Att true (a_comp a) (a_dims a) (a_off a) (a_meta a) (a_dir a) in
  sbind (setup_comp L a) (fun _ a =>
  let i := initialize (of_loader L) (a_meta a) (a_dir a) in
  sbind (Att (a_full a) (a_comp a) (a_dims a) (a_off a) i.1.1 i.1.2, i.2) (fun _ a =>
  sbind (cache_loop (enum_batches L) a) (fun _ a =>
  let a := save_meta a in
  if efim then sbind (compute_preconditioners a) (fun _ => compute_ifvp) else (a, Ok tt)))).

(* 807-908 *)
Definition compute_test (ds : option (seq nat)) (L : loader Y) : res (option (t2 F)) :=
  rbind (rseq (fun kb : nat * seq Y => rbind (eg kb.2) (batch_tensor ds (size kb.2))) (enum_batches L)) (@test_tensor F).
(* 677-805 *)
Definition attribute (Lt : loader X) (Le : loader Y) (a : att) : att * res rows :=
  sbind (if a_full a then (a, Ok tt) else cache Lt a) (fun _ a =>
  let a := sync (reload a) in
  sbind (setup_comp Le a) (fun _ a =>
  sbind (if has_ifvp (a_off a) then (a, Ok tt) else compute_ifvp a) (fun _ a =>
  match compute_test (a_dims a) Le with
  | Err e => (a, Err e)
  | Ok None => (a, Ok (nseq (size (ld_data Lt)) (nseq (size (ld_data Le)) 0)))
  | Ok (Some t) =>
    if (nrows t * t2c t == 0)%N then (a, Ok (nseq (size (ld_data Lt)) (nseq (size (ld_data Le)) 0))) else
    let m := mapping (a_meta a) in
    let a := with_meta m.1 a in
    (a, scores m.2 (m_total m.1) t (loader_of KIfvp 2 a))
  end))).
(* 602-675 *)
Definition self_attribution (a : att) : att * res (seq F) :=
  let a := sync (reload a) in
  sbind (if has_ifvp (a_off a) then (a, Ok tt) else compute_ifvp a) (fun _ a =>
  let m := mapping (a_meta a) in
  let a := with_meta m.1 a in
  (a, self_scores m.2 (m_total m.1) (loader_of KGrad 4 a) (loader_of KIfvp 4 a))).

(* a history of calls on one attributor, and what each call returned *)
Inductive op := OCache of loader X | OAttr of loader X & loader Y | OSelf.
Inductive ans := ADone | ATable of rows | AVec of seq F.
Definition step (o : op) (a : att) : att * res ans :=
  match o with
  | OCache L => let r := cache L a in (r.1, rmap (fun _ => ADone) r.2)
  | OAttr L1 L2 => let r := attribute L1 L2 a in (r.1, rmap ATable r.2)
  | OSelf => let r := self_attribution a in (r.1, rmap AVec r.2)
  end.
Fixpoint run (os : seq op) (a : att) : seq (res ans) :=
  if os is o :: os' then let r := step o a in r.2 :: run os' r.1 else [::].
End Attributor.
Arguments OSelf {X Y}. Arguments ADone {F}.
