(* IFAttributorDataInf (dattri/algorithm/influence_function.py 651-852) and the
   automatic layer map of AttributionTask (dattri/task.py 179-210). *)
Set Warnings "-notation-overridden,-ambiguous-paths".
From mathcomp Require Import all_ssreflect all_algebra.
From Verif Require Import Py Tensor.
Set Implicit Arguments. Unset Strict Implicit. Unset Printing Implicit Defensive.
Import GRing.Theory Num.Theory.
Local Open Scope ring_scope.

(* task.py 179-210: parameters are (name without last component, numel) in
   named_parameters order; the layer index grows whenever the prefix changes *)
Section LayerMap.
Variable N : eqType.
Definition layer_map (ps : seq (N * nat)) : seq nat :=
  (foldl (fun st p =>
     let: (cur, idx, out) := st in        (* idx = current_index + 1 *)
     let idx' := if Some p.1 == cur then idx else idx.+1 in
     (Some p.1, idx', rcons out idx'.-1))
   (None, 0%N, [::]) ps).2.

(* influence_function.py 840-846: size of every layer *)
Definition split_sizes (ps : seq (N * nat)) : seq nat :=
  let m := layer_map ps in
  foldl (fun acc im => set_nth 0%N acc im.1 (nth 0%N acc im.1 + im.2)%N)
        (nseq (last 0%N m).+1 0%N) (zip m (unzip2 ps)).
End LayerMap.

(* 847-851: query[:, cur : cur + size] for consecutive layers; python slices are
   clipped to the length of the row.  A layer is (start, width). *)
Fixpoint layer_slices (len cur : nat) (sizes : seq nat) : seq (nat * nat) :=
  match sizes with
  | [::] => [::]
  | s :: sizes' => (minn cur len, (minn (cur + s) len - minn cur len)%N)
                   :: layer_slices len (cur + s) sizes'
  end.

Section DataInf.
Variables (F : realFieldType) (X : Type).

Definition slice (u : seq F) (a d : nat) : 'rV[F]_d := \row_k nth 0 u (a + k).
Definition unrow d (u : 'rV[F]_d) : seq F := [seq u 0 k | k <- enum 'I_d].

(* 747-780 _transform_single_test_rep, one test row *)
Definition single d (reg : F) (v g : 'rV[F]_d) : 'rV[F]_d :=
  reg^-1 *: (v - ((v *m g^T) 0 0 / (reg + (g *m g^T) 0 0)) *: g).

(* tensor.split(b, dim=0) for b > 0 *)
Fixpoint chunks_fuel (A : Type) (fuel b : nat) (s : seq A) : seq (seq A) :=
  match fuel with
  | 0%N => [::]
  | f.+1 => if s is [::] then [::] else take b s :: chunks_fuel f b (drop b s)
  end.
Definition split (A : Type) b (s : seq A) := chunks_fuel (size s) b s.

(* 799-820: one layer; [vs] test rows, [gs] cached gradients, both sliced *)
Definition layer_transform d (reg : F) (vs gs : seq 'rV[F]_d) : seq 'rV[F]_d :=
  let run := foldl (fun run chunk =>
      [seq rc.1 + rc.2 | rc <- zip run [seq \sum_(g <- chunk) single reg v g | v <- vs]])
    (nseq (size vs) 0) (split (size vs) gs) in
  [seq (size gs)%:R^-1 *: r | r <- run].

(* 739-821 transform_test_rep: [reg] is self.regularization (None -> 0.1);
   [cached] is self._cached_train_reps[ckpt_idx] (AttributeError before cache());
   [None] as inner result: every entry is inf or nan (division by reg = 0 on line
   783); torch.cat(dim=1) glues the layers of each row *)
Definition datainf_transform (reg : option F) (sizes : seq nat)
    (cached : option (seq (seq F))) (vs : seq (seq F)) : res (option (seq (seq F))) :=
  match cached with
  | None => Err AttributeError
  | Some gs =>
    let r := odflt (1 / 10%:R) reg in
    if r == 0 then Ok None else
    let len := size (head [::] vs) in
    Ok (Some (foldr (fun sl acc =>
        [seq bt.1 ++ bt.2 | bt <- zip
           [seq unrow u | u <- layer_transform r
              [seq slice v sl.1 sl.2 | v <- vs] [seq slice g sl.1 sl.2 | g <- gs]]
           acc])
      (nseq (size vs) [::]) (layer_slices len 0 sizes)))
  end.

(* 684-737 cache, one checkpoint: every *batch* is given a leading dimension of 1,
   so generate_train_rep returns one gradient per batch, [bgrad batch]; the first
   ceil(len(loader) * ratio) batches are used, ratio = num/den.  torch.cat of an
   empty list is a RuntimeError *)
Variable bgrad : seq X -> seq F.
Definition iter_number (len num den : nat) : nat := ((len * num + den.-1) %/ den)%N.
Definition datainf_cache (okb : bool) (num den : nat) (l : loader X) : res (seq (seq F)) :=
  let bs := take (iter_number (nbatches l) num den) (enum_batches l) in
  if bs is [::] then Err RuntimeError else
  if ~~ okb then Err TypeError else
  Ok [seq bgrad b.2 | b <- bs].
End DataInf.
