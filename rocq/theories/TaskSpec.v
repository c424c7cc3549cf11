(* Specification vocabulary for flattened parameters and AttributionTask. *)
Set Warnings "-notation-overridden,-ambiguous-paths".
From mathcomp Require Import all_ssreflect all_algebra zify.
From Verif Require Import Py Dict TaskModel.
Set Implicit Arguments. Unset Strict Implicit. Unset Printing Implicit Defensive.

Section Spec.
Variables (A : eqType) (F : Type).
Local Notation name := (name A).
Local Notation params := (params A F).
Local Notation arch := (arch A).

(* number of elements of a shape, as a product over dimensions *)
Definition volume (sh : seq nat) : nat := \prod_(n <- sh) n.

(* [ps] holds exactly the parameters listed in [m], in that order, with the
   declared shapes *)
Definition fits (m : arch) (ps : params) : Prop :=
  [seq (p.1, t_shape p.2) | p <- ps] = [seq (p.1, p_shape p.2) | p <- m]
  /\ all (fun p => size (t_data p.2) == volume (t_shape p.2)) ps.

(* the trainable part of a model, and of a complete state *)
Definition only_trainable (m : arch) (ps : params) : params :=
  [seq p <- ps | if dget m p.1 is Some q then p_grad q else false].
Definition total (m : arch) : nat := \sum_(p <- m | p_grad p.2) volume (p_shape p.2).

(* data of a named parameter ([::] if absent) *)
Definition data (ps : params) (k : name) : seq F := if dget ps k is Some t then t_data t else [::].

(* the part of the argument [x] that belongs to layer [k] of the selection [L] *)
Definition offset (ps : params) (L : seq name) (k : name) : nat :=
  \sum_(l <- take (index k L) L) size (data ps l).
Definition part (ps : params) (L : seq name) (x : seq F) (k : name) : seq F :=
  take (size (data ps k)) (drop (offset ps L k) x).
Definition total_of (ps : params) (L : seq name) : nat := \sum_(l <- L) size (data ps l).
(* the flat vector of the selected parameters, in the order of the selection *)
Definition gather (ps : params) (L : seq name) : seq F := flatten [seq data ps k | k <- L].

(* [ps] with exactly the layers [L] replaced by the parts of [x], shapes kept *)
Definition replace (ps : params) (L : seq name) (x : seq F) : params :=
  [seq (p.1, Tensor (t_shape p.2) (if p.1 \in L then part ps L x p.1 else t_data p.2)) | p <- ps].

(* a selection without repetitions among the given parameters *)
Definition selection (ps : params) (L : seq name) : Prop :=
  uniq L /\ {subset L <= dkeys ps}.

(* ---- histories of evaluations of partial functions sharing one dictionary:
   each evaluation is a selection and an argument *)
Definition evals := seq (seq name * seq F).
(* selections without repetitions, arguments long enough *)
Definition valid (ps : params) (h : evals) : Prop :=
  forall i, i < size h -> let e := nth ([::], [::]) h i in
    selection ps e.1 /\ total_of ps e.1 <= size e.2.
(* the last value written for [k], or the original one *)
Definition last_value (ps : params) (h : evals) (k : name) : seq F :=
  foldl (fun v e => if k \in e.1 then part ps e.1 e.2 k else v) (data ps k) h.
Definition current (ps : params) (h : evals) : params :=
  [seq (p.1, Tensor (t_shape p.2) (last_value ps h p.1)) | p <- ps].
End Spec.

Section SpecTask.
Variables (A : eqType) (F : Type) (I : eqType).
Local Notation name := (name A).
Local Notation params := (params A F).
Local Notation arch := (arch A).
Variable E : tenv A F I.

(* python indexing of the list of checkpoints, negative indices included *)
Definition checkpoint (c : int) : option params :=
  let n := size (te_ckpts E) in
  let i : int := (if (0 <= c) then c else (n%:Z + c))%R in
  if ((0 <= i) && (i < n%:Z))%R then Some (nth [::] (te_ckpts E) `|i|%N) else None.

(* a state dict with exactly the parameters of the model, in any order *)
Definition ckpt_ok (m : arch) (ck : params) : Prop :=
  {subset dkeys ck <= dkeys m} /\
  forall k q, dget m k = Some q ->
    exists t, [/\ dget ck k = Some t, t_shape t = p_shape q & size (t_data t) = volume (p_shape q)].

Definition task_ok : Prop :=
  [/\ uniq (dkeys (te_arch E)), trainable (te_arch E) <> [::]
    & forall i, i < size (te_ckpts E) -> ckpt_ok (te_arch E) (nth [::] (te_ckpts E) i)].

(* the trainable parameters of a checkpoint, in the order of the model *)
Definition weights (ck : params) : params :=
  [seq (p.1, Tensor (p_shape p.2) (data ck p.1)) | p <- trainable (te_arch E)].

(* the successful requests for functions in a history, in order *)
Definition valid_req (l : option (lname A)) (c : option int) : bool :=
  if l is Some _ then (if c is Some i then isSome (checkpoint i) else false) else true.
Definition obtained (h : seq (op A F I)) : seq (option (lname A) * option int) :=
  flatten [seq match o with
               | OGrad _ _ l c | OFunc _ l c => if valid_req l c then [:: (l, c)] else [::]
               | _ => [::]
               end | o <- h].

(* every evaluation, in the history, of a partial function requested for
   checkpoint [c] and layers [L], at the point [v], satisfies [P c L v] *)
Definition evaluations (P : int -> seq name -> seq F -> Prop) (h : seq (op A F I)) : Prop :=
  forall h1 i v h2, h = h1 ++ OCall A I i v :: h2 -> i < size (obtained h1) ->
  forall l c, nth (None, None) (obtained h1) i = (Some l, Some c) -> P c (names_of l) v.

(* evaluations at the checkpoint's own values of the selected layers *)
Definition at_checkpoint (c : int) (L : seq name) (v : seq F) : Prop :=
  exists ck, [/\ checkpoint c = Some ck, selection (weights ck) L & v = gather (weights ck) L].
(* evaluations anywhere, of functions over one fixed selection *)
Definition over_layers (L0 : seq name) (c : int) (L : seq name) (v : seq F) : Prop :=
  L = L0 /\ exists ck, [/\ checkpoint c = Some ck, selection (weights ck) L & total_of (weights ck) L <= size v].
End SpecTask.

Section SpecParam.
Variables (A : eqType) (F : Type) (I : eqType) (dot : A).
Local Notation name := (name A).
Local Notation params := (params A F).

(* distinct elements in order of first occurrence *)
Definition first_occ (L : seq name) : seq name := rev (undup (rev L)).
(* the names that a request selects: known ones, repetitions collapsed *)
Definition selected (W : params) (l : option (lname A)) : seq name :=
  if l is Some l' then first_occ [seq k <- names_of l' | k \in dkeys W] else dkeys W.

(* index of the layer of the i-th name: the number of changes of the text before
   the last dot, so far *)
Definition layer_index (ks : seq name) (i : nat) : nat :=
  \sum_(t < i) (layer_of dot (nth [::] ks t) != layer_of dot (nth [::] ks t.+1)).

(* what get_param must return for the parameters [W] of the checkpoint *)
Definition param_spec (W : params) (l : option (lname A)) (split : bool) (pm : option (seq nat))
  : res (pval F) :=
  let ks := selected W l in
  let vs := [seq data W k | k <- ks] in
  if split then
    match pm with
    | Some pm' => if pm' == [::] then Ok (PTuple vs (mkseq (layer_index ks) (size ks)))
                  else if size pm' == size ks then Ok (PTuple vs pm') else Err ValueError
    | None => Ok (PTuple vs (mkseq (layer_index ks) (size ks)))
    end
  else if ks is [::] then Err StopIteration else Ok (PFlat (flatten vs)).

(* the gradient of a function at a point depends on the function only through
   its values at points of the same size *)
Definition local_grad (R : Type) (gradv : I -> (arg F -> res R) -> arg F -> res R) : Prop :=
  forall dims f1 f2 v, (forall w, size w = size v -> f1 (Flat w) = f2 (Flat w)) ->
    gradv dims f1 (Flat v) = gradv dims f2 (Flat v).
End SpecParam.
