(* KNNShapleyAttributor as constructed without a distance function: default_dist_func and the constructor
   (dattri/algorithm/data_shapley.py 20-40, 43-92, 94-212 through KnnModel).
   A batch is (features, ..., labels); the features of a data set are the rows of one tensor, so all samples of a loader
   have the same feature shape.  Exact square roots instead of rounding.
   No proofs. *)
Set Warnings "-notation-overridden,-ambiguous-paths".
From mathcomp Require Import all_ssreflect all_algebra.
From Verif Require Import Py Tensor AttrModel KnnModel.
Set Implicit Arguments. Unset Strict Implicit. Unset Printing Implicit Defensive.
Import GRing.Theory Num.Theory.
Local Open Scope ring_scope.

Section Default.
Variables (F : rcfType) (Lab : Type) (lab_eq : Lab -> Lab -> bool) (argsort : seq F -> seq nat).
(* one sample: flat features and label *)
Record sample := Sample { feat : seq F; slab : Lab }.
(* 38-40: one entry of torch.cdist(coord1, coord2), d columns *)
Definition cdist1 (d : nat) (y x : sample) : F :=
  Num.sqrt (\sum_(k < d) (nth 0 (feat y) k - nth 0 (feat x) k) ^+ 2).
(* torch.cdist on whole batches followed by the in-place addition of line 181: one-dimensional inputs and different
   numbers of columns are refused by cdist; with more than two dimensions either cdist refuses the batch dimensions or
   its result has more than two dimensions, which the addition refuses.  [str], [ste]: shape of one sample's features *)
Definition cdist_cols (ste str : seq nat) : res nat :=
  match ste, str with
  | [:: d], [:: d'] => if d == d' then Ok d else Err RuntimeError
  | _, _ => Err RuntimeError
  end.
(* 126-212 with distance_func = default_dist_func: the label lists are checked first; cdist is called once for every
   pair of batches *)
Definition knn_default (K : nat) (str ste : seq nat) (tr te : loader sample) (trl tel : option (seq Lab)) : res (seq (seq F)) :=
  let bad (o : option (seq Lab)) n := if o is Some l then size l != n else false in
  if bad trl (size (ld_data tr)) || bad tel (size (ld_data te)) then Err ValueError else
  if (nbatches tr == 0%N) || (nbatches te == 0%N)
  then knn_attribute lab_eq (fun _ _ => 0) slab argsort K tr te trl tel
  else rbind (cdist_cols ste str) (fun d => knn_attribute lab_eq (cdist1 d) slab argsort K tr te trl tel).
(* 45-88 and attribute: [task] tells whether a task is passed, [df] is distance_func *)
Definition knn_user (task : bool) (df : option (sample -> sample -> F)) (K : nat) (str ste : seq nat)
    (tr te : loader sample) (trl tel : option (seq Lab)) : res (seq (seq F)) :=
  if task then Err NotImplementedError else
  if df is Some f then knn_attribute lab_eq f slab argsort K tr te trl tel else knn_default K str ste tr te trl tel.
End Default.
