(* KNNShapleyAttributor.attribute (dattri/algorithm/data_shapley.py 94-212). *)
Set Warnings "-notation-overridden,-ambiguous-paths".
From mathcomp Require Import all_ssreflect all_algebra.
From Verif Require Import Py Tensor AttrModel.
Set Implicit Arguments. Unset Strict Implicit. Unset Printing Implicit Defensive.
Import GRing.Theory Num.Theory.
Local Open Scope ring_scope.

Section Knn.
Variables (F : realFieldType) (X Lab : Type).
Variable lab_eq : Lab -> Lab -> bool.          (* python == on labels *)
(* distance_func(test_batch, train_batch): pairwise distances, first argument is
   the test batch (line 166) *)
Variable dist : X -> X -> F.
(* batch[-1]: the label of a sample (lines 186, 189) *)
Variable lab : X -> Lab.
(* torch.argsort of one row (line 191), ties broken arbitrarily *)
Variable argsort : seq F -> seq nat.
Variable K : nat.                               (* self.k_neighbors *)

(* lines 156-189: loop state = (dist_matrix, train_labels, test_labels) *)
Definition knn_scan (tr te : loader X) (trl tel : seq Lab)
    : res (seq (seq F) * seq Lab * seq Lab) :=
  rfold (fun s qb =>
    rmap (fun s' : seq (seq F) * seq Lab * seq Lab =>
        let: (d, ltr, lte) := s' in
        (d, ltr, if size lte != size (ld_data te)
                 then lte ++ [seq lab y | y <- qb.2] else lte))
      (rfold (fun s' pb =>
          let: (d, ltr, lte) := s' in
          rmap (fun d' => (d', (if size ltr != size (ld_data tr)
                                then ltr ++ [seq lab x | x <- pb.2] else ltr), lte))
            (add_block (st te qb.1) (ed te qb.1) (st tr pb.1) (ed tr pb.1)
               [seq [seq dist y x | x <- pb.2] | y <- qb.2] d))
        s (enum_batches tr)))
  (zeros2 _ (size (ld_data te)) (size (ld_data tr)), trl, tel) (enum_batches te).

(* lines 194-210 for one test sample: [m i] = (train_labels[i] == test_labels[j]),
   [n] = num_train_samples, [srt] = nn_sorting[j].  nn_sorting[j,-1] raises
   IndexError for an empty training set; the division by k_neighbors is a python
   division, executed for every i, hence ZeroDivisionError for K = 0, n >= 2 *)
Definition knn_row (n : nat) (srt : seq nat) (m : nat -> bool) : res (seq F) :=
  if n == 0%N then Err IndexError else
  if (K == 0%N) && (1 < n)%N then Err ZeroDivisionError else
  let row := set_nth 0 (nseq n 0) (last 0%N srt) ((m (last 0%N srt))%:R / n%:R) in
  Ok (foldl (fun row i =>
        set_nth 0 row (nth 0%N srt i)
          (nth 0 row (nth 0%N srt i.+1)
           + ((m (nth 0%N srt i))%:R - (m (nth 0%N srt i.+1))%:R) / K%:R
             * (minn K i.+1)%:R / i.+1%:R))
      row (rev (iota 0 n.-1))).

(* the same with possibly missing labels ([None]: train_labels[i] or
   test_labels[j] raises IndexError; happens only with drop_last loaders).
   Order of evaluation: line 200 reads the label of the farthest sample; then
   for i = n-2, ... line 208 reads the label of sample i before line 210 divides *)
Definition knn_row_chk (n : nat) (srt : seq nat) (m : nat -> option bool) : res (seq F) :=
  if n == 0%N then Err IndexError else
  if m (last 0%N srt) == None then Err IndexError else
  if (1 < n)%N && (m (nth 0%N srt n.-2) == None) then Err IndexError else
  if (1 < n)%N && (K == 0%N) then Err ZeroDivisionError else
  if has (fun i => m i == None) srt then Err IndexError else
  knn_row n srt (fun i => odflt false (m i)).

(* lines 126-212; [trl], [tel] are the optional label arguments *)
Definition knn_attribute (tr te : loader X) (trl tel : option (seq Lab)) : res (seq (seq F)) :=
  let bad (o : option (seq Lab)) n := if o is Some l then size l != n else false in
  let n := size (ld_data tr) in
  if bad trl n then Err ValueError else
  if bad tel (size (ld_data te)) then Err ValueError else
  rbind (knn_scan tr te (odflt [::] trl) (odflt [::] tel)) (fun s =>
    let: (d, ltr, lte) := s in
    rmapM (fun jd : nat * seq F =>
      knn_row_chk n (argsort jd.2)
        (fun i => match ohead (drop i ltr), ohead (drop jd.1 lte) with
                  | Some a, Some b => Some (lab_eq a b) | _, _ => None end))
      (zip (iota 0 (size d)) d)).
End Knn.
