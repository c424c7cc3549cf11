(* Attribution loops: BaseInnerProductAttributor (dattri/algorithm/base.py) and
   TracInAttributor (dattri/algorithm/tracin.py).
   Numbers are elements of a real (closed) field: no rounding. *)
Set Warnings "-notation-overridden,-ambiguous-paths".
From mathcomp Require Import all_ssreflect all_algebra.
From Verif Require Import Py Tensor.
Set Implicit Arguments. Unset Strict Implicit. Unset Printing Implicit Defensive.
Import GRing.Theory Num.Theory.
Local Open Scope ring_scope.

(* row of  A @ B.T , and one entry of einsum("ij,ij->i") *)
Definition dot (F : ringType) (p : nat) (u v : 'rV[F]_p) : F := \sum_k u 0 k * v 0 k.

(* relatif_method argument: "l", "theta" or any other string *)
Inductive relatif := RelL | RelTheta | RelOther.

(* apply a function that may raise to every row of a batch *)
Fixpoint rmapM (A B : Type) (f : A -> res B) (s : seq A) : res (seq B) :=
  match s with
  | [::] => Ok [::]
  | a :: s' => rbind (f a) (fun b => rmap (cons b) (rmapM f s'))
  end.

Section Base.
Variables (F : realFieldType) (X : Type) (p q : nat).

(* Oracles of one attributor object.  All are row-wise, as torch.func.vmap and
   the row-wise solvers are; checkpoint index first.
   [trans_test full c v]: transform_test_rep may iterate over
   self.full_train_dataloader. *)
Record oracles := Oracles {
  gen_train   : nat -> X -> 'rV[F]_p;                        (* generate_train_rep *)
  gen_test    : nat -> X -> 'rV[F]_p;                        (* generate_test_rep *)
  trans_train : nat -> 'rV[F]_p -> 'rV[F]_q;                 (* transform_train_rep *)
  trans_test  : loader X -> nat -> 'rV[F]_p -> 'rV[F]_q;     (* transform_test_rep *)
  comp_denom  : loader X -> nat -> 'rV[F]_p -> option 'rV[F]_p -> relatif -> res F
                                                             (* _compute_denom, one row *)
}.
Variable O : oracles.

(* base.py 372-386 (and 539-553): denominators of one train batch;
   for "l" generate_test_rep is applied to the *train* batch *)
Definition batch_denom (full : loader X) (rel : option relatif) (c : nat) (xb : seq X)
    : res (option (seq F)) :=
  match rel with
  | None => Ok None
  | Some r =>
    rmap (@Some _) (rmapM (fun x =>
      comp_denom O full c (gen_train O c x)
        (match r with RelL => Some (gen_test O c x) | _ => None end) r) xb)
  end.

(* base.py 443-447:  train @ test.T / denom.unsqueeze(-1)  *)
Definition base_block (full : loader X) (c : nat) (den : option (seq F))
    (xb yb : seq X) : seq (seq F) :=
  let rows := [seq [seq dot (trans_train O c (gen_train O c x))
                            (trans_test O full c (gen_test O c y)) | y <- yb] | x <- xb] in
  match den with
  | None => rows
  | Some ds => [seq [seq v / rd.2 | v <- rd.1] | rd <- zip rows ds]
  end.

(* base.py 341-448: body of the checkpoint loop.  [ok_tr], [ok_te]: the batches
   of the loader are tuples, lists or dicts (TypeError otherwise, 350-365,
   399-413) *)
Definition base_ckpt (ok_tr ok_te : bool) (full tr te : loader X) (rel : option relatif)
    (c : nat) (out : seq (seq F)) : res (seq (seq F)) :=
  rfold (fun o pb =>
    if ~~ ok_tr then Err TypeError else
    rbind (batch_denom full rel c pb.2) (fun den =>
      rfold (fun o' qb =>
        if ~~ ok_te then Err TypeError else
        add_block (st tr pb.1) (ed tr pb.1) (st te qb.1) (ed te qb.1)
                  (base_block full c den pb.2 qb.2) o')
      o (enum_batches te)))
  out (enum_batches tr).

(* base.py 331-452: attribute, once self.full_train_dataloader is known *)
Definition base_attribute_with (ok_tr ok_te : bool) (full tr te : loader X)
    (rel : option relatif) (n_ckpt : nat) : res (seq (seq F)) :=
  rfold (fun out c =>
    let out1 := [seq [seq v * c%:R | v <- row] | row <- out] in
    rmap (fun o => [seq [seq v / c.+1%:R | v <- row] | row <- o])
         (base_ckpt ok_tr ok_te full tr te rel c out1))
  (zeros2 _ (size (ld_data tr)) (size (ld_data te))) (iota 0 n_ckpt).

(* base.py 318-329 and 462-468: the object's only mutable field *)
Definition bstate := option (loader X).

(* base.py 242-256 cache *)
Definition base_cache (s : bstate) (full : loader X) : bstate := Some full.

(* base.py 290-452 attribute: the first call without cache pins its training
   loader as full training loader *)
Definition base_attribute (ok_tr ok_te : bool) (s : bstate) (tr te : loader X)
    (rel : option relatif) (n_ckpt : nat) : bstate * res (seq (seq F)) :=
  let full := odflt tr s in
  (Some full, base_attribute_with ok_tr ok_te full tr te rel n_ckpt).

(* base.py 509-589 self_attribute.  tda_output += influence_values updates the
   WHOLE 1-d output (line 581); with a denominator influence_values has shape
   (b,b), which torch cannot add in place to a 1-d tensor *)
Definition self_batch (full : loader X) (c : nat) (xb : seq X) : seq F :=
  [seq dot (trans_train O c (gen_train O c x)) (trans_test O full c (gen_test O c x)) | x <- xb].

Definition base_self_with (ok_tr : bool) (full tr : loader X) (rel : option relatif)
    (n_ckpt : nat) : res (seq F) :=
  rfold (fun out c =>
    let out1 := [seq v * c%:R | v <- out] in
    rmap (fun o => [seq v / c.+1%:R | v <- o])
      (rfold (fun o pb =>
         if ~~ ok_tr then Err TypeError else
         rbind (batch_denom full rel c pb.2) (fun den =>
           match den with
           | None => add_vec 0 (size o) (self_batch full c pb.2) o
           | Some _ => Err RuntimeError
           end))
       out1 (enum_batches tr)))
  (zeros1 _ (size (ld_data tr))) (iota 0 n_ckpt).

Definition base_self_attribute (ok_tr : bool) (s : bstate) (tr : loader X)
    (rel : option relatif) (n_ckpt : nat) : bstate * res (seq F) :=
  let full := odflt tr s in
  (Some full, base_self_with ok_tr full tr rel n_ckpt).
End Base.

Section IFDenom.
(* influence_function.py 134-174 (and the identical copies in the CG, LiSSA and
   DataInf classes): clamp_min(1e-12) then sqrt / norm then clamp_min(1e-12).
   [transformed] is transform_test_rep applied to the train representation;
   [eps] is 1e-12. A missing test representation (None * Tensor) is a TypeError. *)
Variables (F : rcfType) (p : nat) (eps : F).
Definition if_denom (transformed : 'rV[F]_p) (test_rep : option 'rV[F]_p)
    (r : relatif) : res F :=
  match r with
  | RelL => match test_rep with
            | Some t => Ok (Num.sqrt (Num.max (dot t transformed) eps))
            | None => Err TypeError
            end
  | RelTheta => Ok (Num.max (Num.sqrt (dot transformed transformed)) eps)
  | RelOther => Err ValueError
  end.
End IFDenom.

Section TracIn.
Variables (F : rcfType) (X : Type) (p q : nat).
(* tracin.py: per-sample loss gradient (train side), target gradient (test side),
   and the projection with ensemble_id = checkpoint index (the identity when no
   proj_dim is given).  The projector objects are re-created for every batch from
   the same parameters, so they are the same function (see ProjModel).
   torch.nan_to_num is the identity on field elements. *)
Variable grad_loss   : nat -> X -> 'rV[F]_p.
Variable grad_target : nat -> X -> 'rV[F]_p.
Variable proj        : nat -> 'rV[F]_p -> 'rV[F]_q.
(* eps of torch.nn.functional.normalize: 1e-12 *)
Variable eps : F.

(* torch.nn.functional.normalize(v): v / max(||v||, eps) *)
Definition normalize (v : 'rV[F]_q) : 'rV[F]_q :=
  (Num.max (Num.sqrt (dot v v)) eps)^-1 *: v.

(* tracin.py 229-256: one block *)
Definition tracin_block (normalized : bool) (c : nat) (w : F) (xb yb : seq X) : seq (seq F) :=
  [seq [seq
     (let g := proj c (grad_loss c x) in
      let h := proj c (grad_target c y) in
      if normalized then dot (normalize g) (normalize h) * w else dot g h * w)
   | y <- yb] | x <- xb].

(* tracin.py 69-258 attribute *)
Definition tracin_attribute (ok_tr ok_te normalized : bool) (n_ckpt : nat) (ws : seq F)
    (tr te : loader X) : res (seq (seq F)) :=
  if n_ckpt != size ws then Err ValueError else
  rfold (fun out cw =>
    rfold (fun o pb =>
      if ~~ ok_tr then Err TypeError else
      rfold (fun o' qb =>
        if ~~ ok_te then Err TypeError else
        add_block (st tr pb.1) (ed tr pb.1) (st te qb.1) (ed te qb.1)
                  (tracin_block normalized cw.1 cw.2 pb.2 qb.2) o')
      o (enum_batches te))
    out (enum_batches tr))
  (zeros2 _ (size (ld_data tr)) (size (ld_data te))) (zip (iota 0 n_ckpt) ws).

(* tracin.py 260-384 self_attribute *)
Definition tracin_self_attribute (ok_tr normalized : bool) (n_ckpt : nat) (ws : seq F)
    (tr : loader X) : res (seq F) :=
  if n_ckpt != size ws then Err ValueError else
  rfold (fun out cw =>
    rfold (fun o pb =>
      if ~~ ok_tr then Err TypeError else
      add_vec (st tr pb.1) (ed tr pb.1)
        (if normalized then nseq (ed tr pb.1 - st tr pb.1) (1 * cw.2)
         else [seq (let g := proj cw.1 (grad_loss cw.1 x) in dot g g * cw.2) | x <- pb.2]) o)
    out (enum_batches tr))
  (zeros1 _ (size (ld_data tr))) (zip (iota 0 n_ckpt) ws).
End TracIn.

(* One attributor object (base.py 70-91, 242-256, 318-329, 486-497): the
   operations a user can call and their effect on self.full_train_dataloader. *)
Section Hist.
Variables (F : realFieldType) (X : Type) (p q : nat) (O : oracles F X p q).
Inductive bop := OpCache (l : loader X) | OpAttr (tr te : loader X) (rel : option relatif) (C : nat)
  | OpSelf (tr : loader X) (rel : option relatif) (C : nat).
Definition bstep (s : bstate X) (o : bop) : bstate X :=
  match o with
  | OpCache l => base_cache s l
  | OpAttr tr te rel C => (base_attribute O true true s tr te rel C).1
  | OpSelf tr rel C => (base_self_attribute O true s tr rel C).1
  end.
End Hist.

