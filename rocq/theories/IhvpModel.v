(* dattri/func/hessian.py (hvp, explicit / CG / LiSSA inverse) and the explicit
   inverse-Fisher products of dattri/func/fisher.py 29-135.
   Vectors are columns over a field; automatic differentiation is an oracle (the
   Jacobian blocks of the gradient at the point x). *)
Set Warnings "-notation-overridden,-ambiguous-paths".
From mathcomp Require Import all_ssreflect all_algebra.
From Verif Require Import Py Tensor.
Set Implicit Arguments. Unset Strict Implicit. Unset Printing Implicit Defensive.
Import GRing.Theory Num.Theory.
Local Open Scope ring_scope.

Inductive ad_mode := RevRev | RevFwd | OtherMode.

Section Hvp.
Variable F : fieldType.

(* hvp / hvp_at_x, hessian.py 31-221.  func has [k] positional tensor arguments,
   argument i has [dims i] entries; [J i] is the Jacobian of the gradient (taken
   with respect to argument a) with respect to argument i.
   rev-rev: vjp_fn(v)[argnums] is the transposed block;
   rev-fwd: jvp with zero tangents for the other arguments (108-119, 208-219). *)
Definition patched (k : nat) (dims : 'I_k -> nat) (a : 'I_k) (v : 'cV[F]_(dims a)) (i : 'I_k)
    : 'cV[F]_(dims i) :=
  match altP (i =P a) with
  | AltTrue e => castmx (congr1 dims (esym e), erefl 1%N) v
  | AltFalse _ => 0
  end.
Definition hvp (k : nat) (dims : 'I_k -> nat) (a : 'I_k)
    (J : forall i : 'I_k, 'M[F]_(dims a, dims i)) (mode : ad_mode) (reg : F) (v : 'cV[F]_(dims a))
    : res 'cV[F]_(dims a) :=
  match mode with
  | RevRev => Ok ((J a)^T *m v + reg *: v)
  | RevFwd => Ok ((\sum_(i < k) J i *m patched v i) + reg *: v)
  | OtherMode => Err IHVPUsageError
  end.

(* ihvp_explicit / ihvp_at_x_explicit, 256-272, 311-327:
   torch.linalg.solve(H + reg*eye, v.T).T ; the rows of v are the vectors.  A
   singular matrix is a LinAlgError (RuntimeError). *)
Definition ihvp_explicit n m (H : 'M[F]_n) (reg : F) (v : 'M[F]_(m, n)) : res 'M[F]_(m, n) :=
  let A := H + reg%:M in
  if A \in unitmx then Ok (invmx A *m v^T)^T else Err RuntimeError.

(* fisher.py 74-79, 124-133: grad_tensor @ grad_tensor.T for the 1-d gradient of
   the scalar func is the dot product, a 0-d tensor, which broadcasts against
   reg*eye *)
Definition ifvp_explicit n m (g : 'rV[F]_n) (reg : F) (v : 'M[F]_(m, n)) : res 'M[F]_(m, n) :=
  let A := \matrix_(i, j) ((g *m g^T) 0 0 + (reg%:M : 'M[F]_n) i j) in
  if A \in unitmx then Ok (invmx A *m v^T)^T else Err RuntimeError.
End Hvp.

(* ihvp_at_x_cg, 466-490: one vector.  [apply] is the hvp function.  The result
   None stands for a tensor with inf/nan entries: a division with zero
   denominator, which every later operation propagates.  tol is never read. *)
Section CG.
Variables (F : fieldType) (n : nat) (hv : 'cV[F]_n -> 'cV[F]_n).
Definition dot (u w : 'cV[F]_n) : F := (u^T *m w) 0 0.
Record cgst := CG { cg_x : 'cV[F]_n; cg_g : 'cV[F]_n; cg_d : 'cV[F]_n }.
Definition cg_init (v : 'cV[F]_n) : cgst :=
  let g := v - hv v in CG v g g.
Definition cg_step (s : cgst) : option cgst :=
  let ad := hv (cg_d s) in
  if dot (cg_d s) ad == 0 then None else
  let alpha := dot (cg_g s) (cg_g s) / dot (cg_d s) ad in  (* d_pre is g_pre *)
  let x := cg_x s + alpha *: cg_d s in
  let g := cg_g s - alpha *: ad in
  if dot (cg_g s) (cg_g s) == 0 then None else
  let beta := dot g g / dot (cg_g s) (cg_g s) in
  Some (CG x g (g + beta *: cg_d s)).
Fixpoint cg_loop (k : nat) (s : cgst) : option cgst :=
  if k is k'.+1 then obind (cg_loop k') (cg_step s) else Some s.
Definition cg1 (max_iter : nat) (v : 'cV[F]_n) : option 'cV[F]_n :=
  omap cg_x (cg_loop max_iter (cg_init v)).
(* 490: vmap over the rows *)
Definition ihvp_cg (max_iter : nat) (vs : seq 'cV[F]_n) : seq (option 'cV[F]_n) :=
  [seq cg1 max_iter v | v <- vs].
End CG.

(* _check_input_size, 783-827: shapes of the arguments, in_dims *)
Definition check_input_size (shapes : seq (seq nat)) (in_dims : option (seq (option nat))) : res nat :=
  let dims := odflt (nseq (size shapes) (Some 0%N)) in_dims in
  if size dims != size shapes then Err IHVPUsageError else
  rmap (odflt 1%N) (rfold (fun b sd =>
      match sd.2 with
      | None => Ok b
      | Some d =>
        if (d < size sd.1)%N then
          let s := nth 0%N sd.1 d in
          match b with
          | None => Ok (Some s)
          | Some b0 => if b0 == s then Ok b else Err IHVPUsageError
          end
        else Err IndexError
      end) None (zip shapes dims)).

(* _sample_random_batch, 746-780: [perm] is the result of torch.randperm; an
   argument is its list of entries along its batch dimension, or is shared *)
Definition sample_batch (A : Type) (a0 : A) (perm : seq nat) (bs : nat) (xs : seq A) : seq A :=
  [seq nth a0 xs i | i <- take bs perm].

(* ihvp_lissa, 871-923.  [hess r t] is the Hessian of func on the batch drawn in
   repeat r, step t (hvp(func) with regularization 0).  scaling = 0 is outside
   the model. *)
Section Lissa.
Variables (F : fieldType) (n : nat).
Definition lissa_step (damping scaling : F) (vec : 'cV[F]_n) (H : 'M[F]_n) (cur : 'cV[F]_n) : 'cV[F]_n :=
  vec + (1 - damping) *: cur - scaling^-1 *: (H *m cur).
Definition lissa_repeat (damping scaling : F) (hess : nat -> 'M[F]_n) (depth : nat) (vec : 'cV[F]_n)
    : 'cV[F]_n :=
  scaling^-1 *: foldl (fun cur t => lissa_step damping scaling vec (hess t) cur) vec (iota 0 depth).
(* torch.mean(torch.stack(...)): torch.stack([]) is a RuntimeError *)
Definition lissa (damping scaling : F) (hess : nat -> nat -> 'M[F]_n) (num_repeat depth : nat)
    (vec : 'cV[F]_n) : res 'cV[F]_n :=
  if num_repeat is 0%N then Err RuntimeError else
  Ok (num_repeat%:R^-1 *: \sum_(r < num_repeat) lissa_repeat damping scaling (hess r) depth vec).

(* with the batches made explicit: data [xs], randperm oracle, batch Hessian *)
Definition ihvp_lissa (X : Type) (x0 : X) (bhess : seq X -> 'M[F]_n) (perm : nat -> nat -> seq nat)
    (xs : seq X) (batch_size num_repeat depth : nat) (damping scaling : F) (vec : 'cV[F]_n)
    : res 'cV[F]_n :=
  lissa damping scaling (fun r t => bhess (sample_batch x0 (perm r t) batch_size xs))
        num_repeat depth vec.

(* ihvp_at_x_lissa, 987-1000: the positional call passes num_repeat where
   ihvp_lissa expects batch_size and vice versa *)
Definition ihvp_at_x_lissa (X : Type) (x0 : X) (bhess : seq X -> 'M[F]_n) (perm : nat -> nat -> seq nat)
    (xs : seq X) (batch_size num_repeat depth : nat) (damping scaling : F) (vec : 'cV[F]_n)
    : res 'cV[F]_n :=
  ihvp_lissa x0 bhess perm xs num_repeat batch_size depth damping scaling vec.
End Lissa.

(* IFAttributorExplicit / CG / LiSSA .transform_test_rep,
   influence_function.py 81-132, 223-275, 538-589: for every batch of the full
   training loader the inverse for the loss of that batch is applied to the test
   rows, and the results are added up (starting from the python int 0: with no
   batch the result is that int, here None).  [inv b] is the ihvp on batch b. *)
Section IF.
Variables (F : fieldType) (n m : nat) (X : Type).
Definition if_transform (okb : bool) (inv : seq X -> 'M[F]_(m, n) -> res 'M[F]_(m, n))
    (l : loader X) (rep : 'M[F]_(m, n)) : res (option 'M[F]_(m, n)) :=
  rfold (fun acc b =>
      if okb then rmap (fun r => Some (if acc is Some a then a + r else r)) (inv b.2 rep)
      else Err TypeError)
    None (enum_batches l).
End IF.
