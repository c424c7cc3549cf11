(* Representer point selection: dattri/algorithm/utils.py 35-212 (line search, fine-tuning, weights),
   dattri/algorithm/rps.py, dattri/model_util/hook.py 19-66.  No proofs.
   Arithmetic is exact; losses may be infinite or not a number, gradients are finite.
   Not modelled: devices, the shuffle warning. *)
Set Warnings "-notation-overridden,-ambiguous-paths".
From mathcomp Require Import all_ssreflect all_algebra.
From Verif Require Import Py.
Set Implicit Arguments. Unset Strict Implicit. Unset Printing Implicit Defensive.
Import GRing.Theory Num.Theory.
Local Open Scope ring_scope.

Section Model.
Variable R : realFieldType.

(* a float: a number, an infinity or not a number *)
Inductive ext := Fin of R | PInf | NInf | NaN.
Definition eadd (a b : ext) : ext :=
  match a, b with
  | Fin x, Fin y => Fin (x + y)
  | NaN, _ => NaN | _, NaN => NaN
  | PInf, NInf => NaN | NInf, PInf => NaN
  | PInf, _ => PInf | _, PInf => PInf
  | NInf, _ => NInf | _, NInf => NInf
  end.
Definition eopp (a : ext) : ext := match a with Fin x => Fin (- x) | PInf => NInf | NInf => PInf | NaN => NaN end.
(* a >= 0; false if a is not a number *)
Definition ege0 (a : ext) : bool := match a with Fin x => 0 <= x | PInf => true | _ => false end.

(* ---- utils.py 57-96 *)
Section Search.
Variables (c d : nat).
Notation T := 'M[R]_(c, d).
Definition beta : R := 2%:R^-1.
Definition min_t : R := (10%:R ^+ 10)^-1.
(* torch.norm(g) ** 2 *)
Definition norm2 (g : T) : R := \sum_i \sum_j g i j ^+ 2.
(* the while loop, cut after [fuel] evaluations; [f theta] is the regularised loss at theta *)
Fixpoint search (fuel : nat) (f : T -> ext) (theta g : T) (val : ext) (t : R) : option T :=
  if fuel is fuel'.+1 then
    let cur := theta - t *: g in
    let val_n := f cur in
    if t < min_t then Some cur
    else
      let armijo := eadd (eadd val_n (eopp val)) (Fin (t * norm2 g / 2%:R)) in
      if ege0 armijo then search fuel' f theta g val (beta * t) else Some cur
  else None.
Definition search_fuel : nat := 64.
Definition line_search (f : T -> ext) (theta g : T) (val : ext) : option T := search search_fuel f theta g val 10%:R.

(* ---- utils.py 102-165 *)
(* torch.mean(torch.abs(g)) *)
Definition mean_abs (g : T) : R := (\sum_i \sum_j `|g i j|) / (c * d)%:R.
(* the variables of the loop: min_loss, finetuned_theta, init_grad *)
Record tune := Tune { t_min : R; t_best : option T; t_init : option R }.
(* [f] the regularised loss, [grd] its gradient; [epoch] the value of the loop variable, [k] the epochs left *)
Fixpoint tune_loop (f : T -> ext) (grd : T -> T) (k epoch : nat) (theta : T) (st : tune) : res T :=
  if k is k'.+1 then
    let g := grd theta in
    let m := mean_abs g in
    let next st' := if line_search f theta g (f theta) is Some th then tune_loop f grd k' epoch.+1 th st'
                    else Err RuntimeError (* never: see C48 *) in
    if m < t_min st then
      let init := if epoch == 0%N then Some m else t_init st in
      match init with
      | None => Err UnboundLocalError
      | Some g0 => if m < g0 / 200%:R then Ok theta else next (Tune m (Some theta) init)
      end
    else next st
  else if t_best st is Some th then Ok th else Err UnboundLocalError.
Definition finetune (f : T -> ext) (grd : T -> T) (num_epoch : nat) (theta : T) : res T :=
  tune_loop f grd num_epoch 0 theta (Tune (10%:R ^+ 4) None None).
End Search.

(* ---- the objective: utils.py 35-52 and 131-135.  [loss] is the loss of the pre-activations given the
   activated outputs of the model, [gloss] its gradient in the pre-activations (autograd) *)
Section Objective.
Variables (n c d : nat) (X : 'M[R]_(n, d)) (lam : R).
Definition phi (theta : 'M[R]_(c, d)) : 'M[R]_(n, c) := (theta *m X^T)^T.
Variables (loss : 'M[R]_(n, c) -> ext) (gloss : 'M[R]_(n, c) -> 'M[R]_(n, c)).
Definition objective (theta : 'M[R]_(c, d)) : ext := eadd (Fin (norm2 theta * lam)) (loss (phi theta)).
(* theta.grad: the gradient of the objective (see C52_gradient) *)
Definition grad_theta (theta : 'M[R]_(c, d)) : 'M[R]_(c, d) := (2%:R * lam) *: theta + (gloss (phi theta))^T *m X.
(* ---- utils.py 170-212, before the selection of the class *)
Definition alpha (theta : 'M[R]_(c, d)) : 'M[R]_(n, c) :=
  (- 2%:R * lam * n%:R)^-1 *: gloss (X *m theta^T).
End Objective.

(* ---- the attributor.  A loss family: for every number of samples the loss of pre-activations given targets,
   and its gradient. *)
Section Attributor.
Variables (c d : nat).
Variables (loss : forall n, 'M[R]_(n, c) -> 'M[R]_(n, c) -> ext) (gloss : forall n, 'M[R]_(n, c) -> 'M[R]_(n, c) -> 'M[R]_(n, c)).
(* sigmoid if there is one class, softmax otherwise: applied to the outputs, utils.py 130 and 199-203 *)
Variable activate : forall n, 'M[R]_(n, c) -> 'M[R]_(n, c).
Variables (lam : R) (epochs : nat) (w0 : 'M[R]_(c, d)).   (* l2_strength, epoch, weight of the final layer *)
(* what the hook collects for one sample: the input and the output of the final layer; the label *)
Record sample := Sample { sm_x : 'rV[R]_d; sm_out : 'rV[R]_c; sm_y : nat }.
Definition feats (s : seq sample) : 'M[R]_(size s, d) := \matrix_(i < size s) nth 0 [seq sm_x x | x <- s] i.
Definition outs (s : seq sample) : 'M[R]_(size s, c) := \matrix_(i < size s) nth 0 [seq sm_out x | x <- s] i.
(* model_util/hook.py 59-66: the batches are concatenated; torch.cat refuses an empty list *)
Definition final_layer_io (batches : seq (seq sample)) : res (seq sample) :=
  if batches is [::] then Err RuntimeError else Ok (flatten batches).
Definition tune_on (s : seq sample) : res 'M[R]_(c, d) :=
  let y := activate (outs s) in
  finetune (objective (feats s) lam (fun p => loss p y)) (grad_theta (feats s) lam (fun p => gloss p y)) epochs w0.
(* rps.py 65-72: the attributes that change *)
Record attributor := Rps { a_full : bool; a_theta : option 'M[R]_(c, d) }.
Definition init : attributor := Rps false None.
(* rps.py 75-103 *)
Definition cache (a : attributor) (full : seq (seq sample)) : attributor * res unit :=
  let a' := Rps true (a_theta a) in
  match rbind (final_layer_io full) tune_on with
  | Ok th => (Rps true (Some th), Ok tt)
  | Err e => (a', Err e)
  end.
(* torch.nn.functional.normalize: rows divided by max(norm, 1e-12) *)
Variable nrm : 'rV[R]_d -> R.
Definition eps : R := (10%:R ^+ 12)^-1.
Definition normalize n (X : 'M[R]_(n, d)) : 'M[R]_(n, d) :=
  \matrix_i ((Num.max (nrm (row i X)) eps)^-1 *: row i X).
(* alpha[arange(n).unsqueeze(1), y_test.repeat(n, 1)] for several classes, alpha itself (one column) for one;
   labels are not negative *)
Definition weight n (al : 'M[R]_(n, c)) (i : 'I_n) (y : nat) : R :=
  match insub (if c == 1%N then 0%N else y) with Some j => al i j | None => 0 end.
(* rps.py 106-182 *)
Variable normed : bool.
Definition attribute (a : attributor) (train test : seq (seq sample)) : attributor * res (seq (seq R)) :=
  match final_layer_io train with
  | Err e => (a, Err e)
  | Ok tr =>
    let: (a', tuned) := if a_full a then (a, Ok tt)
                        else match tune_on tr with
                             | Ok t => (Rps false (Some t), Ok tt)
                             | Err e => (a, Err e)
                             end in
    (a', rbind tuned (fun _ => rbind (final_layer_io test) (fun te =>
      if a_theta a' is Some theta then
        if (c != 1%N) && ~~ all (fun s => (sm_y s < c)%N) te then Err IndexError
        else
          let al := alpha (feats tr) lam (fun p => gloss p (activate (outs tr))) theta in
          let xt := if normed then normalize (feats tr) else feats tr in
          let xe := if normed then normalize (feats te) else feats te in
          Ok [seq [seq (xt *m xe^T) i j * weight al i (nth 0%N (map sm_y te) j) | j : 'I_(size te) <- enum 'I_(size te)]
             | i : 'I_(size tr) <- enum 'I_(size tr)]
      else Err AttributeError)))
  end.
End Attributor.
End Model.
