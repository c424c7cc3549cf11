(* EK-FAC statistics (dattri/func/fisher.py 239-546) and the EK-FAC test transform
   (dattri/algorithm/influence_function.py 1027-1093).
   Matrices of the statistics are entry functions nat -> nat -> F (sizes never matter
   for them).  The model's activations and output gradients per sample are oracles;
   estimate_* multiplies the mean loss by the batch size, so the gradient row of a
   sample is that of its own loss, whatever batch it is in. *)
Set Warnings "-notation-overridden,-ambiguous-paths".
From mathcomp Require Import all_ssreflect all_algebra.
From Verif Require Import Py.
Set Implicit Arguments. Unset Strict Implicit. Unset Printing Implicit Defensive.
Import GRing.Theory.
Local Open Scope ring_scope.

Section Stats.
Variables (F : fieldType) (L : eqType) (X : Type).
(* layer_cache[l] = (a_prev_raw, s_curr_raw) *)
Variable two_d : L -> bool.               (* a_prev_raw.ndim == 2 *)
Variable inp : L -> X -> seq F.           (* row of a 2-d input; influence_function.py 961-968 appends the 1 *)
Variable grads : L -> X -> seq (seq F).   (* rows of s_curr_raw.grad of one sample, one per time step *)

Definition mat := nat -> nat -> F.
Definition mscale (c : F) (m : mat) : mat := fun i j => c * m i j.
Definition madd (m1 m2 : mat) : mat := fun i j => m1 i j + m2 i j.
(* rows.transpose(0, 1) @ rows *)
Definition gram (rows : seq (seq F)) : mat := fun i j => \sum_(r <- rows) nth 0 r i * nth 0 r j.

(* curr_estimate[layer_name] = v *)
Definition upd (V : Type) (e : L -> option V) (l : L) (v : V) : L -> option V :=
  fun l' => if l' == l then Some v else e l'.

(* 282-295 and 370-379: running average, or the batch value the first time *)
Definition run_avg (total b : nat) (old : option mat) (new : mat) : mat :=
  match old with
  | Some m => madd (mscale (total%:R / (total + b)%:R) m) (mscale (b%:R / (total + b)%:R) new)
  | None => new
  end.

(* 259-260 / 339-341: a_prev is assigned only for 2-d inputs and keeps its previous
   value (or stays unbound) otherwise.  The mask is all ones (fisher.py 426-429), so
   masking is the identity and batch_samples is the batch size. *)
Definition bind_a (batch : seq X) (a_prev : option (seq (seq F))) (l : L) : option (seq (seq F)) :=
  if two_d l then Some [seq inp l x | x <- batch] else a_prev.

(* 262-295, one layer; the local variable a_prev survives from layer to layer *)
Definition cov_layer (total : nat) (batch : seq X)
    (s : option (seq (seq F)) * (L -> option (mat * mat))) (l : L) : res (option (seq (seq F)) * (L -> option (mat * mat))) :=
  if bind_a batch s.1 l is Some rows then
    let b := size batch in
    let ca := mscale b%:R^-1 (gram rows) in
    let cs := mscale b%:R^-1 (gram (flatten [seq grads l x | x <- batch])) in
    Ok (Some rows, upd s.2 l (run_avg total b (omap fst (s.2 l)) ca,
                              run_avg total b (omap snd (s.2 l)) cs))
  else Err UnboundLocalError.

(* 239-297 _update_covariance *)
Definition update_covariance (layers : seq L) (est : L -> option (mat * mat)) (total : nat) (batch : seq X) :=
  rmap snd (rfold (cov_layer total batch) (None, est) layers).

(* eigenvector matrices with their sizes: (q_a, q_s) *)
Variable cached_q : L -> (nat * mat) * (nat * mat).

(* 349-353, 368: one sample: dtheta = sum over time of ds (outer) a, then the squared
   entries of q_s @ dtheta @ q_a.T.  a_prev has one time step, so the loop of 354-365
   is never taken. *)
Definition sample_lambda (l : L) (a : seq F) (x : X) : mat := fun i j =>
  let: ((da, qa), (do, qs)) := cached_q l in
  (\sum_(p < do) \sum_(q < da) qs i p * (\sum_(r <- grads l x) nth 0 r p * nth 0 a q) * qa j q) ^+ 2.

(* 333-379 one layer *)
Definition lambda_layer (total : nat) (batch : seq X)
    (s : option (seq (seq F)) * (L -> option mat)) (l : L) : res (option (seq (seq F)) * (L -> option mat)) :=
  if bind_a batch s.1 l is Some rows then
    let b := size batch in
    let bl : mat := fun i j => b%:R^-1 * \sum_(ax <- zip rows batch) sample_lambda l ax.1 ax.2 i j in
    Ok (Some rows, upd s.2 l (run_avg total b (s.2 l) bl))
  else Err UnboundLocalError.

(* 300-381 _update_lambda *)
Definition update_lambda (layers : seq L) (est : L -> option mat) (total : nat) (batch : seq X) :=
  rmap snd (rfold (lambda_layer total batch) (None, est) layers).

(* 418-451 / 517-546: the loop over batches with  if i == max_iter - 1: break *)
Fixpoint est_loop (S : Type) (step : S -> nat -> seq X -> res S) (max_iter i total : nat)
    (bs : seq (seq X)) (s : S) : res S :=
  if bs is b :: bs' then
    rbind (step s total b) (fun s' =>
      if i.+1 == max_iter then Ok s' else est_loop step max_iter i.+1 (total + size b) bs' s')
  else Ok s.

(* 384-451; None = len(dataloader) *)
Definition estimate_covariance (layers : seq L) (bs : seq (seq X)) (max_iter : option nat) :=
  est_loop (update_covariance layers) (odflt (size bs) max_iter) 0 0 bs (fun=> None).
(* 476-546 *)
Definition estimate_lambda (layers : seq L) (bs : seq (seq X)) (max_iter : option nat) :=
  est_loop (update_lambda layers) (odflt (size bs) max_iter) 0 0 bs (fun=> None).
End Stats.

Section Transform.
Variable F : fieldType.

(* 1084: q_s.T @ ((q_s @ v @ q_a.T) / (lambda + damping)) @ q_a; None = inf/nan *)
Definition ekfac_apply o i (qs : 'M[F]_o) (qa : 'M[F]_i) (lam : 'M[F]_(o, i)) (damping : F)
    (v : 'M[F]_(o, i)) : option 'M[F]_(o, i) :=
  if [exists r, exists c, lam r c + damping == 0] then None
  else Some (qs^T *m (\matrix_(r, c) ((qs *m v *m qa^T) r c / (lam r c + damping))) *m qa).

(* one selected module: nn.Linear(m_in, m_out, bias) *)
Record modl := Modl { m_out : nat; m_in : nat; m_bias : bool }.
(* columns of its matrix: dim_in *)
Definition m_cols (m : modl) : nat := (m_in m + m_bias m)%N.

(* 1060-1068: take the weight and the bias of every module from the flat row *)
Fixpoint split_rep (mods : seq modl) (row : seq F) : seq (seq F * seq F) :=
  if mods is m :: ms then
    let w := take (m_out m * m_in m) row in
    let row' := drop (m_out m * m_in m) row in
    if m_bias m then (w, take (m_out m) row') :: split_rep ms (drop (m_out m) row')
    else (w, [::]) :: split_rep ms row'
  else [::].

(* 1073-1084: the matrix handed to the preconditioner: cat(weight.flatten,
   bias.flatten).reshape(dim_out, dim_in) *)
Definition v_mat (m : modl) (wb : seq F * seq F) : nat -> nat -> F :=
  fun r c => nth 0 (wb.1 ++ wb.2) (r * m_cols m + c).

(* 1085 flatten(start_dim=1) *)
Definition flat_mat (m : modl) (M : nat -> nat -> F) : seq F :=
  mkseq (fun k => M (k %/ m_cols m)%N (k %% m_cols m)%N) (m_out m * m_cols m).

(* 1027-1093 for one row; [op k] is the preconditioner of module k; ckpt_idx must be 0 *)
Definition ekfac_transform (op : nat -> (nat -> nat -> F) -> (nat -> nat -> F)) (mods : seq modl)
    (ckpt_idx : nat) (row : seq F) : res (seq F) :=
  if ckpt_idx != 0%N then Err ValueError
  else Ok (flatten [seq flat_mat p.2.1 (op p.1 (v_mat p.2.1 p.2.2))
                   | p <- zip (iota 0 (size mods)) (zip mods (split_rep mods row))]).
End Transform.
