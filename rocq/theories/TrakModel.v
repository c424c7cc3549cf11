(* TRAKAttributor (dattri/algorithm/trak.py 32-548). Numbers are field elements. *)
Set Warnings "-notation-overridden,-ambiguous-paths".
From mathcomp Require Import all_ssreflect all_algebra.
From Verif Require Import Py Tensor.
Set Implicit Arguments. Unset Strict Implicit. Unset Printing Implicit Defensive.
Import GRing.Theory Num.Theory.
Local Open Scope ring_scope.

Section Trak.
Variables (F : realFieldType) (X : Type) (p q : nat).
(* Oracles, row-wise as torch.func.vmap is; checkpoint index first.
   [prob] is correct_probability_func; modelled as documented (a 0-d tensor per
   sample; for a function returning shape (1,) cache() flattens, attribute() does
   not, and that case is outside the model). nan_to_num is the identity here. *)
Variable grad_loss   : nat -> X -> 'rV[F]_p.
Variable grad_target : nat -> X -> 'rV[F]_p.
Variable prob        : nat -> X -> F.
(* random_project(..)(., ensemble_id=ckpt_idx): re-created for every batch from
   the same parameters, hence one function per checkpoint (see ProjModel) *)
Variable proj        : nat -> 'rV[F]_p -> 'rV[F]_q.
Variable scaler : F.            (* self.norm_scaler, 83-90 *)
Variable reg : F.               (* self.regularization *)
Variable C : nat.               (* len(task.get_checkpoints()) *)

(* 158-173, 290-309, 352-367: gradient / norm_scaler, then projection *)
Definition phi_tr (c : nat) (x : X) : 'rV[F]_q := proj c (scaler^-1 *: grad_loss c x).
Definition phi_te (c : nat) (y : X) : 'rV[F]_q := proj c (scaler^-1 *: grad_target c y).

(* torch.cat of the per-batch lists: RuntimeError when there is no batch.
   [okb]: batches are tuples, lists or dicts, otherwise TypeError (141-156) *)
Definition cat_batches (A : Type) (okb : bool) (f : X -> A) (l : loader X) : res (seq A) :=
  if nbatches l == 0%N then Err RuntimeError else
  if ~~ okb then Err TypeError else
  Ok (foldl (fun acc b => acc ++ [seq f x | x <- b.2]) [::] (enum_batches l)).

(* 188-189, 369-370:  X.T @ X ; diagonal().add_(reg) *)
Definition kernel (xs : seq 'rV[F]_q) : 'M[F]_q := \sum_(x <- xs) x^T *m x + reg%:M.

(* 190: torch.linalg.solve(K, X.T): one column per row of X; a singular matrix is
   a LinAlgError (a RuntimeError) *)
Definition solve_cols (xs : seq 'rV[F]_q) : res (seq 'cV[F]_q) :=
  if kernel xs \in unitmx then Ok [seq invmx (kernel xs) *m x^T | x <- xs]
  else Err RuntimeError.

(* running = running * count + new ; running /= count+1, where the first running
   value is the python int 0 *)
Definition ravg (run : option (seq F)) (cnt : nat) (new : seq F) : seq F :=
  let s := match run with
           | None => new
           | Some r => [seq ab.1 * cnt%:R + ab.2 | ab <- zip r new]
           end in
  [seq v / cnt.+1%:R | v <- s].
Definition ravg2 (run : option (seq (seq F))) (cnt : nat) (new : seq (seq F)) : seq (seq F) :=
  match run with
  | None => [seq ravg None cnt r | r <- new]
  | Some rr => [seq ravg (Some ab.1) cnt ab.2 | ab <- zip rr new]
  end.

(* the object: full_train_dataloader (None until cache), and
   (inv_XTX_XT_list, Q), absent until a cache() call has completed *)
Record tstate := TState {
  t_full : option (loader X);
  t_mats : option (seq (seq 'cV[F]_q) * option (seq F))
}.
Definition t_init : tstate := TState None None.

(* 105-202 cache: the loader is recorded first, the matrices only at the end *)
Definition trak_cache_run (okb : bool) (l : loader X)
    : res (seq (seq 'cV[F]_q) * option (seq F)) :=
  rfold (fun s c =>
    rbind (cat_batches okb (phi_tr c) l) (fun xs =>
    rbind (cat_batches okb (fun x => 1 - prob c x) l) (fun qs =>
    rbind (solve_cols xs) (fun cols =>
      Ok (rcons s.1 cols, Some (ravg s.2 c qs))))))
  ([::], None) (iota 0 C).

Definition trak_cache (okb : bool) (s : tstate) (l : loader X) : tstate * res unit :=
  match trak_cache_run okb l with
  | Ok m => (TState (Some l) (Some m), Ok tt)
  | Err e => (TState (Some l) (t_mats s), Err e)
  end.

(* test_projected_grad @ inv : rows are test samples *)
Definition test_block (ys : seq 'rV[F]_q) (cols : seq 'cV[F]_q) : seq (seq F) :=
  [seq [seq (y *m u) 0 0 | u <- cols] | y <- ys].

(* 391-393: (running_xinv * Q.unsqueeze(0)).T ; with no checkpoint both are the
   python int 0, which has no attribute "to" *)
Definition finish (xinv : option (seq (seq F))) (Q : option (seq F)) : res (seq (seq F)) :=
  match xinv, Q with
  | Some m, Some qs =>
      Ok (mkseq (fun i => [seq nth 0 row i * nth 0 qs i | row <- m]) (size qs))
  | _, _ => Err AttributeError
  end.

(* 204-393 attribute; does not change the object *)
Definition trak_attribute (ok_tr ok_te : bool) (s : tstate) (te : loader X)
    (tr : option (loader X)) : res (seq (seq F)) :=
  match tr, t_full s with
  | Some _, Some _ | None, None => Err ValueError
  | Some l, None =>
    rbind (rfold (fun st c =>
      rbind (cat_batches ok_tr (phi_tr c) l) (fun xs =>
      rbind (cat_batches ok_tr (fun x => 1 - prob c x) l) (fun qs =>
      rbind (cat_batches ok_te (phi_te c) te) (fun ys =>
      rbind (solve_cols xs) (fun cols =>
        Ok (Some (ravg2 st.1 c (test_block ys cols)), Some (ravg st.2 c qs)))))))
     (None, None) (iota 0 C))
    (fun st => finish st.1 st.2)
  | None, Some _ =>
    rbind (rfold (fun st c =>
      rbind (cat_batches ok_te (phi_te c) te) (fun ys =>
        match t_mats s with
        | None => Err AttributeError                  (* self.inv_XTX_XT_list *)
        | Some m =>
          if (c < size m.1)%N
          then Ok (Some (ravg2 st c (test_block ys (nth [::] m.1 c))))
          else Err IndexError
        end))
     None (iota 0 C))
    (fun st => match t_mats s with
               | None => Err AttributeError
               | Some m => finish st m.2
               end)
  end.

(* 395-548 self_attribute: _check_shuffle(None) reads None.sampler; the result of
   (n,) * (1,n) transposed is an (n,1) tensor *)
Definition trak_self_attribute (ok_tr : bool) (s : tstate) (tr : option (loader X))
    : res (seq (seq F)) :=
  match tr, t_full s with
  | None, _ => Err AttributeError
  | Some _, Some _ => Err ValueError
  | Some l, None =>
    rbind (rfold (fun st c =>
      rbind (cat_batches ok_tr (phi_tr c) l) (fun xs =>
      rbind (cat_batches ok_tr (fun x => 1 - prob c x) l) (fun qs =>
      rbind (solve_cols xs) (fun cols =>
        Ok (Some (ravg st.1 c [seq (xu.1 *m xu.2) 0 0 | xu <- zip xs cols]),
            Some (ravg st.2 c qs))))))
     (None, None) (iota 0 C))
    (fun st => match st with
               | (Some ds, Some qs) => Ok [seq [:: dq.1 * dq.2] | dq <- zip ds qs]
               | _ => Err AttributeError
               end)
  end.

(* operations of one object, for history statements *)
Inductive top := TCache (okb : bool) (l : loader X) | TAttr (te : loader X) (tr : option (loader X))
  | TSelf (tr : option (loader X)).
Definition tstep (s : tstate) (o : top) : tstate :=
  match o with TCache okb l => (trak_cache okb s l).1 | _ => s end.
End Trak.
