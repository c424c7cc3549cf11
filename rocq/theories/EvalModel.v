(* The evaluation functions of the benchmark: loss_mnist_lr, loss_mnist_mlp, loss_cifar_resnet9,
   loss_imagenet_resnet18, loss_maestro_musictransformer, loss_wikitext2_gpt2, and the evaluation pass
   eval_model of the music transformer (utilities/run_model.py 68-109).  No proofs.

   A loader is the list of its batches, a batch the list of its samples.  The network in eval mode is an
   arbitrary function of the weights and one sample (no dropout, batch statistics frozen), so a batch is
   evaluated sample by sample.  [lse] is logsumexp over the classes, an arbitrary function.
   A float that may be nan is an option, None being nan.
   Not modelled: devices, shape mismatches inside a checkpoint of the right keys, floating point rounding. *)
Set Warnings "-notation-overridden,-ambiguous-paths".
From mathcomp Require Import all_ssreflect all_algebra.
From Verif Require Import Py.
Set Implicit Arguments. Unset Strict Implicit. Unset Printing Implicit Defensive.
Import GRing.Theory Num.Theory.
Local Open Scope ring_scope.

(* a loop that collects results; the first exception wins *)
Fixpoint collect (A B : Type) (f : A -> res B) (s : seq A) : res (seq B) :=
  if s is x :: s' then rbind (f x) (fun y => rmap (cons y) (collect f s')) else Ok [::].

(* torch.cat of a list of 1-d tensors *)
Definition torch_cat (T : Type) (l : seq (seq T)) : res (seq T) :=
  if l is [::] then Err RuntimeError else Ok (flatten l).

Section Eval.
Variables (R : realFieldType) (X SD : Type).
Variable lse : seq R -> R.

(* What a file holds: retrain_lds saves model.state_dict() (retrain.py 268), retrain_loo the model itself
   (retrain.py 129). *)
Inductive ckpt := CkState of SD | CkObject.
(* The first argument of an evaluation function: a path with what torch.load finds there (None: no file), which
   is what calculate_lds_ground_truth passes (ground_truth.py 189-190), or a model object, which is what
   calculate_loo_ground_truth passes (ground_truth.py 87-89). *)
Inductive target_arg := APath of option ckpt | AObject.

Variable fits : SD -> bool.   (* the keys are those of the freshly created model *)

(* model.load_state_dict(torch.load(Path(model_path))): mnist_lr.py 73, mnist_mlp.py 70, cifar_resnet9.py 86,
   imagenet_resnet18.py 92, maestro_musictransformer.py 230, wikitext2_gpt2.py 74.  Path of a module and
   load_state_dict of something that is not a mapping are TypeErrors (with torch >= 2.6 the latter file is
   already refused by torch.load, with another exception). *)
Definition load_weights (a : target_arg) : res SD :=
  match a with
  | AObject => Err TypeError
  | APath None => Err FileNotFoundError
  | APath (Some CkObject) => Err TypeError
  | APath (Some (CkState sd)) => if fits sd then Ok sd else Err RuntimeError
  end.

(* nn.CrossEntropyLoss on one row of logits, reduction="none", with its ignore_index *)
Definition cross_entropy (ign : int) (z : seq R) (t : int) : res R :=
  if t == ign then Ok 0
  else if (0 <= t) && (t < (size z)%:Z) then Ok (lse z - nth 0 z `|t|%N)
  else Err IndexError.

(* nn.CrossEntropyLoss's default ignore_index *)
Definition ign_default : int := -100%:Z.

Section Classes.
Variable logits : SD -> X -> seq R.
Notation sample := (X * int)%type.
Definition ce1 (sd : SD) (s : sample) : res R := cross_entropy ign_default (logits sd s.1) s.2.

(* mnist_lr.py 56-82, mnist_mlp.py 53-79, cifar_resnet9.py 67-96 *)
Definition loss_each (a : target_arg) (loader : seq (seq sample)) : res (seq R) :=
  rbind (load_weights a) (fun sd => rbind (collect (collect (ce1 sd)) loader) (@torch_cat R)).

(* imagenet_resnet18.py 75-102.  reduction="sum": the sum over the batch; total_loss += loss * n;
   total_samples += n; Python's division of numbers *)
Definition loss_imagenet (a : target_arg) (loader : seq (seq sample)) : res R :=
  rbind (load_weights a) (fun sd =>
  rbind (rfold (fun acc b => rmap (fun ls => (acc.1 + (\sum_(x <- ls) x) * (size b)%:R, (acc.2 + size b)%N))
                                  (collect (ce1 sd) b)) (0, 0%N) loader) (fun tn =>
  if tn.2 == 0%N then Err ZeroDivisionError else Ok (tn.1 / tn.2%:R))).
End Classes.

Section Music.
Variable pad : int.                              (* TOKEN_PAD *)
Variable logits : SD -> X -> seq (seq R).        (* one row of logits per position *)
Notation sample := (X * seq int)%type.
(* the last position of the output and of the target: y[:, -1:, :] and tgt[:, -1] *)
Definition last_logits (sd : SD) (s : sample) : seq R := last [::] (logits sd s.1).
Definition last_target (s : sample) : int := last pad s.2.

(* maestro_musictransformer.py 214-249 *)
Definition loss_maestro (a : target_arg) (loader : seq (seq sample)) : res (seq R) :=
  rbind (load_weights a) (fun sd =>
  rbind (collect (fun b => rmap (map -%R)
           (collect (fun s => cross_entropy pad (last_logits sd s) (last_target s)) b)) loader)
        (@torch_cat R)).

(* nn.CrossEntropyLoss(ignore_index=pad), reduction mean: over the targets that are not ignored; nan if none *)
Definition ce_mean (rows : seq (seq R)) (ts : seq int) : res (option R) :=
  rmap (fun ls => let n := count (predC (pred1 pad)) ts in
                  if n == 0%N then None else Some ((\sum_(x <- ls) x) / n%:R))
       (collect (fun p => cross_entropy pad p.1 p.2) (zip rows ts)).

Variable argmax : seq R -> int.                  (* torch.argmax(softmax(.)) *)
(* run_model.py 68-109 and compute_epiano_accuracy (e_piano.py 206-238).  sum_acc and sum_loss start at 0.0;
   n_test = len(dataloader) is the number of batches. *)
Definition accuracy (preds ts : seq int) : R :=
  let m := [seq p <- zip preds ts | p.2 != pad] in
  if m is [::] then 1 else (count (fun p => p.1 == p.2) m)%:R / (size m)%:R.
Definition oadd (a b : option R) : option R := if a is Some x then if b is Some y then Some (x + y) else None else None.
Definition eval_batch (sd : SD) (b : seq sample) : res (option R * R) :=
  let rows := [seq last_logits sd s | s <- b] in
  let ts := [seq last_target s | s <- b] in
  rmap (fun l => (l, accuracy [seq argmax z | z <- rows] ts)) (ce_mean rows ts).
Definition eval_model (sd : SD) (loader : seq (seq sample)) : res (option R * R) :=
  rbind (rfold (fun acc b => rmap (fun la => (oadd acc.1 la.1, acc.2 + la.2)) (eval_batch sd b))
               (Some 0, 0) loader) (fun la =>
  if loader is [::] then Err ZeroDivisionError
  else Ok (omap (fun x => x / (size loader)%:R) la.1, la.2 / (size loader)%:R)).
End Music.

Section Text.
Variable token_losses : SD -> X -> seq R.        (* the losses of the predicted tokens of one sample *)
(* outputs.loss of GPT2LMHeadModel with labels = input_ids: the mean over all predicted tokens of the batch *)
Definition text_loss (sd : SD) (b : seq X) : option R :=
  let ts := flatten [seq token_losses sd x | x <- b] in
  if ts is [::] then None else Some ((\sum_(x <- ts) x) / (size ts)%:R).
(* wikitext2_gpt2.py 58-85: loss.unsqueeze(0), one entry per batch *)
Definition loss_wikitext (a : target_arg) (loader : seq (seq X)) : res (seq (option R)) :=
  rbind (load_weights a) (fun sd => torch_cat [seq [:: text_loss sd b] | b <- loader]).
End Text.
End Eval.
