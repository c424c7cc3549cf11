(* The benchmark's training functions: train_mnist_lr (mnist/mnist_lr.py 18-53), train_mnist_mlp
   (mnist/mnist_mlp.py 15-50), train_cifar_resnet9 (cifar/cifar_resnet9.py 17-64), train_imagenet_resnet18
   (imagenet/imagenet_resnet18.py 17-72), train_wikitext2_gpt2 (wikitext2/wikitext2_gpt2.py 17-55) and
   train_maestro_musictransformer (maestro/maestro_musictransformer.py 100-211) with train_epoch
   (utilities/run_model.py 11-65).  No proofs.

   The parameters and the .grad fields of a model are one vector each.  Arbitrary functions: the initial
   parameters, the iteration of the loader, the gradient of a batch and the evaluation pass, all of which may
   read and change the three global generators (torch, numpy, Python's random); the gradient may raise.
   Not modelled: devices, logging, floating point, and the interleaving of fetching a batch with training on it
   (an epoch fetches its batches first). *)
Set Warnings "-notation-overridden,-ambiguous-paths".
From mathcomp Require Import all_ssreflect all_algebra.
From Verif Require Import Py RetrainModel.
Set Implicit Arguments. Unset Strict Implicit. Unset Printing Implicit Defensive.
Import GRing.Theory Num.Theory.
Local Open Scope ring_scope.

(* ---- torch.optim.SGD with momentum mu and weight decay wd (dampening 0, no Nesterov); the state is the
   momentum buffer, None before the first step *)
Section Sgd.
Variables (R : realFieldType) (V : lmodType R) (lr mu wd : R).
Definition sgd_step (buf : option V) (w d : V) : option V * V :=
  let d' := d + wd *: w in
  if mu == 0 then (buf, w - lr *: d')
  else let b := if buf is Some b then mu *: b + d' else d' in (Some b, w - lr *: b).
End Sgd.

(* The limits on seeds: torch.manual_seed takes -2^63 <= s < 2^64, np.random.seed takes 0 <= s < 2^32,
   np.random.default_rng takes 0 <= s. *)
(* powers of two, locked so that they are never written out in unary *)
Definition pow2 (n : nat) : int := locked (2%:Z ^+ n).
Definition torch_seed_ok (k : int) : bool := (- pow2 63 <= k) && (k < pow2 64).
Definition numpy_seed_ok (k : int) : bool := (0 <= k) && (k < pow2 32).

Section Train.
Variables (V : zmodType) (GT GN GP B O : Type).
(* the states of torch's, numpy's and Python's global generators *)
Record gens := Gens { g_t : GT; g_n : GN; g_p : GP }.
Variables (tseed : int -> GT) (nseed : int -> GN) (pseed : int -> GP).

(* torch.manual_seed(seed); np.random.seed(seed); random.seed(seed):
   mnist_lr.py 35-37, mnist_mlp.py 32-34, cifar_resnet9.py 36-38, imagenet_resnet18.py 34-36,
   maestro_musictransformer.py 118-120 *)
Definition seed_all (s : option int) (g : gens) : gens * res unit :=
  if s is Some k then
    if ~~ torch_seed_ok k then (g, Err RuntimeError)
    else if ~~ numpy_seed_ok k then (Gens (tseed k) (g_n g) (g_p g), Err ValueError)
    else (Gens (tseed k) (nseed k) (pseed k), Ok tt)
  else (g, Err TypeError).
(* wikitext2_gpt2.py 34-36: np.random.default_rng(seed) makes a generator that is thrown away *)
Definition seed_wikitext (s : option int) (g : gens) : gens * res unit :=
  if s is Some k then
    if ~~ torch_seed_ok k then (g, Err RuntimeError)
    else if ~~ (0 <= k) then (Gens (tseed k) (g_n g) (g_p g), Err ValueError)
    else (Gens (tseed k) (g_n g) (pseed k), Ok tt)
  else (g, Err TypeError).

(* A DataLoader: one pass over it, the number of its batches, the size of its data set. *)
Record loader := Loader { l_iter : gens -> seq B * gens; l_len : nat; l_size : nat }.

Variable init : gens -> V * gens.                            (* create_..._model *)
Variable loss_grad : bool -> V -> B -> gens -> res V * gens. (* forward in train mode?, loss, backward *)
Variable o0 : O.
Variable ostep : O -> V -> V -> O * V.                       (* one optimiser step *)

Record st := St { s_w : V; s_grad : option V; s_o : O; s_g : gens; s_train : bool }.
Definition set_g (s : st) g := St (s_w s) (s_grad s) (s_o s) g (s_train s).
Definition set_mode (s : st) m := St (s_w s) (s_grad s) (s_o s) (s_g s) m.
(* optimizer.zero_grad(): the .grad fields become None *)
Definition zero_grad (s : st) := St (s_w s) None (s_o s) (s_g s) (s_train s).
(* forward and loss.backward(): gradients are added to .grad *)
Definition backward (s : st) (b : B) : st * res unit :=
  let: (r, g') := loss_grad (s_train s) (s_w s) b (s_g s) in
  match r with
  | Err e => (set_g s g', Err e)
  | Ok d => (St (s_w s) (Some (if s_grad s is Some a then a + d else d)) (s_o s) g' (s_train s), Ok tt)
  end.
(* optimizer.step(): parameters without gradient are left alone *)
Definition opt_step (s : st) : st :=
  if s_grad s is Some d then let: (o, w) := ostep (s_o s) (s_w s) d in St w (s_grad s) o (s_g s) (s_train s)
  else s.

(* mnist_lr.py 46-51, mnist_mlp.py 43-48, cifar_resnet9.py 48-54, imagenet_resnet18.py 51-61,
   run_model.py 24-47 *)
Definition batch_step (s : st) (b : B) : st * res unit :=
  let: (s1, r) := backward (zero_grad s) b in if r is Ok _ then (opt_step s1, Ok tt) else (s1, r).
(* wikitext2_gpt2.py 48-53 *)
Definition batch_step_wikitext (s : st) (b : B) : st * res unit :=
  let: (s1, r) := backward s b in if r is Ok _ then (zero_grad (opt_step s1), Ok tt) else (s1, r).

(* one pass over the loader *)
Definition pass (step : st -> B -> st * res unit) (ld : loader) (s : st) : st * res unit :=
  let: (bs, g) := l_iter ld (s_g s) in sfold step (set_g s g) bs.

(* What follows an epoch: nothing (mnist), running_loss / len(dataloader) (cifar_resnet9.py 60),
   running_loss / len(dataloader.dataset) (imagenet_resnet18.py 68). *)
Inductive task := Mnist | Cifar | Imagenet | Wikitext.
Definition report (t : task) (ld : loader) : res unit :=
  match t with
  | Cifar => if l_len ld == 0%N then Err ZeroDivisionError else Ok tt
  | Imagenet => if l_size ld == 0%N then Err ZeroDivisionError else Ok tt
  | _ => Ok tt
  end.
Definition epoch (t : task) (ld : loader) (s : st) : st * res unit :=
  let: (s1, r) := pass (if t is Wikitext then batch_step_wikitext else batch_step) ld s in
  if r is Ok _ then (s1, report t ld) else (s1, r).

(* the whole function: the trained parameters and whether the model is left in train mode *)
Definition train (t : task) (ld : loader) (epochs : nat) (seed : option int) (g : gens)
    : res (V * bool) * gens :=
  let: (g1, r) := (if t is Wikitext then seed_wikitext else seed_all) seed g in
  if r is Err e then (Err e, g1) else
  let: (w, g2) := init g1 in
  let: (s, r) := sfold (fun s (_ : nat) => epoch t ld s) (St w None o0 g2 true) (iota 0 epochs) in
  (rmap (fun _ => (s_w s, s_train s)) r, s_g s).

(* ---- the music transformer *)
Section Music.
Variable R : realFieldType.
(* a Python float: finite, +inf or nan *)
Inductive fl := Fin of R | PInf | NaN.
Definition fl_lt (a b : fl) : bool :=
  match a, b with Fin x, Fin y => x < y | Fin _, PInf => true | _, _ => false end.
(* run_model.py 68-109 over the fetched batches in eval mode: average loss and accuracy *)
Variable evaluate : V -> seq B -> res (fl * R).
(* [b_set] tells whether the name best_model is bound; it is bound to the model object itself, whose parameters
   go on changing (maestro_musictransformer.py 200-201) *)
Record mst := MSt { m_s : st; m_acc : R; m_loss : fl; b_set : bool }.

(* maestro_musictransformer.py 160-201, one iteration of the epoch loop; [first] is epoch == BASELINE_EPOCH *)
Definition music_epoch (ld : loader) (m : mst) (first : bool) : mst * res unit :=
  let: (s1, r) := (if first then (m_s m, Ok tt)
                   else pass batch_step ld (set_mode (m_s m) true)) in           (* 162-172 *)
  let m1 := MSt s1 (m_acc m) (m_loss m) (b_set m) in
  if r is Err e then (m1, Err e) else
  let: (bs, g2) := l_iter ld (s_g s1) in
  let s2 := set_g (set_mode s1 false) g2 in                                      (* model.eval() *)
  let m2 := MSt s2 (m_acc m) (m_loss m) (b_set m) in
  match (if l_len ld == 0%N then Err ZeroDivisionError else evaluate (s_w s2) bs) with
  | Err e => (m2, Err e)
  | Ok la =>
    let na := m_acc m < la.2 in                                                  (* 191-193 *)
    let nl := fl_lt la.1 (m_loss m) in                                           (* 195-197 *)
    (MSt s2 (if na then la.2 else m_acc m) (if nl then la.1 else m_loss m) (b_set m || na || nl), Ok tt)
  end.
(* maestro_musictransformer.py 100-211; num_epoch + 1 iterations, none when num_epoch < 0 *)
Definition train_music (ld : loader) (num_epoch : int) (seed : option int) (g : gens) : res (V * bool) * gens :=
  let: (g1, r) := seed_all seed g in
  if r is Err e then (Err e, g1) else
  let: (w, g2) := init g1 in
  let rounds := if num_epoch is Posz n then n.+1 else 0%N in                     (* range(-1, num_epoch) *)
  let: (m, r) := sfold (fun m (e : nat) => music_epoch ld m (e == 0%N))
                   (MSt (St w None o0 g2 true) 0 PInf false) (iota 0 rounds) in
  let out := rbind r (fun _ => if b_set m then Ok (s_w (m_s m), s_train (m_s m)) else Err UnboundLocalError) in
  (out, s_g (m_s m)).
End Music.
End Train.
