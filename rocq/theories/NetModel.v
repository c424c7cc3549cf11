(* The image classifiers of the benchmarks.
   Modelled: dattri/benchmark/models/resnet9/resnet9.py (all), mlp/mlp.py, logistic_regression/logistic_regression.py.
   Simplifications: numbers are elements of an ordered field; 1 / sqrt(variance + eps) is a function isd of the
   variance; dropout multiplies by given masks (0 or 1 / (1 - rate)); num_batches_tracked is left out; inputs are
   contiguous; a training pass over an empty batch (which fails in the end) has no meaningful statistics.
   No proofs. *)
Set Warnings "-notation-overridden,-ambiguous-paths".
From mathcomp Require Import all_ssreflect all_algebra.
From Verif Require Import Py.
Set Implicit Arguments. Unset Strict Implicit. Unset Printing Implicit Defensive.
Import GRing.Theory Num.Theory.
Local Open Scope ring_scope.

Section Net.
Variables (F : realFieldType) (isd : F -> F).

(* a batch of images: number, channels, height, width, entries *)
Record t4 := T4 { tn : nat; tc : nat; th : nat; tw : nat; px : nat -> nat -> nat -> nat -> F }.

(* ---- torch.nn.Conv2d without bias ---- *)
Definition pad (p : nat) (x : t4) (n c i j : nat) : F :=
  if (p <= i < p + th x)%N && (p <= j < p + tw x)%N then px x n c (i - p)%N (j - p)%N else 0.
Definition osize (k s p h : nat) : nat := ((h + 2 * p - k) %/ s).+1.
Definition conv (k s p cin cout : nat) (w : nat -> nat -> nat -> nat -> F) (x : t4) : res t4 :=
  if tc x != cin then Err RuntimeError else
  if (th x + 2 * p < k)%N || (tw x + 2 * p < k)%N then Err RuntimeError else
  Ok (T4 (tn x) cout (osize k s p (th x)) (osize k s p (tw x)) (fun n o i j =>
    \sum_(c < cin) \sum_(a < k) \sum_(b < k) w o c a b * pad p x n c (i * s + a)%N (j * s + b)%N)).

(* ---- torch.nn.BatchNorm2d: affine, momentum 0.1 ---- *)
Record bn := BN { bg : nat -> F; bb : nat -> F; rm : nat -> F; rv : nat -> F }.
Definition bnorm (g b mu va : nat -> F) (x : t4) : t4 :=
  T4 (tn x) (tc x) (th x) (tw x) (fun n c i j => (px x n c i j - mu c) * isd (va c) * g c + b c).
Definition cnt (x : t4) : nat := (tn x * (th x * tw x))%N.
Definition bmean (x : t4) (c : nat) : F :=
  (\sum_(n < tn x) \sum_(i < th x) \sum_(j < tw x) px x n c i j) / (cnt x)%:R.
Definition bvar (x : t4) (c : nat) : F :=
  (\sum_(n < tn x) \sum_(i < th x) \sum_(j < tw x) (px x n c i j - bmean x c) ^+ 2) / (cnt x)%:R.
Definition mom : F := 10%:R^-1.
Definition bn_step (l : bn) (x : t4) : bn :=
  BN (bg l) (bb l) (fun c => (1 - mom) * rm l c + mom * bmean x c)
     (fun c => (1 - mom) * rv l c + mom * (bvar x c * (cnt x)%:R / (cnt x).-1%:R)).
(* the layers of a network by number; in training mode the statistics of the batch are used and recorded *)
Definition nstate := nat -> bn.
Definition setl (S : nstate) (k : nat) (l : bn) : nstate := fun i => if i == k then l else S i.
Definition bn_fwd (tr : bool) (k : nat) (x : t4) (S : nstate) : nstate * res t4 :=
  let l := S k in
  if tr then
    if cnt x == 1%N then (S, Err ValueError)
    else (setl S k (bn_step l x), Ok (bnorm (bg l) (bb l) (bmean x) (bvar x) x))
  else (S, Ok (bnorm (bg l) (bb l) (rm l) (rv l) x)).

(* ---- F.relu, nn.Dropout ---- *)
Definition relu (v : F) : F := Num.max v 0.
Definition map4 (f : nat -> nat -> nat -> nat -> F -> F) (x : t4) : t4 :=
  T4 (tn x) (tc x) (th x) (tw x) (fun n c i j => f n c i j (px x n c i j)).
Definition masks := nat -> nat -> nat -> nat -> nat -> F.
Definition dropout (D : option masks) (k : nat) (x : t4) : t4 :=
  if D is Some m then map4 (fun n c i j v => m k n c i j * v) x else x.

(* weights of the convolutions by number: the convolution before batch norm k *)
Variable w : nat -> nat -> nat -> nat -> nat -> F.
Variables (tr : bool) (D : option masks).

(* conv, bn, relu (not in shortcuts), dropout: resnet9.py 22-34, 37-41, 69-70 *)
Definition unit (no k s p cin cout : nat) (act : bool) (x : t4) (S : nstate) : nstate * res t4 :=
  match conv k s p cin cout (w no) x with
  | Err e => (S, Err e)
  | Ok y => let r := bn_fwd tr no y S in
    (r.1, rmap (fun z => dropout D no (if act then map4 (fun _ _ _ _ => relu) z else z)) r.2)
  end.

(* out + out_short_cut of two tensors of the same shape; 42 *)
Definition add4 (x y : t4) : res t4 :=
  if [&& tn x == tn y, tc x == tc y, th x == th y & tw x == tw y]
  then Ok (T4 (tn x) (tc x) (th x) (tw x) (fun n c i j => px x n c i j + px y n c i j)) else Err RuntimeError.

(* BasicBlock: in_planes, planes, stride; 6-44.  Its layers are number no, no+1, no+2 *)
Record cfg := Cfg { cin : nat; cpl : nat; cst : nat }.
Definition block (no : nat) (g : cfg) (x : t4) (S : nstate) : nstate * res t4 :=
  let r1 := unit no 3 (cst g) 1 (cin g) (cpl g) true x S in
  if r1.2 is Ok y1 then
    let r2 := unit no.+1 3 1 1 (cpl g) (cpl g) true y1 r1.1 in
    if r2.2 is Ok y2 then
      let r3 := if (cst g != 1%N) || (cin g != cpl g) then unit no.+2 1 (cst g) 0 (cin g) (cpl g) false x r2.1
                else (r2.1, Ok x) in
      if r3.2 is Ok y3 then (r3.1, rmap (map4 (fun _ _ _ _ => relu)) (add4 y2 y3)) else r3
    else r2
  else r1.
Fixpoint blocks (no : nat) (gs : seq cfg) (x : t4) (S : nstate) : nstate * res t4 :=
  if gs is g :: gs' then
    let r := block no g x S in
    if r.2 is Ok y then blocks (no + 3)%N gs' y r.1 else r
  else (S, Ok x).
(* _make_layer, 59-65 *)
Definition make_layer (inp planes nb stride : nat) : seq cfg :=
  Cfg inp planes stride :: nseq nb.-1 (Cfg planes planes 1).

(* F.adaptive_avg_pool2d(out, (1, 1)); out.view(out.size(0), -1); nn.Linear; 74-77 *)
Definition pool (x : t4) (n c : nat) : F :=
  (\sum_(i < th x) \sum_(j < tw x) px x n c i j) / (th x * tw x)%:R.
Record t2 := T2 { rows : nat; cols : nat; at2 : nat -> nat -> F }.
Definition head (feat classes : nat) (W : nat -> nat -> F) (b : nat -> F) (x : t4) : res t2 :=
  if tn x == 0%N then Err RuntimeError else
  if tc x != feat then Err RuntimeError else
  Ok (T2 (tn x) classes (fun n o => \sum_(c < feat) W o c * pool x n c + b o)).

(* ResNet9.forward for any list of blocks; 68-77 *)
Definition net (c0 feat : nat) (gs : seq cfg) (classes : nat) W b (x : t4) (S : nstate) : nstate * res t2 :=
  let r := unit 0 3 1 1 3 c0 true x S in
  match r.2 with
  | Err e => (r.1, Err e)
  | Ok y => let q := blocks 1 gs y r.1 in (q.1, rbind q.2 (head feat classes W b))
  end.
(* ResNet9.__init__, 47-57 *)
Definition cfgs9 : seq cfg := make_layer 64 128 1 1 ++ make_layer 128 256 1 2 ++ make_layer 256 512 1 2.
Definition resnet9 (classes : nat) W b x S := net 64 512 cfgs9 classes W b x S.
End Net.

(* ---- MLPMnist and LogisticRegressionMnist ---- *)
Section Flat.
Variable F : realFieldType.
(* a contiguous tensor: shape and entries in row-major order *)
Record tensor := Tensor { shape : seq nat; entries : seq F }.
Definition prodn (s : seq nat) : nat := foldr muln 1%N s.
Definition wf (x : tensor) : Prop := size (entries x) = prodn (shape x).
(* x.view(-1, m), m > 0: rows of m entries *)
Definition view_rows (m : nat) (x : tensor) : res (seq (seq F)) :=
  if (size (entries x) %% m != 0)%N then Err RuntimeError
  else Ok [seq take m (drop (i * m) (entries x)) | i <- iota 0 (size (entries x) %/ m)].
(* x.view(x.shape[0], -1) *)
Definition view_first (x : tensor) : res (seq (seq F)) :=
  if shape x is n :: _ then
    if n == 0%N then Err RuntimeError
    else Ok [seq take (size (entries x) %/ n) (drop (i * (size (entries x) %/ n)) (entries x)) | i <- iota 0 n]
  else Err IndexError.
(* nn.Linear(m, k) on rows *)
Definition linear (m k : nat) (W : nat -> nat -> F) (b : nat -> F) (r : seq F) : res (seq F) :=
  if size r != m then Err RuntimeError
  else Ok (mkseq (fun o => \sum_(c < m) W o c * nth 0 r c + b o) k).
Fixpoint mapM (f : seq F -> res (seq F)) (rs : seq (seq F)) : res (seq (seq F)) :=
  if rs is r :: rs' then rbind (f r) (fun y => rbind (mapM f rs') (fun ys => Ok (y :: ys))) else Ok [::].
(* logistic_regression.py 19-28 *)
Definition lr_forward (W : nat -> nat -> F) (b : nat -> F) (x : tensor) : res (seq (seq F)) :=
  rbind (view_first x) (mapM (linear (28 * 28) 10 W b)).
(* mlp.py 26-41, dropout inactive *)
Definition relus (r : seq F) : seq F := [seq Num.max v 0 | v <- r].
Definition mlp_forward W1 b1 W2 b2 W3 b3 (x : tensor) : res (seq (seq F)) :=
  rbind (view_rows (28 * 28) x) (mapM (fun r =>
    rbind (linear (28 * 28) 128 W1 b1 r) (fun h =>
    rbind (linear 128 64 W2 b2 (relus h)) (fun h' => linear 64 10 W3 b3 (relus h'))))).
End Flat.
