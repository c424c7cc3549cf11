(* What a user of the block-projected attributor relies on. *)
Set Warnings "-notation-overridden,-ambiguous-paths".
From mathcomp Require Import all_ssreflect all_algebra.
From Verif Require Import Py Tensor TensorProof OffModel.
From Verif Require BlockModel.
Set Implicit Arguments. Unset Strict Implicit. Unset Printing Implicit Defensive.
Import GRing.Theory.
Local Open Scope ring_scope.

(* the samples a loader visits, in order *)
Definition samples (X : Type) (L : loader X) : seq X := take (covered L) (ld_data L).
Definition table (A B C : Type) (xs : seq A) (ys : seq B) (f : A -> B -> C) : seq (seq C) :=
  [seq [seq f x y | y <- ys] | x <- xs].

(* the batches of a loader; caching a loader on top of the batches E leaves the batches of E with indices
   that the loader does not have *)
Definition batches (X : Type) (L : loader X) : seq (seq X) := [seq batch L k | k <- iota 0 (nbatches L)].
Definition over (X : Type) (E : seq (seq X)) (L : loader X) : seq (seq X) := batches L ++ drop (nbatches L) E.
(* the damping, 1e-5 unless given *)
Definition lam_of (F : fieldType) (o : option F) : F := if o is Some x then x else 10%:R ^- 5.

Section Spec.
Variables (F : fieldType) (ds : seq nat).
Notation d l := (nth 0%N ds l).
Definition rv (k : nat) (u : seq F) : 'rV[F]_k := \row_a nth 0 u a.

Section Hooks.
Variable X : Type.
(* [g l x] is the compressed gradient of sample x in layer l; the hooks deliver one row per sample *)
Definition hooks_give (g : nat -> X -> seq F) (f : seq X -> res (seq (gr F))) : Prop :=
  (forall l x, (l < size ds)%N -> size (g l x) = d l) /\
  forall b, (0 < size b)%N -> f b = Ok (mkseq (fun l => G2 (T2 (d l) [seq g l x | x <- b])) (size ds)).

(* empirical Fisher matrix of layer l over the samples xs *)
Definition efim (g : nat -> X -> seq F) (xs : seq X) (l : nat) : 'M[F]_(d l) :=
  (size xs)%:R^-1 *: \sum_(x <- xs) (rv (d l) (g l x))^T *m rv (d l) (g l x).
Definition damped (lam : F) g xs l : 'M[F]_(d l) := efim g xs l + (lam * \tr (efim g xs l) / (d l)%:R)%:M.
End Hooks.

Section Scores.
Variables (X Y : Type).
(* sum over the layers of  h_l(y) M_l g_l(x)^T *)
Definition bilinear (M : forall l, 'M[F]_(d l)) (g : nat -> X -> seq F) (h : nat -> Y -> seq F) (x : X) (y : Y) : F :=
  \sum_(l < size ds) (rv (d l) (h l y) *m M l *m (rv (d l) (g l x))^T) 0 0.
Definition score (efim : bool) (lam : F) (g : nat -> X -> seq F) (xs : seq X) (h : nat -> Y -> seq F) : X -> Y -> F :=
  bilinear (fun l => if efim then invmx (damped lam g xs l) else 1%:M) g h.
End Scores.

(* A history of cache, attribute and compute_self_attribution calls.  [E] is the list of batches whose
   gradients the attributor holds (empty before the first cache) and [I] the list of batches whose
   preconditioned gradients it uses, once it has some. *)
Section History.
Variables (X Y : Type) (efim : bool) (lam : F) (g : nat -> X -> seq F) (h : nat -> Y -> seq F).
Notation st := (seq (seq X) * option (seq (seq X)))%type.
Import BlockModel.
Definition recache (L : loader X) (s : st) : st :=
  let E := over s.1 L in (E, if efim then Some E else s.2).
Definition first (Lt : loader X) (s : st) : st := if s.1 is [::] then recache Lt s else s.
Definition used (s : st) : seq (seq X) := odflt s.1 s.2.
Definition answer (o : op X Y) (s : st) : st * ans F :=
  match o with
  | OCache L => (recache L s, ADone)
  | OAttr L1 L2 => let s1 := first L1 s in let xs := flatten (used s1) in
      ((s1.1, Some (used s1)), ATable (table xs (samples L2) (score efim lam g xs h)))
  | OSelf => let xs := flatten (used s) in
      ((s.1, Some (used s)), AVec [seq score efim lam g xs g p.1 p.2 | p <- zip xs (flatten s.1)])
  end.
Fixpoint answers (os : seq (op X Y)) (s : st) : seq (ans F) :=
  if os is o :: os' then let r := answer o s in r.2 :: answers os' r.1 else [::].
(* the loader has batches, agrees in its batch sizes with the batches held if there are equally many of
   them, and no damped Fisher matrix is singular *)
Definition cacheable (L : loader X) (s : st) : Prop :=
  [/\ (0 < ld_bs L)%N, (0 < nbatches L)%N, size s.1 = nbatches L -> shape s.1 = shape (batches L) &
      efim -> forall l, (l < size ds)%N -> (0 < d l)%N -> damped lam g (flatten (over s.1 L)) l \in unitmx].
Definition allowed (o : op X Y) (s : st) : Prop :=
  match o with
  | OCache L => cacheable L s
  | OAttr L1 L2 => [/\ (s.1 = [::] -> cacheable L1 s), shape (used (first L1 s)) = shape (first L1 s).1,
      (0 < ld_bs L2)%N & (0 < nbatches L2)%N]
  | OSelf => s.1 <> [::] /\ shape (used s) = shape s.1
  end.
Fixpoint legal (os : seq (op X Y)) (s : st) : Prop :=
  if os is o :: os' then allowed o s /\ legal os' (answer o s).1 else True.
End History.
End Spec.
