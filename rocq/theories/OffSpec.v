(* What a user of the in-memory stores relies on, stated on histories. *)
Set Warnings "-notation-overridden,-ambiguous-paths".
From mathcomp Require Import all_ssreflect.
From Verif Require Import Py Dict Tensor OffModel.
Set Implicit Arguments. Unset Strict Implicit. Unset Printing Implicit Defensive.

Section Spec.
Variables (T P : Type) (z : T).
Notation gr := (gr T). Notation t2 := (t2 T).

Definition wf_t2 (t : t2) : bool := all (fun r => size r == t2c t) (t2r t).
Definition wf_gr (g : gr) : bool := if g is G2 t then wf_t2 t else true.
Definition is_none (g : gr) : bool := if g is GNone then true else false.
Definition full (g : gr) : bool := if g is G2 t then (size (t2r t) != 0) && (t2c t != 0) else false.
Definition grows (g : gr) : nat := if g is G2 t then size (t2r t) else 0.
Definition gcols (g : gr) : nat := if g is G2 t then t2c t else 0.
Definition gat (g : gr) (i j : nat) : T :=
  if g is G2 t then nth z (nth [::] (t2r t) i) j else z.

(* the layer dimensions after a store: fixed for ever by the first list without None *)
Definition dims_step (d : option (seq nat)) (gs : seq gr) : option (seq nat) :=
  if d is Some _ then d else
  if has is_none gs then None else Some [seq (if full g then gcols g else 0) | g <- gs].

(* number of samples of a list of gradients: that of its first non-empty entry *)
Definition nsamples (gs : seq gr) : nat := grows (nth G1 gs (find full gs)).
(* a gradient that can be written to bs rows and d columns: equal, or length one *)
Definition fits (bs d : nat) (g : gr) : bool :=
  ~~ is_none g && (full g ==> (((grows g == bs) || (grows g == 1)) && ((gcols g == d) || (gcols g == 1)))).

(* outcome of storing [gs] when the dimensions [d] are in force beforehand *)
Definition outcome (d : option (seq nat)) (gs : seq gr) : res unit :=
  if dims_step d gs is Some ds then
    if is_none (nth G1 gs (find (fun g => is_none g || full g) gs)) then Err AttributeError else
    if ~~ has full gs then Ok tt else
    let ps := zip gs ds in
    let j := find (fun p => ~~ fits (nsamples gs) p.2 p.1) ps in
    if j == size ps then Ok tt
    else if is_none (nth G1 gs j) then Err AttributeError else Err RuntimeError
  else Err AttributeError.
Definition accepted d gs : bool := if outcome d gs is Ok _ then true else false.

(* the value of layer l, sample r, coordinate c of a stored list *)
Definition stored_at (gs : seq gr) (l r c : nat) : T :=
  let g := nth G1 gs l in
  if full g then gat g (if grows g == 1 then 0 else r) (if gcols g == 1 then 0 else c) else z.
(* the per-layer tensors a store of [gs] makes available *)
Definition layer_tensors (ds : seq nat) (gs : seq gr) : seq gr :=
  mkseq (fun l => G2 (T2 (nth 0 ds l)
    (mkseq (fun r => mkseq (fun c => stored_at gs l r c) (nth 0 ds l)) (nsamples gs)))) (size ds).

Definition same_kind (a b : kind) : bool :=
  match a, b with KGrad, KGrad => true | KTest, KTest => true | KIfvp, KIfvp => true | _, _ => false end.

(* dimensions after a history *)
Fixpoint dims_of (h : seq (op T P)) (d : option (seq nat)) : option (seq nat) :=
  match h with
  | [::] => d
  | OStore _ _ gs :: h' => dims_of h' (dims_step d gs)
  | _ :: h' => dims_of h' d
  end.
(* the list last stored for (k, b), if any, since the last clear *)
Fixpoint lasts k b (h : seq (op T P)) d (acc : option (seq gr)) : option (seq gr) :=
  match h with
  | [::] => acc
  | OStore k' b' gs :: h' =>
      lasts k b h' (dims_step d gs)
        (if same_kind k' k && (b' == b) && accepted d gs then Some gs else acc)
  | OClear :: h' => lasts k b h' d None
  | _ :: h' => lasts k b h' d acc
  end.
Definition last_stored k b h d := lasts k b h d None.
(* the preconditioner last stored for layer l since the last clear *)
Fixpoint last_prec l (h : seq (op T P)) (acc : option P) : option P :=
  match h with
  | [::] => acc
  | OPrec l' p :: h' => last_prec l h' (if l' == l then p else acc)
  | OClear :: h' => last_prec l h' None
  | _ :: h' => last_prec l h' acc
  end.
Fixpoint wf_hist (h : seq (op T P)) : bool :=
  match h with
  | [::] => true
  | OStore _ _ gs :: h' => all wf_gr gs && wf_hist h'
  | _ :: h' => wf_hist h'
  end.

(* row r of a batch as one concatenated vector *)
Definition flat_row (ds : seq nat) (gs : seq gr) (r : nat) : seq T :=
  flatten (mkseq (fun l => mkseq (fun c => stored_at gs l r c) (nth 0 ds l)) (size ds)).
Definition flat_batch ds gs : seq (seq T) := mkseq (flat_row ds gs) (nsamples gs).

(* rows s..e of a tensor *)
Definition rows_at (t : t2) (se : nat * nat) : seq (seq T) := take (se.2 - se.1) (drop se.1 (t2r t)).
End Spec.
