(* Independent description of what hooks promise: whom they patch, what a batch yields, who is pending. *)
Set Warnings "-notation-overridden,-ambiguous-paths".
From mathcomp Require Import all_ssreflect.
From Verif Require Import Py HookModel.
Set Implicit Arguments. Unset Strict Implicit. Unset Printing Implicit Defensive.

Section Spec.
Variables (X D C : Type) (Name : eqType).
Notation world := (world X D C Name).
Notation batch := (batch X D).
Notation modl := (modl Name).

(* module m is a Linear layer with a name in the list, last listed at position i *)
Definition hooked_layer (model : seq modl) (names : seq Name) (m i : nat) : Prop :=
  exists d, [/\ List.In d model, d_id d = m, d_linear d, (i < size names)%N & nth (d_name d) names i = d_name d /\
    forall j, (i < j < size names)%N -> nth (d_name d) names j <> d_name d].
(* a model nobody has touched *)
Definition plain (w : world) : Prop :=
  [/\ forall m, w_fwd w m = None, forall m, w_orig w m = None & forall g, w_reg w g = false].
(* exactly the layers of one attributor go to its manager g, which is the only one registered *)
Definition patched (model : seq modl) (names : seq Name) (w : world) (g : nat) : Prop :=
  [/\ forall m i, hooked_layer model names m i -> w_fwd w m = Some (g, i) /\ w_orig w m = Some None,
      forall m, (forall i, ~ hooked_layer model names m i) -> w_fwd w m = None /\ w_orig w m = None
    & forall g', w_reg w g' = (g' == g)].

(* the inputs of layer m in a batch, and the output gradients that reach it *)
Definition inputs_of (b : batch) (m : nat) : seq X := [seq c.2 | c <- b_calls b & c.1 == m].
Definition reach1 (b : batch) (m : nat) (p : nat * D) : option D :=
  if List.nth_error (b_calls b) p.1 is Some c then if c.1 == m then Some p.2 else None else None.
Definition reached (b : batch) (m : nat) : seq D := pmap (reach1 b m) (b_back b).
Definition last_input (b : batch) (m : nat) : option X := ohead (rev (inputs_of b m)).
(* a layer can be handled in a batch: at most one gradient reaches it, and it can be compressed *)
Definition is_ok T (r : res T) : bool := if r is Ok _ then true else false.
Definition layer_ok (comp : nat -> D -> X -> res C) (b : batch) (m i : nat) : bool :=
  match reached b m with
  | [::] => true
  | [:: d] => if last_input b m is Some x then is_ok (comp i d x) else false
  | _ => false
  end.
(* its compressed gradient after the batch *)
Definition layer_new (comp : nat -> D -> X -> res C) (b : batch) (m i : nat) (old : option C) : option C :=
  match reached b m, last_input b m with
  | d :: _, Some x => if comp i d x is Ok c then Some c else old
  | _, _ => old
  end.
(* after the first t batches *)
Definition layer_after comp (bs : seq batch) (m i t : nat) (old : option C) : option C :=
  foldl (fun o b => layer_new comp b m i o) old (take t bs).
Definition good model (names : seq Name) comp (b : batch) : Prop :=
  [/\ is_ok (b_loss b), is_ok (b_store b) & forall m i, hooked_layer model names m i -> layer_ok comp b m i].
(* weight gradients of ordinary backpropagation, for the layers in S *)
Definition native1 (b : batch) (S : nat -> bool) (p : nat * D) : option (nat * D * X) :=
  if List.nth_error (b_calls b) p.1 is Some c then if S c.1 then Some (c.1, p.2, c.2) else None else None.
Definition weight_grads (b : batch) (S : nat -> bool) : seq (nat * D * X) := pmap (native1 b S) (b_back b).

(* whose failed session is pending after a history, from the answers alone; None when somebody else's session runs
   while one is pending *)
Fixpoint pending (p : option nat) (h : seq (op X D * bool)) : option (option nat) :=
  match h with
  | [::] => Some p
  | (Train _, _) :: h' => pending p h'
  | (Session k _ _, ok) :: h' =>
    if (p == None) || (p == Some k) then pending (if ok then None else Some k) h' else None
  end.
Fixpoint answers (model : seq modl) (s : system X D C Name) (h : seq (op X D)) : seq (op X D * bool) :=
  if h is o :: h' then (o, (exec model s o).2) :: answers model (exec model s o).1 h' else [::].
End Spec.
