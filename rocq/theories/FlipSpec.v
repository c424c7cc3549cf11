(* Specification vocabulary for label flipping and dropout activation. *)
Set Warnings "-notation-overridden,-ambiguous-paths".
From mathcomp Require Import all_ssreflect all_algebra.
From Coq Require String.
Import String.StringSyntax.
Delimit Scope string_scope with string.
From Verif Require Import Py FlipModel.
Set Implicit Arguments. Unset Strict Implicit. Unset Printing Implicit Defensive.

(* k distinct positions below n *)
Definition draws_without_replacement (choice : nat -> nat -> seq nat) : Prop :=
  forall n k, k <= n ->
    [/\ size (choice n k) = k, uniq (choice n k) & all (fun x => x < n) (choice n k)].

(* string containment and the class-name test, by their meaning *)
Definition contains (s sub : String.string) : Prop :=
  exists a b, s = String.append a (String.append sub b).
Definition dropout_class (Pr : Type) (m : module Pr) : Prop :=
  exists b, m_class m = String.append "Dropout"%string b.

(* the module is a dropout module picked by the list of names (every one if the list is empty) *)
Definition picked (Pr : Type) (pos : seq String.string) (m : module Pr) : Prop :=
  dropout_class m /\ (pos = [::] \/ exists2 nm, List.In nm pos & contains (m_name m) nm).
(* a listed name occurs in the name of a module that is not a dropout module *)
Definition misnamed (Pr : Type) (pos : seq String.string) (ms : seq (module Pr)) : Prop :=
  exists m nm, [/\ List.In m ms, List.In nm pos, contains (m_name m) nm & ~ dropout_class m].

(* same architecture: names, classes and nesting agree *)
Definition same_architecture (Pr : Type) (a b : seq (module Pr)) : Prop :=
  [seq (m_name m, m_class m, m_subs m) | m <- a] = [seq (m_name m, m_class m, m_subs m) | m <- b].
