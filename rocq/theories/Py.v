(* Python-level vocabulary shared by all models: exceptions as values. *)
Set Implicit Arguments. Unset Strict Implicit.

(* The exception classes raised in /repo/dattri that the models mention. *)
Inductive exn : Type :=
| ValueError | TypeError | KeyError | IndexError | RuntimeError
| AttributeError | ZeroDivisionError | UnboundLocalError
| NotImplementedError | AssertionError | StopIteration | FileNotFoundError
| IHVPUsageError.   (* hessian.py 1005: a subclass of Exception *)

(* Outcome of a Python call: a value or a raised exception. *)
Inductive res (A : Type) : Type :=
| Ok (a : A)
| Err (e : exn).
Arguments Ok {A} a.
Arguments Err {A} e.

Definition rbind (A B : Type) (m : res A) (f : A -> res B) : res B :=
  match m with Ok a => f a | Err e => Err e end.
Definition rmap (A B : Type) (f : A -> B) (m : res A) : res B :=
  match m with Ok a => Ok (f a) | Err e => Err e end.

(* A [for] loop whose body may raise: state threaded, first exception wins. *)
Fixpoint rfold (S B : Type) (f : S -> B -> res S) (s : S) (l : list B) : res S :=
  match l with
  | nil => Ok s
  | cons b l' => rbind (f s b) (fun s' => rfold f s' l')
  end.
