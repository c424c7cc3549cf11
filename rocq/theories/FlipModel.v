(* Label noise and test-time dropout.
   Modelled: dattri/benchmark/utils.py 16-80 (_random_flip, flip_label) and
   dattri/model_util/dropout.py 15-68 (activate_dropout).

   Randomness is an oracle.  Label tensors live in a heap so that "the input is not modified" is a
   statement about memory.  Simplifications: labels and label spaces hold integers; a torch label
   space is a list of 0-d tensors, which hash and compare by identity inside a python set. *)
Set Warnings "-notation-overridden,-ambiguous-paths".
From mathcomp Require Import all_ssreflect all_algebra.
From Coq Require String.
From Verif Require Import Py.
Set Implicit Arguments. Unset Strict Implicit. Unset Printing Implicit Defensive.
Import Order.TTheory GRing.Theory Num.Theory.

(* ------------------------------------------------------------------ flip_label *)
Section Flip.
(* A member of the python set: a number, or the k-th 0-d tensor of a torch label space. *)
Inductive elt := Num of int | Ten of nat & int.
Definition elt_val (e : elt) : int := match e with Num v => v | Ten _ v => v end.
(* hash/== inside a set: numbers by value, tensors by identity *)
Definition elt_eqb (a b : elt) : bool :=
  match a, b with Num x, Num y => x == y | Ten i _, Ten j _ => i == j | _, _ => false end.

(* set.discard / set.add / set(list), utils.py 29-31 and 60 *)
Definition set_discard (l : seq elt) (e : elt) : seq elt := [seq x <- l | ~~ elt_eqb x e].
Definition set_add (l : seq elt) (e : elt) : seq elt := if has (elt_eqb e) l then l else rcons l e.
Definition set_of (l : seq elt) : seq elt := foldl set_add [::] l.

(* rng.choice of a non-empty list: the t-th draw *)
Variable pick : nat -> seq elt -> elt.

(* utils.py 16-32: result, label space after the call, draw counter *)
Definition random_flip (label : int) (st : seq elt * nat) : res (int * (seq elt * nat)) :=
  let space := set_discard st.1 (Num label) in
  if nilp space then Err ValueError                       (* choice of an empty list *)
  else Ok (elt_val (pick st.2 space), (set_add space (Num label), st.2.+1)).

(* np.vectorize (70-72) without otypes: refuses empty input, and evaluates the first element once
   more in advance to find the output type *)
Fixpoint flip_all (ls : seq int) (st : seq elt * nat) : res (seq int) :=
  if ls is l :: ls' then
    rbind (random_flip l st) (fun r => rmap (fun vs => r.1 :: vs) (flip_all ls' r.2))
  else Ok [::].
Definition vectorized (ls : seq int) (st : seq elt * nat) : res (seq int) :=
  if ls is l :: _ then rbind (random_flip l st) (fun r => flip_all ls r.2)
  else Err ValueError.

(* The label argument: numpy array, int64 tensor, or tensor of another dtype *)
Inductive kind := Ndarray | LongTensor | OtherTensor.
Definition heap := seq (seq int).

(* numpy.unique: sorted distinct values *)
Definition np_unique (l : seq int) : seq elt := [seq Num v | v <- sort <=%R (undup l)].

(* in-place t[idx] = vals, utils.py 78 *)
Definition put_at (l : seq int) (idx : seq nat) (vals : seq int) : seq int :=
  foldl (fun acc iv => set_nth 0%R acc iv.1 iv.2) l (zip idx vals).

(* rng.choice(n, size=k, replace=False) *)
Variable choice : nat -> nat -> seq nat.

(* utils.py 35-80; [k] is int(p * n_train) *)
Definition flip_label (h : heap) (loc : nat) (kd : kind) (space : option (seq elt)) (k : int)
  : heap * res (nat * seq nat) :=
  let label := nth [::] h loc in
  let sp := set_of (odflt (np_unique label) space) in                        (* 57-60 *)
  let n := size label in
  if ~~ ((0 <= k)%R && (k <= n%:Z)%R) then (h, Err ValueError)                   (* 64 *)
  else
    let idx := choice n `|k|%N in
    let h1 := rcons h label in                                              (* 67: deepcopy *)
    match vectorized [seq nth 0%R label i | i <- idx] (sp, 0%N) with          (* 70-72 *)
    | Err e => (h1, Err e)
    | Ok vals =>
      match kd with
      | Ndarray => (h1, Err AttributeError)                                  (* 78: ndarray.long *)
      | OtherTensor => (h1, Err RuntimeError)                                (* 78: dtype mismatch *)
      | LongTensor => (rcons h (put_at label idx vals), Ok (size h, idx))     (* 78-80 *)
      end
    end.
End Flip.

(* ------------------------------------------------------------------ activate_dropout *)
(* python's [sub in s] on strings *)
Fixpoint str_in (sub s : String.string) : bool :=
  String.prefix sub s ||
  match s with String.EmptyString => false | String.String _ s' => str_in sub s' end.

Section Dropout.
Variable Pr : Type.    (* dropout probabilities *)
(* A module as listed by named_modules() (each module once, under its first name): its name, its
   class name, the positions of itself and all its descendants in that list, its mode and its [p]
   attribute. *)
Record module := Module { m_name : String.string; m_class : String.string; m_subs : seq nat;
                          m_train : bool; m_p : option Pr }.
Definition set_train b (m : module) := Module (m_name m) (m_class m) (m_subs m) b (m_p m).
Definition set_p pr (m : module) := Module (m_name m) (m_class m) (m_subs m) (m_train m) (Some pr).

Definition dropout_name : String.string := String.String (Ascii.ascii_of_nat 68)
  (String.String (Ascii.ascii_of_nat 114) (String.String (Ascii.ascii_of_nat 111)
  (String.String (Ascii.ascii_of_nat 112) (String.String (Ascii.ascii_of_nat 111)
  (String.String (Ascii.ascii_of_nat 117) (String.String (Ascii.ascii_of_nat 116)
   String.EmptyString)))))).
(* dropout.py 45 and 56: module.__class__.__name__.startswith("Dropout") *)
Definition is_dropout (m : module) : bool := String.prefix dropout_name (m_class m).

(* model.eval(), dropout.py 36 *)
Definition eval_all (ms : seq module) := [seq set_train false m | m <- ms].
(* module.p = dropout_prob; module.train() for the module at position i; train() is recursive *)
Definition activate (pr : Pr) (i : nat) (ms : seq module) : seq module :=
  let subs := if ms is m0 :: _ then m_subs (nth m0 ms i) else [::] in
  [seq (let m := km.2 in
        let m := if km.1 == i then set_p pr m else m in
        if km.1 \in subs then set_train true m else m) | km <- zip (iota 0 (size ms)) ms].

(* dropout.py 36-68; the model is modified in place, so it is returned also on failure.
   [invalid] collects the offending names. *)
Definition activate_dropout (pr : Pr) (positions : option (seq String.string)) (ms : seq module)
  : seq module * res unit :=
  let ms0 := eval_all ms in
  let pos := odflt [::] positions in                                        (* 38-39 *)
  let visit (st : seq module * seq String.string) (i : nat) :=
    if st.1 is m0 :: _ then
      let m := nth m0 st.1 i in
      if nilp pos then                                                      (* 42-47 *)
        if is_dropout m then (activate pr i st.1, st.2) else st
      else                                                                  (* 50-60 *)
        foldl (fun st nm =>
          if str_in nm (m_name m) then
            if is_dropout m then (activate pr i st.1, st.2) else (st.1, rcons st.2 nm)
          else st) st pos
    else st in
  let: (ms1, invalid) := foldl visit (ms0, [::]) (iota 0 (size ms)) in
  (ms1, if nilp invalid then Ok tt else Err ValueError).                    (* 62-68 *)
End Dropout.
