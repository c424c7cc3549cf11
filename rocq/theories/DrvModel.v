(* What the nanoGPT retraining command leaves on disk, over any sequence of calls: script/dattri_retrain_nanogpt.py 16-157
   with datasets/shakespeare_char/prepare.py 13-61 and datasets/tinystories/prepare.py 13-66 as subprocesses.
   Simplifications: the text is kept instead of its encoding (the encoding is NanoModel's prepare); a file is written at
   once, so an interruption falls between two writes; the training itself is one step that succeeds or leaves the
   model folder as it was (train.py writes its checkpoints as it goes, so a training that fails late has replaced some); paths
   without characters special to the shell; the working directory is not modelled.
   No proofs. *)
Set Warnings "-notation-overridden,-ambiguous-paths".
From mathcomp Require Import all_ssreflect all_algebra.
From Verif Require Import Py NanoModel.
Set Implicit Arguments. Unset Strict Implicit. Unset Printing Implicit Defensive.
Import GRing.Theory Num.Theory.

(* --dataset, 141-146: the two names with a folder and a configuration, and any other *)
Inductive dset := Shakespeare | Tiny | OtherName.
(* the files of the data set folder (input.txt, train.bin, val.bin, meta.pkl) and the model folders: model number to
   (seed, training text, validation text) of the last successful training *)
Record world := World { input : option (seq nat); train : option (seq nat); val_ : option (seq nat); meta : bool;
  outs : int -> option (int * seq nat * seq nat) }.
Definition set_input t w := World (Some t) (train w) (val_ w) (meta w) (outs w).
Definition set_train t w := World (input w) (Some t) (val_ w) (meta w) (outs w).
Definition set_val t w := World (input w) (train w) (Some t) (meta w) (outs w).
Definition set_meta w := World (input w) (train w) (val_ w) true (outs w).
Definition set_out i x w := World (input w) (train w) (val_ w) (meta w) (fun k => if k == i then Some x else outs w k).

(* one call (main 95-137): [kill] is the number of writes after which prepare.py is interrupted; [dl] the downloaded text, None if the
   download fails; [file] the content of --data_file, None if there is no such file; [neg], [above]: subset_ratio <= 0,
   > 1; [fails i]: the training process of index i fails on its own account *)
Record cmd := Cmd { kill : nat; dl : option (seq nat); file : option (seq nat); only : bool; neg : bool;
  above : bool; seed : int; first : int; last_ : int; total : int; fails : int -> bool }.

(* shakespeare_char/prepare.py 49-61, tinystories/prepare.py 54-66 *)
Definition finish (t : seq nat) : seq (world -> world) := [:: set_train t; set_val t; set_meta].
Section Run.
(* the data set of all calls; whether a text is long enough for train.py *)
Variables (ds : dset) (usable : seq nat -> bool).
(* shakespeare_char/prepare.py 13-20: open(.., 'w') creates the file before the request; --data_file is not looked at.
   tinystories/prepare.py 20-25.  A folder that does not exist: nothing *)
Definition writes (c : cmd) (w : world) : seq (world -> world) :=
  match ds with
  | Shakespeare =>
    if input w is Some t then finish t
    else set_input [::] :: (if dl c is Some t then set_input t :: finish t else [::])
  | Tiny => if file c is Some t then finish t else [::]
  | OtherName => [::]
  end.
(* dattri_retrain_nanogpt.py 41-47: the exit status is not checked *)
Definition prepared (c : cmd) (w : world) : world :=
  if meta w then w else foldl (fun w f => f w) w (take (kill c) (writes c w)).
(* 70-90 for one index, with the running seed; the exit status is not checked.  train.py 134, 136, 151 needs both files *)
Definition train1 (c : cmd) (st : world * int) (i : int) : world * int :=
  let: (w, s) := st in
  (match train w, val_ w with
   | Some t, Some v => if usable t && usable v && ~~ fails c i then set_out (i + 1)%R (s, t, v) w else w
   | _, _ => w
   end, (s + 1)%R).
(* 41-90 *)
Definition call (w : world) (c : cmd) : world * res unit :=
  let w := prepared c w in
  if only c then (w, Ok tt) else
  if ds is OtherName then (w, Err FileNotFoundError) else
  if neg c then (w, Err ValueError) else if above c then (w, Err ValueError) else
  let e := if (last_ c <= total c)%R then last_ c else total c in
  ((foldl (train1 c) (w, (seed c + first c - 1)%R) (zrange (first c) e)).1, Ok tt).
(* any sequence of calls, whatever they return *)
Definition calls (w : world) (cs : seq cmd) : world := foldl (fun w c => (call w c).1) w cs.
End Run.
(* before the first call *)
Definition fresh : world := World None None None false (fun _ => None).
