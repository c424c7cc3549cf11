(* Settings of the nanoGPT training script and the blocks of the WikiText data set.
   Modelled: dattri/benchmark/models/nanoGPT/configurator.py 17-47 run inside train.py (lines 76-79 and 94), and
   dattri/benchmark/datasets/wikitext2/data.py 62-96 on top of datasets.map(batched=True).
   Oracles: ast.literal_eval, the effect of executing a configuration file, types of values; the tokenizer (the
   documents are given as columns of token lists).  Printing is left out.  No proofs. *)
Set Warnings "-notation-overridden,-ambiguous-paths".
From Coq Require String Ascii.
From mathcomp Require Import all_ssreflect.
From Verif Require Import Py Dict.
Set Implicit Arguments. Unset Strict Implicit. Unset Printing Implicit Defensive.

(* a string is the list of its character codes *)
Definition word : eqType := [eqType of seq nat].
Fixpoint w (s : String.string) : word :=
  match s with String.EmptyString => [::] | String.String c s' => Ascii.nat_of_ascii c :: w s' end.
Definition eqs : nat := 61.                                        (* '=' *)
Definition dashes : word := [:: 45; 45].                           (* '--' *)
(* arg.startswith('--') *)
Definition dashed (a : word) : bool := take 2 a == dashes.
(* s.split('=') *)
Fixpoint split_eq (a : word) : seq word :=
  if a is c :: a' then
    let r := split_eq a' in
    if c == eqs then [::] :: r else (c :: head [::] r) :: behead r
  else [:: [::]].

Import String.
Section Conf.
Variables (V : Type) (Ty : eqType) (ty : V -> Ty).
Variable vstr : word -> V.                     (* a str *)
Variable vfile : V.                            (* the closed file object bound to f *)
(* ast.literal_eval; Err ValueError also stands for SyntaxError *)
Variable lit : word -> res V.
Notation globals := (dict word V).
(* reading and executing a configuration file; None: it cannot be opened *)
Variable file : word -> option (globals -> globals * res unit).

(* configurator.py 20-47: one argument.  The loop variables are globals of train.py *)
Definition conf_arg (g : globals) (a : word) : globals * res unit :=
  let g0 := dset g (w "arg") (vstr a) in
  if eqs \notin a then
    if dashed a then (g0, Err AssertionError)
    else
      let g1 := dset g0 (w "config_file") (vstr a) in
      if file a is Some run then run (dset g1 (w "f") vfile) else (g1, Err FileNotFoundError)
  else if ~~ dashed a then (g0, Err AssertionError)
  else if split_eq a is [:: k; v] then
    let k' := drop 2 k in
    let g1 := dset (dset g0 (w "key") (vstr k')) (w "val") (vstr v) in
    if dhas g1 k' then
      match (match lit v with Ok x => Ok x | Err ValueError => Ok (vstr v) | Err e => Err e end) with
      | Err e => (g1, Err e)
      | Ok x =>
        let g2 := dset g1 (w "attempt") x in
        if (if dget g2 k' is Some old then ty x == ty old else false)
        then (dset g2 k' x, Ok tt) else (g2, Err AssertionError)
      end
    else (g1, Err ValueError)
  else (g0, Err ValueError).
Fixpoint conf (g : globals) (args : seq word) : globals * res unit :=
  if args is a :: args' then
    let r := conf_arg g a in if r.2 is Ok _ then conf r.1 args' else r
  else (g, Ok tt).
(* train.py 76-79, 94: the configuration that is saved, and the data directory.
   UnboundLocalError stands for its base class NameError *)
Definition start (keys : seq word) (g : globals) (args : seq word) : res (dict word (option V) * V) :=
  let r := conf g args in
  rbind r.2 (fun _ =>
  if dget r.1 (w "dataset_path") is Some p then Ok ([seq (k, dget r.1 k) | k <- keys], p) else Err UnboundLocalError).
End Conf.

Section Wiki.
Variables (T : Type) (K : eqType) (ids labels : K).
Notation columns := (dict K (seq (seq T))).    (* the rows of each column *)
(* data.py 72-83 *)
Definition blocks (bs total : nat) (t : seq T) : seq (seq T) :=
  [seq take bs (drop (i * bs) t) | i <- iota 0 (total %/ bs)].
Definition group_texts (bs : nat) (cols : columns) : res columns :=
  match cols with
  | [::] => Err StopIteration
  | (_, rows) :: _ =>
    if bs == 0 then Err ZeroDivisionError
    else
      let total := size (flatten rows) %/ bs * bs in
      let r := [seq (c.1, blocks bs total (flatten c.2)) | c <- cols] in
      if dget r ids is Some b then Ok (dset r labels b) else Err KeyError
  end.
(* datasets.map(batched=True): [mb] rows (1000) at a time, the results one after the other *)
Definition row_batch (mb i : nat) (cols : columns) : columns := [seq (c.1, take mb (drop (i * mb) c.2)) | c <- cols].
Definition append_cols (a b : columns) : columns :=
  if a is [::] then b else [seq (c.1, c.2 ++ odflt [::] (dget b c.1)) | c <- a].
Fixpoint map_batches (mb bs n i : nat) (cols : columns) : res columns :=
  if n is n'.+1 then
    rbind (group_texts bs (row_batch mb i cols)) (fun a =>
    rbind (map_batches mb bs n' i.+1 cols) (fun b => Ok (append_cols a b)))
  else Ok [::].
(* data.py 62-91 for one split of n rows: logging.Logger.warning, called on the class, raises TypeError *)
Definition wiki (mb max_len bs : nat) (cols : columns) : res columns :=
  if max_len < bs then Err TypeError
  else let n := size (odflt [::] (omap snd (ohead cols))) in map_batches mb (minn bs max_len) (n %/ mb + (n %% mb != 0)) 0 cols.
End Wiki.
