(* The retraining command, script/dattri_retrain.py.  No proofs.

   The command line enters after argparse has cut it into options; texts enter as the choices the script makes on
   them.  Not modelled: negative numbers in --partition, --extra_param indices=... with mode loo (an integer is not
   iterable, a text is iterated over character by character), the creation of --data_path and of the data set (its
   length enters as [N]), --device other than as a keyword for the training function. *)
Set Warnings "-notation-overridden,-ambiguous-paths".
From mathcomp Require Import all_ssreflect all_algebra.
From Verif Require Import Py Dict RetrainModel.
Set Implicit Arguments. Unset Strict Implicit. Unset Printing Implicit Defensive.
Import GRing.Theory Num.Theory.
Local Open Scope ring_scope.

(* texts after --dataset, --model, --mode *)
Inductive dtext := Mnist | Imagenet | Cifar2 | Maestro | DOther.
Inductive mtext := Lr | Resnet18 | Resnet9 | Music | Mlp | MOther.
Inductive otext := Loo | Lds | OOther.
(* one comma separated field of --partition, 61-77 *)
Inductive fld := FInt of nat | FNone | FBad.
(* --extra_param key=value, 80-92: the keys with a meaning for retrain_lds, the arguments given by the script itself,
   device and all others; [XBad]: not exactly one "=" *)
Inductive xkey := KNum | KRatio | KRuns | KStart | KTotal | KSeed | KPath | KLoader | KTrain | KDevice | KOther of nat.
Definition xcode (k : xkey) : nat :=
  match k with KNum => 0 | KRatio => 1 | KRuns => 2 | KStart => 3 | KTotal => 4 | KSeed => 5 | KPath => 6 | KLoader => 7
  | KTrain => 8 | KDevice => 9 | KOther n => n + 10 end%N.
(* value.isdigit() makes an int, 90-91 *)
Inductive xval := XInt of nat | XText of nat.
Inductive xarg := XArg of xkey & xval | XBad.
Record cargs := CArgs { c_ds : option dtext; c_md : option mtext; c_op : option otext; c_sub : int; c_seed : int;
                        c_part : option (seq fld); c_dev : nat; c_extra : seq xarg }.

(* the choices of argparse (34, 49-54, 43), partition_type and key_value_pair *)
Definition bad_ds (d : option dtext) := if d is Some DOther then true else false.
Definition bad_md (m : option mtext) := if m is Some (Mlp | MOther) then true else false.
Definition bad_op (m : option otext) := if m is Some OOther then true else false.
Definition bad_part (p : option (seq fld)) :=
  if p is Some fs then has (fun f => if f is FBad then true else false) fs || (size fs != 3%N) else false.
Definition bad_extra (l : seq xarg) := has (fun x => if x is XBad then true else false) l.
(* 36-42: None is a KeyError *)
Definition supported (d : dtext) (m : mtext) : bool :=
  match d, m with Mnist, Lr | Mnist, Mlp | Imagenet, Resnet18 | Cifar2, Resnet9 | Maestro, Music => true | _, _ => false end.
Definition fint (dflt : option nat) (f : fld) : option nat := if f is FInt n then Some n else dflt.
(* 194-197 *)
Definition fields (op : otext) (N : nat) (p : option (seq fld)) : option nat * option nat * option nat :=
  let fs := odflt [:: FInt 0%N; FNone; FNone] p in
  let whole := if op is Loo then N else 100%N in
  (fint None (nth FNone fs 0%N), fint (Some whole) (nth FNone fs 1%N), fint (Some whole) (nth FNone fs 2%N)).

Definition kwd := dict nat_eqType xval.
(* kwargs.update(args.extra_param or {}), 207 *)
Definition update (k : kwd) (l : seq xarg) : kwd :=
  foldl (fun k x => if x is XArg a v then dset k (xcode a) v else k) k l.
Definition reserved : seq xkey := [:: KSeed; KPath; KLoader; KTrain].

Inductive outcome := Usage | Help | Done of res unit.

Section Run.
Variables (P : eqType) (M G : Type).
Variable choice : int -> nat -> nat -> seq nat.
Variable reseed : int -> G.
(* train_func(loader over these positions, seed, keywords) *)
Variable train : kwd -> seq nat -> int -> G -> res M * G.

(* a number, or a text that is not one *)
Inductive nval := NZ of int | NText.
Definition nval_of (k : kwd) (key : xkey) (dflt : int) : nval :=
  match dget k (xcode key) with None => NZ dflt | Some (XInt n) => NZ n%:Z | Some (XText _) => NText end.

(* retrain.py 136-289 called with what the script passes; [RetrainModel.retrain_lds] once all arguments are numbers.
   A text for subset_ratio is repeated n times and read as a number, a ValueError.  A negative number of subsets
   that divides the total trains nothing and writes metadata only when the total is 0 (there with a negative
   num_subsets, here 0). *)
Definition call_lds (w : world P M) (g : G) (p : P) (n : nat) (seed : int) (k : kwd) (num0 start0 total0 : int)
  : (world P M * G) * res unit :=
  let tr := train [seq e <- k | (e.1 == xcode KDevice) || (10 <= e.1)%N] in
  match nval_of k KTotal total0, nval_of k KNum num0 with
  | NText, _ => ((w, g), Err TypeError)
  | NZ total, num =>
    if total < 0 then ((w, g), Err ValueError) else
    match num with
    | NText => ((w, g), Err TypeError)
    | NZ num =>
      if num == 0 then ((w, g), Err ZeroDivisionError)
      else if ~~ (`|num| %| `|total|)%N then ((w, g), Err ValueError) else
      let w1 := mkroot w p in
      match (if dget k (xcode KRatio) is Some v then (if v is XInt r then Some (n * r)%N else None) else Some (n %/ 2)%N) with
      | None => ((w1, g), Err ValueError)
      | Some len =>
        if seed < 0 then ((w1, g), Err ValueError) else
        match (if total == 0 then NZ 0 else nval_of k KStart start0) with
        | NText => ((w1, reseed seed), Err TypeError)
        | NZ start =>
          if num < 0 then
            ((if total == 0 then save_meta w1 p (LMeta 0 0 [::]) else w1, reseed seed), Ok tt)
          else match nval_of k KRuns 1 with
          | NZ runs => retrain_lds choice reseed tr w g p (Job n len%:Z `|num|%N `|runs|%N `|start|%N total seed)
          | NText => (* the first subset is drawn and its indices written *)
            if (0 < len <= n)%N
            then ((save_indices w1 p `|start|%N (choice (seed + start) n len), reseed seed), Err TypeError)
            else ((w1, reseed seed), Err ValueError)
          end
        end
      end
    end
  end.

(* the part after parse_args, 171-216 *)
Definition main (s : world P M * lroot M * G) (p : P) (N : nat) (a : cargs) : (world P M * lroot M * G) * outcome :=
  if [|| bad_ds (c_ds a), bad_md (c_md a), bad_op (c_op a), bad_part (c_part a) | bad_extra (c_extra a)] then (s, Usage)
  else match c_ds a, c_md a, c_op a with
  | Some d, Some m, Some op =>
    if ~~ supported d m then (s, Done (Err KeyError))
    else if (c_sub a <= 0) && (N == 0%N) then (s, Done (Err ValueError)) (* RandomSampler over nothing *)
    else
    let n := if 0 < c_sub a then `|c_sub a|%N else N in                   (* 181-191 *)
    let: (f0, f1, f2) := fields op N (c_part a) in
    match f0, f1, f2 with
    | Some st, Some en, Some tot =>
      let k := update [:: (xcode KDevice, XText (c_dev a))] (c_extra a) in
      if has (fun r => dhas k (xcode r)) reserved then (s, Done (Err TypeError)) (* duplicate keyword, 209-215 *)
      else match op with
      | Loo =>
        let idx := [seq i%:Z | i <- iota st (en - st)] in
        let: ((l, g), r) := retrain_loo reseed (fun i sd g => train k i (odflt 0 sd) g) s.1.2 s.2 n (Some idx) (Some (c_seed a)) in
        ((s.1.1, l, g), Done r)
      | _ =>
        let: ((w, g), r) := call_lds s.1.1 s.2 p n (c_seed a) k (en%:Z - st%:Z) st%:Z tot%:Z in
        ((w, s.1.2, g), Done r)
      end
    | _, _, _ => (s, Done (Err TypeError))                                (* int(None) *)
    end
  | _, _, _ => (s, Help)
  end.
End Run.
