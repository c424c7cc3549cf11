(* dattri/benchmark/load.py: the predefined benchmark settings and their download cache.  No proofs.
   The part of the file system below download_path/benchmark is explicit, with one level of folders in every
   directory, the web server is a function from addresses to answers, torch.load and the construction of the data set
   (which lives below download_path/dataset) are oracles.  A call returns the file system it leaves together with its
   outcome.  Not modelled: warnings, the CUDA branch of load (same value), symbolic links, pip extras missing. *)
Set Warnings "-notation-overridden,-ambiguous-paths".
From Coq Require Import Ascii String DecimalString.
From mathcomp Require Import all_ssreflect.
From Verif Require Import Py Dict.
Set Implicit Arguments. Unset Strict Implicit. Unset Printing Implicit Defensive.

Definition string_eqb := nosimpl String.eqb.
Definition string_eqP : Equality.axiom string_eqb := String.eqb_spec.
Definition string_eqMixin := EqMixin string_eqP.
Canonical string_eqType := EqType string string_eqMixin.
Infix "+++" := String.append (at level 55, right associativity).

(* str(i) *)
Definition str_nat (i : nat) : string := NilEmpty.string_of_uint (Nat.to_uint i).
(* s.split(c)[0] and s.split(c)[-1] *)
Fixpoint split_first (c : Ascii.ascii) (s : string) : string :=
  if s is String a s' then if Ascii.eqb a c then ""%string else String a (split_first c s') else ""%string.
Fixpoint split_last_from (c : Ascii.ascii) (s acc : string) : string :=
  if s is String a s' then
    if Ascii.eqb a c then split_last_from c s' ""%string else split_last_from c s' (acc +++ String a ""%string)
  else acc.
Definition split_last c s := split_last_from c s ""%string.

(* load.py 49 *)
Definition repo_url : string := "https://huggingface.co/datasets/trais-lab/dattri-benchmark/resolve/main/".
(* 52-74 *)
Definition url_models (id half : string) : string := repo_url +++ id +++ "/" +++ id +++ "_" +++ half +++ ".zip?download=true".
Definition url_truth (id metric : string) : seq string :=
  [:: repo_url +++ id +++ "/" +++ metric +++ "/indices_" +++ metric +++ ".pt?download=true";
      repo_url +++ id +++ "/" +++ metric +++ "/target_values_" +++ metric +++ ".pt?download=true"].

(* 77-119: the keys of the five maps; what is None; the sampler sizes *)
Definition supported_datasets : seq string := [:: "mnist"; "cifar2"; "shakespeare"; "maestro"; "wikitext2"]%string.
Record setting := Setting { g_none : bool;  (* model, loss and training function are None *)
  g_train : nat; g_test : nat }.
Definition settings : dict string_eqType setting :=
  [:: ("mnist_mlp", Setting false 5000 500); ("mnist_lr", Setting false 5000 500);
      ("cifar2_resnet9", Setting false 5000 500); ("shakespeare_nanogpt", Setting true 5000 500);
      ("maestro_musictransformer", Setting false 5000 178); ("wikitext2_gpt2", Setting false 4656 481)]%string.

Section Load.
Variables (C V D : Type).     (* contents of files, loaded tensors, data sets *)

(* a directory: its folders with their files, and its own files *)
Record subdir := Sub { s_dirs : dict string_eqType (dict string_eqType C); s_files : dict string_eqType C }.
Definition empty := Sub [::] [::].
(* download_path/benchmark: identifier -> key -> directory *)
Definition idir := dict string_eqType subdir.
Definition fs := dict string_eqType idir.
(* the answer to a request: none (requests.get raises); 200 with a body; a failure (or an interrupt) while the body is
   unpacked or written, after some of the entries or some of the bytes; another status *)
Inductive answer := NoAnswer of exn | Full of C | Cut of subdir & C & exn | Status of nat.
Variable archive : C -> res subdir.               (* zipfile.ZipFile: the entries, or BadZipFile *)
Variable load : C -> res V.                       (* torch.load of a file *)
Variable mkdata : string -> res D.                (* SUPPORTED_DATASETS[dataset](download_path / "dataset") *)

(* mkdir(parents=True, exist_ok=True) of benchmark/id/key, and a change below it *)
Definition change (w : fs) (id key : string) (f : subdir -> subdir) : fs :=
  let i := odflt [::] (dget w id) in
  dset w id (dset i key (f (odflt empty (dget i key)))).
(* zip_ref.extractall: existing files are overwritten, nothing is removed *)
Definition merge_files (a b : dict string_eqType C) : dict string_eqType C := foldl (fun d p => dset d p.1 p.2) a b.
Definition extract (z d : subdir) : subdir :=
  Sub (foldl (fun ds p => dset ds p.1 (merge_files (odflt [::] (dget ds p.1)) p.2)) (s_dirs d) (s_dirs z))
      (merge_files (s_files d) (s_files z)).
(* one call of _download: key of the directory, address, unzip, file_name *)
Record item := Item { i_key : string; i_url : string; i_unzip : bool; i_name : string }.
(* 136-174 *)
Definition download (srv : string -> answer) (w : fs) (id : string) (x : item) : fs * res unit :=
  let same := change w id (i_key x) (fun d => d) in
  match srv (i_url x) with
  | NoAnswer e => (w, Err e)
  | Full c =>
    if i_unzip x then
      match archive c with
      | Ok z => (change w id (i_key x) (extract z), Ok tt)
      | Err e => (same, Err e)
      end
    else (change w id (i_key x) (fun d => Sub (s_dirs d) (dset (s_files d) (i_name x) c)), Ok tt)
  | Cut z c e =>
    (change w id (i_key x) (fun d => if i_unzip x then extract z d else Sub (s_dirs d) (dset (s_files d) (i_name x) c)), Err e)
  | Status n => (same, if n == 404 then Ok tt else Err ValueError)
  end.
(* 242-264 *)
Definition items (id : string) : seq item :=
  [:: Item "models_full" (url_models id "full") true "file.zip"; Item "models_half" (url_models id "half") true "file.zip"]
  ++ [seq Item "lds" u false (split_last "/"%char (split_first "?"%char u)) | u <- url_truth id "lds"]
  ++ (if id == "wikitext2_gpt2"%string then [::]
      else [seq Item "loo" u false (split_last "/"%char (split_first "?"%char u)) | u <- url_truth id "loo"]).
Fixpoint fetch (srv : string -> answer) (w : fs) (id : string) (l : seq item) : fs * res unit :=
  if l is x :: l' then
    match download srv w id x with
    | (w', Err e) => (w', Err e)
    | (w', Ok _) => fetch srv w' id l'
    end
  else (w, Ok tt).

(* 122-133: iterdir of a missing directory raises *)
Definition count_folders (w : fs) (id key : string) : res nat :=
  if obind (fun i => dget i key) (dget w id) is Some d then Ok (size (s_dirs d)) else Err FileNotFoundError.
(* 266-288, the path below benchmark *)
Definition paths (id key : string) (n : nat) : seq (seq string) :=
  [seq [:: id; key; str_nat i; "model_weights_0.pt"%string] | i <- iota 0 n].
(* 308-322 *)
Definition read (w : fs) (id key name : string) : res V :=
  if obind (fun d => dget (s_files d) name) (obind (fun i => dget i key) (dget w id)) is Some c
  then load c else Err FileNotFoundError.

(* the entry "model": MODEL_MAP[identifier]() in eval mode, or the argument itself (324-325) *)
Inductive rmodel := Made of string | Argument of string.
Record result := Result { r_model : rmodel; r_full : seq (seq string); r_half : seq (seq string); r_data : D;
  r_train : nat; r_test : nat;                       (* SubsetSampler(range(.)) *)
  r_funcs : bool;                                    (* loss, target and train functions are not None *)
  r_values : V; r_indices : V }.
(* 234-338 *)
Definition load_benchmark (srv : string -> answer) (w : fs) (model dataset metric : string) (redownload : bool)
  : fs * res result :=
  let id := dataset +++ "_" +++ model in
  match dget settings id with
  | None => (w, Err ValueError)
  | Some g =>
    let: (w', r) := if ~~ dhas w id || redownload then fetch srv w id (items id) else (w, Ok tt) in
    (w', rbind r (fun _ =>
         rbind (count_folders w' id "models_full") (fun nf =>
         rbind (count_folders w' id "models_half") (fun nh =>
         rbind (if dataset \in supported_datasets then mkdata dataset else Err KeyError) (fun ds =>
         rbind (read w' id metric ("target_values_" +++ metric +++ ".pt")) (fun tv =>
         rbind (read w' id metric ("indices_" +++ metric +++ ".pt")) (fun ix =>
         Ok (Result (if g_none g then Argument model else Made id) (paths id "models_full" nf) (paths id "models_half" nh)
                    ds (g_train g) (g_test g) (~~ g_none g) tv ix))))))))
  end.
(* a history of calls *)
Record call := Call { c_srv : string -> answer; c_model : string; c_dataset : string; c_metric : string; c_re : bool }.
Definition exec (w : fs) (c : call) := load_benchmark (c_srv c) w (c_model c) (c_dataset c) (c_metric c) (c_re c).
Definition run (w : fs) (h : seq call) : fs := foldl (fun w c => (exec w c).1) w h.
End Load.
