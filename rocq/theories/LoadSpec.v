(* What a user of load_benchmark relies on, in terms of addresses, file names and the cache directory.  No proofs. *)
Set Warnings "-notation-overridden,-ambiguous-paths".
From Coq Require Import String DecimalString.
From mathcomp Require Import all_ssreflect.
From Verif Require Import Py Dict LoadModel.
Set Implicit Arguments. Unset Strict Implicit. Unset Printing Implicit Defensive.
Local Open Scope string_scope.

(* the documented settings: (dataset, model) and the sizes of the two samplers *)
Definition published : seq (string * string * (nat * nat)) :=
  [:: ("mnist", "mlp", (5000, 500)); ("mnist", "lr", (5000, 500)); ("cifar2", "resnet9", (5000, 500));
      ("shakespeare", "nanogpt", (5000, 500)); ("maestro", "musictransformer", (5000, 178));
      ("wikitext2", "gpt2", (4656, 481))].

Section Spec.
Variables (C V : Type).
Notation subdir := (subdir C).
Notation fs := (fs C).
(* the file benchmark/id/key/name, and the folders of benchmark/id/key *)
Definition file_at (w : fs) (id key name : string) : option C :=
  obind (fun d => dget (s_files d) name) (obind (fun i => dget i key) (dget w id)).
Definition folders (w : fs) (id key : string) : option (seq string) :=
  omap (fun d => dkeys (s_dirs d)) (obind (fun i => dget i key) (dget w id)).
(* a path [id; key; folder; file] exists *)
Definition exists_path (w : fs) (p : seq string) : bool :=
  if p is [:: id; key; folder; file] then
    if obind (fun d => dget (s_dirs d) folder) (obind (fun i => dget i key) (dget w id)) is Some fl then dhas fl file
    else false
  else false.

(* the server has everything of a setting at the documented addresses; the last two files not for wikitext2_gpt2 *)
Record published_files := Pub { p_full : subdir; p_half : subdir; p_ilds : C; p_tlds : C; p_iloo : C; p_tloo : C }.
Definition base (id : string) : string :=
  "https://huggingface.co/datasets/trais-lab/dattri-benchmark/resolve/main/" +++ id +++ "/".
Definition serves (archive : C -> res subdir) (srv : string -> answer C) (id : string) (p : published_files) : Prop :=
  [/\ exists2 c, srv (base id +++ id +++ "_full.zip?download=true") = Full c & archive c = Ok (p_full p),
      exists2 c, srv (base id +++ id +++ "_half.zip?download=true") = Full c & archive c = Ok (p_half p),
      srv (base id +++ "lds/indices_lds.pt?download=true") = Full (p_ilds p) /\
      srv (base id +++ "lds/target_values_lds.pt?download=true") = Full (p_tlds p)
    & id <> "wikitext2_gpt2" ->
      srv (base id +++ "loo/indices_loo.pt?download=true") = Full (p_iloo p) /\
      srv (base id +++ "loo/target_values_loo.pt?download=true") = Full (p_tloo p)].
(* names in an archive are distinct *)
Definition wf_sub (d : subdir) : bool := uniq (dkeys (s_dirs d)).
Definition wf_pub (p : published_files) : bool := wf_sub (p_full p) && wf_sub (p_half p).
End Spec.
(* the pair (values, indices) published for a metric *)
Definition truth (C : Type) (p : published_files C) (metric : string) : option (C * C) :=
  if metric == "lds" then Some (p_tlds p, p_ilds p) else if metric == "loo" then Some (p_tloo p, p_iloo p) else None.
