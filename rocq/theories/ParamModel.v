(* Projection settings (params/projection.py) and what the attributors do with them: random_project on the CPU
   (func/projection.py 108-132, 1256-1398) and TracIn's attribute with the projectors it really builds, one per
   batch (algorithm/tracin.py 57, 69-258).  No proofs.

   Integers in settings are natural numbers (negative ones are not modelled) and pydantic's conversions of numerals,
   floats and booleans to int are not modelled.  CUDA devices are not modelled here (see ProjModel).  nan_to_num is
   the identity on field elements. *)
Set Warnings "-notation-overridden,-ambiguous-paths".
From mathcomp Require Import all_ssreflect all_algebra.
From Coq Require ZArith.
From Verif Require Import Py Dict Tensor Seeds ProjModel CompModel AttrModel.
Set Implicit Arguments. Unset Strict Implicit. Unset Printing Implicit Defensive.
Import GRing.Theory Num.Theory.
Local Open Scope ring_scope.

(* texts a user can write for proj_type: the six names, "grass_N", anything else *)
Inductive ptext := TName of ptype | TGrassN of nat | TOther.
Inductive pval := VInt of nat | VNone | VText of ptext.
Inductive pfield := FDim | FDimLayer | FBatch | FSeed | FType | FOther of nat.
Definition pfield_code (f : pfield) : nat :=
  match f with FDim => 0 | FDimLayer => 1 | FBatch => 2 | FSeed => 3 | FType => 4 | FOther n => n + 5 end%N.
(* keyword arguments, by field name *)
Definition kwargs := dict nat_eqType pval.
Definition kw_get (k : kwargs) (f : pfield) : option pval := dget k (pfield_code f).

(* the classes of params/projection.py 11-148 *)
Inductive pcls := CGeneral | CLoGra | CFactGrass | CTracIn | CTrak | CDvemb.
Record params := Params { a_dim : option nat; a_batch : nat; a_seed : nat; a_type : ptype }.
Definition dim_field (c : pcls) : pfield := if c is (CGeneral | CTracIn | CTrak) then FDim else FDimLayer.
(* None: the field is required (54, CGeneral) *)
Definition dim_default (c : pcls) : option (option nat) :=
  match c with
  | CGeneral => None
  | CLoGra | CFactGrass => Some (Some 4096)     (* 71, 88 *)
  | CTracIn | CTrak => Some (Some 512)          (* 105, 122 *)
  | CDvemb => Some None                         (* 140 *)
  end%N.
Definition batch_default (c : pcls) : nat := if c is (CTracIn | CTrak) then 32 else 64. (* 27, 106, 123 *)
Definition type_default (c : pcls) : ptype := if c is CDvemb then PIdentity else PNormal. (* 36, 148 *)
(* a pydantic ValidationError is a ValueError *)
Definition as_nat (v : pval) : res nat := if v is VInt n then Ok n else Err ValueError.
Definition as_type (v : pval) : res ptype := if v is VText (TName t) then Ok t else Err ValueError.
Definition field (X : Type) (get : pval -> res X) (dflt : X) (v : option pval) : res X :=
  if v is Some v then get v else Ok dflt.
(* the constructor call; unknown keywords are ignored (pydantic's default) *)
Definition validate (c : pcls) (k : kwargs) : res params :=
  rbind (match kw_get k (dim_field c) with
         | None => if dim_default c is Some d then Ok d else Err ValueError
         | Some VNone => if c is CDvemb then Ok None else Err ValueError
         | Some v => rmap Some (as_nat v)
         end) (fun d =>
  rbind (field as_nat (batch_default c) (kw_get k FBatch)) (fun b =>
  rbind (field as_nat 0%N (kw_get k FSeed)) (fun s =>
  rmap (Params d b s) (field as_type (type_default c) (kw_get k FType))))).
(* tracin.py 57, trak.py 92, dvemb.py 95: proj_params or the defaults *)
Definition settings (c : pcls) (given : option params) : res params :=
  if given is Some q then Ok q else validate c [::].

(* projection.py 108-132: base type and multiplier *)
Definition parse_grass (t : ptext) : ptext * nat := if t is TGrassN n then (TName PGrass, n) else (t, 4%N).

Inductive device := Cpu | OtherDevice.

Section Project.
Variable F : fieldType.
Variable G : rng F.
Notation row := (seq F).
(* random_project(X, RandomProjectionParams(feature_batch_size=len(X), device, **params))(X, ensemble_id=c);
   a RandomProjectionParams whose proj_dim is None is a ValidationError *)
Definition project_batch (dv : device) (q : params) (c : nat) (X : seq row) : res (seq row) :=
  if a_dim q is Some d then
    if size X == 0%N then Err ZeroDivisionError
    else if dv is OtherDevice then Err ValueError
    else rbind (random_project G (sumn (map size X)) (size X) (Some d) (BinInt.Z.of_nat (a_seed q)) (a_type q))
           (fun p => (b_project G (pj_cfg p) (pj_st p) X (BinInt.Z.of_nat c)).2)
  else Err ValueError.
(* a dictionary of parameters: the sizes are added up (1312-1317) and the rows concatenated (func/utils.py
   _vectorize); [P] gives each parameter's rows, [n] the batch size *)
Definition rows_of (n : nat) (P : seq (seq row)) : seq row := mkseq (fun i => flatten [seq nth [::] X i | X <- P]) n.
Definition project_dict (q : params) (c n : nat) (P : seq (seq row)) : res (seq row) :=
  if a_dim q is Some d then
    if n == 0%N then Err ZeroDivisionError else
    rbind (random_project G (n * sumn [seq sumn (map size X) %/ n | X <- P])%N n (Some d) (BinInt.Z.of_nat (a_seed q)) (a_type q))
      (fun p => (b_project G (pj_cfg p) (pj_st p) (rows_of n P) (BinInt.Z.of_nat c)).2)
  else Err ValueError.
End Project.

Section TracIn.
Variables (F : rcfType) (X : Type).
Variable G : rng F.
Notation row := (seq F).
Variables (gl gt : nat -> X -> row) (eps : F).
Definition sdot (u v : row) : F := \sum_(i < size u) nth 0 u i * nth 0 v i.
Definition snormalize (v : row) : row := [seq (Num.max (Num.sqrt (sdot v v)) eps)^-1 * x | x <- v].
(* tracin.py 155-177 and 204-226: self.proj_params.proj_dim is not None *)
Definition project_or_not (dv : device) (q : params) (c : nat) (Y : seq row) : res (seq row) :=
  if a_dim q is Some _ then project_batch G dv q c Y else Ok Y.
(* tracin.py 69-258 with every projector built *)
Definition tracin_real (dv : device) (given : option params) (normalized : bool) (n_ckpt : nat) (ws : seq F)
    (tr te : loader X) : res (seq (seq F)) :=
  rbind (settings CTracIn given) (fun q =>
  if n_ckpt != size ws then Err ValueError else
  rfold (fun out cw =>
    rfold (fun o pb =>
      rbind (project_or_not dv q cw.1 [seq gl cw.1 x | x <- pb.2]) (fun gs =>
      rfold (fun o' qb =>
        rbind (project_or_not dv q cw.1 [seq gt cw.1 y | y <- qb.2]) (fun hs =>
        add_block (st tr pb.1) (ed tr pb.1) (st te qb.1) (ed te qb.1)
          [seq [seq (if normalized then sdot (snormalize g) (snormalize h) else sdot g h) * cw.2 | h <- hs] | g <- gs] o'))
      o (enum_batches te)))
    out (enum_batches tr))
  (zeros2 _ (size (ld_data tr)) (size (ld_data te))) (zip (iota 0 n_ckpt) ws)).
End TracIn.
