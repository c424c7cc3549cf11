(* Independent description of the projection settings and of the scores TracIn promises. *)
Set Warnings "-notation-overridden,-ambiguous-paths".
From mathcomp Require Import all_ssreflect all_algebra.
From Coq Require ZArith.
From Verif Require Import Py Dict Tensor Seeds SeedSpec ProjModel ProjSpec ParamModel.
Set Implicit Arguments. Unset Strict Implicit. Unset Printing Implicit Defensive.
Import GRing.Theory Num.Theory.
Local Open Scope ring_scope.

(* what the user wrote for a field, with a default *)
Definition written (X : Type) (read : pval -> option X) (dflt : option X) (v : option pval) : option X :=
  if v is Some w then read w else dflt.
Definition int_only (v : pval) : option nat := if v is VInt n then Some n else None.
Definition int_or_none (v : pval) : option (option nat) :=
  match v with VInt n => Some (Some n) | VNone => Some None | VText _ => None end.
Definition name_only (v : pval) : option ptype := if v is VText (TName t) then Some t else None.

(* the documented defaults: dimension (None: must be given), per layer or not, batch, type *)
Definition documented (c : pcls) : option (option nat) * bool * nat * ptype :=
  match c with
  | CGeneral => (None, false, 64, PNormal)
  | CLoGra | CFactGrass => (Some (Some 4096), true, 64, PNormal)
  | CTracIn | CTrak => (Some (Some 512), false, 32, PNormal)
  | CDvemb => (Some None, true, 64, PIdentity)
  end%N.
Definition described (c : pcls) (k : kwargs) (q : params) : Prop :=
  let: (d, per_layer, b, t) := documented c in
  let dv := kw_get k (if per_layer then FDimLayer else FDim) in
  [/\ (if c is CDvemb then written int_or_none d dv = Some (a_dim q)
       else written (fun v => omap Some (int_only v)) d dv = Some (a_dim q)),
      written int_only (Some b) (kw_get k FBatch) = Some (a_batch q),
      written int_only (Some 0%N) (kw_get k FSeed) = Some (a_seed q)
    & written name_only (Some t) (kw_get k FType) = Some (a_type q)].

Section Rows.
Variable F : fieldType.
Variable G : rng F.
(* one row of [fd] features, projected to [d] dimensions for ensemble [e] *)
Definition prow (fd d seed : nat) (t : ptype) (e : nat) (x : seq F) : seq F :=
  let sd := BinInt.Z.of_nat seed in let ez := BinInt.Z.of_nat e in
  match t with
  | PNormal | PRademacher => apply_matrix G fd d (basic_entry G fd (minn d 100) sd ez t) x
  | PMask => [seq nth 0 x i | i <- sort leq (take d (g_perm G (spec_seed sd ez 0) fd))]
  | _ => x
  end.
(* its width *)
Definition outw (fd d : nat) (t : ptype) : nat :=
  match t with PNormal | PRademacher => d | PMask => minn d fd | _ => fd end.
Definition on_cpu (t : ptype) : bool := if t is (PSjlt | PGrass) then false else true.
Definition inner (w : nat) (u v : seq F) : F := \sum_(i < w) nth 0 u i * nth 0 v i.
End Rows.
