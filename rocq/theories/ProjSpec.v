(* Independent description of the random projections. *)
Set Warnings "-notation-overridden,-ambiguous-paths".
From mathcomp Require Import all_ssreflect all_algebra.
From Coq Require ZArith.
From Verif Require Import Py Tensor Seeds SeedSpec ProjModel.
Set Implicit Arguments. Unset Strict Implicit. Unset Printing Implicit Defensive.
Import GRing.Theory.
Local Open Scope ring_scope.
Notation Z := BinNums.Z.

Section Spec.
Variable F : fieldType.
Variable G : rng F.
Notation row := (seq F).

(* one pseudo-random entry of a rows x cols matrix drawn with a given seed *)
Definition draw (t : ptype) (s : Z) (rows cols i j : nat) : F :=
  match t with
  | PNormal => g_normal G s rows cols i j
  | _ => if g_bern G s rows cols i j then 1 else -1
  end.

Definition is_dense (t : ptype) : bool := if t is (PNormal | PRademacher) then true else false.

(* The projection matrix a (seed, ensemble, dimensions) choice stands for:
   feature_dim x proj_dim, column j coming from block j / block_size. *)
Definition basic_entry (fd bs : nat) (seed e : Z) (t : ptype) (i j : nat) : F :=
  draw t (spec_seed seed e (j %/ bs)) fd bs i (j %% bs).

(* x . P / sqrt(proj_dim) *)
Definition apply_matrix (fd pd : nat) (P : nat -> nat -> F) (x : row) : row :=
  mkseq (fun j => (\sum_(i < fd) nth 0 x i * P i j) / g_root G pd) pd.

(* coordinates kept by a mask *)
Definition kept (idx : seq nat) (fd pd : nat) : Prop :=
  [/\ sorted ltn idx, size idx = minn pd fd & {in idx, forall i, (i < fd)%N}].

(* one call in the life of a projector *)
Inductive bop := BProject of seq row & Z | BFree.

(* what a user has to remember about a single-block projector: the ensemble of
   the last projection, and whether the memory was freed since that ensemble
   became current *)
Fixpoint freed_state (cur : Z) (fr : bool) (ops : seq bop) : Z * bool :=
  match ops with
  | [::] => (cur, fr)
  | BFree :: ops' => freed_state cur true ops'
  | BProject _ e :: ops' => if zeqb e cur then freed_state cur fr ops' else freed_state e false ops'
  end.

(* CudaProjector: what one row becomes, for the history independent types *)
Definition crow (c : ccfg) (e : Z) (x : row) : row :=
  let sd := spec_seed (c_seed c) e 0 in
  match c_type c with
  | PNormal | PRademacher => apply_matrix (c_fd c) (c_pd c) (draw (c_type c) sd (c_fd c) (c_pd c)) x
  | PSjlt =>
      let h := g_sjlt G sd None (c_fd c) (c_pd c) in
      mkseq (fun j => \sum_(i < c_fd c | nth 0%N h.1 i == j) nth 0 h.2 i * nth 0 x i) (c_pd c)
  | PMask => [seq nth 0 x i | i <- mask G sd (c_fd c) (c_pd c)]
  | _ => x
  end.

(* GraSS with an intermediate dimension d *)
Definition grass_row (c : ccfg) (e : Z) (d : nat) (x : row) : row :=
  let sd := spec_seed (c_seed c) e 0 in
  let m := mask G sd (c_fd c) d in
  let h := g_sjlt G sd (Some (c_fd c)) d (c_pd c) in
  mkseq (fun j => \sum_(i < d | nth 0%N h.1 i == j) nth 0 h.2 i * nth 0 x (nth 0%N m i)) (c_pd c).

(* types for which every chunk yields proj_dim columns *)
Definition fits (c : ccfg) : bool :=
  match c_type c with
  | PNormal | PRademacher | PSjlt => true
  | PMask => (c_pd c <= c_fd c)%N
  | _ => false
  end.

(* number of times the randomness is generated by a sequence of ensemble ids *)
Fixpoint generations (cur : Z) (es : seq Z) : nat :=
  if es is e :: es' then (~~ zeqb e cur + generations e es')%N else 0%N.

(* sum over the chunks of the projections of consecutive slices *)
Fixpoint chunk_row (e : Z) (cfgs : seq ccfg) (x : row) (acc : row) : row :=
  if cfgs is c :: cfgs' then
    chunk_row e cfgs' (drop (c_fd c) x) [seq p.1 + p.2 | p <- zip acc (crow c e (take (c_fd c) x))]
  else acc.

Inductive chop := ChDict of seq (pflat F) & Z | ChFlat of seq row & Z | ChFree.
End Spec.

(* Packing sizes greedily into chunks of capacity mx, the last chunk holding c:
   no parameter exceeds the capacity and no chunk gets filled exactly by two or
   more non-empty parameters. *)
Fixpoint clean (mx c : nat) (l : seq nat) : bool :=
  if l is p :: l' then
    (p <= mx)%N &&
    (if (mx < c + p)%N then clean mx p l'
     else ((c + p == mx)%N ==> ((c == 0%N) || (p == 0%N))) && clean mx (c + p) l')
  else true.
