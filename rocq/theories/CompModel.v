(* Two-stage gradient compression of the block-projected attributors:
   dattri/algorithm/block_projected_if/core/compressor.py 31-564 (Linear layers), the bias column of core/hook.py
   157-204, func/projection.py 1068-1170 and 1256-1398 on the CPU, and the parameters chosen by
   algorithm/logra.py 78-104 and algorithm/factgrass.py 80-110.  No proofs.
   Not modelled: LayerNorm layers (their compressor is never called: the hooks skip them), CUDA projectors inside a
   compressor (see ProjModel), dtypes.  A proj_dim of -1 is only meaningful with the identity projection. *)
Set Warnings "-notation-overridden,-ambiguous-paths".
From mathcomp Require Import all_ssreflect all_algebra.
From Coq Require ZArith.
From Verif Require Import Py Tensor Seeds ProjModel.
Set Implicit Arguments. Unset Strict Implicit. Unset Printing Implicit Defensive.
Import GRing.Theory.
Local Open Scope ring_scope.

(* params/projection.py 34-50: the fields used; None is the -1 of proj_dim *)
Record pparams := PParams { q_dim : option nat; q_seed : BinNums.Z; q_type : ptype }.
(* nn.Linear *)
Record linear := Linear { l_in : nat; l_out : nat; l_bias : bool }.

Section Comp.
Variable F : fieldType.
Variable G : rng F.
Notation row := (seq F).

(* an activation or its gradient: [batch, features], or [batch, seq, features] with the length of the sequence *)
Inductive act := A2 of seq row | A3 of nat & seq (seq row).
Definition nsamples (a : act) : nat := match a with A2 r => size r | A3 _ r => size r end.
(* reshape(-1, features) *)
Definition flat (a : act) : seq row := match a with A2 r => r | A3 _ r => flatten r end.

(* a projector made on the CPU: projection.py 1160-1168; block_size=100, ensemble_id=0 *)
Record pj := Pj { pj_cfg : bcfg; pj_st : bproj F }.
(* compressor.py 81-84, 116: self.projector(v, ensemble_id=0) *)
Definition pj_call (p : pj) (X : seq row) : pj * res (seq row) :=
  let r := b_project G (pj_cfg p) (pj_st p) X BinNums.Z0 in (Pj (pj_cfg p) r.1, r.2).
(* projection.py 1256-1398 for a tensor of [numel] entries on the CPU *)
Definition random_project (numel fbs : nat) (dim : option nat) (seed : BinNums.Z) (t : ptype) : res pj :=
  if fbs == 0%N then Err ZeroDivisionError
  else if t is (PSjlt | PGrass) then Err ValueError
  else if dim is Some d then
    let c := BCfg (numel %/ fbs) d seed t 100 in rmap (Pj c) (b_init G c BinNums.Z0)
  else Err RuntimeError.

(* 120-134, 31-56, 89-107 *)
Record compressor := Comp { k_one : pj; k_two : pj; k_proj : pj }.

(* reshape(batch_size, seq_length, -1) *)
Definition unflatten (L n : nat) (X : seq row) : seq (seq row) := [seq take L (drop (b * L) X) | b <- iota 0 n].
Definition wide (X : seq row) : nat := size (head [::] X).
(* einsum("bsi,bsj->bij", v1 * batch_size, v2).reshape(batch_size, -1) *)
Definition outer3 (n w1 w2 L : nat) (v1 v2 : seq (seq row)) : seq row :=
  [seq flatten (mkseq (fun i => mkseq (fun j =>
     \sum_(s < L) nth 0 (nth [::] p.1 s) i * n%:R * nth 0 (nth [::] p.2 s) j) w2) w1) | p <- zip v1 v2].
(* einsum("bi,bj->bij", v1 * batch_size, v2).reshape(batch_size, -1) *)
Definition outer2 (n w1 w2 : nat) (v1 v2 : seq row) : seq row :=
  [seq flatten (mkseq (fun i => mkseq (fun j => nth 0 p.1 i * n%:R * nth 0 p.2 j) w2) w1) | p <- zip v1 v2].
(* 140-210.  v1 and v2 have the same batch (and sequence) dimensions: they are the gradient of the output and the
   input of one call of a Linear layer. *)
Definition forward (k : compressor) (v1 v2 : act) : compressor * res (seq row) :=
  let n := nsamples v2 in
  let: (p1, r1) := pj_call (k_one k) (flat v1) in
  match r1 with
  | Err e => (Comp p1 (k_two k) (k_proj k), Err e)
  | Ok x1 =>
    let: (p2, r2) := pj_call (k_two k) (flat v2) in
    match r2 with
    | Err e => (Comp p1 p2 (k_proj k), Err e)
    | Ok x2 =>
      let inter := match v2 with
        | A3 L _ => outer3 n (wide x1) (wide x2) L (unflatten L n x1) (unflatten L n x2)
        | A2 _ => outer2 n (wide x1) (wide x2) x1 x2
        end in
      let: (p, r) := pj_call (k_proj k) inter in (Comp p1 p2 p, r)
    end
  end.

(* hook.py 180-201: torch.cat([tensor_input, ones], dim=-1) *)
Definition add_ones (a : act) : act :=
  match a with A2 r => A2 [seq rcons v 1 | v <- r] | A3 L r => A3 L [seq [seq rcons v 1 | v <- p] | p <- r] end.
(* hook.py 157-204; a layer without compressor is None.forward *)
Definition compressed_grad (k : option compressor) (bias : bool) (gout x : act) : option compressor * res (seq row) :=
  if k is Some k' then
    let r := forward k' gout (if bias then add_ones x else x) in (Some r.1, r.2)
  else (None, Err AttributeError).

(* 400-501: the sample tensors have n samples (of L positions); only their shapes matter *)
Definition dim_of (d : option nat) (t : ptype) (fd : nat) : option nat :=
  if d is None then if t is PIdentity then Some fd else None else d.
Definition fins (l : linear) : nat := (l_in l + l_bias l)%N.
Definition zrow (n : nat) : seq row := [:: nseq n 0].
Definition setup_sparsifier (l : linear) (rows mid : nat) (q : pparams) : res (pj * pj) :=
  rbind (random_project (rows * l_out l) rows (dim_of (q_dim q) (q_type q) (l_out l)) (sparsifier_seed (q_seed q) mid 0) (q_type q)) (fun p1 =>
  rbind (random_project (rows * fins l) rows (dim_of (q_dim q) (q_type q) (fins l)) (sparsifier_seed (q_seed q) mid 1) (q_type q)) (fun p2 =>
  (* the test projections 487-494 *)
  let: (p1, t1) := pj_call p1 (zrow (l_out l)) in
  let: (p2, t2) := pj_call p2 (zrow (fins l)) in
  rbind t1 (fun _ => rbind t2 (fun _ => Ok (p1, p2))))).
(* 504-650 *)
Definition setup_projector (l : linear) (n mid : nat) (q : pparams) (s : pj * pj) : res compressor :=
  let: (p1, t1) := pj_call s.1 (zrow (l_out l)) in
  let: (p2, t2) := pj_call s.2 (zrow (fins l)) in
  rbind t1 (fun y1 => rbind t2 (fun y2 =>
  let inter := (wide y1 * wide y2)%N in
  rmap (Comp p1 p2) (random_project (n * inter) n (dim_of (q_dim q) (q_type q) inter) (projector_seed (q_seed q) mid) (q_type q)))).

(* model.named_modules(): names and kinds.  [m_run] tells whether the sample forward pass reached the module. *)
Inductive mkind := MLinear of linear | MOther.
Record module (Name : Type) := Modu { m_name : Name; m_kind : mkind; m_run : bool }.
(* the sample batch has n samples, a layer sees them as [n, features] or [n, L, features] *)
Section Setup.
Variable Name : eqType.
Variables (n L : nat).
(* name_to_index: the last position of a name wins *)
Definition index_last (names : seq Name) (x : Name) : nat := (size names).-1 - index x (rev names).
Definition setup_module (q1 q2 : option pparams) (mid : nat) (m : module Name) : res (option compressor) :=
  match q1 with
  | None => Err AttributeError                      (* {}.model_copy() *)
  | Some q1 =>
    match m_kind m with
    | MOther => Err ValueError
    | MLinear l =>
      if ~~ m_run m then Ok None else
      rbind (setup_sparsifier l (n * L) mid q1) (fun s =>
      match q2 with
      | None => Err AttributeError
      | Some q2 => rmap Some (setup_projector l n mid q2 s)
      end)
    end
  end.
(* 236-397 *)
Definition setup_model (names : seq Name) (q1 q2 : option pparams) (mods : seq (module Name)) : res (seq (option compressor)) :=
  let none := nseq (size names) None in
  if (q1 : bool) || (q2 : bool) then
    rfold (fun cs mm =>
      if m_name mm.2 \in names then
        rmap (fun k => if k is Some _ then set_nth None cs (index_last names (m_name mm.2)) k else cs)
             (setup_module q1 q2 mm.1 mm.2)
      else Ok cs) none (zip (iota 0 (size mods)) mods)
  else Ok none.
End Setup.
End Comp.

(* int(math.sqrt(n)), exact *)
Fixpoint isqrt_from (fuel n : nat) : nat :=
  if fuel is f.+1 then if (fuel * fuel <= n)%N then fuel else isqrt_from f n else 0%N.
Definition isqrt (n : nat) : nat := isqrt_from n n.
(* the user's parameters: seed, type and dimension per layer *)
Record uparams := UParams { u_dim : nat; u_seed : BinNums.Z; u_type : ptype }.
(* logra.py 78-104: the parameters of the sparsifier and of the projector *)
Definition logra (u : uparams) : res (pparams * pparams) :=
  let k := isqrt (u_dim u) in
  if (k * k)%N != u_dim u then Err ValueError
  else Ok (PParams (Some k) (u_seed u) PNormal, PParams None (u_seed u) PIdentity).
(* factgrass.py 80-110 on the CPU: neither the seed nor the type of the user is passed on *)
Definition factgrass (u : uparams) (blowup : nat) : res (pparams * pparams) :=
  let d := (u_dim u * blowup)%N in
  let k := isqrt d in
  if (k * k)%N != d then Err ValueError
  else Ok (PParams (Some k) BinNums.Z0 PMask, PParams (Some (u_dim u)) BinNums.Z0 PNormal).
