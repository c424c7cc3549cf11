(* Random projectors: dattri/func/projection.py (BasicProjector, CudaProjector,
   ChunkedCudaProjector, the seeds they use) and the chunking function of
   dattri/func/utils.py.  Arithmetic is exact (a field) instead of floating
   point; pseudo-random draws are an oracle that depends only on the seed given
   to manual_seed and on the shape drawn. *)
Set Warnings "-notation-overridden,-ambiguous-paths".
From mathcomp Require Import all_ssreflect all_algebra.
From Coq Require ZArith.
From Verif Require Import Py Tensor Seeds.

Set Implicit Arguments. Unset Strict Implicit. Unset Printing Implicit Defensive.
Import GRing.Theory.
Local Open Scope ring_scope.

(* projection.py 135-143 *)
Inductive ptype := PIdentity | PNormal | PRademacher | PSjlt | PMask | PGrass.

Section Proj.
Variable F : fieldType.
Notation row := (seq F).

Record rng := Rng {
  (* k-th draws of normal_ / bernoulli_ on a rows x cols matrix after manual_seed *)
  g_normal : BinNums.Z -> nat -> nat -> nat -> nat -> F;
  g_bern   : BinNums.Z -> nat -> nat -> nat -> nat -> bool;
  (* randperm(n) after manual_seed *)
  g_perm   : BinNums.Z -> nat -> seq nat;
  (* the index and sign draws of _gen_randomness_sjlt (in-dim, out-dim), after
     manual_seed and, for GraSS, after a randperm of the given length *)
  g_sjlt   : BinNums.Z -> option nat -> nat -> nat -> seq nat * row;
  (* n ** 0.5 *)
  g_root   : nat -> F }.
Variable G : rng.

(* sum_i x_i * m_i *)
Definition dot (x : row) (m : nat -> F) : F := \sum_(i < size x) nth 0 x i * m i.

(* torch.empty(rows, cols) filled by normal_ or by _rademacher (38-56) *)
Definition dense (t : ptype) (s : BinNums.Z) (rows cols : nat) (i j : nat) : F :=
  if t is PNormal then g_normal G s rows cols i j
  else (g_bern G s rows cols i j)%:R * 2%:R - 1.

(* _mask, 59-81 *)
Definition mask (s : BinNums.Z) (n out : nat) : seq nat := sort leq (take out (g_perm G s n)).

(* features[:, active_indices] for a 2-d tensor given by its rows *)
Definition select (idx : seq nat) (X : seq row) : res (seq row) :=
  if all (fun x => all (fun i => i < size x)%N idx) X
  then Ok [seq [seq nth 0 x i | i <- idx] | x <- X]
  else Err IndexError.

(* features @ M, M being rows x cols; tensors with no row are accepted (the
   model does not record the width of an empty tensor) *)
Definition matmul (rows cols : nat) (M : nat -> nat -> F) (X : seq row) : res (seq row) :=
  if all (fun x => size x == rows) X
  then Ok [seq [seq dot x (M^~ j) | j <- iota 0 cols] | x <- X]
  else Err RuntimeError.

(* ------------------------------------------------- BasicProjector 200-382 *)
Record bcfg := BCfg { b_fd : nat; b_pd : nat; b_seed : BinNums.Z; b_type : ptype; b_bs0 : nat }.
(* 249-250 *)
Definition b_bs (c : bcfg) : nat := minn (b_pd c) (b_bs0 c).
(* math.ceil(proj_dim / block_size), computed exactly *)
Definition b_nb (c : bcfg) : nat := (b_pd c + (b_bs c).-1) %/ b_bs c.

Record bproj := BProj {
  bp_ens : BinNums.Z;
  bp_seeds : seq BinNums.Z;                       (* self.seeds / generator_states *)
  bp_mat : option (nat -> nat -> F);        (* self.proj_matrix, deleted by free_memory *)
  bp_mask : seq nat }.                      (* self.active_indices *)

(* get_generator_states, 285-299 *)
Definition b_seeds (c : bcfg) (e : BinNums.Z) : seq BinNums.Z :=
  [seq block_seed (b_seed c) e i | i <- iota 0 (b_nb c)].

(* _gen_randomness_dense, 315-341: allocates if needed, then fills; a type that
   is neither normal nor rademacher has no attribute proj_matrix_available *)
Definition b_gen_dense (c : bcfg) (s : bproj) (sd : BinNums.Z) : res bproj :=
  match b_type c with
  | PNormal | PRademacher =>
      Ok (BProj (bp_ens s) (bp_seeds s) (Some (dense (b_type c) sd (b_fd c) (b_bs c))) (bp_mask s))
  | _ => Err AttributeError
  end.
(* _gen_randomness_mask, 301-313 *)
Definition b_gen_mask (c : bcfg) (s : bproj) (sd : BinNums.Z) : bproj :=
  BProj (bp_ens s) (bp_seeds s) (bp_mat s) (mask sd (b_fd c) (b_pd c)).

(* __init__, 247-276 *)
Definition b_init (c : bcfg) (ens : BinNums.Z) : res bproj :=
  if b_bs c == 0%N then Err ZeroDivisionError else
  let s := BProj ens (b_seeds c ens) None [::] in
  let s0 := nth no_ens (bp_seeds s) 0 in
  match b_type c with
  | PMask => Ok (b_gen_mask c s s0)
  | PIdentity => Ok s
  | _ => b_gen_dense c s s0
  end.

(* free_memory, 278-282 *)
Definition b_free (s : bproj) : bproj := BProj (bp_ens s) (bp_seeds s) None (bp_mask s).

(* the ensemble switch of project, 355-363 *)
Definition b_switch (c : bcfg) (s : bproj) (e : BinNums.Z) : res bproj :=
  if zeqb e (bp_ens s) then Ok s else
  let s1 := BProj e (b_seeds c e) (bp_mat s) (bp_mask s) in
  match b_type c with
  | PMask => Ok (b_gen_mask c s1 (nth no_ens (bp_seeds s1) 0))
  | PIdentity => Ok s1
  | _ => if b_nb c == 1%N then b_gen_dense c s1 (nth no_ens (bp_seeds s1) 0) else Ok s1
  end.

(* sketch[:, st:ed] = block *)
Definition set_slice (st ed : nat) (r v : row) : row := take st r ++ v ++ drop ed r.
Definition set_cols (st ed : nat) (S V : seq row) : seq row :=
  [seq set_slice st ed p.1 p.2 | p <- zip S V].

(* one iteration of the block loop, 382-390; the state is kept when it raises *)
Definition b_block (c : bcfg) (X : seq row) (acc : bproj * res (seq row)) (ind : nat) : bproj * res (seq row) :=
  match acc.2 with
  | Err e => acc
  | Ok Sk =>
    match b_gen_dense c acc.1 (nth no_ens (bp_seeds acc.1) ind) with
    | Err e => (acc.1, Err e)
    | Ok s1 =>
      let st := (ind * b_bs c)%N in
      let ed := minn (ind.+1 * b_bs c) (b_pd c) in
      match bp_mat s1 with
      | None => (s1, Err AttributeError)
      | Some M => (s1, rmap (set_cols st ed Sk) (matmul (b_fd c) (ed - st) M X))
      end
    end
  end.

(* project, 343-382 *)
Definition b_project (c : bcfg) (s : bproj) (X : seq row) (e : BinNums.Z) : bproj * res (seq row) :=
  match b_switch c s e with
  | Err x => (s, Err x)
  | Ok s1 =>
    match b_type c with
    | PMask => (s1, select (bp_mask s1) X)
    | PIdentity => (s1, Ok X)
    | _ =>
      let r :=
        if b_nb c == 1%N then
          (s1, if bp_mat s1 is Some M then matmul (b_fd c) (b_bs c) M X else Err AttributeError)
        else foldl (b_block c X) (s1, Ok (zeros2 F (size X) (b_pd c))) (iota 0 (b_nb c)) in
      (r.1, rmap (map (map (fun v => v / g_root G (b_pd c)))) r.2)
    end
  end.

(* -------------------------------------------------- CudaProjector 385-647 *)
Record ccfg := CCfg { c_fd : nat; c_pd : nat; c_seed : BinNums.Z; c_type : ptype }.

Record cproj := CProj {
  cp_cur : BinNums.Z;                              (* current_ensemble_id *)
  cp_mult : nat;                             (* grass_multiplier *)
  cp_mat : option (nat -> nat -> F);
  cp_mask : option (seq nat);
  cp_sjlt : option (nat * (seq nat * row)) }. (* input_dim, rand_indices, rand_signs *)

(* __init__, 422-452 on a CUDA device with the sjlt package installed *)
Definition c_init (mult : nat) : cproj := CProj no_ens mult None None None.

(* _gen_randomness_sjlt 454-505: the SJLTProjection object is recreated when the
   input dimension changed and its buffers are always overwritten *)
Definition gen_sjlt (sd : BinNums.Z) (pre : option nat) (din dout : nat) : nat * (seq nat * row) :=
  (din, g_sjlt G sd pre din dout).

(* _gen_randomness_grass 552-570: the dimension used and the new multiplier *)
Definition grass_dim (c : ccfg) (mult : nat) : nat * nat :=
  if (c_fd c < c_pd c * mult)%N then (c_fd c, (c_fd c %/ c_pd c)%N)
  else ((c_pd c * mult)%N, mult).

(* _generate_randomness 572-605, then current_ensemble_id = e (623) *)
Definition c_generate (c : ccfg) (s : cproj) (e : BinNums.Z) : cproj :=
  let sd := cuda_seed (c_seed c) e in
  match c_type c with
  | PSjlt => CProj e (cp_mult s) (cp_mat s) (cp_mask s) (Some (gen_sjlt sd None (c_fd c) (c_pd c)))
  | PNormal | PRademacher =>
      CProj e (cp_mult s) (Some (dense (c_type c) sd (c_fd c) (c_pd c))) (cp_mask s) (cp_sjlt s)
  | PMask => CProj e (cp_mult s) (cp_mat s) (Some (mask sd (c_fd c) (c_pd c))) (cp_sjlt s)
  | PGrass =>
      let dm := grass_dim c (cp_mult s) in
      CProj e dm.2 (cp_mat s) (Some (mask sd (c_fd c) dm.1))
        (Some (gen_sjlt sd (Some (c_fd c)) dm.1 (c_pd c)))
  | PIdentity => CProj e (cp_mult s) (cp_mat s) (cp_mask s) (cp_sjlt s)
  end.

(* sjlt(features), the external sjlt package with one non-zero per input:
   out_j = sum of sign_i * x_i over the inputs i hashed to j *)
Definition sjlt_apply (dout : nat) (sj : nat * (seq nat * row)) (X : seq row) : res (seq row) :=
  if all (fun x => size x == sj.1) X
  then Ok [seq [seq dot x (fun i => (nth 0%N sj.2.1 i == j)%:R * nth 0 sj.2.2 i) | j <- iota 0 dout] | x <- X]
  else Err RuntimeError.

(* project, 607-645.  An unset component is None: None(...) and features @ None
   raise TypeError; features[:, None] (a mask never generated) adds a dimension
   in torch, which the model also reports as an error. *)
Definition c_project (c : ccfg) (s : cproj) (X : seq row) (e : BinNums.Z) : cproj * res (seq row) :=
  let s1 := if zeqb e (cp_cur s) then s else c_generate c s e in
  (s1, match c_type c with
  | PSjlt => if cp_sjlt s1 is Some sj then sjlt_apply (c_pd c) sj X else Err TypeError
  | PNormal | PRademacher =>
      if cp_mat s1 is Some M
      then rmap (map (map (fun v => v / g_root G (c_pd c)))) (matmul (c_fd c) (c_pd c) M X)
      else Err TypeError
  | PMask => if cp_mask s1 is Some m then select m X else Err TypeError
  | PGrass =>
      match cp_mask s1, cp_sjlt s1 with
      | Some m, Some sj => rbind (select m X) (sjlt_apply (c_pd c) sj)
      | _, _ => Err TypeError
      end
  | PIdentity => Ok X
  end).

(* ------------------------------------------- ChunkedCudaProjector 650-833 *)
Record chcfg := ChCfg {
  ch_cfgs : seq ccfg;        (* configuration of projector_per_chunk *)
  ch_max : nat;              (* max_chunk_size *)
  ch_dims : seq nat;         (* dim_per_chunk *)
  ch_fb : nat;               (* feature_batch_size *)
  ch_pd : nat }.             (* projector_per_chunk[0].proj_dim *)

Record chunked := Chunked {
  ch_projs : seq cproj;
  ch_buf : option (seq row) }.  (* self.ch_input once allocated *)

(* allocate_input, 688-699 *)
Definition ch_alloc (c : chcfg) (s : chunked) : seq row :=
  if ch_buf s is Some b then b else zeros2 F (ch_fb c) (ch_max c).
(* free_memory, 701-707 *)
Definition ch_free (s : chunked) : chunked := Chunked (ch_projs s) None.

(* ch_output.add_(r): the second dimension may be broadcast *)
Definition add_row (o r : row) : res row :=
  if size r == size o then Ok [seq p.1 + p.2 | p <- zip o r]
  else if r is [:: v] then Ok [seq x + v | x <- o]
  else Err RuntimeError.
Fixpoint add_rows (O R : seq row) : res (seq row) :=
  match O, R with
  | [::], [::] => Ok [::]
  | o :: O', r :: R' => rbind (add_row o r) (fun x => rmap (cons x) (add_rows O' R'))
  | _, _ => Err RuntimeError
  end.

(* self.projector_per_chunk[k].project(X, ensemble_id=e) *)
Definition ch_call (c : chcfg) (ps : seq cproj) (k : nat) (X : seq row) (e : BinNums.Z)
  : seq cproj * res (seq row) :=
  match nth None (map Some (ch_cfgs c)) k, nth None (map Some ps) k with
  | Some cf, Some p => let r := c_project cf p X e in (set_nth p ps k r.1, r.2)
  | _, _ => (ps, Err IndexError)
  end.

(* a gradient p of the dict after flattening to two dimensions (733-737): its
   number of columns and its rows *)
Definition pflat : Type := (nat * seq row)%type.

(* ch_input[:bs, ptr:ptr+d].copy_(p_flat): raises when the target is smaller *)
Definition copy_in (c : chcfg) (buf : seq row) (ptr : nat) (p : pflat) : res (seq row) :=
  if (size p.2 <= ch_fb c)%N && (ptr + p.1 <= ch_max c)%N
  then Ok (set_cols ptr (ptr + p.1) (take (size p.2) buf) p.2 ++ drop (size p.2) buf)
  else Err RuntimeError.

(* the local variables of dict_project *)
Record dloc := DLoc { l_ptr : nat; l_idx : nat; l_out : seq row; l_bs : option nat }.

(* the flush inside the loop, 744-761 *)
Definition ch_flush (c : chcfg) (e : BinNums.Z) (ps : seq cproj) (buf : seq row) (l : dloc)
  : seq cproj * res dloc :=
  match nth None (map Some (ch_dims c)) (l_idx l) with
  | None => (ps, Err IndexError)
  | Some d =>
    if l_ptr l != d then (ps, Err ValueError) else
    let r := ch_call c ps (l_idx l) (map (take (l_ptr l)) buf) e in
    (r.1, rbind r.2 (fun R => rmap (fun o => DLoc 0 (l_idx l).+1 o (l_bs l)) (add_rows (l_out l) R)))
  end.

(* the loop over the parameters, 730-768 *)
Fixpoint ch_loop (c : chcfg) (e : BinNums.Z) (params : seq pflat)
  (ps : seq cproj) (buf : seq row) (l : dloc) : (seq cproj * seq row) * res dloc :=
  match params with
  | [::] => ((ps, buf), Ok l)
  | p :: params' =>
    let fl := if (ch_max c < l_ptr l + p.1)%N then ch_flush c e ps buf l else (ps, Ok l) in
    match fl.2 with
    | Err x => ((fl.1, buf), Err x)
    | Ok l1 =>
      match copy_in c buf (l_ptr l1) p with
      | Err x => ((fl.1, buf), Err x)
      | Ok buf' => ch_loop c e params' fl.1 buf'
          (DLoc (l_ptr l1 + p.1) (l_idx l1) (l_out l1) (Some (minn (ch_fb c) (size p.2))))
      end
    end
  end.

(* dict_project, 709-787 *)
Definition ch_dict_project (c : chcfg) (s : chunked) (params : seq pflat) (e : BinNums.Z)
  : chunked * res (seq row) :=
  let r := ch_loop c e params (ch_projs s) (ch_alloc c s) (DLoc 0 0 (zeros2 F (ch_fb c) (ch_pd c)) None) in
  let keep ps := Chunked ps (Some r.1.2) in
  match r.2 with
  | Err x => (keep r.1.1, Err x)
  | Ok l =>
    match nth None (map Some (ch_dims c)) (l_idx l) with
    | None => (keep r.1.1, Err IndexError)
    | Some d =>
      if l_ptr l != d then (keep r.1.1, Err ValueError) else
      match l_bs l with
      | None => (keep r.1.1, Err UnboundLocalError)
      | Some bs =>
        let q := ch_call c r.1.1 (l_idx l) (map (take (l_ptr l)) (take bs r.1.2)) e in
        (keep q.1, rbind q.2 (add_rows (take bs (l_out l))))
      end
    end
  end.

(* project on a tensor, 789-833; a row shorter than expected gives a short last
   slice, as in python *)
Fixpoint ch_proj_loop (c : chcfg) (e : BinNums.Z) (X : seq row) (ps : seq cproj) (k ptr : nat)
  (dims : seq nat) (out : seq row) : seq cproj * res (seq row) :=
  match dims with
  | [::] => (ps, Ok out)
  | d :: dims' =>
    let r := ch_call c ps k (map (fun x => take d (drop ptr x)) X) e in
    match rbind r.2 (add_rows out) with
    | Err x => (r.1, Err x)
    | Ok out' => ch_proj_loop c e X r.1 k.+1 (ptr + d) dims' out'
    end
  end.
Definition ch_project (c : chcfg) (s : chunked) (X : seq row) (e : BinNums.Z) : chunked * res (seq row) :=
  let r := ch_proj_loop c e X (ch_projs s) 0 0 (ch_dims c) (zeros2 F (size X) (ch_pd c)) in
  (Chunked r.1 (ch_buf s), r.2).

End Proj.

(* ----------------------- get_parameter_chunk_sizes, func/utils.py 93-149 *)
Section Chunking.
Variable mx : nat.   (* max_chunk_size *)

(* while current_ps >= max: append max; current_ps -= max.  [fuel] bounds the
   number of iterations; None when it is exhausted. *)
Fixpoint split_while (fuel : nat) (cur : nat) (acc : seq nat) : option (seq nat * nat) :=
  if (mx <= cur)%N then
    if fuel is fuel'.+1 then split_while fuel' (cur - mx) (rcons acc mx) else None
  else Some (acc, cur).

(* the loop body, 125-140; state: params_per_chunk, chunk_sum *)
Definition chunk_step (fuel : nat) (st : seq nat * nat) (ps : nat) : option (seq nat * nat) :=
  let st1 :=
    if (mx <= st.2 + ps)%N then ((if (0 < st.2)%N then rcons st.1 st.2 else st.1), 0%N)
    else st in
  if split_while fuel ps st1.1 is Some (acc, cur) then Some (acc, (st1.2 + cur)%N) else None.

Fixpoint chunk_loop (fuel : nat) (st : seq nat * nat) (l : seq nat) : option (seq nat * nat) :=
  if l is ps :: l' then
    if chunk_step fuel st ps is Some st' then chunk_loop fuel st' l' else None
  else Some st.

(* 142-149 *)
Definition chunk_sizes (fuel : nat) (l : seq nat) : option (seq nat) :=
  if chunk_loop fuel ([::], 0%N) l is Some (acc, s) then
    let acc1 := if (0 < s)%N then rcons acc s else acc in
    Some (if acc1 is [::] then [:: 0%N] else acc1)
  else None.
End Chunking.

(* 118: np.iinfo(np.uint32).max // (batch_size * 2); [umax] stands for 2^32-1 so
   that the model can be run on small numbers *)
Definition max_chunk (umax bs : nat) : nat := (umax %/ (bs * 2))%N.
