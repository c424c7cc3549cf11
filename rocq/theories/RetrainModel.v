(* Retraining drivers and ground truth readers.
   Modelled: dattri/model_util/retrain.py 24-133 (retrain_loo) and 136-289 (retrain_lds),
   dattri/metric/ground_truth.py 20-95 (LOO) and 98-196 (LDS).

   The file system is explicit.  Training, sub-sampling (numpy) and the global torch generator are
   oracles, so the theorems hold for every such function.  A call returns the file system it leaves
   behind together with its outcome, because an exception does not undo earlier writes.

   Simplifications: parents of the output path are not modelled (mkdir(parents=True) succeeds);
   numpy/torch upper limits on seeds are not modelled; the CUDA generator and the cudnn flag are not
   modelled; the metadata fields nobody reads (mode, data_length, train_func, subset_ratio) are
   dropped; [int(n * ratio)] enters as the integer [jb_len] because only its value matters. *)
Set Warnings "-notation-overridden,-ambiguous-paths".
From mathcomp Require Import all_ssreflect all_algebra.
From Verif Require Import Py Dict.
Set Implicit Arguments. Unset Strict Implicit. Unset Printing Implicit Defensive.
Import GRing.Theory Num.Theory.
Local Open Scope ring_scope.

(* A python [for] loop over a mutable state whose body may raise: the state reached is kept. *)
Fixpoint sfold (S B : Type) (f : S -> B -> S * res unit) (s : S) (l : seq B) : S * res unit :=
  if l is b :: l' then
    let: (s', r) := f s b in
    if r is Err e then (s', Err e) else sfold f s' l'
  else (s, Ok tt).

(* ------------------------------------------------------------------ LDS *)
Section Lds.
Variables (P : eqType) (M G : Type).

(* retrain.py 253-268: one directory path/i with indices.txt and model_weights_j.pt *)
Record subdir := SubDir { sd_indices : option (seq nat); sd_models : dict nat_eqType M }.
(* retrain.py 279-289: the fields of metadata.yml that are read back; [subset_dir_map] stores
   str(path / str(i)) (271), i.e. the path given by the caller and the subset number *)
Record lmeta := LMeta { lm_num : nat; lm_runs : nat; lm_map : dict nat_eqType (P * nat) }.
Record root := Root { rt_meta : option lmeta; rt_dirs : dict nat_eqType subdir }.
Definition world := dict P root.

Definition root0 := Root None [::].
Definition subdir0 := SubDir None [::].
Definition get_root (w : world) p := odflt root0 (dget w p).
Definition get_dir (w : world) (d : P * nat) : option subdir := dget (rt_dirs (get_root w d.1)) d.2.

(* mkdir(parents=True) if missing: retrain.py 225-227 *)
Definition mkroot (w : world) p : world := dset w p (get_root w p).
(* mkdir(parents=True, exist_ok=True) of path/i and a write below it *)
Definition upd_dir (w : world) p i (f : subdir -> subdir) : world :=
  let r := get_root w p in
  dset w p (Root (rt_meta r) (dset (rt_dirs r) i (f (odflt subdir0 (dget (rt_dirs r) i))))).
(* retrain.py 254-257 *)
Definition save_indices w p i idx := upd_dir w p i (fun d => SubDir (Some idx) (sd_models d)).
(* retrain.py 266-268 *)
Definition save_model w p i j m :=
  upd_dir w p i (fun d => SubDir (sd_indices d) (dset (sd_models d) j m)).
(* retrain.py 288-289 *)
Definition save_meta (w : world) p mt : world := dset w p (Root (Some mt) (rt_dirs (get_root w p))).

(* The arguments of one retrain_lds call.  [jb_n] is len(dataloader.sampler) (229), [jb_len] is
   int(jb_n * subset_ratio) (230), [jb_seed] the seed after the None case was replaced by 64 random
   bits (212-213). *)
Record job := Job { jb_n : nat; jb_len : int; jb_num : nat; jb_runs : nat;
                    jb_start : nat; jb_total : int; jb_seed : int }.

(* numpy's Generator(seed).choice(n, k, replace=False); torch.manual_seed; the user's train_func on
   the loader over Subset(dataset, indices) with its seed.  The loader is built with shuffle=True
   (250), so it draws from the global generator: hence the generator state is threaded. *)
Variable choice : int -> nat -> nat -> seq nat.
Variable reseed : int -> G.
Variable train : seq nat -> int -> G -> res M * G.

(* retrain.py 260-268, one iteration of the inner loop *)
Definition one_run p i (jb : job) idx (wg : world * G) (j : nat) : (world * G) * res unit :=
  let: (r, g') := train idx (jb_seed jb + (i * jb_runs jb + j)%N%:Z) wg.2 in
  match r with
  | Err e => ((wg.1, g'), Err e)
  | Ok m => ((save_model wg.1 p i j m, g'), Ok tt)
  end.

(* retrain.py 242-271, one iteration of the outer loop.  [choice] raises ValueError when asked for
   more than n or for a negative number; DataLoader(shuffle=True) raises ValueError on an empty
   subset.  Both happen before anything is written. *)
Definition one_subset p (jb : job) (wg : world * G) (i : nat) : (world * G) * res unit :=
  if (0 < jb_len jb) && (jb_len jb <= (jb_n jb)%:Z) then
    let idx := choice (jb_seed jb + i%:Z) (jb_n jb) `|jb_len jb|%N in
    sfold (one_run p i jb idx) (save_indices wg.1 p i idx, wg.2) (iota 0 (jb_runs jb))
  else (wg, Err ValueError).

(* retrain.py 211-289 *)
Definition retrain_lds (w : world) (g : G) p (jb : job) : (world * G) * res unit :=
  if (jb_total jb < 0) then ((w, g), Err ValueError)                      (* 216-218 *)
  else if jb_num jb == 0%N then ((w, g), Err ZeroDivisionError)            (* 219: % 0 *)
  else if ~~ (jb_num jb %| `|jb_total jb|%N)%N then ((w, g), Err ValueError) (* 219-221 *)
  else
    let start := if jb_total jb == 0 then 0%N else jb_start jb in          (* 222-223 *)
    let w1 := mkroot w p in                                                (* 225-227 *)
    if (jb_seed jb < 0) then ((w1, g), Err ValueError)                     (* 233: default_rng *)
    else
      let: ((w2, g2), r) :=
        sfold (one_subset p jb) (w1, reseed (jb_seed jb)) (iota start (jb_num jb)) in (* 236-271 *)
      match r with
      | Err e => ((w2, g2), Err e)
      | Ok _ =>
        if (jb_total jb == 0) || ((start.+1 * jb_num jb)%N%:Z == jb_total jb) then (* 274-277 *)
          let mt := LMeta (start.+1 * jb_num jb)%N (jb_runs jb)
                          [seq (i, (p, i)) | i <- iota start (jb_num jb)] in
          ((save_meta w2 p mt, g2), Ok tt)
        else ((w2, g2), Ok tt)
      end.

End Lds.
Arguments Root {P M}. Arguments LMeta {P}. Arguments SubDir {M}.
Arguments root0 {P M}. Arguments subdir0 {M}.

Section LdsTruth.
Variables (P : eqType) (M : Type) (R : numFieldType).

(* t[i] += v / t[i, :] = v with t[i] of length nt: v must have nt entries or one *)
Definition bc_row (nt : nat) (v : seq R) : res (seq R) :=
  if size v == nt then Ok v
  else if size v == 1%N then Ok (nseq nt (head 0 v))
  else Err RuntimeError.

(* The file lookups of ground_truth.py 180-182 and 187-190. *)
Definition read_indices (w : world P M) (mp : dict nat_eqType (P * nat)) (i : nat) : res (seq nat) :=
  match dget mp i with
  | None => Err KeyError
  | Some d =>
    if get_dir w d is Some sd then
      if sd_indices sd is Some idx then Ok idx else Err FileNotFoundError
    else Err FileNotFoundError
  end.
Definition read_model (w : world P M) (mp : dict nat_eqType (P * nat)) (i j : nat) : res M :=
  match dget mp i with
  | None => Err KeyError
  | Some d =>
    if get_dir w d is Some sd then
      if dget (sd_models sd) j is Some m then Ok m else Err FileNotFoundError
    else Err FileNotFoundError
  end.

Variables (nt : nat) (target : M -> seq R).

(* ground_truth.py 98-196.  The first component is None when every entry is nan, which is what the
   division by num_runs_per_subset = 0 of a zero tensor gives (191). *)
Definition lds_ground_truth (w : world P M) (p : P)
  : res (option (seq (seq R)) * seq (seq nat)) :=
  match rt_meta (get_root w p) with
  | None => Err FileNotFoundError                                         (* 172 *)
  | Some mt =>
    rbind (rfold (fun acc i => rmap (fun l => rcons acc l) (read_indices w (lm_map mt) i))
                 [::] (iota 0 (lm_num mt))) (fun idx =>                   (* 179-182 *)
    if ~~ all (fun l => size l == size (head [::] idx)) idx then Err ValueError else (* 183 *)
    rbind (rfold (fun rows i =>
             rmap (fun row => rcons rows row)
              (rfold (fun acc j =>
                 rbind (read_model w (lm_map mt) i j) (fun m =>
                 rbind (bc_row nt (target m)) (fun v =>
                 Ok [seq a.1 + a.2 | a <- zip acc v])))
               (nseq nt 0) (iota 0 (lm_runs mt))))
           [::] (iota 0 (lm_num mt))) (fun rows =>                        (* 186-190 *)
    Ok (if lm_runs mt == 0%N then None
        else Some [seq [seq - (x / (lm_runs mt)%:R) | x <- row] | row <- rows], idx))) (* 191-196 *)
  end.
End LdsTruth.

(* ------------------------------------------------------------------ LOO *)
Section Loo.
Variables (M G : Type).

(* The output directory: index_<i>/model_weights.pt (None: directory without a weights file), and
   whether it holds a directory index_<name> whose name is not a number. *)
Record lroot := LRoot { lr_dirs : dict [eqType of int] (option M); lr_bad : bool }.

Variable reseed : int -> G.
(* train_func(loader over Subset(dataset, positions), seed=seed); seed may be None *)
Variable train : seq nat -> option int -> G -> res M * G.

(* retrain.py 112-129, one iteration *)
Definition loo_one (n : nat) (seed : option int) (sg : lroot * G) (index : int)
  : (lroot * G) * res unit :=
  let remaining := [seq i <- iota 0 n | i%:Z != index] in                  (* 113 *)
  let d1 := if dhas (lr_dirs sg.1) index then lr_dirs sg.1
            else dset (lr_dirs sg.1) index None in                        (* 114-116 *)
  let: (r, g') := train remaining seed sg.2 in                            (* 118-126 *)
  match r with
  | Err e => ((LRoot d1 (lr_bad sg.1), g'), Err e)
  | Ok m => ((LRoot (dset d1 index (Some m)) (lr_bad sg.1), g'), Ok tt)   (* 129 *)
  end.

(* retrain.py 88-133; n = len(dataloader.sampler) *)
Definition retrain_loo (s : lroot) (g : G) (n : nat) (indices : option (seq int)) (seed : option int)
  : (lroot * G) * res unit :=
  let g1 := if seed is Some sd then reseed sd else g in                   (* 91-93 *)
  let idx := odflt [seq i%:Z | i <- iota 0 n] indices in                  (* 95-102 *)
  sfold (loo_one n seed) (s, g1) idx.

Variable R : numFieldType.
Variables (nt : nat) (target : M -> seq R).

(* ground_truth.py 20-95 *)
Definition loo_ground_truth (s : lroot) : res (seq (seq R) * seq int) :=
  if lr_bad s then Err ValueError                                         (* 34 via 79 *)
  else
    let dirs := sort <=%R (dkeys (lr_dirs s)) in                          (* 74-79 *)
    rmap (fun rows => (rows, dirs))
      (rfold (fun rows i =>
         match dget (lr_dirs s) i with
         | Some (Some m) => rmap (fun v => rcons rows v) (bc_row nt (target m)) (* 87-90 *)
         | _ => Err FileNotFoundError                                      (* 87 *)
         end) [::] dirs).
End Loo.
