(* Specification vocabulary for retraining and ground truth: what the caller expects to find,
   stated without the loops of the code. *)
Set Warnings "-notation-overridden,-ambiguous-paths".
From mathcomp Require Import all_ssreflect all_algebra.
From Verif Require Import Py Dict RetrainModel.
Set Implicit Arguments. Unset Strict Implicit. Unset Printing Implicit Defensive.
Import GRing.Theory Num.Theory.
Local Open Scope ring_scope.

Section Spec.
Variables (M G : Type).

(* A training function that seeds itself: its result depends on the data and the seed only. *)
Definition self_seeding (S : Type) (train : seq nat -> S -> G -> res M * G)
  (tr : seq nat -> S -> res M) : Prop :=
  forall idx s g, (train idx s g).1 = tr idx s.

(* Sampling without replacement: k distinct positions below n. *)
Definition samples_without_replacement (choice : int -> nat -> nat -> seq nat) : Prop :=
  forall s n k, (k <= n)%N ->
    [/\ size (choice s n k) = k, uniq (choice s n k) & all (fun x => (x < n)%N) (choice s n k)].

(* Arguments accepted by retrain_lds. *)
Definition valid_job (jb : job) : bool :=
  [&& 0 <= jb_total jb, (0 < jb_num jb)%N, (jb_num jb %| `|jb_total jb|)%N, 0 <= jb_seed jb,
      0 < jb_len jb & jb_len jb <= (jb_n jb)%:Z].
(* The number of the first subset and whether subset i belongs to the job. *)
Definition first_subset (jb : job) : nat := if jb_total jb == 0 then 0%N else jb_start jb.
Definition covers (jb : job) (i : nat) : bool :=
  (first_subset jb <= i)%N && (i < first_subset jb + jb_num jb)%N.
(* Two jobs of one experiment: same data, subset size, runs and seed. *)
Definition same_experiment (a b : job) : Prop :=
  [/\ jb_n a = jb_n b, jb_len a = jb_len b, jb_runs a = jb_runs b & jb_seed a = jb_seed b].

(* Every training call of the job succeeds. *)
Definition trainable (choice : int -> nat -> nat -> seq nat) (tr : seq nat -> int -> res M) (jb : job) : Prop :=
  forall i j, covers jb i -> (j < jb_runs jb)%N ->
    exists m, tr (choice (jb_seed jb + i%:Z) (jb_n jb) `|jb_len jb|%N)
                 (jb_seed jb + (i * jb_runs jb + j)%N%:Z) = Ok m.

(* What is on disk for subset i: its index list and its first [runs] checkpoints. *)
Definition contents (P : eqType) (w : world P M) (p : P) (runs i : nat)
  : option (seq nat) * seq (option M) :=
  if get_dir w (p, i) is Some sd then
    (sd_indices sd, [seq dget (sd_models sd) j | j <- iota 0 runs])
  else (None, nseq runs None).

(* The checkpoint of run j of subset i, if there is one. *)
Definition checkpoint (P : eqType) (w : world P M) (p : P) (i j : nat) : option M :=
  if get_dir w (p, i) is Some sd then dget (sd_models sd) j else None.

(* The negated mean target value over the runs of every subset. *)
Definition negated_means (R : numFieldType) (nt num runs : nat) (target : M -> seq R)
  (md : nat -> nat -> option M) : seq (seq R) :=
  mkseq (fun i => mkseq (fun t =>
    - ((\sum_(j < runs) (if md i j is Some m then nth 0 (target m) t else 0)) / runs%:R)) nt) num.

(* All positions below n except i; everything when i is not such a position. *)
Definition all_but (n : nat) (i : int) : seq nat :=
  match i with
  | Posz k => if (k < n)%N then iota 0 k ++ iota k.+1 (n - k.+1) else iota 0 n
  | Negz _ => iota 0 n
  end.

(* A history of leave-one-out calls, flattened to (index, (n, seed)) in execution order. *)
Definition loo_call := (nat * option (seq int) * option int)%type.
Definition requested (c : loo_call) : seq int :=
  if c.1.2 is Some l then l else [seq i%:Z | i <- iota 0 c.1.1].
Definition events (h : seq loo_call) : seq (int * (nat * option int)) :=
  flatten [seq [seq (i, (c.1.1, c.2)) | i <- requested c] | c <- h].
(* the last event about index i *)
Fixpoint last_event (i : int) (l : seq (int * (nat * option int))) : option (nat * option int) :=
  if l is e :: l' then
    if last_event i l' is Some x then Some x else if e.1 == i then Some e.2 else None
  else None.
End Spec.
