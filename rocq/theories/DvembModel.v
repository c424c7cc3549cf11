(* Data value embedding: dattri/algorithm/dvemb.py.
   Exact arithmetic over a field (so the NaN check of 792-797 never fires); epochs and sample
   indices are natural numbers; the dtype/device bookkeeping is omitted.  The model, its loss
   and the projectors are oracles: a recording call is given the per-sample gradient rows that
   _calculate_full_gradients / the hooks produce. *)
Set Warnings "-notation-overridden,-ambiguous-paths".
From mathcomp Require Import all_ssreflect all_algebra.
From Verif Require Import Py Dict.
Set Implicit Arguments. Unset Strict Implicit. Unset Printing Implicit Defensive.
Import GRing.Theory.
Local Open Scope ring_scope.

(* factorization_type "none" / factorised without projection / factorised with projection
   (93-100, 121-147) *)
Inductive mode := Full | FactRecon | FactProj.

Section Dv.
Variables (F : fieldType) (d : nat).
Notation row := 'rV[F]_d.
Notation ndict := (dict nat_eqType).

(* epoch_embeddings: e_n rows (753-757) *)
Record emb := Emb { e_n : nat; e_row : nat -> row }.

(* 149-153: the attributor's dictionaries.  In cached_factors, None stands for a step whose
   hooks never fired (A = B = None, 238-240); otherwise the rows _reconstruct_gradients gives. *)
Record st := St {
  grads : ndict (seq (seq row));
  facts : ndict (seq (option (seq row)));
  lrs : ndict (seq F);
  idxs : ndict (seq (seq nat));
  embs : ndict emb
}.
Definition init : st := St [::] [::] [::] [::] [::].

Definition is_fact (m : mode) : bool := if m is Full then false else true.

(* d[k].append(x); None = KeyError *)
Definition dapp (V : Type) (dct : ndict (seq V)) (k : nat) (x : V) : option (ndict (seq V)) :=
  if dget dct k is Some l then Some (dset dct k (rcons l x)) else None.

(* 366-370, 471-474, 656-660: new epoch entries *)
Definition open_epoch (m : mode) (s : st) (e : nat) : st :=
  if is_fact m then
    if dhas (facts s) e then s
    else St (dset (grads s) e [::]) (dset (facts s) e [::]) (dset (lrs s) e [::]) (dset (idxs s) e [::]) (embs s)
  else
    if dhas (grads s) e then s
    else St (dset (grads s) e [::]) (facts s) (dset (lrs s) e [::]) (dset (idxs s) e [::]) (embs s).

(* 400-407, 478, 664-673: store the step's gradients; AttributeError: projecting None factors *)
Definition put_grads (m : mode) (s : st) (e : nat) (g : option (seq row)) : st * option exn :=
  match m, g with
  | FactRecon, _ =>
    if dapp (facts s) e g is Some f then (St (grads s) f (lrs s) (idxs s) (embs s), None) else (s, Some KeyError)
  | _, Some rows =>
    if dapp (grads s) e rows is Some g' then (St g' (facts s) (lrs s) (idxs s) (embs s), None) else (s, Some KeyError)
  | _, None => (s, Some AttributeError)
  end.

(* 409-410, 479-480, 675-676: learning_rate / len(indices), then the indices *)
Definition put_meta (s : st) (e : nat) (idx : seq nat) (lr : F) : st * option exn :=
  if size idx == 0%N then (s, Some ZeroDivisionError)
  else if dapp (lrs s) e (lr / (size idx)%:R) is Some l then
    let s1 := St (grads s) (facts s) l (idxs s) (embs s) in
    if dapp (idxs s) e idx is Some i then (St (grads s) (facts s) l i (embs s), None) else (s1, Some KeyError)
  else (s, Some KeyError).

Definition then_ (o : st * option exn) (f : st -> st * option exn) : st * option exn :=
  if o.2 is Some _ then o else f o.1.

(* 263-305, 454-478, 644-678 cache_gradients; g is the outcome of the gradient computation *)
Definition cache_gradients (m : mode) (s : st) (e : nat) (g : res (seq row)) (idx : seq nat) (lr : F) :=
  let s1 := open_epoch m s e in
  match g with
  | Err x => (s1, Some x)
  | Ok rows => then_ (put_grads m s1 e (Some rows)) (fun s2 => put_meta s2 e idx lr)
  end.

(* 307-410 cache_gradients_context: [g] is what the hooks captured while the body ran (scaled by
   len(indices)), [body] the exception the body raised.  The finally block runs in both cases. *)
Definition cache_gradients_context (m : mode) (s : st) (e : nat) (g : option (seq row))
    (body : option exn) (idx : seq nat) (lr : F) :=
  if ~~ is_fact m then (s, Some NotImplementedError)
  else
    let o := then_ (put_grads m (open_epoch m s e) e g) (fun s2 => put_meta s2 e idx lr) in
    if o.2 is Some _ then o else (o.1, body).

(* 680-686 *)
Definition clear_cache (m : mode) (s : st) : st :=
  St [::] (if is_fact m then [::] else facts s) [::] [::] (embs s).

(* any(d.values()) *)
Definition any_vals (V : Type) (dct : ndict (seq V)) : bool := has (fun l => size l != 0)%N (dvals dct).

(* 727-730: torch.cat of nothing and max of nothing raise RuntimeError *)
Definition total_samples (s : st) : res nat :=
  if (size (idxs s) == 0)%N || has (fun l => size l == 0)%N (dvals (idxs s)) then Err RuntimeError
  else let all := flatten (map flatten (dvals (idxs s))) in
    if size all == 0%N then Err RuntimeError else Ok (foldr maxn 0%N all).+1.

(* 733-743: grad_dim / grad_dtype are read from epoch 0, step 0 *)
Definition probe (m : mode) (s : st) : res unit :=
  if m is FactRecon then
    if dget (facts s) 0%N is Some l then
      if l is g :: _ then (if g is Some _ then Ok tt else Err AttributeError) else Err IndexError
    else Err KeyError
  else if dget (grads s) 0%N is Some l then (if l is _ :: _ then Ok tt else Err IndexError) else Err KeyError.

(* d[e][t] *)
Definition dnth (V : Type) (dct : ndict (seq V)) (e t : nat) : res V :=
  if dget dct e is Some l then (if drop t l is x :: _ then Ok x else Err IndexError) else Err KeyError.

(* 768-781: the gradients of step t *)
Definition step_rows (m : mode) (s : st) (e t : nat) : res (seq row) :=
  if m is FactRecon then rbind (dnth (facts s) e t) (fun g => if g is Some r then Ok r else Err AttributeError)
  else dnth (grads s) e t.

(* 784: eta * g - eta * (g @ M.T), one row *)
Definition dvemb_row (eta : F) (M : 'M[F]_d) (g : row) : row := eta *: g - eta *: (g *m M^T).

(* 786: index_add_(0, indices, rows) *)
Definition index_add (n : nat) (E : nat -> row) (idx : seq nat) (rows : seq row) : res (nat -> row) :=
  if (size idx != size rows) || has (fun i => n <= i)%N idx then Err RuntimeError
  else Ok (fun j => E j + \sum_(p <- zip idx rows | p.1 == j) p.2).

(* 763-790: one step, going backwards *)
Definition step (m : mode) (s : st) (n e : nat) (ME : 'M[F]_d * (nat -> row)) (t : nat) : res ('M[F]_d * (nat -> row)) :=
  rbind (dnth (lrs s) e t) (fun eta =>
  rbind (dnth (idxs s) e t) (fun idx =>
  rbind (step_rows m s e t) (fun rows =>
  let dv := [seq dvemb_row eta ME.1 g | g <- rows] in
  rbind (index_add n ME.2 idx dv) (fun E' =>
  Ok (ME.1 + \sum_(p <- zip dv rows) p.1^T *m p.2, E'))))).

(* 758-801: the loop over epochs; on an exception the embeddings of finished epochs stay *)
Fixpoint epochs_loop (m : mode) (n : nat) (es : seq nat) (s : st) (M : 'M[F]_d) : st * option exn :=
  if es is e :: es' then
    let T := if dget (lrs s) e is Some l then size l else 0%N in
    match rfold (step m s n e) (M, fun=> 0) (rev (iota 0 T)) with
    | Err x => (s, Some x)
    | Ok (M', E) =>
      epochs_loop m n es' (St (grads s) (facts s) (lrs s) (idxs s) (dset (embs s) e (Emb n E))) M'
    end
  else (s, None).

(* 688-802 cache.  Result: state, exception, and the caller's own gradients / learning_rates
   dictionaries afterwards (they are adopted by reference at 716-719, and clear_cache empties
   whatever self.cached_gradients / self.learning_rates refer to). *)
Definition cache (m : mode) (s : st) (ext_g : option (ndict (seq (seq row)))) (ext_lr : option (ndict (seq F)))
    (memory_saving : bool) : (st * option exn) * (option (ndict (seq (seq row))) * option (ndict (seq F))) :=
  if is_fact m && (if ext_g is Some _ then true else false) then ((s, Some ValueError), (ext_g, ext_lr))
  else
    let s1 := St (odflt (grads s) ext_g) (facts s) (odflt (lrs s) ext_lr) (idxs s) (embs s) in
    if ~~ any_vals (grads s1) && ~~ (is_fact m && any_vals (facts s1)) then ((s1, Some ValueError), (ext_g, ext_lr))
    else match total_samples s1 with
    | Err x => ((s1, Some x), (ext_g, ext_lr))
    | Ok n =>
      match probe m s1 with
      | Err x => ((s1, Some x), (ext_g, ext_lr))
      | Ok _ =>
        let o := epochs_loop m n (sort (fun a b => b <= a)%N (dkeys (lrs s1))) s1 0 in
        if o.2 is Some x then (o, (ext_g, ext_lr))
        else if memory_saving then
          ((clear_cache m o.1, None), (omap (fun=> [::]) ext_g, omap (fun=> [::]) ext_lr))
        else (o, (ext_g, ext_lr))
      end
    end.

(* 804-866 attribute; [test] = the test gradient rows of each test batch *)
Definition attribute (s : st) (test : seq (seq row)) (epoch : option nat) (sel : option (seq nat)) : res (seq (seq F)) :=
  if size (embs s) == 0%N then Err RuntimeError
  else if size test == 0%N then Err RuntimeError          (* torch.cat([]) *)
  else
    rbind (match epoch with
      | Some e => if dget (embs s) e is Some em then Ok em else Err ValueError
      | None =>
        let n := e_n (head (Emb 0 (fun=> 0)) (dvals (embs s))) in
        if all (fun em => e_n em == n) (dvals (embs s)) then   (* torch.stack *)
          Ok (Emb n (fun j => \sum_(em <- dvals (embs s)) e_row em j))
        else Err RuntimeError
      end) (fun em =>
    rbind (match sel with
      | Some l => if has (fun i => e_n em <= i)%N l then Err IndexError else Ok (map (e_row em) l)
      | None => Ok (mkseq (e_row em) (e_n em))
      end) (fun rows =>
    Ok [seq [seq (r *m g^T) 0 0 | g <- flatten test] | r <- rows])).
End Dv.

(* 506-541 _reconstruct_gradients for one sample: a layer item holds its input rows A_l and
   output-gradient rows B_l, one per sequence position (one for 2-d inputs, where the matrix
   product of 532 has that single term). *)
Section Factors.
Variable F : fieldType.
Record item := Item { it_in : nat; it_out : nat; it_bias : bool; it_ab : seq (seq F * seq F) }.

Definition grad_w (it : item) (o i : nat) : F := \sum_(ab <- it_ab it) nth 0 ab.2 o * nth 0 ab.1 i.
Definition grad_b (it : item) (o : nat) : F := \sum_(ab <- it_ab it) nth 0 ab.2 o.

Definition reconstruct (its : seq item) : seq F :=
  flatten [seq mkseq (fun k => grad_w it (k %/ it_in it)%N (k %% it_in it)%N) (it_out it * it_in it) ++
               (if it_bias it then mkseq (grad_b it) (it_out it) else [::]) | it <- its].

(* projectors: matrices pa (K x in), pb (K x out) *)
Definition papply (p : nat -> nat -> F) (n : nat) (x : seq F) (k : nat) : F := \sum_(i < n) p k i * nth 0 x i.

(* 543-592; [seq3] = the input is 3-d: einsum("blk,blj->bkj", a_proj, b_proj), else b outer a *)
Definition kron_item (K : nat) (seq3 : bool) (pa pb : nat -> nat -> F) (it : item) : seq F :=
  mkseq (fun q => \sum_(ab <- it_ab it)
           (if seq3 then papply pa (it_in it) ab.1 (q %/ K)%N * papply pb (it_out it) ab.2 (q %% K)%N
            else papply pb (it_out it) ab.2 (q %/ K)%N * papply pa (it_in it) ab.1 (q %% K)%N)) (K * K).
(* 594-642; rootk = sqrt(proj_dim) *)
Definition elem_item (K : nat) (rootk : F) (pa pb : nat -> nat -> F) (it : item) : seq F :=
  mkseq (fun q => (\sum_(ab <- it_ab it) papply pa (it_in it) ab.1 q * papply pb (it_out it) ab.2 q) * rootk) K.
End Factors.
