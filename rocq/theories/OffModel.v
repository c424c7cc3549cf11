(* In-memory gradient stores of the block-projected influence attributor.
   Modelled: dattri/algorithm/block_projected_if/offload/memory.py 20-350 and offload/cpu.py 20-360
   (the two files contain the same code up to device moves, which are the identity on values), and
   offload/disk_io/prefetch_dataset.py 310-345 (async_collate_fn).

   Simplifications: tensors are values (neither dtype conversion to float32 nor aliasing between the
   store and the tensors handed out is modelled); batch and layer indices are natural numbers; a
   gradient is None, the 1-d tensor torch.tensor([]) or a 2-d tensor. *)
Set Warnings "-notation-overridden,-ambiguous-paths".
From mathcomp Require Import all_ssreflect all_algebra.
From Verif Require Import Py Dict Tensor.
From Verif Require RetrainModel.
Set Implicit Arguments. Unset Strict Implicit. Unset Printing Implicit Defensive.

Section Off.
Variables (T P : Type) (z : T).

(* a 2-d tensor: number of columns and rows *)
Record t2 := T2 { t2c : nat; t2r : seq (seq T) }.
Definition nrows (t : t2) : nat := size (t2r t).
(* one entry of the list handed to store_gradients / store_ifvp *)
Inductive gr := GNone | G1 | G2 (t : t2).

(* g.numel() > 0; AttributeError on None *)
Definition nonempty (g : gr) : res bool :=
  match g with
  | GNone => Err AttributeError
  | G1 => Ok false
  | G2 t => Ok (0 < nrows t * t2c t)
  end.

(* a list comprehension whose body may raise *)
Fixpoint rseq (A B : Type) (f : A -> res B) (s : seq A) : res (seq B) :=
  if s is a :: s' then rbind (f a) (fun b => rbind (rseq f s') (fun bs => Ok (b :: bs))) else Ok [::].

(* memory.py 45-59: [g.shape[1] if g.numel() > 0 else 0 for g in gradients] *)
Definition detect_dims (gs : seq gr) : res (seq nat) :=
  rseq (fun g => rbind (nonempty g) (fun b => Ok (if g is G2 t then if b then t2c t else 0 else 0))) gs.
Definition ensure_dims (d : option (seq nat)) (gs : seq gr) : res (seq nat) :=
  if d is Some ds then Ok ds else detect_dims gs.

(* memory.py 72: next((g.shape[0] for g in gradients if g.numel() > 0), 0) *)
Fixpoint first_rows (gs : seq gr) : res nat :=
  if gs is g :: gs' then
    rbind (nonempty g) (fun b => if b then Ok (if g is G2 t then nrows t else 0) else first_rows gs')
  else Ok 0.

(* result[:, s:s+dim] = grad, with torch broadcasting; [result] has bs rows and at least s+dim columns *)
Definition put_cols (bs s dim : nat) (t : t2) (result : seq (seq T)) : res (seq (seq T)) :=
  if bc_ok (nrows t) bs && bc_ok (t2c t) dim
  then Ok (mapi (fun i row => mapi (fun j x =>
         if s <= j < s + dim
         then nth z (nth [::] (t2r t) (bc_idx (nrows t) i)) (bc_idx (t2c t) (j - s)) else x) row) result)
  else Err RuntimeError.

(* memory.py 79-85: the loop over zip(gradients, layer_dims) *)
Definition fill (bs : nat) (ds : seq nat) (gs : seq gr) (r0 : seq (seq T)) : res (nat * seq (seq T)) :=
  rfold (fun sr gd =>
    rbind (nonempty gd.1) (fun b =>
    rbind (if b then if gd.1 is G2 t then put_cols bs sr.1 gd.2 t sr.2 else Ok sr.2 else Ok sr.2)
          (fun r => Ok (sr.1 + gd.2, r)))) (0, r0) (zip gs ds).

(* memory.py 61-87, cpu.py 61-90 after _ensure_dims_set *)
Definition concatenate (ds : seq nat) (gs : seq gr) : res t2 :=
  rbind (first_rows gs) (fun bs =>
  if bs == 0 then Ok (T2 (sumn ds) [::])
  else rbind (fill bs ds gs (nseq bs (nseq (sumn ds) z))) (fun sr => Ok (T2 (sumn ds) sr.2))).

(* tensor[:, s:e] *)
Definition cols (s e : nat) (t : t2) : t2 :=
  T2 (slice_len (t2c t) s e) [seq take (e - s) (drop s row) | row <- t2r t].
(* memory.py 103-111, cpu.py 112-122 *)
Fixpoint split_from (s : nat) (ds : seq nat) (t : t2) : seq gr :=
  if ds is d :: ds' then G2 (cols s (s + d) t) :: split_from (s + d) ds' t else [::].
(* memory.py 89-112 *)
Definition split_tensor (d : option (seq nat)) (t : t2) : res (seq gr) :=
  if d is Some ds then Ok (split_from 0 ds t) else Err ValueError.

(* the attributes of the manager: memory.py 34-43 *)
Record off := Off {
  o_dims : option (seq nat);
  o_grad : dict nat_eqType t2; o_test : dict nat_eqType t2; o_ifvp : dict nat_eqType t2;
  o_prec : seq (option P) }.
Variable nl : nat.     (* len(layer_names) *)
(* memory.py 20-43; [d] is None, or the dimensions the attributor has assigned
   (block_projected_if.py 198-201, 287-289) *)
Definition off0 (d : option (seq nat)) : off := Off d [::] [::] [::] (nseq nl None).

(* the three dictionaries: store_gradients(is_test=False/True), store_ifvp *)
Inductive kind := KGrad | KTest | KIfvp.
Definition dict_of k (o : off) :=
  match k with KGrad => o_grad o | KTest => o_test o | KIfvp => o_ifvp o end.
Definition set_dims d (o : off) := Off d (o_grad o) (o_test o) (o_ifvp o) (o_prec o).
Definition set_batch k b t (o : off) :=
  match k with
  | KGrad => Off (o_dims o) (dset (o_grad o) b t) (o_test o) (o_ifvp o) (o_prec o)
  | KTest => Off (o_dims o) (o_grad o) (dset (o_test o) b t) (o_ifvp o) (o_prec o)
  | KIfvp => Off (o_dims o) (o_grad o) (o_test o) (dset (o_ifvp o) b t) (o_prec o)
  end.

(* memory.py 114-132 and 191-199; layer_dims is set before anything else can fail *)
Definition store k b gs (o : off) : off * res unit :=
  match ensure_dims (o_dims o) gs with
  | Err e => (o, Err e)
  | Ok ds =>
    let o1 := set_dims (Some ds) o in
    match concatenate ds gs with
    | Err e => (o1, Err e)
    | Ok t => (set_batch k b t o1, Ok tt)
    end
  end.
(* memory.py 164-176 *)
Definition store_prec l p (o : off) : off :=
  Off (o_dims o) (o_grad o) (o_test o) (o_ifvp o)
      (if l < size (o_prec o) then set_nth None (o_prec o) l p else o_prec o).
(* memory.py 178-189 *)
Definition retrieve_prec l (o : off) : option P := if size (o_prec o) <= l then None else nth None (o_prec o) l.
(* memory.py 327-332 *)
Definition clear (o : off) : off := Off (o_dims o) [::] [::] [::] (nseq nl None).

(* memory.py 134-162 and 201-214 *)
Definition retrieve k b (o : off) : res (seq gr) :=
  match dget (dict_of k o) b with
  | None => Ok (if o_dims o is Some ds then [seq G2 (T2 d [::]) | d <- ds] else nseq nl G1)
  | Some t => split_tensor (o_dims o) t
  end.
(* memory.py 319-325 *)
Definition has_ifvp (o : off) : bool := 0 < size (o_ifvp o).

(* histories *)
Inductive op := OStore (k : kind) (b : nat) (gs : seq gr) | OPrec (l : nat) (p : option P) | OClear.
Definition run_op (o : off) (a : op) : off :=
  match a with
  | OStore k b gs => (store k b gs o).1
  | OPrec l p => store_prec l p o
  | OClear => clear o
  end.
Definition run (h : seq op) (o : off) : off := foldl run_op o h.

(* ------------------------------------------------------------ the gradient dataloader *)
Definition item := (t2 * dict nat_eqType (nat * nat))%type.
(* memory.py 244-250: sorted(cache.keys()) filtered by the range *)
Definition batch_indices (c : dict nat_eqType t2) (range : option (nat * nat)) : seq nat :=
  let ks := sort leq (dkeys c) in
  if range is Some (s, e) then [seq i <- ks | s <= i < e] else ks.
(* memory.py 264-273 *)
Definition get_item (c : dict nat_eqType t2) (b : nat) : item :=
  let t := odflt (T2 0 [::]) (dget c b) in (t, [:: (b, (0, nrows t))]).
(* torch.cat(tensors, dim=0): all must have the same number of columns *)
Definition cat0 (ts : seq t2) : res t2 :=
  if ts is t :: _ then
    if all (fun t' => t2c t' == t2c t) ts then Ok (T2 (t2c t) (flatten [seq t2r t' | t' <- ts]))
    else Err RuntimeError
  else Err RuntimeError.
(* memory.py 278-296 = cpu.py 285-303: the start row of an entry is not used *)
Definition collate_mem (its : seq item) : res item :=
  if its is [:: it] then Ok it else
  let om := foldl (fun om it =>
      (om.1 + nrows it.1,
       foldl (fun m e => dset m e.1 (om.1, om.1 + (e.2.2 - e.2.1))) om.2 it.2)) (0, [::]) its in
  rbind (cat0 [seq it.1 | it <- its]) (fun t => Ok (t, om.2)).
(* prefetch_dataset.py 310-345 *)
Definition collate_async (its : seq item) : res item :=
  if its is [:: it] then Ok it else
  let om := foldl (fun om it =>
      (om.1 + nrows it.1,
       foldl (fun m e => dset m e.1 (om.1 + e.2.1, om.1 + e.2.1 + (e.2.2 - e.2.1))) om.2 it.2))
      (0, [::]) its in
  rbind (cat0 [seq it.1 | it <- its]) (fun t => Ok (t, om.2)).
(* memory.py 216-303: iterating the DataLoader over the data set, batch_size items at a time *)
Definition mem_loader (c : dict nat_eqType t2) (range : option (nat * nat)) (bs : nat) : seq (res item) :=
  let L := Loader [seq get_item c b | b <- batch_indices c range] bs false in
  [seq collate_mem kb.2 | kb <- enum_batches L].
(* data_type = "gradients" / "ifvp"; any other data_type gives None *)
Inductive dtype := DGrad | DIfvp | DOther.
Definition create_loader (dt : dtype) (is_test : bool) range bs (o : off) : option (seq (res item)) :=
  match dt with
  | DGrad => Some (mem_loader (if is_test then o_test o else o_grad o) range bs)
  | DIfvp => Some (mem_loader (o_ifvp o) range bs)
  | DOther => None
  end.
End Off.
Arguments GNone {T}.
Arguments G1 {T}.
