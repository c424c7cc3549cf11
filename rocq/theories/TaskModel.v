(* Flattened parameters (func/utils.py) and AttributionTask (task.py).
   Simplifications, everywhere in this file:
   - a tensor is its shape and its row-major data; devices, dtypes and views
     are not modelled, so [view]/[reshape]/[flatten] keep the data and only
     check the number of elements;
   - parameter names are sequences of characters of an eqType [A] with a
     distinguished character [dot];
   - the user's loss and target functions are oracles taking the dictionary of
     parameters (the data argument is fixed); [vmap (grad _)] is an oracle
     functional indexed by [in_dims];
   - buffers are in AmbModel; tied parameters in LiveModel. *)
Set Warnings "-notation-overridden,-ambiguous-paths".
From mathcomp Require Import all_ssreflect all_algebra zify.
From Verif Require Import Py Dict.
Set Implicit Arguments. Unset Strict Implicit. Unset Printing Implicit Defensive.

Section Utils.
Variables (A : eqType) (F : Type).

Definition name := seq A.
Record tensor := Tensor { t_shape : seq nat; t_data : seq F }.

(* math.prod(shape) (utils.py 202), Tensor.numel() *)
Definition prod (sh : seq nat) : nat := foldr muln 1 sh.
Definition numel (t : tensor) : nat := size (t_data t).

(* a dictionary name -> tensor *)
Definition params := dict [eqType of name] tensor.

(* flatten_params (utils.py 152-174) and _vectorize with batch_dim=False
   (61-65, 85-89): concatenation in dict order; the device of the first entry
   is looked up with next(iter(...)), which raises on an empty dict *)
Definition flatten_params (ps : params) : res (seq F) :=
  if ps is [::] then Err StopIteration
  else Ok (flatten [seq t_data p.2 | p <- ps]).

(* model.named_parameters(): name, shape, requires_grad *)
Record parm := Parm { p_shape : seq nat; p_grad : bool }.
Definition arch := dict [eqType of name] parm.
(* {k: p for k, p in model.named_parameters() if p.requires_grad} (utils.py 196, 225) *)
Definition trainable (m : arch) : arch := [seq p <- m | p_grad p.2].

(* the generator of _unflatten_params (199-204); reshape of a slice that is too
   short raises RuntimeError *)
Fixpoint unflatten_from (l : arch) (cur : nat) (v : seq F) : res params :=
  if l is (k, p) :: l' then
    let n := prod (p_shape p) in
    let s := take n (drop cur v) in
    if size s == n
    then rbind (unflatten_from l' (cur + n) v) (fun d => Ok ((k, Tensor (p_shape p) s) :: d))
    else Err RuntimeError
  else Ok [::].
(* _unflatten_params (177-206) *)
Definition unflatten_params (m : arch) (v : seq F) : res params :=
  unflatten_from (trainable m) 0 v.

(* the loop of _unflatten_params_layerwise (226-229): tensors[i].view(shape) *)
Fixpoint unflatten_tuple (l : arch) (vs : seq (seq F)) : res params :=
  if l is (k, p) :: l' then
    if vs is v :: vs' then
      if size v == prod (p_shape p)
      then rbind (unflatten_tuple l' vs') (fun d => Ok ((k, Tensor (p_shape p) v) :: d))
      else Err RuntimeError
    else Err IndexError
  else Ok [::].
(* _unflatten_params_layerwise (209-230) *)
Definition unflatten_layerwise (m : arch) (vs : seq (seq F)) : res params :=
  unflatten_tuple (trainable m) vs.

(* the parameter argument of a flattened function: one tensor, or a tuple *)
Inductive arg := Flat of seq F | Tuple of seq (seq F).

(* flatten_func (233-274) *)
Definition flatten_func (R : Type) (m : arch) (f : params -> res R) (a : arg) : res R :=
  rbind (match a with
         | Tuple vs => unflatten_layerwise m vs
         | Flat v => unflatten_params m v
         end) f.

(* ---- partial_param (277-324).  The dictionary [full] is an object shared
   with the caller; its values are of type [V], read with [val] and written
   with [mk], so that the same definition serves a dictionary of tensors and
   the task's dictionary, whose values may be live model parameters. *)
Section Partial.
Variables (V : Type) (val : name -> V -> tensor) (mk : tensor -> V).

(* what flatten_params sees *)
Definition view (full : dict [eqType of name] V) : params :=
  [seq (p.1, val p.1 p.2) | p <- full].

(* the loop 313-319: every named entry is overwritten by a 1-d slice of the
   argument; the dictionary keeps the new values, also when a later name is
   unknown *)
Fixpoint partial_loop (full : dict [eqType of name] V) (ls : seq name) (idx : nat) (v : seq F)
  : dict [eqType of name] V * res unit :=
  if ls is l :: ls' then
    if dget full l is Some t then
      let n := numel (val l t) in
      let s := take n (drop idx v) in
      partial_loop (dset full l (mk (Tensor [:: size s] s))) ls' (idx + n) v
    else (full, Err KeyError)
  else (full, Ok tt).

(* _function_partial (310-321) *)
Definition partial_call (R : Type) (f : seq F -> res R)
    (full : dict [eqType of name] V) (ls : seq name) (v : seq F)
  : dict [eqType of name] V * res R :=
  let r := partial_loop full ls 0 v in
  (r.1, rbind r.2 (fun _ => rbind (flatten_params (view r.1)) f)).
End Partial.

(* partial functions over one shared dictionary of tensors: the dictionary after
   a history of evaluations (selection, argument) *)
Definition tval (k : name) (t : tensor) : tensor := t.
Definition exec (full : params) (h : seq (seq name * seq F)) : params :=
  foldl (fun d e => (partial_loop tval id d e.1 0 e.2).1) full h.

(* ---- _generate_param_layer_map (task.py 179-210) *)
Variable dot : A.
(* ".".join(key.split(".")[:-1]) (203): the text before the last dot *)
Fixpoint has_dot (k : name) : bool := if k is c :: k' then (c == dot) || has_dot k' else false.
Fixpoint layer_of (k : name) : name :=
  if k is c :: k' then if has_dot k' then c :: layer_of k' else [::] else [::].
(* the loop 200-208 *)
Fixpoint layer_map_from (cur : option name) (idx : nat) (ks : seq name) : seq nat :=
  if ks is k :: ks' then
    let idx' := if cur == Some (layer_of k) then idx else idx.+1 in
    idx'.-1 :: layer_map_from (Some (layer_of k)) idx' ks'
  else [::].
(* current_index starts at -1: the loop above counts from 0 and subtracts 1 *)
Definition layer_map (ks : seq name) : seq nat := layer_map_from None 0 ks.
End Utils.

Arguments Tensor {F}.
Arguments Flat {F}.
Arguments Tuple {F}.

Section Task.
Variables (A : eqType) (F : Type) (dot : A).
Local Notation name := (name A).
Local Notation params := (params A F).
Local Notation arch := (arch A).

(* layer_name: a string or a list of strings; iterating over a string yields
   its characters *)
Definition lname := (name + seq name)%type.
Definition names_of (l : lname) : seq name :=
  match l with inl s => [seq [:: c] | c <- s] | inr ls => ls end.

(* a value of the named_parameters dictionary: a parameter object of a model
   (alive: loading a checkpoint into that model changes it) or a plain tensor *)
Inductive ref := Live of nat | Own of tensor F.
Definition deref (heap : seq params) (k : name) (r : ref) : tensor F :=
  match r with
  | Own t => t
  | Live o => odflt (Tensor [::] [::]) (dget (nth [::] heap o) k)
  end.

(* a function handed out by the task: loss or target, plain or
   vmap(grad(.), in_dims), over all parameters or partial over a dictionary *)
Variable I : eqType.             (* values of in_dims *)
Record fn := Fn {
  fn_target : bool;
  fn_grad : option I;
  fn_part : option (nat * seq name)  (* id of the dictionary object, layer_name *)
}.
(* {"in_dims", "layer_name", "ckpt_idx"}; compared with != *)
Definition kwargs : eqType := [eqType of I * option lname * option int].
Definition memo := (kwargs * fn)%type.

Record task := Task {
  tk_heap : seq params;          (* model objects that were ever current *)
  tk_obj : nat;                  (* self.model *)
  tk_cur : option int;           (* self.current_checkpoint_idx *)
  tk_dicts : seq (dict [eqType of name] ref); (* dictionary objects *)
  tk_named : option nat;         (* self.named_parameters (None: not yet set) *)
  tk_gloss : memo;               (* self.grad_loss_func(_kwargs) *)
  tk_gtarget : memo              (* self.grad_target_func(_kwargs) *)
}.

(* the environment of a task *)
Record tenv := TEnv {
  te_arch : arch;                (* parameters of the model *)
  te_ckpts : seq params;         (* self.checkpoints, as state dicts *)
  te_fresh : bool;               (* checkpoints_load_func returns a new model
                                    object (e.g. from_pretrained) instead of
                                    loading in place (task.py 24-37) *)
  te_dims0 : I                   (* (None, 1) *)
}.
Variable E : tenv.

(* __init__ (43-158), for a model holding the values [init] *)
Definition task_init (init : params) : task :=
  Task [:: init] 0 None [::] None
    ((te_dims0 E, None, None), Fn false (Some (te_dims0 E)) None)
    ((te_dims0 E, None, None), Fn true (Some (te_dims0 E)) None).

(* self.checkpoints[ckpt_idx] for a python int *)
Definition py_index (n : nat) (i : int) : option nat :=
  match i with
  | Posz k => if k < n then Some k else None
  | Negz k => if k < n then Some (n - k.+1) else None
  end.

(* model.load_state_dict(ckpt): parameters found with the right shape are
   copied, and a RuntimeError is raised at the end if a key is missing,
   unexpected or has another shape *)
Definition load_values (ps ck : params) : params :=
  [seq (p.1, if dget ck p.1 is Some t then if t_shape t == t_shape p.2 then t else p.2 else p.2)
  | p <- ps].
Definition load_ok (ps ck : params) : bool :=
  all (fun p => if dget ck p.1 is Some t then t_shape t == t_shape p.2 else false) ps
  && all (fun k => dhas ps k) (dkeys ck).

Definition set_heap h o s := Task h o (tk_cur s) (tk_dicts s) (tk_named s) (tk_gloss s) (tk_gtarget s).

(* _load_checkpoints (160-177) *)
Definition load_ckpt (s : task) (c : option int) : task * res unit :=
  if (tk_cur s != None) && (tk_cur s == c) then (s, Ok tt)
  else match c with
  | None => (s, Err TypeError)
  | Some i =>
    match py_index (size (te_ckpts E)) i with
    | None => (s, Err IndexError)
    | Some j =>
      let ck := nth [::] (te_ckpts E) j in
      let old := nth [::] (tk_heap s) (tk_obj s) in
      let new := load_values old ck in
      let s1 := if te_fresh E
                then set_heap (if load_ok old ck then rcons (tk_heap s) new else tk_heap s)
                              (if load_ok old ck then size (tk_heap s) else tk_obj s) s
                else set_heap (set_nth [::] (tk_heap s) (tk_obj s) new) (tk_obj s) s in
      if load_ok old ck then
        let d := [seq (p.1, Live (tk_obj s1)) | p <- trainable (te_arch E)] in
        (Task (tk_heap s1) (tk_obj s1) (Some i) (rcons (tk_dicts s1) d)
              (Some (size (tk_dicts s1))) (tk_gloss s1) (tk_gtarget s1), Ok tt)
      else (s1, Err RuntimeError)
    end
  end.

(* self.named_parameters; only read after a load *)
Definition named (s : task) : nat := odflt 0 (tk_named s).
Definition named_dict (s : task) := nth [::] (tk_dicts s) (named s).
Definition dict_view (s : task) (d : nat) : params :=
  view (deref (tk_heap s)) (nth [::] (tk_dicts s) d).

Definition set_memo (tgt : bool) (m : memo) s :=
  Task (tk_heap s) (tk_obj s) (tk_cur s) (tk_dicts s) (tk_named s)
       (if tgt then tk_gloss s else m) (if tgt then m else tk_gtarget s).
Definition get_memo (tgt : bool) s := if tgt then tk_gtarget s else tk_gloss s.

(* get_grad_target_func (212-259) and get_grad_loss_func (299-345) *)
Definition get_grad (tgt : bool) (s : task) (dims : I) (l : option lname) (c : option int)
  : task * res fn :=
  let r := if l is Some _ then load_ckpt s c else (s, Ok tt) in
  match r.2 with
  | Err e => (r.1, Err e)
  | Ok _ =>
    let s1 := r.1 in
    let f := Fn tgt (Some dims) (if l is Some l' then Some (named s1, names_of l') else None) in
    let kw : kwargs := (dims, l, c) in
    let s2 := if (get_memo tgt s1).1 != kw then set_memo tgt (kw, f) s1 else s1 in
    (s2, Ok (get_memo tgt s2).2)
  end.

(* get_target_func (261-297) and get_loss_func (347-382) with flatten=True; with
   flatten=False they return the user's function, or raise NotImplementedError
   if layer_name is given *)
Definition get_func (tgt : bool) (s : task) (l : option lname) (c : option int) : task * res fn :=
  if l is Some l' then
    let r := load_ckpt s c in
    (r.1, rmap (fun _ => Fn tgt None (Some (named r.1, names_of l'))) r.2)
  else (s, Ok (Fn tgt None None)).
Definition get_func_raw (l : option lname) : res unit :=
  if l is Some _ then Err NotImplementedError else Ok tt.

(* get_param (384-452) *)
Definition select (ps : params) (l : option lname) : params :=
  match l with
  | None => ps
  | Some l' => foldl (fun d k => if dget ps k is Some t then dset d k t else d) [::] (names_of l')
  end.
Inductive pval := PFlat of seq F | PTuple of seq (seq F) & seq nat.
Definition get_param (s : task) (c : option int) (l : option lname) (split : bool)
    (pm : option (seq nat)) : task * res pval :=
  let r := load_ckpt s c in
  match r.2 with
  | Err e => (r.1, Err e)
  | Ok _ =>
    let ps := select (dict_view r.1 (named r.1)) l in
    let vs := [seq t_data p.2 | p <- ps] in
    (r.1,
     if split then
       match pm with
       | Some (i :: pm') =>
         if size (i :: pm') != size ps then Err ValueError else Ok (PTuple vs (i :: pm'))
       | _ => Ok (PTuple vs (layer_map dot (dkeys ps)))
       end
     else rmap PFlat (flatten_params ps))
  end.

(* evaluating a function handed out by the task *)
Variable R : Type.
Variables (lossf targetf : params -> res R).          (* the user's functions *)
Variable gradv : I -> (arg F -> res R) -> arg F -> res R.  (* vmap(grad(f), in_dims) *)

Definition user_fn (tgt : bool) := if tgt then targetf else lossf.
Definition set_dict (s : task) (d : nat) x :=
  Task (tk_heap s) (tk_obj s) (tk_cur s) (set_nth [::] (tk_dicts s) d x) (tk_named s)
       (tk_gloss s) (tk_gtarget s).
(* slicing a tuple argument and flattening the slices raises AttributeError *)
Definition part_fun (s : task) (tgt : bool) (d : nat) (ls : seq name) (a : arg F) : res R :=
  match a with
  | Flat v => (partial_call (deref (tk_heap s)) Own
                 (fun w => flatten_func (te_arch E) (user_fn tgt) (Flat w))
                 (nth [::] (tk_dicts s) d) ls v).2
  | Tuple _ => Err AttributeError
  end.
Definition call_fn (s : task) (f : fn) (v : seq F) : task * res R :=
  let k := if fn_grad f is Some dims then gradv dims else id in
  match fn_part f with
  | None => (s, k (flatten_func (te_arch E) (user_fn (fn_target f))) (Flat v))
  | Some (d, ls) =>
    (set_dict s d (partial_loop (deref (tk_heap s)) Own (nth [::] (tk_dicts s) d) ls 0 v).1,
     k (part_fun s (fn_target f) d ls) (Flat v))
  end.

(* ---- executions: requests and evaluations of any function obtained so far *)
Inductive op :=
| OParam of option int & option lname & bool & option (seq nat)
| OGrad of bool & I & option lname & option int
| OFunc of bool & option lname & option int
| OCall of nat & seq F.          (* index of the function among those obtained *)

Definition step (sf : task * seq fn) (o : op) : task * seq fn :=
  let: (s, fs) := sf in
  let push (r : task * res fn) := (r.1, if r.2 is Ok f then rcons fs f else fs) in
  match o with
  | OParam c l sp pm => ((get_param s c l sp pm).1, fs)
  | OGrad t dims l c => push (get_grad t s dims l c)
  | OFunc t l c => push (get_func t s l c)
  | OCall i v => if i < size fs then ((call_fn s (nth (Fn false None None) fs i) v).1, fs) else sf
  end.
Definition run (s : task) (h : seq op) : task * seq fn := foldl step (s, [::]) h.
End Task.
