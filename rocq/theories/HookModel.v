(* Forward hooks of the block-projected attributors: dattri/algorithm/block_projected_if/core/hook.py 27-392 and the
   parts of block_projected_if.py that attach them, run batches and remove them (221-312, 835-903).  No proofs.
   A forward pass is the list of calls of leaf layers with their inputs, a backward pass the list of autograd nodes of
   these calls that the engine executes with the gradients of their outputs: the values a layer computes do not depend
   on the hooks (F.linear in every branch).  Not modelled: dtypes, devices, garbage collection (a manager that a layer
   refers to is alive, and one that is removed has already left the registry), id() of a dead manager reused. *)
Set Warnings "-notation-overridden,-ambiguous-paths".
From mathcomp Require Import all_ssreflect.
From Verif Require Import Py.
Set Implicit Arguments. Unset Strict Implicit. Unset Printing Implicit Defensive.

Section Hook.
(* X inputs, D gradients of outputs, C compressed gradients *)
Variables (X D C : Type) (Name : eqType).

(* model.named_modules(): every module once; d_linear is isinstance(module, nn.Linear) *)
Record modl := Modl { d_name : Name; d_id : nat; d_linear : bool }.
(* 218-263: HookManager.  The compressors are set right after it is made; g_comp i is _compute_compressed_grad of
   layer i (157-204, see CompModel), AttributeError when its compressor is None *)
Record manager := Mgr { g_names : seq Name; g_cached : seq nat; g_on : bool;
  g_inputs : seq (option X); g_grads : seq (option C); g_comp : nat -> D -> X -> res C }.
(* a patched forward is the pair of the manager and the index of the layer, None is the forward of the class.
   w_orig is the attribute module._original_forward, if any.  w_wgrad are the contributions to weight.grad since
   zero_grad: one (layer, gradient of output, input) per native node executed. *)
Record world := World { w_fwd : nat -> option (nat * nat); w_orig : nat -> option (option (nat * nat));
  w_reg : nat -> bool; w_mgr : nat -> manager; w_next : nat; w_wgrad : seq (nat * D * X) }.
Definition upd T (f : nat -> T) (k : nat) (v : T) : nat -> T := fun i => if i == k then v else f i.
Definition set_mgr (w : world) g a := World (w_fwd w) (w_orig w) (w_reg w) (upd (w_mgr w) g a) (w_next w) (w_wgrad w).

(* 235: {name: idx for idx, name in enumerate(layer_names)}: the last one wins *)
Definition name_idx (names : seq Name) (x : Name) : nat := (size names).-1 - index x (rev names).
(* 271-306, one module *)
Definition wrap (names : seq Name) (g : nat) (w : world) (d : modl) : world :=
  if d_name d \in names then
    let a := w_mgr w g in
    let a' := Mgr (g_names a) (rcons (g_cached a) (d_id d)) (g_on a) (g_inputs a) (g_grads a) (g_comp a) in
    let w' := set_mgr w g a' in
    if d_linear d then
      World (upd (w_fwd w') (d_id d) (Some (g, name_idx names (d_name d)))) (upd (w_orig w') (d_id d) (Some (w_fwd w' (d_id d))))
            (w_reg w') (w_mgr w') (w_next w') (w_wgrad w')
    else w'
  else w.
(* 218-306; set_compressors 345-351 *)
Definition attach (model : seq modl) (names : seq Name) (comp : nat -> D -> X -> res C) (w : world) : world * nat :=
  let g := w_next w in
  let none T := nseq (size names) (@None T) in
  let w1 := World (w_fwd w) (w_orig w) (upd (w_reg w) g true)
                  (upd (w_mgr w) g (Mgr names [::] true (none X) (none C) comp)) g.+1 (w_wgrad w) in
  (foldl (wrap names g) w1 model, g).
(* 353-360 *)
Definition set_on (b : bool) (w : world) (g : nat) : world :=
  let a := w_mgr w g in set_mgr w g (Mgr (g_names a) (g_cached a) b (g_inputs a) (g_grads a) (g_comp a)).
(* 370-375, one module *)
Definition unwrap (w : world) (m : nat) : world :=
  if w_orig w m is Some f then World (upd (w_fwd w) m f) (upd (w_orig w) m None) (w_reg w) (w_mgr w) (w_next w) (w_wgrad w) else w.
(* 368-384 *)
Definition remove (w : world) (g : nat) : world :=
  let w1 := foldl unwrap w (g_cached (w_mgr w g)) in
  World (w_fwd w1) (w_orig w1) (upd (w_reg w1) g false) (w_mgr w1) (w_next w1) (w_wgrad w1).

(* 308-343, 66-72: what a call of module m does.  A disabled wrapper calls module._original_forward; when that is
   itself a disabled wrapper it calls the same attribute again, without end: RecursionError, a RuntimeError. *)
Definition route (w : world) (m : nat) : res (option (nat * nat)) :=
  let enabled gi := if w_reg w gi.1 then Ok (Some gi) else Err RuntimeError in
  match w_fwd w m with
  | None => Ok None
  | Some gi =>
    if g_on (w_mgr w gi.1) then enabled gi
    else match w_orig w m with
         | None | Some None => Ok None
         | Some (Some gi') => if g_on (w_mgr w gi'.1) then enabled gi' else Err RuntimeError
         end
  end.
(* the autograd node of a call *)
Inductive node := Native of nat & X | Hooked of nat & nat.
Definition store_input (w : world) (gi : nat * nat) (x : option X) : world :=
  let a := w_mgr w gi.1 in
  set_mgr w gi.1 (Mgr (g_names a) (g_cached a) (g_on a) (set_nth None (g_inputs a) gi.2 x) (g_grads a) (g_comp a)).
Definition fwd_call (w : world) (c : nat * X) : world * res node :=
  match route w c.1 with
  | Err e => (w, Err e)
  | Ok None => (w, Ok (Native c.1 c.2))
  | Ok (Some gi) => (store_input w gi (Some c.2), Ok (Hooked gi.1 gi.2))
  end.
Fixpoint fwd_all (w : world) (tape : seq node) (cs : seq (nat * X)) : world * res (seq node) :=
  if cs is c :: cs' then
    match fwd_call w c with
    | (w', Err e) => (w', Err e)
    | (w', Ok t) => fwd_all w' (rcons tape t) cs'
    end
  else (w, Ok tape).
(* 90-154; weight.grad only for native nodes.  inputs[i] is None: None.to(...) *)
Definition bwd_node (w : world) (t : node) (d : D) : world * res unit :=
  match t with
  | Native m x => (World (w_fwd w) (w_orig w) (w_reg w) (w_mgr w) (w_next w) (rcons (w_wgrad w) (m, d, x)), Ok tt)
  | Hooked g i =>
    if ~~ w_reg w g then (w, Err RuntimeError) else
    let a := w_mgr w g in
    match nth None (g_inputs a) i with
    | None => (w, Err AttributeError)
    | Some x =>
      match g_comp a i d x with
      | Err e => (w, Err e)
      | Ok c => (set_mgr w g (Mgr (g_names a) (g_cached a) (g_on a) (set_nth None (g_inputs a) i None)
                                  (set_nth None (g_grads a) i (Some c)) (g_comp a)), Ok tt)
      end
    end
  end.
Fixpoint bwd_all (w : world) (tape : seq node) (bs : seq (nat * D)) : world * res unit :=
  if bs is b :: bs' then
    if List.nth_error tape b.1 is Some t then
      match bwd_node w t b.2 with
      | (w', Err e) => (w', Err e)
      | (w', Ok _) => bwd_all w' tape bs'
      end
    else bwd_all w tape bs'
  else (w, Ok tt).

(* one batch: the calls of the forward pass, the result of the rest of the loss function, the executed nodes (by
   position of their call), the result of what follows in the loop body (storing the gradients) *)
Record batch := Batch { b_calls : seq (nat * X); b_loss : res unit; b_back : seq (nat * D); b_store : res unit }.
(* zero_grad, forward, loss, backward: block_projected_if.py 239-247, 857-887, or the user's own training step *)
Definition step (w : world) (b : batch) : world * res unit :=
  let w0 := World (w_fwd w) (w_orig w) (w_reg w) (w_mgr w) (w_next w) [::] in
  match fwd_all w0 [::] (b_calls b) with
  | (w1, Err e) => (w1, Err e)
  | (w1, Ok tape) => if b_loss b is Err e then (w1, Err e) else bwd_all w1 tape (b_back b)
  end.

(* an attributor: its layer names and compressors; self.hook_manager *)
Record attr := Attr { a_names : seq Name; a_comp : nat -> D -> X -> res C; a_hm : option nat }.
(* the loop 235-292, 853-903: the compressed gradients of every batch as they are read *)
Fixpoint loop (w : world) (g : nat) (acc : seq (seq (option C))) (bs : seq batch) : world * res (seq (seq (option C))) :=
  if bs is b :: bs' then
    match step w b with
    | (w', Err e) => (w', Err e)
    | (w', Ok _) => if b_store b is Err e then (w', Err e) else loop w' g (rcons acc (g_grads (w_mgr w' g))) bs'
    end
  else (w, Ok acc).
(* 221-305 and 835-903; fin is the result of finish_batch_range_processing and save_metadata.  What follows in
   cache() no longer touches the hooks. *)
Definition session (model : seq modl) (w : world) (a : attr) (bs : seq batch) (fin : res unit) :
    world * attr * res (seq (seq (option C))) :=
  let: (w1, g) := if a_hm a is Some g then (w, g) else attach model (a_names a) (a_comp a) w in
  let a1 := Attr (a_names a) (a_comp a) (Some g) in
  match loop w1 g [::] bs with
  | (w2, Err e) => (w2, a1, Err e)
  | (w2, Ok gs) =>
    if fin is Err e then (w2, a1, Err e)
    else (remove w2 g, Attr (a_names a) (a_comp a) None, Ok gs)
  end.

(* several attributors on one model, and the user's own training steps *)
Inductive op := Session of nat & seq batch & res unit | Train of batch.
Record system := Sys { s_world : world; s_attr : nat -> attr }.
Definition exec (model : seq modl) (s : system) (o : op) : system * bool :=
  match o with
  | Session k bs fin =>
    let: (w, a, r) := session model (s_world s) (s_attr s k) bs fin in
    (Sys w (upd (s_attr s) k a), if r is Ok _ then true else false)
  | Train b => let: (w, r) := step (s_world s) b in (Sys w (s_attr s), if r is Ok _ then true else false)
  end.
Definition run (model : seq modl) (s : system) (h : seq op) : system := foldl (fun s o => (exec model s o).1) s h.
End Hook.
