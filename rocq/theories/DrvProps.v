(* C70: what the nanoGPT retraining command leaves on disk. *)
Set Warnings "-notation-overridden,-ambiguous-paths".
From mathcomp Require Import all_ssreflect all_algebra.
From mathcomp Require Import zify.
From Verif Require Import Py NanoModel DrvModel DrvSpec DrvProof.
Set Implicit Arguments. Unset Strict Implicit. Unset Printing Implicit Defensive.
Import GRing.Theory Num.Theory.
Local Open Scope ring_scope.

Section C70.
Variables (d : dset) (usable : seq nat -> bool).
Notation call := (call d usable).
Notation calls := (calls d usable).

(* Once meta.pkl exists no sequence of calls changes the data set, whatever --data_file they name. *)
Theorem C70_frozen w cs : meta w -> same_data w (calls w cs).
Proof.
elim: cs w => [|c cs IH] w h //=.
have [e1 e2 e3 e4] := call_data d usable w c; have P : prepared d c w = w by rewrite /prepared h.
rewrite P in e1 e2 e3 e4; have [|f1 f2 f3 f4] := IH (call w c).1; first by rewrite e4.
by split; [exact: etrans f1 e1|exact: etrans f2 e2|exact: etrans f3 e3|exact: etrans f4 e4].
Qed.

(* From then on, over any sequence of calls, model k is the one of the last call that makes it, with that call's
   seed + k - 2 and the data set found at the start; a model no call makes is left as it was. *)
Theorem C70_models w cs k : known d -> meta w -> outs (calls w cs) k =
  match maker cs k, train w, val_ w with
  | Some c, Some t, Some v => if usable t && usable v then Some (seed c + k - 2, t, v) else outs w k
  | _, _, _ => outs w k
  end.
Proof.
move=> hd h; elim/last_ind: cs => [|cs c IH]; first by rewrite /calls /maker.
rewrite /calls /maker !foldl_rcons -/(calls w cs) -/(maker cs k) call_outs //.
have [e1 e2 e3 e4] := C70_frozen cs h.
have P : prepared d c (calls w cs) = calls w cs by rewrite /prepared e4 h.
rewrite P e2 e3 IH; case: ifP => // _; case: (train w) => [t|]; last by case: (maker cs k).
case: (val_ w) => [v|]; last by case: (maker cs k).
by case: (usable t && usable v) => //; case: (maker cs k).
Qed.

(* So splitting the work over calls with one seed, in any order, gives what one call gives. *)
Theorem C70_split w cs ds s k : known d -> meta w -> all (fun c => seed c == s) cs -> all (fun c => seed c == s) ds ->
  has (makes^~ k) cs = has (makes^~ k) ds -> outs (calls w cs) k = outs (calls w ds) k.
Proof.
have M (l : seq cmd) : all (fun c => seed c == s) l ->
    if has (makes^~ k) l then exists2 c, maker l k = Some c & seed c = s else maker l k = None.
  elim/last_ind: l => [|l c IH] //; rewrite all_rcons has_rcons /maker foldl_rcons -/(maker l k) => /andP[/eqP e /IH {}IH].
  by case: (makes c k) => //=; exists c.
move=> hd h /M Mc /M Md e; rewrite !C70_models //; move: Mc Md; rewrite e; case: has.
  by move=> [c -> ec] [c' -> ec']; rewrite ec ec'.
by move=> -> ->.
Qed.

(* A first call that is given a text and not interrupted prepares exactly that text, and trains on it. *)
Theorem C70_first c t : supplies d c t -> let w := (call fresh c).1 in
  [/\ train w = Some t, val_ w = Some t, meta w &
      forall k, outs w k = if makes c k && usable t then Some (seed c + k - 2, t, t) else None].
Proof.
move=> S /=; have [e1 e2 e3 e4] := call_data d usable fresh c.
have [P1 P2 P3] : [/\ train (prepared d c fresh) = Some t, val_ (prepared d c fresh) = Some t & meta (prepared d c fresh)].
  case: S => hk; rewrite /prepared /writes /=; case: d => // ->; by case: (kill c) hk => [|[|[|[|[|n]]]]].
have hd : known d by case: S => _; case: d.
split; [exact: etrans e2 P1|exact: etrans e3 P2|by rewrite e4|move=> k].
rewrite (@call_outs d usable fresh c k hd).
rewrite P1 P2 prepared_outs; case: (makes c k) => //=; by rewrite andbb.
Qed.

(* What the command reports: it never tells that the preparation or a training failed. *)
Theorem C70_status w c : (call w c).2 =
  if only c then Ok tt else if ~~ known d then Err FileNotFoundError else
  if neg c || above c then Err ValueError else Ok tt.
Proof. by rewrite /DrvModel.call; case: (only c) => //; case: d => //=; case: (neg c) => //; case: (above c). Qed.
(* A call that is refused or only downloads trains nothing, but the preparation has taken place. *)
Theorem C70_refused w c : ~~ valid c -> (call w c).1 = prepared d c w.
Proof. by rewrite /valid /DrvModel.call; case: (only c) => //; case: d => //=; case: (neg c) => //; case: (above c). Qed.
End C70.

(* Not so: a failed download is made good by the next call.  The empty input.txt it leaves is taken for the text, and
   after the next complete call no sequence of calls can change that. *)
Theorem C70_failed_download_refuted (usable : seq nat -> bool) c c' cs : dl c = None -> (1 <= kill c)%N -> (3 <= kill c')%N ->
  let w := calls Shakespeare usable fresh [:: c, c' & cs] in
  [/\ (call Shakespeare usable fresh c).2 = (if only c then Ok tt else if neg c || above c then Err ValueError else Ok tt),
      meta w, train w = Some [::] & val_ w = Some [::]].
Proof.
move=> hdl hk hk' w; split; first by rewrite C70_status.
all: have [i1 i2 i3 i4] := call_data Shakespeare usable fresh c.
all: set w1 := (call Shakespeare usable fresh c).1 in i1 i2 i3 i4.
all: have I : input w1 = Some [::] /\ meta w1 = false
  by rewrite i1 i4 /prepared /writes /= hdl; case: (kill c) hk => [|n].
all: have [j1 j2 j3 j4] := call_data Shakespeare usable w1 c'.
all: have [P1 P2 P3] : [/\ train (prepared Shakespeare c' w1) = Some [::], val_ (prepared Shakespeare c' w1) = Some [::] &
    meta (prepared Shakespeare c' w1)]
  by case: I => I1 I2; rewrite /prepared I2 /writes I1; case: (kill c') hk' => [|[|[|n]]].
all: have M : meta (call Shakespeare usable w1 c').1 by rewrite j4.
all: have [f1 f2 f3 f4] := C70_frozen Shakespeare usable cs M.
- by rewrite /w /= f4.
- by rewrite /w /= -/w1; exact: etrans f2 (etrans j2 P1).
- by rewrite /w /= -/w1; exact: etrans f3 (etrans j3 P2).
Qed.

(* Not so: --data_file tells which text is used.  After a first call any later call is trained on the first text. *)
Theorem C70_data_file_refuted (usable : seq nat -> bool) c c' t t' : file c = Some t -> (3 <= kill c)%N -> file c' = Some t' -> usable t ->
  forall k, makes c' k -> outs (calls Tiny usable fresh [:: c; c']) k = Some (seed c' + k - 2, t, t).
Proof.
move=> fc hk _ u k mk; set w1 := (call Tiny usable fresh c).1.
have [i1 i2 i3 i4] := call_data Tiny usable fresh c.
have [P1 P2 P3] : [/\ train (prepared Tiny c fresh) = Some t, val_ (prepared Tiny c fresh) = Some t & meta (prepared Tiny c fresh)]
  by rewrite /prepared /writes /= fc; case: (kill c) hk => [|[|[|n]]].
have M : meta w1 by rewrite i4.
have := C70_models usable [:: c'] k (isT : known Tiny) M.
by rewrite /maker /= mk {2 3 4}/w1 i2 i3 P1 P2 u.
Qed.

(* For shakespeare_char it plays no part at all. *)
Definition with_file (f : option (seq nat)) (c : cmd) : cmd :=
  Cmd (kill c) (dl c) f (only c) (neg c) (above c) (seed c) (first c) (last_ c) (total c) (fails c).
Theorem C70_data_file_ignored (usable : seq nat -> bool) w cs (f : cmd -> option (seq nat)) :
  calls Shakespeare usable w [seq with_file (f c) c | c <- cs] = calls Shakespeare usable w cs.
Proof. by elim: cs w => [|c cs IH] w //=; rewrite -IH. Qed.

(* Not so: a failed preparation stops the command.  Interrupted after train.bin of a second text, the command trains on
   the training text of one file and the validation text of another. *)
Theorem C70_mixed_refuted (usable : seq nat -> bool) c c' t t' : file c = Some t -> kill c = 2%N -> file c' = Some t' -> kill c' = 1%N ->
  usable t -> usable t' -> forall k, makes c' k ->
  outs (calls Tiny usable fresh [:: c; c']) k = Some (seed c' + k - 2, t', t).
Proof.
move=> fc hk fc' hk' u u' k mk; set w1 := (call Tiny usable fresh c).1.
have [i1 i2 i3 i4] := call_data Tiny usable fresh c.
have [P2 P3] : val_ w1 = Some t /\ meta w1 = false by rewrite i3 i4 /prepared /writes /= fc hk.
rewrite /calls /= -/w1 call_outs // mk /prepared P3 /writes fc' hk' /=.
by rewrite P2 u u'.
Qed.

Section Ex.
Let c0 := Cmd 5 (Some [:: 1; 2; 3]%N) (Some [:: 4; 5]%N) false false false 42 0 3 5 (fun i => i == 1).
Let c1 := Cmd 5 None None false false false 42 3 9 5 (fun _ => false).
(* three models asked for, the second fails; a second call makes models 4 and 5 on the same text *)
Example C70_nonvacuous : supplies Shakespeare c0 [:: 1; 2; 3]%N /\ supplies Tiny c0 [:: 4; 5]%N /\
  [seq outs (calls Shakespeare (fun t => size t > 0)%N fresh [:: c0; c1]) k | k <- [:: 0; 1; 2; 3; 4; 5; 6]] =
  [:: None; Some (41 : int, [:: 1; 2; 3], [:: 1; 2; 3])%N; None; Some (43 : int, [:: 1; 2; 3], [:: 1; 2; 3])%N;
      Some (44 : int, [:: 1; 2; 3], [:: 1; 2; 3])%N; Some (45 : int, [:: 1; 2; 3], [:: 1; 2; 3])%N; None].
Proof. by do 2 (split; first by []); vm_compute. Qed.
(* a failed download, then a good one: no model at all, both calls report success *)
Example C70_download_nonvacuous : let w := calls Shakespeare (fun t => size t > 0)%N fresh [:: c1; c0] in
  [/\ train w = Some [::], meta w & [seq outs w k | k <- [:: 1; 2; 3; 4; 5]] = nseq 5 None].
Proof. by split; vm_compute. Qed.
Let c2 := Cmd 2 None (Some [:: 7]%N) false false false 42 0 3 5 (fun _ => false).
Let c3 := Cmd 1 None (Some [:: 8]%N) false false false 42 0 3 5 (fun _ => false).
Example C70_mixed_nonvacuous : makes c3 2 /\
  outs (calls Tiny (fun t => size t > 0)%N fresh [:: c2; c3]) 2 = Some (42 : int, [:: 8], [:: 7])%N.
Proof. by split; vm_compute. Qed.
End Ex.
Print Assumptions C70_frozen. Print Assumptions C70_models. Print Assumptions C70_split. Print Assumptions C70_first.
Print Assumptions C70_status. Print Assumptions C70_refused. Print Assumptions C70_failed_download_refuted.
Print Assumptions C70_data_file_refuted. Print Assumptions C70_mixed_refuted. Print Assumptions C70_data_file_ignored.
