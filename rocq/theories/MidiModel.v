(* dattri/benchmark/models/MusicTransformer/midi_processor/processor.py: the MIDI event codec.  No proofs.
   Times are exact rationals (seconds); the code uses floats. *)
Set Warnings "-notation-overridden,-ambiguous-paths".
From mathcomp Require Import all_ssreflect all_algebra zify.
From Verif Require Import Py Dict.
Set Implicit Arguments. Unset Strict Implicit. Unset Printing Implicit Defensive.
Import GRing.Theory Num.Theory Order.Theory.
Local Open Scope ring_scope.

(* Python's round on an exact rational: to the nearest integer, halves to even *)
Definition floorq (x : rat) : int := (numq x %/ denq x)%Z.
Definition pyround (x : rat) : int :=
  let f := floorq x in
  let r := x - f%:~R in
  if r < 2%:R^-1 then f else if 2%:R^-1 < r then f + 1 else if (f %% 2)%Z == 0 then f else f + 1.

Inductive etype := NoteOn | NoteOff | TimeShift | Velocity.
Record event := Ev { e_type : etype; e_val : int }.
(* processor.py 44-55; the velocity of a note_off is None *)
Record snote := SNote { s_type : etype; s_time : rat; s_val : int; s_vel : option int }.
(* pretty_midi.Note *)
Record note := Note { n_vel : int; n_pitch : int; n_start : rat; n_end : rat }.

(* 12-17 *)
Definition start_idx (t : etype) : int :=
  match t with NoteOn => 0 | NoteOff => 128 | TimeShift => 256 | Velocity => 356 end.
(* 66-67 *)
Definition to_int (e : event) : int := start_idx (e_type e) + e_val e.
(* 69-92 *)
Definition from_int (n : int) : event :=
  if (0 <= n) && (n < 128) then Ev NoteOn n
  else if (128 <= n) && (n < 256) then Ev NoteOff (n - 128)
  else if (256 <= n) && (n < 356) then Ev TimeShift (n - 256)
  else Ev Velocity (n - 356).

(* Python's list.sort(key=...): stable *)
Definition sort_by (A : Type) (key : A -> rat) (s : seq A) : seq A := sort (fun a b => key a <= key b) s.

(* 95-103 *)
Definition divide_note (notes : seq note) : seq snote :=
  flatten [seq [:: SNote NoteOn (n_start n) (n_pitch n) (Some (n_vel n)); SNote NoteOff (n_end n) (n_pitch n) None]
          | n <- sort_by n_start notes].

(* 106-124: the dictionary is never emptied; the velocity of a decoded snote is always a number (0 stands for
   None, which does not occur) *)
Fixpoint merge_loop (d : dict int_eqType snote) (s : seq snote) : seq note :=
  if s is x :: s' then
    match s_type x with
    | NoteOn => merge_loop (dset d (s_val x) x) s'
    | NoteOff =>
        if dget d (s_val x) is Some on then
          if s_time x - s_time on == 0 then merge_loop d s'
          else Note (odflt 0 (s_vel on)) (s_val x) (s_time on) (s_time x) :: merge_loop d s'
        else merge_loop d s'
    | _ => merge_loop d s'
    end
  else [::].
Definition merge_note (s : seq snote) : seq note := merge_loop [::] s.

(* 127-134; Python's // rounds down *)
Definition snote2events (x : snote) (prev_vel : option int) : seq event :=
  (if s_vel x is Some v then
     if prev_vel != Some (v %/ 4)%Z then [:: Ev Velocity (v %/ 4)%Z] else [::]
   else [::]) ++ [:: Ev (s_type x) (s_val x)].

(* 137-150 *)
Fixpoint events2snotes (timeline : rat) (velocity : int) (es : seq event) : seq snote :=
  if es is e :: es' then
    let timeline' := if e_type e is TimeShift then timeline + (e_val e + 1)%:~R / 100%:R else timeline in
    if e_type e is Velocity then events2snotes timeline' (e_val e * 4) es'
    else SNote (e_type e) timeline' (e_val e) (Some velocity) :: events2snotes timeline' velocity es'
  else [::].

(* 153-162: the while loop; the fuel is never exhausted (it is larger than the interval) *)
Fixpoint shift_loop (fuel : nat) (n : int) : seq event :=
  if fuel is fuel'.+1 then
    if 100 <= n then Ev TimeShift 99 :: shift_loop fuel' (n - 100)
    else if n == 0 then [::] else [:: Ev TimeShift (n - 1)]
  else [::].
Definition shift_events (prev post : rat) : seq event :=
  let n := pyround ((post - prev) * 100%:R) in shift_loop `|n|.+1 n.

(* 217-232: the loop over the sorted snotes *)
Fixpoint encode_loop (cur_time : rat) (cur_vel : option int) (s : seq snote) : seq event :=
  if s is x :: s' then
    shift_events cur_time (s_time x) ++ snote2events x cur_vel ++ encode_loop (s_time x) (s_vel x) s'
  else [::].
Definition encode_notes (notes : seq note) : seq int :=
  [seq to_int e | e <- encode_loop 0 (Some 0) (sort_by s_time (divide_note notes))].
(* 235-239: the notes of the decoded file *)
Definition decode (tokens : seq int) : seq note :=
  sort_by n_start (merge_note (events2snotes 0 0 [seq from_int t | t <- tokens])).

(* ---- the sustain pedal.  Notes are objects: they are kept in a list (the heap) and referred to by
   position, since transposition_notes changes their ends in place. *)
Record ctrl := Ctrl { c_value : int; c_time : rat }.
(* 26-40; the end of a manager is None until the pedal goes up; only managers with an end leave
   _control_preprocess *)
Record sustain := Sus { u_start : rat; u_end : rat; u_notes : seq nat }.
(* 165-180; the state: the sustains so far and the start of the open manager *)
Definition control_step (st : seq sustain * option rat) (c : ctrl) : seq sustain * option rat :=
  let: (sus, open) := st in
  match open with
  | None =>
      if 64 <= c_value c then (sus, Some (c_time c))
      else (if rev sus is l :: r then (rev (Sus (u_start l) (c_time c) (u_notes l) :: r), None) else (sus, None))
  | Some t => if c_value c < 64 then (rcons sus (Sus t (c_time c) [::]), None) else (sus, open)
  end.
Definition control_preprocess (cs : seq ctrl) : seq sustain := (foldl control_step ([::], None) cs).1.

Definition note0 := Note 0 0 0 0.
(* 36-42: in reverse order; the dictionary maps a pitch to the start of the note seen last *)
Fixpoint transpose_loop (e : rat) (d : dict int_eqType rat) (heap : seq note) (refs : seq nat) : seq note :=
  if refs is r :: refs' then
    let n := nth note0 heap r in
    let e' := if dget d (n_pitch n) is Some t then t else Num.max e (n_end n) in
    transpose_loop e (dset d (n_pitch n) (n_start n))
      (set_nth note0 heap r (Note (n_vel n) (n_pitch n) (n_start n) e')) refs'
  else heap.
Definition transposition_notes (u : sustain) (heap : seq note) : seq note :=
  transpose_loop (u_end u) [::] heap (rev (u_notes u)).

(* 186-195: the inner loop over the remaining notes.  Returns the appended refs, the managed refs, and the
   rest of the notes if the loop broke. *)
Fixpoint scan (heap : seq note) (u : sustain) (notes : seq nat) : seq nat * seq nat * option (seq nat) :=
  if notes is r :: notes' then
    let n := nth note0 heap r in
    if n_start n < u_start u then let: (a, m, b) := scan heap u notes' in (r :: a, m, b)
    else if u_end u < n_start n then ([::], [::], Some notes)
    else let: (a, m, b) := scan heap u notes' in (a, r :: m, b)
  else ([::], [::], None).
(* 183-196 *)
Fixpoint pedal_loop (heap : seq note) (notes : seq nat) (sus : seq sustain)
    : seq note * seq nat * seq sustain :=
  if sus is u :: sus' then
    let: (a, m, b) := scan heap u notes in
    let u' := Sus (u_start u) (u_end u) (u_notes u ++ m) in
    let heap' := if b is Some _ then transposition_notes u' heap else heap in
    let notes' := if b is Some l then l else notes in
    let: (h, app, us) := pedal_loop heap' notes' sus' in (h, a ++ app, u' :: us)
  else (heap, [::], [::]).
(* 183-201: the heap and the refs of the returned stream *)
Definition note_preprocess (sus : seq sustain) (notes : seq note) : seq note * seq nat :=
  let: (h, app, us) := pedal_loop notes (iota 0 (size notes)) sus in
  (h, sort_by (fun r => n_start (nth note0 h r)) (app ++ flatten [seq u_notes u | u <- us])).
(* 204-216: an instrument is its notes and its sustain control changes *)
Definition instrument := (seq note * seq ctrl)%type.
Definition pedalled (i : instrument) : seq note :=
  let: (h, refs) := note_preprocess (control_preprocess i.2) i.1 in [seq nth note0 h r | r <- refs].
Definition encode_midi (ins : seq instrument) : seq int := encode_notes (flatten [seq pedalled i | i <- ins]).
