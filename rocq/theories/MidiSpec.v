(* Specification of the MIDI codec: clean notes and what they become. *)
Set Warnings "-notation-overridden,-ambiguous-paths".
From mathcomp Require Import all_ssreflect all_algebra zify.
From Verif Require Import MidiModel.
Set Implicit Arguments. Unset Strict Implicit. Unset Printing Implicit Defensive.
Import GRing.Theory Num.Theory Order.Theory.
Local Open Scope ring_scope.

Definition note_tuple (n : note) := (n_vel n, n_pitch n, n_start n, n_end n).
Definition note_of_tuple (t : int * int * rat * rat) := Note t.1.1.1 t.1.1.2 t.1.2 t.2.
Lemma note_tupleK : cancel note_tuple note_of_tuple. Proof. by case. Qed.
Definition note_eqMixin := CanEqMixin note_tupleK.
Canonical note_eqType := Eval hnf in EqType note note_eqMixin.

(* a time on the grid of 1/100 s *)
Definition centi (x : rat) : Prop := exists k : nat, x = k%:R / 100%:R.
Definition midi_range (n : note) : bool := [&& 0 <= n_vel n, n_vel n < 128, 0 <= n_pitch n & n_pitch n < 128].
Definition clean (n : note) : Prop := [/\ midi_range n, centi (n_start n), centi (n_end n) & n_start n < n_end n].
(* notes of the same pitch do not overlap *)
Definition compatible (n m : note) : bool :=
  [|| n_pitch n != n_pitch m, n_end n <= n_start m | n_end m <= n_start n].
Definition apart (ns : seq note) : bool := pairwise compatible ns.
(* velocities are kept in steps of 4 *)
Definition quantised (n : note) : note := Note (4 * (n_vel n %/ 4)%Z) (n_pitch n) (n_start n) (n_end n).
(* the tokens of the vocabulary *)
Definition token (t : int) : bool := (0 <= t) && (t < 388).
(* the events of the vocabulary: 128 pitches on and off, 100 shifts of 1 to 100 hundredths, 32 velocities *)
Definition valid (e : event) : bool :=
  (0 <= e_val e) && (e_val e < match e_type e with NoteOn => 128 | NoteOff => 128 | TimeShift => 100 | Velocity => 32 end).
(* the times at which the sustain pedal is up for good: the last of a run of values below 64 after a press *)
Fixpoint release_times (pressed : bool) (cs : seq ctrl) : seq rat :=
  if cs is c :: cs' then
    if 64 <= c_value c then release_times true cs'
    else if ~~ pressed then release_times false cs'
    else (if cs' is c' :: _ then if c_value c' < 64 then [::] else [:: c_time c] else [:: c_time c])
         ++ release_times true cs'
  else [::].
(* a decoded item that starts or ends a note *)
Definition real (x : snote) : bool := match s_type x with NoteOn => true | NoteOff => true | _ => false end.
