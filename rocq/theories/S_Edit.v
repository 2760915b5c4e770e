(** Specification of edits to one note: which part is changed. *)
From Coq Require Import ZArith List Bool.
From Verif Require Import Base M_Pitch M_Duration M_Percent M_Scalar M_Note.
Import ListNotations.
Open Scope Z_scope.

(** The parts of a note that a user sees. *)
Inductive part :=
| AtTick | AtPitch | NoteValue | Dotting | Division | Ties | Loudness
| TickTrim | LengthTrim | LoudnessTrim | OnChannel.

Definition same_part (x : part) (n m : note) : Prop :=
  match x with
  | AtTick => n_base_tick m = n_base_tick n
  | AtPitch => n_pitch m = n_pitch n
  | NoteValue => d_num (n_duration m) = d_num (n_duration n)
  | Dotting => d_dots (n_duration m) = d_dots (n_duration n)
  | Division => d_den (n_duration m) = d_den (n_duration n)
  | Ties => n_tie m = n_tie n /\ n_tied m = n_tied n
  | Loudness => n_base_velocity m = n_base_velocity n
  | TickTrim => n_tick_trimmer m = n_tick_trimmer n
  | LengthTrim => n_duration_trimmer m = n_duration_trimmer n
  | LoudnessTrim => n_velocity_trimmer m = n_velocity_trimmer n
  | OnChannel => n_channel m = n_channel n
  end.

(** Nothing but the parts [l] differs. *)
Definition changes_only (l : list part) (n m : note) : Prop := forall x, ~ In x l -> same_part x n m.

(** The order in which the tie button goes through the four states: nothing,
    tie to the next note, tied from the note before, both. *)
Definition next_ties (s : bool * bool) : bool * bool :=
  match s with
  | (false, false) => (true, false)
  | (true, false) => (false, true)
  | (false, true) => (true, true)
  | (true, true) => (false, false)
  end.
