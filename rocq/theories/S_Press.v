(** Specification of the buttons that change the selected notes. *)
From Coq Require Import ZArith List Bool.
From Verif Require Import Base M_Pitch M_Duration M_Scalar M_Note M_Models S_Pitch S_Note.
Import ListNotations.
Open Scope Z_scope.

(** A step up or down the staff, so many dots more, so many ticks later. *)
Inductive button := Up | Down | Dots (k : Z) | Later (d : Z).
(** Pressing it makes [m] of the note [n]. *)
Definition makes (b : button) (n m : note) : Prop :=
  match b with
  | Up => note_up_score_offset n = Ret (Ok m)
  | Down => note_down_score_offset n = Ret (Ok m)
  | Dots k => note_add_dots n k = Ret (Ok m)
  | Later d => note_with_tick_added n d false = Ret (Ok m)
  end.
Definition opposite (b : button) : button :=
  match b with Up => Down | Down => Up | Dots k => Dots (- k) | Later d => Later (- d) end.
(** The numbers fit. *)
Definition apt (b : button) (n : note) : Prop :=
  valid_note n /\ valid_pitch (n_pitch n) /\
  match b with Dots k => i32 (d_dots (n_duration n) + k) | Later d => u32 (n_base_tick n + d) | _ => True end.

(** The change of the notes of [l] to those at the same places of [l']. *)
Definition notes_to (l l' : list note) : model_changes := mkChanges (combine l l') [] [] [] [].

(** The buttons for accidentals, and the accidental that follows on another. *)
Definition accidental (f : note -> result note pitch_error) (next : sharp_flat -> sharp_flat) : Prop :=
  f = note_toggle_sharp /\ next = sharp_cycle \/ f = note_toggle_flat /\ next = flat_cycle \/ f = note_toggle_natural /\ next = natural_cycle.

(** [l] is changed step by step through the lists of [ls]. *)
Fixpoint steps (l : list note) (ls : list (list note)) : list model_changes :=
  match ls with [] => [] | m :: ls' => notes_to l m :: steps m ls' end.
