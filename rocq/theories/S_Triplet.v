(** Specification of notes that are played one after the other. *)
From Coq Require Import ZArith List Bool.
From Verif Require Import Base M_Duration M_Percent M_Scalar M_Bar M_Note S_Note.
Import ListNotations.
Open Scope Z_scope.

(** Where the written note ends. *)
Definition note_ends (a : note) (e : Z) : Prop := exists l, lasts (n_duration a) l /\ e = n_base_tick a + l.

(** The start of the note behind the [i]-th one, or the end of the group. *)
Definition next_at (l : list note) (stop : Z) (i : nat) : Z :=
  match nth_error l (S i) with Some b => n_base_tick b | None => stop end.

(** No note lasts into the next one or beyond the end of the group, and none ends more than one tick early. *)
Definition in_turn (l : list note) (stop : Z) : Prop :=
  forall i a, nth_error l i = Some a -> exists e, note_ends a e /\ e <= next_at l stop i <= e + 1.

(** The note, and the last of its dots, is not shorter than a 64th note. *)
Definition down_to_64th (n : note) : Prop := halvings (d_num (n_duration n)) + d_dots (n_duration n) <= 6.
