(** Specification of what a tuplet depends on. *)
From Coq Require Import ZArith List Bool.
From Verif Require Import Base M_Duration M_Note M_Models S_Tuple.
Import ListNotations.
Open Scope Z_scope.

(** [h] looks only at what making a tuplet leaves alone: pitch, tie, velocity, channel, trimmers and the value without its tuplet number. *)
Definition blind (h : note -> note) : Prop := forall n m, essence n = essence m -> h n = h m.
(** The note [n] moved by [k] and with the pitch, tie, velocity, channel and trimmers that [h] gives it. *)
Definition dressed (h : note -> note) (k : Z) (n : note) : note :=
  let m := h n in
  mkNote (n_base_tick n + k) (n_pitch m) (n_duration n) (n_tie m) (n_tied m) (n_base_velocity m) (n_tick_trimmer m) (n_duration_trimmer m) (n_velocity_trimmer m) (n_channel m).

(** The same note but for the tuplet number. *)
Definition renumbered (a b : note) : Prop := n_base_tick a = n_base_tick b /\ essence a = essence b.

(** Where a note starts and its value; that two notes are worth the same but for the tuplet number. *)
Definition stands (n : note) : Z * duration := (n_base_tick n, n_duration n).
Definition worth (a b : note) : Prop := d_num (n_duration b) = d_num (n_duration a) /\ d_dots (n_duration b) = d_dots (n_duration a).

(** A change of the notes [l] to the notes [l'], one by one, and of nothing else. *)
Definition note_change (l l' : list note) : model_changes := mkChanges (combine l l') [] [] [] [].
