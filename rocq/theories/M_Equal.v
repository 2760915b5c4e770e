(** Model of comparing notes with [==] and of hashing trimmers:
    src/trimmer.rs 105-119, 197-205, src/percent.rs 66-70 and the derived
    comparisons of src/note.rs 29-43 and the types of its fields (solfa.rs 4,
    octave.rs 20, sharp_flat.rs 2, pitch.rs 33, duration.rs 4, 53, 92, 133,
    velocity.rs 3, channel.rs 2).
    [derive(PartialEq)] compares the fields in order, an enum by its variant and
    then the data of the variant. *)
From Coq Require Import ZArith List Bool.
From Verif Require Import Base M_Pitch M_Duration M_Percent M_Scalar M_Note.
Import ListNotations.
Open Scope Z_scope.

(** src/sharp_flat.rs 2 *)
Definition sharp_flat_eqb (a b : sharp_flat) : bool :=
  match a, b with
  | Sharp, Sharp | DoubleSharp, DoubleSharp | Flat, Flat | DoubleFlat, DoubleFlat | Natural, Natural | NoAccidental, NoAccidental => true
  | _, _ => false
  end.
(** src/pitch.rs 33 *)
Definition pitch_eqb (a b : pitch) : bool :=
  solfa_eqb (p_solfa a) (p_solfa b) && octave_eqb (p_octave a) (p_octave b) && sharp_flat_eqb (p_sharp_flat a) (p_sharp_flat b) &&
  (p_value a =? p_value b) && (p_score_offset a =? p_score_offset b).
(** src/duration.rs 133 *)
Definition duration_eqb (a b : duration) : bool :=
  num_eqb (d_num a) (d_num b) && (d_den a =? d_den b) && (d_dots a =? d_dots b).
(** src/note.rs 30 *)
Definition note_eqb (a b : note) : bool :=
  (n_base_tick a =? n_base_tick b) && pitch_eqb (n_pitch a) (n_pitch b) && duration_eqb (n_duration a) (n_duration b) &&
  Bool.eqb (n_tie a) (n_tie b) && Bool.eqb (n_tied a) (n_tied b) && (n_base_velocity a =? n_base_velocity b) &&
  trimmer_eqb (n_tick_trimmer a) (n_tick_trimmer b) && rate_eqb (n_duration_trimmer a) (n_duration_trimmer b) &&
  trimmer_eqb (n_velocity_trimmer a) (n_velocity_trimmer b) && (n_channel a =? n_channel b).
(** src/trimmer.rs 115-119: what is fed to the hasher *)
Definition trimmer_hashed (t : trimmer) : Z := t_sum t.
