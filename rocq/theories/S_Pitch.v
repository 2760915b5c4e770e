(** Specification of pitches: twelve-tone arithmetic, staff positions and key
    signatures, written from music theory and not from the code.  The only
    things shared with the model are the names of letters, octaves and
    accidentals and the pitch record. *)
From Coq Require Import ZArith List Bool.
From Verif Require Import Base M_Pitch.
Import ListNotations.
Open Scope Z_scope.

(** The letters in staff order. *)
Definition letters : list solfa := [SC; SD; SE; SF; SG; SA; SB].
Definition letter_at (i : Z) : option solfa := nth_error letters (Z.to_nat i).

(** The steps of the major scale in semitones: C-D, D-E, E-F, F-G, G-A, A-B. *)
Definition major_steps : list Z := [2; 2; 1; 2; 2; 2].

Definition letter_index (s : solfa) : Z :=
  match s with SC => 0 | SD => 1 | SE => 2 | SF => 3 | SG => 4 | SA => 5 | SB => 6 end.
Definition semitones (s : solfa) : Z := zsum (firstn (Z.to_nat (letter_index s)) major_steps).

(** The number written in the name of the octave: "-2" ... "8". *)
Definition octave_number (o : octave) : Z :=
  match o with
  | OM2 => -2 | OM1 => -1 | O0 => 0 | O1 => 1 | O2 => 2 | O3 => 3
  | O4 => 4 | O5 => 5 | O6 => 6 | O7 => 7 | O8 => 8
  end.

(** The alteration in semitones. *)
Definition alteration (a : sharp_flat) : Z :=
  match a with
  | DoubleFlat => -2 | Flat => -1 | Natural | NoAccidental => 0 | Sharp => 1 | DoubleSharp => 2
  end.

(** MIDI note number; C of octave -2 is 0. *)
Definition midi (s : solfa) (o : octave) (a : sharp_flat) : Z :=
  12 * (octave_number o + 2) + semitones s + alteration a.

(** Position on the staff; C of octave -2 is 0. *)
Definition staff (s : solfa) (o : octave) : Z := 7 * (octave_number o + 2) + letter_index s.

Definition midi_ok (v : Z) : Prop := 0 <= v <= 127.

(** A consistent pitch: the cached numbers are the ones of its name. *)
Definition valid_pitch (p : pitch) : Prop :=
  p_value p = midi (p_solfa p) (p_octave p) (p_sharp_flat p) /\
  p_score_offset p = staff (p_solfa p) (p_octave p) /\
  midi_ok (p_value p).

(** What a user can get hold of without the builder: constructors, loading
    from a file, and any finite sequence of operations. *)
Inductive obtainable : pitch -> Prop :=
| ob_value_of s o a p : pitch_value_of s o a = Ok p -> obtainable p
| ob_new s o a p : pitch_new s o a = Ret p -> obtainable p
| ob_from_score_offset n p : pitch_from_score_offset n = Ret p -> obtainable p
| ob_up p q : obtainable p -> pitch_up p = Ret (Ok q) -> obtainable q
| ob_down p q : obtainable p -> pitch_down p = Ret (Ok q) -> obtainable q
| ob_sharp p q : obtainable p -> pitch_toggle_sharp p = Ok q -> obtainable q
| ob_flat p q : obtainable p -> pitch_toggle_flat p = Ok q -> obtainable q
| ob_natural p q : obtainable p -> pitch_toggle_natural p = Ok q -> obtainable q
| ob_key p k q : obtainable p -> pitch_apply_key p k = Ok q -> obtainable q
| ob_shift p d q : obtainable p -> pitch_with_score_offset_delta p d = Ret (Ok q) -> obtainable q.

(** Key signatures.  Sharps are added from F upwards by fifths (four letters),
    flats from B upwards by fourths (three letters). *)
Definition nth_sharp (i : nat) : option solfa := letter_at ((3 + 4 * Z.of_nat i) mod 7).
Definition nth_flat (i : nat) : option solfa := letter_at ((6 + 3 * Z.of_nat i) mod 7).

(** [signature k s]: the accidental that the key with [k] sharps (k > 0) or
    [-k] flats (k < 0) puts on the letter [s]. *)
Inductive signature (k : Z) (s : solfa) : sharp_flat -> Prop :=
| sig_sharp i : -7 <= k <= 7 -> Z.of_nat i < k -> nth_sharp i = Some s -> signature k s Sharp
| sig_flat i : -7 <= k <= 7 -> Z.of_nat i < - k -> nth_flat i = Some s -> signature k s Flat.

(** The cycles of the three toggles. *)
Definition sharp_cycle (a : sharp_flat) : sharp_flat :=
  match a with
  | Sharp => DoubleSharp
  | DoubleSharp => NoAccidental
  | NoAccidental | Natural | Flat | DoubleFlat => Sharp
  end.
Definition flat_cycle (a : sharp_flat) : sharp_flat :=
  match a with
  | Flat => DoubleFlat
  | DoubleFlat => NoAccidental
  | NoAccidental | Natural | Sharp | DoubleSharp => Flat
  end.
Definition natural_cycle (a : sharp_flat) : sharp_flat :=
  match a with
  | Natural => NoAccidental
  | NoAccidental | Sharp | DoubleSharp | Flat | DoubleFlat => Natural
  end.

(** The error says which pitch was asked for, which MIDI number it would have had,
    and on which side of 0..127 that is. *)
Definition pitch_refused (e : pitch_error) (s : solfa) (o : octave) (a : sharp_flat) : Prop :=
  e = TooLow s o a (midi s o a) /\ midi s o a < 0 \/ e = TooHigh s o a (midi s o a) /\ 127 < midi s o a.

(** "The result is the pitch with this name if its MIDI number exists, and an
    error about this name otherwise." *)
Definition named_or_error (r : result pitch pitch_error) (s : solfa) (o : octave) (a : sharp_flat) : Prop :=
  match r with
  | Ok q => p_solfa q = s /\ p_octave q = o /\ p_sharp_flat q = a /\ valid_pitch q
  | Err e => pitch_refused e s o a
  end.
