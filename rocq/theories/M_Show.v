(** Model of the texts that values and errors are shown as ([Display] and, for the errors of rendering, the derived [Debug]). *)
From Coq Require Import ZArith List Bool String.
From Verif Require Import Base M_Pitch M_Scalar M_Bar M_Text M_Json M_Repeat.
Import ListNotations.
Open Scope list_scope.
Open Scope Z_scope.

(** src/bar.rs 78-97 *)
Definition show_mark (m : mark) : text :=
  chars (match m with
         | Start => "|:" | End => ":|" | Dc => "D.C." | Fine => "Fine" | Ds => "D.S." | Segno => "Segno" | Coda => "Coda"
         | Var1 => "Var1" | Var2 => "Var2" | Var3 => "Var3" | Var4 => "Var4"
         end).

(** src/solfa.rs 67-79 *)
Definition show_solfa (s : solfa) : text :=
  chars (match s with SC => "C" | SD => "D" | SE => "E" | SF => "F" | SG => "G" | SA => "A" | SB => "B" end).

(** src/rhythm.rs 12-16 (a u8), src/velocity.rs 39-43 (a u8), src/duration.rs 71-75 (a u8) *)
Definition show_u8 (n : Z) : text := show_int n.
(** src/rhythm.rs 88-90 *)
Definition show_rhythm_denominator (d : rhythm_den) : text := show_int (rhythm_den_value d).

(** src/octave.rs 9-17 *)
Definition show_octave_error (v : octave_error) : text :=
  chars "Octave(" ++ show_int v ++ chars ") should " ++ show_int (octave_value OM2) ++ chars " <= " ++ show_int v ++
  chars " <= " ++ show_int (octave_value O8).

(** src/pitch.rs 15-29; [{:?}] of the three enumerations is the name of the variant, as in their JSON text *)
Definition show_pitch_error (e : pitch_error) : text :=
  let pitch s o a := chars "Pitch(" ++ solfa_name s ++ chars ", " ++ octave_name o ++ chars ", " ++ sharp_flat_name a in
  match e with
  | TooLow s o a v => pitch s o a ++ chars ") is too low " ++ show_int v
  | TooHigh s o a v => pitch s o a ++ chars ") is too high " ++ show_int v
  | InvalidScoreOffset v => chars "Score offset error(" ++ show_int v ++ chars ")"
  end.

(** [#[derive(Debug)]] of src/bar.rs 8-11 *)
Definition show_var_index (i : var_index) : text :=
  chars (match i with VI1 => "VI1" | VI2 => "VI2" | VI3 => "VI3" | VI4 => "VI4" end).

(** [#[derive(Debug)]] of a struct-like variant and of an array *)
Definition show_struct (name : string) (fields : text) : text := chars name ++ chars " { " ++ fields ++ chars " }".
Definition show_array (l : list Z) : text :=
  match l with
  | [] => chars "[]"
  | n :: l' => chars "[" ++ show_int n ++ flat_map (fun n => chars ", " ++ show_int n) l' ++ chars "]"
  end.

(** src/repeat.rs 332-364; the errors that are never returned (see M_Repeat.v) are left out *)
Definition show_rr_error (e : rr_error) : text :=
  let tick t := chars "tick: " ++ show_int t in
  let ticks l := chars "tick: " ++ show_array l in
  match e with
  | DuplicatedRepeatStart t => show_struct "DuplicatedRepeatStart" (tick t)
  | DuplicatedSegno a b => show_struct "DuplicatedSegno" (ticks [a; b])
  | DuplicatedDsDc a b => show_struct "DuplicatedDsDc" (ticks [a; b])
  | DuplicatedFine a b => show_struct "DuplicatedFine" (ticks [a; b])
  | OrphanRepeatEnd t => show_struct "OrphanRepeatEnd" (tick t)
  | NoRepeatEnd t => show_struct "NoRepeatEnd" (tick t)
  | InvalidRegionIndex t a x =>
      show_struct "InvalidRegionIndex" (tick t ++ chars ", actual: " ++ show_var_index a ++ chars ", expected: " ++ show_var_index x)
  | RepeatInVariation t => show_struct "RepeatInVariation" (tick t)
  | VariationNotClosed t => show_struct "VariationNotClosed" (tick t)
  | NoSegnoForDs t => show_struct "NoSegnoForDs" (chars "ds_tick: " ++ show_int t)
  | MoreThanTwoCodas a b c => show_struct "MoreThanTwoCodas" (ticks [a; b; c])
  | OnlyOneCoda t => show_struct "OnlyOneCoda" (tick t)
  | DcDsWhileRepeat t => show_struct "DcDsWhileRepeat" (tick t)
  | DcDsWhileVariation t => show_struct "DcDsWhileVariation" (tick t)
  | SegnoWhileVariation t => show_struct "SegnoWhildVariation" (tick t)
  | CodaAfterFine a b f =>
      show_struct "CodaAfterFine" (chars "coda_from: " ++ show_int a ++ chars ", coda_to: " ++ show_int b ++ chars ", fine: " ++ show_int f)
  end.

(** src/project.rs 29-35, 525-531: the only values of their types *)
Definition show_location_error : text := chars "Location overflow".
Definition show_project_cmd_error : text := chars "No Operation".
