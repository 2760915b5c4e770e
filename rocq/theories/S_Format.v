(** Specification of the text that copying and saving give (C58): templates in
    which an apostrophe stands for a quotation mark and each # for the next of
    the texts given. *)
From Coq Require Import ZArith List Bool Ascii String.
From Verif Require Import Base M_Pitch M_Duration M_Percent M_Scalar M_Bar M_Note M_Models M_Store M_Tuple M_Project M_Text M_Json S_Text S_Json.
Import ListNotations.
Open Scope Z_scope.
Open Scope list_scope.

Fixpoint fill (t : string) (args : list text) : text :=
  match t with
  | ""%string => []
  | String c t' =>
      if Ascii.eqb c "#" then match args with a :: args' => a ++ fill t' args' | [] => fill t' [] end
      else if Ascii.eqb c "'" then 34 :: fill t' args
      else Z.of_N (N_of_ascii c) :: fill t' args
  end.
Definition words (t : string) : text := fill t [].

(** decimal numbers, without leading zeros *)
Definition decimal (z : Z) (s : text) : Prop :=
  natural s z \/ (z < 0 /\ exists r, s = 45 :: r /\ natural r (- z)).
(** the decimal number of [z] *)
Definition num (z : Z) : text := show_int z.
Definition yes_no (b : bool) : text := words (if b then "true" else "false").
Fixpoint join (l : list text) : text :=
  match l with [] => [] | [x] => x | x :: l' => x ++ words "," ++ join l' end.
Definition or_null {A : Type} (f : A -> text) (o : option A) : text :=
  match o with Some a => f a | None => words "null" end.

Definition letter (s : solfa) : text :=
  words (match s with SC => "C" | SD => "D" | SE => "E" | SF => "F" | SG => "G" | SA => "A" | SB => "B" end).
Definition octave_word (o : octave) : text :=
  words (match o with
         | OM2 => "OctM2" | OM1 => "OctM1" | O0 => "Oct0" | O1 => "Oct1" | O2 => "Oct2" | O3 => "Oct3"
         | O4 => "Oct4" | O5 => "Oct5" | O6 => "Oct6" | O7 => "Oct7" | O8 => "Oct8"
         end).
Definition accidental_word (a : sharp_flat) : text :=
  words (match a with
         | Sharp => "Sharp" | DoubleSharp => "DoubleSharp" | Flat => "Flat" | DoubleFlat => "DoubleFlat"
         | Natural => "Natural" | NoAccidental => "Null"
         end).
Definition value_word (n : numerator) : text :=
  words (match n with
         | Whole => "Whole" | Half => "Half" | Quarter => "Quarter" | N8th => "N8th" | N16th => "N16th"
         | N32nd => "N32nd" | N64th => "N64th" | N128th => "N128th"
         end).
Definition beat_word (d : rhythm_den) : text :=
  words (match d with D2 => "D2" | D4 => "D4" | D8 => "D8" | D16 => "D16" | D32 => "D32" | D64 => "D64" end).

Definition pitch_format (p : pitch) : text :=
  fill "{'solfa':'#','octave':'#','sharp_flat':'#'}" [letter (p_solfa p); octave_word (p_octave p); accidental_word (p_sharp_flat p)].
Definition duration_format (d : duration) : text :=
  fill "{'numerator':'#','denominator':#,'dots':#}" [value_word (d_num d); num (d_den d); num (d_dots d)].
Definition trimmer_format (t : trimmer) : text :=
  fill "{'values':[#,#,#,#]}" [num (t_v0 t); num (t_v1 t); num (t_v2 t); num (t_v3 t)].
Definition rate_format (r : rate_trimmer) : text :=
  fill "{'values':[{'value':#},{'value':#},{'value':#},{'value':#}]}" [num (r_v0 r); num (r_v1 r); num (r_v2 r); num (r_v3 r)].
Definition note_format (n : note) : text :=
  fill "{'base_start_tick':#,'pitch':#,'duration':#,'tie':#,'tied':#,'base_velocity':#,'start_tick_trimmer':#,'duration_trimmer':#,'velocity_trimmer':#,'channel':#}"
    [num (n_base_tick n); pitch_format (n_pitch n); duration_format (n_duration n); yes_no (n_tie n); yes_no (n_tied n);
     num (n_base_velocity n); trimmer_format (n_tick_trimmer n); rate_format (n_duration_trimmer n);
     trimmer_format (n_velocity_trimmer n); num (n_channel n)].
Definition rhythm_format (r : rhythm) : text :=
  fill "{'numerator':#,'denominator':'#'}" [num (rh_num r); beat_word (rh_den r)].
(** the marks of a bar: each has its weight *)
Definition weights : list (mark * Z) :=
  [(Start, 1); (End, 2); (Dc, 4); (Fine, 8); (Ds, 16); (Segno, 32); (Coda, 64); (Var1, 128); (Var2, 256); (Var3, 512); (Var4, 1024)].
Definition weight (b : bar) : Z :=
  fold_right (fun '(m, w) n => if ms_contains (b_marks b) m then w + n else n) 0 weights.
Definition bar_format (b : bar) : text :=
  fill "{'start_tick':#,'rhythm':#,'key':#,'repeats':{'value':#}}"
    [num (b_tick b); or_null rhythm_format (b_rhythm b); or_null num (b_key b); num (weight b)].
Definition tempo_format (t : tempo) : text := fill "{'start_tick':#,'value':#}" [num (tp_tick t); num (tp_value t)].
Definition ctrl_format (c : ctrl_chg) : text :=
  fill "{'start_tick':#,'velocity':#,'channel':#}" [num (cc_tick c); num (cc_velocity c); num (cc_channel c)].
Definition models_format (m : models) : text :=
  fill "{'notes':[#],'bars':[#],'tempos':[#],'dumpers':[#],'softs':[#]}"
    [join (map note_format (m_notes m)); join (map bar_format (m_bars m)); join (map tempo_format (m_tempos m));
     join (map ctrl_format (m_dumpers m)); join (map ctrl_format (m_softs m))].
Definition clipboard_format (m : models) : text := words "1" ++ models_format m.
Definition project_format (rhythm : rhythm) (key grid : Z) (m : models) : text :=
  fill "{'rhythm':#,'key':#,'grid':{'value':#},'models':#}" [rhythm_format rhythm; num key; num grid; models_format m].
