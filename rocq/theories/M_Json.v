(** Model of the clipboard text (src/models.rs 119-149, src/exported_project.rs)
    and of the saved form of every element: what serde's derived code and
    serde_json (both external, see DESIGN.md, trusted base) do with the types of
    this crate. *)
From Coq Require Import ZArith List Bool Ascii String.
From Verif Require Import Base M_Pitch M_Duration M_Percent M_Scalar M_Bar M_Note M_Models M_Store M_Tuple M_Project M_Text.
Import ListNotations.
Open Scope Z_scope.
Open Scope list_scope.

(** the code points of an ASCII literal *)
Definition chars (s : string) : text := map (fun c => Z.of_N (N_of_ascii c)) (list_ascii_of_string s).

(** ** JSON values

    [JInt]: the numbers serde_json keeps as u64 or i64; [JFloat]: all others.  No
    type of this crate contains a float, so their value plays no role.  The
    members of an object are kept in order, with duplicates. *)
Inductive json :=
| JNull
| JBool (b : bool)
| JInt (z : Z)
| JFloat
| JStr (s : text)
| JArr (l : list json)
| JObj (l : list (text * json)).

(** ** Writing: serde_json's compact format.  Member names and variant names of
    this crate need no escapes; no float is ever written. *)
Fixpoint commas (l : list text) : text :=
  match l with
  | [] => []
  | [x] => x
  | x :: l' => x ++ 44 :: commas l'
  end.
Definition show_string (s : text) : text := 34 :: s ++ [34].
Fixpoint show_json (j : json) : text :=
  match j with
  | JNull => chars "null"
  | JBool true => chars "true"
  | JBool false => chars "false"
  | JInt z => show_int z
  | JFloat => []
  | JStr s => show_string s
  | JArr l => 91 :: commas (map show_json l) ++ [93]
  | JObj l => 123 :: commas (map (fun kv => show_string (fst kv) ++ 58 :: show_json (snd kv)) l) ++ [125]
  end.

(** ** Reading: serde_json's parser.  [None] is a syntax error. *)

Definition is_ws (c : Z) : bool := (c =? 32) || (c =? 10) || (c =? 9) || (c =? 13).
Definition skip_ws (s : text) : text := snd (span is_ws s).

Fixpoint strip (p s : text) : option text :=
  match p, s with
  | [], _ => Some s
  | c :: p', d :: s' => if c =? d then strip p' s' else None
  | _, [] => None
  end.
Definition parse_word (p : text) (v : json) (s : text) : option (json * text) :=
  match strip p s with Some r => Some (v, r) | None => None end.

(** the fraction: nothing, or a point and at least one digit *)
Definition parse_fraction (s : text) : option (text * text) :=
  match s with
  | c :: r =>
      if c =? 46 then
        let '(d, r') := span is_digit r in
        match d with [] => None | _ => Some (46 :: d, r') end
      else Some ([], s)
  | [] => Some ([], s)
  end.
(** the exponent: nothing, or [e], an optional sign and at least one digit *)
Definition parse_exp (s : text) : option (text * text) :=
  match s with
  | c :: r =>
      if (c =? 101) || (c =? 69) then
        let '(sg, r1) := match r with
                         | x :: r1 => if (x =? 43) || (x =? 45) then ([x], r1) else ([], r)
                         | [] => ([], r)
                         end in
        let '(d, r') := span is_digit r1 in
        match d with [] => None | _ => Some (c :: sg ++ d, r') end
      else Some ([], s)
  | [] => Some ([], s)
  end.

(** Largest magnitudes of u64 and (negative) i64 *)
Definition u64_max : Z := usize_max.

(** A number.  No leading zeros.  An integer that fits is kept as one, except
    [-0]; all else becomes an f64.  [ov] says which texts are beyond the range of
    f64, which is an error; it is left open. *)
Definition parse_number (ov : text -> bool) (s : text) : option (json * text) :=
  let '(sg, s1) := match s with c :: r => if c =? 45 then ([45], r) else ([], s) | [] => ([], s) end in
  let '(i, s2) := span is_digit s1 in
  if match i with [] => true | [_] => false | c :: _ => c =? 48 end then None
  else
    match parse_fraction s2 with
    | None => None
    | Some (f, s3) =>
        match parse_exp s3 with
        | None => None
        | Some (e, r) =>
            let v := digits_value i in
            let int := match f, e with [], [] => true | _, _ => false end in
            let float := if ov (sg ++ i ++ f ++ e) then None else Some (JFloat, r) in
            match sg with
            | [] => if int && (v <=? u64_max) then Some (JInt v, r) else float
            | _ => if int && (0 <? v) && (- v >=? i64_min) then Some (JInt (- v), r) else float
            end
        end
    end.

Definition hex_digit (c : Z) : option Z :=
  if is_digit c then Some (c - 48)
  else if (97 <=? c) && (c <=? 102) then Some (c - 87)
  else if (65 <=? c) && (c <=? 70) then Some (c - 55)
  else None.
Definition hex4 (a b c d : Z) : option Z :=
  match hex_digit a, hex_digit b, hex_digit c, hex_digit d with
  | Some a, Some b, Some c, Some d => Some (a * 4096 + b * 256 + c * 16 + d)
  | _, _, _, _ => None
  end.
(** the character after a backslash, except [u] *)
Definition simple_escape (c : Z) : option Z :=
  if c =? 34 then Some 34 else if c =? 92 then Some 92 else if c =? 47 then Some 47
  else if c =? 98 then Some 8 else if c =? 102 then Some 12 else if c =? 110 then Some 10
  else if c =? 114 then Some 13 else if c =? 116 then Some 9 else None.
Definition high_surrogate (n : Z) : bool := (55296 <=? n) && (n <=? 56319).
Definition low_surrogate (n : Z) : bool := (56320 <=? n) && (n <=? 57343).

Definition cons_char (c : Z) (o : option (text * text)) : option (text * text) :=
  match o with Some (t, r) => Some (c :: t, r) | None => None end.

(** The rest of a string after the opening quote.  Control characters must be
    escaped; surrogates must come in pairs. *)
Fixpoint parse_chars (s : text) : option (text * text) :=
  match s with
  | [] => None
  | c :: r =>
      if c =? 34 then Some ([], r)
      else if c =? 92 then
        match r with
        | [] => None
        | e :: r1 =>
            if e =? 117 then
              match r1 with
              | a :: b :: c :: d :: r2 =>
                  match hex4 a b c d with
                  | None => None
                  | Some n =>
                      if low_surrogate n then None
                      else if high_surrogate n then
                        match r2 with
                        | x :: y :: a' :: b' :: c' :: d' :: r3 =>
                            if (x =? 92) && (y =? 117) then
                              match hex4 a' b' c' d' with
                              | Some m =>
                                  if low_surrogate m
                                  then cons_char (65536 + (n - 55296) * 1024 + (m - 56320)) (parse_chars r3)
                                  else None
                              | None => None
                              end
                            else None
                        | _ => None
                        end
                      else cons_char n (parse_chars r2)
                  end
              | _ => None
              end
            else
              match simple_escape e with
              | Some x => cons_char x (parse_chars r1)
              | None => None
              end
        end
      else if c <? 32 then None
      else cons_char c (parse_chars r)
  end.

(** The elements of a non-empty array up to the closing bracket; [p] reads one
    value.  Each round takes at least one character: the length of the text is
    enough fuel. *)
Fixpoint parse_elements (p : text -> option (json * text)) (fuel : nat) (s : text) : option (list json * text) :=
  match fuel with
  | O => None
  | S f =>
      match p s with
      | None => None
      | Some (v, r) =>
          match skip_ws r with
          | c :: r' =>
              if c =? 44 then
                match parse_elements p f (skip_ws r') with
                | Some (l, r'') => Some (v :: l, r'')
                | None => None
                end
              else if c =? 93 then Some ([v], r')
              else None
          | [] => None
          end
      end
  end.

(** The members of a non-empty object up to the closing brace *)
Fixpoint parse_members (p : text -> option (json * text)) (fuel : nat) (s : text) : option (list (text * json) * text) :=
  match fuel with
  | O => None
  | S f =>
      match s with
      | q :: s1 =>
          if q =? 34 then
            match parse_chars s1 with
            | None => None
            | Some (k, s2) =>
                match skip_ws s2 with
                | co :: s3 =>
                    if co =? 58 then
                      match p (skip_ws s3) with
                      | None => None
                      | Some (v, r) =>
                          match skip_ws r with
                          | c :: r' =>
                              if c =? 44 then
                                match parse_members p f (skip_ws r') with
                                | Some (l, r'') => Some ((k, v) :: l, r'')
                                | None => None
                                end
                              else if c =? 125 then Some ([(k, v)], r')
                              else None
                          | [] => None
                          end
                      end
                    else None
                | [] => None
                end
            end
          else None
      | [] => None
      end
  end.

(** One value at the start of the text, and what follows it.  [d] is the number
    of further levels of arrays and objects allowed. *)
Fixpoint parse_value (ov : text -> bool) (d : nat) (s : text) : option (json * text) :=
  match s with
  | [] => None
  | c :: r =>
      if c =? 34 then
        match parse_chars r with Some (t, r') => Some (JStr t, r') | None => None end
      else if c =? 91 then
        match d with
        | O => None
        | S d' =>
            match skip_ws r with
            | c' :: r' =>
                if c' =? 93 then Some (JArr [], r')
                else match parse_elements (parse_value ov d') (List.length r) (c' :: r') with
                     | Some (l, r'') => Some (JArr l, r'')
                     | None => None
                     end
            | [] => None
            end
        end
      else if c =? 123 then
        match d with
        | O => None
        | S d' =>
            match skip_ws r with
            | c' :: r' =>
                if c' =? 125 then Some (JObj [], r')
                else match parse_members (parse_value ov d') (List.length r) (c' :: r') with
                     | Some (l, r'') => Some (JObj l, r'')
                     | None => None
                     end
            | [] => None
            end
        end
      else if (c =? 45) || is_digit c then parse_number ov s
      else if c =? 110 then parse_word (chars "ull") JNull r
      else if c =? 116 then parse_word (chars "rue") (JBool true) r
      else if c =? 102 then parse_word (chars "alse") (JBool false) r
      else None
  end.

(** serde_json allows 127 levels ([remaining_depth] starts at 128 and may not
    reach 0) *)
Definition max_levels : nat := 127.

(** [StreamDeserializer::next], the first value of a text: [None] if the text is
    blank, otherwise the value and the text after it or an error.  A value that
    does not show its own end must be followed by a delimiter. *)
Definition shows_end (c : Z) : bool := (c =? 91) || (c =? 34) || (c =? 123).
Definition delimiter (c : Z) : bool :=
  is_ws c || (c =? 34) || (c =? 91) || (c =? 93) || (c =? 123) || (c =? 125) || (c =? 44) || (c =? 58).
Definition first_value (ov : text -> bool) (s : text) : option (option (json * text)) :=
  match skip_ws s with
  | [] => None
  | c :: r =>
      Some match parse_value ov max_levels (c :: r) with
           | None => None
           | Some (v, rest) =>
               if shows_end c then Some (v, rest)
               else match rest with
                    | [] => Some (v, rest)
                    | d :: _ => if delimiter d then Some (v, rest) else None
                    end
           end
  end.

(** [serde_json::from_slice] up to the value: nothing but blanks may follow *)
Definition parse_document (ov : text -> bool) (s : text) : option json :=
  match parse_value ov max_levels (skip_ws s) with
  | Some (v, r) => match skip_ws r with [] => Some v | _ => None end
  | None => None
  end.

(** ** Reading and writing the types of this crate

    Serde's derived code.  [None] is an error.  Simplifications: the whole text
    is read as a JSON value first, then the types are read from it, so of an
    error and a panic in different places the one that is reported may differ;
    and members that no field is named after must be as correct as all others
    (serde_json skips them with fewer checks). *)
Definition reader (A : Type) := json -> outcome (option A).

Definition bind_opt {A B : Type} (o : outcome (option A)) (k : A -> outcome (option B)) : outcome (option B) :=
  let! x := o in match x with Some a => k a | None => Ret None end.
Notation "'let?' x ':=' e 'in' k" := (bind_opt e (fun x => k))
  (at level 200, x pattern, e at level 200, k at level 200, right associativity).

Definition read_int (lo hi : Z) : reader Z := fun j =>
  Ret (match j with JInt z => if in_range lo hi z then Some z else None | _ => None end).
Definition read_bool : reader bool := fun j => Ret (match j with JBool b => Some b | _ => None end).

(** an enum of unit variants: its name, or an object of its name and null *)
Fixpoint lookup {A : Type} (names : list (text * A)) (s : text) : option A :=
  match names with
  | [] => None
  | (n, a) :: names' => if text_eqb n s then Some a else lookup names' s
  end.
Definition read_enum {A : Type} (names : list (text * A)) : reader A := fun j =>
  Ret (match j with
       | JStr s => lookup names s
       | JObj [(s, JNull)] => lookup names s
       | _ => None
       end).

Fixpoint read_all {A : Type} (r : reader A) (l : list json) : outcome (option (list A)) :=
  match l with
  | [] => Ret (Some [])
  | j :: l' => let? a := r j in let? m := read_all r l' in Ret (Some (a :: m))
  end.
Definition read_vec {A : Type} (r : reader A) : reader (list A) := fun j =>
  match j with JArr l => read_all r l | _ => Ret None end.
Definition read_four {A : Type} (r : reader A) : reader (A * A * A * A) := fun j =>
  match j with
  | JArr [a; b; c; d] =>
      let? a := r a in let? b := r b in let? c := r c in let? d := r d in Ret (Some (a, b, c, d))
  | _ => Ret None
  end.
Definition read_option {A : Type} (r : reader A) : reader (option A) := fun j =>
  match j with JNull => Ret (Some None) | _ => let? a := r j in Ret (Some (Some a)) end.

(** The fields of a struct, from an object (a field may not occur twice; other
    members are skipped) or from an array of exactly that many elements. *)
Fixpoint field (n : text) (l : list (text * json)) : option (option json) :=
  match l with
  | [] => Some None
  | (k, v) :: l' =>
      if text_eqb k n then match field n l' with Some None => Some (Some v) | _ => None end
      else field n l'
  end.
Fixpoint fields (ns : list text) (l : list (text * json)) : option (list (option json)) :=
  match ns with
  | [] => Some []
  | n :: ns' =>
      match field n l, fields ns' l with
      | Some o, Some os => Some (o :: os)
      | _, _ => None
      end
  end.
Definition struct (ns : list text) (j : json) : option (list (option json)) :=
  match j with
  | JObj l => fields ns l
  | JArr l => if Nat.eqb (List.length l) (List.length ns) then Some (map Some l) else None
  | _ => None
  end.
(** a field; one of type [Option] may be missing *)
Definition required {A : Type} (r : reader A) (o : option json) : outcome (option A) :=
  match o with Some j => r j | None => Ret None end.
Definition optional {A : Type} (r : reader A) (o : option json) : outcome (option (option A)) :=
  match o with Some j => read_option r j | None => Ret (Some None) end.

Definition write_option {A : Type} (w : A -> json) (o : option A) : json :=
  match o with Some a => w a | None => JNull end.
Definition write_enum (n : text) : json := JStr n.

(** src/solfa.rs 3-7 *)
Definition solfa_name (s : solfa) : text :=
  chars (match s with SC => "C" | SD => "D" | SE => "E" | SF => "F" | SG => "G" | SA => "A" | SB => "B" end).
Definition solfa_names : list (text * solfa) := map (fun s => (solfa_name s, s)) solfa_all.
(** src/octave.rs 19-23 *)
Definition octave_name (o : octave) : text :=
  chars (match o with
         | OM2 => "OctM2" | OM1 => "OctM1" | O0 => "Oct0" | O1 => "Oct1" | O2 => "Oct2" | O3 => "Oct3"
         | O4 => "Oct4" | O5 => "Oct5" | O6 => "Oct6" | O7 => "Oct7" | O8 => "Oct8"
         end).
Definition octave_names : list (text * octave) := map (fun o => (octave_name o, o)) octave_all.
(** src/sharp_flat.rs 1-10 *)
Definition sharp_flat_name (a : sharp_flat) : text :=
  chars (match a with
         | Sharp => "Sharp" | DoubleSharp => "DoubleSharp" | Flat => "Flat" | DoubleFlat => "DoubleFlat"
         | Natural => "Natural" | NoAccidental => "Null"
         end).
Definition sharp_flat_names : list (text * sharp_flat) :=
  map (fun a => (sharp_flat_name a, a)) [Sharp; DoubleSharp; Flat; DoubleFlat; Natural; NoAccidental].

(** src/pitch.rs 31-63 *)
Definition pitch_fields : list text := [chars "solfa"; chars "octave"; chars "sharp_flat"].
Definition write_pitch (p : pitch) : json :=
  JObj (combine pitch_fields
    [JStr (solfa_name (p_solfa p)); JStr (octave_name (p_octave p)); JStr (sharp_flat_name (p_sharp_flat p))]).
Definition read_pitch : reader pitch := fun j =>
  match struct pitch_fields j with
  | Some [s; o; a] =>
      let? s := required (read_enum solfa_names) s in
      let? o := required (read_enum octave_names) o in
      let? a := required (read_enum sharp_flat_names) a in
      let! p := pitch_new s o a in Ret (Some p)
  | _ => Ret None
  end.

(** src/duration.rs 3-14 *)
Definition numerator_name (n : numerator) : text :=
  chars (match n with
         | Whole => "Whole" | Half => "Half" | Quarter => "Quarter" | N8th => "N8th" | N16th => "N16th"
         | N32nd => "N32nd" | N64th => "N64th" | N128th => "N128th"
         end).
Definition numerator_names : list (text * numerator) :=
  map (fun n => (numerator_name n, n)) [Whole; Half; Quarter; N8th; N16th; N32nd; N64th; N128th].

(** src/duration.rs 132-138, 51-69, 91-93 *)
Definition duration_fields : list text := [chars "numerator"; chars "denominator"; chars "dots"].
Definition write_duration (d : duration) : json :=
  JObj (combine duration_fields [JStr (numerator_name (d_num d)); JInt (d_den d); JInt (d_dots d)]).
Definition read_duration : reader duration := fun j =>
  match struct duration_fields j with
  | Some [n; d; k] =>
      let? n := required (read_enum numerator_names) n in
      let? d := required (read_int 0 u8_max) d in
      let? k := required (read_int 0 u8_max) k in
      Ret (Some (mkDur n (denominator_deser d) k))
  | _ => Ret None
  end.

(** src/trimmer.rs 8-32 *)
Definition values_field : list text := [chars "values"].
Definition write_trimmer (t : trimmer) : json :=
  JObj (combine values_field [JArr [JInt (t_v0 t); JInt (t_v1 t); JInt (t_v2 t); JInt (t_v3 t)]]).
Definition read_trimmer : reader trimmer := fun j =>
  match struct values_field j with
  | Some [v] =>
      let? (a, b, c, d) := required (read_four (read_int i16_min i16_max)) v in
      let! t := trimmer_from_array a b c d in Ret (Some t)
  | _ => Ret None
  end.

(** src/percent.rs 4-8 *)
Definition value_field : list text := [chars "value"].
Definition write_percent (p : percent) : json := JObj (combine value_field [JInt p]).
Definition read_percent_value : reader percent := fun j =>
  match struct value_field j with Some [v] => required (read_int 0 u16_max) v | _ => Ret None end.

(** src/trimmer.rs 121-145 *)
Definition write_rate (r : rate_trimmer) : json :=
  JObj (combine values_field
    [JArr [write_percent (r_v0 r); write_percent (r_v1 r); write_percent (r_v2 r); write_percent (r_v3 r)]]).
Definition read_rate : reader rate_trimmer := fun j =>
  match struct values_field j with
  | Some [v] =>
      let? (a, b, c, d) := required (read_four read_percent_value) v in
      Ret (Some (rate_from_array a b c d))
  | _ => Ret None
  end.

(** src/velocity.rs 1-25, src/channel.rs 1-3 *)
Definition read_velocity_value : reader Z := fun j => let? v := read_int 0 u8_max j in Ret (Some (velocity_new v)).
Definition read_channel : reader Z := read_int 0 u8_max.

(** src/note.rs 29-43 *)
Definition note_fields : list text :=
  [chars "base_start_tick"; chars "pitch"; chars "duration"; chars "tie"; chars "tied"; chars "base_velocity";
   chars "start_tick_trimmer"; chars "duration_trimmer"; chars "velocity_trimmer"; chars "channel"].
Definition write_note (n : note) : json :=
  JObj (combine note_fields
    [JInt (n_base_tick n); write_pitch (n_pitch n); write_duration (n_duration n); JBool (n_tie n); JBool (n_tied n);
     JInt (n_base_velocity n); write_trimmer (n_tick_trimmer n); write_rate (n_duration_trimmer n);
     write_trimmer (n_velocity_trimmer n); JInt (n_channel n)]).
Definition read_note : reader note := fun j =>
  match struct note_fields j with
  | Some [t; p; d; tie; tied; v; trt; dt; vt; c] =>
      let? t := required (read_int 0 u32_max) t in
      let? p := required read_pitch p in
      let? d := required read_duration d in
      let? tie := required read_bool tie in
      let? tied := required read_bool tied in
      let? v := required read_velocity_value v in
      let? trt := required read_trimmer trt in
      let? dt := required read_rate dt in
      let? vt := required read_trimmer vt in
      let? c := required read_channel c in
      Ret (Some (mkNote t p d tie tied v trt dt vt c))
  | _ => Ret None
  end.

(** src/rhythm.rs 8-10, 49-53, 100-105 *)
Definition rhythm_den_name (d : rhythm_den) : text :=
  chars (match d with D2 => "D2" | D4 => "D4" | D8 => "D8" | D16 => "D16" | D32 => "D32" | D64 => "D64" end).
Definition rhythm_den_names : list (text * rhythm_den) :=
  map (fun d => (rhythm_den_name d, d)) [D2; D4; D8; D16; D32; D64].
Definition rhythm_fields : list text := [chars "numerator"; chars "denominator"].
Definition write_rhythm (r : rhythm) : json :=
  JObj (combine rhythm_fields [JInt (rh_num r); JStr (rhythm_den_name (rh_den r))]).
Definition read_rhythm : reader rhythm := fun j =>
  match struct rhythm_fields j with
  | Some [n; d] =>
      let? n := required (read_int 0 u8_max) n in
      let? d := required (read_enum rhythm_den_names) d in
      Ret (Some (mkRhythm n d))
  | _ => Ret None
  end.

(** src/key.rs 7-9 *)
Definition read_key : reader key := read_int (-128) 127.

(** src/bar.rs 98-102: enumset writes the set as an integer (a u16 for eleven
    variants) and drops unknown bits when reading *)
Definition write_marks (s : mark_set) : json := JObj (combine value_field [JInt s]).
Definition read_marks : reader mark_set := fun j =>
  match struct value_field j with
  | Some [v] => let? v := required (read_int 0 u16_max) v in Ret (Some (Z.land v (ms_of all_marks)))
  | _ => Ret None
  end.

(** src/bar.rs 223-230 *)
Definition bar_fields : list text := [chars "start_tick"; chars "rhythm"; chars "key"; chars "repeats"].
Definition write_bar (b : bar) : json :=
  JObj (combine bar_fields
    [JInt (b_tick b); write_option write_rhythm (b_rhythm b); write_option JInt (b_key b); write_marks (b_marks b)]).
Definition read_bar : reader bar := fun j =>
  match struct bar_fields j with
  | Some [t; r; k; m] =>
      let? t := required (read_int 0 u32_max) t in
      let? r := optional read_rhythm r in
      let? k := optional read_key k in
      let? m := required read_marks m in
      Ret (Some (mkBar t r k m))
  | _ => Ret None
  end.

(** src/tempo.rs 9-29, 76-81 *)
Definition tempo_fields : list text := [chars "start_tick"; chars "value"].
Definition write_tempo (t : tempo) : json := JObj (combine tempo_fields [JInt (tp_tick t); JInt (tp_value t)]).
Definition read_tempo_elem : reader tempo := fun j =>
  match struct tempo_fields j with
  | Some [t; v] =>
      let? t := required (read_int 0 u32_max) t in
      let? v := required (read_int 0 u16_max) v in
      Ret (Some (mkTempo t (tempo_value_deser v)))
  | _ => Ret None
  end.

(** src/ctrl_chg.rs 4-10 *)
Definition ctrl_fields : list text := [chars "start_tick"; chars "velocity"; chars "channel"].
Definition write_ctrl (c : ctrl_chg) : json :=
  JObj (combine ctrl_fields [JInt (cc_tick c); JInt (cc_velocity c); JInt (cc_channel c)]).
Definition read_ctrl : reader ctrl_chg := fun j =>
  match struct ctrl_fields j with
  | Some [t; v; c] =>
      let? t := required (read_int 0 u32_max) t in
      let? v := required read_velocity_value v in
      let? c := required read_channel c in
      Ret (Some (mkCtrl t v c))
  | _ => Ret None
  end.

(** src/models.rs 7-14 *)
Definition models_fields : list text :=
  [chars "notes"; chars "bars"; chars "tempos"; chars "dumpers"; chars "softs"].
Definition models_values (m : models) : list json :=
  [JArr (map write_note (m_notes m)); JArr (map write_bar (m_bars m)); JArr (map write_tempo (m_tempos m));
   JArr (map write_ctrl (m_dumpers m)); JArr (map write_ctrl (m_softs m))].
Definition write_models (m : models) : json := JObj (combine models_fields (models_values m)).
Definition read_models_fields (n b t d s : option json) : outcome (option models) :=
  let? n := required (read_vec read_note) n in
  let? b := required (read_vec read_bar) b in
  let? t := required (read_vec read_tempo_elem) t in
  let? d := required (read_vec read_ctrl) d in
  let? s := required (read_vec read_ctrl) s in
  Ret (Some (mkModels n b t d s)).
Definition read_models : reader models := fun j =>
  match struct models_fields j with
  | Some [n; b; t; d; s] => read_models_fields n b t d s
  | _ => Ret None
  end.

(** src/exported_project.rs 5-14 *)
Record exported_score := mkScore { es_key : option key; es_rhythm : option rhythm; es_models : models }.
Definition score_fields : list text := chars "key" :: chars "rhythm" :: models_fields.
Definition write_score (e : exported_score) : json :=
  JObj (combine score_fields
    (write_option JInt (es_key e) :: write_option write_rhythm (es_rhythm e) :: models_values (es_models e))).
Definition read_score : reader exported_score := fun j =>
  match struct score_fields j with
  | Some [k; r; n; b; t; d; s] =>
      let? k := optional read_key k in
      let? r := optional read_rhythm r in
      let? m := read_models_fields n b t d s in
      Ret (Some (mkScore k r m))
  | _ => Ret None
  end.
(** src/exported_project.rs 39-47 *)
Definition score_to_models (e : exported_score) : models := es_models e.

(** src/project.rs 69-70, 82-88: the saved project; src/grid.rs 7-11 *)
Definition write_grid (g : grid) : json := JObj (combine value_field [JInt g]).
Definition read_grid : reader grid := fun j =>
  match struct value_field j with Some [v] => required (read_int 0 u32_max) v | _ => Ret None end.
Definition exported_fields : list text := [chars "rhythm"; chars "key"; chars "grid"; chars "models"].
Definition write_project (p : project) : json :=
  let e := export p in
  JObj (combine exported_fields
    [write_rhythm (ex_rhythm e); JInt (ex_key e); write_grid (ex_grid e); write_models (ex_models e)]).
Definition read_exported : reader exported := fun j =>
  match struct exported_fields j with
  | Some [r; k; g; m] =>
      let? r := required read_rhythm r in
      let? k := required read_key k in
      let? g := required read_grid g in
      let? m := required read_models m in
      Ret (Some (mkExported r k g m))
  | _ => Ret None
  end.
Definition read_project : reader project := fun j => let? e := read_exported j in Ret (Some (import e)).

(** ** The clipboard *)

(** src/models.rs 17-22; the message of the parser is left out *)
Inductive clipboard_error :=
| VersionErr (detected : Z)
| CannotParse (json : text)
| EmptyString
| VersionNotU64 (json : text).

(** src/models.rs 25 *)
Definition clipboard_version : Z := 1.

(** src/models.rs 119-126 *)
Definition to_clipboard_text (m : models) : text := chars "1" ++ show_json (write_models m).

(** src/models.rs 128-149 and src/exported_project.rs 17-37, which differ in the
    type that is read *)
Definition from_clipboard {A : Type} (ov : text -> bool) (r : reader A) (t : text) : outcome (result A clipboard_error) :=
  match first_value ov t with
  | None => Ret (Err EmptyString)
  | Some None => Ret (Err (CannotParse t))
  | Some (Some (JInt v, rest)) =>
      if 0 <=? v then
        if v =? clipboard_version then
          match parse_document ov rest with
          | None => Ret (Err (CannotParse t))
          | Some j => let! o := r j in Ret (match o with Some a => Ok a | None => Err (CannotParse t) end)
          end
        else Ret (Err (VersionErr v))
      else Ret (Err (VersionNotU64 t))
  | Some (Some (_, rest)) => Ret (Err (VersionNotU64 t))
  end.
Definition from_clipboard_text (ov : text -> bool) (t : text) := from_clipboard ov read_models t.
Definition score_from_clipboard_text (ov : text -> bool) (t : text) := from_clipboard ov read_score t.
