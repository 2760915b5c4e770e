(** The repository's own unit tests of the single values, replayed on the model (see
    X_Repeat for what these are for).  [should_panic] tests are replayed as [Panic]. *)
From Coq Require Import ZArith List Bool String.
From Flocq Require Import IEEE754.BinarySingleNaN.
From Verif Require Import Base M_Pitch M_Duration M_Percent M_Scalar M_Bar M_Note M_New M_Store M_Tuple M_Project M_Undo M_Text M_Models M_Json.
Import ListNotations.
Open Scope Z_scope.

Ltac run := vm_compute; reflexivity.
Ltac runs := repeat match goal with |- _ /\ _ => split end; run.
Definition unwrapped {X E} (o : outcome (result X E)) : outcome X :=
  match o with Ret (Ok x) => Ret x | Ret (Err _) => Panic | Panic => Panic | Hang => Hang end.
Definition ok {X E} (r : result X E) : outcome X := match r with Ok x => Ret x | Err _ => Panic end.

(** ** src/pitch.rs *)
Notation P := pitch_new.
Definition lowest_pitch := P SC OM2 NoAccidental.
Definition highest_pitch := P SG O8 NoAccidental.
Definition offset_of (o : outcome pitch) : outcome Z := let! p := o in Ret (p_score_offset p).
Definition value_of (o : outcome pitch) : outcome Z := let! p := o in Ret (p_value p).
(** src/pitch.rs, [too_low], [too_high] *)
Example too_low : (let! o := unwrapped (octave_value_of (-2)) in P SC o Flat) = Panic. Proof. run. Qed.
Example too_high : P SG O8 Sharp = Panic. Proof. run. Qed.
(** [lowest], [f7], [highest], [lowest_score_offset], [score_offset] *)
Example lowest : value_of lowest_pitch = Ret 0 /\ offset_of lowest_pitch = Ret min_score_offset.
Proof. runs. Qed.
Example f7 : value_of (P SF O7 NoAccidental) = Ret 113. Proof. run. Qed.
Example highest : value_of highest_pitch = Ret 127 /\ offset_of highest_pitch = Ret max_score_offset.
Proof. runs. Qed.
Example score_offset :
  map offset_of [P SC OM2 NoAccidental; P SD OM2 NoAccidental; P SB OM2 NoAccidental; P SC OM1 NoAccidental]
  = map Ret [0; 1; 6; 7].
Proof. run. Qed.
Definition up (o : outcome pitch) := let! p := o in unwrapped (pitch_up p).
Definition down (o : outcome pitch) := let! p := o in unwrapped (pitch_down p).
Definition moved (d : Z) (o : outcome pitch) := let! p := o in unwrapped (pitch_with_score_offset_delta p d).
(** [up_err], [up], [down], [down_err] *)
Example up_tests : up highest_pitch = Panic /\ up (P SF O8 NoAccidental) = P SG O8 NoAccidental /\
  up (P SB O7 NoAccidental) = P SC O8 NoAccidental.
Proof. runs. Qed.
Example down_tests : down lowest_pitch = Panic /\ down (P SC O8 NoAccidental) = P SB O7 NoAccidental /\
  down (P SD O7 NoAccidental) = P SC O7 NoAccidental.
Proof. runs. Qed.
(** [from_score_offset] *)
Example from_score_offset_tests :
  map pitch_from_score_offset [min_score_offset - 1; max_score_offset + 1; min_score_offset; max_score_offset]
  = [lowest_pitch; highest_pitch; lowest_pitch; highest_pitch].
Proof. run. Qed.
(** [with_score_offset_delta], […_min_error], […_max_error] *)
Example delta_tests :
  moved 1 (P SC O8 Flat) = P SD O8 Flat /\ moved 8 (P SC O7 Sharp) = P SD O8 Sharp /\
  moved (-8) (P SC O7 Sharp) = P SB O5 Sharp /\ moved (-1) lowest_pitch = Panic /\ moved 1 highest_pitch = Panic.
Proof. runs. Qed.
(** [apply] *)
Definition keyed (k : key) (o : outcome pitch) := let! p := o in ok (pitch_apply_key p k).
Example apply_tests :
  keyed 1 (P SF O1 NoAccidental) = P SF O1 Sharp /\ keyed 1 (P SF O1 Flat) = P SF O1 Flat /\
  keyed (-2) (P SE O1 NoAccidental) = P SE O1 Flat /\ keyed (-2) (P SE O1 Sharp) = P SE O1 Sharp /\
  keyed (-2) (P SF O1 NoAccidental) = P SF O1 NoAccidental.
Proof. runs. Qed.

(** ** JSON: [serde_json::Value]s are equal regardless of the order of members *)
Definition members (j : json) : list (text * json) := match j with JObj l => l | _ => [] end.
Definition same_members (a b : json) : bool :=
  Nat.eqb (List.length (members a)) (List.length (members b)) &&
  forallb (fun x => existsb (fun y => text_eqb (fst x) (fst y) && text_eqb (show_json (snd x)) (show_json (snd y)))
                            (members b)) (members a).
Definition doc (s : string) : option json := parse_document (fun _ => false) (chars s).
Definition obj (l : list (string * json)) : json := JObj (map (fun x => (chars (fst x), snd x)) l).
Definition str (s : string) : json := JStr (chars s).
Definition of_doc {X} (r : reader X) (s : string) : outcome (option X) :=
  match doc s with Some j => r j | None => Ret None end.
(** src/pitch.rs, [can_serialize_pitch], [can_deserialize_pitch] *)
Example serialize_pitch :
  (let! p := P SC O2 DoubleFlat in
   Ret (same_members (write_pitch p) (obj [("octave", str "Oct2"); ("sharp_flat", str "DoubleFlat"); ("solfa", str "C")]%string)))
  = Ret true.
Proof. run. Qed.
Example deserialize_pitch :
  of_doc read_pitch " {  'octave': 'Oct2',  'sharp_flat': 'DoubleFlat', 'solfa': 'C' }" = Ret None /\
  of_doc read_pitch " {
                ""octave"": ""Oct2"",
                ""sharp_flat"": ""DoubleFlat"",
                ""solfa"": ""C""
            }" = (let! p := P SC O2 DoubleFlat in Ret (Some p)).
Proof. runs. Qed.

(** ** src/key.rs: [can_match], [can_serialize_to_json], [can_deserialize_from_json] *)
Example key_tests : of_doc read_key "-2" = Ret (Some (-2)) /\ show_json (JInt (-2)) = chars "-2".
Proof. runs. Qed.

(** ** src/octave.rs *)
Definition oct (v : Z) : outcome octave := unwrapped (octave_value_of v).
(** [value_too_small], [value_too_big], [can_read_value], [can_read_score_offset],
    [can_read_offset] *)
Example octave_values :
  oct (-3) = Panic /\ oct 10 = Panic /\ (let! o := oct 1 in Ret (octave_value o)) = Ret 1 /\
  (let! o := oct 1 in Ret (octave_offset o)) = Ret 3 /\ (let! o := oct (-1) in Ret (octave_offset o)) = Ret 1.
Proof. runs. Qed.
(** [can_add], [add_assign], [add_assign_error], [sub_assign], [sub_assign_error] *)
Example octave_sums :
  (let! a := oct 1 in let! b := oct 2 in octave_plus a b) = oct 3 /\
  octave_add O0 1 = Ret O1 /\ octave_add O1 2 = Ret O3 /\ octave_add O8 1 = Panic /\
  octave_sub O1 1 = Ret O0 /\ octave_sub O0 2 = Ret OM2 /\ octave_sub O0 3 = Panic.
Proof. runs. Qed.

(** ** src/solfa.rs: [score_offset_is_valid], [pitch_offset_is_valid],
    [from_score_offset], [all], [add_assign], [add_assign_error], [sub_assign],
    [sub_assign_error] *)
Example solfa_tests :
  map solfa_score_offset [SC; SD; SE; SF; SG; SA; SB] = [0; 1; 2; 3; 4; 5; 6] /\
  map solfa_pitch_offset [SC; SD; SE; SF; SG; SA; SB] = [0; 2; 4; 5; 7; 9; 11] /\
  map solfa_from_score_offset [-1; 0; 1; 2; 3; 4; 5; 6; 7] = map Ret [SC; SC; SD; SE; SF; SG; SA; SB; SB] /\
  solfa_all = [SC; SD; SE; SF; SG; SA; SB] /\
  solfa_add SC 1 = Ret SD /\ solfa_add SD 2 = Ret SF /\ solfa_add SB 1 = Panic /\
  solfa_sub SB 1 = Ret SA /\ solfa_sub SA 2 = Ret SF /\ solfa_sub SC 1 = Panic.
Proof. runs. Qed.

(** ** src/sharp_flat.rs: [offset_is_valid] *)
Example accidentals :
  map sharp_flat_offset [Sharp; DoubleSharp; Flat; DoubleFlat; Natural; NoAccidental] = [1; 2; -1; -2; 0; 0].
Proof. run. Qed.

(** ** src/percent.rs *)
Definition flt (s : string) : f32 := match parse_f32 (chars s) with Some x => x | None => B754_nan end.
(** [==] of f32 *)
Notation "x =.= y" := (Beqb x y = true) (at level 70).
Definition same_floats (a b : list f32) : bool :=
  Nat.eqb (List.length a) (List.length b) && forallb (fun x => Beqb (fst x) (snd x)) (combine a b).
Definition pct (s : string) : percent := percent_of_f32 (flt s).
(** [too_high], [too_low], [to_f32], [apply], [from_f32] *)
Example percent_tests :
  percent_max = pct "201.0" /\ pct "-0.1" = pct "0.0" /\ percent_to_f32 (pct "1.5") =.= flt "1.5" /\
  percent_apply (pct "0.5") 60 = Ret 30 /\ percent_of_f32 B754_nan = 0 /\ pct "2.0" = percent_max /\
  pct "100.0" = percent_max /\ pct "0." = 0 /\ pct "-100." = 0.
Proof. runs. Qed.

(** ** src/trimmer.rs *)
Definition slots (t : trimmer) := (t_v0 t, t_v1 t, t_v2 t, t_v3 t).
Definition v0 := trimmer_new 0 1 2 3.
(** [sum], [eq], [updated], [added] *)
Example trimmer_tests :
  slots v0 = (0, 1, 2, 3) /\ t_sum v0 = 6 /\ trimmer_eqb v0 (trimmer_new 0 1 2 3) = true /\
  trimmer_eqb v0 (trimmer_new 1 0 2 3) = false /\
  (let! t := trimmer_updated v0 (fun '(a, _, c, d) => (a, 10, c, d)) in Ret (slots t)) = Ret (0, 10, 2, 3).
Proof. runs. Qed.
Example trimmer_added_tests :
  map (trimmer_added v0) [100; i16_max + 1; i16_max * 2; i16_max * 3; i16_max * 4 - 6; i16_max * 4 - 5] =
  map Ret [trimmer_new 100 1 2 3; trimmer_new i16_max 2 2 3; trimmer_new i16_max i16_max 3 3;
           trimmer_new i16_max i16_max i16_max 6; trimmer_new i16_max i16_max i16_max i16_max;
           trimmer_new i16_max i16_max i16_max i16_max].
Proof. run. Qed.
Definition rates (a b c d : string) : rate_trimmer := rate_new (flt a) (flt b) (flt c) (flt d).
Definition rate_slots (r : rate_trimmer) := map percent_to_f32 [r_v0 r; r_v1 r; r_v2 r; r_v3 r].
(** [rate_sum]: the product is 1.485, and the test allows a difference of 0.01 *)
Example rate_sum_test :
  same_floats (rate_slots (rates "0.9" "1.5" "1.1" "1.0")) (map flt ["0.9"; "1.5"; "1.1"; "1.0"]%string) = true /\
  Z.abs (1000 * r_sum (rates "0.9" "1.5" "1.1" "1.0") - 1485000) < 10000.
Proof. runs. Qed.
(** [rate_eq], [rate] *)
Example rate_tests :
  rate_eqb (rates "0.0" "1.0" "2.0" "3.0") (rates "0.0" "1.0" "2.0" "3.0") = true /\
  rate_eqb (rates "0.0" "1.0" "2.0" "3.0") (rates "1.0" "0.0" "2.0" "3.0") = false /\
  percent_to_f32 (r_sum (rates "0.5" "1.0" "2.0" "3.0")) =.= flt "2.0" /\
  rate_apply (rates "0.5" "1.0" "2.0" "3.0") 100 = Ret 200 /\
  percent_to_f32 (r_sum (rates "0.5" "1.0" "1.5" "2.0")) =.= flt "1.5" /\
  rate_apply (rates "0.5" "1.0" "1.5" "2.0") 100 = Ret 150 /\
  r_sum (rate_from_array percent_hundred percent_hundred percent_hundred percent_hundred) = percent_hundred.
Proof. runs. Qed.

(** ** src/tempo.rs, src/ctrl_chg.rs, src/bar.rs, src/rhythm.rs: the JSON of single elements *)
(** [can_deserialize_tempo], [can_serialize_tempo] *)
Example tempo_json :
  of_doc read_tempo_elem " { ""start_tick"": 123, ""value"": 234 }" = Ret (Some (mkTempo 123 234)) /\
  same_members (write_tempo (mkTempo 123 234)) (obj [("start_tick", JInt 123); ("value", JInt 234)]%string) = true.
Proof. runs. Qed.
(** [can_deserialize_ctrl_chg], [can_serialize_ctrl_chg] *)
Example ctrl_json :
  of_doc read_ctrl " { ""start_tick"": 123, ""velocity"": 64, ""channel"": 0 }" = Ret (Some (mkCtrl 123 64 0)) /\
  same_members (write_ctrl (mkCtrl 123 64 1)) (obj [("start_tick", JInt 123); ("velocity", JInt 64); ("channel", JInt 1)]%string) = true.
Proof. runs. Qed.
(** src/bar.rs, [can_serialize_dc_fine], [can_deserialize_dc_fine],
    [can_serialize_end_or_region], [can_deserialize_end_or_region],
    [can_serialize_repeat_start], [can_deserialize_repeat_start] *)
Definition marks_json (l : list mark) : outcome text := let! s := repeat_set l in Ret (show_json (write_marks s)).
Example marks_json_tests :
  marks_json [Dc] = Ret (chars "{""value"":4}") /\ marks_json [Var1] = Ret (chars "{""value"":128}") /\
  marks_json [] = Ret (chars "{""value"":0}") /\
  (let? s := of_doc read_marks "{ ""value"": 4 }" in Ret (Some (ms_len s, ms_contains s Dc))) = Ret (Some (1, true)) /\
  of_doc read_marks "{ ""value"": 64 } " = (let! s := repeat_set [Coda] in Ret (Some s)) /\
  of_doc read_marks "{ ""value"": 0 }" = (let! s := repeat_set [] in Ret (Some s)).
Proof. runs. Qed.
(** [can_serialize_bar] *)
Example bar_json :
  (let! s := repeat_set [End; Start] in let! r := rhythm_new 3 4 in
   Ret (same_members (write_bar (mkBar 123 (Some r) None s))
     (obj [("start_tick", JInt 123); ("repeats", obj [("value", JInt 3)]); ("key", JNull);
           ("rhythm", obj [("numerator", JInt 3); ("denominator", str "D4")])]%string))) = Ret true.
Proof. run. Qed.
(** [empty_repeat_set], [repeat_set_contains], [cannot_dc_and_start] *)
Example marks_tests :
  (let! s := repeat_set [] in Ret (map (ms_contains s) all_marks)) = Ret (map (fun _ => false) all_marks) /\
  (let! s := repeat_set [Start; End] in Ret (map (ms_contains s) all_marks)) =
    Ret (true :: true :: map (fun _ => false) (skipn 2 all_marks)) /\
  (let! s := repeat_set [Dc] in Ret (try_add s Start)) = Ret (Err (ms_of [Dc])).
Proof. runs. Qed.

(** ** src/rhythm.rs: [new_with_invalid_denominator], [new_with_invalid_numerator],
    [value_of_with_invalid_denominator], [value_of_with_invalid_numerator], [value_of],
    [tick_len], [can_serialize_to_json], [can_deserialize_from_json] *)
Example rhythm_tests :
  rhythm_new 1 3 = Panic /\ rhythm_new 100 4 = Panic /\
  rhythm_value_of 1 3 = Err (RhythmDenominatorError 3) /\ rhythm_value_of 100 2 = Err (RhythmNumeratorError 100) /\
  ok (rhythm_value_of 2 4) = rhythm_new 2 4 /\
  map (fun '(n, d) => let! r := ok (rhythm_value_of n d) in Ret (rhythm_tick_len r)) [(4, 4); (2, 4); (2, 2); (6, 8)] =
  map Ret [240 * 4; 240 * 2; 480 * 2; 120 * 6].
Proof. runs. Qed.
Example rhythm_json :
  same_members (write_rhythm (mkRhythm 3 D4)) (obj [("numerator", JInt 3); ("denominator", str "D4")]%string) = true /\
  of_doc read_rhythm "
            {
                ""numerator"": 3,
                ""denominator"": ""D4""
            }
        " = (let! r := rhythm_new 3 4 in Ret (Some r)).
Proof. runs. Qed.

(** ** src/grid.rs: [empty_str], [non_numerical_str], [zero], [ok], [snap] *)
Example grid_text :
  map (fun s => grid_value_of (chars s)) [""; "1a"; "0"; "120"]%string =
  [Err (chars ""); Err (chars "1a"); Err (chars "0"); Ok 120].
Proof. run. Qed.
Example grid_snap_tests :
  (let! g := unwrap_opt (grid_from_u32 100) in
   Ret (map (grid_snap g) [49; 50; 99; 149; 150; 199; 249; -49; -50])) =
  Ret (map Ret [0; 100; 100; 100; 200; 200; 200; 0; -100]).
Proof. run. Qed.

(** ** src/duration.rs: [low_denominator], [high_dot], [tick_length] *)
Definition dur (n : numerator) (d dots : Z) : outcome duration :=
  let! d := unwrap_opt (denominator_from_value d) in let! dots := unwrap_opt (dots_from_value dots) in
  Ret (mkDur n d dots).
Definition dur_len (o : outcome duration) : outcome Z := let! d := o in tick_length d.
Example duration_tests :
  dur Half 1 0 = Panic /\ dur N128th 2 8 = Panic /\
  map dur_len [dur Quarter 2 0; dur Half 2 0; dur Quarter 3 0; dur Quarter 2 1] = map Ret [240; 480; 160; 360].
Proof. runs. Qed.

(** ** src/location.rs: [parse_fail], [parse_ok]; all characters are ASCII *)
Example location_tests :
  map (fun s => parse_location is_digit (chars s)) [""; "012"; "01:"; ":01"; "123:456"]%string =
  [Ret None; Ret None; Ret None; Ret None; Ret (Some (mkLoc 123 456))].
Proof. run. Qed.

(** ** src/note.rs: [tick_len], [up_score_offset], [with_tick_added], [builder] *)
Definition test_note (p : pitch) : note :=
  mkNote 123 p (mkDur Half 2 0) false false (velocity_new 10) trimmer_zero (rates "1.0" "0.5" "2.0" "1.5") trimmer_zero 0.
Example note_tick_len_test : (let! p := P SA O1 NoAccidental in note_tick_len (test_note p)) = Ret 720.
Proof. run. Qed.
Example note_up_test :
  (let! p := highest_pitch in let! n := note_up_score_offset (test_note p) in Ret (match n with Err _ => true | Ok _ => false end)) = Ret true /\
  (let! p := P SA O1 NoAccidental in let! n := unwrapped (note_up_score_offset (test_note p)) in Ret (n_pitch n)) = P SB O1 NoAccidental.
Proof. runs. Qed.
Example note_with_tick_added_test :
  (let! p := highest_pitch in
   Ret (map (fun d => let! r := note_with_tick_added (test_note p) d true in
                      Ret (match r with Ok n => Some (note_start_tick n) | Err _ => None end)) [10; -122; -123; -124])) =
  Ret (map Ret [Some 133; Some 1; Some 0; None]).
Proof. run. Qed.
Example note_builder_test :
  let b t := mkBuilder (Some t) None None None None (Some (velocity_new 99)) None None None None in
  (let! n := note_build (b 123) in Ret (n_base_tick n)) = Ret 123 /\ (let! n := note_build (b 12) in Ret (n_base_tick n)) = Ret 12.
Proof. cbv zeta. runs. Qed.

(** ** src/tuple.rs: [sort_by_start_tick], [unit], [tuplize_3_eigth], [tuplize_3_eigth_again] *)
Definition tuple_note (t : Z) (d : duration) : outcome note :=
  let! p := P SA O3 NoAccidental in
  Ret (mkNote t p d false false (velocity_new 64) trimmer_zero rate_one trimmer_zero 0).
Example sort_test :
  (let! n0 := tuple_note 0 (mkDur Quarter 2 0) in let! n1 := tuple_note 0 (mkDur Half 2 0) in
   let! n2 := tuple_note 100 (mkDur Quarter 2 0) in
   let! s := sort_by_start_tick [n2; n1; n0] in
   Ret (snd (fst s), map te_notes (snd s))) =
  (let! n0 := tuple_note 0 (mkDur Quarter 2 0) in let! n1 := tuple_note 0 (mkDur Half 2 0) in
   let! n2 := tuple_note 100 (mkDur Quarter 2 0) in Ret (Some 64, [[n1; n0]; [n2]])).
Proof. run. Qed.
Example unit_test :
  map numerator_unit [mkDur N128th 2 0; mkDur N128th 5 0; mkDur N128th 2 1; mkDur N64th 2 1] = map Ret [2; 2; 3; 6].
Proof. run. Qed.
Definition tupled (den : Z) (ts : list Z) : outcome (list (Z * duration)) :=
  let! l := omapM (fun t => tuple_note t (mkDur N8th den 0)) ts in
  let! l := tuplize l in Ret (map (fun n => (n_base_tick n, n_duration n)) l).
Example tuplize_tests :
  tupled 2 [10; 20; 50] = Ret [(10, mkDur N8th 3 0); (10 + 80, mkDur N8th 3 0); (10 + 80 * 2, mkDur N8th 3 0)] /\
  tupled 3 [0; 80; 160] = Ret [(0, mkDur N8th 3 0); (80, mkDur N8th 3 0); (160, mkDur N8th 3 0)].
Proof. runs. Qed.

(** ** src/clipper.rs: [can_i32_clipped], [can_f32_clipped] *)
Example clip_tests :
  map (clip 5 10) [4; 5; 6; 9; 10; 11] = [5; 5; 6; 9; 10; 10] /\
  same_floats (map (clip_gen f32_lt (flt "5") (flt "10")) (map flt ["4"; "5"; "6"; "9"; "10"; "11"]%string))
              (map flt ["5"; "5"; "6"; "9"; "10"; "10"]%string) = true.
Proof. runs. Qed.

(** ** src/fly_weight.rs: [assume_interned]; a reference is an address with its value *)
Example assume_interned :
  let d0 := mkRef 1000 0 in let d1 := mkRef 2000 0 in let d2 := mkRef 3000 1 in
  let '(p, a) := fw_intern Z.eqb fw_new d0 in let '(p, b) := fw_intern Z.eqb p d1 in
  let '(p, c) := fw_intern Z.eqb p d2 in
  map ref_addr [a; b; c] = map ref_addr [d0; d0; d2].
Proof. run. Qed.
