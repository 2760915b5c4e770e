(** Specification of JSON texts (RFC 8259) and of what can be saved. *)
From Coq Require Import ZArith List Bool Permutation Ascii String.
From Verif Require Import Base M_Pitch M_Duration M_Percent M_Scalar M_Bar M_Note M_Models M_Project M_Text M_Json.
From Verif Require Import S_Pitch S_Note S_Percent S_Text.
Import ListNotations.
Open Scope Z_scope.
Open Scope list_scope.

(** ** Grammar *)

Definition blank (s : text) : Prop := Forall (fun c => c = 32 \/ c = 9 \/ c = 10 \/ c = 13) s.

(** hexadecimal digits, either case *)
Inductive hex_is : Z -> Z -> Prop :=
| hex_09 c : 48 <= c <= 57 -> hex_is c (c - 48)
| hex_af c : 97 <= c <= 102 -> hex_is c (c - 97 + 10)
| hex_AF c : 65 <= c <= 70 -> hex_is c (c - 65 + 10).
(** four of them *)
Inductive code_unit : text -> Z -> Prop :=
| code_four a b c d x y z w : hex_is a x -> hex_is b y -> hex_is c z -> hex_is d w ->
    code_unit [a; b; c; d] (16 * (16 * (16 * x + y) + z) + w).

(** [string_text s t]: between quotes, [s] stands for the characters [t]. *)
Inductive string_text : text -> text -> Prop :=
| str_end : string_text [] []
| str_plain c s t : 32 <= c -> c <> 34 -> c <> 92 -> string_text s t -> string_text (c :: s) (c :: t)
| str_escape e c s t :
    In (e, c) [(34, 34); (92, 92); (47, 47); (98, 8); (102, 12); (110, 10); (114, 13); (116, 9)] ->
    string_text s t -> string_text (92 :: e :: s) (c :: t)
| str_code h n s t : code_unit h n -> ~ 55296 <= n <= 57343 ->
    string_text s t -> string_text (92 :: 117 :: h ++ s) (n :: t)
| str_pair h k n m s t : code_unit h n -> code_unit k m -> 55296 <= n <= 56319 -> 56320 <= m <= 57343 ->
    string_text s t ->
    string_text (92 :: 117 :: h ++ 92 :: 117 :: k ++ s) (65536 + 1024 * (n - 55296) + (m - 56320) :: t).

(** numbers: an integer part without leading zeros, a fraction, an exponent *)
Definition natural (s : text) (v : Z) : Prop := numeral s v /\ forall r, s = 48 :: r -> r = [].
Definition fraction (s : text) : Prop := s = [] \/ exists d, s = 46 :: d /\ d <> [] /\ Forall digit d.
Definition exponent (s : text) : Prop :=
  s = [] \/ exists c sg d, s = c :: sg ++ d /\ (c = 101 \/ c = 69) /\ (sg = [] \/ sg = [43] \/ sg = [45]) /\
                           d <> [] /\ Forall digit d.
(** integers between -2^63 and 2^64 (but not "-0") are kept as integers; what
    else is in the range of f64 ([ov]) becomes a float *)
Inductive number (ov : text -> bool) : text -> json -> Prop :=
| num_pos s v : natural s v -> v < 2 ^ 64 -> number ov s (JInt v)
| num_neg s v : natural s v -> 0 < v <= 2 ^ 63 -> number ov (45 :: s) (JInt (- v))
| num_float neg i v f e : natural i v -> fraction f -> exponent e ->
    (f ++ e = [] -> if neg : bool then v = 0 \/ 2 ^ 63 < v else 2 ^ 64 <= v) ->
    ov ((if neg then [45] else []) ++ i ++ f ++ e) = false ->
    number ov ((if neg then [45] else []) ++ i ++ f ++ e) JFloat.

(** a comma-separated list; [item] includes the blanks around it *)
Inductive separated {A : Type} (item : text -> A -> Prop) : text -> list A -> Prop :=
| sep_one s a : item s a -> separated item s [a]
| sep_more s a r l : item s a -> separated item r l -> separated item (s ++ 44 :: r) (a :: l).
Inductive padded {A : Type} (item : text -> A -> Prop) : text -> A -> Prop :=
| pad w s w' a : blank w -> item s a -> blank w' -> padded item (w ++ s ++ w') a.
Inductive member (item : text -> json -> Prop) : text -> text * json -> Prop :=
| mem k kt w v j : string_text k kt -> blank w -> padded item v j ->
    member item (34 :: k ++ 34 :: w ++ 58 :: v) (kt, j).

(** [denotes ov s j]: the text [s], without blanks around it, stands for [j]. *)
Inductive denotes (ov : text -> bool) : text -> json -> Prop :=
| den_null : denotes ov [110; 117; 108; 108] JNull
| den_true : denotes ov [116; 114; 117; 101] (JBool true)
| den_false : denotes ov [102; 97; 108; 115; 101] (JBool false)
| den_number s j : number ov s j -> denotes ov s j
| den_string s t : string_text s t -> denotes ov (34 :: s ++ [34]) (JStr t)
| den_empty_array w : blank w -> denotes ov (91 :: w ++ [93]) (JArr [])
| den_array s l : separated (padded (denotes ov)) s l -> denotes ov (91 :: s ++ [93]) (JArr l)
| den_empty_object w : blank w -> denotes ov (123 :: w ++ [125]) (JObj [])
| den_object s l : separated (padded (member (denotes ov))) s l -> denotes ov (123 :: s ++ [125]) (JObj l).

(** how deep arrays and objects are nested *)
Fixpoint nesting (j : json) : nat :=
  match j with
  | JArr l => S (fold_right (fun v n => Nat.max (nesting v) n) 0%nat l)
  | JObj l => S (fold_right (fun kv n => Nat.max (nesting (snd kv)) n) 0%nat l)
  | _ => 0%nat
  end.
(** what the reader accepts: at most 127 levels *)
Definition json_text (ov : text -> bool) (s : text) (j : json) : Prop := denotes ov s j /\ (nesting j <= 127)%nat.

(** The text [t] begins with the value [j] and goes on with [rest]: a value that
    is not a string, an array or an object must be followed by a blank, one of
    the characters quote, bracket, brace, comma, colon, or nothing. *)
Definition ends_itself (j : json) : Prop :=
  match j with JStr _ | JArr _ | JObj _ => True | _ => False end.
Definition may_follow (s : text) : Prop :=
  match s with [] => True | c :: _ => In c [32; 9; 10; 13; 34; 91; 93; 123; 125; 44; 58] end.
Definition begins_with (ov : text -> bool) (t : text) (j : json) (rest : text) : Prop :=
  exists w s, t = w ++ s ++ rest /\ blank w /\ json_text ov s j /\ (ends_itself j \/ may_follow rest).

(** [same_content j j']: the members of the objects in [j'] may be in another
    order, and there may be further members with other names. *)
Inductive same_content : json -> json -> Prop :=
| same_null : same_content JNull JNull
| same_bool b : same_content (JBool b) (JBool b)
| same_int z : same_content (JInt z) (JInt z)
| same_str s : same_content (JStr s) (JStr s)
| same_array l l' : Forall2 same_content l l' -> same_content (JArr l) (JArr l')
| same_object l l1 more l' :
    Forall2 (fun x y => fst x = fst y /\ same_content (snd x) (snd y)) l l1 ->
    (forall k v, In (k, v) more -> ~ In k (map fst l)) ->
    Permutation (l1 ++ more) l' ->
    same_content (JObj l) (JObj l').

(** ** What survives saving and loading *)

(** the sums of a trimmer's values from the left all fit i16 *)
Definition savable_trimmer (t : trimmer) : Prop :=
  Forall i16 (trim_values t) /\ t_sum t = trim_total t /\
  i16 (t_v0 t + t_v1 t) /\ i16 (t_v0 t + t_v1 t + t_v2 t) /\ i16 (trim_total t).
(** the effect of a rate trimmer is the product of its four percentages *)
Definition savable_rate (r : rate_trimmer) : Prop :=
  u16 (r_v0 r) /\ u16 (r_v1 r) /\ u16 (r_v2 r) /\ u16 (r_v3 r) /\
  r_sum r = percent_of_f32
    (f32_mul (f32_mul (f32_mul (percent_to_f32 (r_v0 r)) (percent_to_f32 (r_v1 r))) (percent_to_f32 (r_v2 r)))
             (percent_to_f32 (r_v3 r))).
Definition savable_note (n : note) : Prop :=
  u32 (n_base_tick n) /\ valid_pitch (n_pitch n) /\
  2 <= d_den (n_duration n) <= 255 /\ 0 <= d_dots (n_duration n) <= 255 /\
  0 <= n_base_velocity n <= 127 /\
  savable_trimmer (n_tick_trimmer n) /\ savable_rate (n_duration_trimmer n) /\ savable_trimmer (n_velocity_trimmer n) /\
  0 <= n_channel n <= 255.
Definition savable_rhythm (r : rhythm) : Prop := 0 <= rh_num r <= 255.
Definition savable_key (k : Z) : Prop := -128 <= k <= 127.
Definition savable_bar (b : bar) : Prop :=
  u32 (b_tick b) /\ (forall r, b_rhythm b = Some r -> savable_rhythm r) /\
  (forall k, b_key b = Some k -> savable_key k) /\ 0 <= b_marks b < 2 ^ 11.
Definition savable_tempo (t : tempo) : Prop := u32 (tp_tick t) /\ 1 <= tp_value t <= 999.
Definition savable_ctrl (c : ctrl_chg) : Prop := u32 (cc_tick c) /\ 0 <= cc_velocity c <= 127 /\ 0 <= cc_channel c <= 255.
Definition savable (m : models) : Prop :=
  Forall savable_note (m_notes m) /\ Forall savable_bar (m_bars m) /\ Forall savable_tempo (m_tempos m) /\
  Forall savable_ctrl (m_dumpers m) /\ Forall savable_ctrl (m_softs m).
Definition savable_score (e : exported_score) : Prop :=
  (forall k, es_key e = Some k -> savable_key k) /\ (forall r, es_rhythm e = Some r -> savable_rhythm r) /\
  savable (es_models e).
(** the elements of a project *)
Definition savable_project (p : project) : Prop :=
  savable_rhythm (pj_rhythm p) /\ savable_key (pj_key p) /\ u32 (pj_grid p) /\
  Forall savable_note (map snd (pj_notes p)) /\ Forall savable_bar (map snd (pj_bars p)) /\
  Forall savable_tempo (map snd (pj_tempos p)) /\
  Forall savable_ctrl (map snd (pj_dumpers p)) /\ Forall savable_ctrl (map snd (pj_softs p)).

(** ** What makes a reader panic *)

(** [x] occurs somewhere in [j] *)
Inductive within (x : json) : json -> Prop :=
| within_here : within x x
| within_array v l : In v l -> within x v -> within x (JArr l)
| within_object k v l : In (k, v) l -> within x v -> within x (JObj l).
(** [v] is the [i]-th field, called [n], of the struct [x] *)
Definition field_of (x : json) (i : nat) (n : text) (v : json) : Prop :=
  (exists l, x = JObj l /\ In (n, v) l) \/ (exists l, x = JArr l /\ nth_error l i = Some v).
Definition variant (n : text) (j : json) : Prop := j = JStr n \/ j = JObj [(n, JNull)].
(** a pitch that is spelled out but beyond MIDI *)
Definition bad_pitch (x : json) : Prop :=
  exists s o a js jo ja,
    field_of x 0 (chars "solfa") js /\ variant (solfa_name s) js /\
    field_of x 1 (chars "octave") jo /\ variant (octave_name o) jo /\
    field_of x 2 (chars "sharp_flat") ja /\ variant (sharp_flat_name a) ja /\
    ~ midi_ok (midi s o a).
(** four numbers whose sums from the left do not all fit i16 *)
Definition bad_trimmer (x : json) : Prop :=
  exists a b c d, field_of x 0 (chars "values") (JArr [JInt a; JInt b; JInt c; JInt d]) /\
    ~ (i16 (a + b) /\ i16 (a + b + c) /\ i16 (a + b + c + d)).
