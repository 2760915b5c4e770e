(** Model of src/solfa.rs, src/octave.rs, src/sharp_flat.rs, src/key.rs and src/pitch.rs. *)
From Coq Require Import ZArith List Bool.
From Verif Require Import Base.
Import ListNotations.
Open Scope Z_scope.

(** src/solfa.rs 5-7 *)
Inductive solfa := SC | SD | SE | SF | SG | SA | SB.

(** src/solfa.rs 30 *)
Definition solfa_all : list solfa := [SC; SD; SE; SF; SG; SA; SB].

(** src/solfa.rs 32-42 *)
Definition solfa_score_offset (s : solfa) : Z :=
  match s with SC => 0 | SD => 1 | SE => 2 | SF => 3 | SG => 4 | SA => 5 | SB => 6 end.

(** src/solfa.rs 44-54 *)
Definition solfa_pitch_offset (s : solfa) : Z :=
  match s with SC => 0 | SD => 2 | SE => 4 | SF => 5 | SG => 7 | SA => 9 | SB => 11 end.

(** src/solfa.rs 56-64 *)
Definition solfa_from_score_offset (o : Z) : outcome solfa :=
  if o <? solfa_score_offset SC then Ret SC
  else if solfa_score_offset SB <? o then Ret SB
  else index solfa_all o.

(** src/solfa.rs 9-17 ([+=] with an i32) *)
Definition solfa_add (s : solfa) (rhs : Z) : outcome solfa :=
  let! so := chk_i32 (solfa_score_offset s + rhs) in
  if solfa_score_offset SB <? so then Panic else solfa_from_score_offset so.

(** src/solfa.rs 19-27 ([-=] with an i32) *)
Definition solfa_sub (s : solfa) (rhs : Z) : outcome solfa :=
  let! so := chk_i32 (solfa_score_offset s - rhs) in
  if so <? solfa_score_offset SC then Panic else solfa_from_score_offset so.

Definition solfa_eqb (a b : solfa) : bool :=
  match a, b with
  | SC, SC | SD, SD | SE, SE | SF, SF | SG, SG | SA, SA | SB, SB => true
  | _, _ => false
  end.

(** src/octave.rs 21-23 *)
Inductive octave := OM2 | OM1 | O0 | O1 | O2 | O3 | O4 | O5 | O6 | O7 | O8.

(** src/octave.rs 29-32 *)
Definition octave_all : list octave := [OM2; OM1; O0; O1; O2; O3; O4; O5; O6; O7; O8].

(** src/octave.rs 53-67 *)
Definition octave_value (o : octave) : Z :=
  match o with
  | OM2 => -2 | OM1 => -1 | O0 => 0 | O1 => 1 | O2 => 2 | O3 => 3
  | O4 => 4 | O5 => 5 | O6 => 6 | O7 => 7 | O8 => 8
  end.

(** src/octave.rs 35 *)
Definition octave_bias : Z := 2.

(** src/octave.rs 49-51 *)
Definition octave_offset (o : octave) : Z := octave_value o + octave_bias.

(** src/octave.rs 5-7; the only error carries the offending index *)
Definition octave_error := Z.

(** src/octave.rs 41-47; [ALL[idx]] panics for idx = 11 because the guard is
    [ALL.len() < idx] *)
Definition octave_from_score_offset (idx : Z) : outcome (result octave octave_error) :=
  if (idx <? 0) || (Z.of_nat (length octave_all) <? idx) then Ret (Err idx)
  else let! o := index octave_all idx in Ret (Ok o).

(** src/octave.rs 37-39 *)
Definition octave_value_of (v : Z) : outcome (result octave octave_error) :=
  let! i := chk_i32 (v + octave_bias) in octave_from_score_offset i.

(** src/octave.rs 70-74 *)
Definition octave_add (o : octave) (rhs : Z) : outcome octave :=
  let! v := chk_i32 (octave_value o + rhs) in
  let! r := octave_value_of v in unwrap r.

(** src/octave.rs 76-80 *)
Definition octave_sub (o : octave) (rhs : Z) : outcome octave :=
  let! v := chk_i32 (octave_value o - rhs) in
  let! r := octave_value_of v in unwrap r.

Definition octave_eqb (a b : octave) : bool := octave_value a =? octave_value b.

(** src/octave.rs 25-26 *)
Definition octave_max : octave := O8.
Definition octave_min : octave := OM2.

(** src/sharp_flat.rs 3-10 *)
Inductive sharp_flat := Sharp | DoubleSharp | Flat | DoubleFlat | Natural | NoAccidental.

(** src/sharp_flat.rs 13-22 ([NoAccidental] is [SharpFlat::Null]) *)
Definition sharp_flat_offset (a : sharp_flat) : Z :=
  match a with
  | Sharp => 1 | DoubleSharp => 2 | Flat => -1 | DoubleFlat => -2 | Natural => 0 | NoAccidental => 0
  end.

(** src/key.rs 9: a key is an i8 (the private field is also written by serde) *)
Definition key := Z.

(** src/key.rs 32-50: the table, verbatim; [None] if the key is not in it *)
Definition key_solfas (k : key) : option (list solfa) :=
  match k with
  | 0 => Some []
  | 1 => Some [SF]
  | 2 => Some [SF; SC]
  | 3 => Some [SF; SC; SG]
  | 4 => Some [SF; SC; SG; SD]
  | 5 => Some [SF; SC; SG; SD; SA]
  | 6 => Some [SF; SC; SG; SD; SA; SE]
  | 7 => Some [SF; SC; SG; SD; SA; SE; SB]
  | -1 => Some [SB]
  | -2 => Some [SB; SE]
  | -3 => Some [SB; SE; SA]
  | -4 => Some [SB; SE; SA; SD]
  | -5 => Some [SB; SE; SA; SD; SG]
  | -6 => Some [SB; SE; SA; SD; SG; SC]
  | -7 => Some [SB; SE; SA; SD; SG; SC; SF]
  | _ => None
  end.

(** src/key.rs 56-58 *)
Definition key_is_flat (k : key) : bool := k <? 0.

(** src/pitch.rs 35-44 *)
Record pitch := mkPitch {
  p_solfa : solfa;
  p_octave : octave;
  p_sharp_flat : sharp_flat;
  p_value : Z;          (* u8, cached *)
  p_score_offset : Z;   (* i8, cached *)
}.

(** src/pitch.rs 9-13 *)
Inductive pitch_error :=
| TooLow (s : solfa) (o : octave) (a : sharp_flat) (v : Z)
| TooHigh (s : solfa) (o : octave) (a : sharp_flat) (v : Z)
| InvalidScoreOffset (v : Z).

(** src/pitch.rs 65-66, 72-73 *)
Definition pitch_max_value : Z := 127.
Definition pitch_min_value : Z := 0.
Definition min_score_offset : Z := 0.
Definition max_score_offset : Z := 74.

(** src/pitch.rs 100-102 *)
Definition pitch_to_value (s : solfa) (o : octave) (a : sharp_flat) : Z :=
  solfa_pitch_offset s + (octave_value o + octave_bias) * 12 + sharp_flat_offset a.

(** src/pitch.rs 104-122 *)
Definition pitch_value_of (s : solfa) (o : octave) (a : sharp_flat) : result pitch pitch_error :=
  let v := pitch_to_value s o a in
  if v <? pitch_min_value then Err (TooLow s o a v)
  else if pitch_max_value <? v then Err (TooHigh s o a v)
  else
    let so := as_i8 (solfa_score_offset s + 7 * octave_offset o) in
    Ok (mkPitch s o a (as_u8 v) so).

(** src/pitch.rs 76-81; also what deserialisation calls (52-56) *)
Definition pitch_new (s : solfa) (o : octave) (a : sharp_flat) : outcome pitch :=
  unwrap (pitch_value_of s o a).

Definition is_null (a : sharp_flat) : bool :=
  match a with NoAccidental => true | _ => false end.

(** src/pitch.rs 83-98 *)
Definition pitch_apply_key (p : pitch) (k : key) : result pitch pitch_error :=
  if is_null (p_sharp_flat p) then
    match key_solfas k with
    | Some ss =>
        if existsb (solfa_eqb (p_solfa p)) ss then
          pitch_value_of (p_solfa p) (p_octave p) (if key_is_flat k then Flat else Sharp)
        else Ok p
    | None => Ok p
    end
  else Ok p.

(** src/pitch.rs 124-131 *)
Definition pitch_toggle_sharp (p : pitch) : result pitch pitch_error :=
  pitch_value_of (p_solfa p) (p_octave p)
    (match p_sharp_flat p with Sharp => DoubleSharp | DoubleSharp => NoAccidental | _ => Sharp end).

(** src/pitch.rs 133-140 *)
Definition pitch_toggle_flat (p : pitch) : result pitch pitch_error :=
  pitch_value_of (p_solfa p) (p_octave p)
    (match p_sharp_flat p with Flat => DoubleFlat | DoubleFlat => NoAccidental | _ => Flat end).

(** src/pitch.rs 142-148 *)
Definition pitch_toggle_natural (p : pitch) : result pitch pitch_error :=
  pitch_value_of (p_solfa p) (p_octave p)
    (match p_sharp_flat p with Natural => NoAccidental | _ => Natural end).

(** src/pitch.rs 174-180; i32 division truncates *)
Definition score_offset_to_solfa_octave (so : Z) : outcome (solfa * octave) :=
  let octave_off := Z.quot so 7 in
  let! solfa_off := chk_i32 (so - octave_off * 7) in
  let! s := solfa_from_score_offset solfa_off in
  let! r := octave_from_score_offset octave_off in
  let! o := unwrap r in
  Ret (s, o).

(** src/pitch.rs 150-162 *)
Definition pitch_from_score_offset (so : Z) : outcome pitch :=
  let so := if so <? min_score_offset then min_score_offset
            else if max_score_offset <? so then max_score_offset else so in
  let! (s, o) := score_offset_to_solfa_octave so in
  unwrap (pitch_value_of s o NoAccidental).

(** src/pitch.rs 164-172 *)
Definition pitch_with_score_offset_delta (p : pitch) (d : Z) : outcome (result pitch pitch_error) :=
  let! so := chk_i32 (p_score_offset p + d) in
  if (so <? min_score_offset) || (max_score_offset <? so) then Ret (Err (InvalidScoreOffset so))
  else
    let! (s, o) := score_offset_to_solfa_octave so in
    Ret (pitch_value_of s o (p_sharp_flat p)).

(** src/pitch.rs 190-205 *)
Definition pitch_up (p : pitch) : outcome (result pitch pitch_error) :=
  if solfa_eqb (p_solfa p) SB then
    if negb (octave_eqb (p_octave p) octave_max) then
      let! o := octave_add (p_octave p) 1 in
      Ret (pitch_value_of SC o (p_sharp_flat p))
    else Ret (Err (TooHigh (p_solfa p) (p_octave p) (p_sharp_flat p) (-1)))
  else
    let! s := solfa_add (p_solfa p) 1 in
    Ret (pitch_value_of s (p_octave p) (p_sharp_flat p)).

(** src/pitch.rs 207-222 *)
Definition pitch_down (p : pitch) : outcome (result pitch pitch_error) :=
  if solfa_eqb (p_solfa p) SC then
    if negb (octave_eqb (p_octave p) octave_min) then
      let! o := octave_sub (p_octave p) 1 in
      Ret (pitch_value_of SB o (p_sharp_flat p))
    else Ret (Err (TooLow (p_solfa p) (p_octave p) (p_sharp_flat p) (-1)))
  else
    let! s := solfa_sub (p_solfa p) 1 in
    Ret (pitch_value_of s (p_octave p) (p_sharp_flat p)).

(** src/pitch.rs 70: the default pitch, A4 = (9 + 6*12 = 81, staff position 47) *)
Definition pitch_default : outcome pitch := pitch_new SA O4 NoAccidental.

(** src/pitch.rs 33-34, [derive(Builder)] with [builder(default)]: every field
    has a public setter, unset fields come from [Default].  Simplification: the
    setters are given as options. *)
Definition pitch_build (s : option solfa) (o : option octave) (a : option sharp_flat)
    (v : option Z) (so : option Z) : outcome pitch :=
  let! d := pitch_default in
  let get {A : Type} (x : option A) (y : A) := match x with Some z => z | None => y end in
  Ret (mkPitch (get s (p_solfa d)) (get o (p_octave d)) (get a (p_sharp_flat d))
               (get v (p_value d)) (get so (p_score_offset d))).

(** Structural equality, [derive(PartialEq)] at src/pitch.rs 33. *)
Definition pitch_eq_dec : forall a b : pitch, {a = b} + {a <> b}.
Proof. repeat decide equality. Defined.
