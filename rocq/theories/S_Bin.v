(** Specification of the binary form: what the types of Rust guarantee about the
    numbers in a value, and how many bytes it takes. *)
From Coq Require Import ZArith List Bool.
From Verif Require Import Base M_Pitch M_Duration M_Percent M_Scalar M_Bar M_Note M_Models M_Store M_Project M_Event M_Bin.
From Verif Require Import S_Pitch S_Percent S_Note S_Json.
Import ListNotations.
Open Scope Z_scope.
Open Scope list_scope.

Definition byte (z : Z) : Prop := 0 <= z <= 255.
(** the length of a vector is a 64 bit number *)
Definition counts {A : Type} (l : list A) : Prop := Z.of_nat (length l) < 2 ^ 64.

(** ** What is in memory: every number has its type *)
Definition typed_trimmer (t : trimmer) : Prop := i16 (t_v0 t) /\ i16 (t_v1 t) /\ i16 (t_v2 t) /\ i16 (t_v3 t).
Definition typed_rate (r : rate_trimmer) : Prop := u16 (r_v0 r) /\ u16 (r_v1 r) /\ u16 (r_v2 r) /\ u16 (r_v3 r).
Definition typed_note (n : note) : Prop :=
  u32 (n_base_tick n) /\ u8 (d_den (n_duration n)) /\ u8 (d_dots (n_duration n)) /\ u8 (n_base_velocity n) /\
  typed_trimmer (n_tick_trimmer n) /\ typed_rate (n_duration_trimmer n) /\ typed_trimmer (n_velocity_trimmer n) /\
  u8 (n_channel n).
Definition typed_rhythm (r : rhythm) : Prop := u8 (rh_num r).
Definition typed_key (k : key) : Prop := -128 <= k <= 127.
Definition typed_bar (b : bar) : Prop :=
  u32 (b_tick b) /\ (forall r, b_rhythm b = Some r -> typed_rhythm r) /\ (forall k, b_key b = Some k -> typed_key k) /\
  u16 (b_marks b).
Definition typed_tempo (t : tempo) : Prop := u32 (tp_tick t) /\ u16 (tp_value t).
Definition typed_ctrl (c : ctrl_chg) : Prop := u32 (cc_tick c) /\ u8 (cc_velocity c) /\ u8 (cc_channel c).

Definition counts_models (m : models) : Prop :=
  counts (m_notes m) /\ counts (m_bars m) /\ counts (m_tempos m) /\ counts (m_dumpers m) /\ counts (m_softs m).
Definition typed_models (m : models) : Prop :=
  Forall typed_note (m_notes m) /\ Forall typed_bar (m_bars m) /\ Forall typed_tempo (m_tempos m) /\
  Forall typed_ctrl (m_dumpers m) /\ Forall typed_ctrl (m_softs m) /\ counts_models m.
Definition counts_project (p : project) : Prop :=
  counts (pj_notes p) /\ counts (pj_bars p) /\ counts (pj_tempos p) /\ counts (pj_dumpers p) /\ counts (pj_softs p).
Definition typed_project (p : project) : Prop :=
  typed_rhythm (pj_rhythm p) /\ typed_key (pj_key p) /\ u32 (pj_grid p) /\
  Forall typed_note (map snd (pj_notes p)) /\ Forall typed_bar (map snd (pj_bars p)) /\
  Forall typed_tempo (map snd (pj_tempos p)) /\
  Forall typed_ctrl (map snd (pj_dumpers p)) /\ Forall typed_ctrl (map snd (pj_softs p)) /\ counts_project p.
Definition counts_cmd (c : cmd) : Prop :=
  match c with ModelChanged a r => counts_models a /\ counts_models r | _ => True end.
Definition typed_cmd (c : cmd) : Prop :=
  match c with
  | SetRhythm a b => typed_rhythm a /\ typed_rhythm b
  | SetKey a b => typed_key a /\ typed_key b
  | SetGrid a b => u32 a /\ u32 b
  | ModelChanged a r => typed_models a /\ typed_models r
  end.

(** ** Sizes *)
Definition size_note : Z := 50.
Definition size_tempo : Z := 6.
Definition size_ctrl : Z := 6.
Definition size_bar (b : bar) : Z :=
  8 + (match b_rhythm b with Some _ => 5 | None => 0 end) + (match b_key b with Some _ => 1 | None => 0 end).
Definition total {A : Type} (f : A -> Z) (l : list A) : Z := fold_right (fun a s => f a + s) 0 l.
Definition size_models (m : models) : Z :=
  40 + size_note * Z.of_nat (length (m_notes m)) + total size_bar (m_bars m) + size_tempo * Z.of_nat (length (m_tempos m)) +
  size_ctrl * (Z.of_nat (length (m_dumpers m)) + Z.of_nat (length (m_softs m))).

Definition size_project (p : project) : Z :=
  50 + size_note * Z.of_nat (length (pj_notes p)) + total size_bar (map snd (pj_bars p)) +
  size_tempo * Z.of_nat (length (pj_tempos p)) +
  size_ctrl * (Z.of_nat (length (pj_dumpers p)) + Z.of_nat (length (pj_softs p))).

(** ** Commands that survive; the settings have no metadata of their own *)
Definition storable (cm : cmd * metadata) : Prop :=
  match fst cm with
  | SetRhythm a b => savable_rhythm a /\ savable_rhythm b /\ snd cm = meta_new
  | SetKey a b => savable_key a /\ savable_key b /\ snd cm = meta_new
  | SetGrid a b => u32 a /\ u32 b /\ snd cm = meta_new
  | ModelChanged a r => savable a /\ savable r /\ counts_models a /\ counts_models r
  end.

(** ** What makes reading panic *)

(** three variants that name no pitch from 0 to 127 *)
Definition bad_pitch_bytes (bs : bytes) : Prop := exists s o a,
  bs = put_variant (solfa_place s) ++ put_variant (octave_place o) ++ put_variant (sharp_flat_place a) /\
  ~ midi_ok (midi s o a).
(** four i16 whose sum, taken from the left, leaves i16 *)
Definition bad_trimmer_bytes (bs : bytes) : Prop := exists a b c d,
  bs = put_int 2 a ++ put_int 2 b ++ put_int 2 c ++ put_int 2 d /\ i16 a /\ i16 b /\ i16 c /\ i16 d /\
  ~ (i16 (a + b) /\ i16 (a + b + c) /\ i16 (a + b + c + d)).
