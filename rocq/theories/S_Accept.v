(** Specification of the JSON documents that are read as a selection, a score or a
    project, and as which one (C70). *)
From Coq Require Import ZArith List Bool Ascii String.
From Verif Require Import Base M_Pitch M_Duration M_Percent M_Scalar M_Bar M_Note M_Models M_Project M_Text M_Json.
From Verif Require Import S_Pitch S_Note S_Percent S_Text S_Json S_Format.
Import ListNotations.
Open Scope Z_scope.
Open Scope list_scope.

(** A record with fields called [names]: an object in which the field occurs exactly
    once, or an array of just the fields in their order. *)
Definition field_is (names : list string) (x : json) (i : nat) (v : json) : Prop :=
  match x with
  | JObj l => exists n a b, nth_error names i = Some n /\ l = a ++ (words n, v) :: b /\
                            ~ In (words n) (map fst a) /\ ~ In (words n) (map fst b)
  | JArr l => List.length l = List.length names /\ nth_error l i = Some v
  | _ => False
  end.
Definition field_missing (names : list string) (x : json) (i : nat) : Prop :=
  match x with
  | JObj l => exists n, nth_error names i = Some n /\ ~ In (words n) (map fst l)
  | _ => False
  end.
(** the field is there and [P] of it; a field that is optional may also be null or
    missing *)
Definition holds {A : Type} (names : list string) (x : json) (i : nat) (P : json -> A -> Prop) (a : A) : Prop :=
  exists v, field_is names x i v /\ P v a.
Definition may_hold {A : Type} (names : list string) (x : json) (i : nat) (P : json -> A -> Prop) (o : option A) : Prop :=
  (exists v a, field_is names x i v /\ v <> JNull /\ P v a /\ o = Some a) \/
  (field_is names x i JNull \/ field_missing names x i) /\ o = None.

(** whole numbers in a range, truth values, words *)
Definition int_doc (lo hi : Z) (j : json) (z : Z) : Prop := j = JInt z /\ lo <= z <= hi.
Definition bool_doc (j : json) (b : bool) : Prop := j = JBool b.
Definition word_doc {A : Type} (word : A -> text) (j : json) (a : A) : Prop := variant (word a) j.
(** [P] of every element *)
Definition list_doc {A : Type} (P : json -> A -> Prop) (j : json) (m : list A) : Prop :=
  exists l, j = JArr l /\ Forall2 P l m.
Definition four_doc {A : Type} (P : json -> A -> Prop) (j : json) (q : A * A * A * A) : Prop :=
  let '(a, b, c, d) := q in list_doc P j [a; b; c; d].

(** A pitch is spelled out.  One beyond MIDI is none. *)
Definition spelled (j : json) (s : solfa) (o : octave) (a : sharp_flat) : Prop :=
  let names := ["solfa"; "octave"; "sharp_flat"]%string in
  holds names j 0 (word_doc letter) s /\ holds names j 1 (word_doc octave_word) o /\
  holds names j 2 (word_doc accidental_word) a.
Definition pitch_doc (j : json) (p : pitch) : Prop :=
  spelled j (p_solfa p) (p_octave p) (p_sharp_flat p) /\ valid_pitch p.

(** a tuplet number below 2 becomes 2 *)
Definition duration_doc (j : json) (d : duration) : Prop :=
  let names := ["numerator"; "denominator"; "dots"]%string in
  exists den, holds names j 0 (word_doc value_word) (d_num d) /\ holds names j 1 (int_doc 0 255) den /\
              holds names j 2 (int_doc 0 255) (d_dots d) /\ d_den d = Z.max 2 den.

(** the sums of the four numbers from the left have to fit i16 *)
Definition four_numbers (j : json) (a b c d : Z) : Prop :=
  holds ["values"]%string j 0 (four_doc (int_doc (-32768) 32767)) (a, b, c, d).
Definition sums_fit (a b c d : Z) : Prop := i16 (a + b) /\ i16 (a + b + c) /\ i16 (a + b + c + d).
Definition trimmer_doc (j : json) (t : trimmer) : Prop :=
  four_numbers j (t_v0 t) (t_v1 t) (t_v2 t) (t_v3 t) /\ sums_fit (t_v0 t) (t_v1 t) (t_v2 t) (t_v3 t) /\
  t_sum t = t_v0 t + t_v1 t + t_v2 t + t_v3 t.

Definition number_doc (hi : Z) (j : json) (z : Z) : Prop := holds ["value"]%string j 0 (int_doc 0 hi) z.
Definition rate_doc (j : json) (r : rate_trimmer) : Prop :=
  holds ["values"]%string j 0 (four_doc (number_doc 65535)) (r_v0 r, r_v1 r, r_v2 r, r_v3 r) /\ savable_rate r.

(** a velocity above 127 becomes 127 *)
Definition velocity_doc (j : json) (v : Z) : Prop := exists w, int_doc 0 255 j w /\ v = Z.min 127 w.

(** A note; [pitches] and [trimmers] say what is accepted for its pitch and for the two
    trimmers of its start and its velocity. *)
Definition note_names : list string :=
  ["base_start_tick"; "pitch"; "duration"; "tie"; "tied"; "base_velocity"; "start_tick_trimmer"; "duration_trimmer";
   "velocity_trimmer"; "channel"]%string.
Definition note_like (pitches : json -> pitch -> Prop) (trimmers : json -> trimmer -> Prop) (j : json) (n : note) : Prop :=
  let field {A : Type} := @holds A note_names j in
  field 0%nat (int_doc 0 4294967295) (n_base_tick n) /\ field 1%nat pitches (n_pitch n) /\
  field 2%nat duration_doc (n_duration n) /\ field 3%nat bool_doc (n_tie n) /\ field 4%nat bool_doc (n_tied n) /\
  field 5%nat velocity_doc (n_base_velocity n) /\ field 6%nat trimmers (n_tick_trimmer n) /\
  field 7%nat rate_doc (n_duration_trimmer n) /\ field 8%nat trimmers (n_velocity_trimmer n) /\
  field 9%nat (int_doc 0 255) (n_channel n).
Definition note_doc : json -> note -> Prop := note_like pitch_doc trimmer_doc.

(** neither the beats of a rhythm nor a key are checked for sense *)
Definition rhythm_doc (j : json) (r : rhythm) : Prop :=
  let names := ["numerator"; "denominator"]%string in
  holds names j 0 (int_doc 0 255) (rh_num r) /\ holds names j 1 (word_doc beat_word) (rh_den r).
Definition key_doc : json -> Z -> Prop := int_doc (-128) 127.

(** the marks of a bar are eleven bits; the other five are dropped *)
Definition bar_doc (j : json) (b : bar) : Prop :=
  let names := ["start_tick"; "rhythm"; "key"; "repeats"]%string in
  exists bits, holds names j 0 (int_doc 0 4294967295) (b_tick b) /\ may_hold names j 1 rhythm_doc (b_rhythm b) /\
               may_hold names j 2 key_doc (b_key b) /\ holds names j 3 (number_doc 65535) bits /\
               b_marks b = bits mod 2048.

(** a tempo is put between 1 and 999 *)
Definition tempo_doc (j : json) (t : tempo) : Prop :=
  let names := ["start_tick"; "value"]%string in
  exists v, holds names j 0 (int_doc 0 4294967295) (tp_tick t) /\ holds names j 1 (int_doc 0 65535) v /\
            tp_value t = Z.max 1 (Z.min 999 v).
Definition ctrl_doc (j : json) (c : ctrl_chg) : Prop :=
  let names := ["start_tick"; "velocity"; "channel"]%string in
  holds names j 0 (int_doc 0 4294967295) (cc_tick c) /\ holds names j 1 velocity_doc (cc_velocity c) /\
  holds names j 2 (int_doc 0 255) (cc_channel c).

(** a selection: five lists, of which the notes come as [notes] says; [from] is the
    place of the first list among the fields *)
Definition lists_like (notes : json -> note -> Prop) (names : list string) (from : nat) (j : json) (m : models) : Prop :=
  holds names j from (list_doc notes) (m_notes m) /\ holds names j (from + 1) (list_doc bar_doc) (m_bars m) /\
  holds names j (from + 2) (list_doc tempo_doc) (m_tempos m) /\
  holds names j (from + 3) (list_doc ctrl_doc) (m_dumpers m) /\ holds names j (from + 4) (list_doc ctrl_doc) (m_softs m).
Definition models_like (notes : json -> note -> Prop) : json -> models -> Prop :=
  lists_like notes ["notes"; "bars"; "tempos"; "dumpers"; "softs"]%string 0.
Definition score_like (notes : json -> note -> Prop) (j : json) (e : exported_score) : Prop :=
  let names := ["key"; "rhythm"; "notes"; "bars"; "tempos"; "dumpers"; "softs"]%string in
  may_hold names j 0 key_doc (es_key e) /\ may_hold names j 1 rhythm_doc (es_rhythm e) /\
  lists_like notes names 2 j (es_models e).
Definition project_like (notes : json -> note -> Prop) (j : json) (e : exported) : Prop :=
  let names := ["rhythm"; "key"; "grid"; "models"]%string in
  holds names j 0 rhythm_doc (ex_rhythm e) /\ holds names j 1 key_doc (ex_key e) /\
  holds names j 2 (number_doc 4294967295) (ex_grid e) /\ holds names j 3 (models_like notes) (ex_models e).

Definition models_doc : json -> models -> Prop := models_like note_doc.
Definition score_doc : json -> exported_score -> Prop := score_like note_doc.
Definition project_doc : json -> exported -> Prop := project_like note_doc.

(** Right but for pitches beyond MIDI and trimmers whose sums do not fit. *)
Definition note_shape : json -> note -> Prop :=
  note_like (fun j _ => exists s o a, spelled j s o a) (fun j _ => exists a b c d, four_numbers j a b c d).
