(** Property theorems C01-C06 (pitches, keys, octaves). *)
From Coq Require Import ZArith List.
From Verif Require Import Base M_Pitch S_Pitch P_Pitch.
Import ListNotations.
Open Scope Z_scope.

(** For the concrete cases. *)
Ltac conc := repeat split; vm_compute; first [reflexivity | congruence | intuition congruence].

(** * C01 *)

(** Every pitch that can be obtained without the builder is consistent, whatever
    sequence of operations produced it; and every consistent pitch can be obtained. *)
Theorem C01_pitch_consistent : forall p, obtainable p <-> valid_pitch p.
Proof. intros p; split; [exact (obtainable_valid p) | exact (valid_obtainable p)]. Qed.
Print Assumptions C01_pitch_consistent.

Theorem C01_value_of_iff : forall s o a, named_or_error (pitch_value_of s o a) s o a.
Proof. exact value_of_spec. Qed.
Print Assumptions C01_value_of_iff.

(** The builder can make inconsistent pitches: only the letter is set here. *)
Theorem C01_builder_refuted : exists p, pitch_build (Some SC) None None None None = Ret p /\ ~ valid_pitch p.
Proof. eexists; split; [vm_compute; reflexivity | intros [H _]; vm_compute in H; discriminate]. Qed.
Print Assumptions C01_builder_refuted.

Example C01_example :
  pitch_value_of SB O4 Sharp = Ok (canon SB O4 Sharp) /\
  pitch_up (canon SB O4 Sharp) = Ret (Ok (canon SC O5 Sharp)) /\ obtainable (canon SC O5 Sharp) /\
  (p_value (canon SC O5 Sharp), p_score_offset (canon SC O5 Sharp)) = (85, 49).
Proof.
  split; [vm_compute; reflexivity|]. split; [vm_compute; reflexivity|]. split; [|vm_compute; reflexivity].
  apply (ob_up (canon SB O4 Sharp)); [apply (ob_value_of SB O4 Sharp)|]; vm_compute; reflexivity.
Qed.

(** * C02 *)

Theorem C02_up : forall p, valid_pitch p ->
  exists r, pitch_up p = Ret r /\
  match r with
  | Ok q => valid_pitch q /\ p_score_offset q = p_score_offset p + 1 /\ p_sharp_flat q = p_sharp_flat p
  | Err _ => forall s o, staff s o = p_score_offset p + 1 -> ~ midi_ok (midi s o (p_sharp_flat p))
  end.
Proof. exact up_result. Qed.
Print Assumptions C02_up.

Example C02_up_case : valid_pitch (canon SB O4 Sharp) /\ pitch_up (canon SB O4 Sharp) = Ret (Ok (canon SC O5 Sharp)) /\
  valid_pitch (canon SG O8 NoAccidental) /\ pitch_up (canon SG O8 NoAccidental) = Ret (Err (TooHigh SA O8 NoAccidental 129)).
Proof. conc. Qed.

Theorem C02_down : forall p, valid_pitch p ->
  exists r, pitch_down p = Ret r /\
  match r with
  | Ok q => valid_pitch q /\ p_score_offset q = p_score_offset p - 1 /\ p_sharp_flat q = p_sharp_flat p
  | Err _ => forall s o, staff s o = p_score_offset p - 1 -> ~ midi_ok (midi s o (p_sharp_flat p))
  end.
Proof. exact down_result. Qed.
Print Assumptions C02_down.

Example C02_down_case : valid_pitch (canon SC O5 Sharp) /\ pitch_down (canon SC O5 Sharp) = Ret (Ok (canon SB O4 Sharp)) /\
  valid_pitch (canon SD OM2 Flat) /\ pitch_down (canon SD OM2 Flat) = Ret (Err (TooLow SC OM2 Flat (-1))).
Proof. conc. Qed.

(** What the error says: the neighbour that does not exist and its number; for the
    lowest C it is about the C itself, with the number -1. *)
Theorem C02_errors : forall p e, valid_pitch p ->
  (pitch_up p = Ret (Err e) -> exists s o, staff s o = p_score_offset p + 1 /\ pitch_refused e s o (p_sharp_flat p)) /\
  (pitch_down p = Ret (Err e) ->
     p_score_offset p = 0 /\ e = TooLow (p_solfa p) (p_octave p) (p_sharp_flat p) (-1) \/
     exists s o, staff s o = p_score_offset p - 1 /\ pitch_refused e s o (p_sharp_flat p)).
Proof. intros p e V. split; [exact (up_error p e V)|exact (down_error p e V)]. Qed.
Print Assumptions C02_errors.

Theorem C02_up_down : forall p q, valid_pitch p -> pitch_up p = Ret (Ok q) -> pitch_down q = Ret (Ok p).
Proof. exact up_down. Qed.
Print Assumptions C02_up_down.

Theorem C02_down_up : forall p q, valid_pitch p -> pitch_down p = Ret (Ok q) -> pitch_up q = Ret (Ok p).
Proof. exact down_up. Qed.
Print Assumptions C02_down_up.

Example C02_down_up_case : valid_pitch (canon SC O5 Sharp) /\ pitch_down (canon SC O5 Sharp) = Ret (Ok (canon SB O4 Sharp)) /\
  pitch_up (canon SB O4 Sharp) = Ret (Ok (canon SC O5 Sharp)).
Proof. conc. Qed.

Example C02_example :
  exists p q, valid_pitch p /\ pitch_up p = Ret (Ok q) /\ pitch_down q = Ret (Ok p) /\ p <> q.
Proof.
  exists (canon SB O3 Flat), (canon SC O4 Flat). repeat split; try (vm_compute; reflexivity); vm_compute; discriminate.
Qed.

(** * C03 *)

Theorem C03_transpose : forall p d, valid_pitch p -> i32 (p_score_offset p + d) ->
  exists r, pitch_with_score_offset_delta p d = Ret r /\
  match r with
  | Ok q => valid_pitch q /\ p_score_offset q = p_score_offset p + d /\ p_sharp_flat q = p_sharp_flat p
            /\ 0 <= p_score_offset p + d <= 74
  | Err _ => ~ (0 <= p_score_offset p + d <= 74) \/
             forall s o, staff s o = p_score_offset p + d -> ~ midi_ok (midi s o (p_sharp_flat p))
  end.
Proof. exact shift_result. Qed.
Print Assumptions C03_transpose.

(** What the error says: the staff position if there is none, else the pitch that does
    not exist and its number. *)
Theorem C03_errors : forall p d e, pitch_with_score_offset_delta p d = Ret (Err e) ->
  ~ 0 <= p_score_offset p + d <= 74 /\ e = InvalidScoreOffset (p_score_offset p + d) \/
  exists s o, staff s o = p_score_offset p + d /\ pitch_refused e s o (p_sharp_flat p).
Proof. exact shift_error. Qed.
Print Assumptions C03_errors.

Example C03_errors_case :
  pitch_up (canon SG O8 NoAccidental) = Ret (Err (TooHigh SA O8 NoAccidental 129)) /\
  pitch_down (canon SC OM2 Sharp) = Ret (Err (TooLow SC OM2 Sharp (-1))) /\
  pitch_with_score_offset_delta (canon SG O8 NoAccidental) 1 = Ret (Err (InvalidScoreOffset 75)) /\
  pitch_with_score_offset_delta (canon SD OM2 Flat) (-1) = Ret (Err (TooLow SC OM2 Flat (-1))).
Proof. repeat split; vm_compute; reflexivity. Qed.

Theorem C03_compose : forall p a b q r, valid_pitch p ->
  pitch_with_score_offset_delta p a = Ret (Ok q) ->
  pitch_with_score_offset_delta q b = Ret (Ok r) ->
  pitch_with_score_offset_delta p (a + b) = Ret (Ok r).
Proof. exact shift_compose. Qed.
Print Assumptions C03_compose.

Example C03_compose_case : valid_pitch (canon SA O4 Sharp) /\
  pitch_with_score_offset_delta (canon SA O4 Sharp) 9 = Ret (Ok (canon SC O6 Sharp)) /\
  pitch_with_score_offset_delta (canon SC O6 Sharp) (-1) = Ret (Ok (canon SB O5 Sharp)) /\
  pitch_with_score_offset_delta (canon SA O4 Sharp) (9 + -1) = Ret (Ok (canon SB O5 Sharp)).
Proof. conc. Qed.

Theorem C03_from_score_offset : forall n,
  exists p, pitch_from_score_offset n = Ret p /\ valid_pitch p /\ p_sharp_flat p = NoAccidental /\
    p_score_offset p = Z.max 0 (Z.min 74 n).
Proof. exact from_score_offset_spec. Qed.
Print Assumptions C03_from_score_offset.

(** A valid pitch that can not even be transposed by 0 steps. *)
Theorem C03_zero_shift_refuted :
  exists p e, valid_pitch p /\ pitch_with_score_offset_delta p 0 = Ret (Err e).
Proof.
  exists (canon SA O8 DoubleFlat). eexists. split; [|vm_compute; reflexivity].
  repeat split; vm_compute; discriminate.
Qed.
Print Assumptions C03_zero_shift_refuted.

Example C03_example :
  pitch_with_score_offset_delta (canon SA O4 Sharp) 9 = Ret (Ok (canon SC O6 Sharp)) /\
  valid_pitch (canon SA O4 Sharp) /\ i32 (p_score_offset (canon SA O4 Sharp) + 9).
Proof. repeat split; vm_compute; try reflexivity; discriminate. Qed.

(** * C04 *)

Theorem C04_toggle_sharp : forall p,
  named_or_error (pitch_toggle_sharp p) (p_solfa p) (p_octave p) (sharp_cycle (p_sharp_flat p)).
Proof. exact toggle_sharp_spec. Qed.
Print Assumptions C04_toggle_sharp.

Theorem C04_toggle_flat : forall p,
  named_or_error (pitch_toggle_flat p) (p_solfa p) (p_octave p) (flat_cycle (p_sharp_flat p)).
Proof. exact toggle_flat_spec. Qed.
Print Assumptions C04_toggle_flat.

Theorem C04_toggle_natural : forall p,
  named_or_error (pitch_toggle_natural p) (p_solfa p) (p_octave p) (natural_cycle (p_sharp_flat p)).
Proof. exact toggle_natural_spec. Qed.
Print Assumptions C04_toggle_natural.

Example C04_example :
  pitch_toggle_sharp (canon SG O8 NoAccidental) = Err (TooHigh SG O8 Sharp 128) /\
  pitch_toggle_sharp (canon SG O7 Sharp) = Ok (canon SG O7 DoubleSharp) /\
  pitch_toggle_flat (canon SG O7 Sharp) = Ok (canon SG O7 Flat).
Proof. repeat split. Qed.

(** * C05 *)

(** A letter in the signature is altered (or refused if the MIDI number would
    leave the range); everything else is left alone. *)
Theorem C05_apply_key : forall p k, valid_pitch p ->
  (forall a, p_sharp_flat p = NoAccidental -> signature k (p_solfa p) a ->
     named_or_error (pitch_apply_key p k) (p_solfa p) (p_octave p) a) /\
  (p_sharp_flat p <> NoAccidental \/ (forall a, ~ signature k (p_solfa p) a) -> pitch_apply_key p k = Ok p).
Proof. exact apply_key_spec. Qed.
Print Assumptions C05_apply_key.

Theorem C05_apply_key_idempotent : forall p k q, valid_pitch p ->
  pitch_apply_key p k = Ok q -> pitch_apply_key q k = Ok q.
Proof. exact apply_key_idem. Qed.
Print Assumptions C05_apply_key_idempotent.

Example C05_apply_key_idempotent_case : valid_pitch (canon SC O4 NoAccidental) /\
  pitch_apply_key (canon SC O4 NoAccidental) 2 = Ok (canon SC O4 Sharp) /\ pitch_apply_key (canon SC O4 Sharp) 2 = Ok (canon SC O4 Sharp).
Proof. conc. Qed.

(** D major has F and C sharp; B flat major flattens B and E; A is left alone. *)
Example C05_example :
  signature 2 SF Sharp /\ signature 2 SC Sharp /\ signature (-2) SE Flat /\
  (forall a, ~ signature 2 SA a) /\
  pitch_apply_key (canon SC O4 NoAccidental) 2 = Ok (canon SC O4 Sharp) /\
  pitch_apply_key (canon SC O4 Natural) 2 = Ok (canon SC O4 Natural).
Proof.
  repeat split.
  - apply (sig_sharp _ _ 0); vm_compute; intuition congruence.
  - apply (sig_sharp _ _ 1); vm_compute; intuition congruence.
  - apply (sig_flat _ _ 1); vm_compute; intuition congruence.
  - intros a H. assert (E : affected 2 SA = true) by (apply sig_iff; eauto). discriminate E.
Qed.

(** * C06 *)

Theorem C06_octave_in_range : forall v, -2 <= v <= 8 ->
  exists o, octave_value_of v = Ret (Ok o) /\ octave_number o = v.
Proof. exact octave_value_of_ok. Qed.
Print Assumptions C06_octave_in_range.

(** All other numbers but 9 are refused (as long as v+2 fits an i32). *)
Theorem C06_octave_out_of_range : forall v, i32 (v + 2) -> v < -2 \/ 9 < v ->
  octave_value_of v = Ret (Err (v + 2)).
Proof. exact octave_value_of_err. Qed.
Print Assumptions C06_octave_out_of_range.

Theorem C06_octave_9_refuted : exists v, i32 v /\ octave_value_of v = Panic.
Proof. exists 9. split; [split; vm_compute; discriminate | exact octave_value_of_9]. Qed.
Print Assumptions C06_octave_9_refuted.

Example C06_example : octave_value_of 8 = Ret (Ok O8) /\ octave_value_of (-3) = Ret (Err (-1)) /\
  octave_value_of 10 = Ret (Err 12).
Proof. repeat split. Qed.
