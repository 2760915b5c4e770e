(** Property theorems about the text that copying and saving give: C58. *)
From Coq Require Import ZArith List Bool Lia Ascii String.
From Verif Require Import Base M_Pitch M_Duration M_Percent M_Scalar M_Bar M_Note M_Models M_Store M_Tuple M_Project M_Text M_Json.
From Verif Require Import S_Pitch S_Note S_Project S_Text S_Json S_Format P_Base P_Text P_Json P_Savable.
From Verif Require T_Project T_Json.
Import ListNotations.
Open Scope Z_scope.
Open Scope list_scope.

(** What the templates are filled with are decimal numbers. *)
Theorem C58_decimal : forall z, decimal z (num z).
Proof.
  intros z. unfold decimal, num, show_int. destruct (Z.ltb_spec z 0).
  - right. split; [lia|]. exists (show_nat (- z)). split; [reflexivity|]. apply show_nat_natural. lia.
  - left. apply show_nat_natural. lia.
Qed.
Print Assumptions C58_decimal.

Lemma join_commas l : join l = commas l.
Proof. induction l as [|x l IH]; [reflexivity|]. cbn [join commas]. destruct l; [reflexivity|]. rewrite IH. reflexivity. Qed.

Ltac spell := simpl; repeat (rewrite <- app_assoc; simpl); reflexivity.

Lemma letter_name s : solfa_name s = letter s. Proof. destruct s; reflexivity. Qed.
Lemma octave_word_name o : octave_name o = octave_word o. Proof. destruct o; reflexivity. Qed.
Lemma accidental_word_name a : sharp_flat_name a = accidental_word a. Proof. destruct a; reflexivity. Qed.
Lemma value_word_name n : numerator_name n = value_word n. Proof. destruct n; reflexivity. Qed.
Lemma beat_word_name d : rhythm_den_name d = beat_word d. Proof. destruct d; reflexivity. Qed.

Ltac open := cbn [combine show_json map fst snd commas]; unfold show_string.

Lemma pitch_text p : show_json (write_pitch p) = pitch_format p.
Proof.
  unfold write_pitch, pitch_format, pitch_fields. open. rewrite letter_name, octave_word_name, accidental_word_name.
  generalize (letter (p_solfa p)) (octave_word (p_octave p)) (accidental_word (p_sharp_flat p)). intros a b c. spell.
Qed.
Lemma duration_text d : show_json (write_duration d) = duration_format d.
Proof.
  unfold write_duration, duration_format, duration_fields, num. open. rewrite value_word_name.
  generalize (value_word (d_num d)) (show_int (d_den d)) (show_int (d_dots d)). intros a b c. spell.
Qed.
Lemma trimmer_text t : show_json (write_trimmer t) = trimmer_format t.
Proof.
  unfold write_trimmer, trimmer_format, values_field, num. open.
  generalize (show_int (t_v0 t)) (show_int (t_v1 t)) (show_int (t_v2 t)) (show_int (t_v3 t)). intros a b c d. spell.
Qed.
Lemma rate_text t : show_json (write_rate t) = rate_format t.
Proof.
  unfold write_rate, rate_format, values_field, write_percent, value_field, num. open.
  generalize (show_int (r_v0 t)) (show_int (r_v1 t)) (show_int (r_v2 t)) (show_int (r_v3 t)). intros a b c d. spell.
Qed.
Lemma bool_text b : show_json (JBool b) = yes_no b.
Proof. destruct b; reflexivity. Qed.
Lemma note_text n : show_json (write_note n) = note_format n.
Proof.
  unfold write_note, note_format, note_fields, num. cbn [combine show_json map fst snd commas].
  rewrite pitch_text, duration_text, !trimmer_text, rate_text.
  change (match n_tie n with true => chars "true" | false => chars "false" end) with (show_json (JBool (n_tie n))).
  change (match n_tied n with true => chars "true" | false => chars "false" end) with (show_json (JBool (n_tied n))).
  rewrite !bool_text. unfold show_string.
  generalize (show_int (n_base_tick n)) (pitch_format (n_pitch n)) (duration_format (n_duration n)) (yes_no (n_tie n)) (yes_no (n_tied n))
    (show_int (n_base_velocity n)) (trimmer_format (n_tick_trimmer n)) (rate_format (n_duration_trimmer n))
    (trimmer_format (n_velocity_trimmer n)) (show_int (n_channel n)). intros a b c d e f g h i j. spell.
Qed.
Lemma rhythm_text r : show_json (write_rhythm r) = rhythm_format r.
Proof.
  unfold write_rhythm, rhythm_format, rhythm_fields, num. open. rewrite beat_word_name.
  generalize (show_int (rh_num r)) (beat_word (rh_den r)). intros a b. spell.
Qed.
Lemma option_text {A} (w : A -> json) f o : (forall a, show_json (w a) = f a) -> show_json (write_option w o) = or_null f o.
Proof. intros H. destruct o as [a|]; [apply H|reflexivity]. Qed.
Lemma weight_marks b : 0 <= b_marks b < 2 ^ 11 -> weight b = b_marks b.
Proof.
  intros H. destruct b as [t r k m]. cbn [b_marks] in *.
  assert (C : forallb (fun i => weight (mkBar 0 None None (Z.of_nat i)) =? Z.of_nat i) (seq 0 2048) = true) by (vm_compute; reflexivity).
  rewrite forallb_forall in C. specialize (C (Z.to_nat m)). rewrite in_seq, Z2Nat.id, Z.eqb_eq in C by lia. apply C. lia.
Qed.
Lemma bar_text b : 0 <= b_marks b < 2 ^ 11 -> show_json (write_bar b) = bar_format b.
Proof.
  intros H. unfold write_bar, bar_format, bar_fields, write_marks, value_field, num. rewrite (weight_marks b H). cbn [combine show_json map fst snd commas].
  rewrite (option_text write_rhythm rhythm_format) by apply rhythm_text.
  rewrite (option_text JInt num) by reflexivity. unfold show_string, num.
  generalize (show_int (b_tick b)) (or_null rhythm_format (b_rhythm b)) (or_null show_int (b_key b)) (show_int (b_marks b)). intros x y z w. spell.
Qed.
Lemma tempo_text t : show_json (write_tempo t) = tempo_format t.
Proof. unfold write_tempo, tempo_format, tempo_fields, num. open. generalize (show_int (tp_tick t)) (show_int (tp_value t)). intros a b. spell. Qed.
Lemma ctrl_text c : show_json (write_ctrl c) = ctrl_format c.
Proof.
  unfold write_ctrl, ctrl_format, ctrl_fields, num. open.
  generalize (show_int (cc_tick c)) (show_int (cc_velocity c)) (show_int (cc_channel c)). intros x y z. spell.
Qed.
Lemma array_text {A} (w : A -> json) f l : (forall a, In a l -> show_json (w a) = f a) -> commas (map show_json (map w l)) = join (map f l).
Proof. intros H. rewrite map_map, (map_ext_in _ _ _ H). symmetry. apply join_commas. Qed.
Lemma models_text m : Forall savable_bar (m_bars m) -> show_json (write_models m) = models_format m.
Proof.
  intros H. unfold write_models, models_format, models_fields, models_values. cbn [combine show_json map fst snd].
  rewrite (array_text write_note note_format) by (intros; apply note_text).
  rewrite (array_text write_bar bar_format) by (intros b I; rewrite Forall_forall in H; apply bar_text; apply (H b I)).
  rewrite (array_text write_tempo tempo_format) by (intros; apply tempo_text).
  rewrite !(array_text write_ctrl ctrl_format) by (intros; apply ctrl_text).
  generalize (join (map note_format (m_notes m))) (join (map bar_format (m_bars m))) (join (map tempo_format (m_tempos m)))
    (join (map ctrl_format (m_dumpers m))) (join (map ctrl_format (m_softs m))). intros a b c d e.
  cbn [map fst snd commas]. unfold show_string. spell.
Qed.

(** * C58 *)

(** The text that is copied. *)
Theorem C58_clipboard : forall m, savable m -> to_clipboard_text m = clipboard_format m.
Proof. intros m S. unfold to_clipboard_text, clipboard_format. rewrite models_text by apply S. reflexivity. Qed.
Print Assumptions C58_clipboard.

(** The text of a saved project. *)
Theorem C58_project : forall p, savable_project p ->
  show_json (write_project p) = project_format (pj_rhythm p) (pj_key p) (pj_grid p) (ex_models (export p)).
Proof.
  intros p S. unfold write_project, project_format, exported_fields, write_grid, value_field, num. cbn [combine show_json map fst snd commas].
  rewrite models_text by (apply S). rewrite rhythm_text. unfold show_string. cbn [ex_rhythm ex_key ex_grid export].
  generalize (rhythm_format (pj_rhythm p)) (show_int (pj_key p)) (show_int (pj_grid p)) (models_format (ex_models (export p))). intros a b c d. spell.
Qed.
Print Assumptions C58_project.

Example C58_example : savable T_Json.ex_models /\ to_clipboard_text T_Json.ex_models = clipboard_format T_Json.ex_models /\
  to_clipboard_text (mkModels [] [mkBar 1920 (Some (mkRhythm 3 D8)) None (ms_of [Start; Segno])] [] [] []) =
  words "1{'notes':[],'bars':[{'start_tick':1920,'rhythm':{'numerator':3,'denominator':'D8'},'key':null,'repeats':{'value':33}}],'tempos':[],'dumpers':[],'softs':[]}".
Proof.
  split; [exact T_Json.ex_models_savable|]. split; [apply C58_clipboard, T_Json.ex_models_savable|]. vm_compute. reflexivity.
Qed.
