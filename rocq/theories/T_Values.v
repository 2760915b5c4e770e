(** Property theorems C07-C19 and C49 (durations, rates, trimmers, notes, tempo,
    grid, rhythm, ranges). *)
From Coq Require Import ZArith List Lia Reals.
From Flocq Require Import Core BinarySingleNaN.
From Verif Require Import Base M_Pitch M_Duration M_Percent M_Scalar M_Bar M_Note.
From Verif Require Import S_Percent S_Note P_Percent P_Note.
Import ListNotations.
Open Scope Z_scope.

(** For the concrete cases. *)
Ltac conc := repeat split; vm_compute; first [reflexivity | congruence | intuition congruence].

(** * C07 *)

Theorem C07_tick_length : forall d, duration_valid d -> exists t, tick_length d = Ret t /\ lasts d t.
Proof. exact tick_length_lasts. Qed.
Print Assumptions C07_tick_length.

(** The specification determines the length. *)
Theorem C07_lasts_unique : forall d t t', duration_valid d -> lasts d t -> lasts d t' -> t = t'.
Proof. exact lasts_unique. Qed.
Print Assumptions C07_lasts_unique.

Example C07_lasts_unique_case : lasts (mkDur N8th 3 2) 140 /\ ~ lasts (mkDur N8th 3 2) 141.
Proof. split; [|intro H; assert (A := C07_lasts_unique (mkDur N8th 3 2) 140 141)].
  - destruct (C07_tick_length (mkDur N8th 3 2)) as (t & E & L); [conc|]. vm_compute in E. injection E as <-. exact L.
  - enough (140 = 141) by discriminate. apply A; [conc| |exact H].
    destruct (C07_tick_length (mkDur N8th 3 2)) as (t & E & L); [conc|]. vm_compute in E. injection E as <-. exact L. Qed.

Theorem C07_bound : forall d t, duration_valid d -> tick_length d = Ret t -> 0 <= t <= 1913.
Proof. exact tick_length_bound. Qed.
Print Assumptions C07_bound.

Example C07_bound_case : duration_valid (mkDur Whole 2 7) /\ tick_length (mkDur Whole 2 7) = Ret 1913.
Proof. conc. Qed.

(** More dots and a smaller denominator never make a note shorter. *)
Theorem C07_monotone : forall n x x' k k' t t',
  2 <= x' <= x -> x <= 255 -> 0 <= k <= k' -> k' <= 7 ->
  tick_length (mkDur n x k) = Ret t -> tick_length (mkDur n x' k') = Ret t' -> t <= t'.
Proof. exact tick_length_mono. Qed.
Print Assumptions C07_monotone.

Example C07_monotone_case : 2 <= 3 <= 5 /\ 0 <= 1 <= 2 /\ tick_length (mkDur Quarter 5 1) = Ret 144 /\
  tick_length (mkDur Quarter 3 2) = Ret 280.
Proof. conc. Qed.

Theorem C07_plain : forall n, tick_length (mkDur n 2 0) = Ret (plain_length n).
Proof. exact tick_length_plain. Qed.
Print Assumptions C07_plain.

(** Loading a file with 32 dots makes [tick_length] panic: dots are not validated. *)
Theorem C07_loaded_dots_refuted : exists d, d_den d = 2 /\ u8 (d_dots d) /\ tick_length d = Panic.
Proof. exists (mkDur Quarter 2 32). repeat split; vm_compute; congruence. Qed.
Print Assumptions C07_loaded_dots_refuted.

(** An eighth triplet with two dots: 120*7/4 = 210, times 2/3 = 140. *)
Example C07_example : duration_valid (mkDur N8th 3 2) /\ tick_length (mkDur N8th 3 2) = Ret 140 /\
  tick_length (mkDur N128th 2 1) = Ret 11.
Proof. split; [split; cbn; split; discriminate|]. split; vm_compute; reflexivity. Qed.

(** * C08 *)

Theorem C08_longest : forall n, duration_valid (n_duration n) -> obtainable_rate (n_duration_trimmer n) ->
  exists t l, note_tick_len n = Ret t /\ longest_tick_len = Ret l /\ 0 <= t <= l.
Proof. exact note_tick_len_bound. Qed.
Print Assumptions C08_longest.

Theorem C08_longest_value : longest_tick_len = Ret 3826.
Proof. exact longest. Qed.
Print Assumptions C08_longest_value.

(** The length of a note is the notated length times the trimmed rate. *)
Theorem C08_note_length : forall n t, duration_valid (n_duration n) -> obtainable_rate (n_duration_trimmer n) ->
  lasts (n_duration n) t -> note_tick_len n = Ret (t * r_sum (n_duration_trimmer n) / 1000).
Proof. exact note_tick_len_exact. Qed.
Print Assumptions C08_note_length.

Example C08_note_length_case : let r := rate_from_array 900 1500 1000 1000 in
  let n := mkNote 0 (M_Pitch.mkPitch SA O4 NoAccidental 81 47) (mkDur N8th 3 2) false false 64
             trimmer_zero r trimmer_zero 0 in
  duration_valid (n_duration n) /\ obtainable_rate (n_duration_trimmer n) /\ lasts (n_duration n) 140 /\
  r_sum r = 1349 /\ note_tick_len n = Ret 188.
Proof. split; [conc|]. split; [constructor; conc|]. split; [exact (proj1 C07_lasts_unique_case)|]. conc. Qed.

(** The bound is reached, and rates may be NaN or infinite. *)
Example C08_example :
  let r := rate_new (B754_infinity false) (f32_of_Z 1) (f32_of_Z 1) (f32_of_Z 7) in
  let n := mkNote 0 (M_Pitch.mkPitch SA O4 NoAccidental 81 47) (mkDur Whole 2 7) false false 64
             trimmer_zero r trimmer_zero 0 in
  duration_valid (n_duration n) /\ obtainable_rate (n_duration_trimmer n) /\ note_tick_len n = Ret 3826.
Proof. split; [split; cbn; split; discriminate|]. split; [constructor|vm_compute; reflexivity]. Qed.

(** * C09 *)

Theorem C09_rate_clamped : forall x, rate_means x (percent_of_f32 x).
Proof. exact percent_spec. Qed.
Print Assumptions C09_rate_clamped.

Theorem C09_rate_means_unique : forall x p q, rate_means x p -> rate_means x q -> p = q.
Proof. exact rate_means_fun. Qed.
Print Assumptions C09_rate_means_unique.

Theorem C09_range : forall x, 0 <= percent_of_f32 x <= 2000.
Proof. exact percent_range. Qed.
Print Assumptions C09_range.

Theorem C09_monotone : forall x y, f32_le x y -> percent_of_f32 x <= percent_of_f32 y.
Proof. exact percent_mono. Qed.
Print Assumptions C09_monotone.

Example C09_monotone_case : f32_le third three_halves /\ percent_of_f32 third = 333 /\ percent_of_f32 three_halves = 1500.
Proof. split; [apply f32_not_lt; reflexivity|split; reflexivity]. Qed.

Example C09_example : percent_of_f32 third = 333 /\ percent_of_f32 three_halves = 1500 /\
  percent_of_f32 (f32_of_Z 7) = 2000 /\ percent_of_f32 (f32_of_Z (-1)) = 0 /\ percent_of_f32 B754_nan = 0.
Proof. repeat split. Qed.

(** * C10 *)

Theorem C10_roundtrip_refuted : exists p, 0 <= p <= 2000 /\ percent_of_f32 (percent_to_f32 p) <> p.
Proof. exists 251. split; [split; discriminate|vm_compute; discriminate]. Qed.
Print Assumptions C10_roundtrip_refuted.

(** It fails for exactly ten values, by exactly one. *)
Theorem C10_roundtrip_exact : forall p, 0 <= p <= 2000 ->
  (percent_of_f32 (percent_to_f32 p) = p <-> ~ In p lossy) /\
  (In p lossy -> percent_of_f32 (percent_to_f32 p) = p - 1).
Proof. exact percent_roundtrip_iff. Qed.
Print Assumptions C10_roundtrip_exact.

Example C10_roundtrip_exact_case : ~ In 999 lossy /\ In 1022 lossy.
Proof. split; vm_compute; intuition congruence. Qed.

Example C10_example : percent_of_f32 (percent_to_f32 999) = 999 /\ percent_of_f32 (percent_to_f32 1022) = 1021.
Proof. split; vm_compute; reflexivity. Qed.

(** * C11 *)

Theorem C11_apply_floor : forall p v, 0 <= p <= 2000 -> 0 <= v < 2147483648 ->
  percent_apply p v = Ret (v * p / 1000).
Proof. exact apply_floor. Qed.
Print Assumptions C11_apply_floor.

(** For every percentage a file may contain and every u32, including the wrap. *)
Theorem C11_apply_exact : forall p v, u16 p -> u32 v ->
  percent_apply p v = Ret ((v * p / 1000) mod 4294967296).
Proof. exact apply_exact. Qed.
Print Assumptions C11_apply_exact.

Example C11_apply_exact_case : u16 60000 /\ u32 4294967295 /\ percent_apply 60000 4294967295 = Ret ((4294967295 * 60000 / 1000) mod 4294967296).
Proof. conc. Qed.

Theorem C11_hundred_percent : forall v, u32 v -> percent_apply percent_hundred v = Ret v.
Proof. exact apply_hundred. Qed.
Print Assumptions C11_hundred_percent.

Theorem C11_zero_percent : forall v, u32 v -> percent_apply percent_zero v = Ret 0.
Proof. exact apply_zero. Qed.
Print Assumptions C11_zero_percent.

Theorem C11_monotone : forall p p' v v' a a', 0 <= p <= p' -> p' <= 2000 -> 0 <= v <= v' -> v' < 2147483648 ->
  percent_apply p v = Ret a -> percent_apply p' v' = Ret a' -> a <= a'.
Proof. exact apply_mono. Qed.
Print Assumptions C11_monotone.

Example C11_monotone_case : 0 <= 333 <= 1500 /\ 0 <= 480 <= 481 /\ percent_apply 333 480 = Ret 159 /\ percent_apply 1500 481 = Ret 721.
Proof. conc. Qed.

Theorem C11_wrap_refuted : exists p v, 0 <= p <= 2000 /\ u32 v /\ percent_apply p v <> Ret (v * p / 1000).
Proof. exists 2000, 2147483648. repeat split; vm_compute; congruence. Qed.
Print Assumptions C11_wrap_refuted.

Example C11_example : percent_apply 1333 481 = Ret 641.
Proof. vm_compute; reflexivity. Qed.

(** * C12 *)

Theorem C12_added : forall t k, Forall i16 (trim_values t) -> i32 (t_v0 t + k) ->
  exists u, trimmer_added t k = Ret u /\ fills (trim_values t) k (trim_values u) /\ valid_trimmer u /\
    trim_total u = clamp (4 * i16_min) (4 * i16_max) (trim_total t + k).
Proof. exact trimmer_added_spec. Qed.
Print Assumptions C12_added.

Example C12_added_case : let t := trimmer_new 30000 5 (-7) 0 in Forall i16 (trim_values t) /\ i32 (t_v0 t + 40000) /\ trim_total t = 29998.
Proof. split; [repeat constructor; vm_compute; congruence|]. conc. Qed.

(** Beyond that it panics. *)
Theorem C12_added_overflow : forall t k, ~ i32 (t_v0 t + k) -> trimmer_added t k = Panic.
Proof. exact trimmer_added_panic. Qed.
Print Assumptions C12_added_overflow.

Example C12_added_overflow_case : ~ i32 (t_v0 (trimmer_new 2 0 0 0) + 2147483646) /\ trimmer_added (trimmer_new 2 0 0 0) 2147483646 = Panic.
Proof. split; [intros [_ H]; vm_compute in H; congruence|reflexivity]. Qed.

(** Whatever sequence of operations makes a trimmer: four i16 and their sum. *)
Theorem C12_trimmer_invariant : forall t, obtainable_trimmer t -> valid_trimmer t.
Proof. exact obtainable_trimmer_valid. Qed.
Print Assumptions C12_trimmer_invariant.

Example C12_trimmer_invariant_case : exists t, obtainable_trimmer t /\ trim_values t = [32767; 32767; 4464; 0].
Proof. exists (trimmer_new 32767 32767 4464 0). split; [|reflexivity].
  apply (ot_added (trimmer_new 30000 5 (-7) 0) 40000); [constructor; conc|reflexivity]. Qed.

Example C12_example : trimmer_added (trimmer_new 30000 5 (-7) 0) 40000 = Ret (trimmer_new 32767 32767 4464 0) /\
  trimmer_added (trimmer_new 0 0 0 0) (-200000) = Ret (trimmer_new (-32768) (-32768) (-32768) (-32768)).
Proof. split; vm_compute; reflexivity. Qed.

(** * C13 *)

Theorem C13_save_load : forall t, valid_trimmer t ->
  let fits := i16 (t_v0 t + t_v1 t) /\ i16 (t_v0 t + t_v1 t + t_v2 t) /\ i16 (t_sum t) in
  (fits -> trimmer_deser t = Ret t) /\ (~ fits -> trimmer_deser t = Panic).
Proof. exact trimmer_save_load. Qed.
Print Assumptions C13_save_load.

Example C13_save_load_case : let t := trimmer_new 20000 (-1) 12 700 in let w := trimmer_new 20000 20000 (-30000) 0 in
  valid_trimmer t /\ i16 (t_v0 t + t_v1 t) /\ i16 (t_v0 t + t_v1 t + t_v2 t) /\ i16 (t_sum t) /\
  valid_trimmer w /\ ~ i16 (t_v0 w + t_v1 w) /\ i16 (t_sum w) /\ trimmer_deser w = Panic.
Proof. split; [apply new_valid; conc|]. split; [conc|]. split; [conc|]. split; [conc|]. split; [apply new_valid; conc|].
  split; [intros [_ H]; vm_compute in H; congruence|conc]. Qed.

Theorem C13_save_load_refuted : exists t, valid_trimmer t /\ trimmer_deser t = Panic.
Proof.
  exists (trimmer_new 20000 20000 0 0). split; [|vm_compute; reflexivity].
  apply new_valid; split; vm_compute; congruence.
Qed.
Print Assumptions C13_save_load_refuted.

(** Comparing trimmers is comparing their four values. *)
Theorem C13_equality : forall a b, valid_trimmer a -> valid_trimmer b -> trimmer_eqb a b = true <-> a = b.
Proof. exact trimmer_eqb_spec. Qed.
Print Assumptions C13_equality.

Example C13_equality_case : valid_trimmer (trimmer_new 1 2 3 4) /\ valid_trimmer (trimmer_new 2 1 3 4) /\
  trimmer_eqb (trimmer_new 1 2 3 4) (trimmer_new 2 1 3 4) = false.
Proof. split; [apply new_valid; conc|]. split; [apply new_valid; conc|reflexivity]. Qed.

Example C13_example : trimmer_deser (trimmer_new 20000 (-1) 12 700) = Ret (trimmer_new 20000 (-1) 12 700).
Proof. reflexivity. Qed.

(** * C14 *)

Theorem C14_save_load_refuted : exists a b c d, rate_eqb (rate_deser (rate_new a b c d)) (rate_new a b c d) = false.
Proof. exists third, three_halves, (f32_of_Z 1), (f32_of_Z 1). exact rate_new_lossy. Qed.
Print Assumptions C14_save_load_refuted.

(** It does hold for the rates that stand for a percentage, except the lossy ones. *)
Theorem C14_save_load_percent_rates : forall a b c d,
  0 <= a <= 2000 -> 0 <= b <= 2000 -> 0 <= c <= 2000 -> 0 <= d <= 2000 ->
  ~ In a lossy -> ~ In b lossy -> ~ In c lossy -> ~ In d lossy ->
  rate_deser (rate_new (percent_to_f32 a) (percent_to_f32 b) (percent_to_f32 c) (percent_to_f32 d)) =
  rate_new (percent_to_f32 a) (percent_to_f32 b) (percent_to_f32 c) (percent_to_f32 d).
Proof. exact rate_new_exact. Qed.
Print Assumptions C14_save_load_percent_rates.

Example C14_save_load_percent_rates_case : ~ In 900 lossy /\ ~ In 1500 lossy /\ ~ In 1100 lossy /\ ~ In 1000 lossy.
Proof. repeat split; vm_compute; intuition congruence. Qed.

Theorem C14_save_load_array : forall a b c d, rate_deser (rate_from_array a b c d) = rate_from_array a b c d.
Proof. exact rate_array_load. Qed.
Print Assumptions C14_save_load_array.

(** What was loaded once stays the same for ever. *)
Theorem C14_reload_stable : forall r, rate_deser (rate_deser r) = rate_deser r.
Proof. exact rate_load_stable. Qed.
Print Assumptions C14_reload_stable.

Example C14_example : rate_new (percent_to_f32 900) (percent_to_f32 1500) (percent_to_f32 1100) (percent_to_f32 1000)
  = mkRate 900 1500 1100 1000 1484.
Proof. vm_compute. reflexivity. Qed.

(** * C15 *)

Theorem C15_start_tick : forall n, u32 (n_base_tick n) -> valid_trimmer (n_tick_trimmer n) ->
  let t := n_base_tick n + trim_total (n_tick_trimmer n) in
  (t <= u32_max -> note_start_tick n = Z.max 0 t) /\ (u32_max < t -> note_start_tick n = t - 4294967296).
Proof. exact start_tick_spec. Qed.
Print Assumptions C15_start_tick.

Theorem C15_velocity : forall n, u8 (n_base_velocity n) -> valid_trimmer (n_velocity_trimmer n) ->
  note_velocity n = Ret (clamp 0 127 (n_base_velocity n + trim_total (n_velocity_trimmer n))).
Proof. exact velocity_spec. Qed.
Print Assumptions C15_velocity.

Example C15_velocity_case : u8 64 /\ valid_trimmer (trimmer_new 60 60 0 0) /\
  clamp 0 127 (64 + trim_total (trimmer_new 60 60 0 0)) = 127.
Proof. split; [conc|]. split; [apply new_valid; conc|reflexivity]. Qed.

Definition demo_note (tick : Z) (trim vtrim : trimmer) : note :=
  mkNote tick (M_Pitch.mkPitch SA O4 NoAccidental 81 47) duration_default false false 64 trim rate_one vtrim 0.

Example C15_example :
  note_start_tick (demo_note 100 (trimmer_new (-50) (-60) 0 0) trimmer_zero) = 0 /\
  note_start_tick (demo_note 100 (trimmer_new (-50) 10 0 0) trimmer_zero) = 60 /\
  note_velocity (demo_note 0 trimmer_zero (trimmer_new 60 60 0 0)) = Ret 127 /\
  valid_trimmer (trimmer_new (-50) (-60) 0 0).
Proof. split; [reflexivity|]. split; [reflexivity|]. split; [reflexivity|]. apply new_valid; split; vm_compute; congruence. Qed.

(** * C16 *)

Theorem C16_note_shift : forall n d, u32 (n_base_tick n) ->
  let t := n_base_tick n + d in
  (t < 0 -> note_with_tick_added n d false = Ret (Err Minus)) /\
  (u32 t -> exists m, note_with_tick_added n d false = Ret (Ok m) /\ same_but_tick n m /\ n_base_tick m = t).
Proof. exact note_shift_spec. Qed.
Print Assumptions C16_note_shift.

Theorem C16_note_trim_shift : forall n d, u32 (n_base_tick n) -> valid_trimmer (n_tick_trimmer n) ->
  i32 (t_v0 (n_tick_trimmer n) + d) ->
  let t := n_base_tick n + d in
  (t < 0 -> note_with_tick_added n d true = Ret (Err Minus)) /\
  (0 <= t -> exists m, note_with_tick_added n d true = Ret (Ok m) /\ same_but_trim n m /\
     valid_trimmer (n_tick_trimmer m) /\
     trim_total (n_tick_trimmer m) =
       clamp (4 * i16_min) (4 * i16_max) (trim_total (n_tick_trimmer n) + d)).
Proof. exact note_trim_shift_spec. Qed.
Print Assumptions C16_note_trim_shift.

Example C16_note_trim_shift_case : let n := demo_note 100 (trimmer_new 32760 5 0 0) trimmer_zero in
  u32 (n_base_tick n) /\ valid_trimmer (n_tick_trimmer n) /\ i32 (t_v0 (n_tick_trimmer n) + 50) /\
  note_with_tick_added n 50 true = Ret (Ok (demo_note 100 (trimmer_new 32767 48 0 0) trimmer_zero)) /\
  note_with_tick_added n (-101) true = Ret (Err Minus).
Proof. split; [conc|]. split; [apply new_valid; conc|]. conc. Qed.

Theorem C16_note_shift_back : forall n d m, u32 (n_base_tick n) -> u32 (n_base_tick n + d) ->
  note_with_tick_added n d false = Ret (Ok m) -> note_with_tick_added m (- d) false = Ret (Ok n).
Proof. exact note_shift_back. Qed.
Print Assumptions C16_note_shift_back.

Example C16_note_shift_back_case : u32 (100 + 25) /\
  note_with_tick_added (demo_note 100 trimmer_zero trimmer_zero) 25 false = Ret (Ok (demo_note 125 trimmer_zero trimmer_zero)) /\
  note_with_tick_added (demo_note 125 trimmer_zero trimmer_zero) (-25) false = Ret (Ok (demo_note 100 trimmer_zero trimmer_zero)).
Proof. conc. Qed.

Theorem C16_bar_shift : forall b d, u32 (b_tick b) ->
  let t := b_tick b + d in
  (t < 0 -> bar_with_tick_added b d = Err Minus) /\
  (u32 t -> bar_with_tick_added b d = Ok (mkBar t (b_rhythm b) (b_key b) (b_marks b)) /\
            bar_drag b d = mkBar t (b_rhythm b) (b_key b) (b_marks b)).
Proof. exact bar_shift_spec. Qed.
Print Assumptions C16_bar_shift.

Example C16_bar_shift_case : u32 (100 + -40) /\ bar_drag (mkBar 100 (Some (mkRhythm 3 D4)) (Some (-2)) 5) (-40) = mkBar 60 (Some (mkRhythm 3 D4)) (Some (-2)) 5 /\
  bar_with_tick_added (mkBar 100 None None 0) (-101) = Err Minus.
Proof. conc. Qed.

Theorem C16_tempo_shift : forall b d, u32 (tp_tick b) ->
  let t := tp_tick b + d in
  (t < 0 -> tempo_with_tick_added b d = Err Minus) /\
  (u32 t -> tempo_with_tick_added b d = Ok (mkTempo t (tp_value b))).
Proof. exact tempo_shift_spec. Qed.
Print Assumptions C16_tempo_shift.

Example C16_tempo_shift_case : u32 (100 + -40) /\ tempo_with_tick_added (mkTempo 100 120) (-40) = Ok (mkTempo 60 120) /\
  tempo_with_tick_added (mkTempo 100 120) (-101) = Err Minus.
Proof. conc. Qed.

Theorem C16_ctrl_shift : forall b d, u32 (cc_tick b) ->
  let t := cc_tick b + d in
  (t < 0 -> ctrl_with_tick_added b d = Err Minus) /\
  (u32 t -> ctrl_with_tick_added b d = Ok (mkCtrl t (cc_velocity b) (cc_channel b)) /\
            ctrl_drag b d = mkCtrl t (cc_velocity b) (cc_channel b)).
Proof. exact ctrl_shift_spec. Qed.
Print Assumptions C16_ctrl_shift.

Example C16_ctrl_shift_case : u32 (100 + -40) /\ ctrl_drag (mkCtrl 100 127 3) (-40) = mkCtrl 60 127 3 /\
  ctrl_with_tick_added (mkCtrl 100 127 3) (-101) = Err Minus.
Proof. conc. Qed.

(** Dragging a tempo moves both the tick and the value, which is limited to 999. *)
Theorem C16_tempo_drag : forall b d v, u32 (tp_tick b + d) -> 1 <= tp_value b + v <= 65535 ->
  tempo_drag b d v = Ret (mkTempo (tp_tick b + d) (Z.min 999 (tp_value b + v))).
Proof. exact tempo_drag_spec. Qed.
Print Assumptions C16_tempo_drag.

Example C16_tempo_drag_case : u32 (10 + 5) /\ 1 <= 100 + 950 <= 65535 /\ tempo_drag (mkTempo 10 100) 5 950 = Ret (mkTempo 15 999).
Proof. conc. Qed.

Theorem C16_shift_back : forall d,
  (forall b b', u32 (b_tick b) -> u32 (b_tick b + d) ->
     bar_with_tick_added b d = Ok b' -> bar_with_tick_added b' (- d) = Ok b) /\
  (forall b b', u32 (tp_tick b) -> u32 (tp_tick b + d) ->
     tempo_with_tick_added b d = Ok b' -> tempo_with_tick_added b' (- d) = Ok b) /\
  (forall b b', u32 (cc_tick b) -> u32 (cc_tick b + d) ->
     ctrl_with_tick_added b d = Ok b' -> ctrl_with_tick_added b' (- d) = Ok b).
Proof.
  intro d. split; [|split]; intros b b' A B E.
  - destruct (proj2 (bar_shift_spec b d A) B) as [E' _]. rewrite E' in E. injection E as <-.
    destruct (bar_shift_spec (mkBar (b_tick b + d) (b_rhythm b) (b_key b) (b_marks b)) (- d) B) as [_ R].
    cbn [b_tick b_rhythm b_key b_marks] in R. replace (b_tick b + d + - d) with (b_tick b) in R by lia.
    destruct (R A) as [-> _]. destruct b; reflexivity.
  - rewrite (proj2 (tempo_shift_spec b d A) B) in E. injection E as <-.
    destruct (tempo_shift_spec (mkTempo (tp_tick b + d) (tp_value b)) (- d) B) as [_ R].
    cbn [tp_tick tp_value] in R. replace (tp_tick b + d + - d) with (tp_tick b) in R by lia.
    rewrite (R A). destruct b; reflexivity.
  - destruct (proj2 (ctrl_shift_spec b d A) B) as [E' _]. rewrite E' in E. injection E as <-.
    destruct (ctrl_shift_spec (mkCtrl (cc_tick b + d) (cc_velocity b) (cc_channel b)) (- d) B) as [_ R].
    cbn [cc_tick cc_velocity cc_channel] in R. replace (cc_tick b + d + - d) with (cc_tick b) in R by lia.
    destruct (R A) as [-> _]. destruct b; reflexivity.
Qed.
Print Assumptions C16_shift_back.

Example C16_shift_back_case : u32 (60 + 40) /\ bar_with_tick_added (mkBar 60 None (Some 3) 1) 40 = Ok (mkBar 100 None (Some 3) 1) /\
  bar_with_tick_added (mkBar 100 None (Some 3) 1) (-40) = Ok (mkBar 60 None (Some 3) 1).
Proof. conc. Qed.

(** Outside the range a drag is exact up to a multiple of 2^32 and keeps the rest. *)
Theorem C16_drag_wraps : forall d,
  (forall b, exists k, bar_drag b d = mkBar (b_tick b + d + k * 4294967296) (b_rhythm b) (b_key b) (b_marks b) /\
     u32 (b_tick (bar_drag b d))) /\
  (forall b, exists k, ctrl_drag b d = mkCtrl (cc_tick b + d + k * 4294967296) (cc_velocity b) (cc_channel b) /\
     u32 (cc_tick (ctrl_drag b d))) /\
  (forall b v t, tempo_drag b d v = Ret t -> exists k, tp_tick t = tp_tick b + d + k * 4294967296 /\ u32 (tp_tick t)).
Proof.
  assert (K : forall x, exists k, as_u32 x = x + k * 4294967296 /\ u32 (as_u32 x)).
  { intro x. exists (- (x / 4294967296)). unfold as_u32, u32, u32_max.
    pose proof (Z.div_mod x 4294967296 ltac:(lia)). pose proof (Z.mod_pos_bound x 4294967296 ltac:(lia)). lia. }
  intro d. split; [|split].
  - intro b. destruct (K (b_tick b + d)) as (k & E & U). exists k. unfold bar_drag. rewrite <- E. split; [reflexivity|exact U].
  - intro b. destruct (K (cc_tick b + d)) as (k & E & U). exists k. unfold ctrl_drag. rewrite <- E. split; [reflexivity|exact U].
  - intros b v t E. destruct (K (tp_tick b + d)) as (k & E' & U). exists k. unfold tempo_drag in E.
    destruct (chk_i32 (tp_value b + v)) as [z| |]; try discriminate E. cbn [bind] in E.
    destruct (tempo_value_safe_new (as_u16 z)); try discriminate E. cbn [bind] in E. injection E as <-.
    cbn [tp_tick]. rewrite <- E'. split; [reflexivity|exact U].
Qed.
Print Assumptions C16_drag_wraps.

Example C16_drag_wraps_case : bar_drag (mkBar 10 None None 0) (-11) = mkBar (10 + -11 + 1 * 4294967296) None None 0 /\
  ctrl_drag (mkCtrl 4294967295 1 2) 2 = mkCtrl (4294967295 + 2 + -1 * 4294967296) 1 2 /\
  tempo_drag (mkTempo 10 120) (-11) 1 = Ret (mkTempo 4294967295 121).
Proof. conc. Qed.

(** Above the range the tick wraps around instead of being refused. *)
Theorem C16_shift_wraps_refuted : exists n d m, u32 (n_base_tick n) /\ i32 d /\
  note_with_tick_added n d false = Ret (Ok m) /\ n_base_tick m <> n_base_tick n + d.
Proof.
  exists (demo_note 4294967295 trimmer_zero trimmer_zero), 1. eexists.
  split; [split; vm_compute; congruence|]. split; [split; vm_compute; congruence|].
  split; [reflexivity|]. vm_compute. discriminate.
Qed.
Print Assumptions C16_shift_wraps_refuted.

(** Exactly where it comes back: 2^32 ticks earlier, for every kind of event. *)
Theorem C16_shift_above : forall d,
  (forall n, u32_max < n_base_tick n + d <= u32_max + 4294967296 ->
     exists m, note_with_tick_added n d false = Ret (Ok m) /\ same_but_tick n m /\
               n_base_tick m = n_base_tick n + d - 4294967296) /\
  (forall b, u32_max < b_tick b + d <= u32_max + 4294967296 ->
     bar_with_tick_added b d = Ok (mkBar (b_tick b + d - 4294967296) (b_rhythm b) (b_key b) (b_marks b))) /\
  (forall b, u32_max < tp_tick b + d <= u32_max + 4294967296 ->
     tempo_with_tick_added b d = Ok (mkTempo (tp_tick b + d - 4294967296) (tp_value b))) /\
  (forall b, u32_max < cc_tick b + d <= u32_max + 4294967296 ->
     ctrl_with_tick_added b d = Ok (mkCtrl (cc_tick b + d - 4294967296) (cc_velocity b) (cc_channel b))).
Proof.
  assert (K : forall x, u32_max < x <= u32_max + 4294967296 -> as_u32 x = x - 4294967296 /\ (x <? 0) = false).
  { intros x H. unfold u32_max in H. split; [|lia]. unfold as_u32. symmetry. apply Z.mod_unique with 1; lia. }
  intro d. split; [|split; [|split]]; intros n H; destruct (K _ H) as [A B].
  - unfold note_with_tick_added. rewrite B, A. eexists. split; [reflexivity|]. split; [|reflexivity].
    repeat split.
  - unfold bar_with_tick_added. rewrite B, A. reflexivity.
  - unfold tempo_with_tick_added. rewrite B, A. reflexivity.
  - unfold ctrl_with_tick_added. rewrite B, A. reflexivity.
Qed.
Print Assumptions C16_shift_above.

Example C16_shift_above_case : u32_max < 4294967000 + 500 <= u32_max + 4294967296 /\
  bar_with_tick_added (mkBar 4294967000 None None 0) 500 = Ok (mkBar 204 None None 0).
Proof. split; [vm_compute; split; congruence|vm_compute; reflexivity]. Qed.

(** Dragging to a negative tick wraps around. *)
Theorem C16_drag_wraps_refuted : exists b d, u32 (b_tick b) /\ i32 d /\ b_tick (bar_drag b d) <> b_tick b + d.
Proof.
  exists (mkBar 5 None None 0), (-6). split; [split; vm_compute; congruence|].
  split; [split; vm_compute; congruence|]. vm_compute. discriminate.
Qed.
Print Assumptions C16_drag_wraps_refuted.

Example C16_example : exists m,
  note_with_tick_added (demo_note 100 trimmer_zero trimmer_zero) 25 false = Ret (Ok m) /\ n_base_tick m = 125 /\
  note_with_tick_added m (-25) false = Ret (Ok (demo_note 100 trimmer_zero trimmer_zero)) /\
  note_with_tick_added m (-126) false = Ret (Err Minus) /\
  tempo_drag (mkTempo 10 100) 5 950 = Ret (mkTempo 15 999) /\ tempo_drag (mkTempo 10 100) 5 20 = Ret (mkTempo 15 120).
Proof. eexists; repeat split. Qed.

(** * C17 *)

(** All histories of up/down/save-load/shift and of drags that aim at 1..=65535. *)
Theorem C17_tempo_in_range : forall t os t', tempo_history t os t' -> u32 (tp_tick t) ->
  tempo_ok (tp_value t) -> tempo_ok (tp_value t').
Proof. exact tempo_history_ok. Qed.
Print Assumptions C17_tempo_in_range.

Theorem C17_no_panic : forall t o, tempo_ok (tp_value t) ->
  match o with TDrag _ vd => i32 (tp_value t + vd) | _ => True end ->
  exists t', tempo_step t o = Ret t'.
Proof. exact tempo_step_total. Qed.
Print Assumptions C17_no_panic.

Example C17_no_panic_case : tempo_ok 120 /\ i32 (120 + -65000) /\ tempo_step (mkTempo 0 120) (TDrag 0 (-65000)) = Ret (mkTempo 0 656).
Proof. conc. Qed.

(** One step is one beat per minute, refused exactly at the ends of the range; the
    tick of the tempo stays. *)
Theorem C17_step : forall t v, tempo_ok v ->
  (v < 999 -> tempo_up (mkTempo t v) = Ret (Ok (mkTempo t (v + 1)))) /\
  (v = 999 -> tempo_up (mkTempo t v) = Ret (Err 1000)) /\
  (1 < v -> tempo_down (mkTempo t v) = Ret (Ok (mkTempo t (v - 1)))) /\
  (v = 1 -> tempo_down (mkTempo t v) = Ret (Err 1)).
Proof.
  intros t v [A B]. unfold tempo_up, tempo_down, tempo_value_up, tempo_value_down. cbn [tp_value tp_tick].
  unfold chk_u16, chk, in_range, u16_max, tempo_value_new, max_tempo, min_tempo.
  split; [|split; [|split]]; intro H.
  - replace (andb (0 <=? v + 1) (v + 1 <=? 65535)) with true by lia. cbn [bind].
    replace (999 <? v + 1) with false by lia. reflexivity.
  - subst v. reflexivity.
  - replace (v <=? 1) with false by lia. replace (999 <? v - 1) with false by lia. reflexivity.
  - subst v. reflexivity.
Qed.
Print Assumptions C17_step.

Example C17_step_case : tempo_ok 998 /\ tempo_up (mkTempo 7 998) = Ret (Ok (mkTempo 7 999)) /\ tempo_up (mkTempo 7 999) = Ret (Err 1000).
Proof. conc. Qed.

Theorem C17_up_down : forall v v', tempo_ok v -> tempo_value_up v = Ret (Ok v') -> tempo_value_down v' = Ret (Ok v).
Proof. exact tempo_up_down. Qed.
Print Assumptions C17_up_down.

Example C17_up_down_case : tempo_ok 998 /\ tempo_value_up 998 = Ret (Ok 999) /\ tempo_value_down 999 = Ret (Ok 998).
Proof. conc. Qed.

Theorem C17_down_up : forall v v', tempo_ok v -> tempo_value_down v = Ret (Ok v') -> tempo_value_up v' = Ret (Ok v).
Proof. exact tempo_down_up. Qed.
Print Assumptions C17_down_up.

Example C17_down_up_case : tempo_ok 2 /\ tempo_value_down 2 = Ret (Ok 1) /\ tempo_value_up 1 = Ret (Ok 2).
Proof. conc. Qed.

(** Whatever is read from a file is put in the range, and nothing in it is changed. *)
Theorem C17_load : forall v, tempo_ok (tempo_value_deser v) /\ (tempo_ok v -> tempo_value_deser v = v) /\
  (v < 1 -> tempo_value_deser v = 1) /\ (999 < v -> tempo_value_deser v = 999).
Proof.
  intros v. unfold tempo_value_deser, tempo_ok, max_tempo, min_tempo.
  destruct (Z.ltb_spec 999 v); [lia|]. destruct (Z.ltb_spec v 1); lia.
Qed.
Print Assumptions C17_load.

Example C17_load_case : tempo_ok 120 /\ tempo_value_deser 120 = 120 /\ tempo_value_deser 0 = 1 /\ tempo_value_deser 65535 = 999.
Proof. conc. Qed.

(** The value after dragging by any amount a tempo in range can be dragged by: below
    zero it is taken modulo 2^16 before it is limited. *)
Theorem C17_drag_value : forall b d v, tempo_ok (tp_value b) -> i32 (tp_value b + v) ->
  exists t, tempo_drag b d v = Ret t /\ tp_value t = Z.min 999 ((tp_value b + v) mod 65536).
Proof.
  intros b d v T I. unfold tempo_drag, chk_i32. rewrite P_Base.chk_ret by exact I. cbn [bind].
  unfold tempo_value_safe_new, tempo_value_new, max_tempo, as_u16.
  set (x := (tp_value b + v) mod 65536). destruct (Z.ltb_spec 999 x).
  - cbn [bind Z.ltb Z.compare]. eexists. split; [reflexivity|]. cbn [tp_value]. lia.
  - replace (999 <? x) with false by lia. cbn [bind]. eexists. split; [reflexivity|]. cbn [tp_value]. lia.
Qed.
Print Assumptions C17_drag_value.

Example C17_drag_value_case : i32 (120 + -65000) /\
  tempo_drag (mkTempo 0 120) 0 (-65000) = Ret (mkTempo 0 656).
Proof. split; [split; vm_compute; congruence|vm_compute; reflexivity]. Qed.

(** Dragging down to zero leaves the range; dragging below zero jumps to 999. *)
Theorem C17_drag_refuted :
  exists t d, tempo_ok (tp_value t) /\ i32 d /\
    (exists t', tempo_step t (TDrag 0 d) = Ret t' /\ ~ tempo_ok (tp_value t')) /\
    (exists t', tempo_step t (TDrag 0 (d - 1)) = Ret t' /\ tp_value t' = 999).
Proof.
  exists (mkTempo 0 120), (-120). split; [split; discriminate|]. split; [split; vm_compute; congruence|].
  split; eexists; (split; [vm_compute; reflexivity|]).
  - intros [H _]. vm_compute in H. apply H. reflexivity.
  - reflexivity.
Qed.
Print Assumptions C17_drag_refuted.

Example C17_example : tempo_history (mkTempo 0 998) [TUp; TUp; TSaveLoad; TDrag 10 (-900); TDown] (mkTempo 10 98).
Proof. repeat (econstructor; [cbn; repeat split; vm_compute; congruence | vm_compute; reflexivity |]). constructor. Qed.

(** * C18 *)

Theorem C18_snap_nearest : forall g t s, 0 < g -> grid_snap g t = Ret s -> nearest_line g t s.
Proof. exact snap_nearest. Qed.
Print Assumptions C18_snap_nearest.

Theorem C18_snap_defined : forall g t, 0 < g <= u32_max -> -9223372034707292160 <= t <= 9223372034707292160 ->
  exists s, grid_snap g t = Ret s.
Proof. exact snap_defined. Qed.
Print Assumptions C18_snap_defined.

Example C18_snap_defined_case : 0 < 60 <= u32_max /\ grid_snap 60 9223372034707292160 = Ret 9223372034707292160.
Proof. conc. Qed.

Theorem C18_snap_idempotent : forall g t s, 0 < g <= u32_max -> -9223372034707292160 <= t <= 9223372034707292160 ->
  grid_snap g t = Ret s -> i64 (s + g / 2) -> i64 (s - g / 2) -> grid_snap g s = Ret s.
Proof. exact snap_idem. Qed.
Print Assumptions C18_snap_idempotent.

Example C18_snap_idempotent_case : grid_snap 60 (-91) = Ret (-120) /\ i64 (-120 + 60 / 2) /\ i64 (-120 - 60 / 2) /\ grid_snap 60 (-120) = Ret (-120).
Proof. conc. Qed.

Theorem C18_snap_monotone : forall g t t' s s', 0 < g -> t <= t' ->
  grid_snap g t = Ret s -> grid_snap g t' = Ret s' -> s <= s'.
Proof. exact snap_mono. Qed.
Print Assumptions C18_snap_monotone.

Example C18_snap_monotone_case : 89 <= 90 /\ grid_snap 60 89 = Ret 60 /\ grid_snap 60 90 = Ret 120.
Proof. conc. Qed.

Theorem C18_snap_odd : forall g t s s', 0 < g -> grid_snap g t = Ret s -> grid_snap g (- t) = Ret s' -> s' = - s.
Proof. exact snap_odd. Qed.
Print Assumptions C18_snap_odd.

Example C18_snap_odd_case : grid_snap 60 90 = Ret 120 /\ grid_snap 60 (- 90) = Ret (-120).
Proof. conc. Qed.

(** A grid of 0, which the constructor refuses but a file can contain, panics. *)
Theorem C18_loaded_grid_zero_refuted : grid_from_u32 0 = None /\ forall t, grid_snap 0 t = Panic.
Proof. split; reflexivity. Qed.
Print Assumptions C18_loaded_grid_zero_refuted.

Example C18_example : grid_snap 60 89 = Ret 60 /\ grid_snap 60 90 = Ret 120 /\ grid_snap 60 (-90) = Ret (-120) /\
  grid_snap 7 3 = Ret 0 /\ grid_snap 7 4 = Ret 7.
Proof. repeat split. Qed.

(** * C19 *)

(** A refused pair is blamed on the beats if they are wrong, else on the beat unit. *)
Theorem C19_rhythm : forall n d,
  (1 <= n <= 99 -> In d [2; 4; 8; 16; 32; 64] ->
     exists r, rhythm_value_of n d = Ok r /\ rh_num r = n /\ rhythm_den_value (rh_den r) = d /\
               rhythm_tick_len r * d = n * 960 /\ 15 <= rhythm_tick_len r) /\
  (~ (1 <= n <= 99) -> rhythm_value_of n d = Err (RhythmNumeratorError n)) /\
  (1 <= n <= 99 -> ~ In d [2; 4; 8; 16; 32; 64] -> rhythm_value_of n d = Err (RhythmDenominatorError d)).
Proof. exact rhythm_value_of_spec. Qed.
Print Assumptions C19_rhythm.

Example C19_example : rhythm_value_of 6 8 = Ok (mkRhythm 6 D8) /\ rhythm_tick_len (mkRhythm 6 D8) = 720.
Proof. split; reflexivity. Qed.

(** * C49 *)

Theorem C49_clip : forall mn mx v, mn <= mx ->
  mn <= clip mn mx v <= mx /\ (mn <= v <= mx -> clip mn mx v = v) /\
  (v < mn -> clip mn mx v = mn) /\ (mx < v -> clip mn mx v = mx).
Proof. exact clip_spec. Qed.
Print Assumptions C49_clip.

Theorem C49_clip_f32 : forall mn mx v,
  f32_is_nan mn = false -> f32_is_nan mx = false -> f32_is_nan v = false -> f32_le mn mx ->
  let r := clip_gen f32_lt mn mx v in
  f32_le mn r /\ f32_le r mx /\ (f32_lt v mn = false -> f32_lt mx v = false -> r = v).
Proof. exact clip_f32_spec. Qed.
Print Assumptions C49_clip_f32.

Example C49_clip_f32_case : f32_is_nan third = false /\ f32_is_nan three_halves = false /\ f32_le third three_halves /\
  f32_lt (f32_of_Z 1) third = false /\ f32_lt three_halves (f32_of_Z 1) = false /\
  f32_lt three_halves (f32_of_Z 7) = true /\ f32_lt (f32_of_Z 0) third = true.
Proof.
  split; [reflexivity|]. split; [reflexivity|]. split; [apply f32_not_lt; vm_compute; reflexivity|].
  split; [vm_compute; reflexivity|]. split; [vm_compute; reflexivity|]. split; vm_compute; reflexivity.
Qed.

(** NaN is not clipped. *)
Theorem C49_clip_nan_refuted : forall mn mx, clip_gen f32_lt mn mx B754_nan = B754_nan.
Proof. exact clip_f32_nan. Qed.
Print Assumptions C49_clip_nan_refuted.

Theorem C49_play_iter : forall i l, 1 <= play_iter_run (play_iter_new i) l <= 5.
Proof. intros i l. exact (play_iter_run_ok l _ (play_iter_new_ok i)). Qed.
Print Assumptions C49_play_iter.

Theorem C49_play_iter_accepts : forall c i, snd (play_iter_set c i) = true <-> 1 <= i <= 5.
Proof. exact play_iter_set_spec. Qed.
Print Assumptions C49_play_iter_accepts.

(** An accepted number becomes the current one, a refused one changes nothing; a new
    counter takes the nearest number in range. *)
Theorem C49_play_iter_value : forall c i,
  (snd (play_iter_set c i) = true -> fst (play_iter_set c i) = i) /\
  (snd (play_iter_set c i) = false -> fst (play_iter_set c i) = c) /\
  play_iter_new i = Z.max 1 (Z.min 5 i).
Proof.
  intros c i. unfold play_iter_set, play_iter_new, max_iter.
  destruct (andb (0 <? i) (i <=? 5)) eqn:E; cbn; (split; [|split]); try congruence;
    destruct (i <? 1) eqn:A; cbn; try lia; destruct (5 <? i) eqn:B; lia.
Qed.
Print Assumptions C49_play_iter_value.

Example C49_play_iter_value_case : play_iter_set 3 5 = (5, true) /\ play_iter_set 3 6 = (3, false) /\ play_iter_new 0 = 1.
Proof. conc. Qed.

Theorem C49_velocity : forall v, u8 v -> velocity_new v = Z.min v 127 /\ 0 <= velocity_new v <= 127.
Proof. intros v [A B]. unfold velocity_new. destruct (127 <? v) eqn:E; lia. Qed.
Print Assumptions C49_velocity.

Theorem C49_channel : forall v, u8 v -> (v < 16 -> channel_new v = Ret v) /\ (16 <= v -> channel_new v = Panic).
Proof. exact channel_new_spec. Qed.
Print Assumptions C49_channel.

Example C49_channel_case : u8 16 /\ channel_new 16 = Panic.
Proof. conc. Qed.

Example C49_example : clip 0 127 200 = 127 /\ play_iter_run (play_iter_new 0) [3; 9; 0; 4; 6] = 4 /\
  velocity_new 200 = 127 /\ channel_new 15 = Ret 15.
Proof. repeat split. Qed.
