(** Property theorems about edits to one note: C07 (shorter of two), C55. *)
From Coq Require Import ZArith List Bool Lia.
From Verif Require Import Base M_Pitch M_Duration M_Percent M_Scalar M_Bar M_Note.
From Verif Require Import S_Pitch S_Note S_Percent S_Edit P_Base P_Pitch.
From Verif Require T_Values.
Import ListNotations.
Open Scope Z_scope.

Lemma pitch_only n p : changes_only [AtPitch] n (set_pitch n p).
Proof. intros x H. destruct x; cbn; auto. destruct H. now left. Qed.
Lemma duration_only n d : changes_only [NoteValue; Dotting; Division] n (set_duration n d).
Proof. intros x H. destruct x; cbn; auto; destruct H; cbn; tauto. Qed.

Lemma num_eqb_eq a b : num_eqb a b = true <-> a = b.
Proof. unfold num_eqb. split; [|intros ->; apply Z.eqb_refl]. destruct a, b; cbn; congruence. Qed.

(** * C07 *)

(** The shorter of two durations is one of them and lasts no longer than either. *)
Theorem C07_shorter : forall a b, duration_valid a -> duration_valid b ->
  exists d, duration_min a b = Ret d /\ (d = a \/ d = b) /\
    forall t x, tick_length d = Ret t -> (tick_length a = Ret x \/ tick_length b = Ret x) -> t <= x.
Proof.
  intros a b A B. destruct (T_Values.C07_tick_length a A) as (x & X & _). destruct (T_Values.C07_tick_length b B) as (y & Y & _).
  unfold duration_min. rewrite X, Y. cbn [bind]. destruct (Z.ltb_spec x y).
  - exists a. split; [reflexivity|]. split; [now left|]. intros t z T E. assert (t = x) by congruence.
    destruct E; [assert (z = x) by congruence | assert (z = y) by congruence]; lia.
  - exists b. split; [reflexivity|]. split; [now right|]. intros t z T E. assert (t = y) by congruence.
    destruct E; [assert (z = x) by congruence | assert (z = y) by congruence]; lia.
Qed.
Print Assumptions C07_shorter.

Example C07_shorter_example : duration_min (mkDur Half 3 0) (mkDur Quarter 2 1) = Ret (mkDur Half 3 0) /\
  tick_length (mkDur Half 3 0) = Ret 320 /\ tick_length (mkDur Quarter 2 1) = Ret 360.
Proof. repeat split. Qed.

(** * C55 *)

(** Dots are added as long as there are 0 to 7 afterwards; otherwise the count
    that it would have been is reported. *)
Theorem C55_add_dots : forall n k, let dots := d_dots (n_duration n) + k in i32 dots ->
  exists r, note_add_dots n k = Ret r /\
  match r with
  | Ok m => 0 <= dots <= 7 /\ d_dots (n_duration m) = dots /\ changes_only [Dotting] n m
  | Err e => e = dots /\ ~ (0 <= dots <= 7)
  end.
Proof.
  intros n k dots I. unfold note_add_dots. fold dots. unfold chk_i32. rewrite chk_ret by exact I. cbn [bind]. unfold max_dot.
  destruct (Z.ltb_spec dots 0); cbn [orb]; [eexists; split; [reflexivity|]; cbn; lia|].
  destruct (Z.ltb_spec 7 dots); [eexists; split; [reflexivity|]; cbn; lia|].
  rewrite as_u8_id by (unfold u8, u8_max; lia).
  unfold dots_from_value. destruct (Z.ltb_spec 7 dots); [lia|]. cbn [unwrap_opt bind].
  eexists. split; [reflexivity|]. split; [lia|]. split; [reflexivity|].
  intros x X. destruct x; cbn; auto. destruct X. now left.
Qed.
Print Assumptions C55_add_dots.

(** Adding and taking away the same number of dots gives the note back. *)
Theorem C55_dots_back : forall n k m, duration_valid (n_duration n) -> i32 (d_dots (n_duration n) + k) ->
  note_add_dots n k = Ret (Ok m) -> note_add_dots m (- k) = Ret (Ok n) /\ duration_valid (n_duration m).
Proof.
  intros n k m V I E. destruct (C55_add_dots n k I) as (r & R & H). rewrite E in R. injection R as <-.
  destruct H as (B & D & O). destruct V as (VD & VK).
  assert (I' : i32 (d_dots (n_duration m) + - k)) by (rewrite D; unfold i32, i32_min, i32_max; lia).
  destruct (C55_add_dots m (- k) I') as (r & R & H). rewrite D in *.
  destruct r as [m'|e]; [|exfalso; lia]. destruct H as (B' & D' & O'). split.
  - rewrite R. do 2 f_equal.
    assert (P : forall x, x <> Dotting -> same_part x n m') by (intros x X; pose proof (O x) as A; pose proof (O' x) as A';
      destruct x; cbn in *; try congruence;
      try (rewrite A', A by (intros [C|[]]; congruence); auto);
      destruct A as [A1 A2], A' as [A1' A2']; try (intros [C|[]]; congruence); split; congruence).
    pose proof (P AtTick) as P1. pose proof (P AtPitch) as P2. pose proof (P NoteValue) as P3. pose proof (P Division) as P4.
    pose proof (P Ties) as P5. pose proof (P Loudness) as P6. pose proof (P TickTrim) as P7. pose proof (P LengthTrim) as P8.
    pose proof (P LoudnessTrim) as P9. pose proof (P OnChannel) as P10. cbn in *.
    destruct m' as [? ? [? ? ?] ? ? ? ? ? ? ?], n as [? ? [? ? ?] ? ? ? ? ? ? ?]. cbn in *.
    destruct P5 as [? ?]; [congruence|]. f_equal; [apply P1|apply P2| |auto|auto|apply P6|apply P7|apply P8|apply P9|apply P10]; try congruence.
    f_equal; [apply P3|apply P4|]; try congruence. lia.
  - split; [|lia]. rewrite (O Division); [lia|]. intros [C|[]]; congruence.
Qed.
Print Assumptions C55_dots_back.

Example C55_dots_back_case : let n := T_Values.demo_note 100 trimmer_zero trimmer_zero in
  duration_valid (n_duration n) /\ i32 (d_dots (n_duration n) + 3) /\
  exists m, note_add_dots n 3 = Ret (Ok m) /\ d_dots (n_duration m) = 3 /\ note_add_dots m (-3) = Ret (Ok n).
Proof. split; [T_Values.conc|]. split; [T_Values.conc|]. eexists. split; [vm_compute; reflexivity|split; reflexivity]. Qed.

(** With a count of dots that is no i32 it panics. *)
Theorem C55_add_dots_overflow : forall n k, ~ i32 (d_dots (n_duration n) + k) -> note_add_dots n k = Panic.
Proof. intros n k I. unfold note_add_dots. unfold chk_i32. rewrite chk_panic by (unfold i32 in I; lia). reflexivity. Qed.
Print Assumptions C55_add_dots_overflow.

Example C55_add_dots_overflow_case : let n := set_duration (T_Values.demo_note 100 trimmer_zero trimmer_zero) (mkDur Quarter 2 1) in
  ~ i32 (d_dots (n_duration n) + 2147483647) /\ note_add_dots n 2147483647 = Panic.
Proof. split; [intros [_ H]; vm_compute in H; congruence|reflexivity]. Qed.

Theorem C55_numerator : forall n x,
  let m := note_with_duration_numerator n x in d_num (n_duration m) = x /\ changes_only [NoteValue] n m.
Proof.
  intros n x m. subst m. unfold note_with_duration_numerator.
  destruct (num_eqb (d_num (n_duration n)) x) eqn:E; cbn [negb].
  - apply num_eqb_eq in E. split; [exact E|]. intros y _. destruct y; cbn; auto.
  - split; [reflexivity|]. intros y Y. destruct y; cbn; auto. destruct Y. now left.
Qed.
Print Assumptions C55_numerator.

Theorem C55_duration : forall n d,
  let m := note_with_duration n d in n_duration m = d /\ changes_only [NoteValue; Dotting; Division] n m.
Proof. intros n d. split; [reflexivity|]. apply duration_only. Qed.
Print Assumptions C55_duration.

(** The tie button goes round the four states and comes back after four. *)
Theorem C55_tie : forall n,
  let m := note_toggle_tie n in (n_tie m, n_tied m) = next_ties (n_tie n, n_tied n) /\ changes_only [Ties] n m.
Proof.
  intros n m. subst m. unfold note_toggle_tie. destruct (n_tie n) eqn:A, (n_tied n) eqn:B; cbn [n_tie n_tied set_tie_tied];
    (split; [reflexivity|]); intros x X; destruct x; cbn; auto; destruct X; now left.
Qed.
Print Assumptions C55_tie.

Theorem C55_tie_round : forall n a b, (exists k, (k < 4)%nat /\
    let m := Nat.iter k note_toggle_tie n in n_tie m = a /\ n_tied m = b) /\
  note_toggle_tie (note_toggle_tie (note_toggle_tie (note_toggle_tie n))) = n.
Proof.
  intros [t p d [] [] v tt dt vt c] [] []; (split; [|reflexivity]);
    first [exists 0%nat; cbn; split; [lia|now split] | exists 1%nat; cbn; split; [lia|now split]
          | exists 2%nat; cbn; split; [lia|now split] | exists 3%nat; cbn; split; [lia|now split]].
Qed.
Print Assumptions C55_tie_round.

(** Accidentals of a note. *)
Theorem C55_accidentals : forall n f next,
  (f = note_toggle_sharp /\ next = sharp_cycle \/ f = note_toggle_flat /\ next = flat_cycle \/
   f = note_toggle_natural /\ next = natural_cycle) ->
  let p := n_pitch n in let a := next (p_sharp_flat p) in
  match f n with
  | Ok m => p_solfa (n_pitch m) = p_solfa p /\ p_octave (n_pitch m) = p_octave p /\ p_sharp_flat (n_pitch m) = a /\
            valid_pitch (n_pitch m) /\ changes_only [AtPitch] n m
  | Err e => pitch_refused e (p_solfa p) (p_octave p) a
  end.
Proof.
  intros n f next H. cbv zeta. destruct H as [(-> & ->)|[(-> & ->)|(-> & ->)]].
  - pose proof (toggle_sharp_spec (n_pitch n)) as S. unfold note_toggle_sharp.
    destruct (pitch_toggle_sharp (n_pitch n)); cbn in *; [|exact S]. destruct S as (A & B & C & D). auto using pitch_only.
  - pose proof (toggle_flat_spec (n_pitch n)) as S. unfold note_toggle_flat.
    destruct (pitch_toggle_flat (n_pitch n)); cbn in *; [|exact S]. destruct S as (A & B & C & D). auto using pitch_only.
  - pose proof (toggle_natural_spec (n_pitch n)) as S. unfold note_toggle_natural.
    destruct (pitch_toggle_natural (n_pitch n)); cbn in *; [|exact S]. destruct S as (A & B & C & D). auto using pitch_only.
Qed.
Print Assumptions C55_accidentals.

(** One step up or down the staff. *)
Theorem C55_step : forall n f d, valid_pitch (n_pitch n) ->
  (f = note_up_score_offset /\ d = 1 \/ f = note_down_score_offset /\ d = -1) ->
  let p := n_pitch n in
  exists r, f n = Ret r /\
  match r with
  | Ok m => valid_pitch (n_pitch m) /\ p_score_offset (n_pitch m) = p_score_offset p + d /\
            p_sharp_flat (n_pitch m) = p_sharp_flat p /\ changes_only [AtPitch] n m
  | Err _ => forall s o, staff s o = p_score_offset p + d -> ~ midi_ok (midi s o (p_sharp_flat p))
  end.
Proof.
  intros n f d V H. cbv zeta. destruct H as [(-> & ->)|(-> & ->)].
  - destruct (up_result _ V) as (r & R & S). unfold note_up_score_offset. rewrite R. cbn [bind].
    eexists. split; [reflexivity|]. destruct r; cbn; [|exact S]. destruct S as (A & B & C). auto using pitch_only.
  - destruct (down_result _ V) as (r & R & S). unfold note_down_score_offset. rewrite R. cbn [bind].
    eexists. split; [reflexivity|]. destruct r; cbn; [|exact S]. destruct S as (A & B & C). auto using pitch_only.
Qed.
Print Assumptions C55_step.

(** The error of a refused step is about the pitch that would have been reached, or
    about the pitch itself where there is no lower staff position. *)
Theorem C55_step_errors : forall n e, valid_pitch (n_pitch n) ->
  let p := n_pitch n in
  (note_up_score_offset n = Ret (Err e) ->
     exists s o, staff s o = p_score_offset p + 1 /\ pitch_refused e s o (p_sharp_flat p)) /\
  (note_down_score_offset n = Ret (Err e) ->
     p_score_offset p = 0 /\ e = TooLow (p_solfa p) (p_octave p) (p_sharp_flat p) (-1) \/
     exists s o, staff s o = p_score_offset p - 1 /\ pitch_refused e s o (p_sharp_flat p)).
Proof.
  intros n e V p. subst p. unfold note_up_score_offset, note_down_score_offset. split; intro E.
  - destruct (pitch_up (n_pitch n)) as [[q|x]| |] eqn:P; cbn in E; try discriminate. injection E as ->.
    exact (up_error _ _ V P).
  - destruct (pitch_down (n_pitch n)) as [[q|x]| |] eqn:P; cbn in E; try discriminate. injection E as ->.
    exact (down_error _ _ V P).
Qed.
Print Assumptions C55_step_errors.

Example C55_step_errors_case : let n := set_pitch (T_Values.demo_note 100 trimmer_zero trimmer_zero) (canon SC OM2 Sharp) in
  let m := set_pitch n (canon SG O8 NoAccidental) in
  valid_pitch (n_pitch n) /\ note_down_score_offset n = Ret (Err (TooLow SC OM2 Sharp (-1))) /\
  valid_pitch (n_pitch m) /\ note_up_score_offset m = Ret (Err (TooHigh SA O8 NoAccidental 129)).
Proof. T_Values.conc. Qed.

(** Dragging moves the note in time, round the clock beyond either end of the time
    line, and on the staff; where there is no such staff position, or no such pitch, it
    panics. *)
Theorem C55_drag : forall n d s, valid_pitch (n_pitch n) -> i32 (p_score_offset (n_pitch n) + s) ->
  match note_drag n d s with
  | Ret m => n_base_tick m = (n_base_tick n + d) mod 4294967296 /\ (u32 (n_base_tick n + d) -> n_base_tick m = n_base_tick n + d) /\
             valid_pitch (n_pitch m) /\ p_score_offset (n_pitch m) = p_score_offset (n_pitch n) + s /\
             p_sharp_flat (n_pitch m) = p_sharp_flat (n_pitch n) /\ changes_only [AtTick; AtPitch] n m
  | Panic => ~ (0 <= p_score_offset (n_pitch n) + s <= 74) \/
             forall l o, staff l o = p_score_offset (n_pitch n) + s -> ~ midi_ok (midi l o (p_sharp_flat (n_pitch n)))
  | Hang => False
  end.
Proof.
  intros n d s V I. destruct (shift_result _ _ V I) as (r & R & S). unfold note_drag. rewrite R. cbn [bind].
  destruct r as [q|e]; cbn [unwrap bind]; [|exact S]. destruct S as (A & B & C & _).
  split; [reflexivity|]. split; [|split; [exact A|split; [exact B|split; [exact C|]]]].
  - intro U. cbn. now apply as_u32_id.
  - intros x X. destruct x; cbn; auto; destruct X; cbn; tauto.
Qed.
Print Assumptions C55_drag.

(** Even a drag that goes nowhere can panic. *)
Theorem C55_drag_refuted : exists n, valid_note n /\ valid_pitch (n_pitch n) /\ note_drag n 0 0 = Panic.
Proof.
  exists (mkNote 0 (canon SA O8 DoubleFlat) duration_default false false 64 trimmer_zero rate_one trimmer_zero 0).
  split; [|split; [repeat split; vm_compute; discriminate|vm_compute; reflexivity]].
  assert (Z0 : valid_trimmer trimmer_zero) by (split; [repeat constructor; vm_compute; congruence|reflexivity]).
  unfold valid_note, duration_valid. cbn [n_base_tick n_base_velocity n_channel n_duration n_tick_trimmer n_velocity_trimmer n_duration_trimmer].
  repeat match goal with |- _ /\ _ => split end; try exact Z0; try apply or_one; try (unfold u32, u32_max; lia);
    vm_compute; congruence.
Qed.
Print Assumptions C55_drag_refuted.

Example C55_example : let n := T_Values.demo_note 100 trimmer_zero trimmer_zero in
  valid_pitch (n_pitch n) /\ note_add_dots n 8 = Ret (Err 8) /\
  (exists m, note_add_dots n 7 = Ret (Ok m) /\ d_dots (n_duration m) = 7) /\
  (exists m, note_drag n 20 (-3) = Ret m /\ n_base_tick m = 120 /\ p_solfa (n_pitch m) = SE) /\
  (exists m, note_drag n (-101) 0 = Ret m /\ n_base_tick m = 4294967295) /\
  (exists m, note_toggle_sharp n = Ok m /\ p_sharp_flat (n_pitch m) = Sharp).
Proof.
  cbv zeta. split; [repeat split; vm_compute; congruence|]. split; [reflexivity|].
  split; [eexists; split; [vm_compute; reflexivity|reflexivity]|].
  split; [eexists; split; [vm_compute; reflexivity|split; reflexivity]|].
  split; eexists; (split; [vm_compute; reflexivity|reflexivity]).
Qed.
