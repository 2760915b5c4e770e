(** C68: exactly which calls on single values panic, for every argument of the
    machine type. *)
From Coq Require Import ZArith List Bool Lia.
From Verif Require Import Base M_Pitch M_Duration M_Percent M_Scalar M_Note M_Bar M_Store M_Project M_New
  S_Pitch S_Percent S_Note S_Project P_Base P_Pitch P_Percent P_Note P_Store P_Query T_Values T_Note T_Project.
Import ListNotations.
Open Scope Z_scope.

(** ** Octaves and letters *)

(** 9 is the only octave number in reach that makes the look-up panic; the others are
    the two largest numbers, whose sum with 2 overflows. *)
Theorem C68_octave_value : forall v, i32 v ->
  (octave_value_of v = Panic <-> v = 9 \/ v = 2147483646 \/ v = 2147483647) /\ octave_value_of v <> Hang.
Proof.
  intros v V. unfold i32, i32_min, i32_max in V.
  destruct (Z.ltb_spec 2147483645 v).
  - unfold octave_value_of, octave_bias, chk_i32. rewrite chk_panic by (unfold i32_min, i32_max; lia).
    cbn [bind]. split; [split; [lia|reflexivity]|discriminate].
  - destruct (Z.eq_dec v 9) as [->|N].
    + rewrite octave_value_of_9. split; [split; auto|discriminate].
    + destruct (Z_le_dec (-2) v), (Z_le_dec v 8);
        [destruct (octave_value_of_ok v ltac:(lia)) as (o & -> & _)| | |];
        try rewrite octave_value_of_err by (unfold i32, i32_min, i32_max; lia);
        (split; [split; [discriminate|lia]|discriminate]).
Qed.
Print Assumptions C68_octave_value.

(** Raising or lowering an octave panics exactly if it leaves the eleven octaves. *)
Theorem C68_octave_step : forall o r, i32 r ->
  (octave_add o r = Panic <-> ~ -2 <= octave_number o + r <= 8) /\
  (octave_sub o r = Panic <-> ~ -2 <= octave_number o - r <= 8) /\
  (forall q, octave_add o r = Ret q -> octave_number q = octave_number o + r) /\
  (forall q, octave_sub o r = Ret q -> octave_number q = octave_number o - r).
Proof.
  intros o r R. unfold i32, i32_min, i32_max in R.
  assert (N : octave_value o = octave_number o /\ -2 <= octave_number o <= 8) by (destruct o; cbn; lia).
  destruct N as [N B].
  assert (K : forall v, -2147483651 <= v <= 2147483657 ->
    ((let! v := chk_i32 v in let! r := octave_value_of v in unwrap r) = Panic <-> ~ -2 <= v <= 8) /\
    (forall q, (let! v := chk_i32 v in let! r := octave_value_of v in unwrap r) = Ret q -> octave_number q = v)).
  { intros v V. unfold chk_i32. destruct (Z_le_dec i32_min v); [destruct (Z_le_dec v i32_max)|].
    - rewrite chk_ret by lia. cbn [bind]. unfold i32_min, i32_max in *.
      destruct (C68_octave_value v ltac:(unfold i32, i32_min, i32_max; lia)) as [P H].
      destruct (Z_le_dec (-2) v); [destruct (Z_le_dec v 8)|].
      + destruct (octave_value_of_ok v ltac:(lia)) as (q & -> & E). cbn. split; [split; [discriminate|lia]|].
        intros q' [= <-]. exact E.
      + destruct (octave_value_of v) as [[q|e]| |] eqn:E; cbn.
        * exfalso. destruct (Z.eq_dec v 9) as [->|]; [rewrite octave_value_of_9 in E; discriminate|].
          destruct (Z_le_dec v 2147483645); [rewrite octave_value_of_err in E by (unfold i32, i32_min, i32_max; lia); discriminate|].
          destruct P as [_ P]. discriminate (P ltac:(lia)).
        * split; [split; [lia|reflexivity]|discriminate].
        * split; [split; [lia|reflexivity]|discriminate].
        * congruence.
      + rewrite octave_value_of_err by (unfold i32, i32_min, i32_max; lia). cbn. split; [split; [lia|reflexivity]|discriminate].
    - rewrite chk_panic by lia. cbn. unfold i32_max in *. split; [split; [lia|reflexivity]|discriminate].
    - rewrite chk_panic by lia. cbn. unfold i32_min in *. split; [split; [lia|reflexivity]|discriminate]. }
  unfold octave_add, octave_sub. rewrite N.
  destruct (K (octave_number o + r) ltac:(lia)) as [A1 A2]. destruct (K (octave_number o - r) ltac:(lia)) as [B1 B2]. auto.
Qed.
Print Assumptions C68_octave_step.

(** Adding to a letter panics above B, but stops at C; subtracting panics below C, but stops at B
    unless the difference leaves an i32. *)
Theorem C68_letter_step : forall s r, i32 r ->
  (solfa_add s r = Panic <-> 6 < letter_index s + r) /\
  (solfa_sub s r = Panic <-> letter_index s - r < 0 \/ 2147483647 < letter_index s - r) /\
  (forall q, solfa_add s r = Ret q -> letter_index q = Z.max 0 (letter_index s + r)) /\
  (forall q, solfa_sub s r = Ret q -> letter_index q = Z.min 6 (letter_index s - r)).
Proof.
  intros s r R. unfold i32, i32_min, i32_max in R.
  assert (N : solfa_score_offset s = letter_index s /\ 0 <= letter_index s <= 6) by (destruct s; cbn; lia).
  destruct N as [N B].
  assert (F : forall k, exists q, solfa_from_score_offset k = Ret q /\ letter_index q = Z.max 0 (Z.min 6 k)).
  { intro k. unfold solfa_from_score_offset. cbn [solfa_score_offset].
    destruct (Z.ltb_spec k 0); [exists SC; split; [reflexivity|cbn; lia]|].
    destruct (Z.ltb_spec 6 k); [exists SB; split; [reflexivity|cbn; lia]|].
    assert (C : k = 0 \/ k = 1 \/ k = 2 \/ k = 3 \/ k = 4 \/ k = 5 \/ k = 6) by lia.
    destruct C as [->|[->|[->|[->|[->|[->| ->]]]]]]; eexists; split; reflexivity. }
  unfold solfa_add, solfa_sub, chk_i32. rewrite N. cbn [solfa_score_offset].
  split; [|split; [|split]].
  - destruct (Z_le_dec (letter_index s + r) i32_max).
    + rewrite chk_ret by (unfold i32_min in *; lia). cbn [bind]. destruct (Z.ltb_spec 6 (letter_index s + r)); [tauto|].
      destruct (F (letter_index s + r)) as (q & -> & _). split; [discriminate|lia].
    + rewrite chk_panic by lia. cbn. unfold i32_max in *. split; [lia|reflexivity].
  - destruct (Z_le_dec i32_min (letter_index s - r)); [destruct (Z_le_dec (letter_index s - r) i32_max)|].
    + rewrite chk_ret by lia. cbn [bind]. destruct (Z.ltb_spec (letter_index s - r) 0); [tauto|].
      destruct (F (letter_index s - r)) as (q & -> & _). unfold i32_max in *. split; [discriminate|lia].
    + rewrite chk_panic by lia. cbn. unfold i32_max in *. split; [|reflexivity]. lia.
    + rewrite chk_panic by lia. cbn. unfold i32_min in *. split; [lia|reflexivity].
  - intro q. destruct (Z_le_dec (letter_index s + r) i32_max).
    + rewrite chk_ret by (unfold i32_min in *; lia). cbn [bind]. destruct (Z.ltb_spec 6 (letter_index s + r)); [discriminate|].
      destruct (F (letter_index s + r)) as (q' & -> & E). intros [= <-]. rewrite E. lia.
    + rewrite chk_panic by lia. discriminate.
  - intro q. destruct (Z_le_dec i32_min (letter_index s - r)); [destruct (Z_le_dec (letter_index s - r) i32_max)|].
    + rewrite chk_ret by lia. cbn [bind]. destruct (Z.ltb_spec (letter_index s - r) 0); [discriminate|].
      destruct (F (letter_index s - r)) as (q' & -> & E). intros [= <-]. rewrite E. lia.
    + rewrite chk_panic by lia. discriminate.
    + rewrite chk_panic by lia. discriminate.
Qed.
Print Assumptions C68_letter_step.

(** ** Pitches and notes *)

(** Naming a pitch panics exactly if it is not one of the 128 MIDI notes. *)
Theorem C68_pitch_new : forall s o a,
  (pitch_new s o a = Panic <-> ~ midi_ok (midi s o a)) /\ pitch_new s o a <> Hang.
Proof.
  intros s o a. pose proof (value_of_spec s o a) as N. unfold pitch_new.
  destruct (pitch_value_of s o a) as [q|e] eqn:E; cbn.
  - apply value_of_inv in E as [-> M]. split; [split; [discriminate|intro C; destruct (C M)]|discriminate].
  - split; [|discriminate]. split; [intros _|reflexivity]. unfold named_or_error in N. exact (refused_not _ _ _ _ N).
Qed.
Print Assumptions C68_pitch_new.

(** Stepping never panics; transposing panics exactly if the sum overflows; moving a
    note panics in addition where transposing would have refused. *)
Theorem C68_moves : forall n d k, valid_pitch (n_pitch n) -> i32 k ->
  let p := n_pitch n in let so := p_score_offset p + k in
  pitch_up p <> Panic /\ pitch_down p <> Panic /\
  (pitch_with_score_offset_delta p k = Panic <-> 2147483647 < so) /\
  (note_drag n d k = Panic <->
     ~ 0 <= so <= 74 \/ forall s o, staff s o = so -> ~ midi_ok (midi s o (p_sharp_flat p))).
Proof.
  intros n d k V K p so.
  assert (B : 0 <= p_score_offset p <= 76) by (destruct V as (_ & E & _); subst p; rewrite E; apply staff_range).
  unfold i32, i32_min, i32_max in K.
  destruct (up_result p V) as (u & U & _). destruct (down_result p V) as (w & W & _).
  split; [rewrite U; discriminate|]. split; [rewrite W; discriminate|].
  destruct (Z_le_dec so 2147483647).
  - destruct (shift_result p k V ltac:(unfold i32, i32_min, i32_max; subst so; lia)) as (r & R & S).
    split; [rewrite R; split; [discriminate|lia]|].
    unfold note_drag. change (n_pitch n) with p. rewrite R. cbn [bind]. fold so in S. destruct r as [q|e]; cbn.
    + split; [discriminate|]. destruct S as (Q & E & A & I). intros [C|C]; [contradiction|].
      destruct Q as (Q1 & Q2 & Q3). exfalso. apply (C (p_solfa q) (p_octave q)); [lia|].
      rewrite <- A, <- Q1. exact Q3.
    + tauto.
  - assert (R : pitch_with_score_offset_delta p k = Panic).
    { unfold pitch_with_score_offset_delta, chk_i32. fold so. rewrite chk_panic by (unfold i32_max; lia). reflexivity. }
    unfold note_drag. change (n_pitch n) with p. rewrite R. cbn. split; [split; [lia|reflexivity]|].
    split; [intros _; left; lia|reflexivity].
Qed.
Print Assumptions C68_moves.

(** The length of a note, for whatever dots and divisor a file may contain. *)
Theorem C68_length : forall n, u8 (d_den (n_duration n)) -> u8 (d_dots (n_duration n)) ->
  u16 (r_sum (n_duration_trimmer n)) ->
  let d := n_duration n in
  let bad := d_den d = 0 \/ 32 <= d_dots d in
  (tick_length d = Panic <-> bad) /\ (note_tick_len n = Panic <-> bad).
Proof.
  intros n D K R d bad. unfold u8, u8_max in D, K. fold d in D, K.
  assert (L : (tick_length d = Panic /\ bad) \/ (exists t, tick_length d = Ret t /\ u32 t /\ ~ bad)).
  { subst bad. unfold tick_length.
    set (len := (if num_ord (d_num d) <=? 2 then shl32 tick_resolution (2 - num_ord (d_num d))
                 else shr32 tick_resolution (num_ord (d_num d) - 2))).
    assert (E : exists l, len = Ret l /\ 0 <= l <= 960).
    { subst len. destruct (d_num d); eexists; (split; [vm_compute; reflexivity|lia]). }
    destruct E as (l & -> & Bl). cbn [bind].
    destruct ((d_dots d =? 0) && (d_den d =? 2)) eqn:E0.
    - apply andb_prop in E0 as [A B]. apply Z.eqb_eq in A, B. right. exists l. unfold u32, u32_max. split; [reflexivity|lia].
    - unfold shr32. destruct (Z.ltb_spec (d_dots d) 32); [|left; cbn; split; [reflexivity|lia]]. cbn [bind].
      assert (H1 : 0 <= Z.shiftr l (d_dots d) <= l).
      { rewrite Z.shiftr_div_pow2 by lia. split; [apply Z.div_pos; [lia|apply Z.pow_pos_nonneg; lia]|].
        apply Z.div_le_upper_bound; [apply Z.pow_pos_nonneg; lia|]. pose proof (Z.pow_pos_nonneg 2 (d_dots d)). nia. }
      set (h := Z.shiftr l (d_dots d)) in *. unfold chk_u32, chk_i64.
      rewrite chk_ret by (unfold u32_max; lia). cbn [bind].
      rewrite chk_ret by (unfold u32_max; lia). cbn [bind].
      rewrite chk_ret by (unfold i64_min, i64_max; lia). cbn [bind].
      destruct (Z.eqb_spec (d_den d) 0); [left; split; [reflexivity|lia]|].
      right. eexists. split; [reflexivity|]. split; [|lia]. unfold u32, u32_max, as_u32.
      pose proof (Z.mod_pos_bound ((l + (l - h)) * 2 ÷ d_den d) 4294967296). lia. }
  unfold note_tick_len, rate_apply. fold d. destruct L as [[-> B]|(t & -> & U & B)]; cbn [bind].
  - split; (split; [auto|reflexivity]).
  - split; [split; [discriminate|contradiction]|]. rewrite apply_exact by auto. split; [discriminate|contradiction].
Qed.
Print Assumptions C68_length.

(** Dots, trims and moves in time. *)
Theorem C68_note_values : forall n k is_trim, valid_note n -> i32 k ->
  (note_add_dots n k = Panic <-> 2147483647 < d_dots (n_duration n) + k) /\
  (note_with_tick_added n k is_trim = Panic <->
     is_trim = true /\ 0 <= n_base_tick n + k /\ ~ i32 (t_v0 (n_tick_trimmer n) + k)) /\
  (trimmer_added (n_tick_trimmer n) k = Panic <-> ~ i32 (t_v0 (n_tick_trimmer n) + k)) /\
  note_velocity n <> Panic.
Proof.
  intros n k is_trim (U & Ve & _ & (_ & Do) & T & TV & _) K. unfold i32, i32_min, i32_max in K.
  assert (TA : trimmer_added (n_tick_trimmer n) k = Panic <-> ~ i32 (t_v0 (n_tick_trimmer n) + k)).
  { destruct T as [T _]. split; [|apply trimmer_added_panic]. intros E I.
    destruct (trimmer_added_spec _ _ T I) as (u & F & _). congruence. }
  split; [|split; [|split; [exact TA|]]].
  - destruct (Z_le_dec (d_dots (n_duration n) + k) 2147483647).
    + destruct (T_Note.C55_add_dots n k) as (r & R & _); [unfold i32, i32_min, i32_max; lia|].
      rewrite R. split; [discriminate|lia].
    + rewrite (T_Note.C55_add_dots_overflow n k) by (unfold i32, i32_min, i32_max; lia). split; [lia|reflexivity].
  - unfold note_with_tick_added. destruct (Z.ltb_spec (n_base_tick n + k) 0).
    + split; [discriminate|lia].
    + destruct is_trim; [|split; [discriminate|intros [[=] _]]].
      destruct (trimmer_added (n_tick_trimmer n) k) as [u| |] eqn:E; cbn [bind].
      * split; [discriminate|]. intros (_ & _ & N). apply TA in N. discriminate N.
      * split; [intros _|reflexivity]. split; [reflexivity|]. split; [assumption|]. apply TA. reflexivity.
      * split; [discriminate|]. intros (_ & _ & N). apply TA in N. discriminate N.
  - rewrite velocity_spec by (try exact TV; unfold u8, u8_max; lia). discriminate.
Qed.
Print Assumptions C68_note_values.

(** ** Tempos, channels, grids *)

Theorem C68_tempo : forall tick v d k, u16 v -> i32 k ->
  (tempo_value_new v = Panic <-> 999 < v) /\
  (tempo_value_up v = Panic <-> v = 65535) /\
  (tempo_value_down v = Panic <-> 1000 < v) /\
  (tempo_drag (mkTempo tick v) d k = Panic <-> 2147483647 < v + k) /\
  tempo_value_safe_new v <> Panic.
Proof.
  intros tick v d k [V1 V2] K. unfold u16_max, i32, i32_min, i32_max in *.
  assert (S : forall x, tempo_value_safe_new x <> Panic).
  { intro x. unfold tempo_value_safe_new, tempo_value_new, max_tempo. destruct (Z.ltb_spec 999 x); [vm_compute; discriminate|].
    destruct (Z.ltb_spec 999 x); [lia|discriminate]. }
  split; [|split; [|split; [|split; [|apply S]]]].
  - unfold tempo_value_new, max_tempo. destruct (Z.ltb_spec 999 v); split; (discriminate || lia || auto).
  - unfold tempo_value_up, chk_u16. destruct (Z.eq_dec v 65535) as [->|].
    + split; reflexivity.
    + rewrite chk_ret by (unfold u16_max; lia). cbn [bind]. unfold tempo_value_new.
      destruct (max_tempo <? v + 1); (split; [discriminate|lia]).
  - unfold tempo_value_down, tempo_value_new, min_tempo, max_tempo. destruct (Z.leb_spec v 1); [split; [discriminate|lia]|].
    destruct (Z.ltb_spec 999 (v - 1)); cbn; split; (discriminate || lia || auto).
  - unfold tempo_drag. cbn [tp_value tp_tick]. unfold chk_i32. destruct (Z_le_dec (v + k) 2147483647).
    + rewrite chk_ret by (unfold i32_min, i32_max; lia). cbn [bind].
      destruct (tempo_value_safe_new (as_u16 (v + k))) as [x| |] eqn:E; cbn [bind]; [|destruct (S _ E)|]; (split; [discriminate|lia]).
    + rewrite chk_panic by (unfold i32_max; lia). cbn. split; [lia|reflexivity].
Qed.
Print Assumptions C68_tempo.

Theorem C68_channel : forall v, u8 v -> (channel_new v = Panic <-> 15 < v) /\ (forall w, channel_new v = Ret w -> w = v).
Proof.
  intros v V. unfold channel_new. destruct (Z.ltb_spec v 16); (split; [split; (discriminate || lia || auto)|]); congruence.
Qed.
Print Assumptions C68_channel.

(** Snapping panics exactly for grid 0, which only a file can contain, and if half the
    grid away from 0 is beyond an i64. *)
Theorem C68_snap : forall g t, u32 g -> i64 t ->
  grid_snap g t = Panic <-> g = 0 \/ i64_max < t + g / 2 \/ t < 0 /\ t - g / 2 < i64_min.
Proof.
  intros g t [G1 G2] [T1 T2]. unfold grid_snap. unfold u32_max in *.
  destruct (Z.eqb_spec g 0) as [->|N]; [split; auto|].
  rewrite Z.quot_div_nonneg by lia. assert (H : 0 <= g / 2 <= g) by (split; [apply Z.div_pos; lia|apply Z.div_le_upper_bound; lia]).
  assert (Q : forall a, i64_min <= a <= i64_max -> exists z, chk_i64 (g * (a ÷ g)) = Ret z).
  { intros a A. eexists. apply chk_ret. pose proof (Z.quot_rem a g N) as E. unfold i64_min, i64_max in *.
    destruct (Z_le_dec 0 a).
    - pose proof (Z.rem_bound_pos a g ltac:(lia) ltac:(lia)). pose proof (Z.quot_pos a g ltac:(lia) ltac:(lia)). nia.
    - pose proof (Z.rem_bound_pos (- a) g ltac:(lia) ltac:(lia)) as B. rewrite Z.rem_opp_l in B by auto.
      pose proof (Z.quot_pos (- a) g ltac:(lia) ltac:(lia)) as P. rewrite Z.quot_opp_l in P by auto. nia. }
  unfold chk_i64 at 1 3. destruct (Z.ltb_spec t 0).
  - destruct (Z_le_dec i64_min (t - g / 2)).
    + rewrite chk_ret by (unfold i64_max in *; lia). cbn [bind].
      destruct (Q (t - g / 2)) as (z & ->); [unfold i64_max in *; lia|]. unfold i64_max in *. split; [discriminate|lia].
    + rewrite chk_panic by lia. cbn. split; [lia|reflexivity].
  - destruct (Z_le_dec (t + g / 2) i64_max).
    + rewrite chk_ret by (unfold i64_min in *; lia). cbn [bind].
      destruct (Q (t + g / 2)) as (z & ->); [unfold i64_min in *; lia|]. split; [discriminate|lia].
    + rewrite chk_panic by lia. cbn. split; [lia|reflexivity].
Qed.
Print Assumptions C68_snap.

(** ** Locations *)

(** The whole behaviour of going to a location, for every location: it panics exactly
    if the bar number is a u32 other than 0 and the tick exceeds a usize. *)
Theorem C68_location : forall p l, project_ok p -> Z.of_nat (length (pj_bars p)) <= u32_max ->
  valid_rhythms p -> usize (loc_bar l) -> usize (loc_offset l) ->
  exists r, rhythm_at p (last_tick p) = Ret r /\
    let t := bar_start p (rhythm_tick_len r) (loc_bar l) + loc_offset l in
    (location_to_tick p l = Panic <-> 1 <= loc_bar l <= u32_max /\ usize_max < t) /\
    (forall u, location_to_tick p l = Ret (Ok u) <-> u = t /\ t <= u32_max) /\
    (location_to_tick p l = Ret (Err Overflow) <-> u32_max < t /\ (loc_bar l = 0 \/ u32_max < loc_bar l \/ t <= usize_max)) /\
    location_to_tick p l <> Hang.
Proof.
  intros p l O N R [B1 B2] [F1 F2].
  destruct (location_to_tick_exact p l (ok_bars p O) N R B1 F1) as (r & E & D). exists r. split; [exact E|].
  cbv zeta. set (t := bar_start p (rhythm_tick_len r) (loc_bar l) + loc_offset l) in *. rewrite D. unfold fits.
  unfold u32_max, usize_max in *.
  destruct (Z.leb_spec 1 (loc_bar l)), (Z.leb_spec (loc_bar l) 4294967295), (Z.ltb_spec 18446744073709551615 t),
    (Z.ltb_spec 4294967295 t); cbn [andb]; repeat split; intros; try discriminate; try lia; try congruence;
    try (f_equal; f_equal; lia).
Qed.
Print Assumptions C68_location.

(** Every condition is met by some call and missed by another. *)
Definition xn (t : Z) (p : pitch) (d : duration) : note :=
  mkNote t p d false false 64 (trimmer_new 5 0 0 0) rate_one trimmer_zero 0.

Lemma xn_valid : valid_note (xn 100 (canon SB O4 Sharp) (mkDur Quarter 3 1)) /\
  valid_pitch (n_pitch (xn 100 (canon SB O4 Sharp) (mkDur Quarter 3 1))).
Proof.
  assert (Z0 : forall k, i16 k -> valid_trimmer (trimmer_new k 0 0 0)).
  { intros k K. split; [|unfold trim_total, trimmer_new; cbn; lia]. unfold trim_values, trimmer_new. cbn [t_v0 t_v1 t_v2 t_v3].
    repeat (constructor; [first [exact K|vm_compute; split; discriminate]|]). constructor. }
  split; [|repeat split; vm_compute; discriminate].
  unfold valid_note, duration_valid, xn.
  cbn [n_base_tick n_base_velocity n_channel n_duration n_tick_trimmer n_velocity_trimmer n_duration_trimmer d_den d_dots].
  repeat match goal with |- _ /\ _ => split end; try (unfold u32, u32_max; lia); try lia; try apply or_one;
    apply Z0; vm_compute; split; discriminate.
Qed.

Example C68_example :
  let n := xn 100 (canon SB O4 Sharp) (mkDur Quarter 3 1) in
  octave_value_of 9 = Panic /\ octave_value_of 10 = Ret (Err 12) /\ octave_add O7 1 = Ret O8 /\ octave_add O7 2 = Panic /\
  solfa_add SG 2 = Ret SB /\ solfa_add SG 3 = Panic /\ solfa_add SG (-9) = Ret SC /\ solfa_sub SD 2 = Panic /\
  pitch_new SA O8 NoAccidental = Panic /\ (exists p, pitch_new SG O8 NoAccidental = Ret p) /\
  (exists m, note_drag n 3 2 = Ret m) /\ note_drag n 3 40 = Panic /\
  (exists e, pitch_with_score_offset_delta (n_pitch n) 40 = Ret (Err e)) /\
  pitch_with_score_offset_delta (n_pitch n) 2147483647 = Panic /\
  note_tick_len n = Ret 240 /\ tick_length (mkDur Quarter 2 31) = Ret 480 /\ tick_length (mkDur Quarter 2 32) = Panic /\
  note_with_tick_added n 2147483647 true = Panic /\ (exists m, note_with_tick_added n 2147483647 false = Ret (Ok m)) /\
  tempo_value_down 1001 = Panic /\ tempo_value_down 1000 = Ret (Ok 999) /\
  grid_snap 60 i64_max = Panic /\ grid_snap 60 (i64_max - 30) = Ret 9223372036854775800 /\
  location_to_tick ex_project (mkLoc 1 usize_max) = Panic /\
  location_to_tick ex_project (mkLoc 0 usize_max) = Ret (Err Overflow).
Proof.
  cbv zeta. repeat match goal with |- _ /\ _ => split end; try (vm_compute; reflexivity); eexists; vm_compute; reflexivity.
Qed.
