From Verif Require Import P_Base M_Pitch M_Duration M_Percent M_Scalar M_Bar M_Note S_Percent S_Note P_Percent.
Open Scope Z_scope.

(** ** C07 *)
Definition len_of (n : numerator) (k : Z) : Z := 2 * plain_length n - plain_length n / 2 ^ k.

Lemma dots_cases k : 0 <= k <= 7 -> k = 0 \/ k = 1 \/ k = 2 \/ k = 3 \/ k = 4 \/ k = 5 \/ k = 6 \/ k = 7.
Proof. lia. Qed.

Lemma tick_length_closed d : duration_valid d ->
  tick_length d = Ret (2 * len_of (d_num d) (d_dots d) / d_den d).
Proof.
  destruct d as [n x k]. intros [Hd Hk]; cbn [d_num d_den d_dots] in *.
  unfold tick_length; cbn [d_num d_den d_dots].
  assert (G : exists L h, (if num_ord n <=? 2 then shl32 tick_resolution (2 - num_ord n) else shr32 tick_resolution (num_ord n - 2)) = Ret L
     /\ shr32 L k = Ret h /\ L = plain_length n /\ h = plain_length n / 2 ^ k /\ 0 <= h <= L /\ L <= 960 /\ (k = 0 -> h = L)).
  { destruct n; apply dots_cases in Hk as [-> | [-> | [-> | [-> | [-> | [-> | [-> | ->]]]]]]];
      do 2 eexists; repeat split; try reflexivity; try (vm_compute; congruence). }
  destruct G as (L & h & -> & G2 & -> & Gh & Hh & HL & Hz). cbn [bind]. unfold len_of. rewrite <- Gh.
  destruct ((k =? 0) && (x =? 2)) eqn:E.
  - assert (k = 0) by lia. assert (x = 2) by lia. subst. rewrite Hz by auto. f_equal. lia.
  - rewrite G2. cbn [bind]. unfold chk_u32, chk_i64, u32_max, i64_min, i64_max.
    rewrite chk_ret by lia. cbn [bind]. rewrite chk_ret by lia. cbn [bind]. rewrite chk_ret by lia. cbn [bind].
    destruct (Z.eqb_spec x 0); [lia|]. f_equal.
    rewrite Z.quot_div_nonneg by lia.
    replace ((plain_length n + (plain_length n - h)) * 2) with (2 * (2 * plain_length n - h)) by lia.
    apply as_u32_id. unfold u32, u32_max. split; [apply Z.div_pos; lia|].
    assert (2 * (2 * plain_length n - h) / x <= 2 * (2 * plain_length n - h) / 1); [|rewrite Z.div_1_r in *; lia].
    apply Z.div_le_compat_l; lia.
Qed.

Lemma dotted_len_of n k : 0 <= k <= 7 -> dotted n k (len_of n k).
Proof.
  intros Hk. unfold dotted, len_of.
  destruct n; apply dots_cases in Hk as [-> | [-> | [-> | [-> | [-> | [-> | [-> | ->]]]]]]]; vm_compute; split; congruence.
Qed.

Lemma dotted_unique n k L L' : 0 <= k -> dotted n k L -> dotted n k L' -> L = L'.
Proof.
  unfold dotted. intros Hk H1 H2. assert (0 < 2 ^ k) by (apply Z.pow_pos_nonneg; lia).
  set (q := 2 ^ k) in *. set (m := plain_length n * (2 * q - 1)) in *. nia.
Qed.

Lemma lasts_unique d t t' : duration_valid d -> lasts d t -> lasts d t' -> t = t'.
Proof.
  intros [Hd Hk] (L & H1 & H2) (L' & H1' & H2').
  rewrite (dotted_unique _ _ _ _ (proj1 Hk) H1 H1') in *. nia.
Qed.

Lemma tick_length_lasts d : duration_valid d -> exists t, tick_length d = Ret t /\ lasts d t.
Proof.
  intros H. rewrite (tick_length_closed d H). eexists; split; [reflexivity|].
  destruct H as [Hd Hk]. exists (len_of (d_num d) (d_dots d)). split; [apply dotted_len_of; auto|].
  set (a := 2 * len_of (d_num d) (d_dots d)). clearbody a. split.
  - apply Z.mul_div_le; lia.
  - pose proof (Z.mul_succ_div_gt a (d_den d)). lia.
Qed.

Lemma len_of_bound n k : 0 <= k <= 7 -> 7 <= len_of n k <= 1913.
Proof.
  intros Hk. destruct n; apply dots_cases in Hk as [-> | [-> | [-> | [-> | [-> | [-> | [-> | ->]]]]]]]; vm_compute; split; congruence.
Qed.

Lemma tick_length_bound d t : duration_valid d -> tick_length d = Ret t -> 0 <= t <= 1913.
Proof.
  intros H E. rewrite (tick_length_closed d H) in E. apply ret_inj in E. subst t. destruct H as [Hd Hk].
  pose proof (len_of_bound (d_num d) _ Hk) as B. set (a := len_of (d_num d) (d_dots d)) in *. clearbody a.
  split; [apply Z.div_pos; lia|].
  assert (2 * a / d_den d <= 2 * a / 2) by (apply Z.div_le_compat_l; lia).
  replace (2 * a / 2) with a in H by (rewrite Z.mul_comm, Z.div_mul; lia). lia.
Qed.

Lemma len_of_mono n k k' : 0 <= k <= k' -> k' <= 7 -> len_of n k <= len_of n k'.
Proof.
  intros H1 H2. unfold len_of.
  assert (plain_length n / 2 ^ k' <= plain_length n / 2 ^ k); [|lia].
  apply Z.div_le_compat_l; [destruct n; vm_compute; congruence|].
  split; [apply Z.pow_pos_nonneg; lia|apply Z.pow_le_mono_r; lia].
Qed.

Lemma tick_length_mono n x x' k k' t t' :
  2 <= x' <= x -> x <= 255 -> 0 <= k <= k' -> k' <= 7 ->
  tick_length (mkDur n x k) = Ret t -> tick_length (mkDur n x' k') = Ret t' -> t <= t'.
Proof.
  intros Hx Hx' Hk Hk' E E'.
  rewrite tick_length_closed in E by (split; cbn; lia). rewrite tick_length_closed in E' by (split; cbn; lia).
  cbn [d_num d_den d_dots] in *. apply ret_inj in E, E'. subst t t'.
  pose proof (len_of_mono n k k' Hk Hk'). pose proof (len_of_bound n k ltac:(lia)).
  transitivity (2 * len_of n k / x').
  - apply Z.div_le_compat_l; lia.
  - apply Z.div_le_mono; lia.
Qed.

Lemma tick_length_plain n : tick_length (mkDur n 2 0) = Ret (plain_length n).
Proof. destruct n; reflexivity. Qed.

(** ** C08 *)
Lemma longest : longest_tick_len = Ret 3826.
Proof. vm_compute. reflexivity. Qed.

Lemma note_tick_len_bound n : duration_valid (n_duration n) -> obtainable_rate (n_duration_trimmer n) ->
  exists t l, note_tick_len n = Ret t /\ longest_tick_len = Ret l /\ 0 <= t <= l.
Proof.
  intros Hd Hr. destruct (tick_length_lasts _ Hd) as (t & Et & _).
  pose proof (tick_length_bound _ _ Hd Et) as Ht. pose proof (obtainable_rate_sum _ Hr) as Hs.
  exists (t * r_sum (n_duration_trimmer n) / 1000), 3826.
  unfold note_tick_len. rewrite Et. cbn [bind]. unfold rate_apply.
  rewrite apply_floor by lia. split; [reflexivity|]. split; [apply longest|].
  split; [apply Z.div_pos; nia|]. apply Z.div_le_upper_bound; nia.
Qed.

Lemma note_tick_len_exact n t : duration_valid (n_duration n) -> obtainable_rate (n_duration_trimmer n) ->
  lasts (n_duration n) t -> note_tick_len n = Ret (t * r_sum (n_duration_trimmer n) / 1000).
Proof.
  intros Hd Hr Hl. destruct (tick_length_lasts _ Hd) as (t' & Et & Hl').
  rewrite (lasts_unique _ _ _ Hd Hl Hl'). pose proof (tick_length_bound _ _ Hd Et).
  pose proof (obtainable_rate_sum _ Hr). unfold note_tick_len. rewrite Et. cbn [bind].
  unfold rate_apply. apply apply_floor; lia.
Qed.

(** ** C15 *)
Lemma trim_total_range t : valid_trimmer t -> 4 * i16_min <= t_sum t <= 4 * i16_max.
Proof.
  intros H. pose proof (trim_range t H) as (A & B & C & D). destruct H as [_ ->].
  unfold trim_total, trim_values, i16, i16_min, i16_max in *. cbn. lia.
Qed.

Lemma start_tick_spec n : u32 (n_base_tick n) -> valid_trimmer (n_tick_trimmer n) ->
  let t := n_base_tick n + trim_total (n_tick_trimmer n) in
  (t <= u32_max -> note_start_tick n = Z.max 0 t) /\ (u32_max < t -> note_start_tick n = t - 4294967296).
Proof.
  intros Hb Hv. pose proof (trim_total_range _ Hv). destruct Hv as [_ E]. cbv zeta. rewrite <- E.
  unfold note_start_tick, as_u32. unfold u32, u32_max, i16_min, i16_max in *.
  split; intros; destruct (Z.ltb_spec (n_base_tick n + t_sum (n_tick_trimmer n)) 0); lia.
Qed.

Lemma velocity_spec n : u8 (n_base_velocity n) -> valid_trimmer (n_velocity_trimmer n) ->
  note_velocity n = Ret (clamp 0 127 (n_base_velocity n + trim_total (n_velocity_trimmer n))).
Proof.
  intros Hb Hv. pose proof (trim_total_range _ Hv). destruct Hv as [_ E]. rewrite <- E.
  unfold note_velocity, chk_i32. unfold u8, u8_max, i16_min, i16_max in *.
  rewrite chk_ret by (unfold i32_min, i32_max; lia). cbn [bind]. f_equal. unfold clamp.
  set (v := n_base_velocity n + t_sum (n_velocity_trimmer n)) in *.
  destruct (Z.ltb_spec v 0); [lia|]. destruct (Z.ltb_spec 127 v); [lia|].
  rewrite as_u8_id by (unfold u8, u8_max; lia). unfold velocity_new. destruct (Z.ltb_spec 127 v); lia.
Qed.

(** ** C16 *)
Lemma note_shift_spec n d : u32 (n_base_tick n) ->
  let t := n_base_tick n + d in
  (t < 0 -> note_with_tick_added n d false = Ret (Err Minus)) /\
  (u32 t -> exists m, note_with_tick_added n d false = Ret (Ok m) /\ same_but_tick n m /\ n_base_tick m = t).
Proof.
  intros Hb. cbv zeta. unfold note_with_tick_added. split.
  - intros H. destruct (Z.ltb_spec (n_base_tick n + d) 0); [reflexivity|lia].
  - intros H. destruct (Z.ltb_spec (n_base_tick n + d) 0); [unfold u32 in H; lia|].
    eexists; split; [reflexivity|]. unfold same_but_tick, set_base_tick; cbn.
    rewrite as_u32_id by auto. repeat split.
Qed.

Lemma note_trim_shift_spec n d : u32 (n_base_tick n) -> valid_trimmer (n_tick_trimmer n) ->
  i32 (t_v0 (n_tick_trimmer n) + d) ->
  let t := n_base_tick n + d in
  (t < 0 -> note_with_tick_added n d true = Ret (Err Minus)) /\
  (0 <= t -> exists m, note_with_tick_added n d true = Ret (Ok m) /\ same_but_trim n m /\
     valid_trimmer (n_tick_trimmer m) /\
     trim_total (n_tick_trimmer m) =
       clamp (4 * i16_min) (4 * i16_max) (trim_total (n_tick_trimmer n) + d)).
Proof.
  intros Hb Hv Hd. cbv zeta. unfold note_with_tick_added. split.
  - intros H. destruct (Z.ltb_spec (n_base_tick n + d) 0); [reflexivity|lia].
  - intros H. destruct (Z.ltb_spec (n_base_tick n + d) 0); [lia|].
    destruct Hv as [Hv _]. destruct (trimmer_added_spec _ _ Hv Hd) as (u & Eu & _ & Vu & Tu).
    rewrite Eu. cbn [bind]. eexists; split; [reflexivity|].
    unfold same_but_trim, set_tick_trimmer; cbn. split; [repeat split|]. split; auto.
Qed.

Lemma same_but_tick_eq n m : same_but_tick n m -> n_base_tick m = n_base_tick n -> m = n.
Proof.
  destruct n, m; unfold same_but_tick; cbn; intros (?&?&?&?&?&?&?&?&?) ?; congruence.
Qed.

Lemma note_shift_back n d m : u32 (n_base_tick n) -> u32 (n_base_tick n + d) ->
  note_with_tick_added n d false = Ret (Ok m) -> note_with_tick_added m (- d) false = Ret (Ok n).
Proof.
  intros Hb Hd H. destruct (note_shift_spec n d Hb) as [_ S]. destruct (S Hd) as (m' & E & Sm & Tm).
  rewrite H in E. inv E. clear H.
  destruct (note_shift_spec m' (- d)) as [_ S']; [rewrite Tm; auto|].
  destruct S' as (k & E & Sk & Tk); [rewrite Tm; replace (n_base_tick n + d + - d) with (n_base_tick n) by lia; auto|].
  rewrite E. do 2 f_equal. symmetry. apply same_but_tick_eq; [|lia].
  unfold same_but_tick in *. intuition congruence.
Qed.

Lemma bar_shift_spec b d : u32 (b_tick b) ->
  let t := b_tick b + d in
  (t < 0 -> bar_with_tick_added b d = Err Minus) /\
  (u32 t -> bar_with_tick_added b d = Ok (mkBar t (b_rhythm b) (b_key b) (b_marks b)) /\
            bar_drag b d = mkBar t (b_rhythm b) (b_key b) (b_marks b)).
Proof.
  intros Hb. cbv zeta. unfold bar_with_tick_added, bar_drag. split; intros H;
    destruct (Z.ltb_spec (b_tick b + d) 0); auto; unfold u32 in *; try lia.
  rewrite as_u32_id by (unfold u32; lia). auto.
Qed.

Lemma tempo_shift_spec b d : u32 (tp_tick b) ->
  let t := tp_tick b + d in
  (t < 0 -> tempo_with_tick_added b d = Err Minus) /\
  (u32 t -> tempo_with_tick_added b d = Ok (mkTempo t (tp_value b))).
Proof.
  intros Hb. cbv zeta. unfold tempo_with_tick_added. split; intros H;
    destruct (Z.ltb_spec (tp_tick b + d) 0); auto; unfold u32 in *; try lia.
  rewrite as_u32_id by (unfold u32; lia). auto.
Qed.

Lemma ctrl_shift_spec b d : u32 (cc_tick b) ->
  let t := cc_tick b + d in
  (t < 0 -> ctrl_with_tick_added b d = Err Minus) /\
  (u32 t -> ctrl_with_tick_added b d = Ok (mkCtrl t (cc_velocity b) (cc_channel b)) /\
            ctrl_drag b d = mkCtrl t (cc_velocity b) (cc_channel b)).
Proof.
  intros Hb. cbv zeta. unfold ctrl_with_tick_added, ctrl_drag. split; intros H;
    destruct (Z.ltb_spec (cc_tick b + d) 0); auto; unfold u32 in *; try lia.
  rewrite as_u32_id by (unfold u32; lia). auto.
Qed.

Lemma note_drag_tick n d m : u32 (n_base_tick n + d) -> note_drag n d 0 = Ret m ->
  n_base_tick m = n_base_tick n + d.
Proof.
  intros H E. unfold note_drag in E. bind_inv. inv E. cbn. apply as_u32_id; auto.
Qed.

(** ** C17 *)
Lemma tempo_step_ok t o t' : u32 (tp_tick t) -> tempo_ok (tp_value t) -> drag_stays t o ->
  tempo_step t o = Ret t' -> tempo_ok (tp_value t') /\ u32 (tp_tick t').
Proof.
  unfold tempo_ok. intros Hu Hv Hd H. destruct o as [| | |td vd|d]; cbn [tempo_step drag_stays] in *.
  - unfold tempo_up, tempo_value_up, chk_u16 in H. rewrite chk_ret in H by (unfold u16_max; lia). cbn [bind] in H.
    unfold max_tempo in H. destruct (Z.ltb_spec 999 (tp_value t + 1)); cbn in H.
    + inv H; auto.
    + unfold tempo_value_new, max_tempo in H. destruct (Z.ltb_spec 999 (tp_value t + 1)); cbn in H; inv H. cbn. split; auto; lia.
  - unfold tempo_down, tempo_value_down, min_tempo in H. destruct (Z.leb_spec (tp_value t) 1); cbn in H.
    + inv H; auto.
    + unfold tempo_value_new, max_tempo in H. destruct (Z.ltb_spec 999 (tp_value t - 1)); cbn in H; inv H. cbn. split; auto; lia.
  - inv H. cbn. unfold tempo_value_deser, max_tempo, min_tempo.
    destruct (Z.ltb_spec 999 (tp_value t)); [lia|]. destruct (Z.ltb_spec (tp_value t) 1); [lia|]. auto.
  - unfold tempo_drag, chk_i32 in H. rewrite chk_ret in H by (unfold i32_min, i32_max; lia). cbn [bind] in H.
    rewrite as_u16_id in H by (unfold u16, u16_max; lia).
    unfold tempo_value_safe_new, tempo_value_new, max_tempo in H.
    destruct (Z.ltb_spec 999 (tp_value t + vd)); cbn in H.
    + inv H. cbn. split; [lia|apply as_u32_range].
    + destruct (Z.ltb_spec 999 (tp_value t + vd)); cbn in H; inv H. cbn. split; [lia|apply as_u32_range].
  - unfold tempo_with_tick_added in H. destruct (tp_tick t + d <? 0); inv H; auto. cbn. split; auto. apply as_u32_range.
Qed.

Lemma tempo_step_total t o : tempo_ok (tp_value t) ->
  match o with TDrag _ vd => i32 (tp_value t + vd) | _ => True end ->
  exists t', tempo_step t o = Ret t'.
Proof.
  unfold tempo_ok. intros Hv Hd. destruct o as [| | |td vd|d]; cbn [tempo_step].
  - unfold tempo_up, tempo_value_up, chk_u16. rewrite chk_ret by (unfold u16_max; lia). cbn [bind].
    unfold max_tempo. destruct (Z.ltb_spec 999 (tp_value t + 1)); cbn; eauto.
    unfold tempo_value_new, max_tempo. destruct (Z.ltb_spec 999 (tp_value t + 1)); cbn; eauto; lia.
  - unfold tempo_down, tempo_value_down, min_tempo. destruct (Z.leb_spec (tp_value t) 1); cbn; eauto.
    unfold tempo_value_new, max_tempo. destruct (Z.ltb_spec 999 (tp_value t - 1)); cbn; eauto; lia.
  - eauto.
  - unfold tempo_drag, chk_i32. rewrite chk_ret by apply Hd. cbn [bind].
    unfold tempo_value_safe_new, tempo_value_new, max_tempo.
    destruct (Z.ltb_spec 999 (as_u16 (tp_value t + vd))); cbn; eauto.
    destruct (Z.ltb_spec 999 (as_u16 (tp_value t + vd))); cbn; eauto. lia.
  - eauto.
Qed.

Lemma tempo_history_ok t os t' : tempo_history t os t' -> u32 (tp_tick t) -> tempo_ok (tp_value t) ->
  tempo_ok (tp_value t').
Proof.
  induction 1 as [|t o t1 os t2 Hd Hs _ IH]; intros Hu Hv; auto.
  destruct (tempo_step_ok _ _ _ Hu Hv Hd Hs). auto.
Qed.

Lemma tempo_up_down v v' : tempo_ok v -> tempo_value_up v = Ret (Ok v') -> tempo_value_down v' = Ret (Ok v).
Proof.
  unfold tempo_ok, tempo_value_up, chk_u16. intros Hv H. rewrite chk_ret in H by (unfold u16_max; lia). cbn [bind] in H.
  unfold max_tempo, tempo_value_new in H. destruct (Z.ltb_spec 999 (v + 1)); [discriminate|].
  unfold max_tempo in H. destruct (Z.ltb_spec 999 (v + 1)); [lia|]. cbn in H. inv H.
  unfold tempo_value_down, min_tempo. destruct (Z.leb_spec (v + 1) 1); [lia|].
  unfold tempo_value_new, max_tempo. destruct (Z.ltb_spec 999 (v + 1 - 1)); [lia|]. cbn. do 2 f_equal. lia.
Qed.

Lemma tempo_down_up v v' : tempo_ok v -> tempo_value_down v = Ret (Ok v') -> tempo_value_up v' = Ret (Ok v).
Proof.
  unfold tempo_ok, tempo_value_down, min_tempo. intros Hv H. destruct (Z.leb_spec v 1); [discriminate|].
  unfold tempo_value_new, max_tempo in H. destruct (Z.ltb_spec 999 (v - 1)); [lia|]. cbn in H. inv H.
  unfold tempo_value_up, chk_u16. rewrite chk_ret by (unfold u16_max; lia). cbn [bind].
  unfold max_tempo. destruct (Z.ltb_spec 999 (v - 1 + 1)); [lia|]. unfold tempo_value_new, max_tempo.
  destruct (Z.ltb_spec 999 (v - 1 + 1)); [lia|]. cbn. do 2 f_equal. lia.
Qed.

(** ** C18 *)
Lemma snap_defined g t : 0 < g <= u32_max -> -9223372034707292160 <= t <= 9223372034707292160 ->
  exists s, grid_snap g t = Ret s.
Proof.
  unfold u32_max. intros Hg Ht. unfold grid_snap. destruct (Z.eqb_spec g 0); [lia|].
  rewrite Z.quot_div_nonneg by lia. unfold chk_i64, i64_min, i64_max.
  destruct (Z.ltb_spec t 0).
  - rewrite chk_ret by lia. cbn [bind].
    assert (A : Z.quot (t - g / 2) g = - ((g / 2 - t) / g)).
    { replace (t - g / 2) with (- (g / 2 - t)) by lia. rewrite Z.quot_opp_l by lia. rewrite Z.quot_div_nonneg; lia. }
    rewrite A. pose proof (Z.mul_div_le (g / 2 - t) g). pose proof (Z.div_pos (g / 2 - t) g).
    rewrite chk_ret by nia. eauto.
  - rewrite chk_ret by lia. cbn [bind]. rewrite Z.quot_div_nonneg by lia.
    pose proof (Z.mul_div_le (t + g / 2) g). pose proof (Z.div_pos (t + g / 2) g).
    rewrite chk_ret by nia. eauto.
Qed.

Lemma snap_formula g t s : 0 < g -> grid_snap g t = Ret s ->
  s = if t <? 0 then - (g * ((g / 2 - t) / g)) else g * ((t + g / 2) / g).
Proof.
  intros Hg H. unfold grid_snap in H. destruct (Z.eqb_spec g 0); [lia|].
  rewrite (Z.quot_div_nonneg g 2) in H by lia.
  destruct (Z.ltb_spec t 0); bind_inv; unfold chk_i64 in *; apply chk_inv in H as [-> _]; apply chk_inv in Hr as [-> _].
  - replace (t - g / 2) with (- (g / 2 - t)) by lia. rewrite Z.quot_opp_l by lia. rewrite Z.quot_div_nonneg by lia. lia.
  - rewrite Z.quot_div_nonneg by lia. lia.
Qed.

Lemma snap_core g t : 0 < g -> 0 <= t -> nearest_line g t (g * ((t + g / 2) / g)).
Proof.
  intros Hg Ht. set (q := (t + g / 2) / g).
  assert (Hq : g * q <= t + g / 2 < g * (q + 1)).
  { unfold q. split; [apply Z.mul_div_le; lia|]. pose proof (Z.mul_succ_div_gt (t + g / 2) g). lia. }
  assert (Hh : 2 * (g / 2) <= g < 2 * (g / 2) + 2) by lia.
  assert (Hq0 : 0 <= q) by (unfold q; apply Z.div_pos; lia).
  split; [eauto|]. split.
  - intros k. destruct (Z_lt_le_dec k q); [|destruct (Z_lt_le_dec q k)].
    + assert (g * k <= g * (q - 1)) by nia. lia.
    + assert (g * (q + 1) <= g * k) by nia. lia.
    + assert (k = q) by lia. subst. lia.
  - intros k E. destruct (Z_lt_le_dec k q); [|destruct (Z_lt_le_dec q k)].
    + destruct (Z_le_dec 0 k).
      * assert (0 <= g * k <= g * q) by nia. lia.
      * assert (g * k <= g * (-1)) by nia.
        assert (g * k <= 0) by nia. 
        assert (t + g <= t - g * k) by lia. lia.
    + assert (g * (q + 1) <= g * k) by nia.
      assert (t - g * q < g * k - t) by lia. lia.
    + assert (k = q) by lia. subst. lia.
Qed.

Lemma snap_nearest g t s : 0 < g -> grid_snap g t = Ret s -> nearest_line g t s.
Proof.
  intros Hg H. apply snap_formula in H; auto. destruct (Z.ltb_spec t 0).
  - destruct (snap_core g (- t) Hg) as (A & B & C); [lia|].
    replace (- t + g / 2) with (g / 2 - t) in * by lia.
    set (q := g * ((g / 2 - t) / g)) in *. subst s. split; [|split].
    + destruct A as [k Hk]. exists (- k). lia.
    + intros k. specialize (B (- k)). lia.
    + intros k E. specialize (C (- k)). lia.
  - subst. apply snap_core; auto.
Qed.

Lemma nearest_unique g t s s' : 0 < g -> nearest_line g t s -> nearest_line g t s' ->
  Z.abs (t - s) = Z.abs (t - s') /\ Z.abs s = Z.abs s'.
Proof.
  intros Hg ([k Hk] & B & C) ([k' Hk'] & B' & C').
  assert (E : Z.abs (t - s) = Z.abs (t - s')).
  { pose proof (B k'). pose proof (B' k). subst. lia. }
  split; auto. pose proof (C k'). pose proof (C' k). subst. lia.
Qed.

Lemma snap_idem g t s : 0 < g <= u32_max -> -9223372034707292160 <= t <= 9223372034707292160 ->
  grid_snap g t = Ret s -> i64 (s + g / 2) -> i64 (s - g / 2) -> grid_snap g s = Ret s.
Proof.
  unfold u32_max. intros Hg Ht H H1 H2.
  assert (Hs : exists k, s = g * k) by (apply snap_nearest in H; [apply H|lia]).
  assert (Hi : i64 s).
  { unfold grid_snap in H. destruct (Z.eqb_spec g 0); [lia|].
    destruct (t <? 0); bind_inv; unfold chk_i64 in H; apply chk_inv in H as [E R]; subst s; exact R. }
  destruct Hs as [k ->]. unfold grid_snap. destruct (Z.eqb_spec g 0); [lia|].
  rewrite (Z.quot_div_nonneg g 2) by lia. unfold chk_i64.
  destruct (Z.ltb_spec (g * k) 0).
  - rewrite chk_ret by apply H2. cbn [bind].
    assert (E : Z.quot (g * k - g / 2) g = k).
    { replace (g * k - g / 2) with (- (g / 2 + (- k) * g)) by lia. rewrite Z.quot_opp_l by lia.
      rewrite Z.quot_div_nonneg by nia. rewrite Z.div_add by lia. rewrite Z.div_small; lia. }
    rewrite E. rewrite chk_ret; auto.
  - rewrite chk_ret by apply H1. cbn [bind].
    assert (E : Z.quot (g * k + g / 2) g = k).
    { rewrite Z.quot_div_nonneg by nia. replace (g * k + g / 2) with (g / 2 + k * g) by lia.
      rewrite Z.div_add by lia. rewrite Z.div_small; lia. }
    rewrite E. rewrite chk_ret; auto.
Qed.

Lemma snap_mono g t t' s s' : 0 < g -> t <= t' -> grid_snap g t = Ret s -> grid_snap g t' = Ret s' -> s <= s'.
Proof.
  intros Hg Ht H H'. apply snap_formula in H; auto. apply snap_formula in H'; auto.
  destruct (Z.ltb_spec t 0), (Z.ltb_spec t' 0); subst; try lia.
  - assert ((g / 2 - t') / g <= (g / 2 - t) / g) by (apply Z.div_le_mono; lia). nia.
  - assert (0 <= (g / 2 - t) / g) by (apply Z.div_pos; lia). assert (0 <= (t' + g / 2) / g) by (apply Z.div_pos; lia). nia.
  - assert ((t + g / 2) / g <= (t' + g / 2) / g) by (apply Z.div_le_mono; lia). nia.
Qed.

Lemma snap_odd g t s s' : 0 < g -> grid_snap g t = Ret s -> grid_snap g (- t) = Ret s' -> s' = - s.
Proof.
  intros Hg H H'. apply snap_formula in H; auto. apply snap_formula in H'; auto.
  destruct (Z.ltb_spec t 0), (Z.ltb_spec (- t) 0); subst; try lia.
  - replace (- t + g / 2) with (g / 2 - t) by lia. lia.
  - replace (g / 2 - - t) with (t + g / 2) by lia. lia.
  - assert (t = 0) by lia. subst. cbn. rewrite Z.div_small by lia. lia.
Qed.

(** ** C19 *)
Lemma rhythm_den_from_spec d x : rhythm_den_from_value d = Some x <-> d = rhythm_den_value x.
Proof.
  split.
  - unfold rhythm_den_from_value. destruct d as [|p|p]; try discriminate.
    repeat (destruct p as [p|p|]; cbn; try discriminate; try (intros H; inv H; reflexivity)).
  - intros ->. destruct x; reflexivity.
Qed.

Lemma rhythm_value_of_spec n d :
  (1 <= n <= 99 -> In d [2; 4; 8; 16; 32; 64] ->
     exists r, rhythm_value_of n d = Ok r /\ rh_num r = n /\ rhythm_den_value (rh_den r) = d /\
               rhythm_tick_len r * d = n * 960 /\ 15 <= rhythm_tick_len r) /\
  (~ (1 <= n <= 99) -> rhythm_value_of n d = Err (RhythmNumeratorError n)) /\
  (1 <= n <= 99 -> ~ In d [2; 4; 8; 16; 32; 64] -> rhythm_value_of n d = Err (RhythmDenominatorError d)).
Proof.
  unfold rhythm_value_of, rhythm_num_from_value. split; [|split].
  - intros Hn Hd. destruct (Z.ltb_spec n 1); [lia|]. destruct (Z.ltb_spec 99 n); [lia|]. cbn [orb].
    cbn in Hd. destruct Hd as [<-|[<-|[<-|[<-|[<-|[<-|[]]]]]]]; cbn;
      (eexists; split; [reflexivity|]; repeat split; unfold rhythm_tick_len, as_u32, tick_resolution; cbn;
       rewrite Z.quot_div_nonneg by lia; rewrite Z.mod_small; lia).
  - intros H. destruct ((n <? 1) || (99 <? n)) eqn:E; [reflexivity|lia].
  - intros N H. destruct ((n <? 1) || (99 <? n)) eqn:E; [lia|].
    destruct (rhythm_den_from_value d) eqn:Ed; [|reflexivity].
    apply rhythm_den_from_spec in Ed. exfalso; apply H. subst. destruct r; cbn; tauto.
Qed.

(** ** C49 *)
Lemma clip_spec mn mx v : mn <= mx ->
  mn <= clip mn mx v <= mx /\ (mn <= v <= mx -> clip mn mx v = v) /\
  (v < mn -> clip mn mx v = mn) /\ (mx < v -> clip mn mx v = mx).
Proof.
  intros H. unfold clip. destruct (Z.ltb_spec v mn); [lia|]. destruct (Z.ltb_spec mx v); lia.
Qed.

Lemma play_iter_new_ok i : 1 <= play_iter_new i <= 5.
Proof. unfold play_iter_new, max_iter. destruct (Z.ltb_spec i 1); cbn; [lia|]. destruct (Z.ltb_spec 5 i); lia. Qed.

Lemma play_iter_run_ok l : forall i, 1 <= i <= 5 -> 1 <= play_iter_run i l <= 5.
Proof.
  induction l as [|x l IH]; intros i Hi; cbn [play_iter_run fold_left]; auto.
  apply IH. unfold play_iter_set, max_iter. destruct (Z.ltb_spec 0 x), (Z.leb_spec x 5); cbn; lia.
Qed.

Lemma play_iter_set_spec c i : snd (play_iter_set c i) = true <-> 1 <= i <= 5.
Proof. unfold play_iter_set, max_iter. destruct (Z.ltb_spec 0 i), (Z.leb_spec i 5); cbn; split; intros; try lia; try discriminate; auto. Qed.

Lemma velocity_new_ok v : u8 v -> 0 <= velocity_new v <= 127 /\ (v <= 127 -> velocity_new v = v).
Proof. unfold u8, u8_max, velocity_new. destruct (Z.ltb_spec 127 v); lia. Qed.

Lemma channel_new_spec v : u8 v -> (v < 16 -> channel_new v = Ret v) /\ (16 <= v -> channel_new v = Panic).
Proof. unfold channel_new. destruct (Z.ltb_spec v 16); split; intros; auto; lia. Qed.

(** f32 clipping *)
From Coq Require Import Reals.
From Flocq Require Import Core BinarySingleNaN.

Lemma f32_le_of_real x y : finite x -> finite y -> (real x <= real y)%R -> f32_le x y.
Proof.
  unfold finite. destruct x as [[]|[]| |[]], y as [[]|[]| |[]]; intros Fx Fy H; try discriminate; exact H.
Qed.

Lemma f32_not_lt x y : f32_is_nan x = false -> f32_is_nan y = false -> f32_lt x y = false -> f32_le y x.
Proof.
  intros Nx Ny H. destruct (is_finite x) eqn:Fx, (is_finite y) eqn:Fy.
  - apply f32_le_of_real; auto. unfold f32_lt in H. rewrite Bltb_correct in H by auto.
    unfold real. destruct (Rlt_bool_spec (B2R x) (B2R y)); [discriminate|auto].
  - destruct y as [[]|[]| |[]], x as [[]|[]| |[]]; try discriminate; cbn in *; auto.
  - destruct y as [[]|[]| |[]], x as [[]|[]| |[]]; try discriminate; cbn in *; auto.
  - destruct y as [[]|[]| |[]], x as [[]|[]| |[]]; try discriminate; cbn in *; auto.
Qed.

Lemma f32_le_refl x : f32_is_nan x = false -> f32_le x x.
Proof. destruct x as [[]|[]| |[]]; cbn; intros; try discriminate; auto; apply Rle_refl. Qed.

Lemma clip_f32_spec mn mx v : f32_is_nan mn = false -> f32_is_nan mx = false -> f32_is_nan v = false ->
  f32_le mn mx ->
  let r := clip_gen f32_lt mn mx v in
  f32_le mn r /\ f32_le r mx /\ (f32_lt v mn = false -> f32_lt mx v = false -> r = v).
Proof.
  intros Nn Nx Nv Hle. cbv zeta. unfold clip_gen.
  destruct (f32_lt v mn) eqn:E1.
  - split; [apply f32_le_refl; auto|]. split; [auto|discriminate].
  - destruct (f32_lt mx v) eqn:E2.
    + split; [auto|]. split; [apply f32_le_refl; auto|discriminate].
    + split; [apply f32_not_lt; auto|]. split; [apply f32_not_lt; auto|auto].
Qed.

Lemma clip_f32_nan mn mx : clip_gen f32_lt mn mx B754_nan = B754_nan.
Proof. unfold clip_gen. destruct mn as [[]|[]| |[]], mx as [[]|[]| |[]]; reflexivity. Qed.

Lemma tempo_drag_spec b d v : u32 (tp_tick b + d) -> 1 <= tp_value b + v <= 65535 ->
  tempo_drag b d v = Ret (mkTempo (tp_tick b + d) (Z.min 999 (tp_value b + v))).
Proof.
  intros T V. unfold tempo_drag, chk_i32, chk, in_range, i32_min, i32_max.
  replace ((-2147483648 <=? tp_value b + v) && (tp_value b + v <=? 2147483647))%bool with true by lia.
  cbn [bind]. unfold tempo_value_safe_new, tempo_value_new, max_tempo, as_u16.
  rewrite (Z.mod_small (tp_value b + v)) by lia.
  unfold as_u32. rewrite Z.mod_small by (unfold u32, u32_max in T; lia).
  destruct (999 <? tp_value b + v) eqn:E; [cbn [bind Z.ltb Z.compare Pos.compare Pos.compare_cont]|rewrite E]; cbn [bind]; do 2 f_equal; lia.
Qed.
