From Coq Require Import Reals Lra.
From Flocq Require Import Core BinarySingleNaN.
From Verif Require Import P_Base M_Percent S_Percent.
Open Scope Z_scope.

Notation fe := (FLT_exp (-149) 24).

Global Instance prec24 : Prec_gt_0 24 := f32_prec_gt_0.
Global Instance fe_valid : Valid_exp fe := FLT_exp_valid (-149) 24.

Lemma fmt_int z : -16777216 < z < 16777216 -> generic_format radix2 fe (IZR z).
Proof.
  intros H. apply generic_format_FLT. apply (FLT_spec _ _ _ _ (Float radix2 z 0)).
  - unfold F2R; cbn; lra.
  - cbn [Fnum]. change (radix2 ^ 24) with 16777216. lia.
  - cbn; lia.
Qed.

Lemma round_int z : -16777216 < z < 16777216 -> round32 (IZR z) = IZR z.
Proof. intros H. unfold round32. apply round_generic; [apply valid_rnd_N|apply fmt_int; auto]. Qed.

Lemma f32_of_Z_correct z : -16777216 < z < 16777216 ->
  B2R (f32_of_Z z) = IZR z /\ is_finite (f32_of_Z z) = true.
Proof.
  intros H. unfold f32_of_Z.
  pose proof (binary_normalize_correct 24 128 f32_prec_gt_0 f32_prec_lt_emax mode_NE z 0 false) as C.
  assert (F : F2R (Float radix2 z 0) = IZR z) by (unfold F2R; cbn; lra).
  cbv zeta in C. rewrite F in C. cbn [round_mode] in C.
  change (round radix2 (SpecFloat.fexp 24 128) ZnearestE (IZR z)) with (round32 (IZR z)) in C.
  rewrite (round_int z H) in C.
  rewrite Rlt_bool_true in C. { tauto. }
  rewrite <- abs_IZR. apply Rlt_le_trans with (IZR 16777216); [apply IZR_lt; lia|].
  change 16777216 with (2 ^ 24). rewrite (IZR_Zpower radix2) by lia. apply bpow_le. lia.
Qed.

Lemma round32_le a b : (a <= b)%R -> (round32 a <= round32 b)%R.
Proof. intros H. unfold round32. apply round_le; auto; typeclasses eauto. Qed.

Lemma mul_1000_correct x : finite x -> (0 <= real x <= 2)%R ->
  B2R (f32_mul x (f32_of_Z 1000)) = round32 (real x * 1000) /\ is_finite (f32_mul x (f32_of_Z 1000)) = true.
Proof.
  intros Hf Hx. destruct (f32_of_Z_correct 1000) as [E F]; [lia|].
  pose proof (Bmult_correct 24 128 f32_prec_gt_0 f32_prec_lt_emax mode_NE x (f32_of_Z 1000)) as C.
  rewrite E, F in C. cbn [round_mode] in C. unfold finite in Hf. rewrite Hf in C.
  change (round radix2 (SpecFloat.fexp 24 128) ZnearestE (B2R x * 1000)) with (round32 (B2R x * 1000)) in C.
  fold (real x) in C.
  assert (0 <= round32 (real x * 1000) <= 2000)%R.
  { split.
    - rewrite <- (round_int 0) by lia. apply round32_le. cbn. nra.
    - rewrite <- (round_int 2000) by lia. apply round32_le. nra. }
  rewrite Rlt_bool_true in C. { unfold f32_mul. cbn in C. tauto. }
  rewrite Rabs_pos_eq by tauto. apply Rle_lt_trans with (IZR 2000); [tauto|].
  apply Rlt_le_trans with (IZR (2^11)); [apply IZR_lt; reflexivity|].
  rewrite (IZR_Zpower radix2) by lia. apply bpow_le. lia.
Qed.

Lemma f32_trunc_floor x : finite x -> (0 <= real x)%R -> f32_trunc x = Zfloor (real x).
Proof.
  intros Hf Hx. destruct x as [s|s| |s m e Hb]; try discriminate.
  - cbn. symmetry. apply (Zfloor_IZR 0).
  - unfold real, B2R, F2R in *. cbn [Fnum Fexp] in *.
    destruct s.
    + exfalso. assert (bpow radix2 e > 0)%R by apply bpow_gt_0.
      assert (IZR (SpecFloat.cond_Zopp true (Z.pos m)) < 0)%R by (apply IZR_lt; cbn; lia). nra.
    + cbn [SpecFloat.cond_Zopp f32_trunc]. destruct e as [|p|p].
      * change (bpow radix2 0) with 1%R. rewrite Rmult_1_r. symmetry; apply Zfloor_IZR.
      * rewrite <- (IZR_Zpower radix2) by lia. rewrite <- mult_IZR. rewrite Zfloor_IZR. reflexivity.
      * change (Z.neg p) with (- Z.pos p). rewrite bpow_opp, <- (IZR_Zpower radix2) by lia.
        change (IZR (Z.pos m) * / IZR (radix2 ^ Z.pos p))%R with (IZR (Z.pos m) / IZR (radix2 ^ Z.pos p))%R.
        rewrite Zfloor_div; [reflexivity|]. change (radix2 ^ Z.pos p) with (2 ^ Z.pos p). lia.
Qed.

Lemma zfloor_range r : (0 <= r <= 2000)%R -> 0 <= Zfloor r <= 2000.
Proof.
  intros [H1 H2]. split.
  - rewrite <- (Zfloor_IZR 0). apply Zfloor_le. exact H1.
  - rewrite <- (Zfloor_IZR 2000). apply Zfloor_le. exact H2.
Qed.

Lemma round32_range r : (0 <= r <= 2000)%R -> (0 <= round32 r <= 2000)%R.
Proof.
  intros H. split.
  - rewrite <- (round_int 0) by lia. apply round32_le. apply H.
  - rewrite <- (round_int 2000) by lia. apply round32_le. apply H.
Qed.

Lemma rate_means_range x p : rate_means x p -> 0 <= p <= 2000.
Proof.
  intros H; inv H; try lia. apply zfloor_range, round32_range. lra.
Qed.

Lemma f32_cmp x z : finite x -> -16777216 < z < 16777216 ->
  f32_lt x (f32_of_Z z) = Rlt_bool (real x) (IZR z) /\ f32_lt (f32_of_Z z) x = Rlt_bool (IZR z) (real x).
Proof.
  intros Hf Hz. destruct (f32_of_Z_correct z Hz) as [E F]. unfold f32_lt, real.
  rewrite !Bltb_correct by auto. rewrite E. auto.
Qed.

Lemma percent_spec x : rate_means x (percent_of_f32 x).
Proof.
  unfold percent_of_f32.
  destruct (is_finite x) eqn:Hf.
  2: { destruct x as [s|s| |s m e Hb]; try discriminate.
       - destruct s.
         + cbn. apply rm_neg_inf; reflexivity.
         + cbn. apply rm_pos_inf; reflexivity.
       - cbn. apply rm_nan; reflexivity. }
  assert (Hn : f32_is_nan x = false) by (destruct x; try discriminate; reflexivity).
  rewrite Hn. destruct (f32_cmp x 0 Hf) as [C0 _]; [lia|]. rewrite C0.
  destruct (Rlt_bool_spec (real x) 0) as [L|L]; [apply rm_neg; auto|].
  destruct (f32_cmp x 2 Hf) as [_ C2]; [lia|]. rewrite C2.
  destruct (Rlt_bool_spec 2 (real x)) as [U|U]; [apply rm_big; auto|].
  destruct (mul_1000_correct x Hf) as [E F]; [lra|].
  assert (Hr : (0 <= round32 (real x * 1000) <= 2000)%R) by (apply round32_range; lra).
  assert (Ht : f32_trunc (f32_mul x (f32_of_Z 1000)) = Zfloor (round32 (real x * 1000))).
  { rewrite f32_trunc_floor.
    - f_equal. exact E.
    - exact F.
    - change (0 <= B2R (f32_mul x (f32_of_Z 1000)))%R. rewrite E. apply Hr. }
  pose proof (zfloor_range _ Hr) as Hz.
  assert (Hi : f32_as_i32 (f32_mul x (f32_of_Z 1000)) = Zfloor (round32 (real x * 1000))).
  { assert (G : forall y, is_finite y = true -> f32_as_i32 y = Z.max i32_min (Z.min i32_max (f32_trunc y)))
      by (intros [s|s| |s m e Hb] Hy; try discriminate; reflexivity).
    rewrite G, Ht by exact F. unfold i32_min, i32_max. lia. }
  rewrite Hi, as_u16_id by (unfold u16, u16_max; lia). apply rm_mid; auto.
Qed.

Lemma percent_range x : 0 <= percent_of_f32 x <= 2000.
Proof. eapply rate_means_range, percent_spec. Qed.

Lemma rate_means_fun x p q : rate_means x p -> rate_means x q -> p = q.
Proof.
  unfold finite.
  intros H1 H2; destruct H1 as [->| -> | -> |Fx Rx|Fx Rx|Fx Rx];
    inversion H2; try reflexivity; try discriminate; unfold finite in *;
    try (subst; discriminate); lra.
Qed.

Lemma f32_le_real x y : f32_le x y -> finite x -> finite y -> (real x <= real y)%R.
Proof.
  unfold finite. destruct x as [[]|[]| |[]], y as [[]|[]| |[]]; intros H Fx Fy; try discriminate; exact H.
Qed.

Lemma rate_means_mono x y p q : f32_le x y -> rate_means x p -> rate_means y q -> p <= q.
Proof.
  intros Hle Hx Hy. pose proof (rate_means_range _ _ Hx). pose proof (rate_means_range _ _ Hy).
  destruct Hx as [->| -> | -> |Fx Rx|Fx Rx|Fx Rx]; try lia.
  - destruct y as [[]|[]| |]; cbn in Hle; try tauto. inv Hy; try discriminate; lia.
  - destruct Hy as [->| -> | -> |Fy Ry|Fy Ry|Fy Ry]; try lia.
    + destruct x as [[]|[]| |]; cbn in Hle; tauto.
    + destruct x as [[]|[]| |]; cbn in Hle; try tauto; discriminate.
    + pose proof (f32_le_real _ _ Hle Fx Fy); lra.
    + pose proof (f32_le_real _ _ Hle Fx Fy); lra.
  - destruct Hy as [->| -> | -> |Fy Ry|Fy Ry|Fy Ry]; try lia.
    + destruct x as [[]|[]| |]; cbn in Hle; tauto.
    + destruct x as [[]|[]| |]; cbn in Hle; try tauto; discriminate.
    + pose proof (f32_le_real _ _ Hle Fx Fy); lra.
    + pose proof (f32_le_real _ _ Hle Fx Fy). apply Zfloor_le, round32_le. lra.
Qed.

Lemma percent_mono x y : f32_le x y -> percent_of_f32 x <= percent_of_f32 y.
Proof. intros H. eapply rate_means_mono; eauto using percent_spec. Qed.

(** round trip through f32, by computation over the whole domain *)
Definition roundtrip_ok (p : Z) : bool :=
  if existsb (Z.eqb p) lossy then percent_of_f32 (percent_to_f32 p) =? p - 1
  else percent_of_f32 (percent_to_f32 p) =? p.

Lemma roundtrip_all : forallb roundtrip_ok (zrange 0 2001) = true.
Proof. vm_compute. reflexivity. Qed.

Lemma percent_roundtrip p : 0 <= p <= 2000 ->
  percent_of_f32 (percent_to_f32 p) = if existsb (Z.eqb p) lossy then p - 1 else p.
Proof.
  intros H. pose proof (zrange_forall _ _ _ roundtrip_all p ltac:(lia)) as E.
  unfold roundtrip_ok in E. destruct (existsb (Z.eqb p) lossy); apply Z.eqb_eq; exact E.
Qed.

Lemma lossy_In p : existsb (Z.eqb p) lossy = true <-> In p lossy.
Proof.
  rewrite existsb_exists. split.
  - intros (x & Hx & E). apply Z.eqb_eq in E; subst; auto.
  - intros Hp; exists p; split; auto. apply Z.eqb_refl.
Qed.

Lemma percent_roundtrip_iff p : 0 <= p <= 2000 ->
  (percent_of_f32 (percent_to_f32 p) = p <-> ~ In p lossy) /\
  (In p lossy -> percent_of_f32 (percent_to_f32 p) = p - 1).
Proof.
  intros H. rewrite (percent_roundtrip p H). destruct (existsb (Z.eqb p) lossy) eqn:E.
  - apply lossy_In in E. split; [|auto]. split; [lia|tauto].
  - assert (~ In p lossy) by (rewrite <- lossy_In; congruence). split; [tauto|]. intros; tauto.
Qed.

(** apply *)
Lemma apply_exact p v : u16 p -> u32 v -> percent_apply p v = Ret ((v * p / 1000) mod 4294967296).
Proof.
  unfold u16, u32, u16_max, u32_max. intros Hp Hv. unfold percent_apply, chk_i64.
  rewrite chk_ret by (unfold i64_min, i64_max; nia). cbn [bind].
  unfold as_u32. rewrite Z.quot_div_nonneg by nia. reflexivity.
Qed.

Lemma apply_floor p v : 0 <= p <= 2000 -> 0 <= v < 2147483648 ->
  percent_apply p v = Ret (v * p / 1000).
Proof.
  intros Hp Hv. rewrite apply_exact by (unfold u16, u32, u16_max, u32_max; lia).
  rewrite Z.mod_small; auto. split; [apply Z.div_pos; nia|].
  apply Z.div_lt_upper_bound; nia.
Qed.

Lemma apply_hundred v : u32 v -> percent_apply percent_hundred v = Ret v.
Proof.
  unfold u32, u32_max, percent_hundred; intros H. rewrite apply_exact by (unfold u16, u32, u16_max, u32_max; lia).
  rewrite Z.div_mul by lia. rewrite Z.mod_small by lia. reflexivity.
Qed.

Lemma apply_zero v : u32 v -> percent_apply percent_zero v = Ret 0.
Proof.
  unfold percent_zero; intros H. rewrite apply_exact by (auto; unfold u16, u16_max; lia).
  rewrite Z.mul_0_r. reflexivity.
Qed.

(** trimmers *)
Lemma added_loop_fills vs : forall t, Forall i16 vs -> -2147450880 <= t <= 2147450880 ->
  exists ws, added_loop vs t = Ret ws /\ fills vs t ws.
Proof.
  induction vs as [|v vs IH]; intros t Hv Ht; cbn [added_loop].
  - exists []; split; auto. constructor.
  - inv Hv. unfold i16, i16_min, i16_max in H1. unfold chk_i32. rewrite chk_ret by (unfold i32_min, i32_max; lia). cbn [bind].
    unfold i16_max, i16_min.
    destruct (Z.ltb_spec 32767 (v + t)).
    + destruct (IH (v + t - 32767)) as (ws & -> & Hf); auto; [lia|]. cbn [bind].
      eexists; split; [reflexivity|]. apply fills_over; auto.
    + destruct (Z.ltb_spec (v + t) (-32768)).
      * destruct (IH (v + t - -32768)) as (ws & -> & Hf); auto; [lia|]. cbn [bind].
        eexists; split; [reflexivity|]. apply fills_under; auto.
      * eexists; split; [reflexivity|]. apply fills_fit. unfold i16, i16_min, i16_max; lia.
Qed.

Lemma fills_length vs t ws : fills vs t ws -> length ws = length vs.
Proof. induction 1; cbn; auto. Qed.

Lemma fills_i16 vs t ws : fills vs t ws -> Forall i16 vs -> Forall i16 ws.
Proof.
  induction 1; intros Hv; auto; inv Hv; constructor; auto; unfold i16, i16_min, i16_max; lia.
Qed.

Lemma fills_total vs t ws : fills vs t ws -> Forall i16 vs ->
  zsum ws = clamp (Z.of_nat (length vs) * i16_min) (Z.of_nat (length vs) * i16_max) (zsum vs + t).
Proof.
  assert (B : forall l, Forall i16 l ->
    Z.of_nat (length l) * i16_min <= zsum l <= Z.of_nat (length l) * i16_max).
  { induction 1 as [|x l Hx Hl IH]; cbn [length zsum fold_right]; [lia|].
    fold (zsum l). unfold i16, i16_min, i16_max in *. lia. }
  induction 1 as [t|v vs t H|v vs t ws H Hf IH|v vs t ws H Hf IH]; intros Hv; unfold clamp in *.
  - cbn. lia.
  - inv Hv. pose proof (B _ H3). cbn [length zsum fold_right] in *. fold (zsum vs) in *.
    unfold i16, i16_min, i16_max in *. lia.
  - inv Hv. pose proof (B _ H3). specialize (IH H3). cbn [length zsum fold_right] in *.
    fold (zsum vs) (zsum ws) in *. unfold i16, i16_min, i16_max in *. lia.
  - inv Hv. pose proof (B _ H3). specialize (IH H3). cbn [length zsum fold_right] in *.
    fold (zsum vs) (zsum ws) in *. unfold i16, i16_min, i16_max in *. lia.
Qed.

Lemma added_loop_first_panic v vs t : ~ i32 (v + t) -> added_loop (v :: vs) t = Panic.
Proof.
  intros H. cbn [added_loop]. unfold chk_i32. rewrite chk_panic; auto. unfold i32 in H; lia.
Qed.

Lemma added_first v vs t : Forall i16 (v :: vs) -> i32 (v + t) ->
  exists ws, added_loop (v :: vs) t = Ret ws /\ fills (v :: vs) t ws.
Proof.
  intros Hv Hk. inv Hv. cbn [added_loop]. unfold chk_i32. rewrite chk_ret by apply Hk. cbn [bind].
  unfold i16, i32, i16_min, i16_max, i32_min, i32_max in *.
  destruct (Z.ltb_spec 32767 (v + t)).
  - destruct (added_loop_fills vs (v + t - 32767)) as (ws & -> & Hf); auto; [lia|].
    cbn [bind]. eexists; split; [reflexivity|]. apply fills_over; auto.
  - destruct (Z.ltb_spec (v + t) (-32768)).
    + destruct (added_loop_fills vs (v + t - -32768)) as (ws & -> & Hf); auto; [lia|].
      cbn [bind]. eexists; split; [reflexivity|]. apply fills_under; auto.
    + eexists; split; [reflexivity|]. apply fills_fit. unfold i16, i16_min, i16_max; lia.
Qed.

Lemma trimmer_added_spec t k : Forall i16 (trim_values t) -> i32 (t_v0 t + k) ->
  exists u, trimmer_added t k = Ret u /\ fills (trim_values t) k (trim_values u) /\ valid_trimmer u /\
    trim_total u = clamp (4 * i16_min) (4 * i16_max) (trim_total t + k).
Proof.
  intros Hv Hk.
  assert (L : exists ws, added_loop (trim_values t) k = Ret ws /\ fills (trim_values t) k ws).
  { apply added_first; auto. }
  destruct L as (ws & E & Hf). unfold trimmer_added. fold (trim_values t). rewrite E. cbn [bind].
  pose proof (fills_length _ _ _ Hf) as Hl. cbn in Hl.
  destruct ws as [|a [|b [|c [|d [|? ?]]]]]; try discriminate.
  exists (trimmer_new a b c d). split; [reflexivity|].
  assert (T : trim_values (trimmer_new a b c d) = [a; b; c; d]) by reflexivity.
  rewrite T. split; [exact Hf|]. split.
  - split; [rewrite T; eapply fills_i16; eauto|]. unfold trim_total. rewrite T. cbn. lia.
  - unfold trim_total. rewrite T. rewrite (fills_total _ _ _ Hf Hv). reflexivity.
Qed.

Lemma trimmer_added_panic t k : ~ i32 (t_v0 t + k) -> trimmer_added t k = Panic.
Proof. intros H. unfold trimmer_added. rewrite added_loop_first_panic by auto. reflexivity. Qed.

Lemma from_array_iff a b c d :
  (i16 (a + b) /\ i16 (a + b + c) /\ i16 (a + b + c + d) -> trimmer_from_array a b c d = Ret (trimmer_new a b c d)) /\
  (~ (i16 (a + b) /\ i16 (a + b + c) /\ i16 (a + b + c + d)) -> trimmer_from_array a b c d = Panic).
Proof.
  unfold trimmer_from_array, chk_i16, i16. split.
  - intros (H1 & H2 & H3). rewrite chk_ret by auto. cbn [bind]. rewrite chk_ret by auto. cbn [bind]. rewrite chk_ret by auto. reflexivity.
  - intros H.
    destruct (Z_le_dec i16_min (a + b)) as [A1|A1], (Z_le_dec (a + b) i16_max) as [A2|A2];
      try (rewrite (chk_panic _ _ (a + b)) by lia; reflexivity).
    rewrite (chk_ret _ _ (a + b)) by lia. cbn [bind].
    destruct (Z_le_dec i16_min (a + b + c)) as [B1|B1], (Z_le_dec (a + b + c) i16_max) as [B2|B2];
      try (rewrite (chk_panic _ _ (a + b + c)) by lia; reflexivity).
    rewrite (chk_ret _ _ (a + b + c)) by lia. cbn [bind].
    rewrite chk_panic by lia. reflexivity.
Qed.

Lemma from_array_valid a b c d t : i16 a -> i16 b -> i16 c -> i16 d ->
  trimmer_from_array a b c d = Ret t -> t = trimmer_new a b c d /\ valid_trimmer t.
Proof.
  intros Ha Hb Hc Hd H. assert (E : t = trimmer_new a b c d).
  { unfold trimmer_from_array, chk_i16 in H. bind_inv.
    apply chk_inv in Hr as [-> _], Hr0 as [-> _], Hr1 as [-> _]. inv H. reflexivity. }
  split; auto. subst. split; [unfold trim_values; cbn; auto|]. unfold trim_total, trim_values; cbn. lia.
Qed.

Lemma new_valid a b c d : i16 a -> i16 b -> i16 c -> i16 d -> valid_trimmer (trimmer_new a b c d).
Proof. intros. split; [unfold trim_values; cbn; auto|]. unfold trim_total, trim_values; cbn. lia. Qed.

Lemma trim_range t : valid_trimmer t -> i16 (t_v0 t) /\ i16 (t_v1 t) /\ i16 (t_v2 t) /\ i16 (t_v3 t).
Proof. intros [H _]. unfold trim_values in H. inv H. inv H3. inv H4. inv H5. auto. Qed.

Lemma obtainable_trimmer_valid t : obtainable_trimmer t -> valid_trimmer t.
Proof.
  induction 1 as [a b c d|a b c d t Ha Hb Hc Hd E|t u _ IH E|t k u _ IH E|t f u Hf _ IH E].
  - apply new_valid; auto.
  - eapply from_array_valid in E; tauto.
  - apply trim_range in IH as (A & B & C & D). unfold trimmer_deser in E. apply from_array_valid in E; tauto.
  - destruct IH as [IH1 IH2].
    assert (Hi : i32 (t_v0 t + k)).
    { destruct (Z_le_dec i32_min (t_v0 t + k)), (Z_le_dec (t_v0 t + k) i32_max);
        try (split; lia); rewrite trimmer_added_panic in E by (unfold i32; lia); discriminate. }
    destruct (trimmer_added_spec t k IH1 Hi) as (u' & E' & _ & V & _). congruence.
  - apply trim_range in IH as (A & B & C & D). unfold trimmer_updated in E.
    specialize (Hf _ _ _ _ A B C D). destruct (f (t_v0 t, t_v1 t, t_v2 t, t_v3 t)) as [[[a b] c] d].
    apply from_array_valid in E; tauto.
Qed.

Lemma trimmer_save_load t : valid_trimmer t ->
  let fits := i16 (t_v0 t + t_v1 t) /\ i16 (t_v0 t + t_v1 t + t_v2 t) /\ i16 (t_sum t) in
  (fits -> trimmer_deser t = Ret t) /\ (~ fits -> trimmer_deser t = Panic).
Proof.
  intros [_ Hs]. unfold trim_total, trim_values in Hs. cbn in Hs.
  destruct (from_array_iff (t_v0 t) (t_v1 t) (t_v2 t) (t_v3 t)) as [A B].
  assert (Es : t_sum t = t_v0 t + t_v1 t + t_v2 t + t_v3 t) by lia.
  cbv zeta. rewrite Es. split; intros H.
  - unfold trimmer_deser. rewrite A by auto. unfold trimmer_new. rewrite <- Es. destruct t; reflexivity.
  - unfold trimmer_deser. apply B; auto.
Qed.

Lemma trimmer_eqb_spec a b : valid_trimmer a -> valid_trimmer b -> trimmer_eqb a b = true <-> a = b.
Proof.
  intros [_ Ha] [_ Hb]. unfold trim_total, trim_values in *. cbn in Ha, Hb. unfold trimmer_eqb.
  destruct a, b; cbn in *. split.
  - destruct (Z.eqb_spec t_sum t_sum0); [|discriminate]. intros H. f_equal; lia.
  - intros H; inv H. rewrite !Z.eqb_refl. reflexivity.
Qed.

(** rate trimmers *)
Lemma obtainable_rate_sum r : obtainable_rate r -> 0 <= r_sum r <= 2000.
Proof.
  induction 1; cbn [r_sum rate_one rate_new rate_from_array rate_deser]; try apply percent_range. lia.
Qed.

Lemma rate_load_stable r : rate_deser (rate_deser r) = rate_deser r.
Proof. reflexivity. Qed.

Lemma rate_array_load a b c d : rate_deser (rate_from_array a b c d) = rate_from_array a b c d.
Proof. reflexivity. Qed.

Lemma rate_new_exact a b c d :
  0 <= a <= 2000 -> 0 <= b <= 2000 -> 0 <= c <= 2000 -> 0 <= d <= 2000 ->
  ~ In a lossy -> ~ In b lossy -> ~ In c lossy -> ~ In d lossy ->
  rate_deser (rate_new (percent_to_f32 a) (percent_to_f32 b) (percent_to_f32 c) (percent_to_f32 d)) =
  rate_new (percent_to_f32 a) (percent_to_f32 b) (percent_to_f32 c) (percent_to_f32 d).
Proof.
  intros Ha Hb Hc Hd La Lb Lc Ld.
  assert (E : forall x, 0 <= x <= 2000 -> ~ In x lossy -> percent_of_f32 (percent_to_f32 x) = x).
  { intros x Hx Lx. apply (percent_roundtrip_iff x Hx); auto. }
  unfold rate_new, rate_deser, rate_from_array; cbn [r_v0 r_v1 r_v2 r_v3]. rewrite !E by auto. reflexivity.
Qed.

Definition third : f32 := f32_div (f32_of_Z 1) (f32_of_Z 3).
Definition three_halves : f32 := f32_div (f32_of_Z 3) (f32_of_Z 2).

Lemma rate_new_lossy :
  rate_eqb (rate_deser (rate_new third three_halves (f32_of_Z 1) (f32_of_Z 1)))
           (rate_new third three_halves (f32_of_Z 1) (f32_of_Z 1)) = false.
Proof. vm_compute. reflexivity. Qed.

Lemma apply_mono p p' v v' a a' : 0 <= p <= p' -> p' <= 2000 -> 0 <= v <= v' -> v' < 2147483648 ->
  percent_apply p v = Ret a -> percent_apply p' v' = Ret a' -> a <= a'.
Proof.
  intros Hp Hp' Hv Hv' E E'. rewrite apply_floor in E by lia. rewrite apply_floor in E' by lia.
  apply ret_inj in E, E'. subst a a'. apply Z.div_le_mono; [lia|]. nia.
Qed.
