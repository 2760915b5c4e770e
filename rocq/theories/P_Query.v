(** Lemmas about the queries of a project: values in force, locations. *)
From Coq Require Import Sorted Permutation.
From Verif Require Import P_Base M_Scalar M_Bar M_Note M_Store M_Models M_Project S_Project P_Store P_Note.
Open Scope Z_scope.

Lemma keyed_srt {V} (tick : V -> Z) s : keyed tick s -> srt V s.
Proof. intros [H _]; exact H. Qed.

(** The index of the last entry at or before a tick. *)
Definition last_idx {V} (t : Z) (s : list (Z * V)) : option nat :=
  match s_find t s with Ok i => Some i | Err O => None | Err (S i) => Some i end.

Lemma last_idx_spec {V} (s : list (Z * V)) t : srt V s ->
  match last_idx t s with
  | Some i => exists k v, nth_error s i = Some (k, v) /\ k <= t /\
      (forall j k' v', nth_error s j = Some (k', v') -> (i < j)%nat -> t < k')
  | None => forall k v, In (k, v) s -> t < k
  end.
Proof.
  intros H. unfold last_idx. pose proof (s_find_spec V t s H) as F.
  destruct (s_find t s) as [i|[|i]].
  - destruct F as [v F]. exists t, v. split; auto. split; [lia|].
    intros j k' v' E L. apply (nth_lt_sorted V s H i j _ _ F E L).
  - intros k v I. apply In_nth_error in I. destruct I as [j E]. destruct F as [_ [F _]].
    eapply F; eauto; lia.
  - destruct F as [F1 [F2 F3]].
    assert (i < length s)%nat by lia. destruct (nth_error s i) as [[k v]|] eqn:E.
    + exists k, v. split; auto. split; [apply (F1 i k v) in E; lia|].
      intros j k' v' E' L. apply (F2 j k' v'); auto.
    + apply nth_error_None in E. lia.
Qed.

Lemma latest_unique {V} (s : list (Z * V)) t o o' : srt V s -> latest s t o -> latest s t o' -> o = o'.
Proof.
  intros H L L'. destruct o as [v|], o' as [v'|]; cbn in *; auto.
  - destruct L as [k [I [Hk M]]], L' as [k' [I' [Hk' M']]].
    assert (k = k') by (pose proof (M _ _ I' Hk'); pose proof (M' _ _ I Hk); lia). subst k'.
    apply (get_In V _ _ s H) in I, I'. congruence.
  - destruct L as [k [I [Hk _]]]. apply L' in I. lia.
  - destruct L' as [k [I [Hk _]]]. apply L in I. lia.
Qed.

Lemma last_idx_latest {V} (s : list (Z * V)) t : srt V s ->
  latest s t (match last_idx t s with Some i => option_map snd (nth_error s i) | None => None end).
Proof.
  intros H. pose proof (last_idx_spec s t H) as F. destruct (last_idx t s) as [i|].
  - destruct F as [k [v [E [Hk M]]]]. rewrite E. cbn. exists k. split; [eapply nth_error_In; eauto|].
    split; auto. intros k' v' I Hk'. apply In_nth_error in I. destruct I as [j E'].
    destruct (Nat.lt_trichotomy i j) as [L|[L|L]].
    + apply (M j k' v') in L; auto. lia.
    + subst. rewrite E in E'. inv E'. lia.
    + pose proof (nth_lt_sorted V s H j i _ _ E' E L) as Q. cbn in Q. lia.
  - exact F.
Qed.

Lemma tempo_at_spec p t : keyed tp_tick (pj_tempos p) ->
  exists o, latest (pj_tempos p) t o /\
    tempo_at p t = Ret (match o with Some v => tp_value v | None => 120 end).
Proof.
  intros H. apply keyed_srt in H. eexists. split; [apply last_idx_latest; auto|].
  unfold tempo_at, tempo_at_store. pose proof (last_idx_spec _ t H) as F. unfold last_idx in *.
  destruct (pj_tempos p) as [|x s] eqn:Ep; [reflexivity|]. rewrite <- Ep in *.
  destruct (s_find t (pj_tempos p)) as [i|[|i]]; auto;
    destruct F as [k [v [E _]]]; unfold s_index; rewrite E; reflexivity.
Qed.

Lemma ctrl_at_spec s t : keyed cc_tick s ->
  exists o, latest s t o /\ ctrl_chg_at t s = Ret (match o with Some v => cc_velocity v | None => 0 end).
Proof.
  intros H. apply keyed_srt in H. eexists. split; [apply last_idx_latest; auto|].
  unfold ctrl_chg_at. pose proof (last_idx_spec _ t H) as F. unfold last_idx in *.
  destruct s as [|x s'] eqn:Ep; [reflexivity|]. rewrite <- Ep in *.
  destruct (s_find t s) as [i|[|i]]; auto;
    destruct F as [k [v [E _]]]; unfold s_index; rewrite E; reflexivity.
Qed.

(** Looking back from an index. *)
Lemma search_back_spec {A} (f : bar -> option A) d s : forall i, (i < length s)%nat ->
  exists r, search_back f d s i = Ret r /\
    ((exists j k b, (j <= i)%nat /\ nth_error s j = Some (k, b) /\ f b = Some r /\
        forall j' k' b', (j < j' <= i)%nat -> nth_error s j' = Some (k', b') -> f b' = None) \/
     (r = d /\ forall j' k' b', (j' <= i)%nat -> nth_error s j' = Some (k', b') -> f b' = None)).
Proof.
  induction i as [|i IH]; intros L.
  - destruct (nth_error s 0) as [[k b]|] eqn:E; [|apply nth_error_None in E; lia].
    cbn [search_back]. unfold s_index. rewrite E. cbn. destruct (f b) as [a|] eqn:F.
    + exists a. split; auto. left. exists 0%nat, k, b. repeat split; auto. intros; lia.
    + exists d. split; auto. right. split; auto. intros j' k' b' Lj E'. assert (j' = 0)%nat by lia. subst.
      rewrite E in E'. inv E'. auto.
  - destruct (nth_error s (S i)) as [[k b]|] eqn:E; [|apply nth_error_None in E; lia].
    cbn [search_back]. unfold s_index. rewrite E. cbn [unwrap_opt bind snd]. destruct (f b) as [a|] eqn:F.
    + exists a. split; auto. left. exists (S i), k, b. repeat split; auto. intros; lia.
    + destruct IH as [r [Er D]]; [lia|]. exists r. split; auto. destruct D as [D|D].
      * left. destruct D as [j [kj [bj [Lj [Ej [Fj M]]]]]]. exists j, kj, bj. split; [lia|]. split; auto. split; auto.
        intros j' k' b' Lj' E'. destruct (Nat.eq_dec j' (S i)); [subst; rewrite E in E'; inv E'; auto|].
        apply (M j' k' b'); auto; lia.
      * right. destruct D as [D1 D2]. split; auto. intros j' k' b' Lj' E'.
        destruct (Nat.eq_dec j' (S i)); [subst; rewrite E in E'; inv E'; auto|]. apply (D2 j' k' b'); auto; lia.
Qed.

Lemma setting_in {A} (f : bar -> option A) s k a :
  In (k, a) (setting f s) <-> exists b, In (k, b) s /\ f b = Some a.
Proof.
  unfold setting. rewrite in_flat_map. split.
  - intros [[k' b] [I J]]. cbn in J. destruct (f b) eqn:F; [|destruct J]. destruct J as [E|[]]. inv E. eauto.
  - intros [b [I F]]. exists (k, b). split; auto. cbn. rewrite F. left; auto.
Qed.

Lemma at_spec {A} (f : bar -> option A) d s t : srt bar s ->
  exists o, latest (setting f s) t o /\
    (match last_idx t s with Some i => search_back f d s i | None => Ret d end) =
    Ret (match o with Some r => r | None => d end).
Proof.
  intros H. pose proof (last_idx_spec s t H) as F. destruct (last_idx t s) as [i|].
  - destruct F as [k [v [E [Hk M]]]].
    assert (L : (i < length s)%nat) by (apply nth_error_Some; congruence).
    destruct (search_back_spec f d s i L) as [r [Er [D|D]]].
    + destruct D as [j [kj [bj [Lj [Ej [Fj Mj]]]]]]. exists (Some r). split; [|auto]. cbn.
      exists kj. split; [apply setting_in; exists bj; split; auto; eapply nth_error_In; eauto|]. split.
      * destruct (Nat.eq_dec j i); [subst; rewrite E in Ej; inv Ej; auto|].
        pose proof (nth_lt_sorted _ s H j i _ _ Ej E ltac:(lia)) as Q. cbn in Q. lia.
      * intros k' a' I Hk'. apply setting_in in I. destruct I as [b' [I Fb]].
        apply In_nth_error in I. destruct I as [j' E'].
        destruct (Nat.le_gt_cases j' i).
        -- destruct (Nat.le_gt_cases j' j) as [L1|L1].
           ++ destruct (Nat.eq_dec j' j); [subst; rewrite E' in Ej; inv Ej; lia|].
              pose proof (nth_lt_sorted _ s H j' j _ _ E' Ej ltac:(lia)) as Q. cbn in Q. lia.
           ++ enough (f b' = None) by congruence; apply (Mj j' k' b'); auto; lia.
        -- apply (M j' k' b') in H0; auto. lia.
    + destruct D as [-> D]. exists None. split; [|auto]. cbn. intros k' a' I.
      apply setting_in in I. destruct I as [b' [I Fb]]. apply In_nth_error in I. destruct I as [j' E'].
      destruct (Nat.le_gt_cases j' i) as [L1|L1].
      * rewrite (D j' k' b') in Fb; auto. discriminate.
      * eapply M; eauto.
  - exists None. split; [|auto]. cbn. intros k' a' I. apply setting_in in I. destruct I as [b' [I Fb]]. eauto.
Qed.

Lemma rhythm_at_idx p t : rhythm_at p t =
  match last_idx t (pj_bars p) with Some i => search_back b_rhythm (pj_rhythm p) (pj_bars p) i | None => Ret (pj_rhythm p) end.
Proof. unfold rhythm_at, last_idx. destruct (s_find t (pj_bars p)) as [i|[|i]]; auto. Qed.
Lemma key_at_idx p t : key_at p t =
  match last_idx t (pj_bars p) with Some i => search_back b_key (pj_key p) (pj_bars p) i | None => Ret (pj_key p) end.
Proof. unfold key_at, last_idx. destruct (s_find t (pj_bars p)) as [i|[|i]]; auto. Qed.

Lemma rhythm_at_spec p t : keyed b_tick (pj_bars p) ->
  exists o, latest (setting b_rhythm (pj_bars p)) t o /\
    rhythm_at p t = Ret (match o with Some r => r | None => pj_rhythm p end).
Proof. intros H. rewrite rhythm_at_idx. apply at_spec, (keyed_srt b_tick); auto. Qed.
Lemma key_at_spec p t : keyed b_tick (pj_bars p) ->
  exists o, latest (setting b_key (pj_bars p)) t o /\
    key_at p t = Ret (match o with Some r => r | None => pj_key p end).
Proof. intros H. rewrite key_at_idx. apply at_spec, (keyed_srt b_tick); auto. Qed.

Lemma setting_srt {A} (f : bar -> option A) s : srt bar s -> srt A (setting f s).
Proof.
  induction s as [|[k b] s IH]; intros H; [constructor|]. apply srt_cons in H. destruct H as [H1 H2].
  cbn. destruct (f b) as [a|]; [|auto]. cbn. apply srt_cons. split; [auto|].
  intros k' a' I. apply setting_in in I. destruct I as [b' [I _]]. cbn. apply H2 in I. exact I.
Qed.

(** ** Locations *)

Lemma tick_to_location_spec p t : keyed b_tick (pj_bars p) -> u32 t ->
  exists l, tick_to_location p t = Ret l /\
    match last_idx t (pj_bars p) with
    | None => l = mkLoc 0 t
    | Some i => exists b, nth_error (pj_bars p) i = Some (b_tick b, b) /\ b_tick b <= t /\
                l = mkLoc (Z.of_nat i + 1) (t - b_tick b)
    end.
Proof.
  intros H Ht. pose proof (keyed_srt _ _ H) as Hs. pose proof (last_idx_spec _ t Hs) as F.
  unfold tick_to_location, last_idx in *. destruct (pj_bars p) as [|x s] eqn:Ep; [cbn; eauto|].
  rewrite <- Ep in *. pose proof (s_find_ok bar t (pj_bars p)) as FO.
  destruct (s_find t (pj_bars p)) as [i|[|i]]; eauto.
  - destruct F as [k [v [E [Hk _]]]]. destruct (FO i Hs eq_refl) as [w E']. rewrite E in E'. inv E'.
    destruct H as [_ H]. destruct (H _ _ (nth_error_In _ _ E)) as [Eb _].
    eexists. split; [reflexivity|]. exists w. rewrite <- Eb. split; auto. split; [lia|].
    f_equal; lia.
  - destruct F as [k [v [E [Hk _]]]].
    destruct H as [_ H]. destruct (H _ _ (nth_error_In _ _ E)) as [Eb Ub]. subst k.
    unfold s_index. rewrite E. cbn [unwrap_opt bind snd].
    unfold chk_u32. rewrite chk_ret by (unfold u32 in *; lia). cbn [bind].
    eexists. split; [reflexivity|]. exists v. split; auto. split; auto. f_equal; lia.
Qed.

Lemma strict_ticks {V} (s : list (Z * V)) : srt V s -> (forall k v, In (k, v) s -> u32 k) ->
  forall i k v, nth_error s i = Some (k, v) -> Z.of_nat i <= k.
Proof.
  intros H U. induction i as [|i IH]; intros k v E.
  - apply nth_error_In, U in E. unfold u32 in E. lia.
  - destruct (nth_error s i) as [[k' v']|] eqn:E'.
    + pose proof (nth_lt_sorted V s H i (S i) _ _ E' E ltac:(lia)) as Q. specialize (IH _ _ eq_refl). cbn in Q. lia.
    + apply nth_error_None in E'. assert (S i < length s)%nat by (apply nth_error_Some; congruence). lia.
Qed.

Lemma roundtrip p t : keyed b_tick (pj_bars p) -> Z.of_nat (length (pj_bars p)) <= u32_max -> u32 t ->
  exists l, tick_to_location p t = Ret l /\ location_to_tick p l = Ret (Ok t).
Proof.
  intros H Hlen Ht. destruct (tick_to_location_spec p t H Ht) as [l [E L]]. exists l. split; auto.
  unfold u32 in Ht. destruct (last_idx t (pj_bars p)) as [i|].
  - destruct L as [b [En [Hb ->]]].
    assert (i < length (pj_bars p))%nat by (apply nth_error_Some; congruence).
    unfold location_to_tick. cbn [loc_bar loc_offset].
    destruct (Z.eqb_spec (Z.of_nat i + 1) 0); [lia|].
    destruct (Z.ltb_spec u32_max (Z.of_nat i + 1)); [lia|].
    destruct (Z.leb_spec (Z.of_nat i + 1) (Z.of_nat (length (pj_bars p)))); [|lia].
    replace (Z.to_nat (Z.of_nat i + 1 - 1)) with i by lia. unfold s_index. rewrite En. cbn [unwrap_opt bind fst].
    replace (b_tick b + (t - b_tick b)) with t by lia. unfold chk_usize.
    rewrite chk_ret by (unfold usize_max, u32_max in *; lia). cbn [bind].
    destruct (Z.ltb_spec u32_max t); [lia|auto].
  - subst l. unfold location_to_tick. cbn [loc_bar loc_offset]. rewrite Z.eqb_refl.
    destruct (Z.ltb_spec u32_max t); [lia|auto].
Qed.

(** Monotone: later ticks have later locations. *)
Lemma location_monotone p t t' l l' : keyed b_tick (pj_bars p) -> u32 t -> u32 t' -> t < t' ->
  tick_to_location p t = Ret l -> tick_to_location p t' = Ret l' -> loc_lt l l'.
Proof.
  intros H Ht Ht' Hlt E E'. pose proof (keyed_srt _ _ H) as Hs.
  destruct (tick_to_location_spec p t H Ht) as [a [Ea La]]. rewrite E in Ea. inv Ea.
  destruct (tick_to_location_spec p t' H Ht') as [b [Eb Lb]]. rewrite E' in Eb. inv Eb.
  pose proof (last_idx_spec _ t Hs) as F. pose proof (last_idx_spec _ t' Hs) as F'.
  unfold loc_lt. destruct (last_idx t (pj_bars p)) as [i|], (last_idx t' (pj_bars p)) as [i'|]; try subst.
  - destruct La as [x [Ex [Hx ->]]], Lb as [y [Ey [Hy ->]]]. cbn.
    destruct (Nat.lt_trichotomy i i') as [L|[L|L]]; [lia| |].
    + subst i'. rewrite Ex in Ey. inv Ey. right. lia.
    + destruct F' as [k [v [En [Hk M]]]]. apply (M i _ _ Ex) in L. lia.
  - destruct La as [x [Ex [Hx ->]]]. apply nth_error_In, F' in Ex. lia.
  - destruct Lb as [y [Ey [Hy ->]]]. cbn. left. lia.
  - cbn. right. lia.
Qed.

Lemma rhythm_tick_len_eq r : 0 <= rh_num r <= 255 ->
  rhythm_tick_len r = rh_num r * 960 / rhythm_den_value (rh_den r).
Proof.
  intros H. unfold rhythm_tick_len, M_Duration.tick_resolution.
  rewrite Z.quot_div_nonneg by (destruct (rh_den r); cbn; lia).
  replace (rh_num r * 240 * 4) with (rh_num r * 960) by lia.
  apply as_u32_id. unfold u32, u32_max. destruct (rh_den r); cbn; lia.
Qed.

Lemma rhythm_tick_len_range r : 0 <= rh_num r <= 255 -> 0 <= rhythm_tick_len r <= 122400.
Proof. intros H. rewrite rhythm_tick_len_eq by auto. destruct (rh_den r); cbn; lia. Qed.

Lemma rhythm_tick_len_pos r : 1 <= rh_num r <= 255 -> 15 <= rhythm_tick_len r.
Proof. intros H. rewrite rhythm_tick_len_eq by lia. destruct (rh_den r); cbn; lia. Qed.

Lemma rhythm_at_all P p t : keyed b_tick (pj_bars p) -> all_rhythms P p ->
  exists r, rhythm_at p t = Ret r /\ P r.
Proof.
  intros H [A1 A2]. destruct (rhythm_at_spec p t H) as [o [L E]]. eexists. split; [exact E|].
  destruct o as [r|]; auto. cbn in L. destruct L as [k [I _]]. apply setting_in in I.
  destruct I as [b [I Fb]]. eauto.
Qed.

Lemma last_bar_spec p : keyed b_tick (pj_bars p) ->
  last_bar p = match pj_bars p with
               | [] => None
               | x :: s => Some (length s, snd (last s x))
               end /\
  match pj_bars p with [] => True | x :: s => b_tick (snd (last s x)) = fst (last s x) end.
Proof.
  intros [_ H]. unfold last_bar, s_peek_last. destruct (pj_bars p) as [|x s]; [auto|].
  pose proof (last_In bar x s) as I. destruct (last s x) as [k b]. cbn [fst snd length].
  split; [do 2 f_equal; lia|]. apply H in I. symmetry; tauto.
Qed.

Definition fits (z : Z) : result Z location_error := if u32_max <? z then Err Overflow else Ok z.

Lemma location_to_tick_spec p l : keyed b_tick (pj_bars p) -> Z.of_nat (length (pj_bars p)) <= u32_max ->
  all_rhythms (fun r => 1 <= rh_num r <= 255) p ->
  0 <= loc_bar l -> 0 <= loc_offset l <= usize_max - 2251799813685248 ->
  exists r, rhythm_at p (last_tick p) = Ret r /\
    location_to_tick p l = Ret (fits (bar_start p (rhythm_tick_len r) (loc_bar l) + loc_offset l)).
Proof.
  intros H Hlen A Hb Ho. destruct (rhythm_at_all _ p (last_tick p) H A) as [r [Er Hr]].
  exists r. split; auto. pose proof (rhythm_tick_len_range r ltac:(lia)) as R1.
  pose proof (rhythm_tick_len_pos r Hr) as R2.
  assert (R3 : 15 <= rhythm_tick_len (pj_rhythm p) <= 122400).
  { destruct A as [A _]. split; [apply rhythm_tick_len_pos; auto|apply rhythm_tick_len_range; lia]. }
  unfold location_to_tick, bar_start, fits, usize_max, u32_max in *.
  destruct (Z.eqb_spec (loc_bar l) 0) as [E0|E0]; [rewrite Z.add_0_l; auto|].
  destruct (last_bar_spec p H) as [LB LT].
  destruct (Z.ltb_spec 4294967295 (loc_bar l)) as [L1|L1].
  - destruct (nth_error (pj_bars p) (Z.to_nat (loc_bar l - 1))) as [[k b]|] eqn:En.
    { assert (Z.to_nat (loc_bar l - 1) < length (pj_bars p))%nat by (apply nth_error_Some; congruence). lia. }
    destruct (Z.ltb_spec 4294967295 (match pj_bars p with
      | [] => loc_bar l * rhythm_tick_len (pj_rhythm p)
      | x :: s => fst (last s x) + (loc_bar l - Z.of_nat (length (pj_bars p))) * rhythm_tick_len r
      end + loc_offset l)); [auto|exfalso].
    destruct (pj_bars p) as [|x s] eqn:Ep; [nia|].
    pose proof (last_nth bar x s) as Ln. rewrite <- Ep in *. destruct (last s x) as [k b] eqn:El.
    pose proof (strict_ticks (pj_bars p) (keyed_srt _ _ H) (fun k v I => proj2 (proj2 H k v I)) _ _ _ Ln).
    cbn [fst] in *. rewrite Ep in *. cbn [length] in *. nia.
  - destruct (Z.leb_spec (loc_bar l) (Z.of_nat (length (pj_bars p)))) as [L2|L2].
    + destruct (nth_error (pj_bars p) (Z.to_nat (loc_bar l - 1))) as [[k b]|] eqn:En.
      2:{ apply nth_error_None in En. lia. }
      unfold s_index. rewrite En. cbn [unwrap_opt bind fst]. unfold chk_usize, usize_max.
      destruct (proj2 H _ _ (nth_error_In _ _ En)) as [_ U]. unfold u32, u32_max in U.
      rewrite chk_ret by lia. cbn [bind]. auto.
    + destruct (nth_error (pj_bars p) (Z.to_nat (loc_bar l - 1))) as [[k b]|] eqn:En.
      { assert (Z.to_nat (loc_bar l - 1) < length (pj_bars p))%nat by (apply nth_error_Some; congruence). lia. }
      rewrite LB. unfold last_tick in Er. unfold chk_usize, usize_max.
      destruct (pj_bars p) as [|x s] eqn:Ep.
      * rewrite chk_ret by nia. cbn [bind]. rewrite chk_ret by nia. cbn [bind]. auto.
      * rewrite LT, Er. cbn [bind]. cbn [length] in *.
        pose proof (last_In bar x s) as Il.
        assert (U : u32 (fst (last s x))).
        { destruct (last s x) as [k b]. apply (proj2 H) in Il. tauto. }
        unfold u32, u32_max in U.
        rewrite chk_ret by lia. cbn [bind]. rewrite chk_ret by lia. cbn [bind].
        rewrite chk_ret by nia. cbn [bind]. rewrite chk_ret by nia. cbn [bind].
        rewrite chk_ret by nia. cbn [bind].
        match goal with |- context[if ?a <? ?b then _ else Ok ?b] =>
          match goal with |- _ = Ret (if _ <? ?c then _ else _) => replace b with c by nia end end.
        auto.
Qed.

Lemma location_to_tick_exact p l : keyed b_tick (pj_bars p) -> Z.of_nat (length (pj_bars p)) <= u32_max ->
  all_rhythms (fun r => 1 <= rh_num r <= 255) p ->
  0 <= loc_bar l -> 0 <= loc_offset l ->
  exists r, rhythm_at p (last_tick p) = Ret r /\
    let t := bar_start p (rhythm_tick_len r) (loc_bar l) + loc_offset l in
    location_to_tick p l =
      if (1 <=? loc_bar l) && (loc_bar l <=? u32_max) && (usize_max <? t) then Panic else Ret (fits t).
Proof.
  intros H Hlen A Hb Ho. destruct (rhythm_at_all _ p (last_tick p) H A) as [r [Er Hr]].
  exists r. split; auto. pose proof (rhythm_tick_len_range r ltac:(lia)) as R1.
  pose proof (rhythm_tick_len_pos r Hr) as R2.
  assert (R3 : 15 <= rhythm_tick_len (pj_rhythm p) <= 122400).
  { destruct A as [A _]. split; [apply rhythm_tick_len_pos; auto|apply rhythm_tick_len_range; lia]. }
  unfold location_to_tick, bar_start, fits, usize_max, u32_max in *. cbv zeta.
  destruct (Z.eqb_spec (loc_bar l) 0) as [E0|E0].
  { rewrite Z.add_0_l. destruct (Z.leb_spec 1 (loc_bar l)); [lia|]. auto. }
  destruct (Z.leb_spec 1 (loc_bar l)); [|lia]. cbn [andb].
  destruct (last_bar_spec p H) as [LB LT].
  destruct (Z.ltb_spec 4294967295 (loc_bar l)) as [L1|L1].
  - destruct (Z.leb_spec (loc_bar l) 4294967295); [lia|]. cbn [andb].
    destruct (nth_error (pj_bars p) (Z.to_nat (loc_bar l - 1))) as [[k b]|] eqn:En.
    { assert (Z.to_nat (loc_bar l - 1) < length (pj_bars p))%nat by (apply nth_error_Some; congruence). lia. }
    destruct (Z.ltb_spec 4294967295 (match pj_bars p with
      | [] => loc_bar l * rhythm_tick_len (pj_rhythm p)
      | x :: s => fst (last s x) + (loc_bar l - Z.of_nat (length (pj_bars p))) * rhythm_tick_len r
      end + loc_offset l)); [auto|exfalso].
    destruct (pj_bars p) as [|x s] eqn:Ep; [nia|].
    pose proof (last_nth bar x s) as Ln. rewrite <- Ep in *. destruct (last s x) as [k b] eqn:El.
    pose proof (strict_ticks (pj_bars p) (keyed_srt _ _ H) (fun k v I => proj2 (proj2 H k v I)) _ _ _ Ln).
    cbn [fst] in *. rewrite Ep in *. cbn [length] in *. nia.
  - destruct (Z.leb_spec (loc_bar l) 4294967295); [|lia]. cbn [andb].
    destruct (Z.leb_spec (loc_bar l) (Z.of_nat (length (pj_bars p)))) as [L2|L2].
    + destruct (nth_error (pj_bars p) (Z.to_nat (loc_bar l - 1))) as [[k b]|] eqn:En.
      2:{ apply nth_error_None in En. lia. }
      unfold s_index. rewrite En. cbn [unwrap_opt bind fst]. unfold chk_usize, usize_max.
      destruct (proj2 H _ _ (nth_error_In _ _ En)) as [_ U]. unfold u32, u32_max in U.
      destruct (Z.ltb_spec 18446744073709551615 (k + loc_offset l)); [rewrite chk_panic by lia; reflexivity|].
      rewrite chk_ret by lia. cbn [bind]. auto.
    + destruct (nth_error (pj_bars p) (Z.to_nat (loc_bar l - 1))) as [[k b]|] eqn:En.
      { assert (Z.to_nat (loc_bar l - 1) < length (pj_bars p))%nat by (apply nth_error_Some; congruence). lia. }
      rewrite LB. unfold last_tick in Er. unfold chk_usize, usize_max.
      destruct (pj_bars p) as [|x s] eqn:Ep.
      * rewrite chk_ret by nia. cbn [bind].
        destruct (Z.ltb_spec 18446744073709551615 (loc_bar l * rhythm_tick_len (pj_rhythm p) + loc_offset l));
          [rewrite chk_panic by lia; reflexivity|].
        rewrite chk_ret by nia. cbn [bind]. auto.
      * rewrite LT, Er. cbn [bind]. cbn [length] in *.
        pose proof (last_In bar x s) as Il.
        assert (U : u32 (fst (last s x))).
        { destruct (last s x) as [k b]. apply (proj2 H) in Il. tauto. }
        unfold u32, u32_max in U.
        rewrite chk_ret by lia. cbn [bind]. rewrite chk_ret by lia. cbn [bind].
        replace (loc_bar l - Z.of_nat (length s) - 1) with (loc_bar l - Z.of_nat (S (length s))) by lia.
        set (m := loc_bar l - Z.of_nat (S (length s))) in *.
        assert (M : 0 <= m * rhythm_tick_len r <= 4294967295 * 122400) by nia.
        set (a := m * rhythm_tick_len r) in *.
        rewrite chk_ret by lia. cbn [bind].
        destruct (Z.ltb_spec 18446744073709551615 (fst (last s x) + a + loc_offset l)) as [V|V].
        { destruct (Z.ltb_spec 18446744073709551615 (a + loc_offset l)); [rewrite chk_panic by lia; reflexivity|].
          rewrite chk_ret by lia. cbn [bind]. rewrite chk_panic by lia. reflexivity. }
        rewrite chk_ret by lia. cbn [bind]. rewrite chk_ret by lia. cbn [bind].
        replace (a + loc_offset l + fst (last s x)) with (fst (last s x) + a + loc_offset l) by lia. auto.
Qed.

Lemma bar_no_spec p b : keyed b_tick (pj_bars p) ->
  match bar_no p b with
  | Some i => exists b', nth_error (pj_bars p) i = Some (b_tick b, b')
  | None => ~ In (b_tick b) (map fst (pj_bars p))
  end.
Proof.
  intros H. pose proof (keyed_srt _ _ H) as Hs. unfold bar_no.
  pose proof (s_find_spec bar (b_tick b) _ Hs) as F. destruct (s_find (b_tick b) (pj_bars p)) as [i|i]; auto.
  destruct F as [F1 [F2 F3]]. intros I. apply keys_in in I. destruct I as [v I]. apply In_nth_error in I.
  destruct I as [j E]. destruct (Nat.lt_ge_cases j i) as [L|L]; [apply (F1 _ _ _ E) in L|apply (F2 _ _ _ E) in L]; lia.
Qed.
