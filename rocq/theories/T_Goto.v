(** Property theorems about typed locations: C76. *)
From Coq Require Import ZArith List Bool Lia Sorted Permutation.
From Verif Require Import Base M_Duration M_Percent M_Scalar M_Pitch M_Bar M_Note M_Store M_Text M_Tuple M_Models M_Project M_Json.
From Verif Require Import S_Project S_Score S_Effect S_Goto S_Text S_Tuple S_Json P_Base P_Store P_Query P_Replenish P_Edit P_History P_Effect P_Tuple.
From Verif Require T_Project T_Text T_Effect T_Paste T_Json P_Note P_Savable.
Import ListNotations.
Open Scope Z_scope.

Lemma score_nth p i b : project_ok p -> nth_error (score p) i = Some b <-> nth_error (pj_bars p) i = Some (b_tick b, b).
Proof.
  intros O. unfold score. rewrite nth_error_map. destruct (nth_error (pj_bars p) i) as [[k v]|] eqn:E; cbn [option_map snd].
  - apply nth_error_In in E. destruct (proj2 (ok_bars p O) _ _ E) as [-> _]. split; intros H; inv H; reflexivity.
  - split; discriminate.
Qed.
Lemma score_lt p i j a b : project_ok p -> nth_error (score p) i = Some a -> nth_error (score p) j = Some b -> (i < j)%nat -> b_tick a < b_tick b.
Proof.
  intros O A B L. apply (score_nth p i a O) in A. apply (score_nth p j b O) in B.
  exact (nth_lt_sorted bar (pj_bars p) (keyed_srt _ _ (ok_bars p O)) i j _ _ A B L).
Qed.

(** The location shown for a tick lies inside its bar; and of all locations that stand for a tick it is the one
    that does. *)
Theorem C76_inside : forall p l t, project_ok p -> 0 <= loc_bar l -> 0 <= loc_offset l -> location_to_tick p l = Ret (Ok t) ->
  (tick_to_location p t = Ret l <-> inside p l).
Proof.
  intros p l t O LB LO E.
  assert (U : u32 t).
  { unfold location_to_tick in E. unfold u32.
    assert (F : forall z, 0 <= z -> Ret (if u32_max <? z then Err Overflow else Ok z) = Ret (Ok t) -> 0 <= t <= u32_max).
    { intros z Z0 H. destruct (Z.ltb_spec u32_max z); inv H. lia. }
    destruct (loc_bar l =? 0); [eapply F; eauto|]. destruct (u32_max <? loc_bar l); [discriminate|].
    destruct (loc_bar l <=? Z.of_nat (length (pj_bars p))).
    - apply bind_ret in E as (x & X & E). apply bind_ret in E as (y & Y & E). apply chk_inv in Y. apply (F y); [lia|exact E].
    - apply bind_ret in E as (x & X & E). apply (F x); [|exact E].
      destruct (last_bar p) as [[? ?]|].
      + repeat (apply bind_ret in X as (? & _ & X)). apply chk_inv in X. lia.
      + apply bind_ret in X as (? & _ & X). apply chk_inv in X. lia. }
  assert (IN : forall l', tick_to_location p t = Ret l' ->
    loc_bar l' = 0 /\ loc_offset l' = t /\ (forall b, In b (score p) -> t < b_tick b) \/
    exists i b, loc_bar l' = Z.of_nat i + 1 /\ nth_error (score p) i = Some b /\ b_tick b <= t /\ loc_offset l' = t - b_tick b /\
      forall b', nth_error (score p) (S i) = Some b' -> t < b_tick b').
  { intros l' H. destruct (T_Project.C24_meaning p t l' O U H) as [(A & B & C)|(i & k & b & A & B & C & D & N)].
    - left. split; [exact A|]. split; [exact B|]. intros b I. unfold score in I. apply in_map_iff in I as ([k v] & <- & I). cbn.
      destruct (proj2 (ok_bars p O) _ _ I) as [<- _]. eauto.
    - right. exists i, b. destruct (proj2 (ok_bars p O) _ _ (nth_error_In _ _ B)) as [EK _]. subst k.
      split; [exact A|]. split; [apply score_nth; auto|]. split; [exact C|]. split; [exact D|]. intros b' I.
      apply (score_nth p (S i) b' O) in I. eauto. }
  split.
  - intros H. destruct (IN l H) as [(A & B & C)|(i & b & A & B & C & D & N)].
    + left. split; [exact A|]. rewrite B. exact C.
    + right. exists i, b. split; [exact A|]. split; [exact B|]. intros b' I. specialize (N b' I). lia.
  - intros H. destruct (tick_to_location_spec p t (ok_bars p O) U) as (l' & E' & _). rewrite E'. f_equal.
    specialize (IN l' E').
    assert (EQ : forall x y, loc_bar x = loc_bar y -> loc_offset x = loc_offset y -> x = y) by (intros [] [] ? ?; cbn in *; congruence).
    destruct H as [[A B]|(i & b & A & B & C)].
    + assert (T : t = loc_offset l).
      { unfold location_to_tick in E. rewrite A in E. cbn in E. destruct (u32_max <? loc_offset l); inv E. reflexivity. }
      destruct IN as [(A' & B' & C')|(i & b & A' & B' & C' & D' & N')]; [apply EQ; congruence|].
      apply nth_error_In in B'. specialize (B b B'). lia.
    + assert (T : t = b_tick b + loc_offset l).
      { apply (score_nth p i b O) in B. assert (i < length (pj_bars p))%nat by (apply nth_error_Some; congruence).
        unfold location_to_tick in E. destruct (Z.eqb_spec (loc_bar l) 0); [lia|]. destruct (u32_max <? loc_bar l); [discriminate|].
        destruct (Z.leb_spec (loc_bar l) (Z.of_nat (length (pj_bars p)))); [|lia].
        replace (Z.to_nat (loc_bar l - 1)) with i in E by lia. unfold s_index in E. rewrite B in E. cbn [unwrap_opt bind fst] in E.
        apply bind_ret in E as (y & Y & E). apply chk_inv in Y. destruct (u32_max <? y); inv E. lia. }
      destruct IN as [(A' & B' & C')|(j & b' & A' & B' & C' & D' & N')].
      { apply nth_error_In in B. specialize (C' b B). lia. }
      destruct (Nat.lt_trichotomy i j) as [L|[->|L]].
      * assert (exists n, nth_error (score p) (S i) = Some n /\ b_tick n <= b_tick b') as (n & N1 & N2).
        { destruct (nth_error (score p) (S i)) as [n|] eqn:EN.
          - exists n. split; auto. destruct (Nat.eq_dec (S i) j) as [Q|]; [subst j; rewrite EN in B'; inv B'; lia|].
            pose proof (score_lt p (S i) j n b' O EN B' ltac:(lia)). lia.
          - apply nth_error_None in EN. assert (j < length (score p))%nat by (apply nth_error_Some; congruence). lia. }
        specialize (C n N1). lia.
      * rewrite B in B'. inv B'. apply EQ; lia.
      * assert (exists n, nth_error (score p) (S j) = Some n /\ b_tick n <= b_tick b) as (n & N1 & N2).
        { destruct (nth_error (score p) (S j)) as [n|] eqn:EN.
          - exists n. split; auto. destruct (Nat.eq_dec (S j) i) as [Q|]; [subst i; rewrite EN in B; inv B; lia|].
            pose proof (score_lt p (S j) i n b O EN B ltac:(lia)). lia.
          - apply nth_error_None in EN. assert (i < length (score p))%nat by (apply nth_error_Some; congruence). lia. }
        specialize (N' n N1). lia.
Qed.
Print Assumptions C76_inside.

(** The location shown for a tick, typed in again, leads to the same tick. *)
Theorem C76_shown : forall nd p t, ascii_digits nd -> project_ok p -> Z.of_nat (length (pj_bars p)) <= u32_max -> u32 t ->
  exists l, tick_to_location p t = Ret l /\ parse_location nd (show_location l) = Ret (Some l) /\ location_to_tick p l = Ret (Ok t).
Proof.
  intros nd p t A O N U. destruct (T_Project.C24_roundtrip p t O N U) as (l & E & B). exists l. split; [exact E|]. split; [|exact B].
  destruct (T_Project.C24_meaning p t l O U E) as [(X & Y & _)|(i & k & b & X & Y & K & Z0 & _)].
  - apply T_Text.C37_roundtrip; auto; rewrite ?X, ?Y; unfold usize, usize_max, u32, u32_max in *; lia.
  - assert (i < length (pj_bars p))%nat by (apply nth_error_Some; congruence).
    destruct (proj2 (ok_bars p O) _ _ (nth_error_In _ _ Y)) as [_ UK].
    apply T_Text.C37_roundtrip; auto; rewrite ?X, ?Z0; unfold usize, usize_max, u32, u32_max in *; lia.
Qed.
Print Assumptions C76_shown.

(** ** Beyond the end of the score *)
Lemma last_any {A} (s : list A) x y : s <> [] -> last s x = last s y.
Proof. induction s as [|a s IH]; intros N; [congruence|]. cbn [last]. destruct s; [reflexivity|]. apply IH. discriminate. Qed.
Lemma nth_last {A} (x : A) s : nth_error (x :: s) (length s) = Some (last s x).
Proof.
  revert x. induction s as [|y s IH]; intros x; [reflexivity|]. cbn [length]. change (nth_error (x :: y :: s) (S (length s))) with (nth_error (y :: s) (length s)).
  rewrite IH. f_equal. cbn [last]. destruct s; [reflexivity|]. apply last_any. discriminate.
Qed.
Lemma last_bar_at p : project_ok p -> pj_bars p <> [] ->
  exists b, nth_error (score p) (length (score p) - 1) = Some b /\ b_tick b = last_tick p.
Proof.
  intros O N. unfold last_tick. destruct (pj_bars p) as [|x s] eqn:E; [congruence|]. pose proof (nth_last x s) as H.
  destruct (last s x) as [k b] eqn:L. assert (KB : k = b_tick b) by (apply (proj2 (ok_bars p O) k b); rewrite E; eapply nth_error_In; eauto).
  subst k. exists b. split; [|reflexivity]. apply score_nth; [exact O|]. unfold score. rewrite map_length, E. cbn [length].
  replace (S (length s) - 1)%nat with (length s) by lia. exact H.
Qed.
Lemma extended_inside p p' l t : project_ok p -> project_ok p' -> valid_rhythms p -> extended p p' -> 0 <= loc_bar l -> 0 <= loc_offset l ->
  location_to_tick p l = Ret (Ok t) -> placed p l -> loc_bar l < Z.of_nat (length (score p)) \/ t <= last_tick p' ->
  tick_to_location p' t = Ret l.
Proof.
  intros O O' V X LB LO E P R.
  pose proof (extended_location p p' l O O' V X LB LO) as EL. rewrite E in EL.
  apply C76_inside; auto. destruct X as (ER & r & n & RH & B).
  assert (LN : length (score p) = length (pj_bars p)) by apply map_length.
  assert (EP : 15 <= rhythm_tick_len r).
  { destruct (rhythm_at_all _ p (last_tick p) (ok_bars p O) V) as [r' [Er Hr]]. rewrite RH in Er. apply ret_inj in Er. subst r'.
    apply rhythm_tick_len_pos; auto. }
  assert (SC : score p' = score p ++ even_bars (last_tick p) (rhythm_tick_len r) n).
  { unfold score. rewrite B, map_app, map_map. cbn. rewrite map_id. reflexivity. }
  assert (EV : forall i, (i < n)%nat -> nth_error (even_bars (last_tick p) (rhythm_tick_len r) n) i =
     Some (mkBar (last_tick p + (Z.of_nat i + 1) * rhythm_tick_len r) None None 0)).
  { intros i L. pose proof (even_nth (last_tick p) (rhythm_tick_len r) n i L) as H. rewrite nth_error_map in H.
    destruct (nth_error (even_bars _ _ _) i); cbn in H; [|discriminate]. inv H. reflexivity. }
  assert (LL : forall b, In b (score p) -> b_tick b <= last_tick p).
  { intros b I. unfold score in I. apply in_map_iff in I as ([k v] & <- & I). cbn. unfold last_tick.
    destruct (proj2 (ok_bars p O) _ _ I) as [<- _]. destruct (pj_bars p) as [|x s] eqn:EB; [destruct I|].
    assert (SS : srt bar (x :: s)) by (rewrite <- EB; apply (keyed_srt _ _ (ok_bars p O))). exact (last_max bar x s SS k v I). }
  destruct P as [[P I]|[P (r' & RH' & OF)]].
  - destruct I as [[Z0 I]|(i & b & I1 & I2 & I3)].
    + left. split; [exact Z0|]. rewrite SC. intros b J. apply in_app_iff in J as [J|J]; [auto|].
      apply In_nth_error in J as [i J]. assert (i < n)%nat by (rewrite <- (even_bars_length n (last_tick p) (rhythm_tick_len r)); apply nth_error_Some; congruence).
      rewrite EV in J by assumption. inv J. cbn. destruct (score p) as [|x s] eqn:ES; [cbn in P; lia|].
      specialize (I x (or_introl eq_refl)). specialize (LL x (or_introl eq_refl)). nia.
    + right. exists i, b. split; [exact I1|]. rewrite SC. rewrite nth_error_app1 by (apply nth_error_Some; congruence). split; [exact I2|].
      rewrite nth_error_app1 by lia. exact I3.
  - rewrite RH in RH'. apply ret_inj in RH'. subst r'.
    assert (T : t = last_tick p + (loc_bar l - Z.of_nat (length (score p))) * rhythm_tick_len r + loc_offset l).
    { destruct (Z.eq_dec (loc_bar l) 0) as [Q|Q].
      - unfold location_to_tick in E. rewrite Q in E. cbn in E. destruct (u32_max <? loc_offset l); inv E. rewrite Q in *.
        destruct (pj_bars p) as [|x s] eqn:EB; [|rewrite LN in P; cbn in P; lia]. rewrite LN. unfold last_tick. rewrite EB. cbn. lia.
      - assert (LU : loc_bar l <= u32_max).
        { unfold location_to_tick in E. destruct (Z.eqb_spec (loc_bar l) 0); [lia|]. destruct (Z.ltb_spec u32_max (loc_bar l)); [discriminate|lia]. }
        destruct (location_small p l (ok_bars p O) V ltac:(lia) LO) as (r' & RH' & EL'). rewrite RH in RH'. apply ret_inj in RH'. subst r'.
        cbv zeta in EL'. rewrite E in EL'. destruct (usize_max <? _); [discriminate|]. unfold fits in EL'. destruct (u32_max <? _) in EL'; inv EL'.
        unfold bar_start. destruct (Z.eqb_spec (loc_bar l) 0); [lia|].
        destruct (nth_error (pj_bars p) (Z.to_nat (loc_bar l - 1))) as [[k v]|] eqn:EN.
        + assert (Z.to_nat (loc_bar l - 1) < length (pj_bars p))%nat by (apply nth_error_Some; congruence).
          assert (loc_bar l = Z.of_nat (length (pj_bars p))) by lia. replace (loc_bar l - Z.of_nat (length (score p))) with 0 by lia.
          destruct (last_bar_at p O) as (b & B1 & B2); [intros Q2; rewrite Q2 in *; cbn in *; lia|].
          apply (score_nth p _ b O) in B1. replace (length (score p) - 1)%nat with (Z.to_nat (loc_bar l - 1)) in B1 by lia.
          rewrite EN in B1. inv B1. lia.
        + rewrite LN. unfold last_tick. destruct (pj_bars p) as [|x s] eqn:EB; [|reflexivity].
          cbn. rewrite rhythm_no_bars in RH by exact EB. apply ret_inj in RH. subst r. lia. }
    rewrite LN in *.
    assert (G : exists m, loc_bar l = Z.of_nat (length (pj_bars p)) + Z.of_nat m /\ (m <= n)%nat).
    { exists (Z.to_nat (loc_bar l - Z.of_nat (length (pj_bars p)))). split; [lia|]. destruct R as [R|R]; [lia|].
      rewrite (extended_last p p' r n O RH B) in R. nia. }
    clear R. destruct G as (m & G1 & G2).
    assert (NX : forall b', nth_error (score p') (length (pj_bars p) + m) = Some b' -> b_tick b' = last_tick p + (Z.of_nat m + 1) * rhythm_tick_len r).
    { intros b' J. rewrite SC, nth_error_app2 in J by lia. replace (length (pj_bars p) + m - length (score p))%nat with m in J by lia.
      assert (m < n)%nat by (rewrite <- (even_bars_length n (last_tick p) (rhythm_tick_len r)); apply nth_error_Some; congruence).
      rewrite EV in J by assumption. inv J. reflexivity. }
    destruct (Z.eq_dec (loc_bar l) 0) as [Q|Q].
    + left. split; [exact Q|]. intros b J. apply In_nth_error in J as [i J].
      assert (Z0 : length (pj_bars p) = 0%nat) by lia. assert (m = 0%nat) by lia. subst m.
      assert (FB : exists b0, nth_error (score p') 0 = Some b0 /\ b_tick b0 <= b_tick b).
      { destruct i as [|i]; [exists b; split; [exact J|lia]|]. destruct (nth_error (score p') 0) as [b0|] eqn:E0.
        - exists b0. split; [reflexivity|]. pose proof (score_lt p' 0 (S i) b0 b O' E0 J ltac:(lia)). lia.
        - apply nth_error_None in E0. assert (S i < length (score p'))%nat by (apply nth_error_Some; congruence). lia. }
      destruct FB as (b0 & F1 & F2). rewrite Z0 in NX. specialize (NX b0 F1).
      assert (last_tick p = 0) by (unfold last_tick; destruct (pj_bars p); [reflexivity|discriminate Z0]). lia.
    + right. exists (length (pj_bars p) + m - 1)%nat.
      assert (FB : exists b, nth_error (score p') (length (pj_bars p) + m - 1) = Some b /\ b_tick b = last_tick p + Z.of_nat m * rhythm_tick_len r).
      { destruct m as [|m].
        - destruct (last_bar_at p O) as (b & B1 & B2); [intros Q2; rewrite Q2 in *; cbn in *; lia|].
          exists b. rewrite SC, nth_error_app1 by lia. replace (length (pj_bars p) + 0 - 1)%nat with (length (score p) - 1)%nat by lia.
          split; [exact B1|]. lia.
        - eexists. rewrite SC, nth_error_app2 by lia. replace (length (pj_bars p) + S m - 1 - length (score p))%nat with m by lia.
          rewrite EV by lia. split; [reflexivity|]. cbn [b_tick]. lia. }
      destruct FB as (b & F1 & F2). exists b. split; [lia|]. split; [exact F1|]. intros b' J.
      replace (S (length (pj_bars p) + m - 1))%nat with (length (pj_bars p) + m)%nat in J by lia. rewrite (NX b' J). lia.
Qed.

(** ** Putting something at a typed location *)
Lemma covered_last p x t : project_ok p -> covered p -> ends_at p x -> t <= x -> t <= last_tick p.
Proof.
  intros O C E L. assert (0 <= last_tick p).
  { unfold last_tick. destruct (pj_bars p) as [|y s] eqn:EB; [lia|]. pose proof (last_In bar y s) as I. rewrite <- EB in I.
    destruct (last s y) as [k b]. destruct (proj2 (ok_bars p O) _ _ I) as [_ U]. apply U. }
  destruct (C x E) as [Q|(k & b & I & Q)]; [lia|]. unfold last_tick. destruct (pj_bars p) as [|y s] eqn:EB; [destruct I|].
  assert (SS : srt bar (y :: s)) by (rewrite <- EB; apply (keyed_srt _ _ (ok_bars p O))). pose proof (last_max bar y s SS k b I). lia.
Qed.
Lemma start_untrimmed n : u32 (n_base_tick n) -> t_sum (n_tick_trimmer n) = 0 -> note_start_tick n = n_base_tick n.
Proof.
  intros U T. unfold note_start_tick. rewrite T, Z.add_0_r. unfold u32 in U. destruct (Z.ltb_spec (n_base_tick n) 0); [lia|].
  unfold as_u32. rewrite Z.mod_small by (unfold u32_max in U; lia). reflexivity.
Qed.
Lemma note_reaches p n t : project_ok p -> In n (map snd (pj_notes p)) -> u32 (n_base_tick n) -> t_sum (n_tick_trimmer n) = 0 -> note_valid n ->
  t <= n_base_tick n -> exists x, ends_at p x /\ t <= x.
Proof.
  intros O I U T V L. apply in_map_iff in I as ([k n'] & E & I). cbn in E. subst n'.
  pose proof (proj2 (ok_notes p O) k n I) as K. destruct V as [V1 V2]. destruct (P_Note.note_tick_len_bound n V1 V2) as (x & y & EX & _ & B).
  exists (k + x). split; [econstructor; eauto|]. rewrite K, start_untrimmed by assumption. lia.
Qed.

Lemma location_u32 p l t : usize (loc_bar l) -> usize (loc_offset l) -> location_to_tick p l = Ret (Ok t) -> u32 t.
Proof.
  intros UB UO. unfold location_to_tick. unfold usize in *.
  assert (F : forall z, 0 <= z -> Ret (if u32_max <? z then Err Overflow else Ok z) = Ret (Ok t) -> u32 t).
  { intros z Z0 H. unfold u32. destruct (Z.ltb_spec u32_max z); inv H. lia. }
  intros E. destruct (loc_bar l =? 0); [apply (F (loc_offset l)); [lia|exact E]|]. destruct (u32_max <? loc_bar l); [discriminate|].
  destruct (loc_bar l <=? Z.of_nat (length (pj_bars p))).
  - apply bind_ret in E as (x & X & E). apply bind_ret in E as (y & Y & E). apply chk_inv in Y. apply (F y); [lia|exact E].
  - apply bind_ret in E as (x & X & E). apply (F x); [|exact E].
    destruct (last_bar p) as [[? ?]|].
    + repeat (apply bind_ret in X as (? & _ & X)). apply chk_inv in X. lia.
    + apply bind_ret in X as (? & _ & X). apply chk_inv in X. lia.
Qed.

(** A note put at a location that the user typed, anywhere in the score or beyond its end, is at that location
    also after the bars up to it have been added. *)
Theorem C76_note : forall nd s l p n p' c t, ascii_digits nd -> project_ok p -> valid_rhythms p -> notes_valid p -> note_valid n ->
  t_sum (n_tick_trimmer n) = 0 -> n_base_tick n = t ->
  parse_location nd s = Ret (Some l) -> placed p l -> location_to_tick p l = Ret (Ok t) ->
  edit_run (EAddNote n) p = Ret (Some (p', c)) ->
  In (t, n) (pj_notes p') /\ tick_to_location p' t = Ret l.
Proof.
  intros nd s l p n p' c t A O V NV W T B PL P E R.
  apply (T_Text.C37_accepts nd s l A) in PL as (a & b & _ & _ & _ & UB & UO).
  pose proof (location_u32 p l t UB UO E) as U.
  assert (TY : edit_typed (EAddNote n)) by (split; exact Logic.I).
  destruct (edit_ok (EAddNote n) p p' c O TY R) as [O' _].
  destruct (T_Project.C50_edit (EAddNote n) models_empty (mkModels [n] [] [] [] []) p p' c O TY Logic.I (mv_note n) R) as [more [X _]].
  assert (I : In n (map snd (pj_notes p'))).
  { pose proof (exch_notes _ _ _ _ _ X) as PM. cbn in PM. rewrite app_nil_r in PM. apply (Permutation_in _ (Permutation_sym PM)).
    apply in_app_iff. right. now left. }
  split.
  - apply in_map_iff in I as ([k n'] & E' & I). cbn in E'. subst n'. pose proof (proj2 (ok_notes p' O') k n I) as K.
    rewrite start_untrimmed in K by (rewrite ?B; assumption). rewrite B in K. subst k. exact I.
  - destruct (leaves_extended (EAddNote n) p p' c O TY Logic.I R) as [EX _].
    apply (extended_inside p p' l t O O' V EX); try (unfold usize in *; lia); auto. right.
    assert (C : covered p').
    { apply (edit_covered (EAddNote n) p p' c models_empty (mkModels [n] [] [] [] []) O NV TY eq_refl (mv_note n)); [repeat constructor; apply W|exact R]. }
    destruct (note_reaches p' n t O' I) as (x & EX1 & EX2); [rewrite B; exact U|exact T|exact W|lia|].
    exact (covered_last p' x t O' C EX1 EX2).
Qed.
Print Assumptions C76_note.

Lemma moved_empty_bars k m m' : moved k m m' -> m_bars m = [] -> m_bars m' = [].
Proof. intros (_ & B & _) E. rewrite E in B. inversion B. reflexivity. Qed.
Lemma moved_valid k m m' : moved k m m' -> Forall note_valid (m_notes m) -> Forall note_valid (m_notes m').
Proof.
  intros (N & _) V. induction N as [|a b l l' X N IH]; constructor; inversion V; subst; auto.
  red in X. subst b. assumption.
Qed.
Lemma moved_member {A} (Q : A -> A -> Prop) l l' a : Forall2 Q l l' -> In a l -> exists b, In b l' /\ Q a b.
Proof. induction 1 as [|x y l l' X F IH]; intros I; [destruct I|]. destruct I as [->|I]; [exists y; cbn; auto|]. destruct (IH I) as (b & I' & W). exists b. cbn. auto. Qed.

(** What was copied and is pasted at a location that the user typed has its first element at that location. *)
Theorem C76_paste : forall nd ov s l p m t0 q p' c t, ascii_digits nd -> project_ok p -> valid_rhythms p -> notes_valid p ->
  savable m -> Forall note_valid (m_notes m) -> all_distinct m -> m_bars m = [] ->
  least (all_ticks m) t0 -> (forall x, In x (all_ticks m) -> x + (t - t0) <= u32_max) ->
  parse_location nd s = Ret (Some l) -> placed p l -> (loc_bar l < Z.of_nat (length (score p)) \/ sounds m) ->
  location_to_tick p l = Ret (Ok t) ->
  from_clipboard_text ov (to_clipboard_text m) = Ret (Ok q) -> bulk_add p (move_to_tick q t) = Ret (Some (p', c)) ->
  exists into more, moved (t - t0) m into /\ least (all_ticks into) t /\ exchanged p models_empty into more p' /\
    tick_to_location p' t = Ret l.
Proof.
  intros nd ov s l p m t0 q p' c t A O V NV SV NM D BM L R PL P SO E C EB.
  apply (T_Text.C37_accepts nd s l A) in PL as (a & b & _ & _ & _ & UB & UO).
  pose proof (location_u32 p l t UB UO E) as U.
  rewrite (T_Json.C35_models ov m SV) in C. injection C as <-.
  destruct (T_Paste.savable_ticks m SV) as [US TY]. pose proof (move_spec m t0 t US L U R) as M.
  set (into := move_to_tick m t) in *.
  assert (TR : forall x, In x (all_ticks m) -> t <= x + (t - t0) <= u32_max).
  { intros x I. split; [|auto]. destruct L as [_ L]. specialize (L x I). lia. }
  assert (TY' : models_typed into).
  { apply (T_Paste.moved_typed _ _ _ M US). intros x I. specialize (TR x I). unfold u32 in U. lia. }
  pose proof (T_Paste.moved_all_distinct _ _ _ M D) as D'.
  destruct (T_Project.C50_edit (EBulkAdd into) models_empty into p p' c O TY' D' (mv_add _) EB) as [more [X _]].
  exists into, more. split; [exact M|].
  assert (LE : least (all_ticks into) t).
  { destruct L as [L1 L2]. destruct M as (M1 & M2 & M3 & M4 & M5). split.
    - assert (K : forall B (tick : B -> Z) (Q : B -> B -> Prop) l l', (forall a b, Q a b -> tick b = tick a + (t - t0)) -> Forall2 Q l l' ->
        In t0 (map tick l) -> In t (map tick l')).
      { clear. intros B tick Q l l' H F I. apply in_map_iff in I as (x & Ex & I). destruct (moved_member Q l l' x F I) as (y & I' & W).
        apply in_map_iff. exists y. split; [rewrite (H _ _ W); lia|exact I']. }
      unfold all_ticks in *. rewrite !in_app_iff in *.
      destruct L1 as [I|[I|[I|[I|I]]]].
      + left. revert I. eapply K; [|exact M1]; intros ? ? ->; reflexivity.
      + right. left. revert I. eapply K; [|exact M2]; intros ? ? ->; reflexivity.
      + right. right. left. revert I. eapply K; [|exact M3]; intros ? ? ->; reflexivity.
      + right. right. right. left. revert I. eapply K; [|exact M4]; intros ? ? ->; reflexivity.
      + right. right. right. right. revert I. eapply K; [|exact M5]; intros ? ? ->; reflexivity.
    - assert (K : forall B (tick : B -> Z) (Q : B -> B -> Prop) l l', (forall a b, Q a b -> tick b = tick a + (t - t0)) -> Forall2 Q l l' ->
        (forall x, In x (map tick l) -> t0 <= x) -> forall x, In x (map tick l') -> t <= x).
      { clear. intros B tick Q l l' H F. induction F as [|u v l l' W F IH]; cbn; intros G x I; [destruct I|].
        destruct I as [<-|I]; [rewrite (H _ _ W); specialize (G (tick u) (or_introl eq_refl)); lia|]. apply IH; auto. }
      unfold all_ticks in *. intros x I. rewrite !in_app_iff in I.
      destruct I as [I|[I|[I|[I|I]]]]; revert x I; (eapply K; [|eassumption|]);
        try (intros ? ? ->; reflexivity); intros z J; apply L2; rewrite !in_app_iff; tauto. }
  split; [exact LE|]. split; [exact X|].
  destruct (edit_ok (EBulkAdd into) p p' c O TY' EB) as [O' _].
  destruct (leaves_extended (EBulkAdd into) p p' c O TY' (moved_empty_bars _ _ _ M BM) EB) as [EX _].
  apply (extended_inside p p' l t O O' V EX); try (unfold usize in *; lia); auto.
  destruct SO as [SO|SO]; [left; exact SO|right].
  pose proof (moved_valid _ _ _ M NM) as NI.
  assert (CV : covered p').
  { apply (edit_covered (EBulkAdd into) p p' c models_empty into O NV TY' eq_refl (mv_add into) NI EB). }
  assert (G : exists x, ends_at p' x /\ t <= x).
  { destruct M as (M1 & M2 & M3 & M4 & M5). destruct LE as [_ LE]. unfold all_ticks in LE.
    assert (K : forall B (Q : B -> B -> Prop) l l', Forall2 Q l l' -> l <> [] -> exists y, In y l').
    { clear. intros B Q l l' F N. destruct F as [|u v l l' W F]; [congruence|]. exists v. cbn. auto. }
    destruct SO as [N|[N|[N|(n & I & Tn)]]].
    - destruct (K _ _ _ _ M3 N) as [y I]. exists (tp_tick y). split; [|apply LE; rewrite !in_app_iff; right; right; left; now apply in_map].
      apply (ends_tempo p' _ y). apply (exch_tempos _ _ _ _ _ X). auto.
    - destruct (K _ _ _ _ M4 N) as [y I]. exists (cc_tick y). split; [|apply LE; rewrite !in_app_iff; right; right; right; left; now apply in_map].
      apply (ends_dumper p' _ y). apply (exch_dumpers _ _ _ _ _ X). auto.
    - destruct (K _ _ _ _ M5 N) as [y I]. exists (cc_tick y). split; [|apply LE; rewrite !in_app_iff; right; right; right; right; now apply in_map].
      apply (ends_soft p' _ y). apply (exch_softs _ _ _ _ _ X). auto.
    - destruct (moved_member _ _ _ n M1 I) as (y & I' & W). rewrite Forall_forall in NI. specialize (NI y I').
      assert (Un : u32 (n_base_tick y)).
      { assert (J : In (n_base_tick n) (all_ticks m)) by (unfold all_ticks; rewrite !in_app_iff; left; now apply in_map).
        red in W. subst y. cbn. specialize (TR _ J). unfold u32 in *. lia. }
      assert (Ty : t_sum (n_tick_trimmer y) = 0) by (red in W; subst y; exact Tn).
      apply (note_reaches p' y t O'); auto.
      + pose proof (exch_notes _ _ _ _ _ X) as PM. cbn in PM. rewrite app_nil_r in PM. apply (Permutation_in _ (Permutation_sym PM)).
        apply in_app_iff. right. exact I'.
      + apply LE. rewrite !in_app_iff. left. now apply in_map. }
  destruct G as (x & G1 & G2). exact (covered_last p' x t O' CV G1 G2).
Qed.
Print Assumptions C76_paste.

(** ** Found false: a location is accepted although its offset reaches beyond the bar it names *)

(** "1:1000" is accepted in a score whose bar 1 has 960 ticks, and leads to where "2:40" is shown; and "4:800" is
    accepted beyond the end of one with bars of 720 ticks, and the note put there is shown in the next bar. *)
Theorem C76_any_offset_refuted : exists s l t p, project_ok p /\ valid_rhythms p /\
  parse_location T_Text.ascii_nd s = Ret (Some l) /\ location_to_tick p l = Ret (Ok t) /\
  exists l', tick_to_location p t = Ret l' /\ l' <> l /\ loc_bar l' <> loc_bar l.
Proof.
  exists [49; 58; 49; 48; 48; 48], (mkLoc 1 1000), 1960, T_Project.ex_project.
  split; [exact T_Project.ex_project_ok|]. split; [exact T_Project.ex_project_rhythms|].
  split; [vm_compute; reflexivity|]. split; [vm_compute; reflexivity|]. exists (mkLoc 2 40).
  split; [vm_compute; reflexivity|]. split; discriminate.
Qed.
Print Assumptions C76_any_offset_refuted.
Theorem C76_any_offset_note_refuted : exists s l t n p p' c, project_ok p /\ valid_rhythms p /\ notes_valid p /\ note_valid n /\
  t_sum (n_tick_trimmer n) = 0 /\ n_base_tick n = t /\
  parse_location T_Text.ascii_nd s = Ret (Some l) /\ location_to_tick p l = Ret (Ok t) /\
  edit_run (EAddNote n) p = Ret (Some (p', c)) /\ exists l', tick_to_location p' t = Ret l' /\ loc_bar l' <> loc_bar l.
Proof.
  exists [52; 58; 56; 48; 48], (mkLoc 4 800), 4160, (T_Project.ex_note 4160 SC), T_Project.ex_project. do 2 eexists.
  split; [exact T_Project.ex_project_ok|]. split; [exact T_Project.ex_project_rhythms|]. split; [exact T_Project.ex_project_valid|].
  split; [apply T_Project.ex_note_valid|]. split; [reflexivity|]. split; [reflexivity|].
  split; [vm_compute; reflexivity|]. split; [vm_compute; reflexivity|]. split; [vm_compute; reflexivity|].
  exists (mkLoc 5 80). split; [vm_compute; reflexivity|]. discriminate.
Qed.
Print Assumptions C76_any_offset_note_refuted.

(** The locations "1:7" in the score and "4:7" beyond its end. *)
Example C76_inside_case : let p := T_Project.ex_project in project_ok p /\ inside p (mkLoc 1 7) /\ ~ inside p (mkLoc 1 1000) /\
  location_to_tick p (mkLoc 1 7) = Ret (Ok 967) /\ tick_to_location p 967 = Ret (mkLoc 1 7).
Proof.
  cbv zeta. split; [exact T_Project.ex_project_ok|]. split.
  { right. exists 0%nat. eexists. split; [reflexivity|]. split; [reflexivity|]. cbn. intros b' H. inv H. cbn. lia. }
  split; [|split; vm_compute; reflexivity].
  intros [[H _]|(i & b & H & Q & F)]; [discriminate|]. cbn [loc_bar] in H. assert (i = 0)%nat by lia. subst i. cbn in Q. inv Q.
  specialize (F _ eq_refl). cbn in F. lia.
Qed.
Example C76_note_case : let p := T_Project.ex_project in let n := T_Project.ex_note 3367 SC in
  project_ok p /\ valid_rhythms p /\ notes_valid p /\ note_valid n /\ t_sum (n_tick_trimmer n) = 0 /\
  parse_location T_Text.ascii_nd [52; 58; 55] = Ret (Some (mkLoc 4 7)) /\ placed p (mkLoc 4 7) /\ length (score p) = 2%nat /\
  location_to_tick p (mkLoc 4 7) = Ret (Ok 3367) /\ n_base_tick n = 3367 /\
  exists p' c, edit_run (EAddNote n) p = Ret (Some (p', c)) /\ tick_to_location p 3367 = Ret (mkLoc 2 1447) /\
    tick_to_location p' 3367 = Ret (mkLoc 4 7).
Proof.
  cbv zeta. split; [exact T_Project.ex_project_ok|]. split; [exact T_Project.ex_project_rhythms|]. split; [exact T_Project.ex_project_valid|].
  split; [apply T_Project.ex_note_valid|]. split; [reflexivity|]. split; [vm_compute; reflexivity|].
  split. { right. split; [vm_compute; discriminate|]. eexists. split; [vm_compute; reflexivity|]. vm_compute. reflexivity. }
  split; [reflexivity|]. split; [vm_compute; reflexivity|]. split; [reflexivity|]. do 2 eexists. split; [vm_compute; reflexivity|].
  split; vm_compute; reflexivity.
Qed.
Example C76_paste_case : let p := T_Project.ex_project in let m := T_Paste.ex_selection in
  project_ok p /\ valid_rhythms p /\ notes_valid p /\ savable m /\ Forall note_valid (m_notes m) /\ all_distinct m /\ m_bars m = [] /\
  least (all_ticks m) 480 /\ (forall x, In x (all_ticks m) -> x + (3367 - 480) <= u32_max) /\ sounds m /\
  placed p (mkLoc 4 7) /\ location_to_tick p (mkLoc 4 7) = Ret (Ok 3367) /\
  exists p' c, bulk_add p (move_to_tick m 3367) = Ret (Some (p', c)) /\ tick_to_location p' 3367 = Ret (mkLoc 4 7).
Proof.
  cbv zeta. destruct T_Paste.C65_case as (O & NV & _ & SV & _ & D & L & _).
  split; [exact O|]. split; [exact T_Project.ex_project_rhythms|]. split; [exact NV|]. split; [exact SV|].
  split; [constructor; [apply T_Project.ex_note_valid|constructor]|]. split; [exact D|]. split; [reflexivity|]. split; [exact L|].
  split. { intros x I. cbn in I. destruct I as [<-|[<-|[<-|[]]]]; vm_compute; discriminate. }
  split; [left; discriminate|].
  split. { right. split; [vm_compute; discriminate|]. eexists. split; [vm_compute; reflexivity|]. vm_compute. reflexivity. }
  split; [vm_compute; reflexivity|]. do 2 eexists. split; [vm_compute; reflexivity|]. vm_compute. reflexivity.
Qed.
