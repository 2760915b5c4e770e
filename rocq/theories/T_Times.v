(** Property theorems about how often a tick is played: C64. *)
From Coq Require Import ZArith List Bool Lia Sorted.
From Verif Require Import Base M_Duration M_Scalar M_Bar M_Repeat S_Note S_Repeat P_Base P_Chunk P_Machine P_Errors P_Order P_Jump P_Last P_Panic.
From Verif Require T_Repeat T_Chunk.
Import ListNotations.
Open Scope Z_scope.

(** ** Counting *)
Lemma times_varied t s m : forall sp k, Z.of_nat (length sp) = k ->
  times t (flat_map (fun p => from_to s m ++ from_to (fst p) (snd p)) sp) =
  (if (s <=? t) && (t <? m) then k else 0) + times t (flat_map (fun p => from_to (fst p) (snd p)) sp).
Proof.
  induction sp as [|p sp IH]; intros k K; cbn [flat_map].
  - cbn in K. subst. destruct ((s <=? t) && (t <? m)); reflexivity.
  - rewrite !times_app, (IH (k - 1)) by (cbn [length] in K; lia). rewrite (times_from_to t s m).
    destruct ((s <=? t) && (t <? m)); lia.
Qed.

Lemma spans_flat e l : forall a, StronglySorted Z.lt (a :: l) -> Forall (fun t => t < e) (a :: l) ->
  flat_map (fun p => from_to (fst p) (snd p)) (spans (a :: l) e) = from_to a e.
Proof.
  induction l as [|b l IH]; intros a S F; cbn [spans flat_map fst snd hd].
  - apply app_nil_r.
  - inversion S as [|? ? S1 S2]; subst. inversion F as [|? ? F1 F2]; subst. inversion S2 as [|? ? S3 _]; subst.
    specialize (IH b S1 F2). cbn [spans flat_map fst snd] in IH. rewrite IH. apply from_to_app. inversion F2; subst. lia.
Qed.

Definition in_section (sec : section) (e t : Z) : Z :=
  match sec with
  | Plain _ => 1
  | Repeated _ => 2
  | Varied _ vs => if t <? hd e (starts_of vs) then Z.of_nat (length (starts_of vs)) else 1
  end.

Lemma times_section s lo sec e t : s <= lo -> lo <= e -> starts_in lo e sec ->
  times t (play_section (s, sec, e)) = if (s <=? t) && (t <? e) then in_section sec e t else 0.
Proof.
  intros SL LE SI. destruct sec as [l|l|c vs]; cbn [play_section in_section].
  - apply times_from_to.
  - rewrite times_app, times_from_to. destruct ((s <=? t) && (t <? e)); reflexivity.
  - destruct SI as [N [S F]]. destruct (starts_of vs) as [|a v] eqn:V; [congruence|].
    assert (L : Z.of_nat (length (spans (a :: v) e)) = Z.of_nat (length (a :: v))).
    { f_equal. rewrite <- (map_length fst), spans_fst. reflexivity. }
    rewrite (times_varied t s _ _ _ L). cbn [hd].
    assert (F' : Forall (fun x => x < e) (a :: v)) by (eapply Forall_impl; [|exact F]; intros x Hx; cbv beta in *; lia).
    rewrite spans_flat by auto. rewrite times_from_to.
    inversion F as [|? ? F1 F2]; subst.
    destruct (Z.leb_spec s t), (Z.ltb_spec t a), (Z.leb_spec a t), (Z.ltb_spec t e); cbn [andb]; lia.
Qed.

Lemma times_chain l : forall s lo t, chain s lo l -> 
  (t < s -> times t (flat_map play_section l) = 0) /\
  (forall a sec e, In (a, sec, e) l -> a <= t < e -> times t (flat_map play_section l) = in_section sec e t) /\
  (s <= t < u32_max -> exists a sec e, In (a, sec, e) l /\ a <= t < e).
Proof.
  induction l as [|[[a sec] e] l IH]; intros s lo t C; cbn [chain] in C.
  - split; [reflexivity|]. split; [intros a sec e []|]. subst. lia.
  - destruct C as [-> [SL [LE [SI [NL C]]]]]. destruct (IH e (e + 1) t C) as [I1 [I2 I3]].
    assert (T : times t (play_section (s, sec, e)) = if (s <=? t) && (t <? e) then in_section sec e t else 0)
      by (apply (times_section s lo); auto; lia).
    cbn [flat_map]. rewrite times_app, T. split; [|split].
    + intros L. rewrite I1 by lia. destruct (Z.leb_spec s t); cbn [andb]; lia.
    + intros a' sec' e' [E|I] B.
      * inversion E; subst. rewrite I1 by lia. replace ((a' <=? t) && (t <? e')) with true by lia. lia.
      * assert (G : e <= a').
        { clear -C I. revert e C a' sec' e' I. induction l as [|[[x y] z] l IH]; intros e C a' sec' e' I; [destruct I|].
          cbn [chain] in C. destruct C as [-> [SL [LE [_ [_ C]]]]]. destruct I as [E|I]; [inversion E; subst; lia|].
          specialize (IH z C a' sec' e' I). lia. }
        rewrite (I2 _ _ _ I B). replace (t <? e) with false by lia. rewrite andb_false_r. lia.
    + intros B. destruct (Z.lt_ge_cases t e) as [L|L].
      * exists s, sec, e. cbn. auto with zarith.
      * destruct I3 as [a' [sec' [e' [I B']]]]; [lia|]. exists a', sec', e'. cbn. auto.
Qed.

(** * C64 *)

(** In the documented order without a jump each tick lies in one section and is played as
    often as that section says: once, twice, or, before the variations, once for
    each variation. *)
Theorem C64_sections : forall l t, well_laid l -> tune (layout_bars l) -> 0 <= t < u32_max ->
  exists s sec e, In (s, sec, e) (timed_layout l) /\ s <= t < e /\
    times t (play l) = match sec with
                       | Plain _ => 1
                       | Repeated _ => 2
                       | Varied _ vs => if t <? hd e (starts_of vs) then Z.of_nat (length vs) else 1
                       end.
Proof.
  intros l t W T B. pose proof (layout_chain l W T) as C.
  destruct (times_chain (timed_layout l) 0 0 t C) as [_ [X Y]]. destruct (Y ltac:(lia)) as [s [sec [e [I J]]]].
  exists s, sec, e. split; [exact I|]. split; [exact J|]. unfold play. rewrite (X _ _ _ I J). unfold in_section.
  destruct sec as [x|x|c vs]; auto.
  assert (L : length (starts_of vs) = length vs).
  { destruct W as [W1 W2]. clear - I W1 W2. unfold timed_layout in I. destruct l as [f r]. cbn [fst snd] in *.
    revert W1 W2 I. generalize 0 as z. generalize true as b. revert f. induction r as [|[x y] r IH]; intros f b z W1 W2 I; cbn [timed] in I.
    - destruct I as [E|[]]. inversion E; subst. cbn in W2. discriminate.
    - destruct I as [E|I].
      + inversion E; subst. cbn [inside] in W1. destruct W1 as [_ [_ [_ [N _]]]]. eapply starts_len; eauto.
      + cbn [follows] in W2. destruct W2 as [_ [W3 W4]]. eapply IH; eauto. }
  rewrite L. reflexivity.
Qed.
Print Assumptions C64_sections.

(** The common part of a section with two variations, and what follows from the
    theorem for a tick of it. *)
Example C64_sections_case : let l := T_Repeat.jump_layout in
  well_laid l /\ tune (layout_bars l) /\
  map (fun x => (fst (fst x), snd x)) (timed_layout l) = [(0, 1920); (1920, 5760); (5760, u32_max)] /\ times 2000 (play l) = 2.
Proof.
  cbv zeta. assert (W := T_Repeat.jump_laid). assert (T : tune (layout_bars T_Repeat.jump_layout)) by T_Repeat.tune_tac.
  split; [exact W|]. split; [exact T|]. split; [reflexivity|].
  destruct (C64_sections T_Repeat.jump_layout 2000 W T) as (s & sec & e & I & L & ->); [unfold u32_max; lia|].
  cbn in I. repeat (destruct I as [I|I]; [inversion I; subst; try (unfold u32_max in L; lia)|]); try (destruct I). reflexivity.
Qed.

Lemma varied_len l s c vs e : well_laid l -> In (s, Varied c vs, e) (timed_layout l) -> 1 <= Z.of_nat (length vs) <= 4.
Proof.
  intros [W1 W2] I. unfold timed_layout in I. destruct l as [f r]. cbn [fst snd] in *.
  revert W1 W2 I. generalize 0 as z. generalize true as b. revert f. induction r as [|[x y] r IH]; intros f b z W1 W2 I; cbn [timed] in I.
  - destruct I as [E|[]]. inversion E; subst. cbn in W2. discriminate.
  - destruct I as [E|I].
    + inversion E; subst. cbn [inside] in W1. destruct W1 as [_ [_ [_ [_ [N L]]]]]. destruct vs; [congruence|]. cbn [length] in *. lia.
    + cbn [follows] in W2. destruct W2 as [_ [W3 W4]]. eapply IH; eauto.
Qed.

Lemma play_ticks l t : well_laid l -> tune (layout_bars l) -> In t (play l) -> 0 <= t < u32_max.
Proof.
  intros W T I. pose proof (layout_chain l W T) as C. unfold play in I.
  assert (K : forall x s lo, chain s lo x -> In t (flat_map play_section x) -> s <= t < u32_max).
  { clear. induction x as [|[[a sec] e] x IH]; intros s lo C I; [destruct I|]. destruct C as [-> [SL [LE [SI [NL C]]]]].
    cbn [flat_map] in I. apply in_app_or in I as [I|I].
    - assert (N : times t (play_section (s, sec, e)) <> 0).
      { intros Z. apply in_split in I as (p & q & E). rewrite E, times_app, times_cons, Z.eqb_refl in Z.
        pose proof (times_nonneg t p). pose proof (times_nonneg t q). lia. }
      rewrite (times_section s lo) in N by (auto; lia).
      destruct (Z.leb_spec s t), (Z.ltb_spec t e); cbn [andb] in N; lia.
    - specialize (IH _ _ C I). lia. }
  eapply K; eauto.
Qed.

Lemma play_times l t : well_laid l -> tune (layout_bars l) -> times t (play l) <= 4 /\ (0 <= t < u32_max -> 1 <= times t (play l)).
Proof.
  intros W T.
  assert (K : 0 <= t < u32_max -> 1 <= times t (play l) <= 4).
  { intros B. destruct (C64_sections l t W T B) as [s [sec [e [I [J ->]]]]]. destruct sec as [x|x|c vs]; try lia.
    pose proof (varied_len l s c vs e W I). destruct (t <? hd e (starts_of vs)); lia. }
  split; [|intros B; apply K in B; lia].
  destruct (in_dec Z.eq_dec t (play l)) as [I|N]; [|rewrite times_zero by auto; lia].
  apply K, (play_ticks l t W T I).
Qed.

Lemma times_until t d l : times t (until d l) <= times t l.
Proof.
  induction l as [|x l IH]; [reflexivity|]. cbn [until]. destruct (x =? d).
  - apply times_nonneg.
  - rewrite !times_cons. lia.
Qed.
Lemma times_once t l : StronglySorted Z.lt l -> times t l <= 1.
Proof.
  induction 1 as [|x l S IH F]; [cbn; lia|]. rewrite times_cons. destruct (Z.eqb_spec t x) as [->|N]; [|lia].
  rewrite times_zero; [lia|]. intros I. rewrite Forall_forall in F. specialize (F x I). lia.
Qed.

(** Whatever is rendered, no tick is played more than five times, the highest number that a
    [PlayIter] can hold; without D.C. and D.S. no more than four times and every
    tick at least once. *)
Theorem C64_five : forall r bars c w cs t, tune bars -> Forall compatible bars ->
  render_region r bars = Ret (Ok (c, w)) -> to_chunks c = Ret cs ->
  times t (performance cs) <= 5 /\
  (marked Dc bars = [] -> marked Ds bars = [] ->
   times t (performance cs) <= 4 /\ (0 <= t < u32_max -> 1 <= times t (performance cs))).
Proof.
  intros r bars c w cs t T F R TC.
  destruct (performed_exact r bars c w cs T F R TC) as [l [W [LB [[_ [_ [_ P]]]|[d [s [J [_ [_ P]]]]]]]]].
  - rewrite P. rewrite <- LB in T. pose proof (play_times l t W T) as [A B]. split; [lia|]. auto.
  - rewrite <- LB in T. pose proof (play_times l t W T) as [A B]. split; [|intros D1 D2; exfalso; inversion J; congruence].
    pose proof (times_once t _ (proj1 (T_Repeat.C43_second l s (hd_error (marked Fine bars)) (pair_of (marked Coda bars))))).
    cbv zeta in P. destruct P as [[_ ->]|[_ [_ ->]]]; [|lia].
    rewrite times_app. pose proof (times_until t d (play l)). lia.
Qed.
Print Assumptions C64_five.

(** ** Where chunks can begin and end *)
Definition edge (M : Z) (c : chunk) : Prop := ck_start c <= M /\ (ck_end c <= M \/ ck_end c = u32_max).
Definition nice (M : Z) (i : Z * Z) : Prop := fst i <= M /\ (snd i < M \/ snd i = u32_max - 1).
Definition nice_range (M : Z) (r : range) : Prop := fst r <= M /\ (snd r <= M \/ snd r = u32_max).
Definition nice_region (M : Z) (r : region) : Prop :=
  match r with RSeq a => nice_range M a | RRepeat a => nice_range M a | RVar a vs => nice_range M a /\ Forall (nice_range M) vs end.

Lemma insert_nice M i l : nice M i -> Forall (nice M) l -> Forall (nice M) (iv_insert i l).
Proof. intros N F. induction F; cbn [iv_insert]; [auto|]. destruct (_ <=? _); auto. Qed.
Lemma join_nice M l : forall i, nice M i -> Forall (nice M) l -> Forall (nice M) (iv_join i l).
Proof.
  induction l as [|[lo hi] l IH]; intros i N F; cbn [iv_join]; [auto|]. inversion F as [|? ? F1 F2]; subst.
  destruct (_ <=? _); [|auto]. apply IH; auto. unfold nice in *. cbn [fst snd] in *. lia.
Qed.
Lemma normal_nice M l : Forall (nice M) l -> Forall (nice M) (iv_normal l).
Proof.
  intros F. unfold iv_normal. assert (S : Forall (nice M) (iv_sort l)).
  { induction F; cbn [iv_sort fold_right]; [constructor|]. apply insert_nice; auto. }
  destruct (iv_sort l); [constructor|]. inversion S; subst. apply join_nice; auto.
Qed.
Lemma of_nice M l s : Forall (nice M) l -> iset_of l = Ret s -> Forall (nice M) s.
Proof. unfold iset_of. intros F E. destruct (forallb _ l); [|discriminate]. inversion E. apply normal_nice; auto. Qed.
Lemma inter_nice M a b : Forall (nice M) a -> Forall (nice M) b -> Forall (nice M) (iset_inter a b).
Proof.
  intros A B. unfold iset_inter. apply Forall_forall. intros x I. apply in_flat_map in I as (i & I & J). apply in_flat_map in J as (j & J & K).
  rewrite Forall_forall in A, B. specialize (A i I). specialize (B j J). cbv zeta in K. destruct (_ <=? _); [|destruct K]. destruct K as [<-|[]].
  unfold nice in *. cbn [fst snd]. lia.
Qed.
Lemma chk_val a b : chk_u32 a = Ret b -> b = a.
Proof. unfold chk_u32, chk. destruct (in_range _ _); congruence. Qed.
Lemma range_nice M r s : nice_range M r -> range_interval_set r = Ret s -> Forall (nice M) s.
Proof.
  unfold range_interval_set. intros N E. destruct (chk_u32 (snd r - 1)) as [e| |] eqn:K; try discriminate. apply chk_val in K. subst. cbn [bind] in E.
  eapply of_nice; [|exact E]. constructor; [|constructor]. unfold nice, nice_range in *. cbn [fst snd]. lia.
Qed.
Lemma region_nice M r s : nice_region M r -> iter1_interval_set r = Ret s -> Forall (nice M) s.
Proof.
  destruct r as [a|a|a vs]; cbn [nice_region iter1_interval_set]; [apply range_nice|apply range_nice|].
  intros [N F] E. destruct (range_interval_set a) as [x| |] eqn:X; try discriminate. cbn [bind] in E.
  destruct (last_variation vs) as [v| |] eqn:V; try discriminate. cbn [bind] in E.
  destruct (range_interval_set v) as [y| |] eqn:Y; try discriminate. cbn [bind] in E. inversion E. apply normal_nice. apply Forall_app.
  split; [eapply range_nice; eauto|]. eapply range_nice; [|exact Y]. destruct vs as [|p vs]; [discriminate|]. inversion V.
  rewrite Forall_forall in F. apply F. destruct (vs) as [|q vs'] using rev_ind; [left; reflexivity|]. rewrite last_last. right. apply in_or_app. cbn. auto.
Qed.

Lemma omapM_all {A B} (P : B -> Prop) (f : A -> outcome B) l : (forall x y, In x l -> f x = Ret y -> P y) -> forall r, omapM f l = Ret r -> Forall P r.
Proof.
  induction l as [|x l IH]; intros H r E; [inversion E; constructor|]. apply omapM_cons in E as (a & b & E1 & E2 & ->).
  constructor; [apply (H x); cbn; auto|]. apply IH; auto. intros; eapply H; cbn; eauto.
Qed.
Lemma concat_all {A} (P : A -> Prop) l : Forall (Forall P) l -> Forall P (concat l).
Proof. induction 1; cbn [concat]; [constructor|]. apply Forall_app. auto. Qed.

Lemma full_edge M c vs : nice_range M c -> Forall (nice_range M) vs -> Forall (edge M) (variation_full c vs).
Proof. intros N F. unfold variation_full. induction F; cbn [flat_map]; [constructor|]. repeat (constructor; [assumption|]). assumption. Qed.
Lemma chunks_edge M r p cs : nice_region M r ->
  match p with NonDcDs => True | DcDsIter0 d => d <= M | DcDsIter1 g => Forall (nice M) (gr_iter1 g) end ->
  render_chunks p r = Ret cs -> Forall (edge M) cs.
Proof.
  intros N P E. destruct p as [|d|g].
  - destruct r as [[s e]|[s e]|a vs]; cbn [render_chunks nice_region] in *; inversion E; subst.
    + repeat (constructor; [exact N|]). constructor.
    + repeat (constructor; [exact N|]). constructor.
    + apply full_edge; tauto.
  - destruct r as [[s e]|[s e]|a vs]; cbn [render_chunks nice_region] in *.
    + unfold nice_range in N. cbn [fst snd] in N. destruct (e <=? d); [|destruct (_ && _)]; inversion E; subst; repeat (apply Forall_cons; [unfold edge; cbn [ck_start ck_end]; lia|]); apply Forall_nil.
    + unfold nice_range in N. cbn [fst snd] in N. destruct (e <=? d); [|destruct (_ && _); try discriminate]; inversion E; subst; repeat (apply Forall_cons; [unfold edge; cbn [ck_start ck_end]; lia|]); apply Forall_nil.
    + destruct (d <=? fst a); [inversion E; constructor|]. destruct (last_variation vs); try discriminate. cbn [bind] in E.
      destruct (_ <? _); inversion E. apply full_edge; tauto.
  - assert (X : to_iter1_chunks g r = Ret cs) by (destruct r as [[]|[]|]; exact E). unfold to_iter1_chunks in X.
    destruct (iter1_interval_set r) as [s| |] eqn:S; try discriminate. cbn [bind] in X.
    eapply omapM_all; [|exact X]. intros i c I C. cbv beta in C. destruct (chk_u32 (snd i + 1)) as [e| |] eqn:K; try discriminate. apply chk_val in K. cbn [bind] in C. inversion C.
    pose proof (inter_nice M _ _ P (region_nice M r s N S)) as F. rewrite Forall_forall in F. specialize (F i I). unfold nice, edge in *. cbn [ck_start ck_end]. lia.
Qed.

Lemma timed_nice M r : forall s f, s <= M -> (forall b, In b (section_bars f ++ flat_map (fun p => fst p :: section_bars (snd p)) r) -> b_tick b <= M) ->
  Forall (nice_region M) (map region_of (timed s f r)).
Proof.
  assert (K : forall s f e, s <= M -> (e <= M \/ e = u32_max) -> (forall b, In b (section_bars f) -> b_tick b <= M) -> nice_region M (region_of (s, f, e))).
  { intros s f e S E B. destruct f as [l|l|c vs]; cbn [region_of nice_region]; try (split; cbn; assumption).
    assert (V : Forall (fun t => t <= M) (starts_of vs)).
    { apply Forall_forall. intros t I. unfold starts_of in I. apply in_flat_map in I as (v & I & J). destruct v as [|b v]; [destruct J|]. destruct J as [<-|[]].
      apply B. cbn [section_bars]. apply in_or_app. right. apply in_concat. exists (b :: v). cbn. auto. }
    split.
    - split; [exact S|]. cbn [snd]. destruct V; cbn [hd]; auto.
    - induction V as [|x v X V IH]; cbn [spans]; constructor; [|exact IH]. split; [exact X|]. cbn [snd]. destruct V; cbn [hd]; auto. }
  induction r as [|[b c] r IH]; intros s f S B; cbn [timed map].
  - constructor; [|constructor]. apply K; auto. intros b I. apply B. apply in_or_app. auto.
  - assert (X : b_tick b <= M) by (apply B; apply in_or_app; right; cbn; auto). constructor.
    + apply K; auto. intros x I. apply B. apply in_or_app. auto.
    + apply IH; auto. intros x I. apply B. cbn [flat_map fst snd]. apply in_or_app. right. cbn. right. exact I.
Qed.

Lemma rendered_edge M r bars c w cs : tune bars -> Forall compatible bars -> render_region r bars = Ret (Ok (c, w)) -> to_chunks c = Ret cs ->
  0 <= M -> (forall b, In b bars -> b_tick b <= M) -> Forall (edge M) cs.
Proof.
  intros T F R TC M0 B. destruct (render_sound r bars c w T F R) as [C [l [gr [W [LB [_ [-> G]]]]]]].
  assert (N : Forall (nice_region M) (map region_of (timed_layout l))).
  { apply timed_nice; [lia|]. intros b I. apply B. rewrite <- LB. exact I. }
  rewrite Forall_forall in N.
  assert (MB : forall m t, In t (marked m bars) -> t <= M) by (intros m t I; apply marked_In in I as (b & I & _ & <-); auto).
  unfold to_chunks in TC. cbn [cp_global cp_regions] in TC. destruct gr as [g|].
  - destruct (jump_built r bars g w T C G) as [s [J [_ [_ IS]]]].
    destruct (omapM (render_chunks (DcDsIter0 (ds_dc_tick (gr_ds_dc g)))) _) as [c1| |] eqn:E1; try discriminate. cbn [bind] in TC.
    destruct (omapM (render_chunks (DcDsIter1 g)) _) as [c2| |] eqn:E2; try discriminate. cbn [bind] in TC. inversion TC.
    assert (SM : s <= M).
    { destruct J as [J1 J2 J3 J4|J1 J2 J3 J4|f J1 J2 J3 J4 ->].
      - apply (MB Segno). rewrite J3. cbn. auto.
      - apply (MB Segno). rewrite J3. cbn. auto.
      - unfold actual_top. destruct (_ || _); [lia|]. unfold first_bar_len in J4.
        destruct (filter _ (map b_tick bars)) as [|x q] eqn:Q; [discriminate|]. injection J4 as ->.
        assert (I : In f (filter (fun t => negb (t =? 0)) (map b_tick bars))) by (rewrite Q; cbn; auto).
        apply filter_In in I as [I _]. apply in_map_iff in I as (b & <- & I). auto. }
    assert (FN : forall f, hd_error (marked Fine bars) = Some f -> f <= M).
    { intros f H. apply (MB Fine). destruct (marked Fine bars); inversion H. cbn. auto. }
    assert (GN : Forall (nice M) (gr_iter1 g)).
    { unfold to_interval_set in IS. 
      assert (E0 : (match hd_error (marked Fine bars) with Some f => f | None => u32_max end) <= M \/ (match hd_error (marked Fine bars) with Some f => f | None => u32_max end) = u32_max).
      { destruct (hd_error (marked Fine bars)); auto. }
      destruct (marked Coda bars) as [|p [|q [|? ?]]] eqn:MC; cbn [pair_of] in IS;
        try (destruct (_ <=? s); [eapply of_nice; [|exact IS]; constructor|];
             match type of IS with bind ?m _ = _ => destruct m as [e| |] eqn:K; try discriminate end; apply chk_val in K; cbn [bind] in IS;
             eapply of_nice; [|exact IS]; constructor; [|constructor]; unfold nice; cbn [fst snd]; lia).
      destruct (chk_u32 (p - 1)) as [a| |] eqn:K1; try discriminate. apply chk_val in K1. cbn [bind] in IS.
      match type of IS with bind ?m _ = _ => destruct m as [e| |] eqn:K; try discriminate end. apply chk_val in K. cbn [bind] in IS.
      assert (p <= M /\ q <= M) by (split; apply (MB Coda); rewrite MC; cbn; auto).
      eapply of_nice; [|exact IS]. constructor; [|constructor; [|constructor]]; unfold nice; cbn [fst snd]; lia. }
    apply Forall_app. split; apply concat_all.
    + eapply omapM_all; [|exact E1]. intros x y I E. eapply chunks_edge; [apply N; exact I| |exact E]. cbn.
      destruct (jump_bar _ _ _ _ J) as [b [BI [<- _]]]. auto.
    + eapply omapM_all; [|exact E2]. intros x y I E. eapply chunks_edge; [apply N; exact I| |exact E]. exact GN.
  - destruct (omapM (render_chunks NonDcDs) _) as [c1| |] eqn:E1; try discriminate. cbn [bind] in TC. inversion TC. apply concat_all.
    eapply omapM_all; [|exact E1]. intros x y I E. eapply chunks_edge; [apply N; exact I| |exact E]. exact Logic.I.
Qed.

Lemma count_all k l : forall n, (forall t, In t l -> 0 <= t < Z.of_nat n) -> (forall t, times t l <= k) -> Z.of_nat (length l) <= k * Z.of_nat n.
Proof.
  intros n. revert l. induction n as [|n IH]; intros l B T.
  - destruct l as [|x l]; [cbn; lia|]. specialize (B x (or_introl eq_refl)). cbn in B. lia.
  - assert (S : Z.of_nat (length l) = times (Z.of_nat n) l + Z.of_nat (length (filter (fun x => negb (Z.of_nat n =? x)) l))).
    { unfold times. clear. induction l as [|x l IH]; [reflexivity|]. cbn [filter]. destruct (Z.of_nat n =? x); cbn [negb length] in *; lia. }
    specialize (IH (filter (fun x => negb (Z.of_nat n =? x)) l)).
    assert (X : Z.of_nat (length (filter (fun x => negb (Z.of_nat n =? x)) l)) <= k * Z.of_nat n).
    { apply IH.
      - intros t I. apply filter_In in I as [I N]. specialize (B t I). apply negb_true_iff, Z.eqb_neq in N. lia.
      - intros t. specialize (T t). pose proof (times_nonneg t l). unfold times in *. clear IH B S.
        assert (Q : (length (filter (Z.eqb t) (filter (fun x => negb (Z.of_nat n =? x)%Z) l)) <= length (filter (Z.eqb t) l))%nat); [|lia].
        clear. induction l as [|x l IH]; [reflexivity|]. cbn [filter]. destruct (Z.of_nat n =? x), (t =? x) eqn:E; cbn [negb filter]; rewrite ?E; cbn [length]; lia. }
    specialize (T (Z.of_nat n)). lia.
Qed.

Definition closed (c : chunk) : bool := negb (ck_end c =? u32_max).
Lemma closed_len k M cs : 0 <= M -> Forall in_time cs -> Forall (edge M) cs -> (forall t, times t (performance cs) <= k) ->
  Z.of_nat (length (performance (filter closed cs))) <= k * M.
Proof.
  intros M0 F E T. rewrite <- (Z2Nat.id M) by auto. apply count_all.
  - intros t I. unfold performance in I. apply in_flat_map in I as (c & I & J). apply filter_In in I as [I CL]. rewrite Forall_forall in F, E.
    specialize (F c I). specialize (E c I). apply from_to_In in J. unfold closed in CL. apply negb_true_iff, Z.eqb_neq in CL. unfold in_time, edge in *. lia.
  - intros t. specialize (T t). clear E F M0 M. revert k T.
    induction cs as [|c cs IH]; intros k T; [exact T|]. rewrite perf_cons, times_app in T. cbn [filter]. 
    specialize (IH (k - times t (from_to (ck_start c) (ck_end c))) ltac:(lia)). pose proof (times_nonneg t (from_to (ck_start c) (ck_end c))).
    destruct (closed c); [rewrite perf_cons, times_app|]; lia.
Qed.

Lemma accum_any l : forall o buf, Forall in_time l -> 0 <= o -> o + Z.of_nat (length (performance (filter closed l))) <= u32_max ->
  exists r, accum_loop o buf l = Ret r.
Proof.
  induction l as [|c l IH]; intros o buf F O B; cbn [accum_loop]; [eauto|]. inversion F as [|? ? F1 F2]; subst. cbn [filter] in B. unfold closed at 1 in B.
  destruct (ck_end c =? u32_max); cbn [negb] in B; [apply IH; auto|]. rewrite perf_cons, app_length, Nat2Z.inj_add, from_to_length in B by apply F1.
  unfold in_time in F1. unfold ck_len, chk_u32 at 1, chk, in_range.
  replace ((0 <=? ck_end c - ck_start c) && (ck_end c - ck_start c <=? u32_max)) with true by lia. cbn [bind].
  unfold chk_u32, chk, in_range. replace ((0 <=? o + (ck_end c - ck_start c)) && (o + (ck_end c - ck_start c) <=? u32_max)) with true by lia. cbn [bind].
  apply IH; auto; lia.
Qed.

Lemma removed_len cs : open_only_last cs -> Z.of_nat (length (performance (removelast cs))) <= Z.of_nat (length (performance (filter closed cs))).
Proof.
  intros O. apply ends_last_iff in O. induction cs as [|c cs IH]; [cbn; lia|]. destruct cs as [|d cs]; [cbn [removelast]; cbn; lia|].
  destruct O as [O1 O2]. specialize (IH O2). change (removelast (c :: d :: cs)) with (c :: removelast (d :: cs)).
  cbn [filter] in *. unfold closed at 1. replace (ck_end c =? u32_max) with false by lia. cbn [negb]. rewrite !perf_cons, !app_length. lia.
Qed.

(** So the table of start positions can always be made for a tune of ordinary length, and whichever time the tick is
    played there is an iteration that starts the player there; an iteration is refused only
    if the tick is not played so often. *)
Theorem C64_reach : forall r bars c w cs t M, tune bars -> Forall compatible bars ->
  render_region r bars = Ret (Ok (c, w)) -> to_chunks c = Ret cs ->
  (forall b, In b bars -> b_tick b <= M) -> 0 <= M -> 0 <= t -> 5 * M + t <= u32_max ->
  exists table, by_accum_tick cs = Ret table /\
    (forall n pos, nth_time t n (performance cs) pos -> to_accum_tick (play_start_new t n) table = Ret (Ok pos)) /\
    (forall n, 1 <= n <= 5 -> times t (performance cs) < n ->
      to_accum_tick (play_start_new t n) table = Ret (Err (CannotFind n (times t (performance cs))))).
Proof.
  intros r bars c w cs t M T F R TC B M0 T0 BD.
  destruct (T_Repeat.C47_formed r bars c w cs T F R TC) as [IT OL].
  pose proof (rendered_edge M r bars c w cs T F R TC M0 B) as E.
  assert (FV : forall t, times t (performance cs) <= 5) by (intros x; apply (C64_five r bars c w cs x T F R TC)).
  pose proof (closed_len 5 M cs M0 IT E FV) as CL. pose proof (removed_len cs OL) as RL.
  destruct (accum_any cs 0 [] IT ltac:(lia) ltac:(lia)) as [tab TAB]. exists tab. split; [exact TAB|].
  assert (B' : Z.of_nat (length (performance (removelast cs))) + t <= u32_max) by lia. split.
  - intros n pos H. apply (T_Chunk.C41_found cs tab t n IT OL TAB T0 B').
    pose proof (nth_time_count _ _ _ _ H). specialize (FV t). replace (Z.max 1 (Z.min 5 n)) with n by lia. exact H.
  - intros n N H. pose proof (T_Chunk.C41_not_found cs tab t n IT OL TAB T0) as X. cbv zeta in X.
    replace (Z.max 1 (Z.min 5 n)) with n in X by lia. auto.
Qed.
Print Assumptions C64_reach.

(** Five is reached: four variations and a jump back. *)
Definition five_bars : list bar :=
  map (fun p => T_Repeat.bar_at (fst p) (snd p))
    [(0, [Segno]); (960, [Start]); (1920, [Var1]); (2880, [Var2]); (3840, [Var3]); (4800, [Var4]); (5760, []); (6240, [Fine]); (6720, [Ds])].
Example C64_reach_case : (forall b, In b five_bars -> b_tick b <= 6720) /\ 5 * 6720 + 1000 <= u32_max.
Proof.
  split; [|vm_compute; discriminate]. apply Forall_forall. repeat constructor; vm_compute; discriminate.
Qed.
Example C64_case : exists c cs table,
  tune five_bars /\ Forall compatible five_bars /\
  render_region T_Repeat.four_four five_bars = Ret (Ok (c, [])) /\ to_chunks c = Ret cs /\
  times 1000 (performance cs) = 5 /\ times 2000 (performance cs) = 1 /\ times 5000 (performance cs) = 2 /\
  by_accum_tick cs = Ret table /\
  map (fun n => to_accum_tick (play_start_new 1000 n) table) [1; 2; 3; 4; 5] = map (fun p => Ret (Ok p)) [1000; 2920; 4840; 6760; 10600] /\
  to_accum_tick (play_start_new 5000 3) table = Ret (Err (CannotFind 3 2)).
Proof.
  destruct (render_region T_Repeat.four_four five_bars) as [[[c w]|]| |] eqn:R; try (vm_compute in R; discriminate R).
  destruct (to_chunks c) as [cs| |] eqn:TC; try (vm_compute in R; injection R as <- <-; vm_compute in TC; discriminate TC).
  destruct (by_accum_tick cs) as [tb| |] eqn:TB; try (vm_compute in R; injection R as <- <-; vm_compute in TC; injection TC as <-; vm_compute in TB; discriminate TB).
  exists c, cs, tb. split; [T_Repeat.tune_tac|]. split; [T_Repeat.compat_tac|].
  vm_compute in R. injection R as <- <-. split; [reflexivity|]. split; [exact TC|]. vm_compute in TC. injection TC as <-.
  split; [vm_compute; reflexivity|]. split; [vm_compute; reflexivity|]. split; [vm_compute; reflexivity|]. split; [exact TB|].
  vm_compute in TB. injection TB as <-. split; vm_compute; reflexivity.
Qed.
