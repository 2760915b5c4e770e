(** Property theorems about what a tune with D.C. or D.S. plays how often and what it never plays: C81. *)
From Coq Require Import ZArith List Bool Lia Sorted.
From Verif Require Import Base M_Duration M_Scalar M_Bar M_Repeat S_Note S_Repeat S_Unheard P_Base P_Chunk P_Machine P_Errors P_Order P_Jump P_Last P_Panic.
From Verif Require P_Heard T_Repeat T_Times.
Import ListNotations.
Open Scope Z_scope.

Lemma times_pos t l : In t l -> 1 <= times t l.
Proof.
  intros I. apply in_split in I as (a & b & ->). rewrite times_app, times_cons, Z.eqb_refl.
  pose proof (times_nonneg t a). pose proof (times_nonneg t b). lia.
Qed.
Lemma times_sorted t l : StronglySorted Z.lt l -> In t l -> times t l = 1.
Proof. intros S I. pose proof (times_pos t l I). pose proof (T_Times.times_once t l S). lia. Qed.

(** The first pass up to the mark plays what lies before the mark, all of it as often as without the mark. *)
Lemma times_first d t l : forall s lo, s < lo -> s <= d < u32_max -> chain s lo l -> l <> [] -> jump_clear d l ->
  times t (until d (flat_map play_section l)) = if t <? d then times t (flat_map play_section l) else 0.
Proof.
  induction l as [|[[a sec] e] l IH]; intros s lo SL D C NE J; [congruence|].
  assert (LT : forall s lo (x : list (Z * section * Z)), s < lo -> chain s lo x -> t < s -> times t (flat_map play_section x) = 0).
  { intros s0 lo0 x S0 C0 L. apply (T_Times.times_chain x s0 lo0 t C0). exact L. }
  destruct (Z.eq_dec d s) as [->|NS].
  - destruct (play_first _ s lo SL C NE) as [r R]. rewrite R. cbn [until]. rewrite Z.eqb_refl. rewrite <- R.
    destruct (Z.ltb_spec t s); [|reflexivity]. rewrite (LT s lo); auto.
  - destruct C as [-> [_ [LE [SI [_ C]]]]]. cbn [flat_map].
    destruct (Z.le_gt_cases e d) as [ED|ED].
    + assert (NL : l <> []) by (intros ->; cbn in C; lia).
      assert (J' : jump_clear d l) by (intros s' sec' e' X; apply J; cbn; auto).
      rewrite until_app by (intros X; apply (play_in s lo sec e d) in X; auto; lia).
      rewrite !times_app, (IH e (e + 1) ltac:(lia) ltac:(lia) C NL J').
      destruct (Z.ltb_spec t d) as [L|L]; [reflexivity|].
      rewrite times_zero; [reflexivity|]. intros X. apply (play_in s lo sec e t) in X; auto; lia.
    + assert (PL : is_plain sec = true) by (apply (J s sec e); cbn; auto; lia). destruct sec as [x|x|c vs]; try discriminate.
      cbn [play_section]. rewrite until_in by lia. rewrite times_app, !times_from_to.
      destruct (Z.ltb_spec t d) as [L|L]; [|rewrite andb_false_r; reflexivity].
      rewrite (LT e (e + 1)) by (auto; lia). replace (t <? e) with true by lia. rewrite andb_true_r. lia.
Qed.

Lemma second_spec l bars s t : 0 <= t < u32_max ->
  In t (second_pass l s (hd_error (marked Fine bars)) (pair_of (marked Coda bars))) <-> ~ skipped bars s t /\ ~ other_variation l t.
Proof.
  intros B. rewrite (proj2 (T_Repeat.C43_second l s _ _)). unfold skipped, other_variation. split.
  - intros (_ & S & F & C & V). split.
    + intros [H|[(f & E & H)|(a & b & E & H)]]; [lia|specialize (F f E); lia|].
      specialize (C a b). rewrite E in C. specialize (C eq_refl). lia.
    + intros (x & c & vs & e & I & H). specialize (V _ _ _ _ I). lia.
  - intros [N V]. split; [exact B|]. split; [destruct (Z.le_gt_cases s t); auto; exfalso; apply N; auto|]. split; [|split].
    + intros f E. destruct (Z.lt_ge_cases t f); auto. exfalso. apply N. right. left. exists f. auto.
    + intros a b E. unfold pair_of in E. destruct (marked Coda bars) as [|a' [|b' [|z q]]] eqn:K; try discriminate. inversion E; subst a' b'.
      destruct (Z.lt_ge_cases t a); [auto|]. destruct (Z.le_gt_cases b t); [auto|]. exfalso. apply N. right. right. exists a, b. auto.
    + intros x c vs e I. destruct (Z.lt_ge_cases t (hd e (starts_of vs))); [auto|]. destruct (Z.le_gt_cases (last (starts_of vs) e) t); [auto|].
      exfalso. apply V. exists x, c, vs, e. auto.
Qed.

Lemma performed_jump r bars c w cs d s : tune bars -> Forall compatible bars -> implicit_clear bars ->
  render_region r bars = Ret (Ok (c, w)) -> to_chunks c = Ret cs -> jump (actual_top (full_bar r bars)) bars d s ->
  exists l, well_laid l /\ layout_bars l = bars /\ codas_ok s bars /\ 0 <= d < u32_max /\ 0 <= s < u32_max /\
    performance cs = until d (play l) ++ second_pass l s (hd_error (marked Fine bars)) (pair_of (marked Coda bars)) /\
    forall t, times t (until d (play l)) = if t <? d then times t (play l) else 0.
Proof.
  intros T F IC R TC J. destruct (performed r bars c w cs T F IC R TC) as (l & W & LB & [(N1 & N2 & _)|(d' & s' & J' & CO & _ & P)]).
  - exfalso. inversion J as [E1 E2|E1 E2 E3 E4|f E1 E2 E3 E4]; destruct N1; congruence.
  - destruct (jump_det _ _ _ _ _ _ J J') as [<- <-]. exists l. split; [exact W|]. split; [exact LB|]. split; [exact CO|].
    destruct (jump_bar _ _ _ _ J) as [b [BI [BD BN]]]. pose proof (tune_tick _ _ T BI) as BT. split; [lia|].
    split; [exact (segno_range _ _ _ _ T J)|]. split; [exact P|]. intros t. unfold play.
    assert (CH : chain 0 0 (timed_layout l)) by (apply layout_chain; auto; rewrite LB; exact T).
    assert (JC : jump_clear d (timed_layout l)).
    { destruct W as [I1 F1]. apply (inside_plain (snd l) (fst l) true); auto;
        [apply clear_outside; [split; auto|rewrite LB; exact IC]|unfold layout_bars in LB; rewrite LB; exact T|unfold layout_bars in LB; rewrite LB; exists b; auto]. }
    assert (CH1 : chain 0 1 (timed_layout l)).
    { apply top_chain; auto; rewrite LB; auto. apply (proj1 (chunks_return r bars c w T F R) (ex_intro _ cs TC) d s J). }
    apply (times_first d t _ 0 1); auto; try lia. apply timed_ne.
Qed.

(** * C81 *)

(** With a jump from [d] to [s]: what lies before [d] is played as often as without the jump, what lies behind is
    not, and each tick that the last pass does not leave out is played once more. *)
Theorem C81_times : forall r bars c w cs d s, tune bars -> Forall compatible bars -> implicit_clear bars ->
  render_region r bars = Ret (Ok (c, w)) -> to_chunks c = Ret cs -> jump (actual_top (full_bar r bars)) bars d s ->
  exists l, well_laid l /\ layout_bars l = bars /\ forall t, 0 <= t < u32_max ->
    let first := if t <? d then times t (play l) else 0 in
    (~ skipped bars s t /\ ~ other_variation l t -> times t (performance cs) = first + 1) /\
    (skipped bars s t \/ other_variation l t -> times t (performance cs) = first).
Proof.
  intros r bars c w cs d s T F IC R TC J.
  destruct (performed_jump r bars c w cs d s T F IC R TC J) as (l & W & LB & _ & _ & _ & P & X).
  exists l. split; [exact W|]. split; [exact LB|]. intros t B first. rewrite P, times_app, X. fold first.
  pose proof (second_spec l bars s t B) as SS. pose proof (proj1 (T_Repeat.C43_second l s (hd_error (marked Fine bars)) (pair_of (marked Coda bars)))) as SO.
  split; intros H.
  - rewrite (times_sorted t _ SO) by (apply SS; exact H). reflexivity.
  - rewrite times_zero; [lia|]. intros I. apply SS in I. tauto.
Qed.
Print Assumptions C81_times.

(** So every tick before the mark is heard; behind it a tick is heard at most once; and the ticks that are never
    heard are exactly those behind the mark that the last pass leaves out. *)
Theorem C81_unheard : forall r bars c w cs d s, tune bars -> Forall compatible bars -> implicit_clear bars ->
  render_region r bars = Ret (Ok (c, w)) -> to_chunks c = Ret cs -> jump (actual_top (full_bar r bars)) bars d s ->
  (forall t, 0 <= t < d -> In t (performance cs)) /\
  (forall t, d <= t -> times t (performance cs) <= 1) /\
  exists l, well_laid l /\ layout_bars l = bars /\ forall t, 0 <= t < u32_max ->
    (~ In t (performance cs) <-> d <= t /\ (skipped bars s t \/ other_variation l t)).
Proof.
  intros r bars c w cs d s T F IC R TC J.
  destruct (performed_jump r bars c w cs d s T F IC R TC J) as (l & W & LB & _ & D & _ & P & X).
  pose proof (proj1 (T_Repeat.C43_second l s (hd_error (marked Fine bars)) (pair_of (marked Coda bars)))) as SO.
  assert (PI : forall t, 0 <= t < d -> In t (performance cs)).
  { intros t B. rewrite <- LB in T. pose proof (proj2 (T_Times.play_times l t W T) ltac:(lia)) as G. specialize (X t).
    replace (t <? d) with true in X by lia. rewrite P. apply in_app_iff. left.
    destruct (in_dec Z.eq_dec t (until d (play l))) as [I|N]; [exact I|]. rewrite times_zero in X by exact N. lia. }
  split; [exact PI|]. split.
  - intros t L. rewrite P, times_app, X. replace (t <? d) with false by lia. pose proof (T_Times.times_once t _ SO). lia.
  - exists l. split; [exact W|]. split; [exact LB|]. intros t B. pose proof (second_spec l bars s t B) as SS. split.
    + intros N. destruct (Z.lt_ge_cases t d) as [L|L]; [exfalso; apply N, PI; lia|]. split; [exact L|].
      rewrite P, in_app_iff in N. unfold skipped, other_variation.
      assert (DS : skipped bars s t \/ ~ skipped bars s t).
      { unfold skipped. destruct (Z.lt_ge_cases t s); [auto|].
        assert (A : (exists f, hd_error (marked Fine bars) = Some f /\ f <= t) \/ ~ exists f, hd_error (marked Fine bars) = Some f /\ f <= t).
        { destruct (hd_error (marked Fine bars)) as [f|]; [|right; intros (f & E & _); discriminate].
          destruct (Z.le_gt_cases f t); [left; eauto|]. right. intros (g & E & G). inversion E; subst. lia. }
        assert (B' : (exists a b, marked Coda bars = [a; b] /\ a <= t < b) \/ ~ exists a b, marked Coda bars = [a; b] /\ a <= t < b).
        { destruct (marked Coda bars) as [|a [|b [|? ?]]]; try (right; intros (x & y & E & _); discriminate).
          destruct (Z.le_gt_cases a t); [|right; intros (x & y & E & G); inversion E; subst; lia].
          destruct (Z.lt_ge_cases t b); [left; exists a, b; auto|]. right. intros (x & y & E & G). inversion E; subst. lia. }
        destruct A; [auto|]. destruct B'; [auto|]. right. intros [G|[G|G]]; [lia|auto|auto]. }
      destruct DS as [DS|DS]; [left; exact DS|]. right.
      destruct (left_out (timed_layout l) t) eqn:LO.
      * unfold left_out in LO. apply existsb_exists in LO. destruct LO as ([[x sec] e] & I & LO). destruct sec as [q|q|cm vs]; try discriminate.
        exists x, cm, vs, e. split; [exact I|]. lia.
      * exfalso. apply N. right. apply SS. split; [exact DS|]. intros (x & cm & vs & e & I & G).
        assert (Y : left_out (timed_layout l) t = true).
        { unfold left_out. apply existsb_exists. exists (x, Varied cm vs, e). split; [exact I|]. lia. }
        congruence.
    + intros [L H] I. rewrite P, in_app_iff in I. destruct I as [I|I].
      * apply times_pos in I. rewrite X in I. replace (t <? d) with false in I by lia. lia.
      * apply SS in I. tauto.
Qed.
Print Assumptions C81_unheard.

Lemma sorted_max m l : StronglySorted Z.lt l -> In m l -> (forall t, In t l -> t <= m) -> exists pre, l = pre ++ [m].
Proof.
  intros S I M. apply in_split in I as (a & b & ->). exists a. destruct b as [|x b]; [reflexivity|].
  exfalso. apply P_Heard.sorted_split in S as (_ & S & _). inversion S as [|? ? _ H]; subst. inversion H; subst.
  specialize (M x). rewrite in_app_iff in M. cbn in M. lia.
Qed.

Lemma other_below l t x c vs e : well_laid l -> tune (layout_bars l) -> In (x, Varied c vs, e) (timed_layout l) -> 
  t < last (starts_of vs) e -> t < u32_max - 1.
Proof.
  intros W T I L. pose proof (layout_chain l W T) as C.
  assert (K : forall q s lo, chain s lo q -> In (x, Varied c vs, e) q -> last (starts_of vs) e < u32_max).
  { clear. induction q as [|[[a sec] e'] q IH]; intros s lo C I; [destruct I|]. destruct C as [-> [SL [LE [SI [NL C]]]]].
    destruct I as [E|I]; [|eapply IH; eauto]. inversion E; subst. destruct SI as [N [_ F]].
    assert (In (last (starts_of vs) e) (starts_of vs)) as J.
    { destruct (starts_of vs) as [|y v]; [congruence|]. clear. revert y. induction v as [|z v IH]; intros y; [cbn; auto|].
      right. apply (IH z). }
    rewrite Forall_forall in F. specialize (F _ J). lia. }
  specialize (K _ _ _ C I). lia.
Qed.

(** Where the tune ends: at Fine, if the last pass gets there; at the mark itself, if Fine is not behind the place
    that the jump goes to; without Fine it goes on to the end of time. *)
Theorem C81_end : forall r bars c w cs d s, tune bars -> Forall compatible bars -> implicit_clear bars ->
  render_region r bars = Ret (Ok (c, w)) -> to_chunks c = Ret cs -> jump (actual_top (full_bar r bars)) bars d s ->
  (marked Fine bars = [] -> exists pre, performance cs = pre ++ [u32_max - 1]) /\
  (forall f, marked Fine bars = [f] -> f <= s -> Forall (fun t => t < d) (performance cs)) /\
  (forall f, marked Fine bars = [f] -> s < f -> exists l, well_laid l /\ layout_bars l = bars /\
     (~ other_variation l (f - 1) -> exists pre, performance cs = pre ++ [f - 1])).
Proof.
  intros r bars c w cs d s T F IC R TC J.
  destruct (performed_jump r bars c w cs d s T F IC R TC J) as (l & W & LB & CO & D & S0 & P & X).
  pose proof (proj1 (T_Repeat.C43_second l s (hd_error (marked Fine bars)) (pair_of (marked Coda bars)))) as SO.
  pose proof (fun t => proj2 (T_Repeat.C43_second l s (hd_error (marked Fine bars)) (pair_of (marked Coda bars))) t) as SI.
  assert (KEY : forall m, 0 <= m < u32_max -> ~ skipped bars s m -> ~ other_variation l m ->
    (forall t, In t (second_pass l s (hd_error (marked Fine bars)) (pair_of (marked Coda bars))) -> t <= m) -> exists pre, performance cs = pre ++ [m]).
  { intros m B N1 N2 M. destruct (sorted_max m _ SO) as [pre E]; [apply second_spec; auto|exact M|].
    rewrite P, E. exists (until d (play l) ++ pre). rewrite app_assoc. reflexivity. }
  split; [|split].
  - intros NF. apply KEY.
    + unfold u32_max. lia.
    + unfold skipped. rewrite NF. intros [H|[(f & E & _)|(a & b & E & H)]]; [lia|discriminate|].
      specialize (CO a b E). rewrite NF in CO. lia.
    + intros (x & cm & vs & e & I & H). rewrite <- LB in T. pose proof (other_below l (u32_max - 1) x cm vs e W T I ltac:(lia)). lia.
    + intros t I. apply SI in I. lia.
  - intros f EF L. rewrite P. apply Forall_app. split.
    + apply Forall_forall. intros t I. apply times_pos in I. rewrite X in I. destruct (Z.ltb_spec t d); lia.
    + apply Forall_forall. intros t I. exfalso. apply SI in I. destruct I as (_ & G & H & _). rewrite EF in H. specialize (H f eq_refl). lia.
  - intros f EF L. exists l. split; [exact W|]. split; [exact LB|]. intros N.
    assert (FR : 0 <= f < u32_max) by (apply (fine_range bars f T); rewrite EF; reflexivity).
    apply KEY; [lia| |exact N|].
    + unfold skipped. rewrite EF. intros [H|[(g & E & H)|(a & b & E & H)]]; [lia|inversion E; subst; lia|].
      specialize (CO a b E). rewrite EF in CO. lia.
    + intros t I. apply SI in I. destruct I as (_ & _ & H & _). rewrite EF in H. specialize (H f eq_refl). lia.
Qed.
Print Assumptions C81_end.

(** A score without variation marks has no variations. *)
Lemma varied_marks l x c vs e : well_laid l -> In (x, Varied c vs, e) (timed_layout l) -> exists b, In b (layout_bars l) /\ has b Var1 = true.
Proof.
  intros [W1 W2] I. unfold timed_layout, layout_bars in *. destruct l as [f r]. cbn [fst snd] in *.
  remember true as q eqn:Q in W1. clear Q. revert W1 W2 I. generalize 0 as z. revert f q. induction r as [|[y sec] r IH]; intros f q z W1 W2 I; cbn [timed] in I.
  - destruct I as [E|[]]. inversion E; subst. cbn in W2. discriminate.
  - destruct I as [E|I].
    + inversion E; subst. cbn [inside] in W1. destruct W1 as [_ [_ [_ [N [V _]]]]]. destruct vs as [|v vs]; [congruence|].
      cbn [numbered] in N. destruct N as (NE & CA & _). destruct v as [|b v]; [congruence|]. exists b. split.
      * cbn [section_bars concat]. rewrite !in_app_iff. cbn. auto.
      * inversion CA as [|? ? CB _]; subst. rewrite (CB Var1 eq_refl). reflexivity.
    + cbn [follows] in W2. destruct W2 as [_ [W3 W4]]. destruct (IH _ _ _ W3 W4 I) as (b & J & H). exists b. split; [|exact H].
      cbn [rest_bars flat_map fst snd]. fold (rest_bars r). apply in_app_iff. right. right. exact J.
Qed.

(** Without variations: a tick is never heard exactly if it lies behind the mark and is before the target, behind
    Fine or between the codas; and the tune ends at Fine. *)
Theorem C81_no_variations : forall r bars c w cs d s, tune bars -> Forall compatible bars -> implicit_clear bars ->
  Forall no_var bars -> render_region r bars = Ret (Ok (c, w)) -> to_chunks c = Ret cs -> jump (actual_top (full_bar r bars)) bars d s ->
  (forall t, 0 <= t < u32_max -> (~ In t (performance cs) <-> d <= t /\ skipped bars s t)) /\
  (forall f, marked Fine bars = [f] -> s < f -> exists pre, performance cs = pre ++ [f - 1]).
Proof.
  intros r bars c w cs d s T F IC NV R TC J.
  assert (NO : forall l t, well_laid l -> layout_bars l = bars -> ~ other_variation l t).
  { intros l t W LB (x & cm & vs & e & I & _). destruct (varied_marks l x cm vs e W I) as (b & B & H). rewrite LB in B.
    rewrite Forall_forall in NV. rewrite (NV b B Var1 eq_refl) in H. discriminate. }
  destruct (C81_unheard r bars c w cs d s T F IC R TC J) as (_ & _ & l & W & LB & U).
  destruct (C81_end r bars c w cs d s T F IC R TC J) as (_ & _ & E). split.
  - intros t B. rewrite (U t B). specialize (NO l t W LB). tauto.
  - intros f EF L. destruct (E f EF L) as (l' & W' & LB' & H). apply H, NO; auto.
Qed.
Print Assumptions C81_no_variations.

(** D.S. to the Segno, on to the first Coda, from the second Coda to Fine: what is between D.S. and the second Coda is
    never heard, nor is what comes after Fine. *)
Definition unheard_bars : list bar :=
  [T_Repeat.bar_at 960 [Segno]; T_Repeat.bar_at 1920 [Coda]; T_Repeat.bar_at 2880 [Ds]; T_Repeat.bar_at 3840 [Coda]; T_Repeat.bar_at 4800 [Fine]; T_Repeat.bar_at 5760 []].
Example C81_case : exists c cs, tune unheard_bars /\ Forall compatible unheard_bars /\ implicit_clear unheard_bars /\
  render_region T_Repeat.four_four unheard_bars = Ret (Ok (c, [])) /\ to_chunks c = Ret cs /\
  jump (actual_top (full_bar T_Repeat.four_four unheard_bars)) unheard_bars 2880 960 /\
  cs = [mkChunk 0 2880; mkChunk 960 1920; mkChunk 3840 4800] /\
  ~ skipped unheard_bars 960 1000 /\ skipped unheard_bars 960 2000 /\ skipped unheard_bars 960 3000 /\ ~ skipped unheard_bars 960 4000 /\
  skipped unheard_bars 960 5000 /\ Forall no_var unheard_bars /\
  map (fun t => times t (performance cs)) [500; 1000; 2000; 3000; 4000; 5000] = [1; 2; 1; 0; 1; 0] /\
  last (performance cs) 0 = 4799.
Proof.
  do 2 eexists. split; [T_Repeat.tune_tac|]. split; [T_Repeat.compat_tac|]. split.
  { intros pre j mid x post E N I M. exfalso. apply M. assert (H : In x unheard_bars) by (rewrite E; rewrite in_app_iff; right; right; rewrite in_app_iff; cbn; auto).
    cbn in H. repeat (destruct H as [<-|H]; [split; [split; reflexivity|intros m; destruct m; cbn; congruence || reflexivity]|]). destruct H. }
  split; [vm_compute; reflexivity|]. split; [vm_compute; reflexivity|]. split; [apply jump_ds; vm_compute; congruence || reflexivity|].
  split; [reflexivity|].
  assert (MF : marked Fine unheard_bars = [4800]) by reflexivity. assert (MC : marked Coda unheard_bars = [1920; 3840]) by reflexivity.
  unfold skipped. rewrite MF, MC. cbn [hd_error].
  split; [intros [H|[(f & E & H)|(a & b & E & H)]]; [lia|inversion E; subst; lia|inversion E; subst; lia]|].
  split; [right; right; exists 1920, 3840; split; [reflexivity|lia]|]. split; [right; right; exists 1920, 3840; split; [reflexivity|lia]|].
  split; [intros [H|[(f & E & H)|(a & b & E & H)]]; [lia|inversion E; subst; lia|inversion E; subst; lia]|].
  split; [right; left; exists 4800; split; [reflexivity|lia]|].
  split; [T_Repeat.each ltac:(intros m; destruct m; cbn; congruence || reflexivity)|]. split; vm_compute; reflexivity.
Qed.

(** Without [implicit_clear] ticks before the mark can be lost (see C43 and C78). *)
Theorem C81_implicit_refuted : exists bars c cs d s, tune bars /\ Forall compatible bars /\
  render_region T_Repeat.four_four bars = Ret (Ok (c, [])) /\ to_chunks c = Ret cs /\
  jump (actual_top (full_bar T_Repeat.four_four bars)) bars d s /\ 0 < d /\ ~ In 0 (performance cs).
Proof.
  exists [T_Repeat.bar_at 480 [Segno]; T_Repeat.bar_at 1920 [Ds]; T_Repeat.bar_at 2880 [End]].
  eexists. exists [mkChunk 480 2880; mkChunk 2880 u32_max], 1920, 480.
  split; [T_Repeat.tune_tac|]. split; [T_Repeat.compat_tac|]. split; [vm_compute; reflexivity|]. split; [vm_compute; reflexivity|].
  split; [apply jump_ds; vm_compute; congruence || reflexivity|]. split; [lia|].
  unfold performance. cbn [flat_map ck_start ck_end]. rewrite !in_app_iff, !from_to_In. cbn. lia.
Qed.
Print Assumptions C81_implicit_refuted.
