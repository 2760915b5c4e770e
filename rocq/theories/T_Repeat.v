(** Property theorems about repeats: C42 - C47. *)
From Coq Require Import ZArith List Bool Lia Sorted.
From Verif Require Import Base M_Duration M_Scalar M_Bar M_Store M_Repeat S_Note S_Repeat P_Base P_Chunk P_Machine P_Errors P_Order P_Jump P_Last.
Import ListNotations.
Open Scope Z_scope.

(** ** For the concrete cases *)
Definition bar_at (t : Z) (l : list mark) : bar := mkBar t None None (ms_of l).
Definition four_four : rhythm := mkRhythm 4 D4.
Ltac marks := unfold no_repeat, no_jump, no_var, carries; repeat split; try (intros m; destruct m; vm_compute; congruence); vm_compute; congruence.
Ltac each tac := repeat (apply Forall_cons; [tac|]); apply Forall_nil.
Ltac tune_tac := split; [repeat (apply SSorted_cons; [|each ltac:(cbn; lia)]); apply SSorted_nil|each ltac:(cbn; unfold u32_max; lia)].
Ltac compat_tac := each ltac:(intros x y; destruct x, y; vm_compute; congruence).

(** * C42 *)

(** Any score of the documented form without D.C. and D.S. is played in the
    documented order. *)
Theorem C42_plays : forall r l, let bars := layout_bars l in
  well_laid l -> tune bars -> counts_ok bars -> segno_ok bars (timed_layout l) -> marked Dc bars = [] -> marked Ds bars = [] ->
  exists c cs, render_region r bars = Ret (Ok (c, [])) /\ to_chunks c = Ret cs /\ performance cs = play l.
Proof.
  intros r l bars W T C S A B. exists (mkCompound None (map region_of (timed_layout l))), (flat_map plain_chunks (map region_of (timed_layout l))).
  split; [apply render_plain_layout; auto|]. split; [apply (chunks_plain _ _ eq_refl)|]. apply plain_perf_all.
Qed.
Print Assumptions C42_plays.

(** Whatever is accepted has that form, and is played in that order. *)
Theorem C42_only : forall r bars c w, tune bars -> Forall compatible bars -> marked Dc bars = [] -> marked Ds bars = [] ->
  render_region r bars = Ret (Ok (c, w)) ->
  w = [] /\ counts_ok bars /\ exists l cs, well_laid l /\ layout_bars l = bars /\ segno_ok bars (timed_layout l) /\
    to_chunks c = Ret cs /\ performance cs = play l.
Proof.
  intros r bars c w T F A B R. destruct (render_sound r bars c w T F R) as [C [l [gr [W [LB [S [-> E]]]]]]].
  unfold gb_build in E. cbn [gb_ds_dc builder_of] in E. rewrite no_jump_marks in E by auto. inv E. split; [reflexivity|]. split; [exact C|].
  exists l, (flat_map plain_chunks (map region_of (timed_layout l))). split; [exact W|]. split; [reflexivity|]. split; [exact S|].
  split; [apply (chunks_plain _ _ eq_refl)|apply plain_perf_all].
Qed.
Print Assumptions C42_only.

(** The bars determine what is played: however they are read as sections. *)
Theorem C42_one_order : forall l l', well_laid l -> well_laid l' -> layout_bars l = layout_bars l' ->
  tune (layout_bars l) -> counts_ok (layout_bars l) -> segno_ok (layout_bars l) (timed_layout l) -> segno_ok (layout_bars l) (timed_layout l') ->
  marked Dc (layout_bars l) = [] -> marked Ds (layout_bars l) = [] -> play l = play l'.
Proof.
  intros l l' W W' E T C S S' A B.
  destruct (C42_plays four_four l W T C S A B) as [c [cs [R [TC <-]]]]. rewrite E in *.
  destruct (C42_plays four_four l' W' T C S' A B) as [c' [cs' [R' [TC' <-]]]]. rewrite R in R'. inv R'. rewrite TC in TC'. inv TC'. reflexivity.
Qed.
Print Assumptions C42_one_order.

(** Two bars repeated from the top, a plain bar, a section with two variations, the
    rest. *)
Definition case_layout : layout :=
  (Repeated [bar_at 960 []],
   [(bar_at 1920 [End], Plain []);
    (bar_at 2880 [Start], Varied [bar_at 3840 []] [[bar_at 4800 [Var1]; bar_at 5760 [Var1]]; [bar_at 6720 [Var2]]]);
    (bar_at 7680 [], Plain [bar_at 8640 []])]).
Ltac laid :=
  repeat match goal with
    | |- _ /\ _ => split
    | |- Forall _ _ => each marks
    | |- no_var _ => intros m; destruct m; vm_compute; congruence
    | |- (_ -> _) => intro
    end; try discriminate; try exact I; try (vm_compute; congruence).
Lemma case_laid : well_laid case_layout.
Proof. split; cbn [inside follows numbered case_layout fst snd]; unfold boundary; laid. Qed.
Lemma case_tune : tune (layout_bars case_layout).
Proof. tune_tac. Qed.
Example C42_case : exists c cs, render_region four_four (layout_bars case_layout) = Ret (Ok (c, [])) /\ to_chunks c = Ret cs /\
  performance cs = play case_layout /\
  cs = [mkChunk 0 1920; mkChunk 0 1920; mkChunk 1920 2880; mkChunk 2880 4800; mkChunk 4800 6720; mkChunk 2880 4800; mkChunk 6720 7680; mkChunk 7680 u32_max] /\
  Forall compatible (layout_bars case_layout).
Proof.
  destruct (C42_plays four_four case_layout) as [c [cs [R [TC P]]]].
  - exact case_laid.
  - exact case_tune.
  - vm_compute. repeat split; lia.
  - intros s c vs e t _ [].
  - reflexivity.
  - reflexivity.
  - exists c, cs. split; [exact R|]. split; [exact TC|]. split; [exact P|]. vm_compute in R. inv R. vm_compute in TC. inv TC. split; [reflexivity|]. compat_tac.
Qed.

(** * C43 *)

(** A score with one D.S. or D.C.: the first pass up to the mark, then the second
    pass. *)
Theorem C43_plays : forall r l d s, let bars := layout_bars l in
  well_laid l -> tune bars -> counts_ok bars -> segno_ok bars (timed_layout l) -> top_clear bars -> jump_outside l ->
  small_first bars -> jump (actual_top (full_bar r bars)) bars d s -> codas_ok s bars ->
  exists c cs, render_region r bars = Ret (Ok (c, warnings_of bars)) /\ to_chunks c = Ret cs /\
    performance cs = until d (play l) ++ second_pass l s (hd_error (marked Fine bars)) (pair_of (marked Coda bars)).
Proof.
  intros r l d s bars W T C S TC JO F2 J CO. destruct (render_jump r l d s W T C S TC JO F2 J CO) as [c [cs [R [K [P _]]]]]. exists c, cs. auto.
Qed.
Print Assumptions C43_plays.

(** Whatever is rendered is played in that order. *)
Theorem C43_only : forall r bars c w cs, tune bars -> Forall compatible bars -> implicit_clear bars ->
  render_region r bars = Ret (Ok (c, w)) -> to_chunks c = Ret cs ->
  exists l, well_laid l /\ layout_bars l = bars /\
    ((marked Dc bars = [] \/ first_bar_len bars = None) /\ marked Ds bars = [] /\ w = [] /\ performance cs = play l \/
     exists d s, jump (actual_top (full_bar r bars)) bars d s /\ codas_ok s bars /\ w = warnings_of bars /\
       performance cs = until d (play l) ++ second_pass l s (hd_error (marked Fine bars)) (pair_of (marked Coda bars))).
Proof. exact performed. Qed.
Print Assumptions C43_only.

(** What the second pass is: each tick at most once and in order, and exactly those
    from the jump's target to Fine that are not between the codas and not in a
    variation other than the last. *)
Theorem C43_second : forall l s fine codas, StronglySorted Z.lt (second_pass l s fine codas) /\
  forall t, In t (second_pass l s fine codas) <->
    0 <= t < u32_max /\ s <= t /\ (forall f, fine = Some f -> t < f) /\ (forall a b, codas = Some (a, b) -> t < a \/ b <= t) /\
    forall x c vs e, In (x, Varied c vs, e) (timed_layout l) -> t < hd e (starts_of vs) \/ last (starts_of vs) e <= t.
Proof.
  intros l s fine codas. split; [apply filter_sorted, from_to_sorted|]. intros t. unfold second_pass.
  rewrite filter_In, from_to_In, !andb_true_iff, !negb_true_iff.
  assert (LO : left_out (timed_layout l) t = false <-> forall x c vs e, In (x, Varied c vs, e) (timed_layout l) -> t < hd e (starts_of vs) \/ last (starts_of vs) e <= t).
  { unfold left_out. split.
    - intros H x c vs e I. destruct (Z.lt_ge_cases t (hd e (starts_of vs))); [auto|]. destruct (Z.lt_ge_cases t (last (starts_of vs) e)); [|auto].
      exfalso. apply not_true_iff_false in H. apply H. apply existsb_exists. exists (x, Varied c vs, e). split; [exact I|]. lia.
    - intros H. apply not_true_iff_false. intros X. apply existsb_exists in X. destruct X as [[[x sec] e] [I Y]]. destruct sec as [?|?|c vs]; try discriminate.
      specialize (H x c vs e I). lia. }
  rewrite LO.
  assert (FI : (match fine with Some f => t <? f | None => true end) = true <-> forall f, fine = Some f -> t < f).
  { destruct fine as [f|]; [|split; [discriminate|auto]]. rewrite Z.ltb_lt. split; [intros H g E; inv E; exact H|auto]. }
  assert (BE : S_Repeat.between codas t = false <-> forall a b, codas = Some (a, b) -> t < a \/ b <= t).
  { destruct codas as [[a b]|]; cbn; [|split; [discriminate|auto]]. split; [intros H p q E; inv E; lia|]. intros H. specialize (H a b eq_refl). lia. }
  rewrite FI, BE, Z.leb_le. tauto.
Qed.
Print Assumptions C43_second.

(** A section with two variations that ends where D.S. is written is a case; Segno
    inside it, Coda and Fine after it. *)
Definition jump_layout : layout :=
  (Plain [bar_at 960 [Segno]],
   [(bar_at 1920 [Start], Varied [bar_at 2880 []] [[bar_at 3840 [Var1]]; [bar_at 4800 [Var2]]]);
    (bar_at 5760 [], Plain [bar_at 6720 [Coda]; bar_at 7680 [Coda]; bar_at 8640 [Fine]; bar_at 9600 [Ds]])]).
Lemma jump_laid : well_laid jump_layout.
Proof. split; cbn [inside follows numbered jump_layout fst snd]; unfold boundary; laid. Qed.
Example C43_case : exists c cs, render_region four_four (layout_bars jump_layout) = Ret (Ok (c, [])) /\ to_chunks c = Ret cs /\
  performance cs = until 9600 (play jump_layout) ++ second_pass jump_layout 960 (Some 8640) (Some (6720, 7680)) /\
  cs = [mkChunk 0 1920; mkChunk 1920 3840; mkChunk 3840 4800; mkChunk 1920 3840; mkChunk 4800 5760; mkChunk 5760 9600;
        mkChunk 960 1920; mkChunk 1920 3840; mkChunk 4800 5760; mkChunk 5760 6720; mkChunk 7680 8640].
Proof.
  destruct (C43_plays four_four jump_layout 9600 960) as [c [cs [R [TC P]]]].
  - exact jump_laid.
  - tune_tac.
  - vm_compute. repeat split; lia.
  - intros s c vs e t I M. cbn in I. repeat (destruct I as [I|I]; [inversion I; subst|]); try (destruct I). vm_compute in M. destruct M as [<-|[]]. cbn. lia.
  - each ltac:(cbn; lia).
  - intros H. discriminate.
  - intros f H. vm_compute in H. inv H. unfold u32_max. lia.
  - apply jump_ds; try reflexivity. vm_compute. lia.
  - intros a b H. vm_compute in H. inv H. cbn. lia.
  - exists c, cs. split; [exact R|]. split; [exact TC|]. split; [exact P|]. vm_compute in R. inv R. vm_compute in TC. inv TC. reflexivity.
Qed.

(** A D.C. inside a repeat whose start is not written: the whole repeat is lost in
    the first pass (so [implicit_clear] is needed in C43_only). *)
Theorem C43_implicit_refuted : exists bars c, tune bars /\ Forall compatible bars /\
  render_region four_four bars = Ret (Ok (c, [])) /\
  to_chunks c = Ret [mkChunk 0 1920; mkChunk 1920 u32_max] /\
  bars = [bar_at 960 [Dc]; bar_at 1920 [End]].
Proof.
  eexists [bar_at 960 [Dc]; bar_at 1920 [End]], _. split; [tune_tac|]. split; [compat_tac|].
  split; [vm_compute; reflexivity|]. split; vm_compute; reflexivity.
Qed.
Print Assumptions C43_implicit_refuted.

(** * C44 *)

(** Where D.C. without Segno goes back to. *)
Theorem C44_target : forall r l d first, let bars := layout_bars l in
  well_laid l -> tune bars -> counts_ok bars -> segno_ok bars (timed_layout l) -> top_clear bars -> jump_outside l ->
  small_first bars -> marked Dc bars = [d] -> marked Segno bars = [] -> first_bar_len bars = Some first ->
  let s := if (first =? full_bar r bars) || ((2 * first =? full_bar r bars) && negb (d =? 0)) then 0 else first in
  codas_ok s bars ->
  exists c cs, render_region r bars = Ret (Ok (c, warnings_of bars)) /\ to_chunks c = Ret cs /\
    performance cs = until d (play l) ++ second_pass l s (hd_error (marked Fine bars)) (pair_of (marked Coda bars)).
Proof.
  intros r l d first bars W T C S TC JO F2 D G FL s CO. apply C43_plays; auto. apply (jump_dc _ _ _ _ first); auto.
  fold bars. destruct C as [_ [_ [_ C]]]. rewrite D in C. destruct (marked Ds bars); [reflexivity|cbn in C; lia].
Qed.
Print Assumptions C44_target.

(** That is what the documentation says exactly in these cases. *)
Theorem C44_agrees : forall full first d len, 0 < first -> d <> 0 ->
  (actual_top full first d = documented_top full first len <->
   (first < full /\ len = full /\ 2 * first <> full) \/ (~ (first < full /\ len = full) /\ (2 * first = full \/ first = full))).
Proof.
  intros full first d len F D. unfold actual_top, documented_top. replace (d =? 0) with false by lia. cbn [negb]. rewrite andb_true_r.
  destruct (Z.eqb_spec first full), (Z.eqb_spec (2 * first) full), (Z.ltb_spec first full), (Z.eqb_spec len full); cbn [andb orb]; lia.
Qed.
Print Assumptions C44_agrees.

(** So a D.C. after a full bar in a tune with an upbeat other than half a bar goes
    back to the second bar, as documented. *)
Theorem C44_upbeat : forall r l d first, let bars := layout_bars l in
  well_laid l -> tune bars -> counts_ok bars -> segno_ok bars (timed_layout l) -> top_clear bars -> jump_outside l ->
  small_first bars -> marked Dc bars = [d] -> d <> 0 -> marked Segno bars = [] -> first_bar_len bars = Some first ->
  first < full_bar r bars -> 2 * first <> full_bar r bars -> bar_before bars d = full_bar r bars -> codas_ok first bars ->
  exists c cs, render_region r bars = Ret (Ok (c, warnings_of bars)) /\ to_chunks c = Ret cs /\
    documented_top (full_bar r bars) first (bar_before bars d) = first /\
    performance cs = until d (play l) ++
      second_pass l (documented_top (full_bar r bars) first (bar_before bars d)) (hd_error (marked Fine bars)) (pair_of (marked Coda bars)).
Proof.
  intros r l d first bars W T C S TC JO F2 D D0 G FL FF F3 BB CO.
  assert (DT : documented_top (full_bar r bars) first (bar_before bars d) = first) by (unfold documented_top; rewrite BB; replace (first <? full_bar r bars) with true by lia; rewrite Z.eqb_refl; reflexivity).
  rewrite DT. destruct (C44_target r l d first W T C S TC JO F2 D G FL) as [c [cs [R [K P]]]].
  - fold bars. replace (first =? full_bar r bars) with false by lia. replace (2 * first =? full_bar r bars) with false by lia. exact CO.
  - fold bars in R, P. replace (first =? full_bar r bars) with false in P by lia. replace (2 * first =? full_bar r bars) with false in P by lia. exists c, cs. auto.
Qed.
Print Assumptions C44_upbeat.

(** An upbeat of one quarter; D.C. after a bar of three quarters, which fills it up
    (the documented case).  Documented: back to the top; but it goes to the second
    bar.  And with an upbeat of two quarters and D.C. after a full bar it goes to the
    top, documented is the second bar. *)
Theorem C44_documented_refuted :
  (exists bars c, tune bars /\ Forall compatible bars /\ marked Dc bars = [1920] /\ first_bar_len bars = Some 240 /\
     bar_before bars 1920 = 720 /\ documented_top (full_bar four_four bars) 240 720 = 0 /\
     render_region four_four bars = Ret (Ok (c, [])) /\ to_chunks c = Ret [mkChunk 0 1920; mkChunk 240 u32_max]) /\
  (exists bars c, tune bars /\ Forall compatible bars /\ marked Dc bars = [2400] /\ first_bar_len bars = Some 480 /\
     bar_before bars 2400 = 960 /\ documented_top (full_bar four_four bars) 480 960 = 480 /\
     render_region four_four bars = Ret (Ok (c, [])) /\ to_chunks c = Ret [mkChunk 0 2400; mkChunk 0 u32_max]).
Proof.
  split.
  - exists [bar_at 240 []; bar_at 1200 []; bar_at 1920 [Dc]]. eexists. split; [tune_tac|]. split; [compat_tac|].
    do 5 (split; [vm_compute; reflexivity|]). vm_compute. reflexivity.
  - exists [bar_at 480 []; bar_at 1440 []; bar_at 2400 [Dc]]. eexists. split; [tune_tac|]. split; [compat_tac|].
    do 5 (split; [vm_compute; reflexivity|]). vm_compute. reflexivity.
Qed.
Print Assumptions C44_documented_refuted.

(** An upbeat of one quarter and D.C. after a full bar, with Fine. *)
Definition upbeat_layout : layout := (Plain [bar_at 240 []; bar_at 1200 [Fine]; bar_at 2160 [Dc]], []).
Example C44_case : exists c cs, render_region four_four (layout_bars upbeat_layout) = Ret (Ok (c, [])) /\ to_chunks c = Ret cs /\
  documented_top 960 240 960 = 240 /\
  performance cs = until 2160 (play upbeat_layout) ++ second_pass upbeat_layout 240 (Some 1200) None /\
  cs = [mkChunk 0 2160; mkChunk 240 1200].
Proof.
  destruct (C44_upbeat four_four upbeat_layout 2160 240) as [c [cs [R [TC [DT P]]]]].
  - split; [cbn [inside upbeat_layout fst]; split; [each marks|intros _; each marks]|reflexivity].
  - tune_tac.
  - vm_compute. repeat split; lia.
  - intros s c vs e t I M. destruct M.
  - each ltac:(cbn; lia).
  - intros H. discriminate.
  - intros f H. vm_compute in H. inv H. unfold u32_max. lia.
  - reflexivity.
  - lia.
  - reflexivity.
  - reflexivity.
  - vm_compute. reflexivity.
  - vm_compute. congruence.
  - vm_compute. reflexivity.
  - intros a b H. discriminate.
  - exists c, cs. split; [exact R|]. split; [exact TC|]. split; [reflexivity|]. split; [exact P|]. vm_compute in R. inv R. vm_compute in TC. inv TC. reflexivity.
Qed.

(** * C45 *)

(** Exactly which lists of bars are accepted. *)
Theorem C45_accepted : forall r bars, tune bars -> Forall compatible bars -> small_first bars ->
  ((exists c w, render_region r bars = Ret (Ok (c, w))) <->
   counts_ok bars /\ (exists l, well_laid l /\ layout_bars l = bars /\ segno_ok bars (timed_layout l)) /\
   ((marked Dc bars = [] \/ first_bar_len bars = None) /\ marked Ds bars = [] \/
    exists d s, jump (actual_top (full_bar r bars)) bars d s /\ codas_ok s bars)).
Proof. exact accepted. Qed.
Print Assumptions C45_accepted.

(** Every error names what is wrong. *)
Theorem C45_truthful : forall r bars e, tune bars -> Forall compatible bars -> render_region r bars = Ret (Err e) -> error_right bars e.
Proof. exact render_error. Qed.
Print Assumptions C45_truthful.

(** Rules of docs/repeat/structure.md that are not enforced: Fine, Coda or Segno
    without D.C. and D.S., one coda, Segno after Fine, a single variation. *)
Theorem C45_documented_refuted :
  let accepted bars := tune bars /\ Forall compatible bars /\ exists c w, render_region four_four bars = Ret (Ok (c, w)) in
  accepted [bar_at 960 [Fine]; bar_at 1920 []] /\
  accepted [bar_at 960 [Coda]; bar_at 1920 []] /\
  accepted [bar_at 960 [Segno]; bar_at 1920 []] /\
  accepted [bar_at 960 [Coda]; bar_at 1920 [Dc]] /\
  accepted [bar_at 960 [Fine]; bar_at 1920 [Segno]; bar_at 2880 [Ds]] /\
  accepted [bar_at 960 [Var1]; bar_at 1920 []].
Proof.
  cbv zeta. repeat match goal with |- _ /\ _ => split end; try tune_tac; try compat_tac;
  eexists; eexists; vm_compute; reflexivity.
Qed.
Print Assumptions C45_documented_refuted.

(** Every error occurs, and the hypotheses are met each time. *)
Example C45_case :
  let rejected bars e := tune bars /\ Forall compatible bars /\ render_region four_four bars = Ret (Err e) in
  rejected [bar_at 960 [Start]; bar_at 1920 [Start]] (DuplicatedRepeatStart 1920) /\
  rejected [bar_at 960 [Segno]; bar_at 1920 [Segno]] (DuplicatedSegno 960 1920) /\
  rejected [bar_at 960 [Dc]; bar_at 1920 [Ds]] (DuplicatedDsDc 960 1920) /\
  rejected [bar_at 960 [Fine]; bar_at 1920 [Fine]] (DuplicatedFine 960 1920) /\
  rejected [bar_at 960 [End]; bar_at 1920 [End]] (OrphanRepeatEnd 1920) /\
  rejected [bar_at 960 [Start]; bar_at 1920 []] (NoRepeatEnd 960) /\
  rejected [bar_at 960 [Var1]; bar_at 1920 [Var3]] (InvalidRegionIndex 1920 VI3 VI2) /\
  rejected [bar_at 960 [Var1]; bar_at 1920 [End]] (RepeatInVariation 1920) /\
  rejected [bar_at 960 [Var1]; bar_at 1920 [Var2]] (VariationNotClosed 1920) /\
  rejected [bar_at 960 []; bar_at 1920 [Ds]] (NoSegnoForDs 1920) /\
  rejected [bar_at 960 [Coda]; bar_at 1920 [Coda]; bar_at 2880 [Coda]] (MoreThanTwoCodas 960 1920 2880) /\
  rejected [bar_at 960 [Segno]; bar_at 1440 [Coda]; bar_at 1920 [Ds]] (OnlyOneCoda 1440) /\
  rejected [bar_at 960 [Start]; bar_at 1920 [Dc]] (DcDsWhileRepeat 1920) /\
  rejected [bar_at 960 [Segno; Var1]; bar_at 1920 [Var2]; bar_at 2880 []] (SegnoWhileVariation 2880) /\
  rejected [bar_at 960 [Coda]; bar_at 1440 [Fine]; bar_at 1920 [Coda]; bar_at 2880 [Dc]] (CodaAfterFine 960 1920 1440).
Proof.
  cbv zeta. repeat match goal with |- _ /\ _ => split end; try tune_tac; try compat_tac; vm_compute; reflexivity.
Qed.

(** * C46 *)

(** Without D.C. and D.S. rendering always returns, unless a variation other than
    the fourth follows the fourth. *)
Theorem C46_without_jump : forall r bars, tune bars -> Forall compatible bars -> no_restart bars -> marked Dc bars = [] -> marked Ds bars = [] ->
  exists x, render_region r bars = Ret x /\ forall c w, x = Ok (c, w) -> exists cs, to_chunks c = Ret cs.
Proof.
  intros r bars T F NR A B. destruct (render_returns r bars T F NR A B) as [x R]. exists x. split; [exact R|]. intros c w ->.
  destruct (C42_only r bars c w T F A B R) as [_ [_ [l [cs [_ [_ [_ [E _]]]]]]]]. eauto.
Qed.
Print Assumptions C46_without_jump.

(** With them also nothing may be marked at the very top, no jump may be in an
    implicit repeat, the first bar may not be immensely long, and the codas must be
    after the place where the jump goes to and not at Fine. *)
Theorem C46_returns : forall r bars, tune bars -> Forall compatible bars -> no_restart bars -> small_first bars ->
  codas_clear (actual_top (full_bar r bars)) bars -> top_clear bars -> implicit_clear bars ->
  exists x, render_region r bars = Ret x /\ forall c w, x = Ok (c, w) -> exists cs, to_chunks c = Ret cs.
Proof. exact rendering_returns. Qed.
Print Assumptions C46_returns.

Lemma panics_by bars :
  match render_region four_four bars with
  | Panic => true
  | Ret (Ok (c, _)) => match to_chunks c with Panic => true | _ => false end
  | _ => false
  end = true ->
  render_region four_four bars = Panic \/ exists c w, render_region four_four bars = Ret (Ok (c, w)) /\ to_chunks c = Panic.
Proof.
  destruct (render_region four_four bars) as [[[c w]|]| |]; try discriminate; auto.
  destruct (to_chunks c) eqn:E; try discriminate. intros _. right. exists c, w. auto.
Qed.

(** Each of these conditions is needed. *)
Theorem C46_panics_refuted :
  let panics bars := tune bars /\ Forall compatible bars /\
    (render_region four_four bars = Panic \/ exists c w, render_region four_four bars = Ret (Ok (c, w)) /\ to_chunks c = Panic) in
  panics [bar_at 960 [Var1]; bar_at 1920 [Var2]; bar_at 2880 [Var3]; bar_at 3840 [Var4]; bar_at 4800 [Var1]] /\
  panics [bar_at 0 [Start]; bar_at 960 [End]; bar_at 1920 [Dc]] /\
  panics [bar_at 480 [Dc]; bar_at 960 [Var1]; bar_at 1920 [Var2]; bar_at 2880 []] /\
  panics [bar_at 2200000000 []; bar_at 2200000960 [Dc]] /\
  panics [bar_at 0 [Coda]; bar_at 960 [Coda]; bar_at 1920 [Dc]] /\
  panics [bar_at 960 [Coda]; bar_at 1920 [Fine; Coda]; bar_at 2880 [Dc]] /\
  panics [bar_at 480 [Coda]; bar_at 960 [Segno]; bar_at 1920 [Coda]; bar_at 2880 [Ds]].
Proof.
  cbv zeta. repeat match goal with |- _ /\ _ => split end; try tune_tac; try compat_tac;
  apply panics_by; vm_compute; reflexivity.
Qed.
Print Assumptions C46_panics_refuted.

Example C46_case : let bars := layout_bars jump_layout in
  tune bars /\ Forall compatible bars /\ no_restart bars /\ small_first bars /\ codas_clear (actual_top (full_bar four_four bars)) bars /\
  top_clear bars /\ implicit_clear bars.
Proof.
  cbv zeta. split; [tune_tac|]. split; [compat_tac|]. split; [|split; [|split; [|split]]].
  - intros a x y c E H. exfalso.
    assert (X : In x (layout_bars jump_layout)) by (rewrite E, in_app_iff; cbn; auto). cbn in X.
    repeat (destruct X as [<-|X]; [vm_compute in H; discriminate|]). destruct X.
  - intros f H. vm_compute in H. inv H. unfold u32_max. lia.
  - intros a b d s H J. vm_compute in H. inv H. destruct J as [J1 J2 J3|J1 J2 J3|f J1 J2 J3]; vm_compute in J1, J2, J3; try discriminate.
    inv J3. split; [lia|]. vm_compute. intros [X|[]]. discriminate.
  - each ltac:(cbn; lia).
  - intros pre j mid x post E J I M. exfalso.
    assert (L : exists b, In b (pre ++ j :: mid) /\ has b Start = true).
    { assert (JE : j = bar_at 9600 [Ds]).
      { assert (X : In j (layout_bars jump_layout)) by (rewrite E, in_app_iff; cbn; auto). cbn in X.
        repeat (destruct X as [<-|X]; [try reflexivity; exfalso; apply J; marks|]). destruct X. }
      exists (bar_at 1920 [Start]). split; [|reflexivity]. subst j.
      assert (X : In (bar_at 1920 [Start]) (layout_bars jump_layout)) by (cbn; auto). rewrite E in X.
      change (pre ++ bar_at 9600 [Ds] :: mid ++ x :: post) with (pre ++ (bar_at 9600 [Ds] :: mid) ++ x :: post) in X. rewrite app_assoc, in_app_iff in X.
      destruct X as [X|X]; [exact X|exfalso].
      assert (T : tune (layout_bars jump_layout)) by tune_tac. rewrite E in T.
      assert (LT : 9600 < 1920); [|lia].
      apply (tune_lt (pre ++ [bar_at 9600 [Ds]]) (mid ++ x :: post) (bar_at 9600 [Ds]) (bar_at 1920 [Start])).
      - rewrite <- app_assoc. exact T.
      - rewrite in_app_iff. cbn. auto.
      - rewrite in_app_iff. auto. }
    destruct L as [b [B H]]. unfold idle in I. rewrite Forall_forall in I. destruct (I b B) as [[N _] _]. congruence.
Qed.

(** * C47 *)

Theorem C47_formed : forall r bars c w cs, tune bars -> Forall compatible bars ->
  render_region r bars = Ret (Ok (c, w)) -> to_chunks c = Ret cs -> Forall in_time cs /\ open_only_last cs.
Proof. exact chunks_formed. Qed.
Print Assumptions C47_formed.

(** So the table of start positions and the joining of chunks apply to them (C40,
    C41), and joining changes nothing that is heard. *)
Theorem C47_joined : forall r bars c w cs, tune bars -> Forall compatible bars ->
  render_region r bars = Ret (Ok (c, w)) -> to_chunks c = Ret cs ->
  performance (optimize cs) = performance cs /\ Forall good_chunk (optimize cs).
Proof.
  intros r bars c w cs T F R TC. destruct (C47_formed r bars c w cs T F R TC) as [I _].
  assert (G : Forall good_chunk cs) by (eapply Forall_impl; [|exact I]; unfold in_time, good_chunk; lia).
  split; [destruct cs; [reflexivity|apply optimize_from_perf; exact G]|apply optimize_good; exact G].
Qed.
Print Assumptions C47_joined.

Example C47_case : exists c w cs, tune (layout_bars jump_layout) /\ Forall compatible (layout_bars jump_layout) /\
  render_region four_four (layout_bars jump_layout) = Ret (Ok (c, w)) /\ to_chunks c = Ret cs /\ length cs = 11%nat /\
  optimize cs = [mkChunk 0 4800; mkChunk 1920 3840; mkChunk 4800 9600; mkChunk 960 3840; mkChunk 4800 6720; mkChunk 7680 8640].
Proof. do 3 eexists. split; [tune_tac|]. split; [compat_tac|]. split; [vm_compute; reflexivity|]. split; [vm_compute; reflexivity|]. split; reflexivity. Qed.

(** * C57 *)

(** The ticks the region itself reports for the last time through: without a jump,
    all but those of the variations that are not the last; *)
Theorem C57_plain : forall r l, let bars := layout_bars l in
  well_laid l -> tune bars -> counts_ok bars -> segno_ok bars (timed_layout l) -> top_clear bars ->
  marked Dc bars = [] -> marked Ds bars = [] ->
  exists c v, render_region r bars = Ret (Ok (c, [])) /\ compound_interval_set c = Ret v /\
    forall t, covers v t <-> In t (second_pass l 0 None None).
Proof. exact last_pass_plain. Qed.
Print Assumptions C57_plain.

(** with a jump, exactly those that are played after it (C43_plays). *)
Theorem C57_jump : forall r l d s, let bars := layout_bars l in
  well_laid l -> tune bars -> counts_ok bars -> segno_ok bars (timed_layout l) -> top_clear bars ->
  small_first bars -> jump (actual_top (full_bar r bars)) bars d s -> codas_ok s bars ->
  exists c v, render_region r bars = Ret (Ok (c, warnings_of bars)) /\ compound_interval_set c = Ret v /\
    forall t, covers v t <-> In t (second_pass l s (hd_error (marked Fine bars)) (pair_of (marked Coda bars))).
Proof. exact last_pass_jump. Qed.
Print Assumptions C57_jump.

(** The case of C43 meets the hypotheses. *)
Example C57_case : exists c v, render_region four_four (layout_bars jump_layout) = Ret (Ok (c, [])) /\ compound_interval_set c = Ret v /\
  (forall t, covers v t <-> In t (second_pass jump_layout 960 (Some 8640) (Some (6720, 7680)))) /\
  v = [(960, 3839); (4800, 6719); (7680, 8639)].
Proof.
  destruct (C57_jump four_four jump_layout 9600 960) as [c [v [R [E M]]]].
  - exact jump_laid.
  - tune_tac.
  - vm_compute. repeat split; lia.
  - intros s c vs e t I M. cbn in I. repeat (destruct I as [I|I]; [inversion I; subst|]); try (destruct I). vm_compute in M. destruct M as [<-|[]]. cbn. lia.
  - each ltac:(cbn; lia).
  - intros f H. vm_compute in H. inv H. unfold u32_max. lia.
  - apply jump_ds; try reflexivity. vm_compute. lia.
  - intros a b H. vm_compute in H. inv H. cbn. lia.
  - exists c, v. split; [exact R|]. split; [exact E|]. split; [exact M|]. vm_compute in R. inv R. vm_compute in E. inv E. reflexivity.
Qed.
