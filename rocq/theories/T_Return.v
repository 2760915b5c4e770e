(** Property theorems about writing signs for the last pass: C91. *)
From Coq Require Import ZArith List Bool Lia Sorted.
From Verif Require Import Base M_Duration M_Scalar M_Bar M_Note M_Models M_Project M_Repeat S_Note S_Repeat S_Silent S_Panic S_Return S_Project S_Score S_Effect S_Write P_Base P_Chunk P_Machine P_Errors P_Order P_Jump P_Marks.
From Verif Require T_Repeat T_Panic T_Silent T_Heard T_Write.
Import ListNotations T_Repeat T_Silent.
Open Scope Z_scope.

Lemma mark_dec (a b : mark) : {a = b} + {a <> b}.
Proof. decide equality. Qed.

Lemma differ_shaped m b b' : goal_sign m = true -> differ m b b' -> shaped b b'.
Proof.
  intros G (T & R & H). split; [exact T|]. split; [exact R|]. split.
  - intros k K. apply H. intros ->. destruct m; discriminate.
  - rewrite (H Dc), (H Ds) by (intros <-; discriminate). reflexivity.
Qed.
Lemma differ_marked m k bars bars' : Forall2 (differ m) bars bars' -> k <> m -> marked k bars' = marked k bars.
Proof. intros F N. apply (marked_like _ _ _ _ _ F). intros b b' (T & _ & H). auto. Qed.
Lemma differ_sym m l l' : Forall2 (differ m) l l' -> Forall2 (differ m) l' l.
Proof. induction 1 as [|b b' l l' (T & R & H) _ IH]; constructor; auto. split; [auto|]. split; [auto|]. intros k K. symmetry. auto. Qed.

Lemma accepted_small r bars c w d s : tune bars -> render_region r bars = Ret (Ok (c, w)) -> jump (actual_top (full_bar r bars)) bars d s ->
  marked Dc bars <> [] -> marked Segno bars = [] -> d <> 0 -> small_first bars.
Proof.
  intros T E J A A' D0. pose proof (accepted_counts _ _ _ _ T E) as C.
  destruct (render_shaped r bars bars c w T E) as [B _]; [|exact C|auto|].
  { clear. induction bars; constructor; auto. split; [reflexivity|]. split; [reflexivity|]. split; [intros; reflexivity|reflexivity]. }
  pose proof (build_no_overflow _ _ _ T C B) as NO. destruct NO as [NO _].
  - unfold jump_of. destruct (marked Dc bars); [congruence|discriminate].
  - apply (NO d); auto. destruct J; congruence.
Qed.

(** Two scores with the jump at the same place that differ only in Segno, Fine and Coda. *)
Lemma other_goal r bars bars' c w cs d s s' : tune bars -> Forall compatible bars -> render_region r bars = Ret (Ok (c, w)) -> to_chunks c = Ret cs ->
  Forall2 shaped bars bars' -> counts_ok bars' -> marked Segno bars' = [] \/ marked Segno bars' = marked Segno bars ->
  (marked Dc bars' <> [] -> marked Segno bars' = [] -> d <> 0 -> small_first bars') ->
  jump (actual_top (full_bar r bars)) bars d s -> jump (actual_top (full_bar r bars')) bars' d s' -> codas_ok s' bars' ->
  exists l first second c' cs', w = warnings_of bars /\ passes bars s l first second (performance cs) /\
    render_region r bars' = Ret (Ok (c', warnings_of bars')) /\ to_chunks c' = Ret cs' /\
    performance cs' = first ++ second_pass l s' (hd_error (marked Fine bars')) (pair_of (marked Coda bars')).
Proof.
  intros T F E TC FS C' MS SF J J' CO'. pose proof (accepted_counts _ _ _ _ T E) as C. pose proof (shaped_tune _ _ FS T) as T'.
  destruct (render_shaped r bars bars' c w T E FS C' MS) as [B RR].
  destruct (build_jump_any r bars' d s' T' C' SF J' CO') as (g' & B' & D' & S0 & IS' & K' & M').
  assert (CG : exists g, cp_global c = Some g /\ ds_dc_tick (gr_ds_dc g) = d /\ forall s0, jump (actual_top (full_bar r bars)) bars d s0 -> s0 = s).
  { destruct (jump_of_jump _ _ _ _ J) as (j & JE & JD). destruct (cp_global c) as [g|] eqn:CG.
    - exists g. split; [reflexivity|]. destruct (jump_built r bars g w T C B) as (s0 & J0 & _). split.
      + destruct J, J0; congruence.
      + intros s1 J1. destruct J, J1; congruence.
    - exfalso. pose proof (build_cases r bars T C (build_no_overflow _ _ _ T C B)) as X. rewrite JE in X.
      destruct X as [[e X]|[[X1 [X2 X3]]|[s0 [J0 X]]]]; [congruence| |].
      + destruct J; congruence.
      + rewrite X in B. destruct (to_interval_set _ _ _); discriminate. }
  destruct CG as (g & CG & GD & GS).
  destruct (last_pass r bars c w cs g T F E TC CG) as (l & first & s0 & W & LB & J0 & CO & P & H). rewrite GD in J0. apply GS in J0 as ->.
  destruct (H g' s' (hd_error (marked Fine bars')) (pair_of (marked Coda bars')) ltac:(congruence) S0 K') as (cs' & TC' & P'); auto.
  { intros f Q. apply fine_range in Q; auto. lia. }
  exists l, first, (second_pass l s (hd_error (marked Fine bars)) (pair_of (marked Coda bars))), (mkCompound (Some g') (cp_regions c)), cs'.
  split; [rewrite CG in B; destruct (jump_built r bars g w T C B) as (_ & _ & ? & _); assumption|].
  split; [split; [exact W|]; split; [exact LB|]; split; [exact P|reflexivity]|]. split; [apply RR; exact B'|]. split; [exact TC'|exact P'].
Qed.

Lemma filter_twice {A} (p q : A -> bool) l : filter p (filter q l) = filter (fun x => p x && q x) l.
Proof. induction l as [|x l IH]; [reflexivity|]. cbn [filter]. destruct (q x); cbn [filter]; rewrite IH; destruct (p x); reflexivity. Qed.
Lemma all_shaped m bars bars' : goal_sign m = true -> Forall2 (differ m) bars bars' -> Forall2 shaped bars bars'.
Proof. intros G F. apply (shape_all _ _ _ (fun b b' => differ_shaped m b b' G) F). Qed.

(** Writing Fine on a bar: the last pass ends there, and nothing else changes. *)
Theorem C91_fine : forall r bars bars' c w cs d s f, tune bars -> Forall compatible bars -> render_region r bars = Ret (Ok (c, w)) -> to_chunks c = Ret cs ->
  jump (actual_top (full_bar r bars)) bars d s -> Forall2 (differ Fine) bars bars' -> marked Fine bars = [] -> marked Fine bars' = [f] ->
  (forall a b, marked Coda bars = [a; b] -> b < f) ->
  exists l first second c' cs', passes bars s l first second (performance cs) /\
    render_region r bars' = Ret (Ok (c', w)) /\ to_chunks c' = Ret cs' /\ performance cs' = first ++ filter (fun t => t <? f) second.
Proof.
  intros r bars bars' c w cs d s f T F E TC J D MF MF' CF. pose proof (all_shaped Fine _ _ eq_refl D) as FS.
  pose proof (accepted_counts _ _ _ _ T E) as C. assert (MK : forall k, k <> Fine -> marked k bars' = marked k bars) by (intros k; apply differ_marked; auto).
  destruct (T_Panic.C43_exact r bars c w cs T F E TC) as (l0 & _ & _ & X).
  assert (CO : codas_ok s bars). { destruct X as [([X|X] & Y & _)|(d' & s' & J' & CO & _)]; [destruct J; congruence..|]. replace s with s'; [exact CO|]. destruct J, J'; congruence. }
  destruct (other_goal r bars bars' c w cs d s s T F E TC FS) as (l & first & second & c' & cs' & -> & P & R' & TC' & P').
  - unfold counts_ok in *. rewrite MF', !MK by discriminate. cbn [length]. lia.
  - right. apply MK. discriminate.
  - rewrite !MK by discriminate. intros A B D0 x. rewrite (shaped_first _ _ FS). apply (accepted_small r bars c w d s T E J A B D0).
  - exact J.
  - rewrite (shaped_full _ _ _ FS). destruct J as [J1 J2 J3 J4|J1 J2 J3 J4|g J1 J2 J3 J4 J5].
    + apply jump_ds; rewrite ?MK by discriminate; auto.
    + apply jump_dc_segno; rewrite ?(shaped_first _ _ FS), ?MK by discriminate; auto.
    + apply (jump_dc _ _ _ _ g); rewrite ?(shaped_first _ _ FS), ?MK by discriminate; auto.
  - intros a b. rewrite MK by discriminate. intros Q. rewrite MF'. split; [apply (CO a b Q)|exact (CF a b Q)].
  - exists l, first, second, c', cs'. split; [exact P|]. split; [|split; [exact TC'|]].
    + rewrite R'. unfold warnings_of. rewrite !MK by discriminate. reflexivity.
    + rewrite P'. f_equal. destruct P as (_ & _ & _ & ->). rewrite MF', MF, MK by discriminate. cbn [hd_error]. unfold second_pass. rewrite filter_twice.
      apply filter_ext. intros t. rewrite !andb_true_r. destruct (s <=? t), (t <? f); cbn; rewrite ?andb_true_r, ?andb_false_r; reflexivity.
Qed.
Print Assumptions C91_fine.

(** Writing two Codas: the last pass leaves out what is between them, and nothing else changes. *)
Theorem C91_codas : forall r bars bars' c w cs d s a b, tune bars -> Forall compatible bars -> render_region r bars = Ret (Ok (c, w)) -> to_chunks c = Ret cs ->
  jump (actual_top (full_bar r bars)) bars d s -> Forall2 (differ Coda) bars bars' -> marked Coda bars = [] -> marked Coda bars' = [a; b] ->
  s < a -> (forall f, marked Fine bars = [f] -> b < f) ->
  exists l first second c' cs', passes bars s l first second (performance cs) /\
    render_region r bars' = Ret (Ok (c', w)) /\ to_chunks c' = Ret cs' /\ performance cs' = first ++ filter (fun t => negb ((a <=? t) && (t <? b))) second.
Proof.
  intros r bars bars' c w cs d s a b T F E TC J D MC MC' SA CF. pose proof (all_shaped Coda _ _ eq_refl D) as FS. pose proof (shaped_tune _ _ FS T) as T'.
  pose proof (accepted_counts _ _ _ _ T E) as C. assert (MK : forall k, k <> Coda -> marked k bars' = marked k bars) by (intros k; apply differ_marked; auto).
  destruct (other_goal r bars bars' c w cs d s s T F E TC FS) as (l & first & second & c' & cs' & -> & P & R' & TC' & P').
  - unfold counts_ok in *. rewrite MC', !MK by discriminate. cbn [length]. lia.
  - right. apply MK. discriminate.
  - rewrite !MK by discriminate. intros A B D0 x. rewrite (shaped_first _ _ FS). apply (accepted_small r bars c w d s T E J A B D0).
  - exact J.
  - rewrite (shaped_full _ _ _ FS). destruct J as [J1 J2 J3 J4|J1 J2 J3 J4|g J1 J2 J3 J4 J5].
    + apply jump_ds; rewrite ?MK by discriminate; auto. rewrite MC'. discriminate.
    + apply jump_dc_segno; rewrite ?(shaped_first _ _ FS), ?MK by discriminate; auto.
    + apply (jump_dc _ _ _ _ g); rewrite ?(shaped_first _ _ FS), ?MK by discriminate; auto.
  - intros a' b' Q. rewrite MC' in Q. inv Q. split; [exact SA|]. rewrite MK by discriminate. destruct C as (_ & CF' & _).
    destruct (marked Fine bars) as [|f [|]] eqn:MF; [|apply CF; reflexivity|cbn in CF'; lia].
    apply (marked_range Coda bars' b' T'). rewrite MC'. cbn. auto.
  - exists l, first, second, c', cs'. split; [exact P|]. split; [|split; [exact TC'|]].
    + rewrite R'. unfold warnings_of. rewrite MC', !MK, MC by discriminate. reflexivity.
    + rewrite P'. f_equal. destruct P as (_ & _ & _ & ->). rewrite MC', MC, MK by discriminate. cbn [hd_error pair_of S_Repeat.between]. unfold second_pass. rewrite filter_twice.
      apply filter_ext. intros t. cbn [S_Repeat.between]. destruct (negb ((a <=? t) && (t <? b))); cbn [negb]; rewrite ?andb_true_r, ?andb_false_r; reflexivity.
Qed.
Print Assumptions C91_codas.

(** ** Other bars in the same sections *)
Section Other.
Variable K : Z -> Prop.
Definition relike (b b' : bar) : Prop :=
  b_tick b' = b_tick b /\ (forall m, shape_sign m = true -> has b' m = has b m) /\ (K (b_tick b) -> no_jump b -> no_jump b').
Inductive like_sec : section -> section -> Prop :=
| like_plain l l' : Forall2 relike l l' -> like_sec (Plain l) (Plain l')
| like_repeated l l' : Forall2 relike l l' -> like_sec (Repeated l) (Repeated l')
| like_varied c c' vs vs' : Forall2 relike c c' -> Forall2 (Forall2 relike) vs vs' -> like_sec (Varied c vs) (Varied c' vs').

Lemma var_shape m : is_var m = true -> shape_sign m = true.
Proof. destruct m; auto. Qed.
Lemma concat_find {A} (R : A -> A -> Prop) vs : forall bs, Forall2 R (concat vs) bs -> exists vs', Forall2 (Forall2 R) vs vs' /\ concat vs' = bs.
Proof.
  induction vs as [|v vs IH]; intros bs F; cbn [concat] in F; [inversion F; subst; exists []; auto|].
  apply Forall2_app_inv_l in F as (b1 & b2 & F1 & F2 & ->). destruct (IH b2 F2) as (vs' & G & <-). exists (b1 :: vs'). auto.
Qed.
Lemma like_find s bs : Forall2 relike (section_bars s) bs -> exists s', like_sec s s' /\ section_bars s' = bs.
Proof.
  destruct s as [l|l|c vs]; cbn [section_bars]; intros F.
  - exists (Plain bs). split; [constructor; exact F|reflexivity].
  - exists (Repeated bs). split; [constructor; exact F|reflexivity].
  - apply Forall2_app_inv_l in F as (c' & b2 & F1 & F2 & ->). apply concat_find in F2 as (vs' & G & <-). exists (Varied c' vs'). split; [constructor; auto|reflexivity].
Qed.
Lemma like_all (P : bar -> Prop) l l' : Forall2 relike l l' -> (forall b b', relike b b' -> P b -> P b') -> Forall P l -> Forall P l'.
Proof. intros F H. induction F; intros G; inversion G; subst; constructor; eauto. Qed.
Lemma like_no_repeat b b' : relike b b' -> no_repeat b -> no_repeat b'.
Proof. intros (_ & H & _) [A B]. split; rewrite H; auto. Qed.
Lemma like_no_var b b' : relike b b' -> no_var b -> no_var b'.
Proof. intros (_ & H & _) A m M. rewrite H by (apply var_shape; exact M). auto. Qed.
Lemma like_no_jump l l' : Forall2 relike l l' -> Forall (fun b => K (b_tick b)) l -> Forall no_jump l -> Forall no_jump l'.
Proof. induction 1 as [|b b' l l' (_ & _ & H) _ IH]; intros A B; inversion A; inversion B; subst; constructor; auto. Qed.
Lemma like_carries k b b' : relike b b' -> carries k b -> carries k b'.
Proof. intros (_ & H & _) A m M. rewrite H by (apply var_shape; exact M). auto. Qed.
Lemma like_numbered vs vs' : Forall2 (Forall2 relike) vs vs' -> Forall (fun b => K (b_tick b)) (concat vs) -> forall k, numbered k vs -> numbered k vs'.
Proof.
  induction 1 as [|v v' vs vs' V _ IH]; intros KV k N; [exact N|]. cbn [numbered concat] in *. apply Forall_app in KV as [KV1 KV2]. destruct N as (A & B & C & D & N).
  split; [intros ->; inversion V; subst; auto|]. split; [apply (like_all _ _ _ V (like_carries k) B)|]. split; [apply (like_all _ _ _ V like_no_repeat C)|].
  split; [apply (like_no_jump _ _ V KV1 D)|auto].
Qed.
Lemma like_inside first s s' : like_sec s s' -> (is_plain s = false -> Forall (fun b => K (b_tick b)) (section_bars s)) -> inside first s -> inside first s'.
Proof.
  intros [l l' F|l l' F|c c' vs vs' F G] KS; cbn [inside]; cbn [section_bars is_plain] in KS.
  - intros (A & B). split; [apply (like_all _ _ _ F like_no_repeat A)|]. intros Q. apply (like_all _ _ _ F like_no_var (B Q)).
  - intros (A & B & C). split; [apply (like_all _ _ _ F like_no_repeat A)|]. split; [apply (like_all _ _ _ F like_no_var B)|]. intros Q. apply (like_no_jump _ _ F (KS eq_refl) (C Q)).
  - intros (A & B & C & N & NE & L). specialize (KS eq_refl). apply Forall_app in KS as [KC KV]. split; [apply (like_all _ _ _ F like_no_repeat A)|]. split; [apply (like_all _ _ _ F like_no_var B)|].
    split; [intros Q; apply (like_no_jump _ _ F KC (C Q))|]. split; [apply (like_numbered _ _ G KV _ N)|].
    split; [intros ->; inversion G; subst; auto|]. replace (length vs') with (length vs); [exact L|]. clear - G. induction G; cbn; congruence.
Qed.
Lemma like_starts vs vs' : Forall2 (Forall2 relike) vs vs' -> starts_of vs' = starts_of vs.
Proof.
  unfold starts_of. induction 1 as [|v v' vs vs' V _ IH]; [reflexivity|]. cbn [flat_map]. rewrite IH. f_equal. destruct V as [|b b' l l' (T & _) _]; [reflexivity|]. rewrite T. reflexivity.
Qed.
Definition like_part (p p' : bar * section) : Prop := relike (fst p) (fst p') /\ like_sec (snd p) (snd p').
Lemma like_rest r : forall bs, Forall2 relike (rest_bars r) bs -> exists r', Forall2 like_part r r' /\ rest_bars r' = bs.
Proof.
  induction r as [|[b s] r IH]; intros bs F; cbn [rest_bars flat_map] in F; [inversion F; subst; exists []; split; [constructor|reflexivity]|].
  apply Forall2_app_inv_l in F as (b1 & b2 & F1 & F2 & ->). destruct (IH b2 F2) as (r' & G & <-). cbn [fst snd] in F1. inversion F1 as [|? b' ? l' B S]; subst.
  destruct (like_find s l' S) as (s' & LS & <-). exists ((b', s') :: r'). split; [constructor; [split; auto|exact G]|reflexivity].
Qed.
Lemma like_kind a a' : like_sec a a' -> is_plain a' = is_plain a /\ is_repeated a' = is_repeated a.
Proof. intros []; auto. Qed.
Lemma like_follows r r' : Forall2 like_part r r' -> Forall (fun p => is_plain (snd p) = false -> Forall (fun b => K (b_tick b)) (section_bars (snd p))) r ->
  forall a a', like_sec a a' -> follows a r -> follows a' r'.
Proof.
  induction 1 as [|[b c] [b' c'] r r' [B C] _ IH]; intros KR a a' A; cbn [follows].
  - rewrite (proj1 (like_kind _ _ A)). auto.
  - inversion KR as [|? ? K1 K2]; subst. cbn [fst snd] in B, C, K1. intros ((E & S & V & P) & I & F). split; [|split; [apply (like_inside _ _ _ C K1 I)|apply (IH K2 _ _ C F)]].
    destruct (like_kind _ _ A) as [KA KA'], (like_kind _ _ C) as [KC _]. pose proof (like_no_var _ _ B V) as V'. destruct B as (_ & H & _).
    unfold boundary. rewrite !H, KA, KA', KC by reflexivity. auto.
Qed.
Definition like_timed (x y : Z * section * Z) : Prop := fst (fst x) = fst (fst y) /\ snd x = snd y /\ like_sec (snd (fst x)) (snd (fst y)).
Lemma like_times r r' : Forall2 like_part r r' -> forall st a a', like_sec a a' -> Forall2 like_timed (timed st a r) (timed st a' r').
Proof.
  induction 1 as [|[b c] [b' c'] r r' [B C] _ IH]; intros st a a' A; cbn [timed]; [constructor; [repeat split; auto|constructor]|].
  cbn [fst snd] in B, C. destruct B as (T & _). rewrite T. constructor; [repeat split; auto|]. apply IH. exact C.
Qed.
Lemma like_play l l' : Forall2 like_timed l l' -> flat_map play_section l' = flat_map play_section l.
Proof.
  induction 1 as [|[[s a] e] [[s' a'] e'] l l' (S & E & A) _ IH]; [reflexivity|]. cbn [fst snd] in S, E, A. subst s' e'. cbn [flat_map]. rewrite IH. f_equal.
  destruct A as [| |c c' vs vs' _ G]; cbn [play_section]; rewrite ?(like_starts _ _ G); reflexivity.
Qed.
Lemma like_left l l' t : Forall2 like_timed l l' -> left_out l' t = left_out l t.
Proof.
  unfold left_out. induction 1 as [|[[s a] e] [[s' a'] e'] l l' (S & E & A) _ IH]; [reflexivity|]. cbn [fst snd] in S, E, A. subst s' e'. cbn [existsb]. rewrite IH. f_equal.
  destruct A as [| |c c' vs vs' _ G]; rewrite ?(like_starts _ _ G); reflexivity.
Qed.
Lemma timed_kinds (P : section -> Prop) r : forall st a, Forall (fun x => P (snd (fst x))) (timed st a r) -> P a /\ Forall (fun p => P (snd p)) r.
Proof.
  induction r as [|[b c] r IH]; intros st a H; cbn [timed] in H; inversion H as [|? ? H1 H2]; subst; [split; [exact H1|constructor]|].
  destruct (IH _ _ H2) as [A B]. split; [exact H1|]. constructor; assumption.
Qed.
Lemma relaid l bars : well_laid l -> Forall2 relike (layout_bars l) bars ->
  Forall (fun x => is_plain (snd (fst x)) = false -> Forall (fun b => K (b_tick b)) (section_bars (snd (fst x)))) (timed_layout l) ->
  exists l', well_laid l' /\ layout_bars l' = bars /\ like_sec (fst l) (fst l') /\ Forall2 like_timed (timed_layout l) (timed_layout l').
Proof.
  intros [I Fo] F KT. destruct (timed_kinds (fun a => is_plain a = false -> Forall (fun b => K (b_tick b)) (section_bars a)) _ _ _ KT) as [KF KR]. unfold layout_bars in F. apply Forall2_app_inv_l in F as (b1 & b2 & F1 & F2 & ->).
  destruct (like_find _ _ F1) as (s' & LS & <-), (like_rest _ _ F2) as (r' & LR & <-). exists (s', r').
  split; [split; [apply (like_inside _ _ _ LS KF I)|apply (like_follows _ _ LR KR _ _ LS Fo)]|]. split; [reflexivity|]. split; [exact LS|]. apply (like_times _ _ LR _ _ _ LS).
Qed.
Lemma relaid_pass l l' s fine codas : Forall2 like_timed (timed_layout l) (timed_layout l') -> second_pass l' s fine codas = second_pass l s fine codas.
Proof. intros H. unfold second_pass. apply filter_ext. intros t. rewrite (like_left _ _ t H). reflexivity. Qed.
End Other.
Definition any_tick (t : Z) : Prop := True.
Lemma any_section (l : list (Z * section * Z)) : Forall (fun x => is_plain (snd (fst x)) = false -> Forall (fun b => any_tick (b_tick b)) (section_bars (snd (fst x)))) l.
Proof. apply Forall_forall. intros x _ _. apply Forall_forall. intros b _. exact Logic.I. Qed.

Lemma differ_compatible m bars bars' : goal_sign m = true -> Forall2 (differ m) bars bars' -> Forall compatible bars -> Forall compatible bars'.
Proof.
  intros G F. induction F as [|b b' l l' (T & R & H) _ IH]; intros C; inversion C as [|? ? C1 C2]; subst; constructor; auto.
  intros x y V X Y. assert (x <> m) by (intros ->; destruct m; discriminate). rewrite H in X by auto. destruct (mark_dec y m) as [->|N].
  - destruct x, m; try discriminate; reflexivity.
  - rewrite H in Y by auto. apply (C1 x y); auto.
Qed.
Lemma differ_clear m bars bars' : goal_sign m = true -> Forall2 (differ m) bars bars' -> top_clear bars -> top_clear bars'.
Proof.
  intros G F. unfold top_clear. induction F as [|b b' l l' (T & R & H) _ IH]; intros C; inversion C as [|? ? C1 C2]; subst; constructor; auto.
  rewrite T. intros Z0. destruct (C1 Z0) as ((A & B) & V). split; [split; rewrite H; auto; intros <-; discriminate|].
  intros k K. rewrite H; [auto|]. intros ->. destruct m; discriminate.
Qed.
Lemma differ_idle m l l' : goal_sign m = true -> Forall2 (differ m) l l' -> idle l -> idle l'.
Proof.
  intros G F. unfold idle. induction F as [|b b' l l' (T & R & H) _ IH]; intros C; inversion C as [|? ? C1 C2]; subst; constructor; auto.
  destruct C1 as ((A & B) & V). split; [split; rewrite H; auto; intros <-; discriminate|].
  intros k K. rewrite H; [auto|]. intros ->. destruct m; discriminate.
Qed.
Lemma differ_varied m bars bars' : goal_sign m = true -> Forall2 (differ m) bars bars' -> varied_clear bars -> varied_clear bars'.
Proof.
  intros G F V pre j mid x post -> NJ J0 I. apply Forall2_app_inv_r in F as (p0 & r0 & F1 & F & ->). inversion F as [|j0 ? r1 ? DJ F']; subst.
  apply Forall2_app_inv_r in F' as (m0 & r2 & F2 & F' & ->). inversion F' as [|x0 ? q0 ? DX F3]; subst.
  destruct DX as (TX & _ & HX). rewrite HX by (intros <-; discriminate). apply (V p0 j0 m0 x0 q0 eq_refl).
  - intros [A B]. apply NJ. destruct DJ as (_ & _ & H). split; rewrite H; auto; intros <-; discriminate.
  - destruct DJ as (<- & _). exact J0.
  - apply (differ_idle m (pre ++ j :: mid)); [exact G| |exact I]. apply differ_sym. apply Forall2_app; [exact F1|]. constructor; auto.
Qed.

(** Writing a Segno into a tune with D.C.: the last pass begins there instead of at the top, and nothing else changes. *)
Theorem C91_segno : forall r bars bars' c w cs c' w' d s z, tune bars -> Forall compatible bars -> render_region r bars = Ret (Ok (c, w)) -> to_chunks c = Ret cs ->
  jump (actual_top (full_bar r bars)) bars d s -> Forall2 (differ Segno) bars bars' -> marked Segno bars = [] -> marked Segno bars' = [z] ->
  render_region r bars' = Ret (Ok (c', w')) ->
  exists l l' first second second' cs', passes bars s l first second (performance cs) /\
    to_chunks c' = Ret cs' /\ passes bars' z l' first second' (performance cs') /\
    (s <= z -> second' = filter (fun t => z <=? t) second) /\ (z <= s -> second = filter (fun t => s <=? t) second').
Proof.
  intros r bars bars' c w cs c' w' d s z T F E TC J D MS MS' E'. pose proof (all_shaped Segno _ _ eq_refl D) as FS. pose proof (shaped_tune _ _ FS T) as T'.
  pose proof (differ_compatible Segno _ _ eq_refl D F) as F'. assert (MK : forall k, k <> Segno -> marked k bars' = marked k bars) by (intros k; apply differ_marked; auto).
  pose proof (accepted_counts _ _ _ _ T E) as C.
  assert (JD : marked Dc bars = [d] /\ marked Ds bars = [] /\ first_bar_len bars <> None) by (destruct J; repeat split; congruence). destruct JD as (JD & JS & FB).
  assert (J' : jump (actual_top (full_bar r bars')) bars' d z).
  { apply jump_dc_segno; [rewrite MK by discriminate; exact JD|rewrite MK by discriminate; exact JS|exact MS'|rewrite (shaped_first _ _ FS); exact FB]. }
  assert (X : exists cs', to_chunks c' = Ret cs').
  { apply (T_Panic.C46_chunks_exact r bars' c' w' T' F' E'). intros d0 s0 _.
    destruct (proj1 (proj1 (T_Panic.C46_chunks_exact r bars c w T F E)) (ex_intro _ cs TC) d s J) as [A B].
    split; [apply (differ_clear Segno bars)|apply (differ_varied Segno bars)]; auto. }
  destruct X as (cs' & TC').
  destruct (T_Panic.C43_exact r bars c w cs T F E TC) as (l0 & _ & _ & X).
  assert (CO : codas_ok s bars). { destruct X as [([X|X] & Y & _)|(d' & s' & J0 & CO & _)]; [congruence..|]. replace s with s'; [exact CO|]. destruct J, J0; congruence. }
  destruct (other_goal r bars' bars c' w' cs' d z s T' F' E' TC') as (l & first & second' & c0 & cs0 & -> & P' & R & TC0 & P); auto.
  - apply (all_shaped Segno); [reflexivity|]. apply differ_sym. exact D.
  - intros A B D0. apply (accepted_small r bars c w d s T E J A B D0).
  - rewrite E in R. inv R. rewrite TC in TC0. inv TC0.
    destruct P' as (W & LB & P' & Q). destruct (relaid any_tick l bars W) as (l1 & W1 & LB1 & _ & LT); [|apply any_section|].
    { rewrite LB. clear - D. induction D as [|b b' l l' (X & Y & H) _ IH]; constructor; auto. split; [auto|]. split.
      - intros m M. symmetry. apply H. intros ->. discriminate.
      - intros _ [A B]. split; rewrite <- H; auto; discriminate. }
    exists l1, l, first, (second_pass l1 s (hd_error (marked Fine bars)) (pair_of (marked Coda bars))), second', cs'.
    split; [split; [exact W1|]; split; [exact LB1|]; split; [rewrite P, (relaid_pass _ _ _ _ _ _ LT); reflexivity|reflexivity]|].
    split; [exact TC'|]. split; [split; [exact W|]; split; [exact LB|]; split; [exact P'|exact Q]|].
    rewrite Q, !MK, (relaid_pass _ _ _ _ _ _ LT) by discriminate. unfold second_pass. rewrite !filter_twice.
    split; intros L; apply filter_ext; intros t; (destruct (Z.leb_spec z t), (Z.leb_spec s t); try lia; reflexivity).
Qed.
Print Assumptions C91_segno.

(** However the bars are read as sections, what is played is the same. *)
Lemma one_order l l' : well_laid l -> well_laid l' -> layout_bars l = layout_bars l' -> tune (layout_bars l) ->
  marked Dc (layout_bars l) = [] -> marked Ds (layout_bars l) = [] -> play l = play l'.
Proof.
  intros W W' E T A B. set (bars := layout_bars l) in *. set (bs := map bare bars).
  assert (HB : forall k b, has (bare b) k = has b k && negb (goal_sign k)).
  { intros k b. unfold has, bare. cbn [b_marks]. rewrite !remove_contains. destruct k; cbn; rewrite ?andb_true_r, ?andb_false_r; reflexivity. }
  assert (F : Forall2 (relike any_tick) bars bs).
  { subst bs. clearbody bars. clear - HB. induction bars as [|b bars IH]; constructor; auto. split; [reflexivity|]. split.
    - intros m M. rewrite HB. destruct m; try discriminate; apply andb_true_r.
    - intros _ [X Y]. split; rewrite HB, ?X, ?Y; reflexivity. }
  destruct (relaid any_tick l bs W F (any_section _)) as (m & Wm & Lm & _ & Tm). destruct (relaid any_tick l' bs W') as (m' & Wm' & Lm' & _ & Tm'); [rewrite <- E; exact F|apply any_section|].
  assert (MB : forall k, marked k bs = if goal_sign k then [] else marked k bars).
  { intros k. subst bs. clearbody bars. clear - HB. unfold marked. induction bars as [|b bars IH]; cbn [map filter]; [destruct (goal_sign k); reflexivity|].
    rewrite HB. destruct (goal_sign k); cbn [negb]; rewrite ?andb_true_r, ?andb_false_r; [exact IH|]. destruct (has b k); cbn [map]; [f_equal|]; exact IH. }
  assert (Tb : tune bs). { destruct T as [T1 T2]. split; [subst bs; rewrite map_map; exact T1|]. subst bs. apply Forall_map. exact T2. }
  unfold play. rewrite <- (like_play _ _ _ Tm), <- (like_play _ _ _ Tm'). apply (T_Repeat.C42_one_order m m' Wm Wm'); rewrite ?Lm, ?Lm'; auto.
  - unfold counts_ok. rewrite !MB. cbn [goal_sign]. rewrite A, B. cbn. lia.
  - intros s c vs e t _ I. rewrite MB in I. destruct I.
  - intros s c vs e t _ I. rewrite MB in I. destruct I.
  - rewrite MB. exact A.
  - rewrite MB. exact B.
Qed.

(** Writing D.C. or D.S. on a bar: all is played as before up to this bar, and then the last pass. *)
Theorem C91_jump : forall r m bars bars' c w cs c' w' cs' d, tune bars -> Forall compatible bars -> render_region r bars = Ret (Ok (c, w)) -> to_chunks c = Ret cs ->
  marked Dc bars = [] -> marked Ds bars = [] -> first_bar_len bars <> None ->
  m = Dc \/ m = Ds -> Forall2 (differ m) bars bars' -> marked m bars' = [d] -> Forall compatible bars' -> implicit_clear bars' ->
  render_region r bars' = Ret (Ok (c', w')) -> to_chunks c' = Ret cs' ->
  exists s l second, jump (actual_top (full_bar r bars')) bars' d s /\ passes bars' s l (until d (performance cs)) second (performance cs').
Proof.
  intros r m bars bars' c w cs c' w' cs' d T F E TC MD MS FB M D MM F' IC E' TC'.
  assert (MK : forall k, k <> m -> marked k bars' = marked k bars) by (intros k; apply differ_marked; auto).
  assert (TK : map b_tick bars' = map b_tick bars) by (clear - D; induction D as [|b b' l l' (X & _) _ IH]; cbn [map]; [reflexivity|rewrite X, IH; reflexivity]).
  assert (T' : tune bars').
  { destruct T as [T1 T2]. split; [rewrite TK; exact T1|]. apply Forall_forall. intros b I. apply (in_map b_tick) in I. rewrite TK in I. apply in_map_iff in I as (b0 & <- & I). revert b0 I. apply Forall_forall. exact T2. }
  assert (FB' : first_bar_len bars' <> None) by (unfold first_bar_len; rewrite TK; exact FB).
  destruct (T_Panic.C43_exact r bars c w cs T F E TC) as (l0 & W0 & L0 & X). destruct X as [(_ & _ & _ & P)|(d0 & s0 & J0 & _)]; [|destruct J0; congruence].
  destruct (T_Panic.C43_exact r bars' c' w' cs' T' F' E' TC') as (l & W & L & X). destruct X as [([X|X] & Y & _)|(d0 & s & J & CO & _ & X)].
  - exfalso. destruct M as [-> | ->]; congruence.
  - congruence.
  - assert (d0 = d). { destruct M as [-> | ->]; destruct J; try congruence; rewrite MK in * by discriminate; congruence. } subst d0.
    assert (PL : performance cs = play l).
    { destruct (relaid any_tick l bars W) as (l1 & W1 & L1 & _ & LT); [|apply any_section|].
      - rewrite L. assert (NJ : Forall no_jump bars).
        { apply Forall_forall. intros b I. split; apply not_true_is_false; intros H; [assert (Q : In (b_tick b) (marked Dc bars))|assert (Q : In (b_tick b) (marked Ds bars))];
          try (unfold marked; apply in_map, filter_In; auto); rewrite ?MD, ?MS in Q; destruct Q. }
        clear - D NJ M. revert NJ. induction D as [|b b' l l' (X & Y & H) _ IH]; intros NJ; inversion NJ; subst; constructor; auto. split; [auto|]. split; [|auto].
        intros k K. symmetry. apply H. intros ->. destruct M as [-> | ->]; discriminate.
      - rewrite P. unfold play. rewrite <- (like_play _ _ _ LT). apply one_order; auto; rewrite ?L0, ?L1; auto. }
    pose proof (clear_outside l W ltac:(rewrite L; exact IC)) as JO. destruct X as [(_ & X)|(R & N & _)].
    + exists s, l, (second_pass l s (hd_error (marked Fine bars')) (pair_of (marked Coda bars'))). split; [exact J|]. split; [exact W|]. split; [exact L|].
      split; [rewrite PL; exact X|reflexivity].
    + exfalso. apply N, JO. destruct (fst l); auto; discriminate.
Qed.
Print Assumptions C91_jump.

(** Wherever the bar is not inside a repeat, D.C. or D.S. is accepted there, if it has a place to go back to and the Codas fit. *)
Theorem C91_written : forall r m l bars' d s, let bars := layout_bars l in
  well_laid l -> tune bars -> counts_ok bars -> segno_ok bars (timed_layout l) -> marked Dc bars = [] -> marked Ds bars = [] ->
  m = Dc \/ m = Ds -> Forall2 (differ m) bars bars' -> marked m bars' = [d] -> not_repeated l d -> top_clear bars -> small_first bars ->
  jump (actual_top (full_bar r bars')) bars' d s -> codas_ok s bars' ->
  exists c cs c' cs', render_region r bars = Ret (Ok (c, [])) /\ to_chunks c = Ret cs /\
    render_region r bars' = Ret (Ok (c', warnings_of bars')) /\ to_chunks c' = Ret cs' /\
    performance cs' = until d (performance cs) ++ second_pass l s (hd_error (marked Fine bars)) (pair_of (marked Coda bars)).
Proof.
  intros r m l bars' d s bars W T C SO MD MS M D MM NR TO SF J CO.
  destruct (T_Repeat.C42_plays r l W T C SO MD MS) as (c & cs & E & TC & P). fold bars in E.
  assert (MK : forall k, k <> m -> marked k bars' = marked k bars) by (intros k; apply differ_marked; auto).
  assert (MG : forall k, k <> Dc -> k <> Ds -> marked k bars' = marked k bars) by (intros k X Y; apply MK; destruct M; congruence).
  assert (TK : map b_tick bars' = map b_tick bars) by (clear - D; induction D as [|b b' x x' (X & _) _ IH]; cbn [map]; [reflexivity|rewrite X, IH; reflexivity]).
  assert (T' : tune bars').
  { destruct T as [T1 T2]. split; [rewrite TK; exact T1|]. apply Forall_forall. intros b I. apply (in_map b_tick) in I. rewrite TK in I. apply in_map_iff in I as (b0 & <- & I). revert b0 I. apply Forall_forall. exact T2. }
  assert (F : Forall2 (relike (fun t => t <> d)) bars bars').
  { assert (G : Forall (fun b => b_tick b <> d -> has b m = false) bars').
    { apply Forall_forall. intros b I N. apply not_true_is_false. intros H. assert (Q : In (b_tick b) (marked m bars')) by (unfold marked; apply in_map, filter_In; auto).
      rewrite MM in Q. destruct Q as [Q|[]]. auto. }
    clear - D G M. revert G. induction D as [|b b' x x' (X & Y & H) _ IH]; intros G; inversion G as [|? ? G1 G2]; subst; constructor; auto. split; [exact X|]. split.
    - intros k K. apply H. intros ->. destruct M as [-> | ->]; discriminate.
    - intros N [A B]. rewrite <- X in N. specialize (G1 N). destruct M as [-> | ->]; (split; [try exact G1|try exact G1]); rewrite H; auto; discriminate. }
  destruct (relaid _ l bars' W F) as (l' & W' & L' & LS & LT).
  { apply Forall_forall. intros [[st sec] e] I NP. cbn [fst snd] in NP |- *. apply Forall_forall. intros b IB. exact (NR st sec e b I NP IB). }
  destruct (T_Repeat.C43_plays r l' d s W') as (c' & cs' & E' & TC' & P'); rewrite ?L'; auto.
  - unfold counts_ok in *. rewrite !MG by discriminate. destruct M as [-> | ->]; rewrite MM, MK, ?MD, ?MS by discriminate; cbn [length]; lia.
  - intros st cc vs e t I IS. rewrite MG in IS by discriminate.
    assert (X : exists c0 vs0, In (st, Varied c0 vs0, e) (timed_layout l) /\ starts_of vs0 = starts_of vs).
    { clear - LT I. induction LT as [|[[s1 a] e1] [[s2 a'] e2] x x' (S & E & A) _ IH]; [destruct I|]. cbn [fst snd] in S, E, A. subst s2 e2. destruct I as [I|I].
      - injection I as -> -> ->. inversion A as [| |c0 c1 vs0 vs1 _ G]; subst. exists c0, vs0. split; [left; reflexivity|symmetry; apply (like_starts _ _ _ G)].
      - destruct (IH I) as (c0 & vs0 & I0 & Q). exists c0, vs0. split; [right; exact I0|exact Q]. }
    destruct X as (c0 & vs0 & I0 & <-). apply (SO st c0 vs0 e t I0 IS).
  - clear - TO D M. unfold top_clear in *. revert TO. induction D as [|b b' x x' (X & Y & H) _ IH]; intros TO; inversion TO as [|? ? G1 G2]; subst; constructor; auto.
    rewrite X. intros Z0. destruct (G1 Z0) as ((A & B) & V). split; [split; rewrite H; auto; destruct M; congruence|]. intros k K. rewrite H; [auto|]. destruct M as [-> | ->]; intros ->; discriminate.
  - intros NP. rewrite (proj1 (like_kind _ _ _ LS)) in NP. assert (I : exists e, In (0, fst l, e) (timed_layout l)).
    { unfold timed_layout. destruct (snd l) as [|[b a] rest]; cbn [timed]; eexists; left; reflexivity. }
    destruct I as (e & I). assert (KF : Forall (fun b => b_tick b <> d) (section_bars (fst l))) by (apply Forall_forall; intros b IB; exact (NR 0 (fst l) e b I NP IB)).
    assert (NJ : Forall no_jump (section_bars (fst l))).
    { apply Forall_forall. intros b IB. assert (J0 : In b bars) by (unfold bars, layout_bars; apply in_or_app; auto).
      split; apply not_true_is_false; intros H; [assert (Q : In (b_tick b) (marked Dc bars))|assert (Q : In (b_tick b) (marked Ds bars))];
      try (unfold marked; apply in_map, filter_In; auto); rewrite ?MD, ?MS in Q; destruct Q. }
    assert (FL : Forall2 (relike (fun t => t <> d)) (section_bars (fst l)) (section_bars (fst l'))).
    { destruct LS as [x x' X|x x' X|x x' vs vs' X V]; cbn [section_bars]; auto. apply Forall2_app; [exact X|]. clear - V. induction V; cbn [concat]; [constructor|]. apply Forall2_app; auto. }
    exact (like_no_jump _ _ _ FL KF NJ).
  - intros f. unfold first_bar_len. rewrite TK. apply SF.
  - rewrite L' in *. exists c, cs, c', cs'. split; [exact E|]. split; [exact TC|]. split; [exact E'|]. split; [exact TC'|].
    rewrite P', P, (relaid_pass _ _ _ _ _ _ LT), !MG by discriminate. unfold play. rewrite (like_play _ _ _ LT). reflexivity.
Qed.
Print Assumptions C91_written.

(** The same for a project, written by one change of its bars. *)
Theorem C91_project_fine : forall p bars' ch p' c w cs d s f, project_ok p -> Forall (fun b => b_tick b <> u32_max) (score p) -> Forall compatible (score p) ->
  render_project p = Ret (Ok (c, w)) -> to_chunks c = Ret cs -> jump (actual_top (full_bar (pj_rhythm p) (score p))) (score p) d s ->
  Forall2 (differ Fine) (score p) bars' -> marked Fine (score p) = [] -> marked Fine bars' = [f] -> (forall a b, marked Coda (score p) = [a; b] -> b < f) ->
  differences (score p) bars' ch -> edits_done p [change_bars ch] p' ->
  exists l first second c' cs', passes (score p) s l first second (performance cs) /\
    render_project p' = Ret (Ok (c', w)) /\ to_chunks c' = Ret cs' /\ performance cs' = first ++ filter (fun t => t <? f) second.
Proof.
  intros p bars' ch p' c w cs d s f O U F R TC J D MF MF' CF DI ED. pose proof (T_Write.score_tune p O U) as T. unfold render_project in R.
  destruct (C91_fine _ _ _ _ _ _ _ _ _ T F R TC J D MF MF' CF) as (l & first & second & c' & cs' & P & R' & TC' & P').
  exists l, first, second, c', cs'. split; [exact P|]. split; [|auto]. apply (T_Write.C89_heard p bars' ch); auto.
  rewrite (differ_marked Fine Dc _ _ D), (shaped_first _ _ (all_shaped Fine _ _ eq_refl D)) by discriminate. destruct J; [auto|auto|right; left; congruence].
Qed.
Print Assumptions C91_project_fine.

Theorem C91_project_codas : forall p bars' ch p' c w cs d s a b, project_ok p -> Forall (fun b => b_tick b <> u32_max) (score p) -> Forall compatible (score p) ->
  render_project p = Ret (Ok (c, w)) -> to_chunks c = Ret cs -> jump (actual_top (full_bar (pj_rhythm p) (score p))) (score p) d s ->
  Forall2 (differ Coda) (score p) bars' -> marked Coda (score p) = [] -> marked Coda bars' = [a; b] -> s < a -> (forall f, marked Fine (score p) = [f] -> b < f) ->
  differences (score p) bars' ch -> edits_done p [change_bars ch] p' ->
  exists l first second c' cs', passes (score p) s l first second (performance cs) /\
    render_project p' = Ret (Ok (c', w)) /\ to_chunks c' = Ret cs' /\ performance cs' = first ++ filter (fun t => negb ((a <=? t) && (t <? b))) second.
Proof.
  intros p bars' ch p' c w cs d s a b O U F R TC J D MC MC' SA CF DI ED. pose proof (T_Write.score_tune p O U) as T. unfold render_project in R.
  destruct (C91_codas _ _ _ _ _ _ _ _ _ _ T F R TC J D MC MC' SA CF) as (l & first & second & c' & cs' & P & R' & TC' & P').
  exists l, first, second, c', cs'. split; [exact P|]. split; [|auto]. apply (T_Write.C89_heard p bars' ch); auto.
  rewrite (differ_marked Coda Dc _ _ D), (shaped_first _ _ (all_shaped Coda _ _ eq_refl D)) by discriminate. destruct J; [auto|auto|right; left; congruence].
Qed.
Print Assumptions C91_project_codas.

Theorem C91_project_jump : forall p m bars' ch p' c w cs x cs' d, project_ok p -> Forall (fun b => b_tick b <> u32_max) (score p) -> Forall compatible (score p) ->
  render_project p = Ret (Ok (c, w)) -> to_chunks c = Ret cs -> marked Dc (score p) = [] -> marked Ds (score p) = [] -> first_bar_len (score p) <> None ->
  m = Dc \/ m = Ds -> Forall2 (differ m) (score p) bars' -> marked m bars' = [d] -> Forall compatible bars' -> implicit_clear bars' ->
  render_region (pj_rhythm p) bars' = Ret (Ok x) -> to_chunks (fst x) = Ret cs' ->
  differences (score p) bars' ch -> edits_done p [change_bars ch] p' ->
  render_project p' = Ret (Ok x) /\
  exists s l second, jump (actual_top (full_bar (pj_rhythm p) bars')) bars' d s /\ passes bars' s l (until d (performance cs)) second (performance cs').
Proof.
  intros p m bars' ch p' c w cs [c' w'] cs' d O U F R TC MD MS FB M D MM F' IC R' TC' DI ED. pose proof (T_Write.score_tune p O U) as T. unfold render_project in R.
  split; [|apply (C91_jump _ m _ _ _ _ _ _ _ _ _ T F R TC MD MS FB M D MM F' IC R' TC')]. apply (T_Write.C89_heard p bars' ch); auto. right. left. unfold first_bar_len.
  assert (TK : map b_tick bars' = map b_tick (score p)) by (clear - D; induction D as [|b b' l l' (X & _) _ IH]; cbn [map]; [reflexivity|rewrite X, IH; reflexivity]).
  rewrite TK. exact FB.
Qed.
Print Assumptions C91_project_jump.

Ltac differs := repeat (apply Forall2_cons; [split; [reflexivity|]; split; [reflexivity|]; intros k; destruct k; congruence || reflexivity|]); apply Forall2_nil.

(** A Fine on the bar of the second Coda cannot be rendered at all. *)
Theorem C91_fine_refuted : exists bars bars' c cs d s, tune bars /\ Forall compatible bars /\ render_region four_four bars = Ret (Ok (c, [])) /\ to_chunks c = Ret cs /\
  jump (actual_top (full_bar four_four bars)) bars d s /\ Forall2 (differ Fine) bars bars' /\ marked Fine bars = [] /\ marked Fine bars' = [2880] /\ marked Coda bars = [1920; 2880] /\
  render_region four_four bars' = Panic.
Proof.
  exists [bar_at 960 []; bar_at 1920 [Coda]; bar_at 2880 [Coda]; bar_at 3840 [Dc]], [bar_at 960 []; bar_at 1920 [Coda]; bar_at 2880 [Coda; Fine]; bar_at 3840 [Dc]].
  eexists. eexists. exists 3840, 0. split; [tune_tac|]. split; [compat_tac|]. split; [vm_compute; reflexivity|]. split; [vm_compute; reflexivity|].
  split; [apply (jump_dc _ _ _ _ 960); reflexivity|]. split; [differs|]. split; [reflexivity|]. split; [reflexivity|]. split; [reflexivity|]. vm_compute. reflexivity.
Qed.
Print Assumptions C91_fine_refuted.

Definition dc_bars := [bar_at 960 [Start]; bar_at 1920 [Var1]; bar_at 2880 [Var2]; bar_at 3840 []; bar_at 4800 []; bar_at 5760 [Dc]; bar_at 6720 []].
Definition fine_bars := [bar_at 960 [Start]; bar_at 1920 [Var1]; bar_at 2880 [Var2]; bar_at 3840 []; bar_at 4800 [Fine]; bar_at 5760 [Dc]; bar_at 6720 []].
Definition coda_bars := [bar_at 960 [Start; Coda]; bar_at 1920 [Var1]; bar_at 2880 [Var2; Coda]; bar_at 3840 []; bar_at 4800 [Fine]; bar_at 5760 [Dc]; bar_at 6720 []].
Definition bare_bars := [bar_at 960 [Start]; bar_at 1920 [Var1]; bar_at 2880 [Var2]; bar_at 3840 []; bar_at 4800 []; bar_at 5760 []; bar_at 6720 []].
Definition segno_bars := [bar_at 960 [Start; Segno]; bar_at 1920 [Var1]; bar_at 2880 [Var2]; bar_at 3840 []; bar_at 4800 []; bar_at 5760 [Dc]; bar_at 6720 []].
Example C91_case : tune dc_bars /\ Forall compatible dc_bars /\ jump (actual_top (full_bar four_four dc_bars)) dc_bars 5760 0 /\
  Forall2 (differ Fine) dc_bars fine_bars /\ marked Fine dc_bars = [] /\ marked Fine fine_bars = [4800] /\
  Forall2 (differ Coda) fine_bars coda_bars /\ marked Coda fine_bars = [] /\ marked Coda coda_bars = [960; 2880] /\ jump (actual_top (full_bar four_four fine_bars)) fine_bars 5760 0 /\
  (exists c, render_region four_four dc_bars = Ret (Ok (c, [])) /\
    to_chunks c = Ret [mkChunk 0 960; mkChunk 960 1920; mkChunk 1920 2880; mkChunk 960 1920; mkChunk 2880 3840; mkChunk 3840 5760; mkChunk 0 960; mkChunk 960 1920; mkChunk 2880 3840; mkChunk 3840 u32_max]) /\
  (exists c, render_region four_four fine_bars = Ret (Ok (c, [])) /\
    to_chunks c = Ret [mkChunk 0 960; mkChunk 960 1920; mkChunk 1920 2880; mkChunk 960 1920; mkChunk 2880 3840; mkChunk 3840 5760; mkChunk 0 960; mkChunk 960 1920; mkChunk 2880 3840; mkChunk 3840 4800]) /\
  exists c, render_region four_four coda_bars = Ret (Ok (c, [])) /\
    to_chunks c = Ret [mkChunk 0 960; mkChunk 960 1920; mkChunk 1920 2880; mkChunk 960 1920; mkChunk 2880 3840; mkChunk 3840 5760; mkChunk 0 960; mkChunk 2880 3840; mkChunk 3840 4800].
Proof.
  split; [tune_tac|]. split; [compat_tac|]. split; [apply (jump_dc _ _ _ _ 960); reflexivity|]. split; [differs|]. split; [reflexivity|]. split; [reflexivity|].
  split; [differs|]. split; [reflexivity|]. split; [reflexivity|]. split; [apply (jump_dc _ _ _ _ 960); reflexivity|].
  split; [eexists; split; [vm_compute; reflexivity|vm_compute; reflexivity]|]. split; [eexists; split; [vm_compute; reflexivity|vm_compute; reflexivity]|].
  eexists; split; [vm_compute; reflexivity|vm_compute; reflexivity].
Qed.
Example C91_jump_case : tune bare_bars /\ Forall compatible bare_bars /\ marked Dc bare_bars = [] /\ marked Ds bare_bars = [] /\ first_bar_len bare_bars <> None /\
  Forall2 (differ Dc) bare_bars dc_bars /\ marked Dc dc_bars = [5760] /\ Forall compatible dc_bars /\ implicit_clear dc_bars /\
  exists l, well_laid l /\ layout_bars l = bare_bars /\ not_repeated l 5760 /\ top_clear bare_bars /\ small_first bare_bars /\ codas_ok 0 dc_bars /\
  exists c, render_region four_four bare_bars = Ret (Ok (c, [])) /\
    to_chunks c = Ret [mkChunk 0 960; mkChunk 960 1920; mkChunk 1920 2880; mkChunk 960 1920; mkChunk 2880 3840; mkChunk 3840 u32_max].
Proof.
  split; [tune_tac|]. split; [compat_tac|]. split; [reflexivity|]. split; [reflexivity|]. split; [discriminate|]. split; [differs|]. split; [reflexivity|]. split; [compat_tac|].
  split; [apply (T_Heard.clear_first []); [constructor|intros [[X _] _]; vm_compute in X; discriminate]|].
  exists (Plain [], [(bar_at 960 [Start], Varied [] [[bar_at 1920 [Var1]]; [bar_at 2880 [Var2]]]); (bar_at 3840 [], Plain [bar_at 4800 []; bar_at 5760 []; bar_at 6720 []])]).
  split; [split; cbn [inside follows numbered fst snd]; unfold boundary; laid|]. split; [reflexivity|].
  split; [intros x sec e b I NP IB; cbn in I; decompose [or] I; try contradiction; match goal with H : _ = _ |- _ => injection H as <- <- <- end; try discriminate NP; cbn in IB; decompose [or] IB; try contradiction; subst b; discriminate|].
  split; [each ltac:(cbn; intros X; discriminate X)|]. split; [intros f Q; injection Q as <-; unfold u32_max; lia|]. split; [intros a b Q; discriminate Q|].
  eexists; split; [vm_compute; reflexivity|vm_compute; reflexivity].
Qed.
Example C91_segno_case : Forall2 (differ Segno) dc_bars segno_bars /\ marked Segno dc_bars = [] /\ marked Segno segno_bars = [960] /\
  exists c, render_region four_four segno_bars = Ret (Ok (c, [SegnoAndDcFound 960 5760])) /\
    to_chunks c = Ret [mkChunk 0 960; mkChunk 960 1920; mkChunk 1920 2880; mkChunk 960 1920; mkChunk 2880 3840; mkChunk 3840 5760; mkChunk 960 1920; mkChunk 2880 3840; mkChunk 3840 u32_max].
Proof. split; [differs|]. split; [reflexivity|]. split; [reflexivity|]. eexists; split; [vm_compute; reflexivity|vm_compute; reflexivity]. Qed.
Example C91_project_case : let p := T_Write.project_of bare_bars in
  let ch := [(bar_at 5760 [], bar_at 5760 [Dc])] in let ch' := [(bar_at 4800 [], bar_at 4800 [Fine])] in
  project_ok p /\ Forall (fun b => b_tick b <> u32_max) (score p) /\ score p = bare_bars /\ differences (score p) dc_bars ch /\
  exists p1 p2 c, edits_done p [change_bars ch] p1 /\ project_ok p1 /\ score p1 = dc_bars /\ differences (score p1) fine_bars ch' /\ edits_done p1 [change_bars ch'] p2 /\
    render_project p2 = Ret (Ok (c, [])) /\
    to_chunks c = Ret [mkChunk 0 960; mkChunk 960 1920; mkChunk 1920 2880; mkChunk 960 1920; mkChunk 2880 3840; mkChunk 3840 5760; mkChunk 0 960; mkChunk 960 1920; mkChunk 2880 3840; mkChunk 3840 4800].
Proof.
  cbv zeta. rewrite T_Write.of_score. destruct (T_Write.of_ok bare_bars) as [O V]; [tune_tac|]. destruct (T_Write.of_ok dc_bars) as [O1 V1]; [tune_tac|].
  split; [exact O|]. split; [repeat constructor; discriminate|]. split; [reflexivity|]. split; [T_Write.differ_tac|].
  exists (T_Write.project_of dc_bars), (T_Write.project_of fine_bars). eexists. split; [eapply done_cons; [vm_compute; reflexivity|apply done_nil]|]. split; [exact O1|].
  split; [apply T_Write.of_score|]. split; [rewrite T_Write.of_score; T_Write.differ_tac|]. split; [eapply done_cons; [vm_compute; reflexivity|apply done_nil]|].
  split; [vm_compute; reflexivity|]. vm_compute. reflexivity.
Qed.
