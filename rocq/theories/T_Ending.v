(** Property theorems about writing a first and a second ending for a repeat: C83. *)
From Coq Require Import ZArith List Bool Lia Sorted.
From Verif Require Import Base M_Duration M_Scalar M_Bar M_Repeat S_Note S_Repeat S_Twice S_Ending P_Base P_Chunk P_Machine P_Errors P_Order P_Jump P_Last P_Panic.
From Verif Require Import T_Twice.
From Verif Require P_Heard T_Repeat T_Times.
Import ListNotations.
Open Scope Z_scope.

#[local] Hint Resolve all_same same_refl : core.
Lemma var_same k b b' : is_var k = true -> signed k b b' -> same_bar b b'.
Proof.
  intros V (T & R & H). split; [exact T|]. split; [exact R|]. intros m K. rewrite H.
  destruct k; try discriminate; cbn in K; repeat (destruct K as [<-|K]; [apply orb_false_r|]); destruct K.
Qed.
Lemma vars_same k l l' : is_var k = true -> Forall2 (signed k) l l' -> Forall2 same_bar l l'.
Proof. intros V H. induction H; constructor; auto. apply (var_same k); auto. Qed.
Lemma second_same b b' : second_sign b b' -> same_bar b b'.
Proof.
  intros (T & R & H). split; [exact T|]. split; [exact R|]. intros m K. rewrite H.
  cbn in K. repeat (destruct K as [<-|K]; [cbn; rewrite orb_false_r, andb_true_r; reflexivity|]); destruct K.
Qed.
Lemma ended_same a t b s sec rest sec' rest' : ended a t b s sec rest sec' rest' ->
  Forall2 same_bar (section_bars sec ++ rest_bars rest) (section_bars sec' ++ rest_bars rest').
Proof.
  induction 1 as [m v v' y y' n n' z q rest SV SY SN|m v v' y y' n n' z c rest SV SY SN|s sec x c rest c' rest' _ IH];
    unfold rest_bars in *; cbn [section_bars flat_map fst snd concat]; rewrite ?app_nil_r, <- ?app_assoc, <- ?app_comm_cons, <- ?app_assoc, <- ?app_comm_cons.
  - apply Forall2_app; auto. apply Forall2_app; [apply (vars_same Var1); auto|]. cbn [app]. constructor; [apply second_same; auto|].
    apply Forall2_app; [apply (vars_same Var2); auto|]. auto.
  - apply Forall2_app; auto. apply Forall2_app; [apply (vars_same Var1); auto|]. cbn [app]. constructor; [apply second_same; auto|].
    apply Forall2_app; [apply (vars_same Var2); auto|]. auto.
  - apply Forall2_app; auto.
Qed.

(** ** The new score has the documented form *)
Lemma var_carries k v b b' : 1 <= v <= 4 -> is_var k = true -> mark_bit k = 6 + v -> signed k b b' -> no_var b -> carries v b'.
Proof. intros V K B (_ & _ & H) N m M. rewrite H, (N m M), B. reflexivity. Qed.
Lemma var_no_repeat k b b' : is_var k = true -> signed k b b' -> no_repeat b -> no_repeat b'.
Proof. intros V (_ & _ & H) [A B]. split; rewrite H, ?A, ?B; destruct k; try discriminate; reflexivity. Qed.
Lemma var_no_jump k b b' : is_var k = true -> signed k b b' -> no_jump b -> no_jump b'.
Proof. intros V (_ & _ & H) [A B]. split; rewrite H, ?A, ?B; destruct k; try discriminate; reflexivity. Qed.
Lemma all_signed (P Q : bar -> Prop) (R : bar -> bar -> Prop) l l' : (forall b b', R b b' -> P b -> Q b') -> Forall2 R l l' -> Forall P l -> Forall Q l'.
Proof. intros H F. induction F; intros A; inversion A; subst; constructor; eauto. Qed.

Lemma ending_form m v v' y y' n n' t first : Forall2 (signed Var1) v v' -> second_sign y y' -> Forall2 (signed Var2) n n' ->
  hd_error (map b_tick v) = Some t -> Forall no_jump (v ++ y :: n) -> Forall no_var n -> Forall no_repeat n -> no_var y -> has y Start = false ->
  inside first (Repeated (m ++ v)) -> inside first (Varied m [v'; y' :: n']).
Proof.
  intros SV SY SN HT NJ NN RN NY YS (R & V & J). apply Forall_app in R as [R1 R2], V as [V1 V2], NJ as [J1 J2]. apply Forall_cons_iff in J2 as [J2 J3].
  cbn [inside]. split; [exact R1|]. split; [exact V1|]. split; [intros E; specialize (J E); apply Forall_app in J; tauto|].
  split; [|split; [discriminate|cbn; lia]]. cbn [numbered].
  split; [destruct SV; [discriminate|discriminate]|].
  split; [apply (all_signed no_var _ (signed Var1) v); auto; intros; apply (var_carries Var1 1 b b'); auto; lia|].
  split; [apply (all_signed no_repeat _ (signed Var1) v); auto; intros; apply (var_no_repeat Var1 b b'); auto|].
  split; [apply (all_signed no_jump _ (signed Var1) v); auto; intros; apply (var_no_jump Var1 b b'); auto|].
  split; [discriminate|]. destruct SY as (_ & _ & SY).
  split. { constructor; [|apply (all_signed no_var _ (signed Var2) n); auto; intros; apply (var_carries Var2 2 b b'); auto; lia].
    intros k K. rewrite SY, (NY k K). destruct k; try discriminate; reflexivity. }
  split. { constructor; [|apply (all_signed no_repeat _ (signed Var2) n); auto; intros; apply (var_no_repeat Var2 b b'); auto].
    split; rewrite SY, ?YS; cbn; rewrite ?andb_false_r; reflexivity. }
  split; [|exact I]. constructor; [|apply (all_signed no_jump _ (signed Var2) n); auto; intros; apply (var_no_jump Var2 b b'); auto].
  destruct J2 as [A B]. split; rewrite SY, ?A, ?B; reflexivity.
Qed.

Lemma ended_laid a t b s sec rest sec' rest' : ended a t b s sec rest sec' rest' -> forall first,
  inside first sec -> follows sec rest -> inside first sec' /\ follows sec' rest'.
Proof.
  induction 1 as [m v v' y y' n n' z q rest SV SY SN HT _ NJ _ NN NZ|m v v' y y' n n' z c rest SV SY SN HT _ NJ _ NN|s sec x c rest c' rest' R IH]; intros first IN F.
  - destruct F as [(B1 & B2 & B3 & B4) [[NR _] F]]. apply Forall_app in NR as [RN RZ]. apply Forall_cons_iff in RZ as [RZ RQ]. split.
    + apply (ending_form m v v' y y' n n' t); auto.
    + cbn [follows]. split; [|split; [split; [exact RQ|discriminate]|apply (follows_plain (Plain (n ++ z :: q))); auto]].
      destruct RZ as [Z1 Z2]. split; [exact Z2|]. split; [exact Z1|]. split; [exact NZ|discriminate].
  - destruct F as [(B1 & B2 & B3 & B4) [[RN _] F]]. split; [apply (ending_form m v v' y y' n n' t); auto|].
    destruct F as [(Z1 & Z2 & Z3 & _) F]. cbn [follows]. split; [|exact F]. split; [exact Z1|]. split; [exact Z2|]. split; [exact Z3|discriminate].
  - split; [exact IN|]. destruct F as [B [IC F]]. destruct (IH false IC F) as [IC' F']. split; [|auto].
    assert (PL : is_plain c' = is_plain c) by (destruct R; reflexivity). destruct B as (B1 & B2 & B3 & B4). unfold boundary. rewrite PL. auto.
Qed.

(** ** The sections with variations: one more *)
Lemma head_same v v' t : Forall2 (signed Var1) v v' -> hd_error (map b_tick v) = Some t -> starts_of [v'] = [t].
Proof. intros [|x x' l l' (E & _) _] H; [discriminate|]. cbn in *. congruence. Qed.
Lemma ending_starts v v' y y' n' t b : Forall2 (signed Var1) v v' -> second_sign y y' -> hd_error (map b_tick v) = Some t -> b_tick y = b ->
  starts_of [v'; y' :: n'] = [t; b].
Proof. intros SV (TY & _) HT <-. pose proof (head_same v v' t SV HT) as H. unfold starts_of in *. cbn [flat_map] in *. rewrite app_nil_r in H. rewrite H, TY. reflexivity. Qed.

Lemma ended_varied a t b s sec rest sec' rest' : ended a t b s sec rest sec' rest' ->
  exists c0 vs0 e0, starts_of vs0 = [t; b] /\ forall x c vs e,
  In (x, Varied c vs, e) (timed s sec' rest') <-> (x, Varied c vs, e) = (a, Varied c0 vs0, e0) \/ In (x, Varied c vs, e) (timed s sec rest).
Proof.
  induction 1 as [m v v' y y' n n' z q rest SV SY SN HT HB|m v v' y y' n n' z c rest SV SY SN HT HB|s sec x0 c0 rest c' rest' R IH].
  - exists m, [v'; y' :: n'], (b_tick z). split; [apply (ending_starts v v' y y'); auto|]. intros x c vs e.
    destruct rest as [|[w cw] rest]; cbn [timed In]; intuition congruence.
  - exists m, [v'; y' :: n'], (b_tick z). split; [apply (ending_starts v v' y y'); auto|]. intros x c1 vs e. cbn [timed In]. intuition congruence.
  - destruct IH as (c1 & vs1 & e1 & SO & H). exists c1, vs1, e1. split; [exact SO|]. intros x c vs e. cbn [timed In]. rewrite H. tauto.
Qed.
Lemma ended_left a t b s sec rest sec' rest' i : ended a t b s sec rest sec' rest' ->
  left_out (timed s sec' rest') i = left_out (timed s sec rest) i || ((t <=? i) && (i <? b)).
Proof.
  intros H. destruct (ended_varied _ _ _ _ _ _ _ _ H) as (c0 & vs0 & e0 & SO & V). unfold left_out. apply eq_true_iff_eq. rewrite orb_true_iff, !existsb_exists. split.
  - intros [[[x sc] e] [I E]]. destruct sc as [?|?|c vs]; try discriminate. apply V in I as [I|I].
    + inversion I; subst. right. rewrite SO in E. exact E.
    + left. exists (x, Varied c vs, e). auto.
  - intros [[[[x sc] e] [I E]]|E].
    + destruct sc as [?|?|c vs]; try discriminate. exists (x, Varied c vs, e). split; [apply V; auto|exact E].
    + exists (a, Varied c0 vs0, e0). split; [apply V; auto|]. rewrite SO. exact E.
Qed.

(** ** What is played *)
Definition less_from (s a t b : Z) (P Q : list Z) : Prop :=
  exists A B, P = A ++ from_to a b ++ from_to a t ++ from_to t b ++ B /\ Q = A ++ from_to a b ++ from_to a t ++ B /\ (forall i, In i A <-> s <= i < a) /\ s <= a <= t /\ t < b.

Lemma ended_played a t b s sec rest sec' rest' : ended a t b s sec rest sec' rest' -> forall lo, chain s lo (timed s sec' rest') ->
  less_from s a t b (flat_map play_section (timed s sec rest)) (flat_map play_section (timed s sec' rest')).
Proof.
  induction 1 as [m v v' y y' n n' z q rest SV SY SN HT HB|m v v' y y' n n' z c rest SV SY SN HT HB|s sec x0 c0 rest c' rest' R IH]; intros lo C; cbn [timed] in C |- *.
  - pose proof (ending_starts v v' y y' n' t b SV SY HT HB) as SO. rewrite HB.
    destruct (plain_end b (n ++ z :: q) rest) as (e & more & E & _). destruct (plain_end (b_tick z) q rest) as (e2 & more2 & E2 & _).
    assert (EE : e2 = e /\ more2 = more) by (destruct rest as [|[w cw] rest]; cbn [timed] in E, E2; inversion E; inversion E2; auto). destruct EE as [-> ->].
    rewrite E2 in C |- *. rewrite E. cbn [chain] in C. destruct C as (_ & C1 & C2 & C3 & _ & _ & C4 & C5 & _).
    cbn [starts_in] in C3. rewrite SO in C3. destruct C3 as (_ & C3 & C6). inversion C3 as [|? ? _ C7]; subst. inversion C7; subst. inversion C6 as [|? ? C8 C9]; subst. inversion C9; subst.
    exists [], (from_to (b_tick y) e ++ flat_map play_section more). cbn [flat_map play_section app]. rewrite SO. cbn [hd spans flat_map fst snd]. split; [|split; [|split]].
    + rewrite <- !app_assoc. rewrite <- (from_to_app a t (b_tick y)) by lia. rewrite <- !app_assoc. reflexivity.
    + rewrite <- (from_to_app (b_tick y) (b_tick z) e), <- (from_to_app a t (b_tick y)) by lia. rewrite <- !app_assoc. reflexivity.
    + intros i. cbn [In]. lia.
    + lia.
  - pose proof (ending_starts v v' y y' n' t b SV SY HT HB) as SO. rewrite HB. cbn [chain] in C. destruct C as (_ & C1 & C2 & C3 & _ & _).
    cbn [starts_in] in C3. rewrite SO in C3. destruct C3 as (_ & C3 & C6). inversion C3 as [|? ? _ C7]; subst. inversion C7; subst. inversion C6 as [|? ? C8 C9]; subst. inversion C9; subst.
    exists [], (from_to (b_tick y) (b_tick z) ++ flat_map play_section (timed (b_tick z) c rest)). cbn [flat_map play_section app]. rewrite SO. cbn [hd spans flat_map fst snd]. split; [|split; [|split]].
    + rewrite <- !app_assoc. rewrite <- (from_to_app a t (b_tick y)) by lia. rewrite <- !app_assoc. reflexivity.
    + rewrite <- (from_to_app a t (b_tick y)) by lia. rewrite <- !app_assoc. reflexivity.
    + intros i. cbn [In]. lia.
    + lia.
  - cbn [chain] in C. destruct C as (_ & C1 & C2 & SI & _ & C). destruct (IH (b_tick x0 + 1) C) as (A & B & E1 & E2 & G & L).
    exists (play_section (s, sec, b_tick x0) ++ A), B. cbn [flat_map]. rewrite E1, E2, !app_assoc. split; [reflexivity|]. split; [reflexivity|]. split; [|lia].
    intros i. rewrite in_app_iff, G, (section_in s lo) by (auto; lia). lia.
Qed.

(** ** Where things are *)
Lemma ended_split a t b s sec rest sec' rest' : ended a t b s sec rest sec' rest' -> exists pre v y post,
  section_bars sec ++ rest_bars rest = pre ++ v ++ y :: post /\ hd_error (map b_tick v) = Some t /\ b_tick y = b /\ Forall no_goal v.
Proof.
  induction 1 as [m v v' y y' n n' z q rest SV SY SN HT HB _ NG|m v v' y y' n n' z c rest SV SY SN HT HB _ NG|s sec x0 c0 rest c' rest' R IH]; unfold rest_bars in *; cbn [section_bars flat_map fst snd] in *.
  - exists m, v, y, ((n ++ z :: q) ++ rest_bars rest). rewrite <- app_assoc. auto.
  - exists m, v, y, (n ++ rest_bars ((z, c) :: rest)). rewrite <- app_assoc. auto.
  - destruct IH as (pre & v & y & post & E & H). exists (section_bars sec ++ x0 :: pre), v, y, post. split; [|exact H].
    rewrite <- app_comm_cons, E, <- app_assoc. reflexivity.
Qed.
Lemma sorted_parts a : forall x b, StronglySorted Z.lt (map b_tick (a ++ x :: b)) ->
  (forall g, In g a -> b_tick g < b_tick x) /\ (forall g, In g b -> b_tick x < b_tick g).
Proof.
  induction a as [|z a IH]; intros x b S; cbn [app map] in S; inversion S as [|? ? S1 S2]; subst.
  - split; [intros g []|]. rewrite Forall_map, Forall_forall in S2. exact S2.
  - destruct (IH x b S1) as [H1 H2]. split; [|exact H2]. intros g [<-|J]; [|auto]. rewrite Forall_map, Forall_forall in S2. apply S2, in_elt.
Qed.
Lemma ended_goal a t b s sec rest sec' rest' : ended a t b s sec rest sec' rest' ->
  StronglySorted Z.lt (map b_tick (section_bars sec ++ rest_bars rest)) ->
  forall i, In i (marked Segno (section_bars sec ++ rest_bars rest)) -> ~ (t <= i < b).
Proof.
  intros H S i I. destruct (ended_split _ _ _ _ _ _ _ _ H) as (pre & v & y & post & E & HT & HB & NG). rewrite E in *.
  unfold marked in I. apply in_map_iff in I as (g & GT & I). apply filter_In in I as [I G].
  destruct v as [|v0 v]; [discriminate|]. cbn in HT. inversion HT; subst.
  apply in_app_iff in I as [I|I]; [|apply in_app_iff in I as [I|I]].
  - cbn [app] in S. destruct (sorted_parts _ _ _ S) as [P _]. apply P in I. lia.
  - rewrite Forall_forall in NG. apply NG in I. unfold no_goal in I. congruence.
  - rewrite app_assoc in S. destruct (sorted_parts _ _ _ S) as [_ P]. destruct I as [<-|I]; [lia|]. apply P in I. lia.
Qed.
Lemma ended_segno a t b l l' : ended a t b 0 (fst l) (snd l) (fst l') (snd l') -> tune (layout_bars l) ->
  segno_ok (layout_bars l) (timed_layout l) -> segno_ok (layout_bars l') (timed_layout l').
Proof.
  intros H T S x c vs e i I M. destruct (ended_varied _ _ _ _ _ _ _ _ H) as (c0 & vs0 & e0 & SO & V).
  rewrite (same_marked (layout_bars l) (layout_bars l') Segno (ended_same _ _ _ _ _ _ _ _ H)) in M by (cbn; auto).
  apply V in I as [I|I]; [|exact (S x c vs e i I M)]. inversion I; subst. rewrite SO. cbn [hd last].
  apply (ended_goal _ _ _ _ _ _ _ _ H (proj1 T) i M).
Qed.

Lemma chain_starts l : forall s lo, chain s lo l -> forall x sec e, In (x, sec, e) l -> exists lo', starts_in lo' e sec.
Proof.
  induction l as [|[[a sec0] e0] l IH]; intros s lo C x sec e I; [destruct I|]. cbn [chain] in C. destruct C as (_ & _ & _ & SI & _ & C).
  destruct I as [I|I]; [inversion I; subst; eauto|eauto].
Qed.
Lemma filter_twice {A} (f g : A -> bool) l : filter f (filter g l) = filter (fun x => g x && f x) l.
Proof. induction l as [|x l IH]; [reflexivity|]. cbn [filter]. destruct (g x); cbn [filter andb]; rewrite IH; reflexivity. Qed.

Lemma less_until a t b P Q d : once_less a t b P Q -> a <= t < b -> b <= d -> once_less a t b (until d P) (until d Q).
Proof.
  intros (A & B & -> & -> & G) L D. exists A, (until d B).
  assert (NA : ~ In d A) by (rewrite G; lia). assert (N1 : ~ In d (from_to a b)) by (rewrite from_to_In; lia).
  assert (N2 : ~ In d (from_to a t)) by (rewrite from_to_In; lia). assert (N3 : ~ In d (from_to t b)) by (rewrite from_to_In; lia).
  rewrite !until_app by auto. auto.
Qed.
Lemma less_before a t b P Q d : once_less a t b P Q -> a <= t < b -> 0 <= d <= a -> until d P = until d Q.
Proof.
  intros (A & B & -> & -> & G) L D. destruct (Z.eq_dec d a) as [->|N].
  - rewrite !(until_app a A) by (rewrite G; lia). rewrite !until_in by lia. reflexivity.
  - assert (I : In d A) by (apply G; lia). rewrite !P_Heard.until_prefix by exact I. reflexivity.
Qed.

(** * C83 *)

(** Endings for a repeat in a score without D.C. and D.S.: the first ending is left out the second time, all else is as it was. *)
Theorem C83_endings : forall r l l' a t b, let bars := layout_bars l in
  well_laid l -> tune bars -> counts_ok bars -> segno_ok bars (timed_layout l) -> marked Dc bars = [] -> marked Ds bars = [] ->
  ended a t b 0 (fst l) (snd l) (fst l') (snd l') ->
  exists c cs c' cs', render_region r bars = Ret (Ok (c, [])) /\ to_chunks c = Ret cs /\
    render_region r (layout_bars l') = Ret (Ok (c', [])) /\ to_chunks c' = Ret cs' /\
    once_less a t b (performance cs) (performance cs').
Proof.
  intros r l l' a t b bars W T C S A B H. pose proof (ended_same _ _ _ _ _ _ _ _ H) as SB. fold (layout_bars l) (layout_bars l') in SB.
  assert (W' : well_laid l') by (destruct W as [I F]; exact (ended_laid _ _ _ _ _ _ _ _ H true I F)).
  pose proof (same_tune _ _ SB T) as T'.
  destruct (T_Repeat.C42_plays r l W T C S A B) as (c & cs & R & K & P).
  destruct (T_Repeat.C42_plays r l' W' T' (same_counts _ _ SB C) (ended_segno a t b l l' H T S)) as (c' & cs' & R' & K' & P').
  - rewrite (same_marked _ _ Dc SB) by (cbn; auto 10). exact A.
  - rewrite (same_marked _ _ Ds SB) by (cbn; auto 10). exact B.
  - exists c, cs, c', cs'. split; [exact R|]. split; [exact K|]. split; [exact R'|]. split; [exact K'|]. rewrite P, P'.
    destruct (ended_played _ _ _ _ _ _ _ _ H 0 (layout_chain l' W' T')) as (X & Y & E1 & E2 & G & _). exists X, Y. auto.
Qed.
Print Assumptions C83_endings.

(** With a jump: this holds for the first pass if the repeat ends before the jump; if it starts at the jump or behind it, the first
    pass does not change.  The last pass always leaves the first ending out. *)
Theorem C83_jump : forall r l l' a t b d s, let bars := layout_bars l in
  well_laid l -> tune bars -> counts_ok bars -> segno_ok bars (timed_layout l) -> top_clear bars -> top_clear (layout_bars l') -> jump_outside l ->
  small_first bars -> jump (actual_top (full_bar r bars)) bars d s -> codas_ok s bars ->
  ended a t b 0 (fst l) (snd l) (fst l') (snd l') ->
  exists c cs c' cs' first first' second, render_region r bars = Ret (Ok (c, warnings_of bars)) /\ to_chunks c = Ret cs /\
    render_region r (layout_bars l') = Ret (Ok (c', warnings_of bars)) /\ to_chunks c' = Ret cs' /\
    performance cs = first ++ second /\ performance cs' = first' ++ filter (fun i => negb ((t <=? i) && (i <? b))) second /\
    StronglySorted Z.lt second /\
    (b <= d /\ once_less a t b first first' \/ d <= a /\ first = first').
Proof.
  intros r l l' a t b d s bars W T C S TC TC' JO SF J CO H. pose proof (ended_same _ _ _ _ _ _ _ _ H) as SB. fold (layout_bars l) (layout_bars l') in SB.
  assert (W' : well_laid l') by (destruct W as [I F]; exact (ended_laid _ _ _ _ _ _ _ _ H true I F)).
  pose proof (same_tune _ _ SB T) as T'.
  assert (JO' : jump_outside l').
  { unfold jump_outside in *. destruct l as [sec rest], l' as [sec' rest']. cbn [fst snd] in *.
    destruct H as [m v v' y y' n n' z q rest SV SY SN _ _ NJ|m v v' y y' n n' z c rest SV SY SN _ _ NJ|]; auto; intros _; specialize (JO eq_refl); cbn [section_bars] in *;
      apply Forall_app in JO as [J1 J2]; apply Forall_app in NJ as [_ NJ]; apply Forall_cons_iff in NJ as [[NY1 NY2] NN]; apply Forall_app; (split; [exact J1|]);
      cbn [concat]; rewrite app_nil_r; apply Forall_app; (split; [apply (all_signed no_jump _ (signed Var1) v); auto; intros; apply (var_no_jump Var1 b0 b'); auto|]);
      (constructor; [destruct SY as (_ & _ & SY); split; rewrite SY, ?NY1, ?NY2; reflexivity|]);
      apply (all_signed no_jump _ (signed Var2) n); auto; intros; apply (var_no_jump Var2 b0 b'); auto. }
  destruct (T_Repeat.C43_plays r l d s W T C S TC JO SF J CO) as (c & cs & R & K & P).
  assert (FB : full_bar r (layout_bars l') = full_bar r bars) by (unfold full_bar; rewrite (same_top _ _ r SB); reflexivity).
  destruct (T_Repeat.C43_plays r l' d s W' T' (same_counts _ _ SB C)) as (c' & cs' & R' & K' & P'); auto.
  - apply (ended_segno a t b l l' H T S).
  - intros f. rewrite (same_first _ _ SB). apply SF.
  - rewrite FB. apply (same_jump _ _ _ _ _ SB J).
  - apply (same_codas _ _ _ SB CO).
  - exists c, cs, c', cs', (until d (play l)), (until d (play l')), (second_pass l s (hd_error (marked Fine bars)) (pair_of (marked Coda bars))).
    rewrite (same_warnings _ _ SB) in R'. rewrite !(same_marked _ _ _ SB) in P' by (cbn; auto 10).
    split; [exact R|]. split; [exact K|]. split; [exact R'|]. split; [exact K'|]. split; [exact P|]. split.
    { rewrite P'. f_equal. unfold second_pass. rewrite filter_twice. apply filter_ext. intros i.
      unfold timed_layout. rewrite (ended_left _ _ _ _ _ _ _ _ i H). rewrite negb_orb, andb_assoc. reflexivity. }
    split; [apply (T_Repeat.C43_second l s)|].
    destruct (ended_played _ _ _ _ _ _ _ _ H 0 (layout_chain l' W' T')) as (X & Y & E1 & E2 & G & L1 & L2).
    assert (OL : once_less a t b (play l) (play l')) by (exists X, Y; auto).
    destruct (jump_bar _ _ _ _ (same_jump _ _ _ _ _ SB J)) as [j [BI [BD BN]]]. pose proof (tune_tick _ _ T' BI) as BT.
    assert (DO : b <= d \/ d <= a).
    { destruct (Z.le_gt_cases b d); [auto|]. destruct (Z.le_gt_cases d a); [auto|]. exfalso.
      assert (JC : jump_clear d (timed_layout l')).
      { destruct W' as [I1 F1]. apply (inside_plain (snd l') (fst l') true); auto. exists j. auto. }
      destruct (ended_varied _ _ _ _ _ _ _ _ H) as (c0 & vs0 & e0 & SO & V). pose proof (proj2 (V a c0 vs0 e0) (or_introl eq_refl)) as NW.
      destruct (chain_starts _ _ _ (layout_chain l' W' T') _ _ _ NW) as [lo' ST]. cbn [starts_in] in ST. rewrite SO in ST. destruct ST as (_ & _ & ST).
      assert (b < e0) by (inversion ST as [|? ? _ ST2]; subst; inversion ST2; lia).
      specialize (JC _ _ _ NW ltac:(lia)). discriminate. }
    destruct DO; [left|right]; (split; [assumption|]).
    + apply less_until; auto. lia.
    + apply (less_before a t b); auto; lia.
Qed.
Print Assumptions C83_jump.

(** ** The same for the bars *)
Lemma inner_no_repeat first sec : inside first sec -> Forall no_repeat (section_bars sec).
Proof.
  destruct sec as [l|l|c vs]; cbn [inside section_bars]; [tauto|tauto|]. intros (A & _ & _ & N & _). apply Forall_app. split; [exact A|].
  revert N. generalize 1. induction vs as [|v vs IH]; intros k N; cbn [concat]; [constructor|]. destruct N as (_ & _ & R & _ & N). apply Forall_app. split; eauto.
Qed.

Section Find.
  Context (m v v' : list bar) (y y' : bar) (n n' : list bar) (z : bar) (q : list bar) (t : Z).
  Hypothesis SV : Forall2 (signed Var1) v v'.
  Hypothesis SY : second_sign y y'.
  Hypothesis SN : Forall2 (signed Var2) n n'.
  Hypothesis HT : hd_error (map b_tick v) = Some t.
  Hypothesis NJ : Forall no_jump (v ++ y :: n).
  Hypothesis NG : Forall no_goal v.
  Hypothesis BM : Forall bare m.
  Hypothesis BV : Forall bare v.
  Hypothesis BN : Forall bare n.
  Hypothesis YE : has y End = true.
  Hypothesis YS : has y Start = false.
  Hypothesis ZE : has z End = false.
  Hypothesis ZV : no_var z.

  Lemma find_here sec rest first s : inside first sec -> follows sec rest -> section_bars sec ++ rest_bars rest = m ++ v ++ y :: n ++ z :: q ->
    exists sec' rest', ended s t (b_tick y) s sec rest sec' rest' /\ section_bars sec' ++ rest_bars rest' = m ++ v' ++ y' :: n' ++ z :: q.
  Proof.
    intros IN F E. rewrite app_assoc in E. assert (BMV : Forall bare (m ++ v)) by (apply Forall_app; auto).
    pose proof (inner_no_repeat _ _ IN) as NR. rewrite Forall_forall in NR.
    assert (NI : forall l w, section_bars sec = l ++ y :: w -> False). { intros l w EQ. destruct (NR y) as [_ N]; [rewrite EQ; apply in_elt|congruence]. }
    destruct rest as [|[b c] rest].
    { cbn [follows] in F. destruct sec; try discriminate. cbn [section_bars rest_bars flat_map] in *. rewrite app_nil_r in E. exfalso. apply (NI _ _ E). }
    destruct F as [(B1 & B2 & B3 & B4) [IC F]]. unfold rest_bars in E. cbn [flat_map fst snd] in E. fold (rest_bars rest) in E. rewrite <- app_comm_cons in E.
    assert (SG : sec = Repeated (m ++ v) /\ b = y /\ section_bars c ++ rest_bars rest = n ++ z :: q).
    { destruct (split_three _ _ _ _ _ _ E) as [(u & E1 & _)|[(E1 & E2 & E3)|(u & E1 & _)]].
      - exfalso. apply (NI _ _ E1).
      - subst b. destruct sec as [l|l|cm vs]; cbn [is_repeated] in B1; try congruence. cbn [section_bars] in E1. subst l. auto.
      - exfalso. rewrite E1 in BMV. apply Forall_app in BMV as [BS BB]. apply Forall_cons_iff in BB as [BB _].
        destruct sec as [l|l|cm vs].
        + specialize (B4 eq_refl). rewrite B4 in B2. apply (start_sign b B2 BB).
        + apply (end_sign b B1 BB).
        + destruct IN as (_ & _ & _ & NU & NE & LE). destruct (varied_first 1 vs NU NE) as (z0 & w & EC & _).
          pose proof (numbered_signs vs 1 NU ltac:(lia) ltac:(lia)) as SG. cbn [section_bars] in BS. rewrite EC in *. inversion SG; subst.
          apply Forall_app in BS as [_ BS]. inversion BS; subst. contradiction. }
    destruct SG as (-> & -> & E3). assert (PC : is_plain c = true) by (rewrite YS in B2; destruct (is_plain c); [reflexivity|discriminate]).
    destruct c as [l| |]; try discriminate. cbn [section_bars] in E3.
    assert (NN : Forall no_var n) by (eapply Forall_impl; [|exact BN]; intros ? []; auto).
    assert (IN1 : forall q1, l = n ++ z :: q1 -> q = q1 ++ rest_bars rest -> exists sec' rest',
      ended s t (b_tick y) s (Repeated (m ++ v)) ((y, Plain l) :: rest) sec' rest' /\ section_bars sec' ++ rest_bars rest' = m ++ v' ++ y' :: n' ++ z :: q).
    { intros q1 -> ->. exists (Varied m [v'; y' :: n']), ((z, Plain q1) :: rest). split; [apply ended_inside; auto|].
      unfold rest_bars. cbn [section_bars flat_map fst snd concat]. rewrite ?app_nil_r, <- ?app_assoc, <- ?app_comm_cons, <- ?app_assoc. reflexivity. }
    destruct rest as [|[b3 c3] rest].
    - cbn [rest_bars flat_map] in *. rewrite app_nil_r in E3. apply (IN1 q); auto. rewrite app_nil_r. reflexivity.
    - destruct F as [(Z1 & Z2 & Z3 & Z4) F]. unfold rest_bars in E3. cbn [flat_map fst snd] in E3. fold (rest_bars rest) in E3. rewrite <- app_comm_cons in E3.
      destruct (split_three _ _ _ _ _ _ E3) as [(u & E4 & E5)|[(E4 & E5 & E6)|(u & E4 & _)]].
      + apply (IN1 u); auto.
      + subst l b3. exists (Varied m [v'; y' :: n']), ((z, c3) :: rest). split; [apply ended_at; auto|].
        unfold rest_bars. cbn [section_bars flat_map fst snd concat]. rewrite <- E6. rewrite ?app_nil_r, <- ?app_assoc, <- ?app_comm_cons, <- ?app_assoc. reflexivity.
      + exfalso. rewrite E4 in BN. apply Forall_app in BN as [_ BB]. apply Forall_cons_iff in BB as [BB _]. specialize (Z4 eq_refl). rewrite Z4 in Z2. apply (start_sign b3 Z2 BB).
  Qed.

  Lemma find_ended rest : forall sec first s p x, inside first sec -> follows sec rest -> has x Start = true ->
    section_bars sec ++ rest_bars rest = p ++ x :: m ++ v ++ y :: n ++ z :: q ->
    exists sec' rest', ended (b_tick x) t (b_tick y) s sec rest sec' rest' /\ section_bars sec' ++ rest_bars rest' = p ++ x :: m ++ v' ++ y' :: n' ++ z :: q.
  Proof.
    induction rest as [|[b c] rest IH]; intros sec first s p x IN F XS E; pose proof (inner_no_repeat _ _ IN) as NR; rewrite Forall_forall in NR.
    - cbn [rest_bars flat_map] in E. rewrite app_nil_r in E. exfalso. destruct (NR x) as [N _]; [rewrite E; apply in_elt|congruence].
    - destruct F as [B [IC F]]. unfold rest_bars in E. cbn [flat_map fst snd] in E. fold (rest_bars rest) in E. rewrite <- app_comm_cons in E.
      destruct (split_three _ _ _ _ _ _ E) as [(u & E1 & _)|[(E1 & E2 & E3)|(u & E1 & E2)]].
      + exfalso. destruct (NR x) as [N _]; [rewrite E1; apply in_elt|congruence].
      + subst p b. destruct (find_here c rest false (b_tick x) IC F E3) as (c' & rest' & H & E').
        exists sec, ((x, c') :: rest'). split; [apply ended_later; exact H|]. unfold rest_bars. cbn [flat_map fst snd]. fold (rest_bars rest').
        rewrite <- ?app_comm_cons, E'. reflexivity.
      + subst p. destruct (IH c false (b_tick b) u x IC F XS E2) as (c' & rest' & H & E').
        exists sec, ((b, c') :: rest'). split; [apply ended_later; exact H|]. unfold rest_bars. cbn [flat_map fst snd]. fold (rest_bars rest').
        rewrite <- ?app_comm_cons, E', <- ?app_assoc, <- ?app_comm_cons. reflexivity.
  Qed.
End Find.

(** A repeat in an accepted score without D.C. and D.S., from its Start sign to its End sign: if its last bars are marked as the first
    ending and the bars behind it, up to a bar line without a sign at the end of a repeat, as the second, the score is accepted, and the
    first ending is left out the second time. *)
Theorem C83_signs : forall r p x m v v' y y' n n' z q t c w, let bars := p ++ x :: m ++ v ++ y :: n ++ z :: q in
  tune bars -> Forall compatible bars -> marked Dc bars = [] -> marked Ds bars = [] -> render_region r bars = Ret (Ok (c, w)) ->
  has x Start = true -> idle (m ++ v ++ n) -> has y End = true -> has y Start = false -> has z End = false -> no_var z -> Forall no_goal v ->
  hd_error (map b_tick v) = Some t ->
  Forall2 (signed Var1) v v' -> second_sign y y' -> Forall2 (signed Var2) n n' ->
  exists cs c' cs', to_chunks c = Ret cs /\ render_region r (p ++ x :: m ++ v' ++ y' :: n' ++ z :: q) = Ret (Ok (c', [])) /\ to_chunks c' = Ret cs' /\
    once_less (b_tick x) t (b_tick y) (performance cs) (performance cs').
Proof.
  intros r p x m v v' y y' n n' z q t c w bars T F A B R XS I YE YS ZE ZV NG HT SV SY SN.
  destruct (render_sound r bars c w T F R) as (C & l & gr & W & LB & S & _).
  unfold idle in I. apply Forall_app in I as [BM I]. apply Forall_app in I as [BV BN].
  assert (NJ : Forall no_jump (v ++ y :: n)).
  { pose proof (no_marks bars A B) as J. unfold bars in J. apply Forall_app in J as [_ J]. apply Forall_cons_iff in J as [_ J]. apply Forall_app in J as [_ J].
    change (y :: n ++ z :: q) with ((y :: n) ++ z :: q) in J. rewrite app_assoc in J. apply Forall_app in J. tauto. }
  destruct W as [IN FO]. destruct l as [sec rest]. cbn [fst snd] in *.
  destruct (find_ended m v v' y y' n n' z q t SV SY SN HT NJ NG BM BV BN YE YS ZE ZV rest sec true 0 p x IN FO XS LB) as (sec' & rest' & H & LB').
  rewrite <- LB in T, C, S, A, B.
  destruct (C83_endings r (sec, rest) (sec', rest') _ _ _ (conj IN FO) T C S A B H) as (c0 & cs & c' & cs' & R0 & K & R' & K' & P).
  rewrite LB in R0. rewrite R in R0. inversion R0; subst c0. exists cs, c', cs'. unfold layout_bars in R'. cbn [fst snd] in R'. rewrite LB' in R'. auto.
Qed.
Print Assumptions C83_signs.

(** The same for a repeat from the beginning, whose start is not written. *)
Theorem C83_top : forall r m v v' y y' n n' z q t c w, let bars := m ++ v ++ y :: n ++ z :: q in
  tune bars -> Forall compatible bars -> marked Dc bars = [] -> marked Ds bars = [] -> render_region r bars = Ret (Ok (c, w)) ->
  idle (m ++ v ++ n) -> has y End = true -> has y Start = false -> has z End = false -> no_var z -> Forall no_goal v ->
  hd_error (map b_tick v) = Some t ->
  Forall2 (signed Var1) v v' -> second_sign y y' -> Forall2 (signed Var2) n n' ->
  exists cs c' cs', to_chunks c = Ret cs /\ render_region r (m ++ v' ++ y' :: n' ++ z :: q) = Ret (Ok (c', [])) /\ to_chunks c' = Ret cs' /\
    once_less 0 t (b_tick y) (performance cs) (performance cs').
Proof.
  intros r m v v' y y' n n' z q t c w bars T F A B R I YE YS ZE ZV NG HT SV SY SN.
  destruct (render_sound r bars c w T F R) as (C & l & gr & W & LB & S & _).
  unfold idle in I. apply Forall_app in I as [BM I]. apply Forall_app in I as [BV BN].
  assert (NJ : Forall no_jump (v ++ y :: n)).
  { pose proof (no_marks bars A B) as J. unfold bars in J. apply Forall_app in J as [_ J].
    change (y :: n ++ z :: q) with ((y :: n) ++ z :: q) in J. rewrite app_assoc in J. apply Forall_app in J. tauto. }
  destruct W as [IN FO]. destruct l as [sec rest]. cbn [fst snd] in *.
  destruct (find_here m v v' y y' n n' z q t SV SY SN HT NJ NG BM BV BN YE YS ZE ZV sec rest true 0 IN FO LB) as (sec' & rest' & H & LB').
  rewrite <- LB in T, C, S, A, B.
  destruct (C83_endings r (sec, rest) (sec', rest') _ _ _ (conj IN FO) T C S A B H) as (c0 & cs & c' & cs' & R0 & K & R' & K' & P).
  rewrite LB in R0. rewrite R in R0. inversion R0; subst c0. exists cs, c', cs'. unfold layout_bars in R'. cbn [fst snd] in R'. rewrite LB' in R'. auto.
Qed.
Print Assumptions C83_top.

(** With a jump at [d]. *)
Theorem C83_signs_jump : forall r p x m v v' y y' n n' z q t c w cs d s, let bars := p ++ x :: m ++ v ++ y :: n ++ z :: q in
  tune bars -> Forall compatible bars -> implicit_clear bars -> small_first bars -> render_region r bars = Ret (Ok (c, w)) -> to_chunks c = Ret cs ->
  jump (actual_top (full_bar r bars)) bars d s ->
  has x Start = true -> idle (m ++ v ++ n) -> Forall no_jump (v ++ y :: n) -> has y End = true -> has y Start = false -> has z End = false -> no_var z -> Forall no_goal v ->
  hd_error (map b_tick v) = Some t ->
  Forall2 (signed Var1) v v' -> second_sign y y' -> Forall2 (signed Var2) n n' ->
  exists c' cs' first first' second, render_region r (p ++ x :: m ++ v' ++ y' :: n' ++ z :: q) = Ret (Ok (c', w)) /\ to_chunks c' = Ret cs' /\
    performance cs = first ++ second /\ performance cs' = first' ++ filter (fun i => negb ((t <=? i) && (i <? b_tick y))) second /\
    StronglySorted Z.lt second /\
    (b_tick y <= d /\ once_less (b_tick x) t (b_tick y) first first' \/ d <= b_tick x /\ first = first').
Proof.
  intros r p x m v v' y y' n n' z q t c w cs d s bars T F IC SF R TC J XS I NJ YE YS ZE ZV NG HT SV SY SN.
  destruct (render_sound r bars c w T F R) as (C & l & gr & W & LB & S & -> & B).
  destruct (proj1 (chunks_return r bars _ w T F R) (ex_intro _ cs TC) d s J) as [TCL _].
  unfold idle in I. apply Forall_app in I as [BM I]. apply Forall_app in I as [BV BN].
  assert (CO : codas_ok s bars).
  { destruct (performed r bars _ w cs T F IC R TC) as (l1 & _ & _ & [(N1 & N2 & _)|(d1 & s1 & J1 & CO & _)]).
    - exfalso. inversion J as [E1 E2|E1 E2 E3 E4|f E1 E2 E3 E4]; destruct N1; congruence.
    - destruct (jump_det _ _ _ _ _ _ J J1) as [_ <-]. exact CO. }
  assert (JO : jump_outside l) by (apply clear_outside; [exact W|rewrite LB; exact IC]).
  pose proof W as [IN FO]. destruct l as [sec rest]. cbn [fst snd] in *.
  destruct (find_ended m v v' y y' n n' z q t SV SY SN HT NJ NG BM BV BN YE YS ZE ZV rest sec true 0 p x IN FO XS LB) as (sec' & rest' & H & LB').
  assert (TCL' : top_clear (p ++ x :: m ++ v' ++ y' :: n' ++ z :: q)).
  { pose proof (same_tune _ _ (ended_same _ _ _ _ _ _ _ _ H)) as T'. unfold layout_bars in LB. cbn [fst snd] in LB. rewrite LB, LB' in T'. specialize (T' T).
    destruct (sorted_parts p x _ (proj1 T')) as [_ AF].
    assert (X0 : 0 <= b_tick x) by (apply (tune_tick bars x T), in_elt).
    unfold top_clear, bars in *. apply Forall_app in TCL as [T1 T2]. apply Forall_cons_iff in T2 as [T2 _]. apply Forall_app. split; [exact T1|].
    constructor; [exact T2|]. apply Forall_forall. intros g G E. apply AF in G. lia. }
  assert (LB2 : layout_bars (sec', rest') = p ++ x :: m ++ v' ++ y' :: n' ++ z :: q) by exact LB'.
  rewrite <- LB2 in TCL'. rewrite <- LB in T, C, S, TCL, SF, J, CO.
  destruct (C83_jump r (sec, rest) (sec', rest') _ _ _ d s W T C S TCL TCL' JO SF J CO H) as (c0 & cs0 & c' & cs' & f & f' & k & R0 & K & R' & K' & P & P' & SS & D).
  rewrite LB in R0. rewrite R in R0. inversion R0; subst c0 w. rewrite TC in K. inversion K; subst cs0. rewrite LB2 in R'.
  exists c', cs', f, f', k. rewrite LB in *. auto 10.
Qed.
Print Assumptions C83_signs_jump.

Import T_Repeat.
(** The repeat from 1920 to 3840 gets its last bar, from 2880 on, as the first ending, and the bars up to 5760 as the second. *)
Definition case_p : list bar := [bar_at 960 [Segno]].
Definition case_q : list bar := [bar_at 6720 [Ds]].
Lemma case_clear : implicit_clear (case_p ++ bar_at 1920 [Start] :: [bar_at 2400 []] ++ [bar_at 2880 []] ++ bar_at 3840 [End] :: [bar_at 4800 []] ++ bar_at 5760 [] :: case_q).
Proof.
  intros pre j mid x post E NJ I NX.
  destruct pre as [|z1 [|z2 pre]]; cbn [app case_p] in E; inversion E; subst; clear E.
  - exfalso. apply NJ. split; reflexivity.
  - exfalso. apply NJ. split; reflexivity.
  - exfalso. unfold idle in I. inversion I as [|? ? _ I2]; subst. inversion I2 as [|? ? [[N _] _] _]; subst. discriminate.
Qed.
Ltac second_tac := split; [reflexivity|]; split; [reflexivity|]; intros k; destruct k; reflexivity.
Example C83_case :
  let x := bar_at 1920 [Start] in let m := [bar_at 2400 []] in let v := [bar_at 2880 []] in let y := bar_at 3840 [End] in let n := [bar_at 4800 []] in let z := bar_at 5760 [] in
  let v' := [bar_at 2880 [Var1]] in let y' := bar_at 3840 [Var2] in let n' := [bar_at 4800 [Var2]] in
  let bars := case_p ++ x :: m ++ v ++ y :: n ++ z :: case_q in
  tune bars /\ Forall compatible bars /\ implicit_clear bars /\ small_first bars /\ jump (actual_top (full_bar four_four bars)) bars 6720 960 /\
  idle (m ++ v ++ n) /\ Forall no_jump (v ++ y :: n) /\ has y End = true /\ has y Start = false /\ has z End = false /\ no_var z /\ Forall no_goal v /\
  hd_error (map b_tick v) = Some 2880 /\ Forall2 (signed Var1) v v' /\ second_sign y y' /\ Forall2 (signed Var2) n n' /\
  (exists c, render_region four_four bars = Ret (Ok (c, [])) /\
    to_chunks c = Ret [mkChunk 0 1920; mkChunk 1920 3840; mkChunk 1920 3840; mkChunk 3840 6720; mkChunk 960 1920; mkChunk 1920 3840; mkChunk 3840 u32_max]) /\
  exists c', render_region four_four (case_p ++ x :: m ++ v' ++ y' :: n' ++ z :: case_q) = Ret (Ok (c', [])) /\
    to_chunks c' = Ret [mkChunk 0 1920; mkChunk 1920 2880; mkChunk 2880 3840; mkChunk 1920 2880; mkChunk 3840 5760; mkChunk 5760 6720;
      mkChunk 960 1920; mkChunk 1920 2880; mkChunk 3840 5760; mkChunk 5760 u32_max].
Proof.
  cbv zeta. split; [tune_tac|]. split; [compat_tac|]. split; [exact case_clear|]. split; [intros f H; vm_compute in H; inv H; unfold u32_max; lia|].
  split; [apply jump_ds; try reflexivity; vm_compute; lia|]. split; [bare_tac|]. split; [repeat constructor|].
  split; [reflexivity|]. split; [reflexivity|]. split; [reflexivity|]. split; [intros k K; destruct k; try discriminate; reflexivity|]. split; [repeat constructor|]. split; [reflexivity|].
  split; [constructor; [second_tac|constructor]|]. split; [second_tac|]. split; [constructor; [second_tac|constructor]|]. split.
  - eexists. split; [vm_compute; reflexivity|]. vm_compute. reflexivity.
  - eexists. split; [vm_compute; reflexivity|]. vm_compute. reflexivity.
Qed.

(** Without a jump: the second ending lasts up to the start of another repeat; and from the beginning. *)
Example C83_plain_case :
  let m := [bar_at 960 []] in let v := [bar_at 1920 []; bar_at 2880 [Fine]] in let y := bar_at 3840 [End] in let z := bar_at 4800 [Start] in let q := [bar_at 5760 [End]] in
  let v' := [bar_at 1920 [Var1]; bar_at 2880 [Fine; Var1]] in let y' := bar_at 3840 [Var2] in
  let bars := m ++ v ++ y :: [] ++ z :: q in let longer := [bar_at 240 []] ++ bar_at 480 [Start] :: bars in
  tune bars /\ Forall compatible bars /\ marked Dc bars = [] /\ marked Ds bars = [] /\
  tune longer /\ Forall compatible longer /\ marked Dc longer = [] /\ marked Ds longer = [] /\
  idle (m ++ v ++ []) /\ has y End = true /\ has y Start = false /\ has z End = false /\ no_var z /\ Forall no_goal v /\
  hd_error (map b_tick v) = Some 1920 /\ Forall2 (signed Var1) v v' /\ second_sign y y' /\
  (exists c, render_region four_four bars = Ret (Ok (c, []))) /\ (exists c, render_region four_four longer = Ret (Ok (c, []))) /\
  (exists c', render_region four_four (m ++ v' ++ y' :: [] ++ z :: q) = Ret (Ok (c', [])) /\
    to_chunks c' = Ret [mkChunk 0 1920; mkChunk 1920 3840; mkChunk 0 1920; mkChunk 3840 4800; mkChunk 4800 5760; mkChunk 4800 5760; mkChunk 5760 u32_max]) /\
  (exists c', render_region four_four ([bar_at 240 []] ++ bar_at 480 [Start] :: m ++ v' ++ y' :: [] ++ z :: q) = Ret (Ok (c', [])) /\
    to_chunks c' = Ret [mkChunk 0 480; mkChunk 480 1920; mkChunk 1920 3840; mkChunk 480 1920; mkChunk 3840 4800; mkChunk 4800 5760; mkChunk 4800 5760; mkChunk 5760 u32_max]).
Proof.
  cbv zeta. split; [tune_tac|]. split; [compat_tac|]. split; [reflexivity|]. split; [reflexivity|].
  split; [tune_tac|]. split; [compat_tac|]. split; [reflexivity|]. split; [reflexivity|]. split; [bare_tac|].
  split; [reflexivity|]. split; [reflexivity|]. split; [reflexivity|]. split; [intros k K; destruct k; try discriminate; reflexivity|]. split; [repeat constructor|]. split; [reflexivity|].
  split; [constructor; [second_tac|constructor; [second_tac|constructor]]|]. split; [second_tac|].
  split; [eexists; vm_compute; reflexivity|]. split; [eexists; vm_compute; reflexivity|].
  split; (eexists; split; [vm_compute; reflexivity|vm_compute; reflexivity]).
Qed.

(** A Segno in what becomes the first ending is refused, also without a jump. *)
Theorem C83_segno_refuted :
  (exists c, render_region four_four [bar_at 960 [Start]; bar_at 1920 [Segno]; bar_at 2880 [End]; bar_at 3840 []] = Ret (Ok (c, []))) /\
  render_region four_four [bar_at 960 [Start]; bar_at 1920 [Segno; Var1]; bar_at 2880 [Var2]; bar_at 3840 []] = Ret (Err (SegnoWhileVariation 3840)).
Proof. split; [eexists; vm_compute; reflexivity|]. vm_compute. reflexivity. Qed.
Print Assumptions C83_segno_refuted.
