(** Property theorems about taking an edit back by hand, after other edits: C94. *)
From Coq Require Import ZArith List Bool Lia Sorted Permutation.
From Verif Require Import Base M_Pitch M_Duration M_Percent M_Scalar M_Bar M_Note M_Store M_Tuple M_Models M_Project M_Repeat.
From Verif Require Import S_Project S_Score S_Effect S_Safe S_Move S_Order P_Base P_Store P_Query P_Replenish P_Edit P_History P_Effect.
From Verif Require Import T_Move T_Order.
From Verif Require S_Blank T_Blank T_Project T_Safe.
Import ListNotations.
Open Scope Z_scope.

(** Taking out again. *)
Lemma unput_store {V} (tick : V -> Z) s O I into s1 s2 : free tick s O into -> (forall v, In v into -> ~ In (tick v) (map tick I)) ->
  (forall k v, In (k, v) s1 <-> then_at tick s O (I ++ into) k v) -> overwritten tick s1 (map tick into) [] s2 ->
  forall k v, In (k, v) s2 <-> then_at tick s O I k v.
Proof.
  intros F D H1 H2 k v. rewrite (H2 k v). cbn [In map]. unfold then_at in *. split.
  - intros [[[] _]|(_ & N & A)]. apply H1 in A as [[A ->]|(N1 & N2 & A)].
    + apply in_app_iff in A as [A|A]; [left; auto|]. exfalso. apply N, in_map, A.
    + right. rewrite map_app, in_app_iff in N1. tauto.
  - intros A. right. split; [auto|]. split.
    + intros J. apply in_map_iff in J as (x & <- & J). destruct A as [[A E]|(N1 & N2 & A)].
      * apply (D x J). rewrite E. apply in_map, A.
      * destruct (F x J) as [X|X]; [auto|]. apply X. apply (in_map fst) in A. exact A.
    + apply H1. destruct A as [[A ->]|(N1 & N2 & A)]; [left; split; [apply in_app_iff; auto|reflexivity]|]. right. split; [|auto].
      rewrite map_app, in_app_iff. intros [J|J]; [auto|]. apply in_map_iff in J as (x & <- & J). destruct (F x J) as [X|X]; [auto|]. apply X. apply (in_map fst) in A. exact A.
Qed.
Lemma unput_bars s O I into s1 s2 : free b_tick s O into -> (forall v, In v into -> ~ In (b_tick v) (map b_tick I)) ->
  (forall k b, then_at b_tick s O (I ++ into) k b -> In (k, b) s1) ->
  (forall k b, In (k, b) s1 -> then_at b_tick s O (I ++ into) k b \/ blank b /\ forall b', ~ then_at b_tick s O (I ++ into) k b') ->
  overwritten b_tick s1 (map b_tick into) [] s2 ->
  (forall k b, then_at b_tick s O I k b -> In (k, b) s2) /\
  (forall k b, In (k, b) s2 -> then_at b_tick s O I k b \/ blank b /\ forall b', ~ then_at b_tick s O I k b').
Proof.
  intros F D H1 H2 H3.
  assert (K : forall k b, then_at b_tick s O I k b -> ~ In k (map b_tick into) /\ then_at b_tick s O (I ++ into) k b).
  { intros k b A. assert (N : ~ In k (map b_tick into)).
    { intros J. apply in_map_iff in J as (x & <- & J). destruct A as [[A E]|(N1 & N2 & A)].
      - apply (D x J). rewrite E. apply in_map, A.
      - destruct (F x J) as [X|X]; [auto|]. apply X. apply (in_map fst) in A. exact A. }
    split; [exact N|]. destruct A as [[A ->]|(N1 & N2 & A)]; [left; split; [apply in_app_iff; auto|reflexivity]|]. right. rewrite map_app, in_app_iff. tauto. }
  split.
  - intros k b A. apply K in A as [N A]. apply H3. right. cbn. auto.
  - intros k b A. apply H3 in A as [[[] _]|(_ & N & A)]. destruct (H2 k b A) as [[[J ->]|(N1 & N2 & J)]|[B X]].
    + apply in_app_iff in J as [J|J]; [left; left; auto|]. exfalso. apply N, in_map, J.
    + left. right. rewrite map_app, in_app_iff in N1. tauto.
    + right. split; [exact B|]. intros b' J. apply K in J as [_ J]. apply (X b' J).
Qed.

(** Putting back. *)
Lemma back_store {V} (tick : V -> Z) s O I out s1 s2 : contains_all tick s out -> keyed tick s -> (forall v, In v out -> ~ In (tick v) (map tick I)) -> (forall v, In v out -> ~ In (tick v) (map tick O)) ->
  (forall k v, In (k, v) s1 <-> then_at tick s (O ++ out) I k v) -> overwritten tick s1 [] out s2 ->
  forall k v, In (k, v) s2 <-> then_at tick s O I k v.
Proof.
  intros C KS D D' H1 H2 k v. rewrite (H2 k v). unfold then_at in *. split.
  - intros [[A ->]|(N & _ & A)]; [right; split; [auto|split; [auto|apply C, A]]|]. apply H1 in A as [A|(N1 & N2 & A)]; [left; exact A|]. right. rewrite map_app, in_app_iff in N2. tauto.
  - intros [[A ->]|(N1 & N2 & A)].
    + right. split; [|split; [intros []|apply H1; left; auto]]. intros J. apply in_map_iff in J as (x & E & J). apply (D x J). rewrite E. apply in_map, A.
    + destruct (in_dec Z.eq_dec k (map tick out)) as [J|J].
      * left. apply in_map_iff in J as (x & E & J). pose proof (C x J) as B. rewrite E in B. apply keyed_srt in KS.
        apply (get_In _ _ _ _ KS) in A. apply (get_In _ _ _ _ KS) in B. assert (x = v) by congruence. subst. auto.
      * right. split; [exact J|]. split; [intros []|]. apply H1. right. rewrite map_app, in_app_iff. tauto.
Qed.
Lemma back_bars s O I out more s1 s2 : contains_all b_tick s out -> keyed b_tick s -> (forall v, In v out -> ~ In (b_tick v) (map b_tick I)) -> (forall v, In v out -> ~ In (b_tick v) (map b_tick O)) ->
  (forall k b, then_at b_tick s (O ++ out) I k b -> In (k, b) s1) ->
  (forall k b, In (k, b) s1 -> then_at b_tick s (O ++ out) I k b \/ blank b /\ forall b', ~ then_at b_tick s (O ++ out) I k b') ->
  overwritten b_tick s1 [] (out ++ more) s2 -> Forall blank more -> (forall b t v, In b more -> then_at b_tick s1 [] out t v -> t < b_tick b) ->
  (forall k b, then_at b_tick s O I k b -> In (k, b) s2) /\
  (forall k b, In (k, b) s2 -> then_at b_tick s O I k b \/ blank b /\ forall b', ~ then_at b_tick s O I k b').
Proof.
  intros C KS D D' H1 H2 H3 B L.
  assert (K : forall k b, then_at b_tick s O I k b -> then_at b_tick s1 [] out k b).
  { intros k b [[A ->]|(N1 & N2 & A)].
    - right. split; [|split; [intros []|apply H1; left; auto]]. intros J. apply in_map_iff in J as (x & E & J). apply (D x J). rewrite E. apply in_map, A.
    - destruct (in_dec Z.eq_dec k (map b_tick out)) as [J|J].
      + left. apply in_map_iff in J as (x & E & J). pose proof (C x J) as X. rewrite E in X. apply keyed_srt in KS.
        apply (get_In _ _ _ _ KS) in A. apply (get_In _ _ _ _ KS) in X. assert (x = b) by congruence. subst. auto.
      + right. split; [exact J|]. split; [intros []|]. apply H1. right. rewrite map_app, in_app_iff. tauto. }
  split.
  - intros k b A. apply K in A. apply H3. pose proof A as A'. destruct A as [[A ->]|(N1 & N2 & A)]; [left; split; [apply in_app_iff; auto|reflexivity]|].
    right. split; [|auto]. rewrite map_app, in_app_iff. intros [M|M]; [auto|]. apply in_map_iff in M as (g & <- & M). specialize (L g _ b M A'). lia.
  - intros k b A. apply H3 in A as [[A ->]|(N1 & _ & A)].
    + apply in_app_iff in A as [A|A]; [left; right; split; [auto|split; [auto|apply C, A]]|]. right. rewrite Forall_forall in B. split; [auto|]. intros b' J. apply K in J. specialize (L b _ b' A J). lia.
    + rewrite map_app, in_app_iff in N1. destruct (H2 k b A) as [[J|(N3 & N4 & J)]|[BL X]].
      * left. left. exact J.
      * left. right. rewrite map_app, in_app_iff in N4. tauto.
      * right. split; [exact BL|]. intros b' [J|(N3 & N4 & J)]; [apply (X b'); left; exact J|]. apply (X b'). right. rewrite map_app, in_app_iff. tauto.
Qed.

Lemma unput p A B out into q q1 k : project_ok q -> moved p (m_both A out) (m_both B into) q -> all_present p (m_both A out) ->
  all_free p (m_both A out) into -> all_elsewhere into B ->
  models_typed into -> edit_run (EBulkRemove into) q = Ret (Some (q1, k)) -> project_ok q1 /\ moved p (m_both A out) B q1.
Proof.
  intros OQ M P0 [F1 F2 F3 F4] [D1 D2 D3 D4] T E.
  assert (P : all_present q into).
  { destruct M as [M1 M2 M3 M4 M5 M6 M7]. constructor.
    - destruct P0 as [[rest P0] _ _ _ _]. exists (rest ++ m_notes B). cbn [m_both m_notes] in *. apply (Permutation_app_inv_r (m_notes A ++ m_notes out)). rewrite M2, P0.
      rewrite (Permutation_app_comm ((m_notes into ++ rest ++ m_notes B))). rewrite <- !app_assoc. apply Permutation_app_head, Permutation_app_head.
      rewrite (Permutation_app_comm (m_notes into)), <- !app_assoc. reflexivity.
    - intros v J. apply M3. left. split; [apply in_app_iff; auto|reflexivity].
    - intros v J. apply M5. left. split; [apply in_app_iff; auto|reflexivity].
    - intros v J. apply M6. left. split; [apply in_app_iff; auto|reflexivity].
    - intros v J. apply M7. left. split; [apply in_app_iff; auto|reflexivity]. }
  assert (MV : moves (EBulkRemove into) into models_empty) by constructor.
  destruct (T_Project.C50_edit (EBulkRemove into) _ _ _ _ _ OQ T P MV E) as (more & [X1 X2 X3 X4 X5 X6] & Z & _). rewrite (Z eq_refl) in *. cbn [models_empty m_notes m_bars m_tempos m_dumpers m_softs app] in *.
  split; [apply (edit_ok (EBulkRemove into) _ _ _ OQ T E)|]. destruct M as [M1 M2 M3 M4 M5 M6 M7]. destruct (unput_bars _ _ _ _ _ _ F1 D1 M3 M4 X3) as [B1 B2].
  constructor; auto; try (eapply unput_store; eassumption).
  - destruct M1 as (a & b & c), X1 as (d & e & f). repeat split; congruence.
  - cbn [m_both m_notes] in *. apply (Permutation_app_inv_r (m_notes into)). rewrite app_nil_r in X2. rewrite <- (app_assoc _ (m_notes B)), <- M2, <- X2, <- !app_assoc. apply Permutation_app_head.
    rewrite (app_assoc (m_notes A)), (Permutation_app_comm (m_notes into)), <- !app_assoc. reflexivity.
Qed.

Lemma putback p A B out q q1 k : project_ok p -> project_ok q -> moved p (m_both A out) B q -> all_present p (m_both A out) -> all_elsewhere out A -> all_elsewhere out B ->
  all_distinct out -> models_typed out -> edit_run (EBulkAdd out) q = Ret (Some (q1, k)) -> project_ok q1 /\ moved p A B q1.
Proof.
  intros O OQ M [_ P2 P3 P4 P5] [F1 F2 F3 F4] [G1 G2 G3 G4] DI T E.
  assert (PE : all_present q models_empty) by (apply present_empty).
  destruct (any_step (EBulkAdd out) models_empty out q q1 k OQ T (mv_add out) PE DI E) as (OQ' & more & [X1 X2 X3 X4 X5 X6] & B0 & L). split; [exact OQ'|].
  destruct M as [M1 M2 M3 M4 M5 M6 M7]. cbn [m_both models_empty m_notes m_bars m_tempos m_dumpers m_softs app map] in *.
  assert (C1 : contains_all b_tick (pj_bars p) (m_bars out)) by (intros v J; apply P2, in_app_iff; auto).
  assert (C2 : contains_all tp_tick (pj_tempos p) (m_tempos out)) by (intros v J; apply P3, in_app_iff; auto).
  assert (C3 : contains_all cc_tick (pj_dumpers p) (m_dumpers out)) by (intros v J; apply P4, in_app_iff; auto).
  assert (C4 : contains_all cc_tick (pj_softs p) (m_softs out)) by (intros v J; apply P5, in_app_iff; auto).
  destruct (back_bars _ _ _ _ _ _ _ C1 (ok_bars _ O) G1 F1 M3 M4 X3 B0 L) as [B1 B2].
  constructor; auto.
  - destruct M1 as (a & b & c), X1 as (d & e & f). repeat split; congruence.
  - rewrite app_nil_r in X2. rewrite X2, <- app_assoc, (Permutation_app_comm (m_notes out)). exact M2.
  - eapply back_store; try eassumption. apply ok_tempos, O.
  - eapply back_store; try eassumption. apply ok_dumpers, O.
  - eapply back_store; try eassumption. apply ok_softs, O.
Qed.

Lemma moved_alike p A B A' B' q : alike_models A A' -> alike_models B B' -> moved p A B q -> moved p A' B' q.
Proof.
  intros X Y [M1 M2 M3 M4 M5 M6 M7]. destruct (am_same _ _ X) as (X1 & X2 & X3 & X4 & X5), (am_same _ _ Y) as (Y1 & Y2 & Y3 & Y4 & Y5). constructor; auto.
  - rewrite <- X1, <- Y1. exact M2.
  - intros k b H. apply M3. eapply then_same; eassumption.
  - intros k b H. destruct (M4 k b H) as [J|[J N]]; [left; eapply then_same; [intros; symmetry; apply X2|intros; symmetry; apply Y2|exact J]|right]. split; [exact J|].
    intros b' H'. apply (N b'). eapply then_same; eassumption.
  - intros k v. rewrite M5. apply then_same; assumption.
  - intros k v. rewrite M6. apply then_same; assumption.
  - intros k v. rewrite M7. apply then_same; assumption.
Qed.
Lemma am_sym m m' : alike_models m m' -> alike_models m' m.
Proof. intros []. constructor; symmetry; assumption. Qed.
Lemma am_comm m m' : alike_models (m_both m m') (m_both m' m).
Proof. constructor; cbn; apply Permutation_app_comm. Qed.
Lemma settled_app es es' p : settled (es ++ es') p = settled es' (settled es p).
Proof. apply fold_left_app. Qed.
Lemma settled_middle e out into es es' p : moves e out into -> settled (es ++ e :: es') p = settled (es ++ es') p.
Proof. intros M. rewrite !settled_app. cbn. rewrite (moves_keep e out into _ M). reflexivity. Qed.

(** The state after [es ++ e :: es']. *)
Lemma middle_moved p e es es' out into OUT INTO q : project_ok p -> Forall edit_typed (es ++ e :: es') -> moves e out into -> all_take (es ++ es') OUT INTO ->
  all_present p (m_both OUT out) -> all_distinct (m_both INTO into) -> ForallOrdPairs apart (es ++ e :: es') ->
  edits_done p (es ++ e :: es') q -> project_ok q /\ moved (settled (es ++ es') p) (m_both OUT out) (m_both INTO into) q /\ Forall (apart e) (es ++ es').
Proof.
  intros O T M K P D F R. assert (X : Permutation (e :: es ++ es') (es ++ e :: es')) by apply Permutation_middle.
  pose proof (at_cons e out into (es ++ es') OUT INTO (tk_moves _ _ _ M) K) as K1. destruct (takes_any _ _ X _ _ K1) as (o & i & K2 & A & B).
  pose proof (am_trans _ _ _ (am_comm OUT out) A) as A'. pose proof (am_trans _ _ _ (am_comm INTO into) B) as B'.
  destruct (edits_all p _ o i q O T K2) as [OQ MV]; auto.
  - eapply am_present; eassumption.
  - eapply am_distinct; eassumption.
  - split; [exact OQ|]. split.
    + rewrite (settled_middle e out into es es' p M) in MV. eapply moved_alike; [apply am_sym; exact A'|apply am_sym; exact B'|exact MV].
    + pose proof (pairs_any _ _ (Permutation_sym X) F) as G. inversion G; assumption.
Qed.
Lemma all_settle es p m : all_present p m -> all_present (settled es p) m.
Proof. revert p. induction es as [|e es IH]; intros p H; [exact H|]. apply (IH (settle e p)), settle_present, H. Qed.
Lemma free_settle es p m m' : all_free p m m' -> all_free (settled es p) m m'.
Proof. revert p. induction es as [|e es IH]; intros p H; [exact H|]. apply (IH (settle e p)). destruct H. destruct e; constructor; assumption. Qed.
Lemma ok_settle es p : project_ok p -> project_ok (settled es p).
Proof. revert p. induction es as [|e es IH]; intros p H; [exact H|]. apply (IH (settle e p)). destruct H. destruct e; constructor; assumption. Qed.
Lemma pairs_without e es es' : ForallOrdPairs apart (es ++ e :: es') -> ForallOrdPairs apart (es ++ es').
Proof. intros F. apply (pairs_any _ (e :: es ++ es')) in F; [inversion F; assumption|]. symmetry. apply Permutation_middle. Qed.
Lemma typed_without e es es' : Forall edit_typed (es ++ e :: es') -> Forall edit_typed (es ++ es').
Proof. rewrite !Forall_app. intros [A B]. inversion B; auto. Qed.
Lemma distinct_else m m' : all_distinct (m_both m m') -> all_elsewhere m' m.
Proof.
  intros [D1 D2 D3 D4]. apply all_flip. constructor; intros v I; [apply (apart_ticks b_tick _ _ v D1 I)|apply (apart_ticks tp_tick _ _ v D2 I)|apply (apart_ticks cc_tick _ _ v D3 I)|apply (apart_ticks cc_tick _ _ v D4 I)].
Qed.
Lemma free_more p A out into : all_free p out into -> all_free p (m_both A out) into.
Proof. intros [F1 F2 F3 F4]. constructor; intros v I; cbn [m_both m_bars m_tempos m_dumpers m_softs]; rewrite map_app, in_app_iff; [destruct (F1 v I)|destruct (F2 v I)|destruct (F3 v I)|destruct (F4 v I)]; auto. Qed.
Lemma else_of e out into es OUT INTO : takes e out into -> all_take es OUT INTO -> Forall (apart e) es -> all_elsewhere out OUT /\ all_elsewhere out INTO.
Proof.
  intros K A. induction A as [|f a' b' es OUT INTO T A IH]; intros F; [split; apply all_flip, else_nil|].
  inversion F as [|? ? [_ F1] F2]; subst. destruct (IH F2) as [I1 I2]. destruct (F1 _ _ _ _ K T) as (H1 & H2 & H3). rewrite !else_right. auto.
Qed.

(** Whatever edits of other elements are made before it and after it: deleting what an edit has put in and pasting what it has taken out leads
    to the project that the other edits alone lead to, but for blank bars, if the edit wrote over nothing. *)
Theorem C94_by_hand : forall p e es es' out into OUT INTO q q1 q', project_ok p -> Forall edit_typed (es ++ e :: es') -> moves e out into -> all_take (es ++ es') OUT INTO ->
  all_present p (m_both OUT out) -> all_distinct (m_both INTO into) -> all_distinct out -> all_free p out into -> ForallOrdPairs apart (es ++ e :: es') ->
  edits_done p (es ++ e :: es') q -> edits_done q [EBulkRemove into; EBulkAdd out] q1 -> edits_done p (es ++ es') q' -> apart_from_blanks q1 q'.
Proof.
  intros p e es es' out into OUT INTO q q1 q' O T M K P D D' FR F R R1 R'. destruct (middle_moved p e es es' out into OUT INTO q O T M K P D F R) as (OQ & MV & FA).
  destruct (else_of e out into _ OUT INTO (tk_moves _ _ _ M) K FA) as [E1 E2].
  assert (TE : edit_typed e) by (apply Forall_app in T as [_ T]; inversion T; assumption). destruct (moves_typed _ _ _ M TE) as [T1 T2].
  inversion R1 as [|? ? k r ? ? S1 S2]; subst. inversion S2 as [|? ? k2 r2 ? ? S3 S4]; subst. inversion S4; subst.
  destruct (unput (settled (es ++ es') p) OUT INTO out into q r k OQ MV (all_settle _ _ _ P) (free_settle _ _ _ _ (free_more _ _ _ _ FR)) (distinct_else _ _ D) T2 S1) as [OR MR].
  destruct (putback (settled (es ++ es') p) OUT INTO out r q1 k2 (ok_settle _ _ O) OR MR (all_settle _ _ _ P) E1 E2 D' T1 S3) as [OR1 MR1].
  destruct (edits_all p (es ++ es') OUT INTO q' O (typed_without _ _ _ T) K (present_left _ _ _ P) (distinct_left _ _ D) (pairs_without _ _ _ F) R') as [OQ' M'].
  apply (moved_same (settled (es ++ es') p) OUT INTO OUT INTO q1 q'); auto; apply same_refl.
Qed.
Print Assumptions C94_by_hand.

(** So the same is in force everywhere, and the same is played under the conditions of C93. *)
Lemma done_ok p es q : project_ok p -> Forall edit_typed es -> edits_done p es q -> project_ok q.
Proof.
  intros O T R. revert O T. induction R as [|p e k p1 es q E R IH]; intros O T; [exact O|]. inversion T; subst. apply IH; [apply (edit_ok e p p1 k); assumption|assumption].
Qed.
Theorem C94_heard : forall p e es es' out into OUT INTO q q1 q', project_ok p -> Forall edit_typed (es ++ e :: es') -> moves e out into -> all_take (es ++ es') OUT INTO ->
  all_present p (m_both OUT out) -> all_distinct (m_both INTO into) -> all_distinct out -> all_free p out into -> ForallOrdPairs apart (es ++ e :: es') ->
  edits_done p (es ++ e :: es') q -> edits_done q [EBulkRemove into; EBulkAdd out] q1 -> edits_done p (es ++ es') q' ->
  (forall t, rhythm_at q1 t = rhythm_at q' t /\ key_at q1 t = key_at q' t /\ tempo_at q1 t = tempo_at q' t /\ dumper_at q1 t = dumper_at q' t /\ soft_at q1 t = soft_at q' t) /\
  ((forall b, S_Blank.only_in q1 q' b -> S_Blank.passed_over q1 b) -> (forall b, S_Blank.only_in q' q1 b -> S_Blank.passed_over q' b) -> render_project q1 = render_project q').
Proof.
  intros p e es es' out into OUT INTO q q1 q' O T M K P D D' FR F R R1 R'. pose proof (C94_by_hand p e es es' out into OUT INTO q q1 q' O T M K P D D' FR F R R1 R') as A.
  assert (TE : edit_typed e) by (apply Forall_app in T as [_ T]; inversion T; assumption). destruct (moves_typed _ _ _ M TE) as [T1 T2].
  pose proof (done_ok p _ q O T R) as OQ. assert (O1 : project_ok q1) by (apply (done_ok q _ q1 OQ) in R1; [exact R1|apply Forall_cons; [exact T2|apply Forall_cons; [exact T1|apply Forall_nil]]]).
  pose proof (done_ok p _ q' O (typed_without _ _ _ T) R') as O'. split; [intros t; apply T_Blank.C93_in_force; assumption|]. intros H H'. apply T_Blank.C93_heard; assumption.
Qed.
Print Assumptions C94_heard.

(** What was added and is deleted later leaves nothing behind, *)
Theorem C94_added : forall p e es es' into OUT INTO q q1 q', project_ok p -> Forall edit_typed (es ++ e :: es') -> moves e models_empty into -> all_take (es ++ es') OUT INTO ->
  all_present p OUT -> all_distinct (m_both INTO into) -> all_free p models_empty into -> ForallOrdPairs apart (es ++ e :: es') ->
  edits_done p (es ++ e :: es') q -> edits_done q [EBulkRemove into] q1 -> edits_done p (es ++ es') q' -> apart_from_blanks q1 q'.
Proof.
  intros p e es es' into OUT INTO q q1 q' O T M K P D FR F R R1 R'. rewrite <- (both_nil OUT) in P.
  destruct (middle_moved p e es es' models_empty into OUT INTO q O T M K P D F R) as (OQ & MV & FA).
  assert (TE : edit_typed e) by (apply Forall_app in T as [_ T]; inversion T; assumption). destruct (moves_typed _ _ _ M TE) as [T1 T2].
  inversion R1 as [|? ? k r ? ? S1 S2]; subst. inversion S2; subst.
  destruct (unput (settled (es ++ es') p) OUT INTO models_empty into q q1 k OQ MV (all_settle _ _ _ P) (free_settle _ _ _ _ (free_more _ _ _ _ FR)) (distinct_else _ _ D) T2 S1) as [OR MR].
  rewrite both_nil in *.
  destruct (edits_all p (es ++ es') OUT INTO q' O (typed_without _ _ _ T) K P (distinct_left _ _ D) (pairs_without _ _ _ F) R') as [OQ' M'].
  apply (moved_same (settled (es ++ es') p) OUT INTO OUT INTO q1 q'); auto; apply same_refl.
Qed.
Print Assumptions C94_added.

(** and what was deleted and is pasted back later is as if it had stayed. *)
Theorem C94_deleted : forall p es es' m OUT INTO q q1 q', project_ok p -> Forall edit_typed (es ++ EBulkRemove m :: es') -> all_take (es ++ es') OUT INTO ->
  all_present p (m_both OUT m) -> all_distinct INTO -> all_distinct m -> ForallOrdPairs apart (es ++ EBulkRemove m :: es') ->
  edits_done p (es ++ EBulkRemove m :: es') q -> edits_done q [EBulkAdd m] q1 -> edits_done p (es ++ es') q' -> apart_from_blanks q1 q'.
Proof.
  intros p es es' m OUT INTO q q1 q' O T K P D D' F R R1 R'.
  apply (C94_by_hand p (EBulkRemove m) es es' m models_empty OUT INTO q q1 q'); auto.
  - constructor.
  - rewrite both_nil. exact D.
  - constructor; intros v [].
  - econstructor; [|exact R1]. cbn. f_equal. destruct q. reflexivity.
Qed.
Print Assumptions C94_deleted.

(** A tempo written over another one cannot be taken back by deleting it. *)
Theorem C94_over_refuted : exists p e into q q1, project_ok p /\ edit_typed e /\ moves e models_empty into /\ all_distinct into /\
  edits_done p [e] q /\ edits_done q [EBulkRemove into] q1 /\ ~ apart_from_blanks q1 p.
Proof.
  exists T_Project.ex_project, (EAddTempo (mkTempo 960 100)), (mkModels [] [] [mkTempo 960 100] [] []). eexists. eexists.
  split; [exact T_Project.ex_project_ok|]. split; [unfold edit_typed, u32, u32_max; cbn; lia|]. split; [constructor|].
  split; [distinct|]. split; [eapply done_cons; [vm_compute; reflexivity|apply done_nil]|]. split; [eapply done_cons; [vm_compute; reflexivity|apply done_nil]|].
  intros A. apply ap_tempos in A. cbn in A. discriminate.
Qed.
Print Assumptions C94_over_refuted.

Lemma moves_safe e out into : moves e out into -> edit_safe e -> safe out /\ safe into.
Proof.
  assert (E : safe models_empty) by (unfold safe; cbn; auto 10).
  intros [n|b|t|c|c|l t H|m|m|c] H1; cbn in H1; auto; unfold safe; cbn [m_notes m_bars m_tempos m_dumpers m_softs models_empty]; auto 10.
  destruct H1 as [H1 H2]. destruct (T_Safe.tuplize_safe l H1 H2) as (t' & H3 & H4). rewrite H3 in H. injection H as ->. auto 12.
Qed.
(** With elements that cannot make the program panic all of this goes through. *)
Theorem C94_safe : forall p e es es' out into OUT INTO, safe_project p -> Forall edit_safe (es ++ e :: es') -> Forall (fun e => records e = true) (es ++ e :: es') ->
  moves e out into -> all_take (es ++ es') OUT INTO ->
  all_present p (m_both OUT out) -> all_distinct (m_both INTO into) -> all_distinct out -> all_free p out into -> ForallOrdPairs apart (es ++ e :: es') ->
  exists q q1 q', edits_done p (es ++ e :: es') q /\ edits_done q [EBulkRemove into; EBulkAdd out] q1 /\ edits_done p (es ++ es') q' /\ apart_from_blanks q1 q'.
Proof.
  intros p e es es' out into OUT INTO SP SE N M K P D D' FR F. destruct (edits_go _ p SP SE N) as (q & R & SQ).
  assert (S0 : edit_safe e) by (revert SE; rewrite Forall_forall; intros SE; apply SE, in_app_iff; cbn; tauto). destruct (moves_safe e out into M S0) as [SO SI].
  destruct (edits_go [EBulkRemove into; EBulkAdd out] q SQ) as (q1 & R1 & _); [repeat (apply Forall_cons; [assumption|]); apply Forall_nil|repeat constructor|].
  assert (W : forall Q : edit -> Prop, Forall Q (es ++ e :: es') -> Forall Q (es ++ es')) by (intros Q; rewrite !Forall_app; intros [A B]; inversion B; auto).
  destruct (edits_go (es ++ es') p SP (W _ SE) (W _ N)) as (q' & R' & _). exists q, q1, q'. split; [exact R|]. split; [exact R1|]. split; [exact R'|].
  apply (C94_by_hand p e es es' out into OUT INTO q q1 q'); auto; [apply SP|]. eapply Forall_impl; [|exact SE]. intros x. apply T_Safe.safe_edit_typed.
Qed.
Print Assumptions C94_safe.

(** The change of the edits of C92: the note and the pedal event that were moved are brought back, after other edits and before others. *)
Example C94_case : safe_project T_Project.ex_project /\ mixed = [ESetRhythm (mkRhythm 2 D4); far; drop] ++ EChange press :: [EAddTempo (mkTempo 480 90)] /\
  Forall edit_safe mixed /\ Forall (fun e => records e = true) mixed /\ moves (EChange press) (changes_from press) (changes_to press) /\
  (exists OUT INTO, all_take ([ESetRhythm (mkRhythm 2 D4); far; drop] ++ [EAddTempo (mkTempo 480 90)]) OUT INTO /\
    all_present T_Project.ex_project (m_both OUT (changes_from press)) /\ all_distinct (m_both INTO (changes_to press))) /\
  all_distinct (changes_from press) /\ all_free T_Project.ex_project (changes_from press) (changes_to press) /\ ForallOrdPairs apart mixed.
Proof.
  destruct C92_case as (A & B & C & D & _). split; [exact A|]. split; [reflexivity|]. split; [exact B|]. split; [exact C|]. split; [constructor|].
  split.
  { eexists. eexists. split. { cbn [app]. repeat (apply at_cons; [first [apply tk_rhythm|apply tk_moves; constructor]|]). apply at_nil. }
    split; [|distinct]. constructor; [|storewise..]. exists [T_Project.ex_note 0 SC; T_Project.ex_note 480 SE]. cbn.
    etransitivity; [|apply Permutation_app_comm with (l := [_; _]) (l' := [_; _])]. cbn. apply perm_skip, perm_skip, perm_swap. }
  split; [distinct|]. split; [constructor; storewise|exact D].
Qed.
