(** Property theorems about making an edit once more: C99. *)
From Coq Require Import ZArith List Bool Lia Sorted Permutation.
From Verif Require Import Base M_Pitch M_Duration M_Percent M_Scalar M_Bar M_Note M_Store M_Tuple M_Models M_Project.
From Verif Require Import S_Project S_Score S_Effect S_Safe S_Move S_Anew P_Base P_Store P_Query P_Replenish P_Edit P_History P_Effect.
From Verif Require Import T_Move.
From Verif Require T_Project.
Import ListNotations.
Open Scope Z_scope.

Lemma runs_bars F A rep p p' c : project_ok p -> models_typed A -> runs F A rep p = Ret (Some (p', c)) ->
  exists more, pj_bars p' = pj_bars (exchange F A p) ++ map bar_entry more /\ Forall blank more /\ forall b k v, In b more -> In (k, v) (pj_bars (exchange F A p)) -> k < b_tick b.
Proof.
  intros O TA E. unfold runs in E. apply bind_ret in E as ([p2 more] & E1 & E2). apply ret_inj in E2. injection E2 as <- <-. exists more.
  pose proof (exchange_ok F A p O TA) as O1. destruct rep.
  - destruct (replenish_ok _ _ _ (ok_bars _ O1) E1) as [-> [K [T S0]]]. cbn [pj_set_bars pj_bars]. split; [reflexivity|]. split.
    + apply Forall_forall. intros b I. destruct (T b I) as (_ & _ & A1 & A2 & A3). repeat split; auto.
    + intros b k v I J. destruct (T b I) as (L & _). apply (last_tick_max _ (ok_bars _ O1)) in J. lia.
  - apply ret_inj in E1. injection E1 as <- <-. cbn [map]. rewrite app_nil_r. split; [reflexivity|]. split; [constructor|intros b k v []].
Qed.

Lemma written_again {V} (tick : V -> Z) s gone put s1 s2 : keyed tick s1 -> keyed tick s2 -> written_over tick s gone put s1 -> written_over tick s1 gone put s2 -> s2 = s1.
Proof.
  intros K1 K2 H1 H2. apply (store_eq tick); auto. intros k v. rewrite (H2 k v). split.
  - intros [A|(_ & _ & A)]; [apply H1; left; exact A|exact A].
  - intros A. pose proof A as B. apply H1 in B as [B|(N1 & N2 & B)]; [left; exact B|right; auto].
Qed.

Lemma bars_again s e1 e2 s1 s2 gone put more1 more2 : keyed b_tick s1 -> keyed b_tick s2 ->
  written_over b_tick s gone put e1 -> s1 = e1 ++ map bar_entry more1 -> written_over b_tick s1 gone put e2 -> s2 = e2 ++ map bar_entry more2 ->
  Forall blank more1 -> Forall blank more2 -> (forall b k v, In b more1 -> In (k, v) e1 -> k < b_tick b) -> (forall b k v, In b more2 -> In (k, v) e2 -> k < b_tick b) ->
  (forall k b, In (k, b) s1 -> In (k, b) s2 \/ blank b /\ ~ In k (map fst s2)) /\ (forall k b, In (k, b) s2 -> In (k, b) s1 \/ blank b /\ ~ In k (map fst s1)).
Proof.
  intros K1 K2 W1 S1 W2 S2 B1 B2 L1 L2. rewrite Forall_forall in B1, B2.
  assert (M : forall more k b, In (k, b) (map bar_entry more) -> In b more /\ k = b_tick b) by (intros more k b I; apply in_map_iff in I as (x & E & I); injection E as <- <-; auto).
  assert (E12 : forall k b, In (k, b) e1 -> In (k, b) e2).
  { intros k b I. apply W2. pose proof I as J. apply W1 in J as [J|(N1 & N2 & J)]; [left; exact J|right]. split; [exact N1|]. split; [exact N2|]. rewrite S1. apply in_app_iff. auto. }
  assert (E21 : forall k b, In (k, b) e2 -> In (k, b) s1).
  { intros k b I. apply W2 in I as [I|(_ & _ & I)]; [|exact I]. rewrite S1. apply in_app_iff. left. apply W1. left. exact I. }
  assert (BL : forall k b b', blank b -> In (k, b) s1 -> In (k, b') s2 -> blank b' -> b = b').
  { intros k b b' H I J H'. apply blank_eq; auto. rewrite (keyed_tick _ _ _ _ K1 I), (keyed_tick _ _ _ _ K2 J). reflexivity. }
  split.
  - intros k b I. pose proof I as I0. rewrite S1 in I. apply in_app_iff in I as [I|I]; [left; rewrite S2; apply in_app_iff; auto|]. apply M in I as [I ->].
    destruct (in_dec Z.eq_dec (b_tick b) (map fst s2)) as [J|J]; [left|right; auto]. apply in_map_iff in J as ([k b'] & EQ & J). cbn in EQ. subst k.
    rewrite S2 in J |- *. apply in_app_iff in J as [J|J].
    + assert (b' = b) as ->; [|apply in_app_iff; auto]. pose proof (E21 _ _ J) as J1. rewrite S1 in J1. apply in_app_iff in J1 as [J1|J1]; [pose proof (L1 _ _ _ I J1); lia|]. apply M in J1 as [J1 EQ].
      symmetry. apply blank_eq; auto.
    + apply M in J as [J EQ]. assert (b = b') as -> by (apply blank_eq; auto). apply in_app_iff. right. apply in_map_iff. exists b'. split; [unfold bar_entry; congruence|exact J].
  - intros k b I. pose proof I as I0. rewrite S2 in I. apply in_app_iff in I as [I|I]; [left; apply E21; exact I|]. apply M in I as [I ->].
    destruct (in_dec Z.eq_dec (b_tick b) (map fst s1)) as [J|J]; [left|right; auto]. apply in_map_iff in J as ([k b'] & EQ & J). cbn in EQ. subst k. pose proof J as J0.
    rewrite S1 in J. apply in_app_iff in J as [J|J]; [pose proof (L2 _ _ _ I (E12 _ _ J)); lia|]. apply M in J as [J EQ].
    assert (b = b') as -> by (apply blank_eq; auto). exact J0.
Qed.

(** Made twice, an edit changes nothing the second time but the notes, and of these what it says again. *)
Theorem C99_again : forall e out into p q q', project_ok p -> edit_typed e -> moves e out into -> edits_done p [e] q -> edits_done p [e; e] q' ->
  but_notes q q' /\ forall n, copies q' n = (copies q n - among (m_notes out) n + among (m_notes into) n)%nat.
Proof.
  intros e out into p q q' O T M D D'. inversion D as [|? ? c1 q1 ? ? R1 D1]; subst. inversion D1; subst. inversion D' as [|? ? c2 q2 ? ? R2 D2]; subst. rewrite R1 in R2. injection R2 as <- <-.
  inversion D2 as [|? ? c3 q3 ? ? R3 D3]; subst. inversion D3; subst. clear D D' D1 D2 D3.
  pose proof (proj1 (edit_ok e p q c1 O T R1)) as O1. pose proof (proj1 (edit_ok e q q' c3 O1 T R3)) as O2. destruct (moves_typed _ _ _ M T) as [TF TA].
  destruct (edit_runs e p _ _ M) as [R|R]; rewrite R in R1; [discriminate|]. destruct (edit_runs e q _ _ M) as [R'|R']; rewrite R' in R3; [discriminate|].
  destruct (runs_rewritten _ _ _ _ _ _ O TA R1) as (_ & [X1 X2 _ X4 X5 X6] & _). destruct (runs_rewritten _ _ _ _ _ _ O1 TA R3) as (_ & [Y1 Y2 _ Y4 Y5 Y6] & _).
  destruct (runs_bars _ _ _ _ _ _ O TA R1) as (more1 & S1 & B1 & L1). destruct (runs_bars _ _ _ _ _ _ O1 TA R3) as (more2 & S2 & B2 & L2).
  split; [|exact Y2].
  destruct (bars_again (pj_bars p) _ _ _ _ (map b_tick (m_bars out)) (m_bars into) more1 more2 (ok_bars _ O1) (ok_bars _ O2)
    (add_all_written b_tick _ _ _ (keyed_srt _ _ (ok_bars _ O))) S1 (add_all_written b_tick _ _ _ (keyed_srt _ _ (ok_bars _ O1))) S2 B1 B2 L1 L2) as [BA BB].
  constructor; auto.
  - exact (written_again _ _ _ _ _ _ (ok_tempos _ O1) (ok_tempos _ O2) X4 Y4).
  - exact (written_again _ _ _ _ _ _ (ok_dumpers _ O1) (ok_dumpers _ O2) X5 Y5).
  - exact (written_again _ _ _ _ _ _ (ok_softs _ O1) (ok_softs _ O2) X6 Y6).
Qed.
Print Assumptions C99_again.

Lemma same_copies q q' : (forall n, copies q' n = copies q n) -> Permutation (map snd (pj_notes q')) (map snd (pj_notes q)).
Proof. intros H. apply (Permutation_count_occ note_eq_dec). exact H. Qed.
Lemma but_apart q q' : but_notes q q' -> (forall n, copies q' n = copies q n) -> apart_from_blanks q q'.
Proof. intros [A1 A2 A3 A4 A5 A6] H. constructor; auto. apply same_copies. exact H. Qed.

(** So an edit that is not about notes changes nothing the second time. *)
Theorem C99_no_notes : forall e out into p q q', project_ok p -> edit_typed e -> moves e out into -> m_notes out = [] -> m_notes into = [] ->
  edits_done p [e] q -> edits_done p [e; e] q' -> apart_from_blanks q q'.
Proof.
  intros e out into p q q' O T M N1 N2 D D'. destruct (C99_again e out into p q q' O T M D D') as [B C]. apply but_apart; [exact B|]. intros n. rewrite C, N1, N2. cbn. lia.
Qed.
Print Assumptions C99_no_notes.

(** Nor does deleting a selection that holds all the notes equal to its own. *)
Theorem C99_delete : forall m p q q', project_ok p -> models_typed m -> (forall n, In n (m_notes m) -> (copies p n <= among (m_notes m) n)%nat) ->
  edits_done p [EBulkRemove m] q -> edits_done p [EBulkRemove m; EBulkRemove m] q' -> apart_from_blanks q q'.
Proof.
  intros m p q q' O T N D D'. destruct (C99_again (EBulkRemove m) _ _ p q q' O T (mv_remove m) D D') as [B C]. apply but_apart; [exact B|]. intros n. rewrite C. cbn [models_empty m_notes among count_occ].
  inversion D as [|? ? c1 q1 ? ? R1 D1]; subst. inversion D1; subst. destruct (T_Project.C50_any (EBulkRemove m) _ _ p q c1 O T (mv_remove m) R1) as (more & [_ X _ _ _ _] & _). specialize (X n). unfold how_many in X. cbn [models_empty m_notes count_occ] in X.
  change (count_occ note_eq_dec (map snd (pj_notes q)) n) with (copies q n) in X. change (count_occ note_eq_dec (map snd (pj_notes p)) n) with (copies p n) in X. change (count_occ note_eq_dec (m_notes m) n) with (among (m_notes m) n) in X.
  destruct (in_dec note_eq_dec n (m_notes m)) as [I|I].
  - specialize (N n I). lia.
  - assert (among (m_notes m) n = 0%nat) by (apply count_occ_not_In; exact I). lia.
Qed.
Print Assumptions C99_delete.

(** The settings. *)
Theorem C99_settings : forall e p q q', (exists r, e = ESetRhythm r) \/ (exists k, e = ESetKey k) \/ (exists g, e = ESetGrid g) -> edits_done p [e] q -> edits_done p [e; e] q' -> q' = q.
Proof.
  intros e p q q' H D D'. inversion D as [|? ? c1 q1 ? ? R1 D1]; subst. inversion D1; subst. inversion D' as [|? ? c2 q2 ? ? R2 D2]; subst. rewrite R1 in R2. injection R2 as <- <-.
  inversion D2 as [|? ? c3 q3 ? ? R3 D3]; subst. inversion D3; subst. destruct H as [[r ->]|[[k ->]|[g ->]]]; cbn in R1, R3; injection R1 as <- _; injection R3 as <- _; reflexivity.
Qed.
Print Assumptions C99_settings.

(** Changing a note a second time, when it is no longer what it was, leaves two of what it became; deleting one of two equal notes a second time deletes the other. *)
Theorem C99_change_refuted : exists p c q q' n, project_ok p /\ edit_typed (EChange c) /\ edit_wf (EChange c) p /\ edits_done p [EChange c] q /\ edits_done p [EChange c; EChange c] q' /\ copies q n = 1%nat /\ copies q' n = 2%nat.
Proof.
  exists T_Project.ex_project, (mkChanges [(T_Project.ex_note 480 SE, T_Project.ex_note 720 SE)] [] [] [] []). eexists. eexists. exists (T_Project.ex_note 720 SE).
  split; [exact T_Project.ex_project_ok|]. split; [split; constructor; constructor|]. split.
  { split; [|constructor; constructor]. constructor; [exists [T_Project.ex_note 0 SC; T_Project.ex_note 480 SG; T_Project.ex_note 1600 SA]; cbn; apply perm_swap|intros v []..]. }
  split. { eapply done_cons; [vm_compute; reflexivity|apply done_nil]. }
  split. { eapply done_cons; [vm_compute; reflexivity|]. eapply done_cons; [vm_compute; reflexivity|apply done_nil]. }
  split; vm_compute; reflexivity.
Qed.
Print Assumptions C99_change_refuted.
Theorem C99_delete_refuted : exists p m q q' n, project_ok p /\ models_typed m /\ all_present p m /\ edits_done p [EBulkRemove m] q /\ edits_done p [EBulkRemove m; EBulkRemove m] q' /\ copies p n = 2%nat /\ copies q n = 1%nat /\ copies q' n = 0%nat.
Proof.
  pose (n := T_Project.ex_note 480 SE). exists (mkProject rhythm_default 0 60 [(480, n); (480, n)] [(960, mkBar 960 None None 0)] [] [] []), (mkModels [n] [] [] [] []). eexists. eexists. exists n.
  split. { constructor; (split; [repeat constructor; cbn; lia|T_Project.in_list]); first [reflexivity | split; [reflexivity|unfold u32, u32_max; cbn; lia]]. }
  split; [constructor; constructor|]. split; [constructor; [exists [n]; reflexivity|intros v []..]|].
  split. { eapply done_cons; [vm_compute; reflexivity|apply done_nil]. }
  split. { eapply done_cons; [vm_compute; reflexivity|]. eapply done_cons; [vm_compute; reflexivity|apply done_nil]. }
  repeat split; vm_compute; reflexivity.
Qed.
Print Assumptions C99_delete_refuted.

(** ** The hypotheses are met *)
(** A tempo and a bar changed twice, a selection deleted twice, a selection pasted twice. *)
Definition shift : model_changes := mkChanges [] [(mkBar 960 None None 0, mkBar 480 None (Some 1) 0)] [(mkTempo 960 140, mkTempo 1000 150)] [] [].
Example C99_no_notes_case : exists q q', project_ok T_Project.ex_project /\ edit_typed (EChange shift) /\ edits_done T_Project.ex_project [EChange shift] q /\ edits_done T_Project.ex_project [EChange shift; EChange shift] q' /\
  pj_tempos q = [(0, mkTempo 0 100); (1000, mkTempo 1000 150)] /\ apart_from_blanks q q'.
Proof.
  assert (T : edit_typed (EChange shift)) by (split; constructor; cbn; repeat (constructor; [unfold u32, u32_max; cbn; lia|]); constructor).
  assert (E : exists q, edits_done T_Project.ex_project [EChange shift] q /\ pj_tempos q = [(0, mkTempo 0 100); (1000, mkTempo 1000 150)]) by (eexists; split; [eapply done_cons; [vm_compute; reflexivity|apply done_nil]|reflexivity]).
  assert (E' : exists q', edits_done T_Project.ex_project [EChange shift; EChange shift] q') by (eexists; eapply done_cons; [vm_compute; reflexivity|eapply done_cons; [vm_compute; reflexivity|apply done_nil]]).
  destruct E as (q & D & TQ), E' as (q' & D'). exists q, q'. split; [exact T_Project.ex_project_ok|]. split; [exact T|]. split; [exact D|]. split; [exact D'|]. split; [exact TQ|].
  apply (C99_no_notes (EChange shift) _ _ _ q q' T_Project.ex_project_ok T (mv_change shift) eq_refl eq_refl D D').
Qed.
Definition gone : models := mkModels [T_Project.ex_note 480 SE; T_Project.ex_note 1600 SA] [] [mkTempo 960 140] [] [].
Example C99_delete_case : exists q q', project_ok T_Project.ex_project /\ models_typed gone /\ (forall n, In n (m_notes gone) -> (copies T_Project.ex_project n <= among (m_notes gone) n)%nat) /\
  edits_done T_Project.ex_project [EBulkRemove gone] q /\ edits_done T_Project.ex_project [EBulkRemove gone; EBulkRemove gone] q' /\ map fst (pj_notes q) = [0; 480] /\ apart_from_blanks q q'.
Proof.
  assert (T : models_typed gone) by (constructor; cbn; repeat (constructor; [unfold u32, u32_max; cbn; lia|]); constructor).
  assert (N : forall n, In n (m_notes gone) -> (copies T_Project.ex_project n <= among (m_notes gone) n)%nat) by (intros n [<-|[<-|[]]]; vm_compute; auto).
  assert (E : exists q, edits_done T_Project.ex_project [EBulkRemove gone] q /\ map fst (pj_notes q) = [0; 480]) by (eexists; split; [eapply done_cons; [vm_compute; reflexivity|apply done_nil]|reflexivity]).
  assert (E' : exists q', edits_done T_Project.ex_project [EBulkRemove gone; EBulkRemove gone] q') by (eexists; eapply done_cons; [vm_compute; reflexivity|eapply done_cons; [vm_compute; reflexivity|apply done_nil]]).
  destruct E as (q & D & TQ), E' as (q' & D'). exists q, q'. split; [exact T_Project.ex_project_ok|]. split; [exact T|]. split; [exact N|]. split; [exact D|]. split; [exact D'|]. split; [exact TQ|].
  apply (C99_delete gone _ q q' T_Project.ex_project_ok T N D D').
Qed.
Example C99_again_case : exists q q', project_ok T_Project.ex_project /\ edit_typed (EBulkAdd gone) /\ moves (EBulkAdd gone) models_empty gone /\ edits_done T_Project.ex_project [EBulkAdd gone] q /\ edits_done T_Project.ex_project [EBulkAdd gone; EBulkAdd gone] q' /\
  copies q (T_Project.ex_note 480 SE) = 2%nat /\ copies q' (T_Project.ex_note 480 SE) = 3%nat /\ but_notes q q'.
Proof.
  assert (T : models_typed gone) by (constructor; cbn; repeat (constructor; [unfold u32, u32_max; cbn; lia|]); constructor).
  assert (E : exists q, edits_done T_Project.ex_project [EBulkAdd gone] q /\ copies q (T_Project.ex_note 480 SE) = 2%nat) by (eexists; split; [eapply done_cons; [vm_compute; reflexivity|apply done_nil]|vm_compute; reflexivity]).
  assert (E' : exists q', edits_done T_Project.ex_project [EBulkAdd gone; EBulkAdd gone] q' /\ copies q' (T_Project.ex_note 480 SE) = 3%nat) by (eexists; split; [eapply done_cons; [vm_compute; reflexivity|eapply done_cons; [vm_compute; reflexivity|apply done_nil]]|vm_compute; reflexivity]).
  destruct E as (q & D & TQ), E' as (q' & D' & TQ'). exists q, q'. split; [exact T_Project.ex_project_ok|]. split; [exact T|]. split; [apply mv_add|]. split; [exact D|]. split; [exact D'|]. split; [exact TQ|]. split; [exact TQ'|].
  exact (proj1 (C99_again (EBulkAdd gone) _ _ _ q q' T_Project.ex_project_ok T (mv_add gone) D D')).
Qed.
Example C99_settings_case : exists q, edits_done T_Project.ex_project [ESetKey 3] q /\ pj_key q = 3 /\ edits_done T_Project.ex_project [ESetKey 3; ESetKey 3] q.
Proof. eexists. split; [eapply done_cons; [reflexivity|apply done_nil]|]. split; [reflexivity|]. eapply done_cons; [reflexivity|eapply done_cons; [reflexivity|apply done_nil]]. Qed.
