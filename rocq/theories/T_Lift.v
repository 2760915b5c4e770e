(** Property theorems about cutting a selection and pasting it elsewhere: C98. *)
From Coq Require Import ZArith List Bool Lia Sorted Permutation.
From Verif Require Import Base M_Pitch M_Duration M_Percent M_Scalar M_Bar M_Note M_Store M_Tuple M_Models M_Project.
From Verif Require Import S_Project S_Score S_Effect S_Safe S_Move S_Lift P_Base P_Store P_Query P_Replenish P_Edit P_History P_Effect.
From Verif Require Import T_Move.
From Verif Require S_Tuple P_Tuple T_Tuple T_Project.
Import ListNotations.
Open Scope Z_scope.

Lemma runs_step F A rep p p' c : project_ok p -> models_typed A -> all_present p F -> all_distinct A -> runs F A rep p = Ret (Some (p', c)) ->
  exists more, exchanged p F A more p' /\ (rep = false -> more = []) /\ Forall blank more /\ forall b t v, In b more -> then_at b_tick (pj_bars p) (m_bars F) (m_bars A) t v -> t < b_tick b.
Proof.
  intros O T2 W1 W2 E. destruct (runs_exchanged _ _ _ _ _ _ O T2 W1 W2 E) as (more & X & Y & G & _). exists more. split; [exact X|]. split; [exact Y|]. split.
  { eapply Forall_impl; [|exact G]. intros b (A1 & B & C & _). repeat split; auto. }
  intros b t v I H. rewrite Forall_forall in G. destruct (G b I) as (_ & _ & _ & L). apply (L t v).
  cbn [exchange pj_bars]. apply (add_all_overwritten b_tick); [apply (keyed_srt _ _ (ok_bars _ O))|apply W2|exact H].
Qed.
Lemma step_moved p F A more p' : exchanged p F A more p' -> Forall blank more -> (forall b t v, In b more -> then_at b_tick (pj_bars p) (m_bars F) (m_bars A) t v -> t < b_tick b) -> moved p F A p'.
Proof.
  intros [X1 X2 X3 X4 X5 X6] B L. constructor; auto.
  - intros t b H. apply X3. destruct H as [[I ->]|(N1 & N2 & I)]; [left; split; [apply in_app_iff; auto|reflexivity]|]. right.
    split; [|auto]. rewrite map_app, in_app_iff. intros [M|M]; [auto|]. apply in_map_iff in M as (g & <- & M).
    assert (b_tick g < b_tick g); [|lia]. apply (L g _ b M). right. auto.
  - intros t b H. apply X3 in H as [[I ->]|(N1 & N2 & I)].
    + apply in_app_iff in I as [I|I]; [left; left; auto|]. right. rewrite Forall_forall in B. split; [auto|]. intros b' H. apply (L b) in H; [lia|exact I].
    + left. right. rewrite map_app, in_app_iff in N1. auto.
Qed.
Lemma none_free p F : all_free p F models_empty.
Proof. constructor; intros v []. Qed.
Lemma none_present p : all_present p models_empty.
Proof. constructor; [exists (map snd (pj_notes p)); reflexivity|intros v []..]. Qed.
Lemma none_distinct : all_distinct models_empty.
Proof. constructor; constructor. Qed.
Lemma none_typed : models_typed models_empty.
Proof. constructor; constructor. Qed.

(** What was taken out and put elsewhere. *)
Lemma cut_moved p F A q1 q c1 c2 : project_ok p -> models_typed F -> models_typed A -> all_present p F -> all_distinct A ->
  edit_run (EBulkRemove F) p = Ret (Some (q1, c1)) -> edit_run (EBulkAdd A) q1 = Ret (Some (q, c2)) -> project_ok q /\ moved p F A q.
Proof.
  intros O TF TA PF DA E1 E2.
  pose proof (proj1 (edit_ok (EBulkRemove F) _ _ _ O TF E1)) as O1. pose proof (proj1 (edit_ok (EBulkAdd A) _ _ _ O1 TA E2)) as O2. split; [exact O2|].
  cbn [edit_run] in *. rewrite bulk_remove_runs in E1. rewrite bulk_add_runs in E2.
  destruct (runs_step _ _ _ _ _ _ O none_typed PF none_distinct E1) as (more1 & X & N & B1 & L1). pose proof (step_moved _ _ _ _ _ X B1 L1) as [M1 M2 M3 M4 M5 M6 M7].
  destruct (runs_step _ _ _ _ _ _ O1 TA (none_present q1) DA E2) as (more & [X1 X2 X3 X4 X5 X6] & _ & B & L).
  destruct (none_free p F) as [F1 F2 F3 F4]. destruct (on_bars _ _ _ _ _ _ _ F1 M3 M4 X3 B L) as [B2 B3].
  constructor; auto; try (eapply on_store; eassumption).
  - destruct M1 as (A1 & A2 & A3), X1 as (C1 & C2 & C3). repeat split; congruence.
  - cbn [models_empty m_notes] in *. rewrite app_nil_r in X2. rewrite X2, app_nil_r in *. rewrite <- M2. rewrite <- !app_assoc. apply Permutation_app_head, Permutation_app_comm.
Qed.

(** What was put elsewhere and then taken out where it was. *)
Lemma copy_moved p F A q1 q c1 c2 : project_ok p -> models_typed F -> models_typed A -> all_present p F -> all_distinct A -> all_elsewhere F A ->
  edit_run (EBulkAdd A) p = Ret (Some (q1, c1)) -> edit_run (EBulkRemove F) q1 = Ret (Some (q, c2)) -> project_ok q /\ moved p F A q.
Proof.
  intros O TF TA PF DA EL E1 E2.
  pose proof (proj1 (edit_ok (EBulkAdd A) _ _ _ O TA E1)) as O1. pose proof (proj1 (edit_ok (EBulkRemove F) _ _ _ O1 TF E2)) as O2. split; [exact O2|].
  cbn [edit_run] in *. rewrite bulk_add_runs in E1. rewrite bulk_remove_runs in E2.
  destruct (runs_step _ _ _ _ _ _ O TA (none_present p) DA E1) as (more1 & X & _ & B1 & L1). pose proof (step_moved _ _ _ _ _ X B1 L1) as [M1 M2 M3 M4 M5 M6 M7].
  cbn [models_empty m_notes m_bars m_tempos m_dumpers m_softs] in *. destruct EL as [EL1 EL2 EL3 EL4].
  assert (KEEP : forall (V : Type) (tick : V -> Z) s s1 l l', elsewhere tick l l' -> contains_all tick s l -> (forall k v, then_at tick s [] l' k v -> In (k, v) s1) -> contains_all tick s1 l).
  { intros V tick s s1 l l' E C H v I. apply H. right. split; [apply E; exact I|]. split; [intros []|apply C; exact I]. }
  assert (PF1 : all_present q1 F).
  { destruct PF as [P1 P2 P3 P4 P5]. constructor.
    - destruct P1 as [rest P1]. exists (rest ++ m_notes A). rewrite app_nil_r in M2. rewrite M2, P1, app_assoc. reflexivity.
    - eapply KEEP; eassumption.
    - eapply KEEP; [eassumption..|]. intros k v. apply M5.
    - eapply KEEP; [eassumption..|]. intros k v. apply M6.
    - eapply KEEP; [eassumption..|]. intros k v. apply M7. }
  destruct (runs_step _ _ _ _ _ _ O1 none_typed PF1 none_distinct E2) as (more & [X1 X2 X3 X4 X5 X6] & N & _ & _). rewrite (N eq_refl) in *. cbn [models_empty m_notes m_bars m_tempos m_dumpers m_softs app] in *.
  assert (STORE : forall (V : Type) (tick : V -> Z) s s1 s2 l l', elsewhere tick l l' -> (forall k v, In (k, v) s1 <-> then_at tick s [] l' k v) -> overwritten tick s1 (map tick l) [] s2 ->
    forall k v, In (k, v) s2 <-> then_at tick s l l' k v).
  { intros V tick s s1 s2 l l' E H1 H2 k v. rewrite (H2 k v), (H1 k v). unfold then_at. cbn [In map]. split.
    - intros [[[] _]|(_ & N1 & [A1|(N2 & _ & A1)])]; [left; exact A1|right; auto].
    - intros [[A1 ->]|(N1 & N2 & A1)]; right; (split; [tauto|]).
      + split; [|left; auto]. intros I. apply in_map_iff in I as (x & T & I). apply (E x I). rewrite T. apply in_map. exact A1.
      + split; [exact N2|]. right. tauto. }
  constructor; auto.
  - destruct M1 as (A1 & A2 & A3), X1 as (C1 & C2 & C3). repeat split; congruence.
  - rewrite !app_nil_r in *. rewrite X2, M2. reflexivity.
  - intros k b H. apply X3. right. split; [intros []|]. destruct H as [[I ->]|(N1 & N2 & I)].
    + split; [|apply M3; left; auto]. intros J. apply in_map_iff in J as (x & T & J). apply (EL1 x J). rewrite T. apply in_map. exact I.
    + split; [exact N2|]. apply M3. right. auto.
  - intros k b H. apply X3 in H as [[[] _]|(_ & N1 & H)]. apply M4 in H as [[[I ->]|(N2 & _ & I)]|[BL NO]]; [left; left; auto|left; right; auto|right].
    split; [exact BL|]. intros b' [[I ->]|(N2 & N3 & I)]; apply (NO b'); [left; auto|right; auto].
  - eapply STORE; eassumption.
  - eapply STORE; eassumption.
  - eapply STORE; eassumption.
Qed.

Lemma pairs_from m m' : matched m m' -> changes_from (pairs m m') = m.
Proof. intros (A1 & A2 & A3 & A4 & A5). unfold changes_from, pairs. cbn. rewrite !fst_combine by assumption. destruct m; reflexivity. Qed.
Lemma pairs_to m m' : matched m m' -> changes_to (pairs m m') = m'.
Proof. intros (A1 & A2 & A3 & A4 & A5). unfold changes_to, pairs. cbn. rewrite !snd_combine by assumption. destruct m'; reflexivity. Qed.

(** Cutting a selection and pasting anything that matches it comes to the same as dragging it there. *)
Theorem C98_cut : forall p m m' q q', project_ok p -> all_present p m -> models_typed m -> models_typed m' -> all_distinct m' -> matched m m' ->
  edits_done p [EBulkRemove m; EBulkAdd m'] q -> edits_done p [EChange (pairs m m')] q' -> apart_from_blanks q q'.
Proof.
  intros p m m' q q' O P T T' D MA H H'.
  inversion H as [|? ? c1 q1 ? ? R1 H1]; subst. inversion H1 as [|? ? c2 q2 ? ? R2 H2]; subst. inversion H2; subst. inversion H' as [|? ? c3 q3 ? ? R3 H3]; subst. inversion H3; subst.
  destruct (cut_moved _ _ _ _ _ _ _ O T T' P D R1 R2) as [O1 M1].
  destruct (moved_one p (pairs m m') q' c3 O) as [O2 M2]; [cbn [edit_typed]; rewrite pairs_from, pairs_to by exact MA; auto|cbn [edit_wf]; rewrite pairs_from, pairs_to by exact MA; auto|exact R3|].
  rewrite pairs_from, pairs_to in M2 by exact MA. apply (moved_same p _ _ _ _ q q' O1 O2 (same_refl _) (same_refl _) M1 M2).
Qed.
Print Assumptions C98_cut.

(** So does pasting it first and then deleting the original, where the two have no place in common. *)
Theorem C98_copy : forall p m m' q q', project_ok p -> all_present p m -> models_typed m -> models_typed m' -> all_distinct m' -> matched m m' -> all_elsewhere m m' ->
  edits_done p [EBulkAdd m'; EBulkRemove m] q -> edits_done p [EChange (pairs m m')] q' -> apart_from_blanks q q'.
Proof.
  intros p m m' q q' O P T T' D MA EL H H'.
  inversion H as [|? ? c1 q1 ? ? R1 H1]; subst. inversion H1 as [|? ? c2 q2 ? ? R2 H2]; subst. inversion H2; subst. inversion H' as [|? ? c3 q3 ? ? R3 H3]; subst. inversion H3; subst.
  destruct (copy_moved _ _ _ _ _ _ _ O T T' P D EL R1 R2) as [O1 M1].
  destruct (moved_one p (pairs m m') q' c3 O) as [O2 M2]; [cbn [edit_typed]; rewrite pairs_from, pairs_to by exact MA; auto|cbn [edit_wf]; rewrite pairs_from, pairs_to by exact MA; auto|exact R3|].
  rewrite pairs_from, pairs_to in M2 by exact MA. apply (moved_same p _ _ _ _ q q' O1 O2 (same_refl _) (same_refl _) M1 M2).
Qed.
Print Assumptions C98_copy.

(** ** The selection as it is pasted at a tick *)
Lemma f2_length {A B} (R : A -> B -> Prop) l l' : Forall2 R l l' -> length l = length l'.
Proof. induction 1; cbn; congruence. Qed.
Lemma moved_matched k m m' : S_Tuple.moved k m m' -> matched m m'.
Proof. intros (A1 & A2 & A3 & A4 & A5). unfold matched. repeat split; eapply f2_length; eassumption. Qed.
Lemma f2_ticks {V} (tick : V -> Z) k l l' : Forall2 (fun a b => tick b = tick a + k) l l' -> map tick l' = map (fun x => x + k) (map tick l).
Proof. induction 1; cbn; congruence. Qed.
Lemma f2_weak {A B} (R R' : A -> B -> Prop) l l' : (forall a b, R a b -> R' a b) -> Forall2 R l l' -> Forall2 R' l l'.
Proof. intros H. induction 1; constructor; auto. Qed.
Lemma moved_typed k m m' : S_Tuple.moved k m m' -> Forall (fun x => u32 (x + k)) (S_Tuple.all_ticks m) -> models_typed m'.
Proof.
  intros (_ & A2 & A3 & A4 & A5) U. unfold S_Tuple.all_ticks in U. rewrite !Forall_app in U. destruct U as (_ & U2 & U3 & U4 & U5).
  assert (G : forall (V : Type) (tick : V -> Z) l l', Forall2 (fun a b => tick b = tick a + k) l l' -> Forall (fun x => u32 (x + k)) (map tick l) -> Forall (fun b => u32 (tick b)) l').
  { intros V tick l l'. induction 1 as [|a b l l' E F IH]; intros U; constructor; inversion U; subst; [rewrite E; assumption|auto]. }
  constructor; [apply (G _ b_tick (m_bars m))|apply (G _ tp_tick (m_tempos m))|apply (G _ cc_tick (m_dumpers m))|apply (G _ cc_tick (m_softs m))]; auto;
    (eapply f2_weak; [|eassumption]); intros a b ->; reflexivity.
Qed.
Lemma moved_distinct k m m' : S_Tuple.moved k m m' -> all_distinct m -> all_distinct m'.
Proof.
  intros (_ & A2 & A3 & A4 & A5) [D2 D3 D4 D5].
  assert (G : forall (V : Type) (tick : V -> Z) l l', Forall2 (fun a b => tick b = tick a + k) l l' -> distinct_ticks tick l -> distinct_ticks tick l').
  { intros V tick l l' F D. unfold distinct_ticks in *. rewrite (f2_ticks _ _ _ _ F). apply FinFun.Injective_map_NoDup; [|exact D]. intros x y E. lia. }
  constructor; [apply (G _ b_tick (m_bars m))|apply (G _ tp_tick (m_tempos m))|apply (G _ cc_tick (m_dumpers m))|apply (G _ cc_tick (m_softs m))]; auto;
    (eapply f2_weak; [|eassumption]); intros a b ->; reflexivity.
Qed.
Lemma ticks_typed m : Forall u32 (S_Tuple.all_ticks m) -> models_typed m.
Proof.
  intros U. unfold S_Tuple.all_ticks in U. rewrite !Forall_app, !Forall_map in U. destruct U as (_ & U2 & U3 & U4 & U5). constructor; assumption.
Qed.

(** A selection cut out and pasted at a tick is where dragging would have brought it. *)
Theorem C98_at_tick : forall p m s t q q', project_ok p -> all_present p m -> all_distinct m -> Forall u32 (S_Tuple.all_ticks m) -> S_Tuple.least (S_Tuple.all_ticks m) s -> u32 t ->
  (forall x, In x (S_Tuple.all_ticks m) -> x + (t - s) <= u32_max) ->
  edits_done p [EBulkRemove m; EBulkAdd (move_to_tick m t)] q -> edits_done p [EChange (pairs m (move_to_tick m t))] q' -> apart_from_blanks q q'.
Proof.
  intros p m s t q q' O P D U L T F H H'. pose proof (P_Tuple.move_spec m s t U L T F) as M.
  apply (C98_cut p m (move_to_tick m t) q q' O P (ticks_typed _ U)); auto.
  - apply (moved_typed _ _ _ M). rewrite Forall_forall in *. intros x I. pose proof (F x I). pose proof (proj2 L x I). specialize (U x I). unfold u32 in *. lia.
  - apply (moved_distinct _ _ _ M D).
  - apply (moved_matched _ _ _ M).
Qed.
Print Assumptions C98_at_tick.

Lemma moved_trans j k m m1 m2 m' : S_Tuple.moved j m m1 -> S_Tuple.moved k m1 m2 -> S_Tuple.moved (j + k) m m' -> m2 = m'.
Proof.
  intros (A1 & A2 & A3 & A4 & A5) (B1 & B2 & B3 & B4 & B5) (C1 & C2 & C3 & C4 & C5).
  assert (G : forall (V : Type) (R1 R2 R3 : V -> V -> Prop) l l1 l2 l', (forall a b c d, R1 a b -> R2 b c -> R3 a d -> c = d) -> Forall2 R1 l l1 -> Forall2 R2 l1 l2 -> Forall2 R3 l l' -> l2 = l').
  { intros V R1 R2 R3 l l1 l2 l' H F1. revert l2 l'. induction F1 as [|a b l l1 X F1 IH]; intros l2 l' F2 F3; inversion F2; subst; inversion F3; subst; [reflexivity|]. f_equal; [eapply H; eassumption|apply IH; assumption]. }
  destruct m2, m'; cbn in *. f_equal.
  - eapply G; [|exact A1|exact B1|exact C1]. intros a b c d -> -> ->. cbn. f_equal. lia.
  - eapply G; [|exact A2|exact B2|exact C2]. intros a b c d -> -> ->. cbn. f_equal. lia.
  - eapply G; [|exact A3|exact B3|exact C3]. intros a b c d -> -> ->. cbn. f_equal. lia.
  - eapply G; [|exact A4|exact B4|exact C4]. intros a b c d -> -> ->. cbn. f_equal. lia.
  - eapply G; [|exact A5|exact B5|exact C5]. intros a b c d -> -> ->. cbn. f_equal. lia.
Qed.

(** What was pasted at one tick and from there at another is what would have been pasted there at once. *)
Theorem C98_again : forall m s t t', Forall u32 (S_Tuple.all_ticks m) -> S_Tuple.least (S_Tuple.all_ticks m) s -> u32 t -> u32 t' ->
  (forall x, In x (S_Tuple.all_ticks m) -> x + (t - s) <= u32_max /\ x + (t' - s) <= u32_max) ->
  move_to_tick (move_to_tick m t) t' = move_to_tick m t'.
Proof.
  intros m s t t' U L T T' F. pose proof (P_Tuple.move_spec m s t U L T (fun x I => proj1 (F x I))) as M. pose proof (P_Tuple.move_spec m s t' U L T' (fun x I => proj2 (F x I))) as M'.
  pose proof (P_Tuple.moved_least _ _ _ _ M L) as L1. replace (s + (t - s)) with t in L1 by lia.
  pose proof (P_Tuple.moved_ticks _ _ _ M) as TK.
  assert (U1 : Forall u32 (S_Tuple.all_ticks (move_to_tick m t))).
  { rewrite TK. rewrite Forall_forall in *. intros y I. apply in_map_iff in I as (x & <- & I). destruct (F x I). pose proof (proj2 L x I). specialize (U x I). unfold u32 in *. lia. }
  assert (F1 : forall y, In y (S_Tuple.all_ticks (move_to_tick m t)) -> y + (t' - t) <= u32_max).
  { rewrite TK. intros y I. apply in_map_iff in I as (x & <- & I). destruct (F x I). lia. }
  pose proof (P_Tuple.move_spec _ t t' U1 L1 T' F1) as M2. apply (moved_trans (t - s) (t' - t) m (move_to_tick m t)); auto. replace (t - s + (t' - t)) with (t' - s) by lia. exact M'.
Qed.
Print Assumptions C98_again.

(** Where the two share a place, deleting the original afterwards takes away part of the copy. *)
Theorem C98_overlap_refuted : exists p m m' q q', project_ok p /\ all_present p m /\ models_typed m /\ models_typed m' /\ all_distinct m' /\ matched m m' /\ m' = move_to_tick m 960 /\
  edits_done p [EBulkAdd m'; EBulkRemove m] q /\ edits_done p [EChange (pairs m m')] q' /\ pj_tempos q' = [(960, mkTempo 960 100); (1920, mkTempo 1920 140)] /\ pj_tempos q = [(1920, mkTempo 1920 140)].
Proof.
  exists T_Project.ex_project, (mkModels [] [] [mkTempo 0 100; mkTempo 960 140] [] []), (mkModels [] [] [mkTempo 960 100; mkTempo 1920 140] [] []). eexists. eexists.
  split; [exact T_Project.ex_project_ok|]. split.
  { constructor; cbn; [exists (map snd (pj_notes T_Project.ex_project)); reflexivity|..]; intros v I; cbn in *; intuition; subst; auto. }
  split; [constructor; cbn; repeat (constructor; [unfold u32, u32_max; cbn; lia|]); constructor|]. split; [constructor; cbn; repeat (constructor; [unfold u32, u32_max; cbn; lia|]); constructor|].
  split; [constructor; unfold distinct_ticks; cbn; repeat constructor; cbn; intuition discriminate|]. split; [unfold matched; cbn; auto|]. split; [vm_compute; reflexivity|].
  split. { eapply done_cons; [vm_compute; reflexivity|]. eapply done_cons; [vm_compute; reflexivity|apply done_nil]. }
  split. { eapply done_cons; [vm_compute; reflexivity|apply done_nil]. }
  split; reflexivity.
Qed.
Print Assumptions C98_overlap_refuted.

(** ** The hypotheses are met *)
(** A note, a tempo and a pedal event, brought from tick 480 to tick 2400. *)
Definition lift : models := mkModels [T_Project.ex_note 480 SE] [] [mkTempo 960 140] [mkCtrl 900 0 0] [].
Lemma lift_there : all_present T_Project.ex_project lift.
Proof.
  constructor; cbn; [exists [T_Project.ex_note 0 SC; T_Project.ex_note 480 SG; T_Project.ex_note 1600 SA]; apply perm_swap|..]; intros v I; cbn in *; intuition; subst; auto.
Qed.
Lemma lift_distinct : all_distinct lift.
Proof. constructor; unfold distinct_ticks; cbn; repeat constructor; cbn; intuition. Qed.
Lemma lift_ticks : Forall u32 (S_Tuple.all_ticks lift) /\ S_Tuple.least (S_Tuple.all_ticks lift) 480.
Proof.
  split; [cbn; repeat (constructor; [unfold u32, u32_max; lia|]); constructor|]. split; [left; reflexivity|]. intros x I. cbn in I. decompose [or] I; subst; lia || contradiction.
Qed.
Lemma lift_far : forall x, In x (S_Tuple.all_ticks lift) -> x + (2400 - 480) <= u32_max.
Proof. intros x I. cbn in I. unfold u32_max. decompose [or] I; subst; lia || contradiction. Qed.
Example C98_at_tick_case : let m' := move_to_tick lift 2400 in exists q q', project_ok T_Project.ex_project /\ all_present T_Project.ex_project lift /\ all_distinct lift /\
  Forall u32 (S_Tuple.all_ticks lift) /\ S_Tuple.least (S_Tuple.all_ticks lift) 480 /\
  edits_done T_Project.ex_project [EBulkRemove lift; EBulkAdd m'] q /\ edits_done T_Project.ex_project [EChange (pairs lift m')] q' /\
  map fst (pj_notes q) = [0; 480; 1600; 2400] /\ pj_tempos q = [(0, mkTempo 0 100); (2880, mkTempo 2880 140)] /\ map fst (pj_bars q) = [960; 1920; 2640; 3360] /\ apart_from_blanks q q'.
Proof.
  intros m'. assert (E : exists q, edits_done T_Project.ex_project [EBulkRemove lift; EBulkAdd m'] q /\ map fst (pj_notes q) = [0; 480; 1600; 2400] /\ pj_tempos q = [(0, mkTempo 0 100); (2880, mkTempo 2880 140)] /\
    map fst (pj_bars q) = [960; 1920; 2640; 3360]).
  { eexists. split; [eapply done_cons; [vm_compute; reflexivity|eapply done_cons; [vm_compute; reflexivity|apply done_nil]]|]. repeat split; reflexivity. }
  assert (E' : exists q', edits_done T_Project.ex_project [EChange (pairs lift m')] q') by (eexists; eapply done_cons; [vm_compute; reflexivity|apply done_nil]).
  destruct E as (q & D & T1 & T2 & T3), E' as (q' & D'). exists q, q'. split; [exact T_Project.ex_project_ok|]. split; [exact lift_there|]. split; [exact lift_distinct|].
  destruct lift_ticks as [U L]. split; [exact U|]. split; [exact L|]. split; [exact D|]. split; [exact D'|]. split; [exact T1|]. split; [exact T2|]. split; [exact T3|].
  apply (C98_at_tick T_Project.ex_project lift 480 2400 q q' T_Project.ex_project_ok lift_there lift_distinct U L); [unfold u32, u32_max; lia|exact lift_far|exact D|exact D'].
Qed.
Example C98_copy_case : let m' := move_to_tick lift 2400 in exists q q', project_ok T_Project.ex_project /\ all_present T_Project.ex_project lift /\ models_typed lift /\ models_typed m' /\ all_distinct m' /\
  matched lift m' /\ all_elsewhere lift m' /\ edits_done T_Project.ex_project [EBulkAdd m'; EBulkRemove lift] q /\ edits_done T_Project.ex_project [EChange (pairs lift m')] q' /\
  map fst (pj_notes q) = [0; 480; 1600; 2400] /\ pj_tempos q = [(0, mkTempo 0 100); (2880, mkTempo 2880 140)] /\ apart_from_blanks q q'.
Proof.
  intros m'. destruct lift_ticks as [U L]. assert (M : S_Tuple.moved (2400 - 480) lift m') by (apply P_Tuple.move_spec; [exact U|exact L|unfold u32, u32_max; lia|exact lift_far]).
  assert (T : models_typed lift) by (apply ticks_typed; exact U).
  assert (T' : models_typed m') by (apply (moved_typed _ _ _ M); cbn; repeat (constructor; [unfold u32, u32_max; lia|]); constructor).
  assert (EL : all_elsewhere lift m') by (constructor; intros v I J; vm_compute in I, J; decompose [or] I; subst; vm_compute in J; intuition discriminate).
  assert (E : exists q, edits_done T_Project.ex_project [EBulkAdd m'; EBulkRemove lift] q /\ map fst (pj_notes q) = [0; 480; 1600; 2400] /\ pj_tempos q = [(0, mkTempo 0 100); (2880, mkTempo 2880 140)]).
  { eexists. split; [eapply done_cons; [vm_compute; reflexivity|eapply done_cons; [vm_compute; reflexivity|apply done_nil]]|]. repeat split; reflexivity. }
  assert (E' : exists q', edits_done T_Project.ex_project [EChange (pairs lift m')] q') by (eexists; eapply done_cons; [vm_compute; reflexivity|apply done_nil]).
  destruct E as (q & D & T1 & T2), E' as (q' & D'). exists q, q'. split; [exact T_Project.ex_project_ok|]. split; [exact lift_there|]. split; [exact T|]. split; [exact T'|].
  split; [exact (moved_distinct _ _ _ M lift_distinct)|]. split; [exact (moved_matched _ _ _ M)|]. split; [exact EL|]. split; [exact D|]. split; [exact D'|]. split; [exact T1|]. split; [exact T2|].
  apply (C98_copy T_Project.ex_project lift m' q q' T_Project.ex_project_ok lift_there T T' (moved_distinct _ _ _ M lift_distinct) (moved_matched _ _ _ M) EL D D').
Qed.
Example C98_again_case : move_to_tick (move_to_tick lift 2400) 0 = move_to_tick lift 0 /\ S_Tuple.all_ticks (move_to_tick lift 0) = [0; 480; 420].
Proof. split; [|vm_compute; reflexivity]. destruct lift_ticks as [U L]. apply (C98_again lift 480); auto; try (unfold u32, u32_max; lia). intros x I. split; [exact (lift_far x I)|]. pose proof (lift_far x I). lia. Qed.
