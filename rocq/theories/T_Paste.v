(** Property theorems about copying, cutting and pasting through the text of the clipboard: C65. *)
From Coq Require Import ZArith List Bool Lia Sorted Permutation.
From Verif Require Import Base M_Duration M_Percent M_Scalar M_Pitch M_Bar M_Note M_Tuple M_Models M_Project M_Json
  S_Percent S_Project S_Tuple S_Json P_Base P_Store P_Replenish P_Edit P_Tuple.
From Verif Require P_Savable T_Json T_Project.
Import ListNotations.
Open Scope Z_scope.

Lemma savable_ticks m : savable m -> Forall u32 (all_ticks m) /\ models_typed m.
Proof.
  intros (N & B & T & D & S). split.
  - unfold all_ticks. repeat (apply Forall_app; split); rewrite Forall_map; eapply Forall_impl; try eassumption; intros x X; apply X.
  - constructor; eapply Forall_impl; try eassumption; intros x X; apply X.
Qed.

Lemma moved_map {A} (tick : A -> Z) k l l' (R : A -> A -> Prop) : (forall a b, R a b -> tick b = tick a + k) ->
  Forall2 R l l' -> map tick l' = map (fun t => t + k) (map tick l).
Proof. intros H F. induction F; [reflexivity|]. cbn. rewrite (H _ _ H0), IHF. reflexivity. Qed.
Lemma moved_distinct {A} (tick : A -> Z) k l l' (R : A -> A -> Prop) : (forall a b, R a b -> tick b = tick a + k) ->
  Forall2 R l l' -> distinct_ticks tick l -> distinct_ticks tick l'.
Proof.
  intros H F D. unfold distinct_ticks in *. rewrite (moved_map tick k l l' R H F).
  apply FinFun.Injective_map_NoDup; auto. intros x y E. lia.
Qed.
Lemma moved_all_distinct k m m' : moved k m m' -> all_distinct m -> all_distinct m'.
Proof.
  intros (_ & B & T & D & S) [DB DT DD DS].
  constructor; [eapply (moved_distinct b_tick k)|eapply (moved_distinct tp_tick k)|eapply (moved_distinct cc_tick k)|eapply (moved_distinct cc_tick k)];
    try eassumption; intros a b ->; reflexivity.
Qed.
Lemma moved_typed k m m' : moved k m m' -> Forall u32 (all_ticks m) -> (forall x, In x (all_ticks m) -> 0 <= x + k <= u32_max) -> models_typed m'.
Proof.
  intros (_ & B & T & D & S) U R. unfold all_ticks in R.
  assert (K : forall A (tick : A -> Z) (Q : A -> A -> Prop) l l', (forall a b, Q a b -> tick b = tick a + k) -> Forall2 Q l l' ->
    (forall x, In x (map tick l) -> 0 <= x + k <= u32_max) -> Forall (fun b => u32 (tick b)) l').
  { clear. intros A tick Q l l' H F R. induction F as [|a b l l' X F IH]; constructor.
    - rewrite (H _ _ X). apply R. cbn. auto.
    - apply IH. intros x I. apply R. cbn. auto. }
  constructor; eapply K; try eassumption; try (intros a b ->; reflexivity); intros x I; apply R; rewrite !in_app_iff; tauto.
Qed.

Lemma overwritten_comp {V} (tick : V -> Z) s gone s1 put s2 :
  overwritten tick s gone [] s1 -> overwritten tick s1 [] put s2 -> overwritten tick s gone put s2.
Proof.
  intros A B k v. rewrite (B k v). rewrite (A k v). cbn. tauto.
Qed.

Lemma exchanged_comp p out p1 into more p2 :
  exchanged p out models_empty [] p1 -> exchanged p1 models_empty into more p2 -> exchanged p out into more p2.
Proof.
  intros [S1 N1 B1 T1 D1 O1] [S2 N2 B2 T2 D2 O2]. cbn [models_empty m_notes m_bars m_tempos m_dumpers m_softs map app] in *.
  constructor.
  - intuition congruence.
  - rewrite app_nil_r in N1, N2. rewrite N2, <- app_assoc, (Permutation_app_comm (m_notes into)), app_assoc, N1. reflexivity.
  - eapply overwritten_comp; eauto.
  - eapply overwritten_comp; eauto.
  - eapply overwritten_comp; eauto.
  - eapply overwritten_comp; eauto.
Qed.

(** * C65 *)

(** What was copied as text is pasted: the same elements, all moved by the same distance so that the first one
    is at the given tick, are put into the project, which is otherwise unchanged; undo takes
    them out again. *)
Theorem C65_copy_paste : forall ov p m s t q p' c,
  project_ok p -> savable m -> all_distinct m ->
  least (all_ticks m) s -> u32 t -> (forall x, In x (all_ticks m) -> x + (t - s) <= u32_max) ->
  from_clipboard_text ov (to_clipboard_text m) = Ret (Ok q) -> bulk_add p (move_to_tick q t) = Ret (Some (p', c)) ->
  exists into more, moved (t - s) m into /\ exchanged p models_empty into more p' /\
    Forall (fun b => b_rhythm b = None /\ b_key b = None /\ b_marks b = 0) more /\
    same_project (cmd_undo c p') p.
Proof.
  intros ov p m s t q p' c O SV D L T R C E. rewrite (T_Json.C35_models ov m SV) in C. injection C as <-.
  destruct (savable_ticks m SV) as [U TY]. pose proof (move_spec m s t U L T R) as M.
  assert (TY' : models_typed (move_to_tick m t)).
  { apply (moved_typed _ _ _ M U). intros x I. specialize (R x I). destruct L as [_ L]. specialize (L x I). unfold u32 in T. lia. }
  pose proof (moved_all_distinct _ _ _ M D) as D'.
  destruct (T_Project.C50_edit (EBulkAdd (move_to_tick m t)) models_empty (move_to_tick m t) p p' c O TY' D' (mv_add _) E) as [more [X [_ B]]].
  exists (move_to_tick m t), more. split; [exact M|]. split; [exact X|]. split; [exact B|].
  apply (T_Project.C28_undo (EBulkAdd (move_to_tick m t)) p p' c O TY' D' E).
Qed.
Print Assumptions C65_copy_paste.

(** Cut at one place and paste at another: the project with the elements moved. *)
Theorem C65_cut_paste : forall ov p m s t p1 c1 q p2 c2,
  project_ok p -> savable m -> all_present p m -> all_distinct m ->
  least (all_ticks m) s -> u32 t -> (forall x, In x (all_ticks m) -> x + (t - s) <= u32_max) ->
  bulk_remove p m = Ret (Some (p1, c1)) ->
  from_clipboard_text ov (to_clipboard_text m) = Ret (Ok q) -> bulk_add p1 (move_to_tick q t) = Ret (Some (p2, c2)) ->
  exists into more, moved (t - s) m into /\ exchanged p m into more p2 /\
    Forall (fun b => b_rhythm b = None /\ b_key b = None /\ b_marks b = 0) more.
Proof.
  intros ov p m s t p1 c1 q p2 c2 O SV PR D L T R E1 C E2. destruct (savable_ticks m SV) as [U TY].
  destruct (T_Project.C50_edit (EBulkRemove m) m models_empty p p1 c1 O TY PR (mv_remove m) E1) as [more1 [X1 [N1 _]]]. rewrite (N1 eq_refl) in X1.
  destruct (edit_ok (EBulkRemove m) p p1 c1 O TY E1) as [O1 _].
  destruct (C65_copy_paste ov p1 m s t q p2 c2 O1 SV D L T R C E2) as [into [more [M [X2 [B _]]]]].
  exists into, more. split; [exact M|]. split; [|exact B]. eapply exchanged_comp; eauto.
Qed.
Print Assumptions C65_cut_paste.

(** Cut and pasted where it was: nothing has changed, if the bars reached the end of the content before
    (they do after every edit, C26). *)
Theorem C65_same_place : forall ov p m s p1 c1 q p2 c2,
  project_ok p -> notes_valid p -> covered p -> savable m -> all_present p m -> least (all_ticks m) s ->
  bulk_remove p m = Ret (Some (p1, c1)) ->
  from_clipboard_text ov (to_clipboard_text m) = Ret (Ok q) -> bulk_add p1 (move_to_tick q s) = Ret (Some (p2, c2)) ->
  same_project p2 p.
Proof.
  intros ov p m s p1 c1 q p2 c2 O V CV SV PR L E1 C E2. rewrite (T_Json.C35_models ov m SV) in C. injection C as <-.
  destruct (savable_ticks m SV) as [U TY]. pose proof (smallest_least m s U L) as SM.
  assert (MV : move_to_tick m s = m) by (unfold move_to_tick; rewrite SM, Z.sub_diag; reflexivity). rewrite MV in E2.
  pose proof (T_Project.C28_undo (EBulkRemove m) p p1 c1 O TY PR E1) as UN.
  assert (C1 : c1 = ModelChanged models_empty m) by (unfold bulk_remove, by_cmd in E1; injection E1 as _ <-; reflexivity).
  subst c1. cbn [cmd_undo] in UN. destruct (edit_ok (EBulkRemove m) p p1 _ O TY E1) as [O1 _].
  rewrite bulk_add_runs in E2. unfold runs in E2. apply bind_ret in E2 as [[p3 more] [E3 E4]]. apply ret_inj in E4. injection E4 as -> _.
  pose proof (exchange_ok models_empty m p1 O1 TY) as O2.
  destruct (replenish_cong _ _ _ _ O2 O UN E3) as [p4 [E5 S5]].
  assert (X : p4 = p); [|subst; exact S5].
  destruct (replenish_ret p p4 more (ok_bars _ O) E5) as [ne [r [n [NE [_ [_ [_ [_ _]]]]]]]].
  rewrite (replenish_unfold p (ok_bars _ O)), NE in E5. cbn [bind] in E5.
  destruct (content_end_spec p ne O V (note_max_end_spec p ne (ok_notes p O) V NE)) as [G1 [G2 G3]].
  assert (LE : content_end p ne <= last_tick p).
  { pose proof (last_tick_range p (ok_bars _ O)) as LR. unfold u32 in LR.
    destruct G3 as [G3|G3]; [lia|]. destruct (CV _ G3) as [K|[k [b [I K]]]]; [lia|]. pose proof (last_tick_max _ (ok_bars _ O) _ _ I). lia. }
  apply Z.leb_le in LE. rewrite LE in E5. apply ret_inj in E5. congruence.
Qed.
Print Assumptions C65_same_place.

(** A note, a tempo and a pedal event are cut, and pasted elsewhere or at their place. *)
Definition ex_selection : models := mkModels [T_Project.ex_note 480 SG] [] [mkTempo 960 140] [mkCtrl 480 127 0] [].
Example C65_case : project_ok T_Project.ex_project /\ notes_valid T_Project.ex_project /\ covered T_Project.ex_project /\
  savable ex_selection /\ all_present T_Project.ex_project ex_selection /\ all_distinct ex_selection /\ least (all_ticks ex_selection) 480 /\
  exists p1 c1, bulk_remove T_Project.ex_project ex_selection = Ret (Some (p1, c1)) /\
    (exists p2 c2, bulk_add p1 (move_to_tick ex_selection 2000) = Ret (Some (p2, c2)) /\
       map fst (pj_notes p2) = [0; 480; 1600; 2000] /\ map fst (pj_tempos p2) = [0; 2480] /\ map fst (pj_dumpers p2) = [900; 2000] /\
       map fst (pj_bars p2) = [960; 1920; 2640]) /\
    (exists p3 c3, bulk_add p1 (move_to_tick ex_selection 480) = Ret (Some (p3, c3)) /\ same_project p3 T_Project.ex_project).
Proof.
  assert (SV : savable ex_selection) by (apply (P_Savable.read_models_savable (write_models ex_selection)); vm_compute; reflexivity).
  assert (PR : all_present T_Project.ex_project ex_selection).
  { constructor; cbn; try (intros v [<-|[]]; cbn; tauto); try (intros v []).
    exists [T_Project.ex_note 0 SC; T_Project.ex_note 480 SE; T_Project.ex_note 1600 SA].
    apply perm_trans with [T_Project.ex_note 0 SC; T_Project.ex_note 480 SG; T_Project.ex_note 480 SE; T_Project.ex_note 1600 SA].
    - apply perm_skip, perm_swap.
    - apply perm_swap. }
  assert (CV : covered T_Project.ex_project).
  { intros t H. right. exists 1920, (mkBar 1920 (Some (mkRhythm 3 D4)) (Some 2) 0). split; [cbn; auto|].
    destruct H as [k n l I E|k v I|k v I|k v I]; cbn in I; repeat (destruct I as [I|I]; [inversion I; subst|]); try destruct I; try lia;
      vm_compute in E; injection E as <-; lia. }
  assert (L : least (all_ticks ex_selection) 480) by (split; [cbn; auto|]; cbn; intros x H; repeat (destruct H as [<-|H]; [lia|]); destruct H).
  split; [exact T_Project.ex_project_ok|]. split; [exact T_Project.ex_project_valid|]. split; [exact CV|]. split; [exact SV|]. split; [exact PR|].
  split; [constructor; unfold distinct_ticks; cbn; repeat constructor; cbn; tauto|]. split; [exact L|].
  destruct (bulk_remove T_Project.ex_project ex_selection) as [[[p1 c1]|]| |] eqn:E1; try discriminate E1. exists p1, c1. split; [reflexivity|]. split.
  - destruct (bulk_add p1 (move_to_tick ex_selection 2000)) as [[[p2 c2]|]| |] eqn:E2;
      vm_compute in E1; injection E1 as <- <-; vm_compute in E2; try discriminate E2. injection E2 as <- <-. do 2 eexists. split; [reflexivity|]. repeat split; reflexivity.
  - destruct (bulk_add p1 (move_to_tick ex_selection 480)) as [[[p3 c3]|]| |] eqn:E2;
      try (vm_compute in E1; injection E1 as <- <-; vm_compute in E2; discriminate E2). exists p3, c3. split; [reflexivity|].
    apply (C65_same_place (fun _ => false) T_Project.ex_project ex_selection 480 p1 c1 ex_selection p3 c3); auto.
    + exact T_Project.ex_project_ok.
    + exact T_Project.ex_project_valid.
Qed.
