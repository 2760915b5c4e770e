(** Property theorems about edits of different elements, made in one order or another: C92. *)
From Coq Require Import ZArith List Bool Lia Sorted Permutation.
From Verif Require Import Base M_Pitch M_Duration M_Percent M_Scalar M_Bar M_Note M_Store M_Tuple M_Models M_Project.
From Verif Require Import S_Project S_Score S_Effect S_Safe S_Move S_Order P_Base P_Store P_Query P_Replenish P_Edit P_History P_Effect.
From Verif Require Import T_Move.
From Verif Require T_Project T_Safe.
Import ListNotations.
Open Scope Z_scope.

(** One edit. *)
Lemma any_step e out into p p' k : project_ok p -> edit_typed e -> moves e out into -> all_present p out -> all_distinct into ->
  edit_run e p = Ret (Some (p', k)) ->
  project_ok p' /\ exists more, exchanged p out into more p' /\ Forall blank more /\
    forall b t v, In b more -> then_at b_tick (pj_bars p) (m_bars out) (m_bars into) t v -> t < b_tick b.
Proof.
  intros O T M W1 W2 E. split; [apply (edit_ok e p p' k O T E)|]. destruct (moves_typed _ _ _ M T) as [T1 T2].
  destruct (edit_runs e p out into M) as [R|R]; rewrite R in E; [discriminate|].
  destruct (runs_exchanged _ _ _ _ _ _ O T2 W1 W2 E) as (more & X & _ & F & _). exists more. split; [exact X|]. split.
  { eapply Forall_impl; [|exact F]. intros b (A & B & C & _). repeat split; auto. }
  intros b t v I H. rewrite Forall_forall in F. destruct (F b I) as (_ & _ & _ & L). apply (L t v).
  cbn [exchange pj_bars]. apply (add_all_overwritten b_tick); [apply (keyed_srt _ _ (ok_bars _ O))|apply W2|exact H].
Qed.

Lemma any_part p out into q e out2 into2 q' k : project_ok q -> moved p out into q ->
  all_present p (m_both out out2) -> all_elsewhere out2 out -> all_elsewhere out2 into -> all_distinct (m_both into into2) ->
  edit_typed e -> moves e out2 into2 -> edit_run e q = Ret (Some (q', k)) -> project_ok q' /\ moved p (m_both out out2) (m_both into into2) q'.
Proof.
  intros OQ M P FO [F1 F2 F3 F4] D T MV E.
  assert (P' : all_present q out2).
  { destruct P as [P1 P2 P3 P4 P5], FO as [O1 O2 O3 O4]. destruct M as [M1 M2 M3 M4 M5 M6 M7]. constructor.
    - destruct P1 as [rest P1]. unfold m_both in P1. cbn [m_notes] in P1. exists (rest ++ m_notes into). apply (Permutation_app_inv_r (m_notes out)).
      rewrite M2, P1, <- !app_assoc. rewrite (Permutation_app_comm (m_notes out)), <- !app_assoc. reflexivity.
    - intros v I. apply M3. right. split; [apply F1, I|]. split; [apply O1, I|]. apply P2, in_app_iff. auto.
    - intros v I. apply M5. right. split; [apply F2, I|]. split; [apply O2, I|]. apply P3, in_app_iff. auto.
    - intros v I. apply M6. right. split; [apply F3, I|]. split; [apply O3, I|]. apply P4, in_app_iff. auto.
    - intros v I. apply M7. right. split; [apply F4, I|]. split; [apply O4, I|]. apply P5, in_app_iff. auto. }
  assert (D' : all_distinct into2).
  { destruct D as [D1 D2 D3 D4]. unfold distinct_ticks, m_both in D1, D2, D3, D4. cbn [m_bars m_tempos m_dumpers m_softs] in D1, D2, D3, D4. rewrite map_app in D1, D2, D3, D4.
    constructor; eapply nodup_right; eassumption. }
  destruct (any_step e out2 into2 q q' k OQ T MV P' D' E) as (OQ' & more & [X1 X2 X3 X4 X5 X6] & B & L). split; [exact OQ'|].
  destruct M as [M1 M2 M3 M4 M5 M6 M7], D as [D1 D2 D3 D4]. destruct (part_bars _ _ _ _ _ _ _ _ F1 D1 M3 M4 X3 B L) as [B1 B2].
  constructor; auto; try (eapply part_store; eassumption).
  - destruct M1 as (A1 & A2 & A3), X1 as (C1 & C2 & C3). repeat split; congruence.
  - unfold m_both. cbn [m_notes]. rewrite (Permutation_app_comm (m_notes out)), !app_assoc, X2, <- !app_assoc.
    rewrite (Permutation_app_comm (m_notes into2)), !app_assoc. rewrite M2. reflexivity.
Qed.

(** Settings. *)
Definition settle (e : edit) (p : project) : project :=
  match e with
  | ESetRhythm r => mkProject r (pj_key p) (pj_grid p) (pj_notes p) (pj_bars p) (pj_tempos p) (pj_dumpers p) (pj_softs p)
  | ESetKey k => mkProject (pj_rhythm p) k (pj_grid p) (pj_notes p) (pj_bars p) (pj_tempos p) (pj_dumpers p) (pj_softs p)
  | ESetGrid g => mkProject (pj_rhythm p) (pj_key p) g (pj_notes p) (pj_bars p) (pj_tempos p) (pj_dumpers p) (pj_softs p)
  | _ => p
  end.
Definition settled (es : list edit) (p : project) : project := fold_left (fun p e => settle e p) es p.
Lemma both_assoc m m' m'' : m_both m (m_both m' m'') = m_both (m_both m m') m''.
Proof. unfold m_both. cbn. rewrite !app_assoc. reflexivity. Qed.
Lemma both_nil m : m_both m models_empty = m.
Proof. destruct m. unfold m_both, models_empty. cbn. rewrite !app_nil_r. reflexivity. Qed.
Lemma nil_both m : m_both models_empty m = m.
Proof. destruct m. reflexivity. Qed.
Lemma else_both m m' m'' : all_elsewhere (m_both m m') m'' <-> all_elsewhere m m'' /\ all_elsewhere m' m''.
Proof.
  split.
  - intros [A1 A2 A3 A4]. split; constructor; intros v I; [apply A1|apply A2|apply A3|apply A4|apply A1|apply A2|apply A3|apply A4]; apply in_app_iff; auto.
  - intros [[A1 A2 A3 A4] [B1 B2 B3 B4]]. constructor; intros v I; apply in_app_iff in I as [I|I]; auto.
Qed.
Lemma else_flip {V} (tick : V -> Z) l l' : elsewhere tick l l' -> elsewhere tick l' l.
Proof. intros H v I J. apply in_map_iff in J as (x & E & J). apply (H x J). rewrite E. apply in_map, I. Qed.
Lemma all_flip m m' : all_elsewhere m m' -> all_elsewhere m' m.
Proof. intros [A1 A2 A3 A4]. constructor; apply else_flip; assumption. Qed.
Lemma else_right m m' m'' : all_elsewhere m (m_both m' m'') <-> all_elsewhere m m' /\ all_elsewhere m m''.
Proof.
  split.
  - intros H. apply all_flip, else_both in H as [A B]. split; apply all_flip; assumption.
  - intros [A B]. apply all_flip, else_both. split; apply all_flip; assumption.
Qed.
Lemma else_nil m : all_elsewhere models_empty m.
Proof. constructor; intros v []. Qed.
Lemma present_left p m m' : all_present p (m_both m m') -> all_present p m.
Proof.
  intros [[rest P1] P2 P3 P4 P5]. unfold m_both in *. cbn [m_notes m_bars m_tempos m_dumpers m_softs] in *.
  constructor; [exists (m_notes m' ++ rest); rewrite app_assoc; exact P1|..]; intros v I; [apply P2|apply P3|apply P4|apply P5]; apply in_app_iff; auto.
Qed.
Lemma distinct_left m m' : all_distinct (m_both m m') -> all_distinct m.
Proof.
  intros [D1 D2 D3 D4]. unfold distinct_ticks, m_both in D1, D2, D3, D4. cbn [m_bars m_tempos m_dumpers m_softs] in D1, D2, D3, D4.
  rewrite map_app in D1, D2, D3, D4. constructor; eapply nodup_left; eassumption.
Qed.

Lemma moved_settle e p out into q : (match e with ESetRhythm _ | ESetKey _ | ESetGrid _ => True | _ => False end) -> moved p out into q -> moved (settle e p) out into (settle e q).
Proof.
  intros K [[M1 [M1' M1'']] M2 M3 M4 M5 M6 M7]. destruct e; destruct K; constructor; cbn; auto.
Qed.
Lemma settle_run e q q' k : (match e with ESetRhythm _ | ESetKey _ | ESetGrid _ => True | _ => False end) -> edit_run e q = Ret (Some (q', k)) -> q' = settle e q.
Proof. intros K E. destruct e; destruct K; cbn in E; apply ret_inj in E; injection E as <- _; destruct q; reflexivity. Qed.
Lemma moves_keep e out into p : moves e out into -> settle e p = p.
Proof. intros []; reflexivity. Qed.
Lemma settle_present e p m : all_present p m -> all_present (settle e p) m.
Proof. intros [P1 P2 P3 P4 P5]. destruct e; constructor; assumption. Qed.

Lemma takes_apart e a b es out into : takes e a b -> all_take es out into -> Forall (apart e) es -> all_elsewhere out a /\ all_elsewhere out b.
Proof.
  intros K A. induction A as [|f a' b' es out into T A IH]; intros F; [split; apply else_nil|].
  inversion F as [|? ? [_ F1] F2]; subst. destruct (IH F2) as [I1 I2]. destruct (F1 _ _ _ _ K T) as (H1 & H2 & H3).
  rewrite !else_both. split; split; auto. apply all_flip, H1.
Qed.

Lemma edits_moved es : forall p A B out into q q', project_ok q -> moved p A B q -> Forall edit_typed es -> all_take es out into ->
  all_present p (m_both A out) -> all_distinct (m_both B into) -> all_elsewhere out A -> all_elsewhere out B -> ForallOrdPairs apart es ->
  edits_done q es q' -> project_ok q' /\ moved (settled es p) (m_both A out) (m_both B into) q'.
Proof.
  induction es as [|e es IH]; intros p A B out into q q' O M T K P D E1 E2 F R.
  - inversion K; subst. inversion R; subst. rewrite !both_nil. auto.
  - inversion K as [|? a b ? out' into' K1 K2]; subst. inversion R as [|? ? k q1 ? ? R1 R2]; subst. inversion T as [|? ? T1 T2]; subst.
    inversion F as [|? ? F1 F2]; subst. apply else_both in E1 as [E1 E1'], E2 as [E2 E2']. destruct (takes_apart _ _ _ _ _ _ K1 K2 F1) as [E3 E4].
    assert (X : project_ok q1 /\ moved (settle e p) (m_both A a) (m_both B b) q1).
    { assert (S : (match e with ESetRhythm _ | ESetKey _ | ESetGrid _ => True | _ => False end) -> a = models_empty -> b = models_empty ->
        project_ok q1 /\ moved (settle e p) (m_both A a) (m_both B b) q1).
      { intros H -> ->. rewrite !both_nil. split; [apply (edit_ok e q q1 k O T1 R1)|]. rewrite (settle_run e q q1 k H R1). apply moved_settle; assumption. }
      destruct K1 as [e a b MV| | |]; [|apply S; cbn; auto..]. rewrite (moves_keep e a b p MV).
      apply (any_part p A B q e a b q1 k); auto.
      - rewrite both_assoc in P. apply present_left in P. exact P.
      - rewrite both_assoc in D. apply distinct_left in D. exact D. }
    destruct X as [O1 M1]. change (settled (e :: es) p) with (settled es (settle e p)). rewrite !both_assoc.
    apply (IH (settle e p) (m_both A a) (m_both B b) out' into' q1 q'); auto.
    + apply settle_present. rewrite <- both_assoc. exact P.
    + rewrite <- both_assoc. exact D.
    + apply else_right. auto.
    + apply else_right. auto.
Qed.

Lemma moved_refl p : project_ok p -> moved p models_empty models_empty p.
Proof.
  intros O. constructor; cbn; auto; unfold then_at; cbn; intros; intuition.
Qed.
Lemma edits_all p es out into q : project_ok p -> Forall edit_typed es -> all_take es out into -> all_present p out -> all_distinct into ->
  ForallOrdPairs apart es -> edits_done p es q -> project_ok q /\ moved (settled es p) out into q.
Proof.
  intros O T K P D F R. rewrite <- (nil_both out), <- (nil_both into). apply (edits_moved es p models_empty models_empty out into p q); auto.
  - apply moved_refl, O.
  - rewrite nil_both. exact P.
  - rewrite nil_both. exact D.
  - apply all_flip, else_nil.
  - apply all_flip, else_nil.
Qed.

(** Orders. *)
Record alike_models (m m' : models) : Prop := mkAlikeM {
  am_notes : Permutation (m_notes m) (m_notes m'); am_bars : Permutation (m_bars m) (m_bars m'); am_tempos : Permutation (m_tempos m) (m_tempos m');
  am_dumpers : Permutation (m_dumpers m) (m_dumpers m'); am_softs : Permutation (m_softs m) (m_softs m') }.
Lemma am_refl m : alike_models m m.
Proof. constructor; reflexivity. Qed.
Lemma am_trans m m' m'' : alike_models m m' -> alike_models m' m'' -> alike_models m m''.
Proof. intros [] []. constructor; etransitivity; eassumption. Qed.
Lemma am_both m m' n : alike_models m m' -> alike_models (m_both n m) (m_both n m').
Proof. intros []. constructor; cbn; apply Permutation_app_head; assumption. Qed.
Lemma am_swap m m' n : alike_models (m_both m (m_both m' n)) (m_both m' (m_both m n)).
Proof. constructor; cbn; rewrite !app_assoc; apply Permutation_app_tail, Permutation_app_comm. Qed.
Lemma am_same m m' : alike_models m m' -> same_models m m'.
Proof.
  intros [A1 A2 A3 A4 A5]. unfold same_models. split; [exact A1|].
  repeat split; intros I; eapply Permutation_in; try exact I; auto using Permutation_sym.
Qed.
Lemma am_present p m m' : alike_models m m' -> all_present p m -> all_present p m'.
Proof.
  intros [A1 A2 A3 A4 A5] [[rest P1] P2 P3 P4 P5]. constructor.
  - exists rest. rewrite <- A1. exact P1.
  - intros v I. apply P2. eapply Permutation_in; [symmetry; exact A2|exact I].
  - intros v I. apply P3. eapply Permutation_in; [symmetry; exact A3|exact I].
  - intros v I. apply P4. eapply Permutation_in; [symmetry; exact A4|exact I].
  - intros v I. apply P5. eapply Permutation_in; [symmetry; exact A5|exact I].
Qed.
Lemma am_distinct m m' : alike_models m m' -> all_distinct m -> all_distinct m'.
Proof.
  intros [A1 A2 A3 A4 A5] [D1 D2 D3 D4]. constructor; unfold distinct_ticks in *; (eapply Permutation_NoDup; [apply Permutation_map; eassumption|assumption]).
Qed.

Lemma takes_any es es' : Permutation es es' -> forall out into, all_take es out into ->
  exists out' into', all_take es' out' into' /\ alike_models out out' /\ alike_models into into'.
Proof.
  induction 1 as [|e es es' P IH|e f es|es es' es'' P IH P' IH']; intros out into K.
  - inversion K; subst. exists models_empty, models_empty. split; [constructor|]. split; apply am_refl.
  - inversion K as [|? a b ? o i K1 K2]; subst. destruct (IH o i K2) as (o' & i' & K' & A & B). exists (m_both a o'), (m_both b i').
    split; [constructor; assumption|]. split; apply am_both; assumption.
  - inversion K as [|? a b ? o i K1 K2]; subst. inversion K2 as [|? a' b' ? o' i' K3 K4]; subst.
    exists (m_both a' (m_both a o')), (m_both b' (m_both b i')). split; [constructor; [assumption|constructor; assumption]|]. split; apply am_swap.
  - destruct (IH out into K) as (o & i & K1 & A & B). destruct (IH' o i K1) as (o' & i' & K2 & A' & B'). exists o', i'.
    split; [exact K2|]. split; eapply am_trans; eassumption.
Qed.
Lemma apart_flip e f : apart e f -> apart f e.
Proof.
  intros [A B]. split; [intros H; apply A; destruct e, f; destruct H; exact Logic.I|]. intros a b a' b' K K'. destruct (B _ _ _ _ K' K) as (H1 & H2 & H3).
  split; [apply all_flip, H1|]. split; assumption.
Qed.
Lemma pairs_any es es' : Permutation es es' -> ForallOrdPairs apart es -> ForallOrdPairs apart es'.
Proof.
  induction 1 as [|e es es' P IH|e f es|es es' es'' P IH P' IH']; intros F; auto.
  - inversion F; subst. constructor; [|auto]. eapply Permutation_Forall; eassumption.
  - inversion F as [|? ? F1 F2]; subst. inversion F2 as [|? ? F3 F4]; subst. inversion F1; subst. constructor; [constructor; [apply apart_flip|]; assumption|]. constructor; assumption.
Qed.
Lemma settle_swap e f p : ~ same_setting e f -> settle e (settle f p) = settle f (settle e p).
Proof. intros H. destruct e, f; cbn in *; tauto. Qed.
Lemma settled_any es es' : Permutation es es' -> ForallOrdPairs apart es -> forall p, settled es p = settled es' p.
Proof.
  induction 1 as [|e es es' P IH|e f es|es es' es'' P IH P' IH']; intros F p; auto.
  - inversion F; subst. cbn. apply IH. assumption.
  - inversion F as [|? ? F1 F2]; subst. inversion F1 as [|? ? [F3 _] _]; subst. cbn. rewrite (settle_swap e f) by (intros H; apply F3; destruct e, f; destruct H; exact Logic.I). reflexivity.
  - rewrite IH by exact F. apply IH'. eapply pairs_any; eassumption.
Qed.

(** Edits of different elements and settings lead to the same project in whatever order they are made, but for blank bars. *)
Theorem C92_any_order : forall p es es' out into q q', project_ok p -> Forall edit_typed es -> all_take es out into ->
  all_present p out -> all_distinct into -> ForallOrdPairs apart es -> Permutation es es' ->
  edits_done p es q -> edits_done p es' q' -> apart_from_blanks q q'.
Proof.
  intros p es es' out into q q' O T K P D F X R R'. destruct (takes_any es es' X out into K) as (out' & into' & K' & A & B).
  destruct (edits_all p es out into q O T K P D F R) as [OQ M].
  destruct (edits_all p es' out' into' q' O) as [OQ' M']; auto.
  - eapply Permutation_Forall; eassumption.
  - eapply am_present; eassumption.
  - eapply am_distinct; eassumption.
  - eapply pairs_any; eassumption.
  - rewrite <- (settled_any es es' X F p) in M'. apply (moved_same (settled es p) out into out' into' q q'); auto using am_same.
Qed.
Print Assumptions C92_any_order.

(** And they lead to what taking out all that they take out, and then putting in all that they put in, leads to. *)
Theorem C92_at_once : forall p es out into q q', project_ok p -> Forall edit_typed es -> Forall (fun e => ~ same_setting e e) es -> all_take es out into ->
  all_present p out -> all_distinct into -> ForallOrdPairs apart es -> models_typed out -> models_typed into ->
  edits_done p es q -> edits_done p [EBulkRemove out; EBulkAdd into] q' -> apart_from_blanks q q'.
Proof.
  intros p es out into q q' O T N K P D F T1 T2 R R'. destruct (edits_all p es out into q O T K P D F R) as [OQ M].
  assert (E : settled es p = p).
  { clear - N. induction N as [|e es H N IH]; [reflexivity|]. cbn. rewrite <- IH at 2. f_equal. destruct e; cbn in *; tauto. }
  rewrite E in M. inversion R' as [|? ? k q1 ? ? R1 R2]; subst. inversion R2 as [|? ? k2 q2 ? ? R3 R4]; subst. inversion R4; subst.
  assert (M1 : project_ok q1 /\ moved p (m_both models_empty out) (m_both models_empty models_empty) q1).
  { apply (any_part p models_empty models_empty p (EBulkRemove out) out models_empty q1 k); auto using moved_refl.
    - rewrite nil_both. exact P.
    - apply all_flip, else_nil.
    - apply all_flip, else_nil.
    - constructor; constructor.
    - constructor. }
  destruct M1 as [O1 M1]. rewrite !nil_both in M1.
  assert (M2 : project_ok q' /\ moved p (m_both out models_empty) (m_both models_empty into) q').
  { apply (any_part p out models_empty q1 (EBulkAdd into) models_empty into q' k2); auto using else_nil. all: try (rewrite both_nil; exact P). all: try (rewrite nil_both; exact D). all: apply mv_add. }
  destruct M2 as [O2 M2]. rewrite both_nil, nil_both in M2. apply (moved_same p out into out into q q'); auto; apply same_refl.
Qed.
Print Assumptions C92_at_once.

(** With proper elements (see C67) all of the edits return, in every order. *)
Lemma edits_go es : forall p, safe_project p -> Forall edit_safe es -> Forall (fun e => records e = true) es -> exists q, edits_done p es q /\ safe_project q.
Proof.
  induction es as [|e es IH]; intros p SP F N; [exists p; split; [constructor|exact SP]|]. inversion F; subst. inversion N; subst.
  destruct (T_Safe.edit_step e p SP) as ([[p' k]|] & E & X); auto.
  - destruct X as [X _]. destruct (IH p' X) as (q & D & SQ); auto. exists q. split; [|exact SQ]. econstructor; eassumption.
  - exfalso. apply T_Project.C50_recorded in E as (l & -> & L). cbn [records] in H3. apply Nat.ltb_lt in H3. lia.
Qed.
Theorem C92_safe : forall p es out into, safe_project p -> Forall edit_safe es -> Forall (fun e => records e = true) es -> all_take es out into ->
  all_present p out -> all_distinct into -> ForallOrdPairs apart es ->
  exists q, edits_done p es q /\ safe_project q /\
    forall es', Permutation es es' -> exists q', edits_done p es' q' /\ safe_project q' /\ apart_from_blanks q q'.
Proof.
  intros p es out into SP S N K P D F. destruct (edits_go es p SP S N) as (q & R & SQ). exists q. split; [exact R|]. split; [exact SQ|].
  intros es' X. destruct (edits_go es' p SP) as (q' & R' & SQ'); [eapply Permutation_Forall; eassumption..|]. exists q'. split; [exact R'|]. split; [exact SQ'|].
  apply (C92_any_order p es es' out into q q'); auto; [apply SP|]. eapply Forall_impl; [|exact S]. intros e. apply T_Safe.safe_edit_typed.
Qed.
Print Assumptions C92_safe.

(** Of two edits at one place the later one decides. *)
Theorem C92_same_place_refuted : exists p e f q q', safe_project p /\ edit_safe e /\ edit_safe f /\
  edits_done p [e; f] q /\ edits_done p [f; e] q' /\ ~ apart_from_blanks q q'.
Proof.
  exists T_Project.ex_project, (EAddTempo (mkTempo 480 100)), (EAddTempo (mkTempo 480 120)). eexists. eexists.
  split; [apply T_Safe.C67_example|]. split; [split; unfold in_reach, u32, u32_max; cbn; lia|]. split; [split; unfold in_reach, u32, u32_max; cbn; lia|].
  split. { eapply done_cons; [vm_compute; reflexivity|]. eapply done_cons; [vm_compute; reflexivity|apply done_nil]. }
  split. { eapply done_cons; [vm_compute; reflexivity|]. eapply done_cons; [vm_compute; reflexivity|apply done_nil]. }
  intros A. apply ap_tempos in A. cbn in A. discriminate.
Qed.
Print Assumptions C92_same_place_refuted.

(** The rhythm set, a note added far behind, a note and a bar deleted, a note and a pedal event moved, and a tempo added. *)
Definition far : edit := EAddNote (T_Project.ex_note 5000 SB).
Definition drop : edit := EBulkRemove (mkModels [T_Project.ex_note 1600 SA] [mkBar 1920 (Some (mkRhythm 3 D4)) (Some 2) 0] [] [] []).
Definition mixed : list edit := [ESetRhythm (mkRhythm 2 D4); far; drop; EChange press; EAddTempo (mkTempo 480 90)].
Lemma takes_is e a b : takes e a b ->
  match e with
  | ESetRhythm _ | ESetKey _ | ESetGrid _ => a = models_empty /\ b = models_empty
  | EAddNote n => a = models_empty /\ b = mkModels [n] [] [] [] []
  | EBulkRemove m => a = m /\ b = models_empty
  | EAddTempo t => a = models_empty /\ b = mkModels [] [] [t] [] []
  | EChange c => a = changes_from c /\ b = changes_to c
  | _ => True
  end.
Proof. intros [e' o i []| | |]; auto. Qed.
Example C92_case : safe_project T_Project.ex_project /\ Forall edit_safe mixed /\ Forall (fun e => records e = true) mixed /\ ForallOrdPairs apart mixed /\
  (exists out into, all_take mixed out into /\ all_present T_Project.ex_project out /\ all_distinct into) /\
  (exists q, edits_done T_Project.ex_project mixed q /\ map fst (pj_bars q) = [960; 2640; 3360; 4080; 4800; 5520]) /\
  (exists q, edits_done T_Project.ex_project (rev mixed) q /\ map fst (pj_bars q) = [960; 1920; 2880; 3840; 4800; 5760]).
Proof.
  split; [apply T_Safe.C67_example|]. split.
  { assert (L : forall l : list ctrl_chg, l = [] -> Forall safe_ctrl l) by (intros l ->; constructor).
    assert (L' : forall l : list tempo, l = [] -> Forall safe_tempo l) by (intros l ->; constructor).
    apply Forall_cons; [cbn; unfold safe_rhythm; cbn; lia|]. apply Forall_cons; [apply T_Safe.ex_note_safe; lia|]. apply Forall_cons.
    { split; [apply Forall_cons; [apply T_Safe.ex_note_safe; lia|apply Forall_nil]|]. cbn [m_bars m_tempos m_dumpers m_softs]. split; [|auto].
      apply Forall_cons; [|apply Forall_nil]. split; [split; vm_compute; discriminate|]. cbn. intros r E. inversion E; subst. unfold safe_rhythm. cbn. lia. }
    apply Forall_cons; [|apply Forall_cons; [split; [split; vm_compute; discriminate|vm_compute; discriminate]|apply Forall_nil]].
    cbn [edit_safe]. unfold safe, press, changes_from, changes_to. cbn [ch_notes ch_bars ch_tempos ch_dumpers ch_softs map fst snd m_notes m_bars m_tempos m_dumpers m_softs].
    split; (split; [apply Forall_cons; [apply T_Safe.ex_note_safe; lia|apply Forall_nil]|]); (split; [apply Forall_nil|]); (split; [apply Forall_nil|]);
      (split; [apply Forall_cons; [split; [split; vm_compute; discriminate|vm_compute; discriminate]|apply Forall_nil]|apply Forall_nil]). }
  split; [repeat constructor|]. split.
  { repeat (constructor; [repeat (constructor; [split; [intros []|intros a b a' b' H H'; apply takes_is in H as [-> ->], H' as [-> ->]; split; [|split]; constructor; storewise]|]); constructor|]). constructor. }
  split.
  { eexists. eexists. split. { repeat (apply at_cons; [first [apply tk_rhythm|apply tk_moves; constructor]|]). apply at_nil. }
    split; [|distinct]. constructor; [|storewise..]. exists [T_Project.ex_note 0 SC; T_Project.ex_note 480 SE]. cbn.
    etransitivity; [|apply Permutation_app_comm with (l := [_; _]) (l' := [_; _])]. cbn. apply perm_skip, perm_skip, perm_swap. }
  split; eexists; (split; [repeat (eapply done_cons; [vm_compute; reflexivity|]); apply done_nil|reflexivity]).
Qed.
