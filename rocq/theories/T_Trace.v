(** Property theorems about the traces that work leaves: C77. *)
From Coq Require Import ZArith List Bool Lia Permutation.
From Verif Require Import Base M_Duration M_Percent M_Scalar M_Pitch M_Bar M_Note M_Store M_Tuple M_Models M_Project M_Repeat.
From Verif Require Import S_Project S_Score S_Trace P_Base P_Store P_Query P_Replenish P_Edit P_History.
From Verif Require T_Project P_Panic.
Import ListNotations.
Open Scope Z_scope.

(** ** Edits of projects with the same content *)
Ltac no_hang := repeat first
  [ discriminate
  | apply P_Panic.bind_hang; [|intros ?]
  | apply chk_not_hang
  | match goal with |- P_Panic.never_hangs (if ?b then _ else _) => destruct b end ].
Lemma tick_len_ends n : P_Panic.never_hangs (note_tick_len n).
Proof.
  unfold note_tick_len, tick_length, rate_apply, percent_apply, shl32, shr32, chk_u32, chk_i64. cbv zeta. no_hang.
Qed.
Lemma max_end_ends p : P_Panic.never_hangs (note_max_end_tick p).
Proof.
  rewrite note_max_end_unfold. destruct (pj_notes p) as [|x s]; [discriminate|]. apply P_Panic.bind_hang; [|discriminate].
  generalize 0 (b_range_from (as_u32 (range_start (fst (last s x)))) (x :: s)). intros z l. revert z.
  induction l as [|y l IH]; intros z; cbn [ofold]; [discriminate|]. apply P_Panic.bind_hang; [|intros w; apply IH].
  unfold end_step. apply P_Panic.bind_hang; [apply tick_len_ends|]. intros w. apply P_Panic.bind_hang; [apply chk_not_hang|]. discriminate.
Qed.
Lemma max_end_same p q : project_ok p -> project_ok q -> same_project p q -> note_max_end_tick p = note_max_end_tick q.
Proof.
  intros Op Oq S. pose proof (proj1 (ok_notes _ Op)) as Bp. pose proof (proj1 (ok_notes _ Oq)) as Bq. pose proof (same_notes _ _ S) as P.
  destruct (note_max_end_tick p) as [m| |] eqn:E.
  - symmetry. eapply max_end_perm; [exact Bp|exact Bq|exact P|exact E].
  - destruct (note_max_end_tick q) as [m| |] eqn:F; auto.
    + rewrite (max_end_perm q p m Bq Bp (Permutation_sym P) F) in E. discriminate.
    + destruct (max_end_ends q F).
  - destruct (max_end_ends p E).
Qed.

Definition same_edited (x y : edited) : Prop :=
  match x, y with
  | Ret (Some (p, c)), Ret (Some (q, d)) => same_project p q /\ c = d
  | Ret None, Ret None | Panic, Panic | Hang, Hang => True
  | _, _ => False
  end.
Lemma replenish_same p q : project_ok p -> project_ok q -> same_project p q ->
  match replenish_bars p, replenish_bars q with
  | Ret (p', m), Ret (q', m') => same_project p' q' /\ m = m'
  | Panic, Panic | Hang, Hang => True
  | _, _ => False
  end.
Proof.
  intros Op Oq S. rewrite (replenish_unfold p (ok_bars _ Op)), (replenish_unfold q (ok_bars _ Oq)).
  rewrite <- (max_end_same p q Op Oq S). destruct (note_max_end_tick p) as [ne| |]; cbn [bind]; auto.
  replace (content_end q ne) with (content_end p ne)
    by (unfold content_end; rewrite (same_tempos _ _ S), (same_dumpers _ _ S), (same_softs _ _ S); auto).
  replace (last_tick q) with (last_tick p) by (unfold last_tick; rewrite (same_bars _ _ S); auto).
  destruct (content_end p ne <=? last_tick p); [auto|].
  replace (rhythm_at q (last_tick p)) with (rhythm_at p (last_tick p))
    by (unfold rhythm_at; rewrite (same_bars _ _ S), (same_rhythm _ _ S); auto).
  destruct (rhythm_at p (last_tick p)) as [r| |]; cbn [bind]; auto. rewrite <- (same_bars _ _ S).
  destruct (replenish_loop _ _ _ _ _ _) as [[bars added]| |]; cbn [bind]; auto.
  split; [|reflexivity]. destruct S. constructor; cbn; auto.
Qed.
Lemma runs_same F A rep p q : project_ok p -> project_ok q -> models_typed A -> same_project p q ->
  same_edited (runs F A rep p) (runs F A rep q).
Proof.
  intros Op Oq TA S. unfold runs.
  assert (R : recorded F A p = recorded F A q) by (destruct S; unfold recorded; congruence).
  pose proof (exchange_cong F A p q S) as X. destruct rep.
  - pose proof (replenish_same _ _ (exchange_ok F A p Op TA) (exchange_ok F A q Oq TA) X) as H.
    destruct (replenish_bars (exchange F A p)) as [[p' m]| |], (replenish_bars (exchange F A q)) as [[q' m']| |]; cbn in *; try tauto.
    destruct H as [H1 ->]. split; [exact H1|]. congruence.
  - cbn. split; [exact X|]. congruence.
Qed.
Lemma edit_same e p q : project_ok p -> project_ok q -> edit_typed e -> same_project p q -> same_edited (edit_run e p) (edit_run e q).
Proof.
  intros Op Oq T S.
  assert (SET : forall c, (forall F A, c <> ModelChanged F A) -> same_edited (Ret (Some (cmd_redo c p, c))) (Ret (Some (cmd_redo c q, c)))).
  { intros c _. cbn. split; [apply cmd_redo_cong; exact S|reflexivity]. }
  assert (TE := typed_empty).
  destruct e; cbn [edit_run edit_typed] in *; unfold set_rhythm, set_key, set_grid, by_cmd;
    rewrite ?add_note_runs, ?add_bar_runs, ?add_tempo_runs, ?add_dumper_runs, ?add_soft_runs, ?bulk_remove_runs, ?bulk_add_runs, ?change_runs;
    try (rewrite (same_rhythm _ _ S); apply SET; discriminate);
    try (rewrite (same_key _ _ S); apply SET; discriminate);
    try (rewrite (same_grid _ _ S); apply SET; discriminate);
    try (apply runs_same; auto; tauto || (constructor; cbn; auto)).
  rewrite !tuplize_runs. destruct (1 <? length l)%nat; [|exact Logic.I].
  destruct (tuplize l) as [t| |]; cbn [bind]; try exact Logic.I. apply runs_same; auto. constructor; cbn; auto.
Qed.

(** ** Histories *)
Record level (redo : bool) (h k : history) : Prop := mkLevel {
  lv_model : same_project (h_model h) (h_model k);
  lv_ok : hist_ok h;
  lv_ok' : hist_ok k;
  lv_undo : h_undo h = h_undo k;
  lv_limit : h_limit h = h_limit k;
  lv_redo : redo = true -> h_redo h = h_redo k;
}.

Lemma level_edit b e h k : level b h k -> edit_typed e ->
  match history_edit h e, history_edit k e with
  | Ret h', Ret k' => level (b || records e) h' k'
  | Panic, Panic | Hang, Hang => True
  | _, _ => False
  end.
Proof.
  intros L T. pose proof (edit_same e _ _ (proj1 (lv_ok _ _ _ L)) (proj1 (lv_ok' _ _ _ L)) T (lv_model _ _ _ L)) as S.
  assert (R : edit_run e (h_model h) = Ret None -> records e = false).
  { intros E. apply unrecorded in E as (l & -> & Q). unfold records. apply Nat.ltb_ge. exact Q. }
  unfold history_edit. destruct (edit_run e (h_model h)) as [[[p c]|]| |] eqn:E, (edit_run e (h_model k)) as [[[q d]|]| |] eqn:F; cbn in S |- *; try tauto.
  - destruct S as [S <-]. destruct (edit_ok e _ _ _ (proj1 (lv_ok _ _ _ L)) T E) as [O1 C1]. destruct (edit_ok e _ _ _ (proj1 (lv_ok' _ _ _ L)) T F) as [O2 _].
    destruct L as [L1 (L2 & L2' & _) (L3 & L3' & _) L4 L5 L6].
    constructor; cbn [h_model h_undo h_redo h_limit]; auto.
    + split; [exact O1|]. split; [apply forall_firstn; constructor; auto|constructor].
    + split; [exact O2|]. split; [apply forall_firstn; constructor; auto|constructor].
    + rewrite L4, L5. reflexivity.
  - rewrite (R eq_refl), orb_false_r. exact L.
Qed.
Lemma level_undo b h k : level b h k -> level b (history_undo h) (history_undo k).
Proof.
  intros [L1 (O1 & U1 & R1) (O2 & U2 & R2) L4 L5 L6]. unfold history_undo. rewrite <- L4 in *. destruct (h_undo h) as [|c u] eqn:E.
  - constructor; auto; try (split; [assumption|]; rewrite <- ?L4, ?E; split; assumption || constructor). congruence.
  - inversion U1; subst. constructor; cbn [h_model h_undo h_redo h_limit]; auto.
    + apply cmd_undo_cong; auto.
    + split; [apply cmd_undo_ok; auto|]. cbn. split; auto.
    + split; [apply cmd_undo_ok; auto|]. cbn. split; auto.
    + intros B. rewrite (L6 B). reflexivity.
Qed.
Lemma level_redo h k : level true h k -> level true (history_redo h) (history_redo k).
Proof.
  intros [L1 (O1 & U1 & R1) (O2 & U2 & R2) L4 L5 L6]. specialize (L6 eq_refl). unfold history_redo. rewrite <- L6 in *. destruct (h_redo h) as [|c u] eqn:E.
  - constructor; auto; try (split; [assumption|]; rewrite <- ?L6, ?E; split; assumption || constructor). congruence.
  - inversion R1; subst. constructor; cbn [h_model h_undo h_redo h_limit]; auto.
    + apply cmd_redo_cong; auto.
    + split; [apply cmd_redo_ok; auto|]. cbn. split; auto.
    + split; [apply cmd_redo_ok; auto|]. cbn. split; auto.
    + rewrite L4. reflexivity.
Qed.
Lemma level_look b h k a : level b h k -> (b = true \/ a <> AskCanRedo) -> Forall2 alike (look h a) (look k a).
Proof.
  intros [[S1 S2 S3 S4 S5 S6 S7 S8] _ _ L4 L5 L6] N.
  destruct a; cbn [look]; try (constructor; [|constructor]); try constructor; cbn [alike]; auto; try f_equal.
  - unfold rhythm_at. rewrite S1, S5. reflexivity.
  - unfold key_at. rewrite S2, S5. reflexivity.
  - unfold tempo_at. rewrite S6. reflexivity.
  - unfold dumper_at. rewrite S7. reflexivity.
  - unfold soft_at. rewrite S8. reflexivity.
  - unfold location_to_tick, last_bar, rhythm_at. rewrite S1, S5. reflexivity.
  - unfold tick_to_location. rewrite S5. reflexivity.
  - unfold render_project, score. rewrite S1, S5. reflexivity.
  - unfold render_project, score. rewrite S1, S5. reflexivity.
  - rewrite L4. reflexivity.
  - destruct N as [->|N]; [rewrite (L6 eq_refl); reflexivity|congruence].
Qed.
Lemma level_work acts : forall b h k, level b h k -> acts_typed acts -> (b = true \/ no_redo acts) -> indistinguishable (work h acts) (work k acts).
Proof.
  induction acts as [|a acts IH]; intros b h k L T N; [split; [constructor|reflexivity]|]. inversion T as [|? ? T1 T2]; subst.
  assert (LK : Forall2 alike (look h a) (look k a)).
  { apply (level_look b h k a L). destruct N as [N|N]; [auto|]. right. intros ->. exact N. }
  cbn [work].
  assert (GO : forall b' h' k', level b' h' k' -> (b' = true \/ no_redo acts) ->
    indistinguishable (let (l, e) := work h' acts in (look h a ++ l, e)) (let (l, e) := work k' acts in (look k a ++ l, e))).
  { intros b' h' k' L' N'. destruct (IH b' h' k' L' T2 N') as [I1 I2]. destruct (work h' acts) as [l e], (work k' acts) as [l' e'].
    split; cbn in *; [apply Forall2_app; auto|exact I2]. }
  destruct a as [o| | | | | | | | | | |]; try (apply (GO b h k L); destruct N as [N|N]; [auto|right; exact N]).
  - destruct o as [e| |]; cbn [hist_step].
    + pose proof (level_edit b e h k L T1) as H.
      destruct (history_edit h e) as [h'| |], (history_edit k e) as [k'| |]; try tauto; try (split; [exact LK|reflexivity]).
      apply (GO _ h' k' H). destruct N as [->|N]; [left; reflexivity|]. cbn in N. destruct N as [->|N]; [left; apply orb_true_r|auto].
    + apply (GO b _ _ (level_undo b h k L)). destruct N as [N|N]; auto.
    + destruct N as [->|N]; [|destruct N]. apply (GO true _ _ (level_redo h k L)). auto.
  - destruct N as [->|N]; [|destruct N]. apply (GO true h k L). auto.
Qed.

(** * C77 *)

(** Projects with the same content cannot be told apart by any work on them. *)
Theorem C77_same : forall p q limit acts, project_ok p -> project_ok q -> same_project p q -> acts_typed acts ->
  indistinguishable (work (history_new p limit) acts) (work (history_new q limit) acts).
Proof.
  intros p q limit acts Op Oq S T. apply (level_work acts true); auto.
  constructor; cbn; auto; (split; [assumption|]; split; constructor).
Qed.
Print Assumptions C77_same.

(** An edit that was made and undone leaves no trace, but that it can be redone: until something is redone, and for
    ever after the next edit, the editor answers as if it had not been made. *)
Theorem C77_no_trace : forall p limit os h e h1 acts, project_ok p -> Forall hop_typed os -> hist_run (history_new p limit) os = Ret h ->
  edit_typed e -> edit_wf e (h_model h) -> records e = true -> (length (h_undo h) < limit)%nat ->
  history_edit h e = Ret h1 -> acts_typed acts -> no_redo acts ->
  indistinguishable (work (history_undo h1) acts) (work h acts).
Proof.
  intros p limit os h e h1 acts O TO R T W RE L E TA N.
  assert (HO : hist_ok h).
  { refine (hist_ok_run os _ h _ TO R). split; [exact O|]. split; constructor. }
  assert (LI : h_limit h = limit).
  { destruct (limit_run os (history_new p limit) h) as [_ Q]; [cbn; lia|exact R|]. exact Q. }
  apply (level_work acts false); auto. unfold history_edit in E. apply bind_ret in E as ([[p' c]|] & E1 & E2).
  - apply ret_inj in E2. subst h1. destruct (edit_ok e _ _ _ (proj1 HO) T E1) as [O' C']. destruct HO as (HO & HU & HR).
    rewrite <- LI in L. destruct (h_limit h) as [|n] eqn:EL; [lia|]. unfold history_undo. cbn [firstn h_undo h_model h_redo h_limit].
    rewrite (firstn_all2 (h_undo h)) by lia. constructor; cbn [h_model h_undo h_redo h_limit]; auto; try discriminate.
    + apply (T_Project.C28_undo e _ _ _ HO T W E1).
    + split; [apply cmd_undo_ok; auto|]. split; [exact HU|]. cbn. constructor; [exact C'|constructor].
    + split; [exact HO|]. split; assumption.
  - apply unrecorded in E1 as (l & -> & Q). unfold records in RE. apply Nat.ltb_lt in RE. lia.
Qed.
Print Assumptions C77_no_trace.

(** The same for undoing and redoing at once, and for redoing and undoing at once: not even that is left. *)
Theorem C77_back_and_forth : forall p limit os h acts, project_ok p -> hist_wf (mkSnap [] p [] limit) os ->
  hist_run (history_new p limit) os = Ret h -> acts_typed acts ->
  (h_undo h <> [] -> indistinguishable (work (history_redo (history_undo h)) acts) (work h acts)) /\
  (h_redo h <> [] -> indistinguishable (work (history_undo (history_redo h)) acts) (work h acts)).
Proof.
  intros p limit os h acts O W R TA. destruct (sim_run os _ _ h (sim_new p limit O) W R) as (s & _ & SI).
  assert (HO : hist_ok h).
  { refine (hist_ok_run os (history_new p limit) h _ _ R); [split; [exact O|]; split; constructor|].
    clear - W R O. revert W R. generalize (sim_new p limit O). generalize (history_new p limit) (mkSnap [] p [] limit). 
    intros h0 s0 SI W R. revert h0 s0 SI W R. induction os as [|o os IH]; intros h0 s0 SI W R; [constructor|].
    cbn [hist_wf] in W. destruct W as [W1 W2]. cbn [hist_run] in R. apply bind_ret in R as (h1 & R1 & R2).
    destruct o as [e| |]; cbn [hist_step snap_step] in *.
    - destruct W1 as [Wa Wb]. destruct (sim_edit h0 s0 e h1 SI Wb Wa R1) as (s1 & E1 & S1). rewrite E1 in W2.
      constructor; [exact Wb|]. eapply IH; eauto.
    - apply ret_inj in R1. subst h1. constructor; [exact Logic.I|]. eapply IH; [apply sim_undo; exact SI|exact W2|exact R2].
    - apply ret_inj in R1. subst h1. constructor; [exact Logic.I|]. eapply IH; [apply sim_redo; exact SI|exact W2|exact R2]. }
  assert (ST : forall h', hist_ok h' -> sim h' s -> h_undo h' = h_undo h -> h_redo h' = h_redo h -> h_limit h' = h_limit h -> level true h' h).
  { intros h' HO' S' E1 E2 E3. constructor; auto. eapply same_trans; [apply (sim_now _ _ S')|]. apply same_sym. apply (sim_now _ _ SI). }
  pose proof (sim_past _ _ SI) as PA. pose proof (sim_future _ _ SI) as FU.
  assert (HU : hist_ok (history_undo h)).
  { refine (hist_ok_run [HUndo] h _ HO _ eq_refl). repeat constructor. }
  assert (HR : hist_ok (history_redo h)).
  { refine (hist_ok_run [HRedo] h _ HO _ eq_refl). repeat constructor. }
  assert (HUR : hist_ok (history_redo (history_undo h))).
  { refine (hist_ok_run [HRedo] _ _ HU _ eq_refl). repeat constructor. }
  assert (HRU : hist_ok (history_undo (history_redo h))).
  { refine (hist_ok_run [HUndo] _ _ HR _ eq_refl). repeat constructor. }
  split; intros NE; apply (level_work acts true); auto; apply ST; auto.
  - pose proof (sim_redo _ _ (sim_undo _ _ SI)) as X. inversion PA as [q E1 E2|q c cs q' qs Oq D P E1 E2 E3]; [congruence|].
    assert (ES : snap_redo (snap_undo s) = s) by (unfold snap_undo, snap_redo; destruct s; cbn in *; subst; reflexivity).
    rewrite ES in X. exact X.
  - unfold history_redo, history_undo. destruct (h_undo h) eqn:EU; [congruence|]. reflexivity.
  - unfold history_redo, history_undo. destruct (h_undo h) eqn:EU; [congruence|]. reflexivity.
  - unfold history_redo, history_undo. destruct (h_undo h) eqn:EU; [congruence|]. reflexivity.
  - pose proof (sim_undo _ _ (sim_redo _ _ SI)) as X. inversion FU as [q E1 E2|q c cs q' qs Oq D P E1 E2 E3]; [congruence|].
    assert (ES : snap_undo (snap_redo s) = s) by (unfold snap_undo, snap_redo; destruct s; cbn in *; subst; reflexivity).
    rewrite ES in X. exact X.
  - unfold history_redo, history_undo. destruct (h_redo h) eqn:EU; [congruence|]. reflexivity.
  - unfold history_redo, history_undo. destruct (h_redo h) eqn:EU; [congruence|]. reflexivity.
  - unfold history_redo, history_undo. destruct (h_redo h) eqn:EU; [congruence|]. reflexivity.
Qed.
Print Assumptions C77_back_and_forth.

(** Found false when the undo history is full: then the edit has pushed the oldest step out, which stays lost. *)
Theorem C77_full_refuted : exists p limit os h e h1 acts, project_ok p /\ Forall hop_typed os /\ hist_run (history_new p limit) os = Ret h /\
  edit_typed e /\ edit_wf e (h_model h) /\ records e = true /\ history_edit h e = Ret h1 /\ acts_typed acts /\ no_redo acts /\
  ~ indistinguishable (work (history_undo h1) acts) (work h acts).
Proof.
  exists T_Project.ex_project, 1%nat, [HEdit (ESetKey 1)]. eexists. exists (ESetKey 2). eexists. exists [AskCanUndo].
  split; [exact T_Project.ex_project_ok|]. split; [repeat constructor|]. split; [reflexivity|]. split; [exact Logic.I|].
  split; [exact Logic.I|]. split; [reflexivity|]. split; [reflexivity|]. split; [repeat constructor|]. split; [exact Logic.I|].
  intros [H _]. cbn in H. inversion H as [|? ? ? ? H1 _]. cbn in H1. discriminate.
Qed.
Print Assumptions C77_full_refuted.

(** A note is added far behind the end and undone; then the user looks at everything, undoes an earlier step, adds a tempo and
    looks again. *)
Definition ex_acts : list act :=
  [AskContent; AskRhythm 2000; AskTick (mkLoc 6 7); AskPlaying; AskCanUndo; Do HUndo; AskKey 0; Do (HEdit (EAddTempo (mkTempo 700 90)));
   AskTempo 800; Do HUndo; AskCanRedo; Do HRedo; AskContent].
Example C77_case : let p := T_Project.ex_project in let os := [HEdit (ESetKey 3)] in let e := EAddNote (T_Project.ex_note 5000 SC) in
  exists h h1, project_ok p /\ Forall hop_typed os /\ hist_run (history_new p 10) os = Ret h /\
  edit_typed e /\ edit_wf e (h_model h) /\ records e = true /\ (length (h_undo h) < 10)%nat /\ history_edit h e = Ret h1 /\
  acts_typed ex_acts /\ no_redo ex_acts /\ length (fst (work h ex_acts)) = 9%nat /\ snd (work h ex_acts) = Fine_ /\
  (length (pj_bars (h_model h)) < length (pj_bars (h_model h1)))%nat.
Proof.
  cbv zeta. do 2 eexists. split; [exact T_Project.ex_project_ok|]. split; [repeat constructor|]. split; [reflexivity|].
  split; [exact Logic.I|]. split; [exact Logic.I|]. split; [reflexivity|]. split; [vm_compute; lia|]. split; [vm_compute; reflexivity|].
  split. { unfold acts_typed, ex_acts. repeat constructor; vm_compute; discriminate. }
  split. { cbn. auto. }
  split; [vm_compute; reflexivity|]. split; [vm_compute; reflexivity|]. vm_compute. lia.
Qed.
Example C77_same_case : let p := T_Project.ex_project in
  exists q, project_ok q /\ same_project p q /\ p <> q /\ acts_typed ex_acts.
Proof.
  cbv zeta.
  exists (pj_set_notes T_Project.ex_project [(0, T_Project.ex_note 0 SC); (480, T_Project.ex_note 480 SG); (480, T_Project.ex_note 480 SE); (1600, T_Project.ex_note 1600 SA)]).
  assert (P : Permutation (pj_notes T_Project.ex_project)
    [(0, T_Project.ex_note 0 SC); (480, T_Project.ex_note 480 SG); (480, T_Project.ex_note 480 SE); (1600, T_Project.ex_note 1600 SA)])
    by (cbn; apply perm_skip, perm_swap).
  split.
  { destruct T_Project.ex_project_ok as [[O1 O1'] O2 O3 O4 O5]. constructor; auto. cbn. split.
    - repeat constructor; cbn; lia.
    - intros k n I. apply O1'. apply (Permutation_in _ (Permutation_sym P)). exact I. }
  split; [constructor; auto|]. split; [discriminate|]. unfold acts_typed, ex_acts. repeat constructor; vm_compute; discriminate.
Qed.
Example C77_back_and_forth_case : let p := T_Project.ex_project in
  let os := [HEdit (ESetKey 3); HEdit (EAddNote (T_Project.ex_note 5000 SC)); HUndo] in
  exists h, project_ok p /\ hist_wf (mkSnap [] p [] 10) os /\ hist_run (history_new p 10) os = Ret h /\ h_undo h <> [] /\ h_redo h <> [].
Proof.
  cbv zeta. eexists. split; [exact T_Project.ex_project_ok|]. split.
  - cbn [hist_wf]. split; [split; exact Logic.I|].
    match goal with |- match ?x with _ => _ end => let v := eval vm_compute in x in change x with v end. cbv iota.
    split; [split; exact Logic.I|].
    match goal with |- match ?x with _ => _ end => let v := eval vm_compute in x in change x with v end. cbv iota.
    split; [exact Logic.I|]. cbn. exact Logic.I.
  - split; [vm_compute; reflexivity|]. split; discriminate.
Qed.
