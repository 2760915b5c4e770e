(** Property theorems about what is kept on disk between sessions: C54, C59. *)
From Coq Require Import ZArith List Bool Lia Permutation Ascii String.
From Verif Require Import Base M_Pitch M_Duration M_Percent M_Scalar M_Bar M_Note M_Models M_Store M_Tuple M_Project M_Event M_Text M_Json M_Disk.
From Verif Require Import S_Pitch S_Note S_Percent S_Project S_Event S_Json S_Disk P_Base P_Query P_Json P_Savable P_Edit P_History P_Disk.
From Verif Require T_Project T_Event.
Import ListNotations.
Open Scope Z_scope.
Open Scope list_scope.

(** * C54 *)

Definition no_settings_meta (cm : cmd * metadata) : Prop :=
  match fst cm with ModelChanged _ _ => True | _ => snd cm = meta_new end.

Lemma request_meta_ok q p p' c : edit_run (request_edit q) p = Ret (Some (p', c)) -> no_settings_meta (c, request_meta q).
Proof.
  intro E. destruct (edit_cases _ _ _ _ E) as [(r & Q & _ & ->)|[(k & Q & _ & ->)|[(g & Q & _ & ->)|(F & A & M & R)]]];
    try (destruct q; try discriminate Q; reflexivity).
  unfold runs in R. apply bind_ret in R. destruct R as [[p2 more] [_ R]]. apply ret_inj in R.
  inversion R; subst. exact I.
Qed.

Lemma acts_history l : forall s s', Forall (fun a => a <> Clear false) l -> acts_run s l = Ret s' ->
  hist_run (T_Event.forget s) (flat_map hops l) = Ret (T_Event.forget s').
Proof.
  induction l as [|a l IH]; intros s s' K E; cbn [acts_run flat_map] in *.
  - apply ret_inj in E. subst. reflexivity.
  - apply bind_ret in E. destruct E as [s1 [E1 E2]]. inversion K as [|? ? K1 K2]; subst.
    destruct (T_Event.C59_history s) as (H1 & _ & (u & U1 & U2) & (r & R1 & R2)).
    destruct a as [q| | |k]; cbn [hops app hist_run hist_step] in *.
    + rewrite (H1 q s1 E1). cbn [bind]. eapply IH; eauto.
    + rewrite E1 in U1. apply ret_inj in U1. subst u. rewrite <- U2. cbn [bind]. eapply IH; eauto.
    + rewrite E1 in R1. apply ret_inj in R1. subst r. rewrite <- R2. cbn [bind]. eapply IH; eauto.
    + destruct k; [|congruence]. cbn [act_run] in E1. apply ret_inj in E1. subst s1.
      change (T_Event.forget s) with (T_Event.forget (mkSession (ss_model s) (ss_undo s) (ss_redo s) (ss_limit s) ev_none)).
      eapply IH; eauto.
Qed.

Lemma acts_meta l : forall s s', acts_run s l = Ret s' ->
  Forall no_settings_meta (ss_undo s) -> Forall no_settings_meta (ss_redo s) ->
  Forall no_settings_meta (ss_undo s') /\ Forall no_settings_meta (ss_redo s').
Proof.
  induction l as [|a l IH]; intros s s' E U R; cbn [acts_run] in E.
  - apply ret_inj in E. subst. auto.
  - apply bind_ret in E. destruct E as [s1 [E1 E2]].
    assert (X : Forall no_settings_meta (ss_undo s1) /\ Forall no_settings_meta (ss_redo s1)); [|destruct X; eapply IH; eauto].
    destruct a as [q| | |k]; cbn [act_run] in E1.
    + apply bind_ret in E1. destruct E1 as [x [X1 E1]]. apply bind_ret in E1. destruct E1 as [v [_ E1]].
      destruct x as [[p c]|]; apply ret_inj in E1; subst s1; [|auto]. cbn [ss_undo ss_redo]. split; [|constructor].
      apply Forall_firstn. constructor; [|exact U]. eapply request_meta_ok; eauto.
    + destruct (ss_undo s) as [|[c m] r] eqn:Es; apply ret_inj in E1; subst s1; [rewrite Es; auto|].
      inversion U; subst. cbn [ss_undo ss_redo]. auto.
    + destruct (ss_redo s) as [|[c m] r] eqn:Es; apply ret_inj in E1; subst s1; [rewrite Es; auto|].
      inversion R; subst. cbn [ss_undo ss_redo]. auto.
    + destruct k; apply ret_inj in E1; subst s1; cbn [ss_undo ss_redo]; auto.
Qed.

(** Whatever was done in a session (edits, undo, redo, in any number), the
    project as it was k commands ago, written to disk, together with the last k
    commands, written to disk, is read back without a panic as the project the
    session ended with, and the commands come back with what they say about the
    selection. *)
Theorem C54_reopen : forall p limit l s sn k q,
  project_ok p -> savable_project p ->
  hist_wf (mkSnap [] p [] limit) (flat_map hops l) -> Forall hop_savable (flat_map hops l) ->
  Forall (fun a => a <> Clear false) l ->
  acts_run (session_new p limit) l = Ret s ->
  snap_run (mkSnap [] p [] limit) (flat_map hops l) = Ret sn ->
  nth_error (sn_now sn :: sn_past sn) k = Some q ->
  exists r, reopen (write_project q) (map write_cmd (rev (firstn k (ss_undo s)))) = Ret (Some r) /\
    same_project (ro_model r) (ss_model s) /\ ro_log r = rev (firstn k (ss_undo s)).
Proof.
  intros p limit l s sn k q O P W SA K E E' N.
  pose proof (acts_history l _ _ K E) as H.
  destruct (acts_meta l _ _ E (Forall_nil _) (Forall_nil _)) as [MU _].
  apply (reopen_history p limit _ (T_Event.forget s) sn k q _ O P W SA H E' N).
  - unfold T_Event.forget. cbn [h_undo]. rewrite map_rev, firstn_map. reflexivity.
  - apply Forall_rev, Forall_firstn. exact MU.
Qed.
Print Assumptions C54_reopen.

(** ** What is said about the selection, over a session *)

(** Whatever can be undone or redone was recorded by one of the calls and still has
    what that call said about the selection. *)
Definition recorded_by (l : list act) (x : cmd * metadata) : Prop :=
  exists q p p', In (Ask q) l /\ edit_run (request_edit q) p = Ret (Some (p', fst x)) /\ snd x = request_meta q.

Lemma acts_recorded l : forall l0 s s', acts_run s l = Ret s' ->
  Forall (recorded_by l0) (ss_undo s) -> Forall (recorded_by l0) (ss_redo s) ->
  Forall (recorded_by (l0 ++ l)) (ss_undo s') /\ Forall (recorded_by (l0 ++ l)) (ss_redo s').
Proof.
  assert (W : forall l0 a x, recorded_by l0 x -> recorded_by (l0 ++ [a]) x).
  { intros l0 a x (q & p & p' & I & E). exists q, p, p'. split; [apply in_or_app; auto|exact E]. }
  induction l as [|a l IH]; intros l0 s s' E U R; cbn [acts_run] in E.
  - apply ret_inj in E. subst. rewrite app_nil_r. auto.
  - apply bind_ret in E. destruct E as [s1 [E1 E2]].
    assert (X : Forall (recorded_by (l0 ++ [a])) (ss_undo s1) /\ Forall (recorded_by (l0 ++ [a])) (ss_redo s1)).
    2:{ destruct X as [X1 X2]. specialize (IH (l0 ++ [a]) s1 s' E2 X1 X2). rewrite <- app_assoc in IH. exact IH. }
    apply (Forall_impl (recorded_by (l0 ++ [a])) (W l0 a)) in U, R.
    destruct a as [q| | |k]; cbn [act_run] in E1.
    + apply bind_ret in E1. destruct E1 as [x [X1 E1]]. apply bind_ret in E1. destruct E1 as [v [_ E1]].
      destruct x as [[p c]|]; apply ret_inj in E1; subst s1; [|auto]. cbn [ss_undo ss_redo]. split; [|constructor].
      apply Forall_firstn. constructor; [|exact U]. exists q, (ss_model s), p. split; [apply in_or_app; right; left; reflexivity|auto].
    + destruct (ss_undo s) as [|[c m] r] eqn:Es; apply ret_inj in E1; subst s1; [rewrite Es; auto|].
      inversion U; subst. cbn [ss_undo ss_redo]. auto.
    + destruct (ss_redo s) as [|[c m] r] eqn:Es; apply ret_inj in E1; subst s1; [rewrite Es; auto|].
      inversion R; subst. cbn [ss_undo ss_redo]. auto.
    + destruct k; apply ret_inj in E1; subst s1; cbn [ss_undo ss_redo]; auto.
Qed.

(** After any calls: an undo (a redo) does nothing, or it reports what one of the
    calls took away (put in) with what that call said about the selection. *)
Theorem C60_session : forall p limit l s, acts_run (session_new p limit) l = Ret s ->
  (forall s', act_run UndoIt s = Ret s' -> s' = s \/ exists q p0 p1 c v,
     In (Ask q) l /\ edit_run (request_edit q) p0 = Ret (Some (p1, c)) /\ ss_events s' = ev_app (ss_events s) v /\
     forall added removed, c = ModelChanged added removed -> T_Event.reports v removed (request_meta q)) /\
  (forall s', act_run RedoIt s = Ret s' -> s' = s \/ exists q p0 p1 c v,
     In (Ask q) l /\ edit_run (request_edit q) p0 = Ret (Some (p1, c)) /\ ss_events s' = ev_app (ss_events s) v /\
     forall added removed, c = ModelChanged added removed -> T_Event.reports v added (request_meta q)).
Proof.
  intros p limit l s E. destruct (acts_recorded l [] _ _ E (Forall_nil _) (Forall_nil _)) as [U R]. cbn [app] in U, R.
  split; intros s' A; cbn [act_run] in A.
  - destruct (ss_undo s) as [|[c m] r]; apply ret_inj in A; [left; congruence|right]. inversion U as [|x y X Y]; subst x y.
    destruct X as (q & p0 & p1 & I & E1 & M). cbn [fst snd] in E1, M. subst m s'.
    exists q, p0, p1, c, (undo_events c (request_meta q)). split; [exact I|]. split; [exact E1|]. split; [reflexivity|].
    intros added removed ->. apply T_Event.C60_undo_redo.
  - destruct (ss_redo s) as [|[c m] r]; apply ret_inj in A; [left; congruence|right]. inversion R as [|x y X Y]; subst x y.
    destruct X as (q & p0 & p1 & I & E1 & M). cbn [fst snd] in E1, M. subst m s'.
    exists q, p0, p1, c, (redo_events c (request_meta q)). split; [exact I|]. split; [exact E1|]. split; [reflexivity|].
    intros added removed ->. apply T_Event.C60_undo_redo.
Qed.
Print Assumptions C60_session.

Definition ex_got (o : outcome session) : session := match o with Ret s => s | _ => session_new T_Project.ex_project 0 end.
Definition ex_bar500 : bar := mkBar 500 None None 0.
Definition ex_undone : session := ex_got (acts_run (session_new T_Project.ex_project 10) [Ask (QAddBar ex_bar500 true); UndoIt]).
Definition ex_redone : session := ex_got (act_run RedoIt ex_undone).
Example C60_session_case :
  acts_run (session_new T_Project.ex_project 10) [Ask (QAddBar ex_bar500 true); UndoIt] = Ret ex_undone /\
  act_run RedoIt ex_undone = Ret ex_redone /\ ex_redone <> ex_undone /\
  reported (ev_bars (ss_events ex_redone)) ex_bar500 (mkMeta (Some true) false) /\
  ~ reported (ev_bars (ss_events ex_redone)) ex_bar500 meta_new.
Proof.
  split; [vm_compute; reflexivity|]. split; [vm_compute; reflexivity|].
  split; [intro H; apply (f_equal (fun s => length (ss_undo s))) in H; vm_compute in H; discriminate|].
  set (l := ev_bars (ss_events ex_redone)). vm_compute in l. split.
  - eexists. split; [left; reflexivity|]. apply put_add.
  - intros (e & I & P). subst l. cbn in I.
    repeat (destruct I as [<-|I]; [inversion P as [|k l J|k0 k l J]; subst; cbn in J; repeat (destruct J as [J|J]; try discriminate J); destruct J|]). destruct I.
Qed.

(** ** The same without conditions on what is in the project *)

Lemma moves_all_savable e F A : moves e F A -> edit_all_savable e -> savable F /\ savable A.
Proof.
  intros M S. destruct M; cbn [edit_all_savable edit_savable] in S; split; try apply savable_empty; try tauto;
    try (split; [|repeat split; constructor]; exact S); try (repeat split; cbn; auto; fail).
  split; [|repeat split; constructor]. cbn [m_notes]. now apply (tuplize_savable l t).
Qed.

Lemma edit_all_savable_step e p p' c : project_ok p -> edit_typed e -> edit_all_savable e -> savable_project p ->
  edit_run e p = Ret (Some (p', c)) -> savable_project p' /\ savable_cmd c.
Proof.
  intros O T S P E. pose proof P as (R & K & G & N & B & Te & D & So). apply edit_cases in E.
  destruct E as [(r & -> & -> & ->)|[(k & -> & -> & ->)|[(g & -> & -> & ->)|(F & A & M & E)]]]; cbn [edit_all_savable edit_savable] in S.
  - split; [|now split]. unfold savable_project. cbn. tauto.
  - split; [|now split]. unfold savable_project. cbn. tauto.
  - split; [|now split]. unfold savable_project. cbn [pj_set_grid pj_rhythm pj_key pj_grid pj_notes pj_bars pj_tempos pj_dumpers pj_softs]. tauto.
  - destruct (moves_all_savable e F A M S) as [SF SA]. destruct (moves_typed e F A M T) as [_ TA].
    exact (runs_savable F A _ p p' c O TA P SF SA E).
Qed.

Lemma cmd_apply_savable c p : savable_project p -> savable_cmd c -> savable_project (cmd_undo c p) /\ savable_project (cmd_redo c p).
Proof.
  intros P C. pose proof P as (R & K & G & N & B & Te & D & So).
  destruct c; cbn [cmd_undo cmd_redo savable_cmd] in *;
    try (split; apply exchange_savable; tauto); unfold savable_project;
    cbn [pj_set_rhythm pj_set_key pj_set_grid pj_rhythm pj_key pj_grid pj_notes pj_bars pj_tempos pj_dumpers pj_softs]; tauto.
Qed.

Definition storable (s : session) : Prop :=
  project_ok (ss_model s) /\ savable_project (ss_model s) /\
  Forall (fun cm => cmd_typed (fst cm) /\ logged_ok cm) (ss_undo s) /\ Forall (fun cm => cmd_typed (fst cm) /\ logged_ok cm) (ss_redo s).

Lemma storable_act a s s' : storable s -> act_storable a -> act_run a s = Ret s' -> storable s'.
Proof.
  intros (O & P & U & R) A E. destruct a as [q| | |k]; cbn [act_run act_storable] in *.
  - destruct A as [T S]. apply bind_ret in E. destruct E as [x [X1 E]]. apply bind_ret in E. destruct E as [v [_ E]].
    destruct x as [[p c]|]; apply ret_inj in E; subst s'; [|split; auto].
    destruct (edit_ok _ _ _ _ O T X1) as [O' C]. destruct (edit_all_savable_step _ _ _ _ O T S P X1) as [P' C'].
    split; [exact O'|]. split; [exact P'|]. cbn [ss_undo ss_redo]. split; [|constructor].
    apply Forall_firstn. constructor; [|exact U]. split; [exact C|]. split; [exact C'|]. exact (request_meta_ok _ _ _ _ X1).
  - destruct (ss_undo s) as [|[c m] r] eqn:Es; apply ret_inj in E; subst s'; [split; [auto|rewrite Es; auto]|].
    inversion U as [|? ? [U1 [U2 U3]] U4]; subst. cbn [fst] in *. unfold storable. cbn [ss_model ss_undo ss_redo].
    split; [now apply cmd_undo_ok|]. split; [now apply cmd_apply_savable|]. split; [assumption|]. constructor; [|assumption]. split; [|split]; assumption.
  - destruct (ss_redo s) as [|[c m] r] eqn:Es; apply ret_inj in E; subst s'; [split; [auto|rewrite Es; auto]|].
    inversion R as [|? ? [U1 [U2 U3]] U4]; subst. cbn [fst] in *. unfold storable. cbn [ss_model ss_undo ss_redo].
    split; [now apply cmd_redo_ok|]. split; [now apply cmd_apply_savable|]. split; [|assumption]. constructor; [|assumption]. split; [|split]; assumption.
  - destruct k; apply ret_inj in E; subst s'; unfold storable; cbn [ss_model ss_undo ss_redo]; auto.
Qed.

Lemma storable_acts l : forall s s', storable s -> Forall act_storable l -> acts_run s l = Ret s' -> storable s'.
Proof.
  induction l as [|a l IH]; intros s s' S F E; cbn [acts_run] in E.
  - apply ret_inj in E. now subst.
  - inversion F; subst. apply bind_ret in E. destruct E as [s1 [E1 E2]]. apply (IH s1 s'); [exact (storable_act a s s1 S H1 E1)|assumption|assumption].
Qed.

Lemma acts_limit l : forall s s', acts_run s l = Ret s' -> ss_limit s' = ss_limit s.
Proof.
  induction l as [|a l IH]; intros s s' E; cbn [acts_run] in E.
  - apply ret_inj in E. now subst.
  - apply bind_ret in E. destruct E as [s1 [E1 E2]]. rewrite (IH _ _ E2). clear IH E2.
    destruct a as [q| | |k]; cbn [act_run] in E1.
    + apply bind_ret in E1. destruct E1 as [x [_ E1]]. apply bind_ret in E1. destruct E1 as [v [_ E1]].
      destruct x as [[p c]|]; apply ret_inj in E1; subst s1; reflexivity.
    + destruct (ss_undo s) as [|[c m] r]; apply ret_inj in E1; subst s1; reflexivity.
    + destruct (ss_redo s) as [|[c m] r]; apply ret_inj in E1; subst s1; reflexivity.
    + destruct k; apply ret_inj in E1; subst s1; reflexivity.
Qed.

(** Whatever was done in a session, with whatever arguments that can be stored, and
    then any edits, again whatever they are given, as many as can be undone: the
    project as it was before these edits and the commands they recorded, written to
    disk, are read back as exactly the project as it is after them. *)
Theorem C54_edits : forall p limit l s1 qs s,
  project_ok p -> savable_project p -> Forall act_storable l -> acts_run (session_new p limit) l = Ret s1 ->
  Forall act_storable (map Ask qs) -> acts_run s1 (map Ask qs) = Ret s ->
  let k := length (filter records (map request_edit qs)) in (k <= limit)%nat ->
  exists r, reopen (write_project (ss_model s1)) (map write_cmd (rev (firstn k (ss_undo s)))) = Ret (Some r) /\
    ro_model r = ss_model s /\ ro_log r = rev (firstn k (ss_undo s)).
Proof.
  intros p limit l s1 qs s O P F1 E1 F2 E2 k L.
  assert (S1 : storable s1) by (eapply storable_acts; [|exact F1|exact E1]; split; [exact O|split; [exact P|split; constructor]]).
  assert (S2 : storable s) by (eapply storable_acts; eauto).
  destruct S1 as (O1 & P1 & _). destruct S2 as (_ & _ & U & _).
  destruct (reopen_back (ss_model s1) (rev (firstn k (ss_undo s))) O1 P1) as (r & ER & MR & LR).
  { apply Forall_rev, Forall_firstn. eapply Forall_impl; [|exact U]. cbn. tauto. }
  exists r. split; [exact ER|]. split; [|exact LR]. rewrite MR.
  assert (H : hist_run (T_Event.forget s1) (map HEdit (map request_edit qs)) = Ret (T_Event.forget s)).
  { rewrite <- (acts_history (map Ask qs) s1 s); [|apply Forall_forall; intros a I; apply in_map_iff in I; destruct I as (q & <- & _); discriminate|exact E2].
    f_equal. clear. induction qs; cbn; [reflexivity|]. now f_equal. }
  assert (TE : Forall edit_typed (map request_edit qs)).
  { rewrite Forall_forall in *. intros e I. apply in_map_iff in I. destruct I as (q & <- & I). apply (F2 (Ask q)). now apply in_map. }
  destruct (edits_again _ (T_Event.forget s1) (T_Event.forget s) O1 TE H) as (new & LN & _ & UU & RR & _).
  cbn [T_Event.forget h_limit h_undo h_model] in UU, RR. rewrite (acts_limit l _ _ E1) in UU. cbn [session_new ss_limit] in UU.
  rewrite <- RR. f_equal. rewrite map_rev, <- firstn_map.
  apply (f_equal (firstn k)) in UU. rewrite !firstn_firstn, !Nat.min_l in UU by exact L.
  rewrite UU. unfold k. rewrite <- LN, <- (rev_length new), firstn_app, Nat.sub_diag, firstn_all, app_nil_r. apply rev_involutive.
Qed.
Print Assumptions C54_edits.

(** Every edit keeps the project such that all of it survives being saved, if
    what it was given to put in does. *)
Theorem C54_stays_savable : forall e p p' c, project_ok p -> edit_typed e -> edit_wf e p -> edit_savable e ->
  savable_project p -> edit_run e p = Ret (Some (p', c)) -> savable_project p'.
Proof. intros e p p' c O T W S P R. exact (proj1 (edit_savable_step e p p' c O T W S P R)). Qed.
Print Assumptions C54_stays_savable.

Lemma ex_savable_project : savable_project T_Project.ex_project.
Proof.
  assert (R : exists q, read_project (write_project T_Project.ex_project) = Ret (Some q) /\ q = T_Project.ex_project)
    by (eexists; split; vm_compute; reflexivity).
  destruct R as (q & R & ->). exact (proj2 (read_project_ok _ _ R)).
Qed.

Lemma savable_of_read m : read_models (write_models m) = Ret (Some m) -> savable m.
Proof. apply read_models_savable. Qed.

Lemma ex_history_savable : Forall hop_savable T_Project.ex_history.
Proof.
  pose proof (savable_of_read (mkModels [T_Project.ex_note 3000 SC] [mkBar 960 None (Some 3) 0] [] [] [])
    ltac:(vm_compute; reflexivity)) as (N & B & _).
  pose proof (savable_of_read (changes_to T_Project.ex_change) ltac:(vm_compute; reflexivity)) as C.
  repeat apply Forall_cons; try exact I; try exact (Forall_inv N); try exact (Forall_inv B); try exact C; try apply Forall_nil.
  cbn. unfold savable_key. lia.
Qed.

Definition ex_acts : list act :=
  [Ask (QAddNote (T_Project.ex_note 3000 SC) true); Ask (QChange T_Project.ex_change (mkMeta (Some false) true)); UndoIt; UndoIt; RedoIt;
   Clear true; Ask (QAddBar (mkBar 960 None (Some 3) 0) false); Ask (QSetKey 5); UndoIt].

Example C54_example : project_ok T_Project.ex_project /\ savable_project T_Project.ex_project /\
  hist_wf (mkSnap [] T_Project.ex_project [] 10) (flat_map hops ex_acts) /\
  Forall hop_savable (flat_map hops ex_acts) /\ Forall (fun a => a <> Clear false) ex_acts /\
  exists s sn q r, acts_run (session_new T_Project.ex_project 10) ex_acts = Ret s /\
  snap_run (mkSnap [] T_Project.ex_project [] 10) (flat_map hops ex_acts) = Ret sn /\
  nth_error (sn_now sn :: sn_past sn) 2 = Some q /\
  reopen (write_project q) (map write_cmd (rev (firstn 2 (ss_undo s)))) = Ret (Some r) /\
  ro_model r = ss_model s /\ ro_model r <> q /\
  map snd (ro_log r) = [mkMeta (Some true) false; meta_new].
Proof.
  split; [exact T_Project.ex_project_ok|]. split; [exact ex_savable_project|].
  split; [exact T_Project.ex_history_wf|]. split; [exact ex_history_savable|]. split; [repeat constructor; discriminate|].
  do 4 eexists. split; [vm_compute; reflexivity|]. split; [vm_compute; reflexivity|].
  split; [cbn [nth_error sn_now sn_past]; reflexivity|]. split; [vm_compute; reflexivity|].
  split; [vm_compute; reflexivity|]. split; [vm_compute; discriminate|reflexivity].
Qed.

(** Notes and bars taken out that are not there, two bars for one tick. *)
Definition ex_odd : list request :=
  [QBulkRemove (mkModels [T_Project.ex_note 77 SD] [mkBar 7 None None 0] [] [] []) (mkMeta (Some true) true);
   QBulkAdd (mkModels [T_Project.ex_note 3000 SC] [mkBar 500 None None 0; mkBar 500 None (Some 1) 0] [] [] []) meta_new; QSetKey 3].

Lemma ex_storable : Forall act_storable ex_acts /\ Forall act_storable (map Ask ex_odd).
Proof.
  pose proof ex_history_savable as H. unfold T_Project.ex_history in H.
  pose proof (savable_of_read (changes_from T_Project.ex_change) ltac:(vm_compute; reflexivity)) as C.
  split; unfold ex_acts, ex_odd; cbn [map].
  - repeat match goal with H : Forall hop_savable (_ :: _) |- _ => inversion H; clear H; subst end.
    cbn [hop_savable edit_savable] in *.
    repeat apply Forall_cons; try exact I; try apply Forall_nil; cbn [act_storable request_edit]; (split; [|cbn [edit_all_savable edit_savable]; auto]);
      try exact I; try exact (proj2 T_Project.ex_change_wf); try (unfold edit_typed, u32, u32_max; cbn; lia).
  - repeat apply Forall_cons; try apply Forall_nil; cbn [act_storable request_edit]; split; cbn [edit_typed edit_all_savable edit_savable];
      try exact I; try (apply savable_of_read; vm_compute; reflexivity);
      try (constructor; cbn [m_notes m_bars m_tempos m_dumpers m_softs]; repeat constructor; cbn; unfold u32_max; lia).
Qed.

Example C54_edits_case : Forall act_storable ex_acts /\ Forall act_storable (map Ask ex_odd) /\
  length (filter records (map request_edit ex_odd)) = 3%nat /\
  exists s1 s r, acts_run (session_new T_Project.ex_project 10) ex_acts = Ret s1 /\ acts_run s1 (map Ask ex_odd) = Ret s /\
  reopen (write_project (ss_model s1)) (map write_cmd (rev (firstn 3 (ss_undo s)))) = Ret (Some r) /\
  ro_model r = ss_model s /\ map fst (pj_bars (ro_model r)) = [500; 960; 1920; 2640; 3360] /\ pj_key (ro_model r) = 3.
Proof.
  split; [apply ex_storable|]. split; [apply ex_storable|]. split; [reflexivity|].
  do 3 eexists. split; [vm_compute; reflexivity|]. split; [vm_compute; reflexivity|]. split; [vm_compute; reflexivity|].
  split; [vm_compute; reflexivity|]. split; vm_compute; reflexivity.
Qed.

(** Without the condition on what is put in it is false, for values that the
    editing operations themselves make.  A note moved by trimming until its
    sum leaves i16: the session goes on, the next one panics. *)
Definition far_note : note :=
  match note_with_tick_added (T_Project.ex_note 480 SC) 40000 true with Ret (Ok n) => n | _ => T_Project.ex_note 0 SC end.
Theorem C54_refuted_trimmer : exists n,
  note_with_tick_added (T_Project.ex_note 480 SC) 40000 true = Ret (Ok n) /\
  exists h, hist_run (history_new T_Project.ex_project 10) [HEdit (EAddNote n)] = Ret h /\
  hist_wf (mkSnap [] T_Project.ex_project [] 10) [HEdit (EAddNote n)] /\
  reopen (write_project T_Project.ex_project) (map (fun c => write_cmd (c, meta_new)) (rev (h_undo h))) = Panic /\
  reopen (write_project (h_model h)) [] = Panic.
Proof.
  exists far_note. split; [vm_compute; reflexivity|]. eexists. split; [vm_compute; reflexivity|].
  split; [|split; vm_compute; reflexivity].
  cbn [hist_wf]. split; [split; exact I|].
  match goal with |- match ?x with _ => _ end => let v := eval vm_compute in x in change x with v end. exact I.
Qed.
Print Assumptions C54_refuted_trimmer.

(** A tempo dragged down to 0, which [Tempo::drag] does, comes back as 1. *)
Theorem C54_refuted_tempo : exists t h r,
  tempo_drag (mkTempo 970 100) 0 (-100) = Ret t /\
  hist_run (history_new T_Project.ex_project 10) [HEdit (EAddTempo t)] = Ret h /\
  reopen (write_project T_Project.ex_project) (map (fun c => write_cmd (c, meta_new)) (rev (h_undo h))) = Ret (Some r) /\
  tempo_at (h_model h) 1000 = Ret 0 /\ tempo_at (ro_model r) 1000 = Ret 1.
Proof.
  exists (mkTempo 970 0). do 2 eexists. split; [vm_compute; reflexivity|]. split; [vm_compute; reflexivity|]. split; [vm_compute; reflexivity|].
  split; vm_compute; reflexivity.
Qed.
Print Assumptions C54_refuted_tempo.

(** ** C59: an observer of a reopened project *)

(** What the repositories report after reopening leads from nothing to the project. *)
Theorem C59_reopen : forall snapshot log r copy, reopen snapshot log = Ret (Some r) ->
  pj_notes copy = [] -> pj_bars copy = [] -> pj_tempos copy = [] -> pj_dumpers copy = [] -> pj_softs copy = [] ->
  same_repos (follow (ro_events r) copy) (ro_model r).
Proof.
  intros snapshot log r copy E A B C D F. unfold reopen in E.
  destruct (read_exported snapshot) as [[e|]| |]; try discriminate E. cbn [bind_opt bind] in E.
  destruct (read_all read_cmd log) as [[cs|]| |]; try discriminate E. cbn [bind_opt bind] in E.
  apply (f_equal (fun o => match o with Ret (Some q) => q | _ => r end)) in E. subst r. cbn [ro_events ro_model].
  assert (K : forall cs v p, same_repos (follow v copy) p ->
    same_repos (follow (fold_left (fun v cm => ev_app v (redo_events (fst cm) (snd cm))) cs v) copy) (replay p (map fst cs))).
  { clear. induction cs as [|[c m] cs IH]; intros v p H; [exact H|]. cbn [fold_left map fst snd].
    unfold replay. cbn [fold_left]. apply IH. rewrite T_Event.follow_app.
    eapply T_Event.repos_trans; [apply T_Event.follow_repos; exact H|]. apply T_Event.C59_undo_redo. }
  apply K. exact (T_Event.C59_load e 0 copy A B C D F).
Qed.
Print Assumptions C59_reopen.

(** Only what is there in the end is reported with what the commands say: a bar that
    the last command put in is reported with the metadata of that command. *)
Example C59_reopen_example : exists r,
  reopen (write_project T_Project.ex_project)
    (map write_cmd [(ModelChanged (mkModels [] [mkBar 5000 None None 0] [] [] []) models_empty, mkMeta (Some true) false)]) = Ret (Some r) /\
  ev_bars (ro_events r) = [SBulkAdd (pj_bars T_Project.ex_project) meta_new; SAdd 5000 (mkBar 5000 None None 0) (mkMeta (Some true) false)].
Proof. eexists. split; vm_compute; reflexivity. Qed.
