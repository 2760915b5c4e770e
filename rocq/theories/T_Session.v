(** Property theorems about what is played, whatever was done in a session: C63. *)
From Coq Require Import ZArith List Bool Lia Sorted.
From Verif Require Import Base M_Pitch M_Duration M_Percent M_Scalar M_Bar M_Note M_Store M_Tuple M_Models M_Project M_Event M_Repeat.
From Verif Require Import S_Project S_Repeat S_Score S_Event S_Disk P_Base P_Store P_Query P_Replenish P_Edit P_History P_Disk.
From Verif Require T_Project T_Repeat T_Chunk T_Times S_Panic P_Panic T_Score.
Import ListNotations.
Open Scope Z_scope.

Section AllBars.
Context (P : bar -> Prop) (blank : forall t, P (mkBar t None None 0)).

Definition cmd_bars (c : cmd) : Prop :=
  match c with ModelChanged A R => Forall P (m_bars A) /\ Forall P (m_bars R) | _ => True end.

Lemma moves_bars e F A : moves e F A -> Forall P (named_bars e) -> Forall P (m_bars F) /\ Forall P (m_bars A).
Proof.
  intros M N. destruct M; cbn [named_bars m_bars models_empty] in *; split; try apply Forall_nil; auto.
  - unfold changes_from. cbn [m_bars]. apply Forall_app in N. apply N.
  - unfold changes_to. cbn [m_bars]. apply Forall_app in N. apply N.
Qed.

Lemma edit_cmd_bars e p p' c : project_ok p -> edit_typed e -> Forall P (score p) -> Forall P (named_bars e) ->
  edit_run e p = Ret (Some (p', c)) -> Forall P (score p') /\ cmd_bars c.
Proof.
  intros O T A I E. apply edit_cases in E.
  destruct E as [(r & -> & -> & ->)|[(k & -> & -> & ->)|[(g & -> & -> & ->)|(F & X & M & E)]]]; [split; cbn; auto..|].
  destruct (moves_bars e F X M I) as [IF IX].
  destruct (moves_typed e F X M T) as [_ TX]. pose proof (exchange_ok F X p O TX) as O1.
  assert (A1 : Forall P (score (exchange F X p))) by exact (exch_forall P b_tick _ _ _ A IX).
  unfold runs in E. apply bind_ret in E. destruct E as [[p2 more] [E1 E2]]. apply ret_inj in E2. injection E2 as -> <-.
  assert (R : Forall P (m_bars (recorded F X p))).
  { unfold recorded. cbn [m_bars]. apply Forall_app. split; auto using replaced_forall. }
  assert (Y : Forall P (score p') /\ Forall P more).
  { destruct (may_append e).
    - destruct (replenish_ret _ _ _ (ok_bars _ O1) E1) as (ne & r & n & _ & _ & -> & -> & _ & _).
      assert (B : Forall P (even_bars (last_tick (exchange F X p)) (rhythm_tick_len r) n)).
      { apply Forall_forall. intros b J. apply T_Score.even_blank in J as [t ->]. auto. }
      split; [|exact B]. unfold score in *. cbn [pj_set_bars pj_bars]. rewrite map_app, map_map. apply Forall_app. split; [exact A1|].
      cbn. rewrite map_id. exact B.
    - apply ret_inj in E1. injection E1 as <- <-. split; [exact A1|constructor]. }
  destruct Y as [Y1 Y2]. split; [exact Y1|]. split; [|exact R]. cbn [with_bars m_bars]. apply Forall_app. split; assumption.
Qed.

Lemma cmd_apply_bars c p : Forall P (score p) -> cmd_bars c -> Forall P (score (cmd_undo c p)) /\ Forall P (score (cmd_redo c p)).
Proof.
  intros A C. destruct c; cbn [cmd_undo cmd_redo cmd_bars] in *; auto. destruct C as [C1 C2].
  split; [exact (exch_forall P b_tick _ _ _ A C2)|exact (exch_forall P b_tick _ _ _ A C1)].
Qed.

Definition bars_session (s : session) : Prop :=
  project_ok (ss_model s) /\ Forall P (score (ss_model s)) /\
  Forall (fun cm => cmd_typed (fst cm) /\ cmd_bars (fst cm)) (ss_undo s) /\ Forall (fun cm => cmd_typed (fst cm) /\ cmd_bars (fst cm)) (ss_redo s).
Definition act_bars (a : act) : Prop :=
  match a with Ask q => edit_typed (request_edit q) /\ Forall P (named_bars (request_edit q)) | _ => True end.

Lemma bars_act a s s' : bars_session s -> act_bars a -> act_run a s = Ret s' -> bars_session s'.
Proof.
  intros (O & B & U & R) A E. destruct a as [q| | |k]; cbn [act_run act_bars] in *.
  - destruct A as [T S]. apply bind_ret in E. destruct E as [x [X1 E]]. apply bind_ret in E. destruct E as [v [_ E]].
    destruct x as [[p c]|]; apply ret_inj in E; subst s'; [|split; auto].
    destruct (edit_ok _ _ _ _ O T X1) as [O' C]. destruct (edit_cmd_bars _ _ _ _ O T B S X1) as [B' C'].
    split; [exact O'|]. split; [exact B'|]. cbn [ss_undo ss_redo]. split; [|constructor].
    apply Forall_firstn. constructor; [|exact U]. split; [exact C|exact C'].
  - destruct (ss_undo s) as [|[c m] r] eqn:Es; apply ret_inj in E; subst s'; [split; [auto|rewrite Es; auto]|].
    inversion U as [|? ? [U1 U2] U4]; subst. cbn [fst] in *. unfold bars_session. cbn [ss_model ss_undo ss_redo].
    split; [now apply cmd_undo_ok|]. split; [now apply cmd_apply_bars|]. split; [assumption|]. constructor; [|assumption]. split; assumption.
  - destruct (ss_redo s) as [|[c m] r] eqn:Es; apply ret_inj in E; subst s'; [split; [auto|rewrite Es; auto]|].
    inversion R as [|? ? [U1 U2] U4]; subst. cbn [fst] in *. unfold bars_session. cbn [ss_model ss_undo ss_redo].
    split; [now apply cmd_redo_ok|]. split; [now apply cmd_apply_bars|]. split; [|assumption]. constructor; [|assumption]. split; assumption.
  - destruct k; apply ret_inj in E; subst s'; unfold bars_session; cbn [ss_model ss_undo ss_redo]; auto.
Qed.

Lemma bars_acts l : forall s s', bars_session s -> Forall act_bars l -> acts_run s l = Ret s' -> bars_session s'.
Proof.
  induction l as [|a l IH]; intros s s' S F E; cbn [acts_run] in E.
  - apply ret_inj in E. now subst.
  - inversion F; subst. apply bind_ret in E. destruct E as [s1 [E1 E2]]. apply (IH s1 s'); [exact (bars_act a s s1 S H1 E1)|assumption|assumption].
Qed.
End AllBars.

(** ** C63 *)

(** Whatever is asked for in a session, also if what is to be taken out is not there or
    ticks are taken twice, and whatever is undone and redone: if the bars that are
    mentioned have marks that do not contradict each other, the project holds such bars,
    at increasing ticks. *)
Theorem C63_session : forall p limit l s,
  project_ok p -> Forall compatible (score p) ->
  (forall q, In (Ask q) l -> edit_typed (request_edit q) /\ Forall compatible (named_bars (request_edit q))) ->
  acts_run (session_new p limit) l = Ret s ->
  Forall compatible (score (ss_model s)) /\
  (Forall (fun b => b_tick b <> u32_max) (score (ss_model s)) -> tune (score (ss_model s))).
Proof.
  intros p limit l s O C F E.
  assert (A : Forall (act_bars compatible) l).
  { apply Forall_forall. intros [q| | |k] I; [exact (F q I)|exact Logic.I..]. }
  destruct (bars_acts compatible T_Score.blank_compatible l (session_new p limit) s ltac:(split; [exact O|]; split; [exact C|]; split; constructor) A E) as (O' & B & _).
  split; [exact B|]. intros L. destruct (T_Score.score_sorted _ O') as [X Y]. split; [exact X|].
  rewrite Forall_forall in *. intros b J. specialize (L b J). specialize (Y b J). cbv beta in Y. unfold u32 in Y. lia.
Qed.
Print Assumptions C63_session.

(** So whatever the session, it is exactly known which projects can be played and for
    which ones rendering panics; what is played is in well-formed chunks, no tick of it
    more than five times, and the table of start positions answers, for every tick and
    iteration, where the performance is to be started: a refusal names how often the
    tick is played, and only a sum beyond u32 panics. *)
Theorem C63_session_played : forall p limit l s,
  project_ok p -> Forall compatible (score p) ->
  (forall q, In (Ask q) l -> edit_typed (request_edit q) /\ Forall compatible (named_bars (request_edit q))) ->
  acts_run (session_new p limit) l = Ret s ->
  let q := ss_model s in let bars := score q in let top := actual_top (full_bar (pj_rhythm q) bars) in
  Forall (fun b => b_tick b <> u32_max) bars ->
  ((exists c w, render_project q = Ret (Ok (c, w))) <->
   S_Panic.laid_out bars /\
   ((marked Dc bars = [] \/ first_bar_len bars = None) /\ marked Ds bars = [] \/
    exists d s, jump top bars d s /\ ~ S_Panic.long_first d bars /\ codas_ok s bars)) /\
  (render_project q = Panic <->
   S_Panic.restarted (pj_rhythm q) bars \/
   S_Panic.laid_out bars /\ exists d s, jump top bars d s /\ (S_Panic.long_first d bars \/ S_Panic.bad_codas s bars)) /\
  render_project q <> Hang /\
  forall c w cs, render_project q = Ret (Ok (c, w)) -> to_chunks c = Ret cs ->
    Forall in_time cs /\ open_only_last cs /\ (forall t, times t (performance cs) <= 5) /\
    forall table, by_accum_tick cs = Ret table -> forall t n, 0 <= t -> 1 <= n <= 5 ->
      (times t (performance cs) < n -> to_accum_tick (play_start_new t n) table = Ret (Err (CannotFind n (times t (performance cs))))) /\
      (n <= times t (performance cs) -> exists before sec after pos,
         cs = before ++ sec :: after /\ ck_start sec <= t < ck_end sec /\ nth_time t n (performance cs) pos /\
         pos = Z.of_nat (length (performance before)) + (t - ck_start sec) /\
         to_accum_tick (play_start_new t n) table = if pos + ck_start sec <=? u32_max then Ret (Ok pos) else Panic).
Proof.
  intros p limit l s O C F E q bars top L.
  destruct (C63_session p limit l s O C F E) as [Cs T]. specialize (T L). fold q bars in Cs, T.
  split; [exact (P_Panic.accepted_exact _ _ T Cs)|]. split; [exact (P_Panic.render_panics _ _ T Cs)|]. split; [exact (P_Panic.render_no_hang _ _)|].
  intros c w cs R TC. destruct (T_Repeat.C47_formed _ _ _ _ _ T Cs R TC) as [X Y]. split; [exact X|]. split; [exact Y|].
  split; [intros t; apply (T_Times.C64_five _ _ _ _ _ t T Cs R TC)|].
  intros table ET t n T0 N. destruct (T_Chunk.C41_exact cs table t n X Y ET T0) as [H1 H2]. cbv zeta in H1, H2.
  replace (Z.max 1 (Z.min 5 n)) with n in H1, H2 by lia. split; [exact H2|].
  intros G. destruct (H1 G) as (a & k & b & pos & e1 & e2 & _ & e3 & e4 & e5). exists a, k, b, pos. repeat match goal with |- _ /\ _ => split end; auto; lia.
Qed.
Print Assumptions C63_session_played.

(** A repeat is written with a bar at a taken tick, bars that are not there are taken
    out and come back by undo, and the result is played. *)
Definition ex_session : list act :=
  [Ask (QAddBar (mkBar 960 None None (ms_of [Start])) true); Ask (QAddBar (mkBar 1920 None None (ms_of [End])) true);
   Ask (QBulkRemove (mkModels [] [mkBar 480 None None (ms_of [Start]); mkBar 960 None None 0] [] [] []) meta_new); UndoIt].
Example C63_session_case : exists s c cs table,
  (forall q, In (Ask q) ex_session -> edit_typed (request_edit q) /\ Forall compatible (named_bars (request_edit q))) /\
  acts_run (session_new T_Project.ex_project 10) ex_session = Ret s /\
  map b_tick (score (ss_model s)) = [480; 960; 1920] /\ Forall (fun b => b_tick b <> u32_max) (score (ss_model s)) /\
  render_project (ss_model s) = Ret (Ok (c, [])) /\ to_chunks c = Ret cs /\ by_accum_tick cs = Ret table /\
  cs = [mkChunk 0 480; mkChunk 480 1920; mkChunk 480 1920; mkChunk 1920 u32_max] /\
  to_accum_tick (play_start_new 1000 2) table = Ret (Ok 2440) /\ to_accum_tick (play_start_new 1000 3) table = Ret (Err (CannotFind 3 2)).
Proof.
  eexists. exists (mkCompound None [RSeq (0, 480); RRepeat (480, 1920); RSeq (1920, u32_max)]),
    [mkChunk 0 480; mkChunk 480 1920; mkChunk 480 1920; mkChunk 1920 u32_max],
    [(0, mkChunk 0 480); (480, mkChunk 480 1920); (1920, mkChunk 480 1920); (3360, mkChunk 1920 u32_max)].
  split; [|split; [vm_compute; reflexivity|]].
  - intros q I. unfold ex_session in I. cbn [In] in I.
    repeat match goal with H : _ \/ _ |- _ => destruct H as [H|H] end; try contradiction; try discriminate; injection I as <-;
      cbn [request_edit edit_typed named_bars m_bars]; (split; [|repeat (apply Forall_cons; [intros x y; destruct x, y; vm_compute; congruence|]); apply Forall_nil]).
    + unfold u32, u32_max; cbn; lia.
    + unfold u32, u32_max; cbn; lia.
    + repeat split; cbn; repeat (apply Forall_cons; [unfold u32, u32_max; cbn; lia|]); apply Forall_nil.
  - split; [vm_compute; reflexivity|]. split; [vm_compute; repeat (apply Forall_cons; [discriminate|]); apply Forall_nil|].
    repeat split; vm_compute; reflexivity.
Qed.
