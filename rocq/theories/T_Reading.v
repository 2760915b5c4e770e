(** Property theorems about bars whose marks contradict each other: C69. *)
From Coq Require Import ZArith List Bool Lia Sorted.
From Verif Require Import Base M_Duration M_Scalar M_Bar M_Models M_Store M_Project M_Undo M_Repeat M_Event M_Text M_Json S_Note S_Project S_Score S_Event S_Disk S_Repeat S_Panic S_Reading P_Base P_Edit P_History P_Machine P_Errors P_Panic P_Reading T_Repeat.
From Verif Require T_Project T_Score T_Session T_Times T_Chunk T_Panic.
Import ListNotations.
Open Scope Z_scope.

(** Whatever marks the bars have, they are rendered exactly as the same bars without
    some of the Start and variation marks that contradict another mark of their bar.
    Start gives way to a variation mark only directly after a bar of a variation; of
    several variation marks the lowest counts.
    The one exception is a bar with a variation mark and D.C. or D.S.: then it may
    also be that what is rendered, if anything is, cannot be played. *)
Theorem C69_reading : forall r bars, tune bars ->
  (exists bars', read_as bars bars' /\ Forall compatible bars' /\ render_region r bars = render_region r bars') \/
  ((exists b, In b bars /\ torn b) /\
   forall c w, render_region r bars = Ret (Ok (c, w)) -> to_chunks c = Panic).
Proof. intros r bars T. destruct (render_reading r bars T) as [[bars' [A [B C]]]|H]; [left; exists bars'; auto|right; exact H]. Qed.
Print Assumptions C69_reading.

(** Bars without contradictory marks are read as they are; in any case nothing but
    Start and variation marks is left out, and no bar is. *)
Theorem C69_only : forall bars bars', read_as bars bars' ->
  map b_tick bars' = map b_tick bars /\
  (forall m, m <> Start -> is_var m = false -> marked m bars' = marked m bars) /\
  (Forall compatible bars -> Forall2 (fun b b' => forall m, has b' m = has b m) bars bars').
Proof.
  intros bars bars' F. split; [exact (reads_ticks _ _ F)|]. split; [intros m N V; exact (reads_marked _ _ m F V N)|].
  intros C. apply read_all in F. induction F as [|b b' l l' R F IH]; constructor; inversion C; subst; auto. intros m. exact (reads_same b b' ltac:(assumption) R m).
Qed.
Print Assumptions C69_only.

(** So whatever is rendered and listed is played as documented for the bars that were
    read, in well-formed chunks, and no tick more than five times. *)
Theorem C69_played : forall r bars c w cs, tune bars -> render_region r bars = Ret (Ok (c, w)) -> to_chunks c = Ret cs ->
  Forall in_time cs /\ open_only_last cs /\ (forall t, times t (performance cs) <= 5) /\
  exists l, read_as bars (layout_bars l) /\ well_laid l /\
    let read := layout_bars l in
    ((marked Dc read = [] \/ first_bar_len read = None) /\ marked Ds read = [] /\ w = [] /\ performance cs = play l \/
     exists d s, jump (actual_top (full_bar r read)) read d s /\ codas_ok s read /\ w = warnings_of read /\
       let second := second_pass l s (hd_error (marked Fine read)) (pair_of (marked Coda read)) in
       ((is_repeated (fst l) = true -> Forall no_jump (section_bars (fst l))) /\ performance cs = until d (play l) ++ second \/
        is_repeated (fst l) = true /\ ~ Forall no_jump (section_bars (fst l)) /\ performance cs = second)).
Proof.
  intros r bars c w cs T R TC. destruct (C69_reading r bars T) as [[bars' [A [B C]]]|[_ H]]; [|rewrite (H c w R) in TC; discriminate].
  rewrite C in R. pose proof (reads_tune _ _ A T) as T'.
  destruct (C47_formed r bars' c w cs T' B R TC) as [I O]. split; [exact I|]. split; [exact O|].
  split; [intros t; apply (T_Times.C64_five r bars' c w cs t T' B R TC)|].
  destruct (T_Panic.C43_exact r bars' c w cs T' B R TC) as [l [W [<- X]]]. exists l. auto.
Qed.
Print Assumptions C69_played.

(** So C64 holds whatever marks the bars have: how often a tick can be played, and
    that every time it is played can be started from. *)
Theorem C64_any_marks : forall r bars c w cs t, tune bars -> render_region r bars = Ret (Ok (c, w)) -> to_chunks c = Ret cs ->
  times t (performance cs) <= 5 /\
  (marked Dc bars = [] -> marked Ds bars = [] ->
   times t (performance cs) <= 4 /\ (0 <= t < u32_max -> 1 <= times t (performance cs))) /\
  forall M, (forall b, In b bars -> b_tick b <= M) -> 0 <= M -> 0 <= t -> 5 * M + t <= u32_max ->
    exists table, by_accum_tick cs = Ret table /\
      (forall n pos, nth_time t n (performance cs) pos -> to_accum_tick (play_start_new t n) table = Ret (Ok pos)) /\
      (forall n, 1 <= n <= 5 -> times t (performance cs) < n ->
        to_accum_tick (play_start_new t n) table = Ret (Err (CannotFind n (times t (performance cs))))).
Proof.
  intros r bars c w cs t T R TC. destruct (C69_reading r bars T) as [[bars' [A [B C]]]|[_ H]]; [|rewrite (H c w R) in TC; discriminate].
  rewrite C in R. pose proof (reads_tune _ _ A T) as T'. destruct (C69_only _ _ A) as (TK & MK & _).
  destruct (T_Times.C64_five r bars' c w cs t T' B R TC) as [X Y]. split; [exact X|]. split.
  - intros D S. apply Y; rewrite MK by (discriminate || reflexivity); assumption.
  - intros M L M0 T0 BD. apply (T_Times.C64_reach r bars' c w cs t M T' B R TC); auto. intros b I.
    assert (J : In (b_tick b) (map b_tick bars)) by (rewrite <- TK; apply in_map; exact I). apply in_map_iff in J as (b0 & E & J). rewrite <- E. auto.
Qed.
Print Assumptions C64_any_marks.

(** Without a bar with a variation mark and D.C. or D.S., all that is known of bars
    without contradictory marks carries over: what is accepted, what is reported,
    what panics. *)
Theorem C69_untorn : forall r bars, tune bars -> (forall b, In b bars -> ~ torn b) ->
  exists bars', read_as bars bars' /\ Forall compatible bars' /\ tune bars' /\
    let top := actual_top (full_bar r bars') in
    ((exists c w, render_region r bars = Ret (Ok (c, w))) <->
     laid_out bars' /\
     ((marked Dc bars = [] \/ first_bar_len bars = None) /\ marked Ds bars = [] \/
      exists d s, jump top bars' d s /\ ~ long_first d bars' /\ codas_ok s bars')) /\
    (forall e, render_region r bars = Ret (Err e) -> error_right bars' e) /\
    (render_region r bars = Panic <->
     restarted r bars' \/ laid_out bars' /\ exists d s, jump top bars' d s /\ (long_first d bars' \/ bad_codas s bars')) /\
    (forall c w, render_region r bars = Ret (Ok (c, w)) ->
     ((exists cs, to_chunks c = Ret cs) <-> forall d s, jump top bars' d s -> top_clear bars' /\ varied_clear bars')).
Proof.
  intros r bars T N. destruct (C69_reading r bars T) as [[bars' [A [B C]]]|[[b [I H]] _]]; [|destruct (N b I H)].
  pose proof (reads_tune _ _ A T) as T'. exists bars'. rewrite C. split; [exact A|]. split; [exact B|]. split; [exact T'|]. cbv zeta.
  assert (F : first_bar_len bars = first_bar_len bars') by (unfold first_bar_len; rewrite (reads_ticks _ _ A); reflexivity).
  rewrite <- !(reads_marked _ _ Dc A eq_refl ltac:(discriminate)), <- !(reads_marked _ _ Ds A eq_refl ltac:(discriminate)), F.
  split; [exact (accepted_exact r bars' T' B)|]. split; [exact (fun e => render_error r bars' e T' B)|]. split; [exact (render_panics r bars' T' B)|].
  intros c w R. exact (proj1 (T_Panic.C46_chunks_exact r bars' c w T' B R)).
Qed.
Print Assumptions C69_untorn.

(** Nothing hangs, whatever the bars are. *)
Theorem C69_returns : forall r bars, render_region r bars <> Hang /\ forall c w, render_region r bars = Ret (Ok (c, w)) -> to_chunks c <> Hang.
Proof. intros r bars. split; [apply render_no_hang|]. intros c w _. apply chunks_hang. Qed.
Print Assumptions C69_returns.

(** The exception is met: this text is accepted by the clipboard, its bars are
    rendered, and they cannot be played. *)
Definition torn_text : text :=
  to_clipboard_text (mkModels [] [bar_at 960 [Var1; Dc]; bar_at 1920 []] [] [] []).
Theorem C69_played_refuted : exists m c w,
  from_clipboard_text (fun _ => false) torn_text = Ret (Ok m) /\
  tune (m_bars m) /\ render_region four_four (m_bars m) = Ret (Ok (c, w)) /\ to_chunks c = Panic.
Proof.
  exists (mkModels [] [bar_at 960 [Var1; Dc]; bar_at 1920 []] [] [] []),
    (mkCompound (Some (mkGR (JDc 960 960) None 0 None [(0, 4294967294)])) [RVar (0, 960) [(960, 1920)]; RSeq (1920, 4294967295)]), []. split; [vm_compute; reflexivity|]. split; [tune_tac|].
  split; vm_compute; reflexivity.
Qed.
Print Assumptions C69_played_refuted.

(** Contradictory marks of each kind, and how they are read: Start wins over a
    variation outside of variations, and loses inside; of two variations the lower
    one counts; End wins. *)
Definition odd_bars : list bar :=
  [bar_at 960 [Start; Var1; Var3]; bar_at 1920 [Var1; Var2]; bar_at 2880 [Start; Var2]; bar_at 3840 [Start]; bar_at 4800 [End; Var2]; bar_at 5760 [Fine; Var4]; bar_at 6720 [Dc]].
Definition odd_read : list bar :=
  [bar_at 960 [Start]; bar_at 1920 [Var1]; bar_at 2880 [Var2]; bar_at 3840 [Start]; bar_at 4800 [End]; bar_at 5760 [Fine; Var4]; bar_at 6720 [Dc]].
Example C69_reading_case : tune odd_bars /\ ~ Forall compatible odd_bars /\ (forall b, In b odd_bars -> ~ torn b) /\
  read_as odd_bars odd_read /\ Forall compatible odd_read /\
  render_region four_four odd_bars = render_region four_four odd_read /\
  exists c cs, render_region four_four odd_bars = Ret (Ok (c, [])) /\ to_chunks c = Ret cs /\
    optimize cs = [mkChunk 0 2880; mkChunk 960 1920; mkChunk 2880 4800; mkChunk 3840 6720; mkChunk 0 1920; mkChunk 2880 5760].
Proof.
  split; [tune_tac|]. split.
  { intros F. inversion F as [|? ? C _]; subst. specialize (C Var1 Start eq_refl eq_refl eq_refl). discriminate. }
  split.
  { intros b B [J [V _]]. apply V. intros m M. exfalso. cbn [In odd_bars] in B.
    repeat (destruct B as [<-|B]; [first [apply J; split; reflexivity|apply V; intros k K; destruct k; try discriminate; reflexivity]|]). exact B. }
  split.
  { unfold odd_bars, odd_read. repeat (apply read_cons; [|intros M N; vm_compute in M, N |- *; congruence|]); try apply read_nil;
      (split; [reflexivity|]; split; [reflexivity|]; split; [reflexivity|]; split; [intros m M; destruct m; vm_compute in M |- *; congruence|]);
      intros m M N; destruct m; vm_compute in M, N; try discriminate;
      first [exists Start; vm_compute; intuition congruence | exists Var1; vm_compute; intuition congruence | exists Var2; vm_compute; intuition congruence | exists End; vm_compute; intuition congruence]. }
  split; [compat_tac|]. split; [vm_compute; reflexivity|]. 
  exists (mkCompound (Some (mkGR (JDc 6720 960) (Some 5760) 0 None [(0, 5759)]))
    [RSeq (0, 960); RVar (960, 1920) [(1920, 2880); (2880, 3840)]; RRepeat (3840, 4800); RSeq (4800, 4294967295)]),
    [mkChunk 0 960; mkChunk 960 1920; mkChunk 1920 2880; mkChunk 960 1920; mkChunk 2880 3840; mkChunk 3840 4800; mkChunk 3840 4800;
     mkChunk 4800 6720; mkChunk 0 960; mkChunk 960 1920; mkChunk 2880 3840; mkChunk 3840 4800; mkChunk 4800 5760].
  split; [vm_compute; reflexivity|]. split; vm_compute; reflexivity.
Qed.

(** These bars are within the bounds of C64_any_marks: tick 1000 can be played three times. *)
Example C64_any_case : (forall b, In b odd_bars -> b_tick b <= 6720) /\ 5 * 6720 + 1000 <= u32_max /\
  exists c cs table, render_region four_four odd_bars = Ret (Ok (c, [])) /\ to_chunks c = Ret cs /\ by_accum_tick cs = Ret table /\
    to_accum_tick (play_start_new 1000 3) table = Ret (Ok (6720 + 960 + 960 + 1000)) /\
    to_accum_tick (play_start_new 1000 4) table = Ret (Err (CannotFind 4 3)).
Proof.
  split; [apply Forall_forall; repeat constructor; vm_compute; discriminate|]. split; [vm_compute; discriminate|].
  eexists. eexists. eexists. split; [vm_compute; reflexivity|]. split; [vm_compute; reflexivity|]. split; [vm_compute; reflexivity|]. split; vm_compute; reflexivity.
Qed.

(** Which of the marks of one bar count, whatever the other bars are.
    Inside a variation (the bars before it, rendered alone, are reported to end in
    one) a variation mark makes the Start mark of its bar void. *)
Theorem C69_start : forall r pre b b' post, in_variation r pre -> varies b = true -> without is_start b b' ->
  render_region r (pre ++ b' :: post) = render_region r (pre ++ b :: post).
Proof. exact start_gives_way. Qed.
Print Assumptions C69_start.

(** Elsewhere a Start mark, and anywhere an End mark, makes the variation marks of its
    bar void. *)
Theorem C69_variation : forall r pre b b' post, ~ in_variation r pre \/ has b End = true -> has b Start = true \/ has b End = true ->
  without is_var b b' -> render_region r (pre ++ b' :: post) = render_region r (pre ++ b :: post).
Proof. exact var_gives_way. Qed.
Print Assumptions C69_variation.

(** A variation mark makes the higher variation marks of its bar void. *)
Theorem C69_lowest : forall r pre b b' post k, is_var k = true -> has b k = true ->
  without (fun m => is_var m && (mark_bit k <? mark_bit m)) b b' -> render_region r (pre ++ b' :: post) = render_region r (pre ++ b :: post).
Proof. exact higher_ignored. Qed.
Print Assumptions C69_lowest.

(** The three bars of [odd_bars] that they are about. *)
Example C69_start_case :
  in_variation four_four [bar_at 960 [Start]; bar_at 1920 [Var1]] /\ varies (bar_at 2880 [Start; Var2]) = true /\
  without is_start (bar_at 2880 [Start; Var2]) (bar_at 2880 [Var2]) /\
  ~ in_variation four_four [] /\ without is_var (bar_at 960 [Start; Var1; Var3]) (bar_at 960 [Start]) /\
  without (fun m => is_var m && (mark_bit Var1 <? mark_bit m)) (bar_at 1920 [Var1; Var2]) (bar_at 1920 [Var1]).
Proof.
  split; [eexists; vm_compute; reflexivity|]. split; [reflexivity|].
  split; [repeat split; intros m; destruct m; reflexivity|]. split; [intros [t E]; vm_compute in E; discriminate|].
  split; repeat split; intros m; destruct m; reflexivity.
Qed.

(** Whatever is asked for in a session that starts with any project that a file may
    hold, bars with contradictory marks included: what can be listed is played in
    well-formed chunks and no tick more than five times, and nothing hangs. *)
Theorem C69_session : forall p limit l s,
  project_ok p -> (forall q, In (Ask q) l -> edit_typed (request_edit q)) ->
  acts_run (session_new p limit) l = Ret s ->
  let q := ss_model s in
  Forall (fun b => b_tick b <> u32_max) (score q) ->
  tune (score q) /\ render_project q <> Hang /\
  forall c w, render_project q = Ret (Ok (c, w)) -> to_chunks c <> Hang /\ forall cs, to_chunks c = Ret cs ->
    Forall in_time cs /\ open_only_last cs /\ (forall t, times t (performance cs) <= 5).
Proof.
  intros p limit l s O F E q L.
  assert (A : Forall (T_Session.act_bars (fun _ => True)) l).
  { apply Forall_forall. intros [r| | |k] I; [|exact Logic.I..]. split; [exact (F r I)|]. apply Forall_forall. auto. }
  assert (S0 : T_Session.bars_session (fun _ => True) (session_new p limit)).
  { split; [exact O|]. split; [apply Forall_forall; auto|]. split; constructor. }
  destruct (T_Session.bars_acts (fun _ => True) (fun _ => Logic.I) l (session_new p limit) s S0 A E) as (O' & _).
  assert (T : tune (score q)).
  { destruct (T_Score.score_sorted _ O') as [X Y]. split; [exact X|]. fold q in Y.
    rewrite Forall_forall in *. intros b J. specialize (L b J). specialize (Y b J). cbv beta in Y. unfold u32 in Y. lia. }
  split; [exact T|]. split; [apply render_no_hang|]. intros c w R. split; [apply chunks_hang|].
  intros cs TC. destruct (C69_played _ _ _ _ _ T R TC) as [I [P [M _]]]. auto.
Qed.
Print Assumptions C69_session.

(** A bar with contradictory marks is put into a project, which is then played. *)
Definition odd_session : list act :=
  [Ask (QAddBar (mkBar 960 None None (ms_of [Start; Var1])) true); Ask (QAddBar (mkBar 1920 None None (ms_of [End; Var2])) true)].
Example C69_session_case : exists s c,
  (forall q, In (Ask q) odd_session -> edit_typed (request_edit q)) /\
  acts_run (session_new T_Project.ex_project 10) odd_session = Ret s /\
  Forall (fun b => b_tick b <> u32_max) (score (ss_model s)) /\ ~ Forall compatible (score (ss_model s)) /\
  render_project (ss_model s) = Ret (Ok (c, [])) /\ to_chunks c = Ret [mkChunk 0 960; mkChunk 960 1920; mkChunk 960 1920; mkChunk 1920 u32_max].
Proof.
  eexists. exists (mkCompound None [RSeq (0, 960); RRepeat (960, 1920); RSeq (1920, u32_max)]).
  split; [|split; [vm_compute; reflexivity|]].
  - intros q I. unfold odd_session in I. cbn [In] in I.
    repeat match goal with H : _ \/ _ |- _ => destruct H as [H|H] end; try contradiction; try discriminate; injection I as <-;
      cbn [request_edit edit_typed]; unfold u32, u32_max; cbn; lia.
  - split; [vm_compute; repeat (apply Forall_cons; [discriminate|]); apply Forall_nil|]. split; [|split; vm_compute; reflexivity].
    intros F. vm_compute in F. inversion F as [|? ? C _]; subst. specialize (C Var1 Start eq_refl eq_refl eq_refl). discriminate.
Qed.
