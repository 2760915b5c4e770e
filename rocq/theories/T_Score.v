(** Property theorems about what a project plays: C63. *)
From Coq Require Import ZArith List Bool Lia Sorted.
From Verif Require Import Base M_Pitch M_Duration M_Percent M_Scalar M_Bar M_Note M_Store M_Tuple M_Models M_Project M_Repeat.
From Verif Require Import S_Project S_Repeat S_Score P_Base P_Store P_Query P_Replenish P_Edit P_History P_Disk.
From Verif Require T_Project T_Repeat S_Panic P_Panic.
Import ListNotations.
Open Scope Z_scope.

(** ** The bars after an edit *)
Definition all_bars (P : bar -> Prop) (p : project) : Prop := Forall P (score p).

Lemma even_blank from len n b : In b (even_bars from len n) -> exists t, b = mkBar t None None 0.
Proof. revert from. induction n as [|n IH]; intros from; cbn; [tauto|]. intros [<-|I]; [eauto|eapply IH; eauto]. Qed.

Lemma edit_all_bars (P : bar -> Prop) e p p' c : (forall t, P (mkBar t None None 0)) -> project_ok p -> edit_typed e ->
  all_bars P p -> Forall P (edit_bars e) -> edit_run e p = Ret (Some (p', c)) -> all_bars P p'.
Proof.
  intros B O T A I E. apply edit_cases in E.
  destruct E as [(r & -> & -> & ->)|[(k & -> & -> & ->)|[(g & -> & -> & ->)|(F & X & M & E)]]]; auto.
  destruct (moves_typed e F X M T) as [_ TX]. pose proof (exchange_ok F X p O TX) as O1.
  assert (IX : Forall P (m_bars X)) by (destruct M; cbn in *; auto).
  assert (A1 : all_bars P (exchange F X p)) by exact (exch_forall P b_tick _ _ _ A IX).
  unfold runs in E. apply bind_ret in E. destruct E as [[p2 more] [E1 E2]]. apply ret_inj in E2.
  apply (f_equal (fun o => match o with Some x => fst x | None => p2 end)) in E2. cbn in E2. subst p'.
  destruct (may_append e).
  - destruct (replenish_ret _ _ _ (ok_bars _ O1) E1) as (ne & r & n & _ & _ & -> & -> & _ & _).
    unfold all_bars, score in *. cbn [pj_set_bars pj_bars]. rewrite map_app, map_map. apply Forall_app. split; [exact A1|].
    cbn. rewrite map_id. apply Forall_forall. intros b J. apply even_blank in J as [t ->]. auto.
  - apply ret_inj in E1. inv E1. exact A1.
Qed.

Lemma snap_all_bars (P : bar -> Prop) os : (forall t, P (mkBar t None None 0)) -> forall h s h' s', sim h s -> hist_wf s os ->
  Forall (all_bars P) (sn_now s :: sn_past s ++ sn_future s) -> Forall (fun o => Forall P (hop_bars o)) os ->
  hist_run h os = Ret h' -> snap_run s os = Ret s' -> Forall (all_bars P) (sn_now s' :: sn_past s' ++ sn_future s').
Proof.
  intros B. induction os as [|o os IH]; intros h s h' s' S W A I E E'; cbn [hist_run snap_run] in *.
  - apply ret_inj in E'. subst. exact A.
  - apply bind_ret in E. destruct E as [h1 [E1 E2]]. cbn [hist_wf] in W. destruct W as [W1 W2].
    inversion I as [|? ? I1 I2]; subst.
    destruct o; cbn [hist_step snap_step hop_bars] in *.
    + destruct W1 as [Wa Wb]. destruct (sim_edit h s e h1 S Wb Wa E1) as [s1 [E1' S']].
      rewrite E1' in *. cbn [bind] in E'. apply (IH h1 s1 h' s'); auto.
      unfold snap_edit in E1'. apply bind_ret in E1'. destruct E1' as [[[q c]|] [X Y]]; apply ret_inj in Y; subst s1; [|exact A].
      inversion A as [|? ? A1 A2]; subst. apply Forall_app in A2 as [A2 _]. constructor.
      * cbn [sn_now]. eapply edit_all_bars; [exact B|apply sim_ok' in S; exact S|exact Wb|exact A1|exact I1|exact X].
      * cbn [sn_past sn_future]. rewrite app_nil_r. apply Forall_firstn. constructor; auto.
    + apply ret_inj in E1. subst. apply (IH _ _ h' s' (sim_undo _ _ S) W2); auto. unfold snap_undo.
      destruct s as [[|q r] n f l]; cbn [sn_past sn_now sn_future] in *; auto.
      rewrite Forall_forall in *. intros y Y. apply A. cbn in *. rewrite in_app_iff in *. cbn in *. tauto.
    + apply ret_inj in E1. subst. apply (IH _ _ h' s' (sim_redo _ _ S) W2); auto. unfold snap_redo.
      destruct s as [r n [|q f] l]; cbn [sn_past sn_now sn_future] in *; auto.
      rewrite Forall_forall in *. intros y Y. apply A. cbn in *. rewrite in_app_iff in *. cbn in *. tauto.
Qed.

Lemma blank_compatible t : compatible (mkBar t None None 0).
Proof. intros x y _ H. destruct x; discriminate H. Qed.

Lemma score_sorted p : project_ok p -> StronglySorted Z.lt (map b_tick (score p)) /\ Forall (fun b => u32 (b_tick b)) (score p).
Proof.
  intros O. destruct (ok_bars p O) as [S K]. unfold score. rewrite map_map. split.
  - assert (E : map (fun x => b_tick (snd x)) (pj_bars p) = map fst (pj_bars p)).
    { apply map_ext_in. intros [k b] I. symmetry. apply (K k b I). }
    rewrite E. clear -S. induction S; cbn; constructor; auto. rewrite Forall_map. auto.
  - apply Forall_forall. intros b I. apply in_map_iff in I as ([k b'] & <- & I). cbn. destruct (K _ _ I) as [-> U]. exact U.
Qed.

(** ** C63 *)

(** Whatever is edited, undone and redone, with bars whose marks do not contradict
    each other, the project holds such bars, at increasing ticks.  So all that
    is proved of tunes holds of every project. *)
Theorem C63_history : forall p limit os h,
  project_ok p -> hist_wf (mkSnap [] p [] limit) os ->
  Forall compatible (score p) -> Forall (fun o => Forall compatible (hop_bars o)) os ->
  hist_run (history_new p limit) os = Ret h ->
  Forall compatible (score (h_model h)) /\
  (Forall (fun b => b_tick b <> u32_max) (score (h_model h)) -> tune (score (h_model h))).
Proof.
  intros p limit os h O W C I E. pose proof (sim_new p limit O) as S0.
  destruct (sim_run os _ _ _ S0 W E) as (s & E' & S).
  assert (A : Forall (all_bars compatible) (sn_now s :: sn_past s ++ sn_future s)).
  { apply (snap_all_bars compatible os blank_compatible _ _ h s S0 W); auto. cbn. constructor; auto. }
  inversion A as [|? ? A1 _]; subst. destruct S. split.
  - unfold all_bars, score in *. rewrite (same_bars _ _ sim_now). exact A1.
  - intros L. destruct (score_sorted _ sim_ok) as [X Y]. split; [exact X|].
    rewrite Forall_forall in *. intros b J. specialize (L b J). specialize (Y b J). cbv beta in Y. unfold u32 in Y. lia.
Qed.
Print Assumptions C63_history.

(** So what a player makes of it is the documented order, in well-formed chunks
    (but a jump mark in a first repeat whose start is not written loses the first
    pass, C43_exact). *)
Theorem C63_performed : forall p limit os h c w cs,
  project_ok p -> hist_wf (mkSnap [] p [] limit) os ->
  Forall compatible (score p) -> Forall (fun o => Forall compatible (hop_bars o)) os ->
  hist_run (history_new p limit) os = Ret h ->
  let bars := score (h_model h) in let full := full_bar (pj_rhythm (h_model h)) bars in
  Forall (fun b => b_tick b <> u32_max) bars ->
  render_project (h_model h) = Ret (Ok (c, w)) -> to_chunks c = Ret cs ->
  Forall in_time cs /\ open_only_last cs /\
  exists l, well_laid l /\ layout_bars l = bars /\
    ((marked Dc bars = [] \/ first_bar_len bars = None) /\ marked Ds bars = [] /\ w = [] /\ performance cs = play l \/
     exists d s, jump (actual_top full) bars d s /\ codas_ok s bars /\ w = warnings_of bars /\
       let second := second_pass l s (hd_error (marked Fine bars)) (pair_of (marked Coda bars)) in
       ((is_repeated (fst l) = true -> Forall no_jump (section_bars (fst l))) /\ performance cs = until d (play l) ++ second \/
        is_repeated (fst l) = true /\ ~ Forall no_jump (section_bars (fst l)) /\ performance cs = second)).
Proof.
  intros p limit os h c w cs O W C I E bars full L R TC.
  destruct (C63_history p limit os h O W C I E) as [F T]. specialize (T L).
  destruct (T_Repeat.C47_formed _ _ _ _ _ T F R TC) as [X Y]. split; [exact X|]. split; [exact Y|].
  exact (P_Panic.performed_exact _ _ _ _ _ T F R TC).
Qed.
Print Assumptions C63_performed.

(** Whatever was edited, undone and redone: exactly which projects can be played, and
    for which ones rendering panics. *)
Theorem C63_renders : forall p limit os h,
  project_ok p -> hist_wf (mkSnap [] p [] limit) os ->
  Forall compatible (score p) -> Forall (fun o => Forall compatible (hop_bars o)) os ->
  hist_run (history_new p limit) os = Ret h ->
  let q := h_model h in let bars := score q in let top := actual_top (full_bar (pj_rhythm q) bars) in
  Forall (fun b => b_tick b <> u32_max) bars ->
  ((exists c w, render_project q = Ret (Ok (c, w))) <->
   S_Panic.laid_out bars /\
   ((marked Dc bars = [] \/ first_bar_len bars = None) /\ marked Ds bars = [] \/
    exists d s, jump top bars d s /\ ~ S_Panic.long_first d bars /\ codas_ok s bars)) /\
  (render_project q = Panic <->
   S_Panic.restarted (pj_rhythm q) bars \/
   S_Panic.laid_out bars /\ exists d s, jump top bars d s /\ (S_Panic.long_first d bars \/ S_Panic.bad_codas s bars)) /\
  render_project q <> Hang.
Proof.
  intros p limit os h O W C I E q bars top L.
  destruct (C63_history p limit os h O W C I E) as [F T]. specialize (T L).
  split; [exact (P_Panic.accepted_exact _ _ T F)|]. split; [exact (P_Panic.render_panics _ _ T F)|exact (P_Panic.render_no_hang _ _)].
Qed.
Print Assumptions C63_renders.

(** ** Blank bars *)
Lemma on_blank t g : (gb_first_bar_len g <> None \/ t = 0) -> on_bar (mkBar t None None 0) g = Ok g.
Proof.
  intros H. unfold on_bar, on_bar_length. cbn [b_tick b_rhythm].
  replace (has (mkBar t None None 0) Dc) with false by reflexivity. replace (has (mkBar t None None 0) Ds) with false by reflexivity.
  replace (has (mkBar t None None 0) Fine) with false by reflexivity. replace (has (mkBar t None None 0) Segno) with false by reflexivity.
  replace (has (mkBar t None None 0) Coda) with false by reflexivity. cbn [and_then].
  destruct (gb_first_bar_len g) eqn:F; [reflexivity|]. destruct H as [H| ->]; [congruence|]. reflexivity.
Qed.

Definition set_first (g : gr_builder) (x : option Z) : gr_builder :=
  mkGB (gb_ds_dc g) (gb_fine g) (gb_segno g) (gb_coda g) x (gb_top_rhythm g).

Lemma blank_step g t : exists x, (gb_first_bar_len g <> None -> x = gb_first_bar_len g) /\ on_bar (mkBar t None None 0) g = Ok (set_first g x).
Proof.
  destruct (gb_first_bar_len g) eqn:F.
  - exists (Some z). split; [auto|]. rewrite on_blank by (left; congruence). f_equal. destruct g. cbn in *. subst. reflexivity.
  - destruct (Z.eqb_spec t 0) as [->|N].
    + exists None. split; [auto|]. rewrite on_blank by auto. f_equal. destruct g. cbn in *. subst. reflexivity.
    + exists (Some t). split; [congruence|]. unfold on_bar, on_bar_length. cbn [b_tick b_rhythm]. rewrite F.
      replace (t =? 0) with false by lia. reflexivity.
Qed.

Lemma blank_loop more : Forall (fun b => exists t, b = mkBar t None None 0) more -> forall g st regs,
  (st = SIdle \/ exists s, st = SSeq s) ->
  exists x, (gb_first_bar_len g <> None -> x = gb_first_bar_len g) /\
    rr_loop g st regs more = Ret (Ok (set_first g x, st, regs)).
Proof.
  induction 1 as [|b more [t ->] _ IH]; intros g st regs S; cbn [rr_loop].
  - exists (gb_first_bar_len g). split; [auto|]. destruct g. reflexivity.
  - destruct (blank_step g t) as (x & X & ->).
    assert (R : rr_step (gb_segno (set_first g x)) (mkBar t None None 0) st = Ret (Ok (st, []))).
    { destruct S as [->|[s ->]]; reflexivity. }
    rewrite R. cbn [bind]. rewrite app_nil_r. destruct (IH (set_first g x) st regs S) as (y & Y & ->).
    exists y. split; [|reflexivity]. intros N. specialize (X N). subst x. apply Y. exact N.
Qed.

Lemma rr_loop_app a b : forall g st regs, rr_loop g st regs (a ++ b) =
  (let! r := rr_loop g st regs a in match r with Err e => Ret (Err e) | Ok (g', st', regs') => rr_loop g' st' regs' b end).
Proof.
  induction a as [|x a IH]; intros g st regs; [reflexivity|]. cbn [app rr_loop].
  destruct (on_bar x g) as [g'|e]; [|reflexivity].
  destruct (rr_step (gb_segno g') x st) as [[[st' new]|e]| |]; cbn [bind]; auto.
Qed.

(** what the builder knows at the end of the loop *)
Lemma adding_keeps g g' : (exists t, adding_fine t g = Ok g') \/ (exists t, adding_segno t g = Ok g') \/ (exists t, adding_coda t g = Ok g') ->
  gb_first_bar_len g' = gb_first_bar_len g /\ gb_ds_dc g' = gb_ds_dc g.
Proof.
  unfold adding_fine, adding_segno, adding_coda.
  intros [[t H]|[[t H]|[t H]]]; [destruct (gb_fine g)|destruct (gb_segno g)|destruct (gb_coda g) as [[c|c d]|]]; inversion H; subst; auto.
Qed.
Lemma adding_jump j g g' : adding_ds_dc j g = Ok g' -> gb_first_bar_len g' = gb_first_bar_len g /\ gb_ds_dc g' = Some j.
Proof. unfold adding_ds_dc. destruct (gb_ds_dc g); intros H; inversion H; subst; auto. Qed.

Lemma on_bar_parts b g g' : on_bar b g = Ok g' ->
  gb_first_bar_len g' = gb_first_bar_len (on_bar_length b g) /\
  (gb_ds_dc g' = gb_ds_dc g \/ (has b Dc = true /\ exists x, gb_ds_dc g' = Some (JDc (b_tick b) x)) \/ gb_ds_dc g' = Some (JDs (b_tick b))).
Proof.
  unfold on_bar, and_then. intros E.
  assert (D0 : gb_ds_dc (on_bar_length b g) = gb_ds_dc g).
  { unfold on_bar_length. destruct (gb_first_bar_len g); auto. destruct (b_tick b =? 0); auto. destruct (b_rhythm b); auto. }
  rewrite <- D0. remember (on_bar_length b g) as g0 eqn:E0. clear E0 D0 g.
  destruct (if has b Dc then _ else Ok g0) as [g1|] eqn:E1; [|discriminate].
  destruct (if has b Ds then _ else Ok g1) as [g2|] eqn:E2; [|discriminate].
  destruct (if has b Fine then _ else Ok g2) as [g3|] eqn:E3; [|discriminate].
  destruct (if has b Segno then _ else Ok g3) as [g4|] eqn:E4; [|discriminate].
  assert (K3 : gb_first_bar_len g3 = gb_first_bar_len g2 /\ gb_ds_dc g3 = gb_ds_dc g2).
  { destruct (has b Fine); [apply adding_keeps; eauto|inversion E3; auto]. }
  assert (K4 : gb_first_bar_len g4 = gb_first_bar_len g3 /\ gb_ds_dc g4 = gb_ds_dc g3).
  { destruct (has b Segno); [apply adding_keeps; eauto|inversion E4; auto]. }
  assert (K5 : gb_first_bar_len g' = gb_first_bar_len g4 /\ gb_ds_dc g' = gb_ds_dc g4).
  { destruct (has b Coda); [apply adding_keeps; eauto|inversion E; auto]. }
  destruct K3 as [A3 B3], K4 as [A4 B4], K5 as [A5 B5]. rewrite A5, A4, A3, B5, B4, B3. clear - E1 E2.
  destruct (has b Ds); [apply adding_jump in E2 as [A2 B2]|inversion E2; subst g2; clear E2];
  (destruct (has b Dc); [apply adding_jump in E1 as [A1 B1]|inversion E1; subst g1; clear E1]).
  - rewrite A2, B2. split; auto.
  - rewrite A2, B2. split; auto.
  - rewrite A1, B1. split; eauto.
  - auto.
Qed.
Lemma on_bar_first b g g' : on_bar b g = Ok g' ->
  gb_first_bar_len g' = match gb_first_bar_len g with Some x => Some x | None => if b_tick b =? 0 then None else Some (b_tick b) end.
Proof.
  intros E. apply on_bar_parts in E as [-> _]. unfold on_bar_length. destruct (gb_first_bar_len g) eqn:F; auto.
  destruct (b_tick b =? 0); auto. destruct (b_rhythm b); auto.
Qed.
Lemma on_bar_dc b g g' : on_bar b g = Ok g' -> has b Dc = false -> (forall t x, gb_ds_dc g <> Some (JDc t x)) -> forall t x, gb_ds_dc g' <> Some (JDc t x).
Proof. intros E D H t x. apply on_bar_parts in E as [_ [->|[[D' _]| ->]]]; [auto|congruence|discriminate]. Qed.

Lemma loop_first bars : forall g st regs g' st' regs', rr_loop g st regs bars = Ret (Ok (g', st', regs')) ->
  gb_first_bar_len g' = match gb_first_bar_len g with Some x => Some x | None => first_bar_len bars end.
Proof.
  induction bars as [|b bars IH]; intros g st regs g' st' regs' E; cbn [rr_loop] in E.
  - apply ret_inj in E. inv E. destruct (gb_first_bar_len g'); reflexivity.
  - destruct (on_bar b g) as [g1|] eqn:O; [|discriminate]. apply bind_ret in E as ([[st1 new]|e] & _ & E); [|discriminate].
    apply IH in E. rewrite E, (on_bar_first _ _ _ O). unfold first_bar_len. cbn [map filter].
    destruct (gb_first_bar_len g); [reflexivity|]. destruct (b_tick b =? 0); reflexivity.
Qed.
Lemma loop_dc bars : forall g st regs g' st' regs', rr_loop g st regs bars = Ret (Ok (g', st', regs')) -> marked Dc bars = [] ->
  (forall t x, gb_ds_dc g <> Some (JDc t x)) -> forall t x, gb_ds_dc g' <> Some (JDc t x).
Proof.
  induction bars as [|b bars IH]; intros g st regs g' st' regs' E M H; cbn [rr_loop] in E.
  - apply ret_inj in E. inv E. exact H.
  - destruct (on_bar b g) as [g1|] eqn:O; [|discriminate]. apply bind_ret in E as ([[st1 new]|e] & _ & E); [|discriminate].
    unfold marked in M. cbn [filter] in M. destruct (has b Dc) eqn:D; [discriminate|].
    eapply IH; eauto. eapply on_bar_dc; eauto.
Qed.

Lemma render_blank r bars more c w : Forall (fun b => exists t, b = mkBar t None None 0) more ->
  marked Dc bars = [] \/ first_bar_len bars <> None ->
  render_region r bars = Ret (Ok (c, w)) -> render_region r (bars ++ more) = Ret (Ok (c, w)).
Proof.
  intros B H E. unfold render_region in *. rewrite rr_loop_app.
  destruct (rr_loop (gb_new r) SIdle [] bars) as [[[[g st] regs]|e]| |] eqn:L; cbn [bind] in *; try discriminate.
  assert (S : st = SIdle \/ exists s, st = SSeq s).
  { destruct st; eauto; cbn [rr_finish] in E; try discriminate. apply bind_ret in E as (t & _ & E). discriminate. }
  destruct (blank_loop more B g st regs S) as (x & X & ->). cbn [bind].
  assert (G : gb_build (set_first g x) = gb_build g).
  { destruct H as [H|H].
    - pose proof (loop_dc bars _ _ _ _ _ _ L H) as D. cbn [gb_new gb_ds_dc] in D. specialize (D ltac:(discriminate)).
      unfold gb_build. cbn [set_first gb_ds_dc gb_segno gb_fine gb_coda]. destruct (gb_ds_dc g) as [[t y|t]|]; auto. destruct (D t y eq_refl).
    - pose proof (loop_first bars _ _ _ _ _ _ L) as F. cbn [gb_new gb_first_bar_len] in F. rewrite X by congruence.
      destruct g. reflexivity. }
  unfold rr_finish in *. rewrite G. exact E.
Qed.

Lemma exchange_no_bars F A p : m_bars F = [] -> m_bars A = [] -> pj_bars (exchange F A p) = pj_bars p.
Proof. intros E1 E2. unfold exchange. cbn [pj_bars]. rewrite E1, E2. reflexivity. Qed.

Lemma leaves_score e p p' c : project_ok p -> edit_typed e -> leaves_bars e -> edit_run e p = Ret (Some (p', c)) ->
  pj_rhythm p' = pj_rhythm p /\ exists more, score p' = score p ++ more /\ Forall (fun b => exists t, b = mkBar t None None 0) more.
Proof.
  intros O T Lv E. apply edit_cases in E.
  destruct E as [(r & -> & -> & ->)|[(k & -> & -> & ->)|[(g & -> & -> & ->)|(F & X & M & E)]]]; [destruct Lv| | |].
  1, 2: split; [reflexivity|]; exists []; rewrite app_nil_r; auto.
  destruct (moves_typed e F X M T) as [_ TX]. pose proof (exchange_ok F X p O TX) as O1.
  assert (NB : m_bars F = [] /\ m_bars X = []).
  { destruct M; cbn in *; auto; try contradiction. rewrite Lv. auto. }
  pose proof (exchange_no_bars F X p (proj1 NB) (proj2 NB)) as EB.
  unfold runs in E. apply bind_ret in E. destruct E as [[p2 more] [E1 E2]]. apply ret_inj in E2.
  apply (f_equal (fun o => match o with Some x => fst x | None => p2 end)) in E2. cbn in E2. subst p'.
  destruct (may_append e).
  - destruct (replenish_ret _ _ _ (ok_bars _ O1) E1) as (ne & r & n & _ & _ & -> & -> & _ & _).
    split; [reflexivity|]. exists (even_bars (last_tick (exchange F X p)) (rhythm_tick_len r) n).
    unfold score. cbn [pj_set_bars pj_bars]. rewrite EB, map_app, map_map. cbn. rewrite map_id. split; [reflexivity|].
    apply Forall_forall. intros b J. apply even_blank in J as [t ->]. eauto.
  - apply ret_inj in E1. inv E1. split; [reflexivity|]. exists []. rewrite app_nil_r. unfold score. rewrite EB. auto.
Qed.

(** Editing notes, tempos and pedals, the key and the grid does not change the order of
    playing, although bars may be appended. *)
Theorem C63_unheard : forall e p p' c x, project_ok p -> edit_typed e -> leaves_bars e ->
  marked Dc (score p) = [] \/ first_bar_len (score p) <> None ->
  render_project p = Ret (Ok x) -> edit_run e p = Ret (Some (p', c)) -> render_project p' = Ret (Ok x).
Proof.
  intros e p p' c [cp w] O T Lv H R E. destruct (leaves_score e p p' c O T Lv E) as (ER & more & ES & B).
  unfold render_project in *. rewrite ER, ES. apply render_blank; auto.
Qed.
Print Assumptions C63_unheard.

(** A note put in behind the last bar of the project of the examples, with four bars
    appended. *)
Example C63_unheard_case : let e := EAddNote (T_Project.ex_note 5000 SC) in let p := T_Project.ex_project in
  project_ok p /\ edit_typed e /\ leaves_bars e /\ marked Dc (score p) = [] /\
  exists c w p' k, render_project p = Ret (Ok (c, w)) /\ edit_run e p = Ret (Some (p', k)) /\
    (length (score p) = 2 /\ length (score p') = 7)%nat.
Proof.
  cbv zeta. split; [exact T_Project.ex_project_ok|]. split; [split; exact I|]. split; [exact I|]. split; [reflexivity|].
  eexists. eexists. eexists. eexists. split; [vm_compute; reflexivity|]. split; [vm_compute; reflexivity|]. split; reflexivity.
Qed.

(** ** What rendering looks at *)
Definition same_builder (g g' : gr_builder) : Prop :=
  gb_ds_dc g = gb_ds_dc g' /\ gb_fine g = gb_fine g' /\ gb_segno g = gb_segno g' /\ gb_coda g = gb_coda g' /\
  gb_first_bar_len g = gb_first_bar_len g'.

Lemma has_same a b m : b_marks a = b_marks b -> has a m = has b m.
Proof. unfold has. now intros ->. Qed.

Lemma on_bar_same a b g : same_marks a b -> on_bar a g = on_bar b g.
Proof.
  intros (T & M & R). unfold on_bar, on_bar_length. rewrite !(has_same a b _ M), T.
  destruct (Z.eqb_spec (b_tick b) 0) as [Z|Z]; [rewrite R by congruence|]; reflexivity.
Qed.
Lemma rr_step_same a b s st : same_marks a b -> rr_step s a st = rr_step s b st.
Proof. intros (T & M & _). unfold rr_step. rewrite !(has_same a b _ M), T, M. reflexivity. Qed.

Lemma loop_same bars bars' : Forall2 same_marks bars bars' -> forall g st regs, rr_loop g st regs bars = rr_loop g st regs bars'.
Proof.
  induction 1 as [|a b l l' H _ IH]; intros g st regs; [reflexivity|]. cbn [rr_loop]. rewrite (on_bar_same a b g H).
  destruct (on_bar b g) as [g'|]; [|reflexivity]. rewrite (rr_step_same a b _ _ H).
  destruct (rr_step (gb_segno g') b st) as [[[st' new]|e]| |]; cbn [bind]; auto.
Qed.

(** The keys of bars, and rhythms other than that of a bar at tick 0, have no influence
    on the order of playing. *)
Theorem C63_keys : forall r bars bars', Forall2 same_marks bars bars' -> render_region r bars = render_region r bars'.
Proof. intros r bars bars' H. unfold render_region. rewrite (loop_same bars bars' H). reflexivity. Qed.
Print Assumptions C63_keys.

(** Other keys on both bars, another rhythm on the second. *)
Example C63_keys_case :
  Forall2 same_marks [mkBar 0 (Some (mkRhythm 3 D4)) (Some 2) 0; mkBar 960 None None (ms_of [End])]
                     [mkBar 0 (Some (mkRhythm 3 D4)) None 0; mkBar 960 (Some (mkRhythm 5 D8)) (Some (-3)) (ms_of [End])].
Proof. repeat constructor; cbn; intros; try reflexivity; discriminate. Qed.

Lemma on_bar_rhythm b g g' : same_builder g g' ->
  match on_bar b g, on_bar b g' with Ok x, Ok y => same_builder x y | Err x, Err y => x = y | _, _ => False end.
Proof.
  destruct g as [j f s c l r], g' as [j' f' s' c' l' r']. unfold same_builder.
  cbn [gb_ds_dc gb_fine gb_segno gb_coda gb_first_bar_len gb_top_rhythm]. intros (<- & <- & <- & <- & <-).
  unfold on_bar, on_bar_length. cbn [gb_ds_dc gb_fine gb_segno gb_coda gb_first_bar_len gb_top_rhythm].
  destruct l as [l|]; [|destruct (b_tick b =? 0); [destruct (b_rhythm b)|]];
  destruct (has b Dc), (has b Ds), (has b Fine), (has b Segno), (has b Coda), j as [j|], f as [f|], s as [s|], c as [[c|c d]|];
    cbn; auto 10.
Qed.

Lemma loop_rhythm bars : forall g g' st regs, same_builder g g' ->
  match rr_loop g st regs bars, rr_loop g' st regs bars with
  | Ret (Ok (x, s, q)), Ret (Ok (y, s', q')) => same_builder x y /\ s = s' /\ q = q'
  | Ret (Err x), Ret (Err y) => x = y
  | Panic, Panic => True | Hang, Hang => True
  | _, _ => False
  end.
Proof.
  induction bars as [|b bars IH]; intros g g' st regs H; cbn [rr_loop]; [auto|].
  pose proof (on_bar_rhythm b g g' H) as K. destruct (on_bar b g) as [x|], (on_bar b g') as [y|]; try contradiction; [|exact K].
  replace (gb_segno y) with (gb_segno x) by apply K.
  destruct (rr_step (gb_segno x) b st) as [[[st' new]|e]| |]; cbn [bind]; auto. apply IH. exact K.
Qed.

(** The rhythm of the project counts only for D.C. *)
Theorem C63_rhythm : forall r r' bars, marked Dc bars = [] -> render_region r bars = render_region r' bars.
Proof.
  intros r r' bars M. unfold render_region.
  assert (S : same_builder (gb_new r) (gb_new r')) by (repeat split).
  pose proof (loop_rhythm bars (gb_new r) (gb_new r') SIdle [] S) as H.
  pose proof (loop_dc bars (gb_new r) SIdle []) as D. cbn [gb_new gb_ds_dc] in D.
  destruct (rr_loop (gb_new r) SIdle [] bars) as [[[[g st] regs]|e]| |], (rr_loop (gb_new r') SIdle [] bars) as [[[[g' st'] regs']|e']| |];
    try contradiction; cbn [bind]; auto; [|now rewrite H].
  destruct H as ((A & B & C & E & F) & <- & <-). specialize (D g st regs eq_refl M ltac:(discriminate)).
  assert (G : gb_build g = gb_build g').
  { unfold gb_build. rewrite <- A. destruct (gb_ds_dc g) as [[t y|t]|]; auto; [destruct (D t y eq_refl)|]. rewrite B, C, E. reflexivity. }
  unfold rr_finish. rewrite G. reflexivity.
Qed.
Print Assumptions C63_rhythm.

(** The rhythm does count for D.C.: see C44_case; and without it: *)
Example C63_rhythm_case : marked Dc (layout_bars T_Repeat.jump_layout) = [] /\ marked Ds (layout_bars T_Repeat.jump_layout) = [9600].
Proof. split; reflexivity. Qed.

(** ** A concrete case *)
(** The project of the examples with a repeat; a note behind its end is added, undone and
    added again. *)
Definition repeated : list hop :=
  [HEdit (EAddBar (mkBar 960 None (Some 2) (ms_of [End]))); HEdit (EAddNote (T_Project.ex_note 5000 SC)); HUndo; HRedo].
Example C63_example : exists h c,
  hist_wf (mkSnap [] T_Project.ex_project [] 10) repeated /\
  Forall compatible (score T_Project.ex_project) /\ Forall (fun o => Forall compatible (hop_bars o)) repeated /\
  hist_run (history_new T_Project.ex_project 10) repeated = Ret h /\
  map b_tick (score (h_model h)) = [960; 1920; 2640; 3360; 4080; 4800; 5520] /\
  render_project (h_model h) = Ret (Ok (c, [])) /\
  to_chunks c = Ret [mkChunk 0 960; mkChunk 0 960; mkChunk 960 u32_max].
Proof.
  eexists. exists (mkCompound None [RRepeat (0, 960); RSeq (960, u32_max)]).
  split; [|split; [|split; [|split; [vm_compute; reflexivity|]]]].
  - cbn [hist_wf repeated]. split; [split; [exact I|cbn; unfold u32, u32_max; lia]|].
    match goal with |- match ?x with _ => _ end => let v := eval vm_compute in x in change x with v end.
    cbv beta iota. split; [split; exact I|].
    match goal with |- match ?x with _ => _ end => let v := eval vm_compute in x in change x with v end.
    cbv beta iota. split; [exact I|].
    match goal with |- match ?x with _ => _ end => let v := eval vm_compute in x in change x with v end.
    cbv beta iota. split; [exact I|].
    match goal with |- match ?x with _ => _ end => let v := eval vm_compute in x in change x with v end. exact I.
  - T_Repeat.compat_tac.
  - repeat constructor; intros x y; destruct x, y; vm_compute; congruence.
  - split; [vm_compute; reflexivity|]. split; vm_compute; reflexivity.
Qed.

Definition ex_dc : project * cmd :=
  match edit_run (EAddNote (T_Project.ex_note 0 SC)) (mkProject rhythm_default 0 60 [] [(0, mkBar 0 None None (ms_of [Dc; Fine]))] [] [] []) with
  | Ret (Some x) => x | _ => (project_default, SetGrid 0 0) end.
Definition ex_dc_compound : compound := match render_project (fst ex_dc) with Ret (Ok (c, _)) => c | _ => mkCompound None [] end.
(** If the only bar is at tick 0 and carries D.C., the bar that a note brings with it
    makes the D.C. effective: with Fine on the same bar nothing is played any more. *)
Theorem C63_unheard_refuted : exists p n p' c x x',
  project_ok p /\ Forall compatible (score p) /\ note_valid n /\
  edit_run (EAddNote n) p = Ret (Some (p', c)) /\
  render_project p = Ret (Ok (x, [])) /\ to_chunks x = Ret [mkChunk 0 u32_max] /\
  render_project p' = Ret (Ok (x', [])) /\ to_chunks x' = Ret [].
Proof.
  exists (mkProject rhythm_default 0 60 [] [(0, mkBar 0 None None (ms_of [Dc; Fine]))] [] [] []), (T_Project.ex_note 0 SC).
  exists (fst ex_dc), (snd ex_dc), (mkCompound None [RSeq (0, u32_max)]), ex_dc_compound. split.
  { constructor; (split; [repeat constructor|T_Project.in_list]). split; [reflexivity|unfold u32, u32_max; cbn; lia]. }
  split; [T_Repeat.compat_tac|]. split; [apply T_Project.ex_note_valid|].
  split; [vm_compute; reflexivity|]. split; [vm_compute; reflexivity|]. split; [vm_compute; reflexivity|].
  split; vm_compute; reflexivity.
Qed.
Print Assumptions C63_unheard_refuted.
