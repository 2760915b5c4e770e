(** Lemmas about reopening a project from disk. *)
From Coq Require Import ZArith List Bool Lia Permutation Ascii String.
From Verif Require Import Base M_Pitch M_Duration M_Percent M_Scalar M_Bar M_Note M_Models M_Store M_Tuple M_Project M_Event M_Text M_Json M_Disk.
From Verif Require Import S_Pitch S_Note S_Percent S_Project S_Text S_Json S_Disk.
From Verif Require Import P_Base P_Store P_Query P_Replenish P_Edit P_History P_Json P_Savable.
From Verif Require P_Tuple.
Import ListNotations.
Open Scope Z_scope.
Open Scope list_scope.

Definition savable_cmd (c : cmd) : Prop :=
  match c with
  | SetRhythm a b => savable_rhythm a /\ savable_rhythm b
  | SetKey a b => savable_key a /\ savable_key b
  | SetGrid a b => u32 a /\ u32 b
  | ModelChanged a r => savable a /\ savable r
  end.

(** ** Commands come back *)
Lemma reads_self {A} (r : reader A) w a : reads_as r w a -> writable w -> r w = Ret (Some a).
Proof. intros R W. apply R. now apply writable_same. Qed.

(** the settings have no metadata of their own *)
Definition logged_ok (cm : cmd * metadata) : Prop :=
  savable_cmd (fst cm) /\ match fst cm with ModelChanged _ _ => True | _ => snd cm = meta_new end.

Lemma metadata_back m : read_metadata (write_metadata m) = Ret (Some m).
Proof. destruct m as [[[]|] []]; reflexivity. Qed.

Lemma cmd_back cm : logged_ok cm -> read_cmd (write_cmd cm) = Ret (Some cm).
Proof.
  destruct cm as [[a b|a b|a b|a b] m]; intros [[A B] M]; cbn [fst snd] in *; try subst m; cbn [write_cmd].
  - change (read_pair read_rhythm (fun a b => (SetRhythm a b, meta_new)) (JArr [write_rhythm a; write_rhythm b])
            = Ret (Some (SetRhythm a b, meta_new))).
    unfold read_pair.
    rewrite (reads_self read_rhythm _ a (reads_rhythm a A) (writable_rhythm a A)). cbn [bind_opt bind].
    rewrite (reads_self read_rhythm _ b (reads_rhythm b B) (writable_rhythm b B)). reflexivity.
  - change (read_pair read_key (fun a b => (SetKey a b, meta_new)) (JArr [JInt a; JInt b]) = Ret (Some (SetKey a b, meta_new))).
    unfold read_pair.
    rewrite (reads_key a A _ (same_int _)). cbn [bind_opt bind]. rewrite (reads_key b B _ (same_int _)). reflexivity.
  - change (read_pair read_grid (fun a b => (SetGrid a b, meta_new)) (JArr [write_grid a; write_grid b])
            = Ret (Some (SetGrid a b, meta_new))).
    unfold read_pair.
    assert (G : forall g, u32 g -> read_grid (write_grid g) = Ret (Some g)).
    { intros g U. unfold read_grid, write_grid, value_field. cbn [combine struct fields field]. cbn [text_eqb].
      change (match (if text_eqb (chars "value") (chars "value") then Some (Some (JInt g)) else Some None) with
              | Some o => match Some [] with Some os => Some (o :: os) | None => None end | None => None end) with (Some [Some (JInt g)]).
      cbn [required]. apply (reads_int 0 u32_max g U _ (same_int g)). }
    rewrite (G a A). cbn [bind_opt bind]. rewrite (G b B). reflexivity.
  - change (read_changed (JObj (combine changed_fields [write_models a; write_models b; write_metadata m]))
            = Ret (Some (ModelChanged a b, m))).
    unfold read_changed.
    change (struct changed_fields (JObj (combine changed_fields [write_models a; write_models b; write_metadata m])))
      with (Some [Some (write_models a); Some (write_models b); Some (write_metadata m)]).
    cbv iota. cbn [required].
    rewrite (reads_self read_models _ a (reads_models a A) (writable_models a A)). cbn [bind_opt bind].
    rewrite (reads_self read_models _ b (reads_models b B) (writable_models b B)). cbn [bind_opt bind].
    rewrite metadata_back. reflexivity.
Qed.

Lemma cmds_back cs : Forall logged_ok cs -> read_all read_cmd (map write_cmd cs) = Ret (Some cs).
Proof.
  induction 1 as [|c cs H _ IH]; [reflexivity|]. cbn [map read_all]. rewrite (cmd_back c H). cbn [bind_opt bind].
  rewrite IH. reflexivity.
Qed.

Lemma reopen_back p cs : project_ok p -> savable_project p -> Forall logged_ok cs ->
  exists r, reopen (write_project p) (map write_cmd cs) = Ret (Some r) /\ ro_model r = replay p (map fst cs) /\ ro_log r = cs.
Proof.
  intros O P C. unfold reopen.
  rewrite (reads_self read_exported _ (export p) (reads_exported p P) (writable_project p P)).
  cbn [bind_opt bind]. rewrite (cmds_back cs C). cbn [bind_opt bind]. eexists. split; [reflexivity|]. cbn [ro_model ro_log].
  rewrite (import_export p O). split; reflexivity.
Qed.

(** ** Edits of savable projects record savable commands *)

Lemma snd_forall {V} (P : V -> Prop) (s : list (Z * V)) : Forall P (map snd s) <-> forall k v, In (k, v) s -> P v.
Proof.
  rewrite Forall_forall. split.
  - intros H k v I. apply H. apply in_map_iff. now exists (k, v).
  - intros H v I. apply in_map_iff in I as ([k u] & <- & I). eapply H; eauto.
Qed.

Lemma exch_forall {V} (P : V -> Prop) (tick : V -> Z) ks A (s : list (Z * V)) :
  Forall P (map snd s) -> Forall P A ->
  Forall P (map snd (add_all (map (fun v => (tick v, v)) A) (remove_keys ks s))).
Proof.
  rewrite !snd_forall. intros H HA k v I. apply add_all_in in I as [I|I].
  - apply in_map_iff in I as (w & E & I). inversion E; subst. rewrite Forall_forall in HA. auto.
  - apply remove_keys_in in I. eauto.
Qed.

Lemma notes_forall (P : note -> Prop) R A s : Forall P (map snd s) -> Forall P A ->
  Forall P (map snd (b_bulk_add (map note_entry A) (b_bulk_remove note_eq_dec (map note_entry R) s))).
Proof.
  rewrite !snd_forall. intros H HA k v I. eapply Permutation_in in I; [|apply b_bulk_add_perm].
  apply in_app_or in I as [I|I].
  - apply in_map_iff in I as (w & E & I). inversion E; subst. rewrite Forall_forall in HA. auto.
  - apply b_bulk_remove_sub in I. eauto.
Qed.

Lemma exchange_savable F A p : savable_project p -> savable A -> savable_project (exchange F A p).
Proof.
  intros (R & K & G & N & B & T & D & S) (AN & AB & AT & AD & AS). unfold savable_project, exchange.
  cbn [pj_rhythm pj_key pj_grid pj_notes pj_bars pj_tempos pj_dumpers pj_softs].
  do 3 (split; [assumption|]). split; [now apply notes_forall|].
  split; [exact (exch_forall savable_bar b_tick _ _ _ B AB)|].
  split; [exact (exch_forall savable_tempo tp_tick _ _ _ T AT)|].
  split; [exact (exch_forall savable_ctrl cc_tick _ _ _ D AD)|].
  exact (exch_forall savable_ctrl cc_tick _ _ _ S AS).
Qed.

Lemma replaced_forall {V} (P : V -> Prop) (tick : V -> Z) F A s : Forall P (map snd s) -> Forall P A ->
  Forall P (replaced tick F A s).
Proof.
  intros H HA. unfold replaced. apply snd_forall. intros k v I. apply bulk_old_in in I as [I|I].
  - apply remove_keys_in in I. rewrite snd_forall in H. eauto.
  - apply in_map_iff in I as (w & E & I). inversion E; subst. rewrite Forall_forall in HA. auto.
Qed.

Lemma recorded_savable F A p : savable_project p -> savable F -> savable A -> savable (recorded F A p).
Proof.
  intros (R & K & G & N & B & T & D & S) (FN & FB & FT & FD & FS) (AN & AB & AT & AD & AS).
  unfold savable, recorded. cbn [m_notes m_bars m_tempos m_dumpers m_softs].
  split; [assumption|]. repeat split; apply Forall_app; split; auto using replaced_forall.
Qed.

Lemma blank_savable t : u32 t -> savable_bar (mkBar t None None 0).
Proof. intros U. split; [exact U|]. split; [discriminate|]. split; [discriminate|]. cbn. lia. Qed.

Lemma replenish_savable p p' more : keyed b_tick (pj_bars p) -> savable_project p ->
  replenish_bars p = Ret (p', more) -> savable_project p' /\ Forall savable_bar more.
Proof.
  intros K (R & Ke & G & N & B & T & D & S) E.
  destruct (replenish_ret p p' more K E) as (ne & r & n & _ & _ & -> & -> & _ & H).
  assert (M : Forall savable_bar (even_bars (last_tick p) (rhythm_tick_len r) n)).
  { apply Forall_forall. intros b I. apply even_bars_ticks in I as (i & Hi & ->).
    destruct H as [->|(L & _ & U)]; [lia|]. apply blank_savable.
    pose proof (last_tick_range p K) as [U0 _]. unfold u32. split; [nia|]. unfold u32 in *. nia. }
  split; [|exact M]. unfold savable_project.
  cbn [pj_set_bars pj_rhythm pj_key pj_grid pj_notes pj_bars pj_tempos pj_dumpers pj_softs].
  do 4 (split; [assumption|]). split; [|auto]. rewrite map_app, map_map. apply Forall_app. split; [exact B|].
  cbn. rewrite map_id. exact M.
Qed.

Lemma runs_savable F A rep p p' c : project_ok p -> models_typed A -> savable_project p -> savable F -> savable A ->
  runs F A rep p = Ret (Some (p', c)) -> savable_project p' /\ savable_cmd c.
Proof.
  intros O TA P SF SA E. pose proof (exchange_ok F A p O TA) as O1.
  pose proof (exchange_savable F A p P SA) as P1. pose proof (recorded_savable F A p P SF SA) as SR.
  unfold runs in E. apply bind_ret in E. destruct E as [[p2 more] [E1 E2]]. apply ret_inj in E2.
  apply (f_equal (fun o => match o with Some x => x | None => (p2, c) end)) in E2. inversion E2; subst p' c. clear E2.
  assert (X : savable_project p2 /\ Forall savable_bar more).
  { destruct rep.
    - apply (replenish_savable _ _ _ (ok_bars _ O1) P1 E1).
    - apply ret_inj in E1. inversion E1; subst. auto. }
  destruct X as [X1 X2]. split; [exact X1|]. split; [|exact SR].
  destruct SA as (AN & AB & AT & AD & AS). unfold savable, with_bars. cbn [m_notes m_bars m_tempos m_dumpers m_softs].
  split; [assumption|]. split; [now apply Forall_app|auto].
Qed.

(** ** Tuplets *)
Lemma te_loop_notes l : forall cur es, te_loop cur l = Ret es ->
  flat_map te_notes es = (match cur with Some e => te_notes e | None => [] end) ++ l.
Proof.
  induction l as [|n l IH]; intros cur es E; cbn [te_loop] in E.
  - apply ret_inj in E. subst. destruct cur; cbn; rewrite ?app_nil_r; auto.
  - apply bind_ret in E as (u & _ & E). apply bind_ret in E as (r & E1 & E).
    unfold te_add in E1. destruct cur as [e|].
    + destruct (negb (te_tick e =? n_base_tick n)).
      * apply ret_inj in E1. subst r. apply bind_ret in E as (rest & E2 & E). apply ret_inj in E. subst es.
        apply IH in E2. cbn [flat_map te_notes] in *. rewrite E2. cbn. reflexivity.
      * apply bind_ret in E1 as (m & _ & E1). apply ret_inj in E1. subst r. apply IH in E. rewrite E.
        cbn [te_notes]. rewrite <- app_assoc. reflexivity.
    + apply ret_inj in E1. subst r. apply IH in E. rewrite E. reflexivity.
Qed.

Lemma tuple_notes_savable start tt tu den : 2 <= den <= 255 -> forall l u out, Forall savable_note l ->
  tuple_notes start tt tu den u l = Ret out -> Forall savable_note out.
Proof.
  intros D. induction l as [|n l IH]; intros u out H E; cbn [tuple_notes] in E.
  - apply ret_inj in E. subst. constructor.
  - apply bind_ret in E as (m & _ & E). apply bind_ret in E as (t & Et & E). apply bind_ret in E as (k & _ & E).
    apply bind_ret in E as (u' & _ & E). apply bind_ret in E as (rest & Er & E). apply ret_inj in E. subst out.
    inversion H as [|? ? H1 H2]; subst. constructor; [|eapply IH; eauto].
    destruct H1 as (A1 & A2 & A3 & A4 & A5 & A6 & A7 & A8 & A9).
    unfold savable_note, set_duration, set_base_tick, with_denominator.
    cbn [n_base_tick n_pitch n_duration n_tie n_tied n_base_velocity n_tick_trimmer n_duration_trimmer n_velocity_trimmer n_channel d_den d_dots].
    unfold chk_u32 in Et. apply chk_inv in Et as [-> U]. split; [exact U|].
    split; [exact A2|]. split; [exact D|]. repeat (split; [assumption|]). assumption.
Qed.

Lemma tuplize_savable l t : Forall savable_note l -> tuplize l = Ret t -> Forall savable_note t.
Proof.
  intros H E. destruct l as [|n0 l0]; [apply ret_inj in E; subst; constructor|].
  remember (n0 :: l0) as l eqn:El.
  assert (E' : (let! (work, min_unit, sorted) := sort_by_start_tick l in
      match min_unit with
      | None => Ret []
      | Some min_unit =>
          let! start := match work with n :: _ => Ret (n_base_tick n) | [] => Panic end in
          let! (total_tick, total_unit) := total_tick_unit sorted in
          let den := total_unit / min_unit in
          if den <? 2 then Ret l
          else
            let! total := chk_u32 (total_tick / den * 2) in
            let! den := unwrap_opt (denominator_from_value (as_u8 den)) in
            tuple_notes start total total_unit den 0 (flat_map te_notes sorted)
      end) = Ret t) by (subst l; exact E).
  clear E. apply bind_ret in E' as ([[work mu] es] & E1 & E). destruct mu as [mu|]; [|apply ret_inj in E; subst; constructor].
  apply bind_ret in E as (start & _ & E). apply bind_ret in E as ([tt tu] & _ & E). cbv zeta in E.
  destruct (tu / mu <? 2); [apply ret_inj in E; subst t; exact H|].
  apply bind_ret in E as (total & _ & E). apply bind_ret in E as (den & Ed & E).
  assert (D : 2 <= den <= 255).
  { unfold denominator_from_value in Ed. assert (U : 0 <= as_u8 (tu / mu) < 256) by (apply Z.mod_pos_bound; lia).
    destruct (Z.ltb_spec (as_u8 (tu / mu)) 2) as [L|L]; cbn in Ed; [discriminate|]. apply ret_inj in Ed. subst. lia. }
  apply (tuple_notes_savable _ _ _ _ D _ _ _) in E; [exact E|].
  assert (X : te_loop None (sort_notes l) = Ret es).
  { rewrite El in E1 |- *. unfold sort_by_start_tick in E1. apply bind_ret in E1 as (es' & E1 & E2).
    apply bind_ret in E2 as (us & _ & E2). apply ret_inj in E2. inversion E2; subst. exact E1. }
  apply te_loop_notes in X. rewrite X. cbn [app]. eapply Permutation_Forall; [apply P_Tuple.sort_perm|exact H].
Qed.

(** ** Histories *)
Lemma savable_empty : savable models_empty.
Proof. repeat split; constructor. Qed.

Lemma present_savable p m : project_ok p -> savable_project p -> all_present p m -> savable m.
Proof.
  intros O (R & K & G & N & B & T & D & S) [PN PB PT PD PS]. pose proof (proj1 (snd_forall _ _) B) as B'. pose proof (proj1 (snd_forall _ _) T) as T'. pose proof (proj1 (snd_forall _ _) D) as D'. pose proof (proj1 (snd_forall _ _) S) as S'.
  split.
  { destruct PN as [rest PN]. apply (Permutation_Forall PN) in N. now apply Forall_app in N. }
  repeat split; apply Forall_forall; intros v I; eauto.
Qed.

Lemma moves_savable e F A p : moves e F A -> project_ok p -> edit_wf e p -> edit_savable e -> savable_project p ->
  savable F /\ savable A.
Proof.
  intros M O W S P. destruct (moves_wf e F A p M W) as [PF _]. split; [eapply present_savable; eauto|].
  destruct M; cbn [edit_savable] in S; try apply savable_empty; try (repeat split; cbn; auto; fail); auto.
  split; [|repeat split; constructor]. cbn [m_notes]. apply (tuplize_savable l t); [|assumption].
  pose proof (present_savable p _ O P PF) as [X _]. exact X.
Qed.

Lemma edit_savable_step e p p' c : project_ok p -> edit_typed e -> edit_wf e p -> edit_savable e -> savable_project p ->
  edit_run e p = Ret (Some (p', c)) -> savable_project p' /\ savable_cmd c.
Proof.
  intros O T W S P E. pose proof P as (R & K & G & N & B & Te & D & So). apply edit_cases in E.
  destruct E as [(r & -> & -> & ->)|[(k & -> & -> & ->)|[(g & -> & -> & ->)|(F & A & M & E)]]]; cbn [edit_savable] in S.
  - split; [|now split]. unfold savable_project. cbn. tauto.
  - split; [|now split]. unfold savable_project. cbn. tauto.
  - split; [|now split]. unfold savable_project. cbn [pj_set_grid pj_rhythm pj_key pj_grid pj_notes pj_bars pj_tempos pj_dumpers pj_softs]. tauto.
  - destruct (moves_savable e F A p M O W S P) as [SF SA]. destruct (moves_typed e F A M T) as [_ TA].
    exact (runs_savable F A _ p p' c O TA P SF SA E).
Qed.

Lemma same_savable p q : same_project p q -> savable_project p -> savable_project q.
Proof.
  intros [S1 S2 S3 S4 S5 S6 S7 S8] (R & K & G & N & B & T & D & S). unfold savable_project.
  rewrite <- S1, <- S2, <- S3, <- S5, <- S6, <- S7, <- S8. do 3 (split; [assumption|]).
  split; [|auto]. eapply Permutation_Forall; [apply Permutation_map; exact S4|exact N].
Qed.

Record kept (h : history) (s : snapshots) : Prop := mkKept {
  kept_sim : sim h s;
  kept_now : savable_project (sn_now s);
  kept_past : Forall savable_project (sn_past s);
  kept_future : Forall savable_project (sn_future s);
  kept_undo : Forall savable_cmd (h_undo h);
  kept_redo : Forall savable_cmd (h_redo h);
}.

Lemma Forall_firstn {A} (P : A -> Prop) n l : Forall P l -> Forall P (firstn n l).
Proof. intros H. revert n. induction H; intros [|n]; cbn; auto. Qed.

Lemma kept_edit h s e h' : kept h s -> edit_typed e -> edit_wf e (sn_now s) -> edit_savable e -> history_edit h e = Ret h' ->
  exists s', snap_edit s e = Ret s' /\ kept h' s'.
Proof.
  intros [S N P F U R] T W SA E. pose proof S as [S1 S2 S3 S4 S5 S6].
  destruct (sim_edit h s e h' S T W E) as (s' & E' & S'). exists s'. split; [exact E'|].
  unfold history_edit in E. apply bind_ret in E. destruct E as [[[p c]|] [E1 E2]]; apply ret_inj in E2; subst h'.
  - destruct (edit_cong e _ (sn_now s) _ _ S2 S3 T S1 E1) as [q [E1' SQ]].
    unfold snap_edit in E'. rewrite E1' in E'. cbn [bind] in E'. apply ret_inj in E'. subst s'.
    destruct (edit_savable_step e _ _ _ S3 T W SA N E1') as [Q C].
    constructor; cbn [h_undo h_redo sn_now sn_past sn_future]; auto using Forall_firstn, Forall_nil, Forall_cons.
  - unfold snap_edit in E'. rewrite (edit_none e _ (sn_now s) E1) in E'. cbn [bind] in E'. apply ret_inj in E'. subst s'.
    constructor; auto.
Qed.

Lemma kept_undo_step h s : kept h s -> kept (history_undo h) (snap_undo s).
Proof.
  intros [S N P F U R]. pose proof (sim_undo h s S) as S'. pose proof S as [_ _ _ S4 _ _].
  destruct h as [hm [|c cs] hr hl], s as [[|q qs] sn sf sl]; cbn in *; try (inversion S4; fail); constructor; cbn in *; auto;
    try (inversion P; subst; auto; fail); try (inversion U; subst; auto; fail).
Qed.

Lemma kept_redo_step h s : kept h s -> kept (history_redo h) (snap_redo s).
Proof.
  intros [S N P F U R]. pose proof (sim_redo h s S) as S'. pose proof S as [_ _ _ _ S5 _].
  destruct h as [hm hu [|c cs] hl], s as [sp sn [|q qs] sl]; cbn in *; try (inversion S5; fail); constructor; cbn in *; auto;
    try (inversion F; subst; auto; fail); try (inversion R; subst; auto; fail).
Qed.

Lemma kept_run os : forall h s h', kept h s -> hist_wf s os -> Forall hop_savable os -> hist_run h os = Ret h' ->
  exists s', snap_run s os = Ret s' /\ kept h' s'.
Proof.
  induction os as [|o os IH]; intros h s h' S W SA E; cbn [hist_run snap_run] in *.
  - apply ret_inj in E. subst. eauto.
  - apply bind_ret in E. destruct E as [h1 [E1 E2]]. cbn [hist_wf] in W. destruct W as [W1 W2].
    inversion SA as [|? ? SA1 SA2]; subst. destruct o; cbn [hist_step snap_step hop_savable] in *.
    + destruct W1 as [Wa Wb]. destruct (kept_edit h s e h1 S Wb Wa SA1 E1) as [s1 [E1' S']].
      rewrite E1' in *. cbn [bind]. eauto.
    + apply ret_inj in E1. subst. cbn [bind]. eapply IH; eauto. apply kept_undo_step; auto.
    + apply ret_inj in E1. subst. cbn [bind]. eapply IH; eauto. apply kept_redo_step; auto.
Qed.

Lemma past_nth_ok p cs qs : past p cs qs -> project_ok p -> forall k q, nth_error (p :: qs) k = Some q -> project_ok q.
Proof.
  induction 1 as [|p c cs q qs O D P IH]; intros OP k x N; (destruct k as [|k]; [cbn in N; inversion N; subst; auto|]).
  - destruct k; discriminate.
  - cbn [nth_error] in N. eapply IH; eauto.
Qed.

(** the commands of a session with the metadata they were asked with *)
Lemma reopen_history p limit os h s k q log :
  project_ok p -> savable_project p -> hist_wf (mkSnap [] p [] limit) os -> Forall hop_savable os ->
  hist_run (history_new p limit) os = Ret h -> snap_run (mkSnap [] p [] limit) os = Ret s ->
  nth_error (sn_now s :: sn_past s) k = Some q ->
  map fst log = rev (firstn k (h_undo h)) ->
  Forall (fun cm : cmd * metadata => match fst cm with ModelChanged _ _ => True | _ => snd cm = meta_new end) log ->
  exists r, reopen (write_project q) (map write_cmd log) = Ret (Some r) /\
    same_project (ro_model r) (h_model h) /\ ro_log r = log.
Proof.
  intros O P W SA E E' N L M.
  assert (K0 : kept (history_new p limit) (mkSnap [] p [] limit)).
  { constructor; cbn; auto using sim_new. }
  destruct (kept_run os _ _ h K0 W SA E) as (s' & E'' & [S KN KP KF KU KR]).
  rewrite E' in E''. apply ret_inj in E''. subst s'. destruct S.
  assert (OQ : project_ok q) by (eapply past_nth_ok; eauto).
  assert (PQ : savable_project q).
  { apply nth_error_In in N as [<-|N]; [exact KN|]. rewrite Forall_forall in KP. auto. }
  assert (CQ : Forall logged_ok log).
  { assert (X : Forall savable_cmd (map fst log)) by (rewrite L; apply Forall_rev; now apply Forall_firstn).
    rewrite Forall_map in X. rewrite Forall_forall in *. intros cm I. split; auto. apply (M _ I). }
  destruct (reopen_back q log OQ PQ CQ) as (r & R & RM & RL).
  exists r. split; [exact R|]. split; [|exact RL]. rewrite RM, L.
  eapply same_trans; [|apply same_sym; exact sim_now]. eapply replay_past; eauto. apply same_refl.
Qed.
