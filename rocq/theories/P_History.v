(** Lemmas about histories of edits, crash recovery, export and import. *)
From Coq Require Import Sorted Permutation.
From Verif Require Import P_Base M_Scalar M_Bar M_Note M_Store M_Tuple M_Models M_Project S_Project P_Store P_Query P_Replenish P_Edit.
Open Scope Z_scope.

Inductive past : project -> list cmd -> list project -> Prop :=
| past_nil p : past p [] []
| past_cons p c cs q qs : project_ok q -> did q c p -> past q cs qs -> past p (c :: cs) (q :: qs).
Inductive future : project -> list cmd -> list project -> Prop :=
| future_nil p : future p [] []
| future_cons p c cs q qs : project_ok q -> did p c q -> future q cs qs -> future p (c :: cs) (q :: qs).

Lemma past_firstn n : forall p cs qs, past p cs qs -> past p (firstn n cs) (firstn n qs).
Proof.
  induction n as [|n IH]; intros p cs qs H; [constructor|].
  destruct H; cbn; constructor; auto.
Qed.

Record sim (h : history) (s : snapshots) : Prop := mkSim {
  sim_now : same_project (h_model h) (sn_now s);
  sim_ok : project_ok (h_model h);
  sim_ok' : project_ok (sn_now s);
  sim_past : past (sn_now s) (h_undo h) (sn_past s);
  sim_future : future (sn_now s) (h_redo h) (sn_future s);
  sim_limit : h_limit h = sn_limit s;
}.

Lemma sim_new p limit : project_ok p -> sim (history_new p limit) (mkSnap [] p [] limit).
Proof. intros O. constructor; cbn; auto using same_refl; constructor. Qed.

Lemma past_length p cs qs : past p cs qs -> length cs = length qs.
Proof. induction 1; cbn; auto. Qed.
Lemma future_length p cs qs : future p cs qs -> length cs = length qs.
Proof. induction 1; cbn; auto. Qed.

Lemma sim_undo h s : sim h s -> sim (history_undo h) (snap_undo s).
Proof.
  intros [S1 S2 S3 S4 S5 S6]. unfold history_undo, snap_undo. inversion S4 as [p E1 E2|p c cs q qs O D P E1 E2 E3].
  - constructor; auto; rewrite <- ?H, <- ?H0; auto.
  - constructor; cbn; auto.
    + eapply same_trans; [apply cmd_undo_cong; eauto|]. apply did_undo; auto.
    + apply cmd_undo_ok; auto. eapply did_typed; eauto.
    + constructor; auto.
Qed.

Lemma sim_redo h s : sim h s -> sim (history_redo h) (snap_redo s).
Proof.
  intros [S1 S2 S3 S4 S5 S6]. unfold history_redo, snap_redo. inversion S5 as [p E1 E2|p c cs q qs O D P E1 E2 E3].
  - constructor; auto; rewrite <- ?H, <- ?H0; auto.
  - constructor; cbn; auto.
    + eapply same_trans; [apply cmd_redo_cong; eauto|]. apply did_redo; auto.
    + apply cmd_redo_ok; auto. eapply did_typed; eauto.
    + constructor; auto.
Qed.

Lemma sim_edit h s e h' : sim h s -> edit_typed e -> edit_wf e (sn_now s) -> history_edit h e = Ret h' ->
  exists s', snap_edit s e = Ret s' /\ sim h' s'.
Proof.
  intros [S1 S2 S3 S4 S5 S6] T W E. unfold history_edit in E. apply bind_ret in E.
  destruct E as [[[p' c]|] [E1 E2]]; apply ret_inj in E2; subst h'; unfold snap_edit.
  - destruct (edit_cong e _ (sn_now s) _ _ S2 S3 T S1 E1) as [q' [E1' S']]. rewrite E1'. cbn [bind].
    eexists. split; [reflexivity|]. constructor; cbn [h_model h_undo h_redo h_limit sn_now sn_past sn_future sn_limit]; auto.
    + apply (edit_ok e _ _ _ S2 T E1).
    + apply (edit_ok e _ _ _ S3 T E1').
    + rewrite S6. apply past_firstn. constructor; auto. apply (edit_did e _ _ _ S3 T W E1').
    + constructor.
  - rewrite (edit_none e _ (sn_now s) E1). cbn [bind]. eexists. split; [reflexivity|]. constructor; auto.
Qed.

Lemma sim_edit_back h s e s' : sim h s -> edit_typed e -> edit_wf e (sn_now s) -> snap_edit s e = Ret s' ->
  exists h', history_edit h e = Ret h' /\ sim h' s'.
Proof.
  intros S T W E. pose proof S as [S1 S2 S3 S4 S5 S6].
  assert (X : exists h', history_edit h e = Ret h').
  { unfold snap_edit in E. apply bind_ret in E. destruct E as [[[q' c]|] [E1 E2]]; unfold history_edit.
    - destruct (edit_cong e _ (h_model h) _ _ S3 S2 T (same_sym _ _ S1) E1) as [p' [E1' _]]. rewrite E1'. cbn. eauto.
    - rewrite (edit_none e _ (h_model h) E1). cbn. eauto. }
  destruct X as [h' X]. exists h'. split; auto. destruct (sim_edit h s e h' S T W X) as [s'' [E' S']].
  rewrite E in E'. apply ret_inj in E'. subst. auto.
Qed.

Lemma sim_run os : forall h s h', sim h s -> hist_wf s os -> hist_run h os = Ret h' ->
  exists s', snap_run s os = Ret s' /\ sim h' s'.
Proof.
  induction os as [|o os IH]; intros h s h' S W E; cbn [hist_run snap_run] in *.
  - apply ret_inj in E. subst. eauto.
  - apply bind_ret in E. destruct E as [h1 [E1 E2]]. cbn [hist_wf] in W. destruct W as [W1 W2].
    destruct o; cbn [hist_step snap_step] in *.
    + destruct W1 as [Wa Wb]. destruct (sim_edit h s e h1 S Wb Wa E1) as [s1 [E1' S']].
      rewrite E1' in *. cbn [bind]. eauto.
    + apply ret_inj in E1. subst. cbn [bind]. eapply IH; eauto. apply sim_undo; auto.
    + apply ret_inj in E1. subst. cbn [bind]. eapply IH; eauto. apply sim_redo; auto.
Qed.

Lemma sim_run_back os : forall h s s', sim h s -> hist_wf s os -> snap_run s os = Ret s' ->
  exists h', hist_run h os = Ret h' /\ sim h' s'.
Proof.
  induction os as [|o os IH]; intros h s s' S W E; cbn [hist_run snap_run] in *.
  - apply ret_inj in E. subst. eauto.
  - apply bind_ret in E. destruct E as [s1 [E1 E2]]. cbn [hist_wf] in W. destruct W as [W1 W2].
    rewrite E1 in W2.
    destruct o; cbn [hist_step snap_step] in *.
    + destruct W1 as [Wa Wb]. destruct (sim_edit_back h s e s1 S Wb Wa E1) as [h1 [E1' S']].
      rewrite E1'. cbn [bind]. eauto.
    + apply ret_inj in E1. subst. cbn [bind]. eapply IH; eauto. apply sim_undo; auto.
    + apply ret_inj in E1. subst. cbn [bind]. eapply IH; eauto. apply sim_redo; auto.
Qed.

(** At most the configured number of steps. *)
Lemma limit_run os : forall h h', (length (h_undo h) + length (h_redo h) <= h_limit h)%nat ->
  hist_run h os = Ret h' -> (length (h_undo h') + length (h_redo h') <= h_limit h')%nat /\ h_limit h' = h_limit h.
Proof.
  induction os as [|o os IH]; intros h h' L E; cbn [hist_run] in *.
  - apply ret_inj in E. subst. auto.
  - apply bind_ret in E. destruct E as [h1 [E1 E2]].
    assert (X : (length (h_undo h1) + length (h_redo h1) <= h_limit h1)%nat /\ h_limit h1 = h_limit h).
    { destruct o; cbn [hist_step] in E1.
      - unfold history_edit in E1. apply bind_ret in E1. destruct E1 as [[[p c]|] [_ E1]]; apply ret_inj in E1; subst h1; auto.
        cbn [h_undo h_redo h_limit length]. split; auto. pose proof (firstn_le_length (h_limit h) (c :: h_undo h)).
        rewrite firstn_length. lia.
      - apply ret_inj in E1. subst. unfold history_undo. destruct (h_undo h) eqn:U; [rewrite U; cbn; auto|].
        cbn in *. split; auto. lia.
      - apply ret_inj in E1. subst. unfold history_redo. destruct (h_redo h) eqn:U; [rewrite U; cbn; auto|].
        cbn in *. split; auto. lia. }
    destruct X as [X1 X2]. destruct (IH h1 h' X1 E2) as [Y1 Y2]. split; auto. congruence.
Qed.

(** ** Recovery *)
Lemma replay_snoc p l c : replay p (l ++ [c]) = cmd_redo c (replay p l).
Proof. unfold replay. rewrite fold_left_app. auto. Qed.

Lemma replay_past cs : forall p qs k q q0, project_ok p -> past p cs qs -> nth_error (p :: qs) k = Some q ->
  same_project q0 q -> same_project (replay q0 (rev (firstn k cs))) p.
Proof.
  induction cs as [|c cs IH]; intros p qs k q q0 O P N S.
  - inv P. destruct k as [|[|k]]; cbn in N; inv N. cbn. auto.
  - inv P. destruct k as [|k]; [cbn in *; inv N; auto|]. cbn [firstn rev]. rewrite replay_snoc.
    eapply same_trans; [apply cmd_redo_cong, (IH q1 qs0 k q q0); auto|]. apply did_redo; auto.
Qed.

(** ** Invariants without well-formedness *)
Definition hist_ok (h : history) : Prop :=
  project_ok (h_model h) /\ Forall cmd_typed (h_undo h) /\ Forall cmd_typed (h_redo h).

Lemma forall_firstn {A} (P : A -> Prop) n l : Forall P l -> Forall P (firstn n l).
Proof. intros H. revert n. induction H; intros [|n]; cbn; constructor; auto. Qed.

Lemma hist_ok_run os : forall h h', hist_ok h -> Forall hop_typed os -> hist_run h os = Ret h' -> hist_ok h'.
Proof.
  induction os as [|o os IH]; intros h h' H T E; cbn [hist_run] in *.
  - apply ret_inj in E. subst. auto.
  - inv T. apply bind_ret in E. destruct E as [h1 [E1 E2]]. eapply IH; [|eauto|eauto].
    destruct H as [O [U R]]. destruct o; cbn [hist_step hop_typed] in *.
    + unfold history_edit in E1. apply bind_ret in E1. destruct E1 as [[[p c]|] [E0 E1]]; apply ret_inj in E1; subst h1.
      * destruct (edit_ok _ _ _ _ O H2 E0). split; [|split]; cbn [h_model h_undo h_redo]; auto.
        apply forall_firstn. constructor; auto.
      * split; auto.
    + apply ret_inj in E1. subst. unfold history_undo. destruct (h_undo h) as [|c cs] eqn:Eu; [split; [auto|rewrite Eu; split; auto]|].
      inv U. split; [|split]; cbn [h_model h_undo h_redo]; auto. apply cmd_undo_ok; auto.
    + apply ret_inj in E1. subst. unfold history_redo. destruct (h_redo h) as [|c cs] eqn:Eu; [split; [auto|rewrite Eu; split; auto]|].
      inv R. split; [|split]; cbn [h_model h_undo h_redo]; auto. apply cmd_redo_ok; auto.
Qed.

(** ** Export and import *)
Lemma b_add_last {V} k (v : V) s : (forall k' v', In (k', v') s -> k' <= k) -> b_add k v s = s ++ [(k, v)].
Proof.
  induction s as [|[a b] s IH]; intros H; cbn; auto.
  assert (a <= k) by (apply (H a b); left; auto). destruct (Z.ltb_spec k a); [lia|].
  rewrite IH; auto. intros k' v' I. apply (H k' v'). right; auto.
Qed.

Lemma b_bulk_add_sorted_id {V} (l : list (Z * V)) : forall s,
  StronglySorted (fun a b => fst a <= fst b) (s ++ l) -> b_bulk_add l s = s ++ l.
Proof.
  induction l as [|[k v] l IH]; intros s H; [cbn; rewrite app_nil_r; auto|].
  change (b_bulk_add ((k, v) :: l) s) with (b_bulk_add l (b_add k v s)).
  rewrite b_add_last.
  - rewrite IH; rewrite <- app_assoc; auto.
  - intros k' v' I. clear IH. induction s as [|x s IHs]; [destruct I|]. cbn in H.
    apply StronglySorted_inv in H. destruct H as [H1 H2].
    destruct I as [->|I]; [|auto]. rewrite Forall_forall in H2.
    specialize (H2 (k, v)). cbn in H2. apply H2. apply in_or_app. right. left. auto.
Qed.

Lemma import_export p : project_ok p -> import (export p) = p.
Proof.
  intros [O1 O2 O3 O4 O5]. unfold import, export. cbn [ex_models ex_rhythm ex_key ex_grid m_notes m_bars m_tempos m_dumpers m_softs].
  rewrite !bulk_add_fst. rewrite (notes_entries _ O1).
  rewrite (keyed_entries bar b_tick bar_entry bar_entry_eq _ O2).
  rewrite (keyed_entries tempo tp_tick tempo_entry tempo_entry_eq _ O3).
  rewrite (keyed_entries _ cc_tick ctrl_entry ctrl_entry_eq _ O4).
  rewrite (keyed_entries _ cc_tick ctrl_entry ctrl_entry_eq _ O5).
  rewrite !sorted_entries_import by (eapply keyed_srt; eauto).
  rewrite b_bulk_add_sorted_id by apply O1. destruct p; reflexivity.
Qed.

(** Loading sorts. *)
Lemma import_ok e : models_typed (ex_models e) -> project_ok (import e).
Proof.
  intros []. unfold import. constructor; cbn [pj_notes pj_bars pj_tempos pj_dumpers pj_softs]; rewrite ?bulk_add_fst.
  - apply notes_ok_add. split; [constructor|intros k n []].
  - apply keyed_add_all; auto. split; [constructor|intros k n []].
  - apply keyed_add_all; auto. split; [constructor|intros k n []].
  - apply keyed_add_all; auto. split; [constructor|intros k n []].
  - apply keyed_add_all; auto. split; [constructor|intros k n []].
Qed.

Lemma add_all_perm {V} (l : list (Z * V)) : forall s, NoDup (map fst l) -> (forall k, In k (map fst l) -> ~ In k (map fst s)) ->
  Permutation (add_all l s) (l ++ s).
Proof.
  assert (A : forall k (v : V) s, ~ In k (map fst s) -> Permutation (fst (s_add k v s)) ((k, v) :: s)).
  { intros k v. induction s as [|[a b] s IH]; intros N; cbn; auto. cbn in N.
    destruct (Z.eqb_spec k a); [subst; tauto|]. destruct (k <? a); cbn; auto.
    specialize (IH ltac:(tauto)). destruct (s_add k v s) as [t o]. cbn in *. rewrite IH. apply perm_swap. }
  induction l as [|[k v] l IH]; intros s N D; [cbn; auto|]. inv N.
  change (add_all ((k, v) :: l) s) with (add_all l (fst (s_add k v s))).
  assert (P : Permutation (fst (s_add k v s)) ((k, v) :: s)) by (apply A, D; left; auto).
  rewrite IH; auto.
  - rewrite P. symmetry. apply Permutation_middle.
  - intros k' I J. apply (Permutation_in _ (Permutation_map fst P)) in J. destruct J as [J|J]; [cbn in J; subst; auto|].
    apply (D k'); auto. right; auto.
Qed.

Lemma loaded_perm {V} (tick : V -> Z) (entry : V -> Z * V) l : (forall v, entry v = (tick v, v)) ->
  distinct_ticks tick l -> Permutation (map snd (fst (s_bulk_add (map entry l) []))) l.
Proof.
  intros E N. rewrite bulk_add_fst, add_all_perm.
  - rewrite app_nil_r, map_map. erewrite map_ext; [rewrite map_id; auto|]. intros v. rewrite E. auto.
  - rewrite (map_fst_entry V tick entry E). exact N.
  - cbn. tauto.
Qed.

Lemma export_import e : all_distinct (ex_models e) ->
  let e' := export (import e) in
  ex_rhythm e' = ex_rhythm e /\ ex_key e' = ex_key e /\ ex_grid e' = ex_grid e /\
  Permutation (m_notes (ex_models e')) (m_notes (ex_models e)) /\
  Permutation (m_bars (ex_models e')) (m_bars (ex_models e)) /\
  Permutation (m_tempos (ex_models e')) (m_tempos (ex_models e)) /\
  Permutation (m_dumpers (ex_models e')) (m_dumpers (ex_models e)) /\
  Permutation (m_softs (ex_models e')) (m_softs (ex_models e)).
Proof.
  intros []. cbn. do 3 (split; [reflexivity|]). split; [|split; [apply (loaded_perm b_tick); auto|split; [apply (loaded_perm tp_tick); auto|split; apply (loaded_perm cc_tick); auto]]].
  pose proof (Permutation_map snd (b_bulk_add_perm note (map note_entry (m_notes (ex_models e))) [])) as P.
  rewrite P, app_nil_r, map_map. cbn. rewrite map_id. auto.
Qed.

Lemma map_sorted {V} (tick : V -> Z) (R : Z -> Z -> Prop) (s : list (Z * V)) :
  StronglySorted (fun a b => R (fst a) (fst b)) s -> (forall k v, In (k, v) s -> k = tick v) ->
  StronglySorted (fun a b => R (tick a) (tick b)) (map snd s).
Proof.
  induction 1 as [|[k v] s H IH F]; intros K; cbn; constructor.
  - apply IH. intros k' v' I. apply K. right; auto.
  - apply Forall_forall. intros v' I. apply in_map_iff in I. destruct I as [[k' w] [E I]]. cbn in E. subst w.
    rewrite Forall_forall in F. pose proof (F _ I) as Q. cbn in Q.
    rewrite <- (K k v) by (left; auto). rewrite <- (K k' v') by (right; auto). auto.
Qed.

(** ** Enough bars after every edit *)
Lemma moves_fun e F A F' A' : moves e F A -> moves e F' A' -> F = F' /\ A = A'.
Proof.
  intros M M'. destruct M; inversion M'; subst; auto.
  match goal with H : tuplize ?l = Ret ?a, H' : tuplize ?l = Ret ?b |- _ => rewrite H in H'; apply ret_inj in H'; subst; auto end.
Qed.

Lemma edit_runs e p F A : moves e F A -> edit_run e p = Ret None \/ edit_run e p = runs F A (may_append e) p.
Proof.
  intros M. destruct M; cbn [edit_run may_append]; auto using add_note_runs, add_bar_runs, add_tempo_runs,
    add_dumper_runs, add_soft_runs, bulk_remove_runs, bulk_add_runs, change_runs.
  rewrite tuplize_runs. rewrite H. destruct (1 <? length l)%nat; auto.
Qed.

Lemma exchange_notes_in F A p k n : In (k, n) (pj_notes (exchange F A p)) ->
  (k = note_start_tick n /\ In n (m_notes A)) \/ In (k, n) (pj_notes p).
Proof.
  cbn. intros I. apply (Permutation_in _ (b_bulk_add_perm note _ _)) in I. apply in_app_or in I.
  destruct I as [I|I]; [|right; apply b_bulk_remove_sub in I; auto].
  apply in_map_iff in I. destruct I as [m [E I]]. inv E. auto.
Qed.

Lemma exchange_valid F A p : notes_valid p -> Forall note_valid (m_notes A) -> notes_valid (exchange F A p).
Proof.
  intros V W k n I. apply exchange_notes_in in I. destruct I as [[_ I]|I]; [|eauto].
  rewrite Forall_forall in W. auto.
Qed.

Lemma exchange_rhythms (P : rhythm -> Prop) F A p : all_rhythms P p ->
  (forall b r, In b (m_bars A) -> b_rhythm b = Some r -> P r) -> all_rhythms P (exchange F A p).
Proof.
  intros [H1 H2] H. split; auto. intros k b r I E. cbn in I. apply add_all_in in I. destruct I as [I|I].
  - apply in_map_iff in I. destruct I as [b' [Eb I]]. inv Eb. eauto.
  - apply remove_keys_in in I. eauto.
Qed.

Lemma exchange_ends F A p t : ends_at (exchange F A p) t -> ends_at p t \/ ends_in A t.
Proof.
  intros []; cbn in *.
  - apply exchange_notes_in in H. destruct H as [[-> I]|I].
    + right. apply in_note; auto.
    + left. eapply ends_note; eauto.
  - apply add_all_in in H. destruct H as [I|I].
    + right. apply in_map_iff in I. destruct I as [b [E I]]. inv E. apply in_tempo; auto.
    + left. apply remove_keys_in in I. eapply ends_tempo; eauto.
  - apply add_all_in in H. destruct H as [I|I].
    + right. apply in_map_iff in I. destruct I as [b [E I]]. inv E. apply in_dumper; auto.
    + left. apply remove_keys_in in I. eapply ends_dumper; eauto.
  - apply add_all_in in H. destruct H as [I|I].
    + right. apply in_map_iff in I. destruct I as [b [E I]]. inv E. apply in_soft; auto.
    + left. apply remove_keys_in in I. eapply ends_soft; eauto.
Qed.

Lemma runs_replenish F A p p' c : runs F A true p = Ret (Some (p', c)) ->
  exists more, replenish_bars (exchange F A p) = Ret (p', more).
Proof.
  unfold runs. intros E. apply bind_ret in E. destruct E as [[p2 more] [E1 E2]]. apply ret_inj in E2. inv E2. eauto.
Qed.

Lemma edit_covered e p p' c F A : project_ok p -> notes_valid p -> edit_typed e -> may_append e = true ->
  moves e F A -> Forall note_valid (m_notes A) ->
  edit_run e p = Ret (Some (p', c)) -> covered p'.
Proof.
  intros O V T Ap M W E. destruct (moves_typed _ _ _ M T) as [TF TA].
  destruct (edit_runs e p F A M) as [R|R]; rewrite R in E; [discriminate|]. rewrite Ap in E.
  apply runs_replenish in E. destruct E as [more E].
  eapply replenish_covered; [| |exact E]; [apply exchange_ok; auto|apply exchange_valid; auto].
Qed.

Lemma ends_same_but_bars p q t : same_but_bars p q -> ends_at p t -> ends_at q t.
Proof.
  intros [_ [_ [_ [H1 [H2 [H3 H4]]]]]] []; rewrite ?H1, ?H2, ?H3, ?H4 in *;
   [eapply ends_note|eapply ends_tempo|eapply ends_dumper|eapply ends_soft]; eauto.
Qed.

Lemma edit_appends e p p' c F A : project_ok p -> notes_valid p -> edit_typed e -> edit_wf e p ->
  may_append e = true -> moves e F A -> Forall note_valid (m_notes A) ->
  edit_run e p = Ret (Some (p', c)) ->
  exists q r n, exchanged p F A [] q /\ project_ok q /\ same_but_bars q p' /\
    rhythm_at q (last_tick q) = Ret r /\
    pj_bars p' = pj_bars q ++ map (fun b => (b_tick b, b)) (even_bars (last_tick q) (rhythm_tick_len r) n) /\
    (n = O \/ exists t, ends_at p' t /\ last_tick q + (Z.of_nat n - 1) * rhythm_tick_len r < t).
Proof.
  intros O V T Wf Ap M W E. destruct (moves_typed _ _ _ M T) as [TF TA]. destruct (moves_wf _ _ _ p M Wf) as [PF DA].
  destruct (edit_runs e p F A M) as [R|R]; rewrite R in E; [discriminate|]. rewrite Ap in E.
  apply runs_replenish in E. destruct E as [more E]. exists (exchange F A p).
  pose proof (exchange_ok F A p O TA) as O1.
  destruct (replenish_ret _ _ _ (ok_bars _ O1) E) as [ne [r [n [E1 [E2 [E3 [E4 [E5 E6]]]]]]]].
  exists r, n. split.
  { destruct (runs_exchanged F A false p (exchange F A p) (ModelChanged (with_bars A (m_bars A ++ [])) (recorded F A p)) O TA PF DA eq_refl)
      as [m [X [X1 _]]]. rewrite (X1 eq_refl) in X. exact X. }
  split; auto. split; [subst p'; repeat split; reflexivity|]. split; auto. split; [subst p' more; reflexivity|].
  destruct n as [|n]; [auto|]. right.
  destruct E6 as [E6|[L1 [L2 L3]]]; [discriminate|]. exists (content_end (exchange F A p) ne).
  pose proof (last_tick_range _ (ok_bars _ O1)) as U. unfold u32 in U.
  pose proof (content_end_spec _ ne O1 (exchange_valid F A p V W) (note_max_end_spec _ ne (ok_notes _ O1) (exchange_valid F A p V W) E1)) as [C1 [C2 C3]].
  split; auto. apply (ends_same_but_bars (exchange F A p)); [subst p'; repeat split; reflexivity|].
  destruct C3 as [C3|C3]; auto. nia.
Qed.

Lemma unrecorded : forall e p, edit_run e p = Ret None <-> exists l, e = ETuplize l /\ (length l <= 1)%nat.
Proof.
  intros e p. split.
  - intros E. destruct e; cbn [edit_run] in E; unfold set_rhythm, set_key, set_grid, by_cmd in E;
      rewrite ?add_note_runs, ?add_bar_runs, ?add_tempo_runs, ?add_dumper_runs, ?add_soft_runs,
        ?bulk_remove_runs, ?bulk_add_runs, ?change_runs in E; try discriminate;
      try (unfold runs in E; apply bind_ret in E; destruct E as [[? ?] [_ E]]; discriminate).
    exists l. split; auto. rewrite tuplize_runs in E. destruct (Nat.ltb_spec 1 (length l)); [|lia].
    apply bind_ret in E. destruct E as [t [_ E]]. unfold runs in E. apply bind_ret in E.
    destruct E as [[? ?] [_ E]]. discriminate.
  - intros [l [-> L]]. cbn [edit_run]. rewrite tuplize_runs. destruct (Nat.ltb_spec 1 (length l)); [lia|auto].
Qed.

Lemma edit_exact e p F A : project_ok p -> notes_valid p -> edit_typed e -> edit_wf e p ->
  moves e F A -> Forall note_valid (m_notes A) -> records e = true ->
  exists q r, exchanged p F A [] q /\ project_ok q /\ rhythm_at q (last_tick q) = Ret r /\
  (edit_run e p = Hang <-> may_append e = true /\
     rhythm_tick_len r = 0 /\ (exists t, ends_at q t /\ last_tick q < t) /\ forall t, ends_at q t -> t <= u32_max) /\
  (edit_run e p = Panic <-> may_append e = true /\ exists t, ends_at q t /\
     (u32_max < t \/
      last_tick q < t /\ 0 < rhythm_tick_len r /\
      forall k, 0 <= k -> t <= last_tick q + k * rhythm_tick_len r -> u32_max < last_tick q + k * rhythm_tick_len r)).
Proof.
  intros O V T Wf M W NN. destruct (moves_typed _ _ _ M T) as [TF TA]. destruct (moves_wf _ _ _ p M Wf) as [PF DA].
  destruct (edit_runs e p F A M) as [R|R].
  { apply unrecorded in R. destruct R as [l [-> L]]. cbn [records] in NN. apply Nat.ltb_lt in NN. lia. }
  pose proof (exchange_ok F A p O TA) as O1.
  destruct (replenish_exact _ O1 (exchange_valid F A p V W)) as [r [E1 [E2 E3]]].
  exists (exchange F A p), r. split.
  { destruct (runs_exchanged F A false p (exchange F A p) (ModelChanged (with_bars A (m_bars A ++ [])) (recorded F A p)) O TA PF DA eq_refl)
      as [m [X [X1 _]]]. rewrite (X1 eq_refl) in X. exact X. }
  split; auto. split; auto. rewrite R. unfold runs. destruct (may_append e); cbn [bind].
  - rewrite <- E2, <- E3. destruct (replenish_bars _) as [[a b]| |]; cbn [bind];
      split; (split; [intros X; try discriminate X; auto|intros [_ X]; try discriminate X; auto]).
  - split; split; try discriminate; intros [X _]; discriminate.
Qed.

Lemma edit_terminates e p F A : project_ok p -> notes_valid p -> valid_rhythms p -> edit_typed e -> moves e F A ->
  Forall note_valid (m_notes A) -> (forall b r, In b (m_bars A) -> b_rhythm b = Some r -> 1 <= rh_num r <= 255) ->
  edit_run e p <> Hang.
Proof.
  intros O V R T M W RA. destruct (moves_typed _ _ _ M T) as [TF TA].
  destruct (edit_runs e p F A M) as [->| ->]; [discriminate|]. unfold runs.
  pose proof (replenish_not_hang (exchange F A p) (exchange_ok F A p O TA) (exchange_valid F A p V W) (exchange_rhythms _ F A p R RA)) as NH.
  destruct (may_append e); cbn [bind]; [|discriminate].
  destruct (replenish_bars _) as [[a b]| |]; try discriminate. tauto.
Qed.

Lemma edit_returns e p F A : project_ok p -> notes_valid p -> valid_rhythms p -> edit_typed e -> moves e F A ->
  Forall note_valid (m_notes A) -> (forall b r, In b (m_bars A) -> b_rhythm b = Some r -> 1 <= rh_num r <= 255) ->
  (forall t, ends_at p t \/ ends_in A t -> t + 122400 <= u32_max + 1) ->
  exists o, edit_run e p = Ret o.
Proof.
  intros O V R T M W RA B. destruct (moves_typed _ _ _ M T) as [TF TA].
  destruct (edit_runs e p F A M) as [->| ->]; [eauto|]. unfold runs.
  pose proof (exchange_rhythms _ F A p R RA) as RX. pose proof (exchange_ok F A p O TA) as OX.
  destruct (may_append e); cbn [bind]; [|eauto].
  destruct (replenish_total (exchange F A p) OX (exchange_valid F A p V W) RX) as [q [more E]].
  - intros t r I Er. apply exchange_ends, B in I.
    destruct (rhythm_at_all _ _ (last_tick (exchange F A p)) (ok_bars _ OX) RX) as [r' [Er' Rr]].
    rewrite Er in Er'. apply ret_inj in Er'. subst r'. pose proof (rhythm_tick_len_range r ltac:(lia)). lia.
  - rewrite E. cbn. eauto.
Qed.

(** ** Recovery without well-formedness *)
Lemma edits_again es : forall h h', project_ok (h_model h) -> Forall edit_typed es ->
  hist_run h (map HEdit es) = Ret h' ->
  exists new, length new = length (filter records es) /\ h_limit h' = h_limit h /\
    firstn (h_limit h) (h_undo h') = firstn (h_limit h) (rev new ++ h_undo h) /\
    replay (h_model h) new = h_model h' /\ project_ok (h_model h').
Proof.
  induction es as [|e es IH]; intros h h' O T E; cbn [map hist_run] in E.
  - apply ret_inj in E. subst. exists []. cbn. split; auto.
  - inversion T as [|? ? T1 T2]; subst. apply bind_ret in E. destruct E as [h1 [E1 E2]]. cbn [hist_step] in E1.
    unfold history_edit in E1. apply bind_ret in E1. destruct E1 as [[[p c]|] [E0 E1]]; apply ret_inj in E1; subst h1.
    + destruct (edit_ok e _ _ _ O T1 E0) as [O1 _].
      match type of E2 with hist_run ?x _ = _ => destruct (IH x h' O1 T2 E2) as (new & L & LL & U & R & O') end. cbn [h_limit h_undo h_model] in *.
      exists (c :: new). assert (X : records e = true).
      { destruct e; auto. cbn [edit_run] in E0. rewrite tuplize_runs in E0. cbn [records]. destruct (1 <? length l)%nat; [reflexivity|discriminate]. }
      cbn [filter]. rewrite X. split; [cbn [length]; lia|]. split; [exact LL|]. split; [|split; [|exact O']].
      * rewrite U. cbn [rev]. rewrite <- app_assoc. cbn [app]. rewrite !firstn_app. f_equal.
        rewrite firstn_firstn. f_equal. lia.
      * cbn [replay fold_left]. rewrite (edit_again e _ _ _ O T1 E0). exact R.
    + destruct (IH h h' O T2 E2) as (new & L & LL & U & R & O'). exists new.
      assert (X : records e = false).
      { destruct e; cbn [edit_run] in E0; unfold set_rhythm, set_key, set_grid, by_cmd in E0;
          rewrite ?add_note_runs, ?add_bar_runs, ?add_tempo_runs, ?add_dumper_runs, ?add_soft_runs,
            ?bulk_remove_runs, ?bulk_add_runs, ?change_runs in E0; try discriminate;
          try (unfold runs in E0; apply bind_ret in E0; destruct E0 as [[? ?] [_ E0]]; discriminate).
        rewrite tuplize_runs in E0. cbn [records]. destruct (1 <? length l)%nat; [|reflexivity].
        apply bind_ret in E0. destruct E0 as [t [_ E0]]. unfold runs in E0. apply bind_ret in E0.
        destruct E0 as [[? ?] [_ E0]]. discriminate. }
      cbn [filter]. rewrite X. auto.
Qed.
