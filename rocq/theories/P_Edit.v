(** Lemmas about the edits of a project, undo and redo. *)
From Coq Require Import Sorted Permutation.
From Verif Require Import P_Base M_Scalar M_Bar M_Note M_Store M_Tuple M_Models M_Project S_Project P_Store P_Note P_Query P_Replenish.
Open Scope Z_scope.

(** ** Keyed stores *)
Section Keyed.
Variable V : Type.
Variable tick : V -> Z.
Variable entry : V -> Z * V.
Hypothesis entry_eq : forall v, entry v = (tick v, v).

Lemma map_fst_entry l : map fst (map entry l) = map tick l.
Proof. rewrite map_map. apply map_ext. intros v. rewrite entry_eq. auto. Qed.

Lemma in_entry k v l : In (k, v) (map entry l) <-> k = tick v /\ In v l.
Proof.
  rewrite in_map_iff. split.
  - intros [w [E I]]. rewrite entry_eq in E. inv E. auto.
  - intros [-> I]. exists v. rewrite entry_eq. auto.
Qed.

Lemma keyed_add k v s : keyed tick s -> k = tick v -> u32 k -> keyed tick (fst (s_add k v s)).
Proof.
  intros [H K] E U. split; [apply s_add_sorted; auto|].
  intros k' v' I. apply s_add_in in I. destruct I as [[-> ->]|I]; auto.
Qed.

Lemma keyed_remove ks s : keyed tick s -> keyed tick (remove_keys ks s).
Proof.
  intros [H K]. split; [apply remove_keys_sorted; auto|]. intros k v I. apply remove_keys_in in I. auto.
Qed.

Lemma keyed_add_all l s : keyed tick s -> Forall (fun v => u32 (tick v)) l -> keyed tick (add_all (map entry l) s).
Proof.
  intros [H K] F. split; [apply add_all_sorted; auto|]. intros k v I. apply add_all_in in I.
  destruct I as [I|I]; [|auto]. apply in_entry in I. destruct I as [-> I].
  rewrite Forall_forall in F. auto.
Qed.

Lemma keyed_entries s : keyed tick s -> map entry (map snd s) = s.
Proof.
  intros [_ K]. rewrite map_map. rewrite <- (map_id s) at 2. apply map_ext_in. intros [k v] I.
  rewrite entry_eq. cbn. apply K in I. destruct I as [-> _]. auto.
Qed.

Lemma sorted_entries_import s : srt V s -> add_all s [] = s.
Proof.
  intros H. apply (srt_ext V).
  - apply add_all_sorted. constructor.
  - auto.
  - intros k. rewrite add_all_get by constructor. cbn [get].
    destruct (get V k (rev s)) as [v|] eqn:E.
    + apply get_rev_in in E. symmetry. apply (get_In V _ _ s H); auto.
    + symmetry. apply get_none. apply get_rev_none in E. auto.
Qed.

(** Overwriting. *)
Lemma delta_overwritten A R s s' : srt V s -> srt V s' -> NoDup (map tick A) ->
  delta V (map entry A) R s s' ->
  overwritten tick s (map fst R) A s'.
Proof.
  intros H H' N D k v. rewrite <- (get_In V k v s' H'), (dl_get V _ _ _ _ D k).
  rewrite <- map_fst_entry in N.
  destruct (get V k (rev (map entry A))) as [w|] eqn:E.
  - pose proof (get_rev_in V _ _ _ E) as I. apply in_entry in I. destruct I as [-> I]. split.
    + intros Q. inv Q. left. auto.
    + intros [[I' Q]|[Q _]].
      * rewrite <- E. apply get_rev_nodup; auto. apply in_entry. auto.
      * exfalso. apply Q. apply in_map. auto.
  - apply get_rev_none in E. rewrite map_fst_entry in E.
    destruct (in_dec Z.eq_dec k (map fst R)) as [I|I].
    + split; [discriminate|]. intros [[I' ->]|[_ [Q _]]]; [|tauto]. exfalso. apply E. apply in_map. auto.
    + rewrite (get_In V k v s H). split; [auto|]. intros [[I' ->]|[_ [_ Q]]]; auto.
      exfalso. apply E. apply in_map. auto.
Qed.

End Keyed.

Lemma bar_entry_eq b : bar_entry b = (b_tick b, b). Proof. reflexivity. Qed.
Lemma tempo_entry_eq b : tempo_entry b = (tp_tick b, b). Proof. reflexivity. Qed.
Lemma ctrl_entry_eq b : ctrl_entry b = (cc_tick b, b). Proof. reflexivity. Qed.

(** ** Notes *)
Lemma notes_entries s : notes_ok s -> map note_entry (map snd s) = s.
Proof.
  intros [_ K]. rewrite map_map. rewrite <- (map_id s) at 2. apply map_ext_in. intros [k v] I.
  cbn. apply K in I. subst. auto.
Qed.

Lemma notes_ok_add l s : notes_ok s -> notes_ok (b_bulk_add (map note_entry l) s).
Proof.
  intros [H K]. split; [apply b_bulk_add_sorted; [exact note_eq_dec|auto]|]. intros k n I.
  apply (Permutation_in _ (b_bulk_add_perm note (map note_entry l) s)) in I. apply in_app_or in I.
  destruct I as [I|I]; auto. apply in_map_iff in I. destruct I as [m [E _]]. inv E. auto.
Qed.

Lemma notes_ok_remove l s : notes_ok s -> notes_ok (b_bulk_remove note_eq_dec (map note_entry l) s).
Proof.
  intros [H K]. split; [apply b_bulk_remove_sorted; auto|]. intros k n I.
  apply b_bulk_remove_sub in I. auto.
Qed.

(** Note lists that differ by an exchange. *)
Definition ndelta (A R : list note) (s s' : list (Z * note)) : Prop :=
  exists rest, Permutation s (map note_entry R ++ rest) /\ Permutation s' (map note_entry A ++ rest).

Lemma ndelta_run A R s : notes_ok s -> contains_notes (pj_set_notes project_default s) R ->
  ndelta A R s (b_bulk_add (map note_entry A) (b_bulk_remove note_eq_dec (map note_entry R) s)).
Proof.
  intros H [rest P]. cbn in P. apply (Permutation_map note_entry) in P. rewrite (notes_entries s H), map_app in P.
  exists (map note_entry rest). split; auto.
  etransitivity; [apply b_bulk_add_perm|]. apply Permutation_app_head. apply b_bulk_remove_perm; auto.
Qed.

Lemma contains_set p R : contains_notes (pj_set_notes project_default (pj_notes p)) R <-> contains_notes p R.
Proof. reflexivity. Qed.

Lemma ndelta_sym A R s s' : ndelta A R s s' -> ndelta R A s' s.
Proof. intros [r [H1 H2]]. exists r. auto. Qed.

Lemma ndelta_run_perm A R s s' t : ndelta A R s s' -> Permutation s t ->
  Permutation (b_bulk_add (map note_entry A) (b_bulk_remove note_eq_dec (map note_entry R) t)) s'.
Proof.
  intros [rest [H1 H2]] P. etransitivity; [apply b_bulk_add_perm|]. rewrite H2.
  apply Permutation_app_head. apply b_bulk_remove_perm. rewrite <- P. auto.
Qed.

Lemma ndelta_nil s : ndelta [] [] s s.
Proof. exists s. auto. Qed.

(** ** Steps *)
Record step (p : project) (A R : models) (p' : project) : Prop := mkStep {
  sp_rhythm : pj_rhythm p' = pj_rhythm p; sp_key : pj_key p' = pj_key p; sp_grid : pj_grid p' = pj_grid p;
  sp_notes : ndelta (m_notes A) (m_notes R) (pj_notes p) (pj_notes p');
  sp_bars : delta bar (map bar_entry (m_bars A)) (map bar_entry (m_bars R)) (pj_bars p) (pj_bars p');
  sp_tempos : delta tempo (map tempo_entry (m_tempos A)) (map tempo_entry (m_tempos R)) (pj_tempos p) (pj_tempos p');
  sp_dumpers : delta ctrl_chg (map ctrl_entry (m_dumpers A)) (map ctrl_entry (m_dumpers R)) (pj_dumpers p) (pj_dumpers p');
  sp_softs : delta ctrl_chg (map ctrl_entry (m_softs A)) (map ctrl_entry (m_softs R)) (pj_softs p) (pj_softs p');
}.

Lemma same_refl p : same_project p p.
Proof. constructor; auto. Qed.
Lemma same_sym p q : same_project p q -> same_project q p.
Proof. intros []; constructor; auto. symmetry; auto. Qed.
Lemma same_trans p q r : same_project p q -> same_project q r -> same_project p r.
Proof. intros [] []; constructor; try congruence. etransitivity; eauto. Qed.

Lemma exchange_cong A R p q : same_project p q -> same_project (exchange A R p) (exchange A R q).
Proof.
  intros []. constructor; cbn; try congruence. apply b_bulk_add_cong, b_bulk_remove_cong; auto.
Qed.

Lemma exchange_ok A R p : project_ok p -> models_typed R -> project_ok (exchange A R p).
Proof.
  intros [] []. constructor; cbn.
  - apply notes_ok_add, notes_ok_remove; auto.
  - apply keyed_add_all; auto. apply keyed_remove; auto.
  - apply keyed_add_all; auto. apply keyed_remove; auto.
  - apply keyed_add_all; auto. apply keyed_remove; auto.
  - apply keyed_add_all; auto. apply keyed_remove; auto.
Qed.

Lemma step_redo p A R p' : project_ok p -> project_ok p' -> step p A R p' -> same_project (exchange R A p) p'.
Proof.
  intros [] [] []. constructor; cbn; auto.
  - eapply ndelta_run_perm; eauto.
  - rewrite <- (map_fst_entry bar b_tick bar_entry bar_entry_eq). apply delta_redo; auto; eapply keyed_srt; eauto.
  - rewrite <- (map_fst_entry tempo tp_tick tempo_entry tempo_entry_eq). apply delta_redo; auto; eapply keyed_srt; eauto.
  - rewrite <- (map_fst_entry _ cc_tick ctrl_entry ctrl_entry_eq). apply delta_redo; auto; eapply keyed_srt; eauto.
  - rewrite <- (map_fst_entry _ cc_tick ctrl_entry ctrl_entry_eq). apply delta_redo; auto; eapply keyed_srt; eauto.
Qed.

Lemma step_undo p A R p' : project_ok p -> project_ok p' -> step p A R p' -> same_project (exchange A R p') p.
Proof.
  intros [] [] []. constructor; cbn; auto.
  - eapply ndelta_run_perm; eauto. apply ndelta_sym; eauto.
  - rewrite <- (map_fst_entry bar b_tick bar_entry bar_entry_eq). eapply delta_undo; eauto; eapply keyed_srt; eauto.
  - rewrite <- (map_fst_entry tempo tp_tick tempo_entry tempo_entry_eq). eapply delta_undo; eauto; eapply keyed_srt; eauto.
  - rewrite <- (map_fst_entry _ cc_tick ctrl_entry ctrl_entry_eq). eapply delta_undo; eauto; eapply keyed_srt; eauto.
  - rewrite <- (map_fst_entry _ cc_tick ctrl_entry ctrl_entry_eq). eapply delta_undo; eauto; eapply keyed_srt; eauto.
Qed.

(** What a recorded command did. *)
Inductive did : project -> cmd -> project -> Prop :=
| did_rhythm p r : did p (SetRhythm (pj_rhythm p) r) (pj_set_rhythm p r)
| did_key p r : did p (SetKey (pj_key p) r) (pj_set_key p r)
| did_grid p r : did p (SetGrid (pj_grid p) r) (pj_set_grid p r)
| did_model p A R p' : step p A R p' -> models_typed A -> models_typed R -> did p (ModelChanged A R) p'.

Lemma did_undo p c p' : project_ok p -> project_ok p' -> did p c p' -> same_project (cmd_undo c p') p.
Proof.
  intros H H' D. destruct D; cbn [cmd_undo].
  - constructor; cbn; auto.
  - constructor; cbn; auto.
  - constructor; cbn; auto.
  - apply step_undo; auto.
Qed.
Lemma did_redo p c p' : project_ok p -> project_ok p' -> did p c p' -> same_project (cmd_redo c p) p'.
Proof.
  intros H H' D. destruct D; cbn [cmd_redo].
  - constructor; cbn; auto.
  - constructor; cbn; auto.
  - constructor; cbn; auto.
  - apply step_redo; auto.
Qed.

Lemma cmd_undo_cong c p q : same_project p q -> same_project (cmd_undo c p) (cmd_undo c q).
Proof.
  intros H. destruct c; cbn [cmd_undo]; try (apply exchange_cong; auto); destruct H; constructor; cbn; auto.
Qed.
Lemma cmd_redo_cong c p q : same_project p q -> same_project (cmd_redo c p) (cmd_redo c q).
Proof.
  intros H. destruct c; cbn [cmd_redo]; try (apply exchange_cong; auto); destruct H; constructor; cbn; auto.
Qed.

Definition cmd_typed (c : cmd) : Prop :=
  match c with ModelChanged A R => models_typed A /\ models_typed R | _ => True end.
Lemma did_typed p c p' : did p c p' -> cmd_typed c.
Proof. destruct 1; cbn; auto. Qed.

Lemma set_settings_ok p : project_ok p ->
  (forall r, project_ok (pj_set_rhythm p r)) /\ (forall r, project_ok (pj_set_key p r)) /\ (forall r, project_ok (pj_set_grid p r)).
Proof. intros []. split; [|split]; intros; constructor; auto. Qed.

Lemma cmd_undo_ok c p : project_ok p -> cmd_typed c -> project_ok (cmd_undo c p).
Proof.
  intros H T. destruct (set_settings_ok p H) as [S1 [S2 S3]]. destruct c; cbn [cmd_undo]; auto.
  apply exchange_ok; auto. apply T.
Qed.
Lemma cmd_redo_ok c p : project_ok p -> cmd_typed c -> project_ok (cmd_redo c p).
Proof.
  intros H T. destruct (set_settings_ok p H) as [S1 [S2 S3]]. destruct c; cbn [cmd_redo]; auto.
  apply exchange_ok; auto. apply T.
Qed.

(** ** Replenishing after a step *)
Definition with_bars (m : models) (bs : list bar) : models :=
  mkModels (m_notes m) bs (m_tempos m) (m_dumpers m) (m_softs m).

Lemma replenish_add_all p1 more : keyed b_tick (pj_bars p1) ->
  (forall b, In b more -> last_tick p1 < b_tick b /\ u32 (b_tick b) /\ b_rhythm b = None /\ b_key b = None /\ b_marks b = 0) ->
  srt bar (map bar_entry more) ->
  keyed b_tick (pj_bars p1 ++ map bar_entry more) ->
  pj_bars p1 ++ map bar_entry more = add_all (map bar_entry more) (pj_bars p1).
Proof.
  intros O1 T S K. pose proof (keyed_srt _ _ O1) as S1.
  apply (srt_ext bar).
  - apply (keyed_srt _ _ K).
  - apply add_all_sorted; auto.
  - intros k. rewrite add_all_get by auto. rewrite get_app.
    destruct (get bar k (rev (map bar_entry more))) as [v|] eqn:G.
    + apply get_rev_in in G. pose proof G as I. apply in_map_iff in I. destruct I as [b [Eb I]]. inv Eb.
      apply T in I. destruct (get bar (b_tick v) (pj_bars p1)) eqn:G1.
      * apply get_in in G1. apply (last_tick_max p1 O1) in G1. lia.
      * apply (get_In bar _ _ _ S); auto.
    + apply get_rev_none, get_none in G. rewrite G. destruct (get bar k (pj_bars p1)); auto.
Qed.

Lemma step_more p A R p1 p2 more : project_ok p -> project_ok p1 -> step p A R p1 ->
  replenish_bars p1 = Ret (p2, more) ->
  step p (with_bars A (m_bars A ++ more)) R p2.
Proof.
  intros O O1 [] E. destruct (replenish_ok p1 p2 more (ok_bars _ O1) E) as [-> [K [T S]]].
  constructor; cbn; auto. rewrite map_app.
  pose proof (keyed_srt _ _ (ok_bars _ O)) as S0. pose proof (keyed_srt _ _ (ok_bars _ O1)) as S1.
  rewrite (replenish_add_all p1 more (ok_bars _ O1) T S K).
  apply delta_more; auto.
  intros k I. rewrite map_fst_entry with (tick := b_tick) in I by (intros; reflexivity).
  apply in_map_iff in I. destruct I as [b [<- I]].
  destruct (get bar (b_tick b) (pj_bars p1)) eqn:G; auto. apply get_in in G.
  apply (last_tick_max p1 (ok_bars _ O1)) in G. apply T in I. lia.
Qed.

Lemma replenish_project_ok p p' more : project_ok p -> replenish_bars p = Ret (p', more) -> project_ok p'.
Proof.
  intros O E. destruct (replenish_ok p p' more (ok_bars _ O) E) as [-> [K _]]. destruct O. constructor; auto.
Qed.

(** ** The edits, split into what they do at once and the replenishing. *)

Definition put (m : models) (p : project) : project :=
  mkProject (pj_rhythm p) (pj_key p) (pj_grid p)
    (b_bulk_add (map note_entry (m_notes m)) (pj_notes p))
    (add_all (map bar_entry (m_bars m)) (pj_bars p))
    (add_all (map tempo_entry (m_tempos m)) (pj_tempos p))
    (add_all (map ctrl_entry (m_dumpers m)) (pj_dumpers p))
    (add_all (map ctrl_entry (m_softs m)) (pj_softs p)).

Lemma change_keys {V} (tick : V -> Z) (l : list (V * V)) : map fst (change_entries tick l) = map tick (map fst l).
Proof. unfold change_entries. rewrite !map_map. auto. Qed.
Lemma change_new {V} (tick : V -> Z) entry (l : list (V * V)) : (forall v, entry v = (tick v, v)) ->
  map snd (change_entries tick l) = map entry (map snd l).
Proof. intros E. unfold change_entries. rewrite !map_map. apply map_ext. intros [a b]. rewrite E. auto. Qed.

(** A store after removing [F] and adding [A], and what was replaced. *)
Definition replaced {V} (tick : V -> Z) (F A : list V) (s : list (Z * V)) : list V :=
  map snd (snd (s_bulk_add (map (fun v => (tick v, v)) A) (remove_keys (map tick F) s))).

Lemma bulk_pair {V} (l : list (Z * V)) s : s_bulk_add l s = (add_all l s, snd (s_bulk_add l s)).
Proof. rewrite <- bulk_add_fst. destruct (s_bulk_add l s); auto. Qed.

Lemma add_pair {V} k (v : V) s : s_add k v s = (add_all [(k, v)] s, snd (s_add k v s)).
Proof. cbn. destruct (s_add k v s); auto. Qed.

Lemma remove_nil {V} (s : list (Z * V)) : remove_keys [] s = s.
Proof. reflexivity. Qed.

Lemma s_bulk_one {V} k (v : V) s : snd (s_bulk_add [(k, v)] s) = match snd (s_add k v s) with Some w => [(k, w)] | None => [] end.
Proof. cbn. destruct (s_add k v s) as [t [w|]]; auto. Qed.

(** Every edit of elements: exchange [F] for [A], replenish (or not), record. *)
Definition recorded (F A : models) (p : project) : models :=
  mkModels (m_notes F)
    (m_bars F ++ replaced b_tick (m_bars F) (m_bars A) (pj_bars p))
    (m_tempos F ++ replaced tp_tick (m_tempos F) (m_tempos A) (pj_tempos p))
    (m_dumpers F ++ replaced cc_tick (m_dumpers F) (m_dumpers A) (pj_dumpers p))
    (m_softs F ++ replaced cc_tick (m_softs F) (m_softs A) (pj_softs p)).

Definition runs (F A : models) (rep : bool) (p : project) : edited :=
  let! (p2, more) := if rep then replenish_bars (exchange F A p) else Ret (exchange F A p, []) in
  Ret (Some (p2, ModelChanged (with_bars A (m_bars A ++ more)) (recorded F A p))).

Lemma replaced_nil {V} tick (F : list V) s : replaced tick F [] s = [].
Proof. reflexivity. Qed.
Lemma replaced_one {V} (tick : V -> Z) (v : V) s : replaced tick [] [v] s = vec_of_option (snd (s_add (tick v) v s)).
Proof.
  unfold replaced. cbn [map]. rewrite remove_nil, s_bulk_one. destruct (snd (s_add (tick v) v s)); auto.
Qed.

Lemma add_note_runs p n : add_note p n = runs models_empty (mkModels [n] [] [] [] []) true p.
Proof. reflexivity. Qed.

Lemma add_bar_runs p b : add_bar p b = runs models_empty (mkModels [] [b] [] [] []) false p.
Proof.
  unfold add_bar, runs, recorded, exchange. rewrite (add_pair (b_tick b) b (pj_bars p)).
  cbn [bind with_bars m_notes m_bars m_tempos m_dumpers m_softs app models_empty].
  rewrite replaced_one. reflexivity.
Qed.
Lemma add_tempo_runs p b : add_tempo p b = runs models_empty (mkModels [] [] [b] [] []) true p.
Proof.
  unfold add_tempo, runs, recorded, exchange. rewrite (add_pair (tp_tick b) b (pj_tempos p)).
  cbn [bind with_bars m_notes m_bars m_tempos m_dumpers m_softs app models_empty].
  rewrite replaced_one. reflexivity.
Qed.
Lemma add_dumper_runs p b : add_dumper p b = runs models_empty (mkModels [] [] [] [b] []) true p.
Proof.
  unfold add_dumper, runs, recorded, exchange. rewrite (add_pair (cc_tick b) b (pj_dumpers p)).
  cbn [bind with_bars m_notes m_bars m_tempos m_dumpers m_softs app models_empty].
  rewrite replaced_one. reflexivity.
Qed.
Lemma add_soft_runs p b : add_soft p b = runs models_empty (mkModels [] [] [] [] [b]) true p.
Proof.
  unfold add_soft, runs, recorded, exchange. rewrite (add_pair (cc_tick b) b (pj_softs p)).
  cbn [bind with_bars m_notes m_bars m_tempos m_dumpers m_softs app models_empty].
  rewrite replaced_one. reflexivity.
Qed.
Lemma tuplize_runs p l : tuplize_notes p l =
  if (1 <? length l)%nat then let! t := tuplize l in runs (mkModels l [] [] [] []) (mkModels t [] [] [] []) true p
  else Ret None.
Proof. reflexivity. Qed.
Lemma bulk_remove_runs p m : bulk_remove p m = runs m models_empty false p.
Proof.
  unfold bulk_remove, runs, recorded, by_cmd. cbn [bind with_bars m_notes m_bars m_tempos m_dumpers m_softs models_empty app].
  rewrite !replaced_nil, !app_nil_r. destruct m. reflexivity.
Qed.
Lemma bulk_add_runs p m : bulk_add p m = runs models_empty m true p.
Proof.
  unfold bulk_add, runs, recorded, exchange.
  rewrite (bulk_pair (map bar_entry (m_bars m))), (bulk_pair (map tempo_entry (m_tempos m))),
    (bulk_pair (map ctrl_entry (m_dumpers m))), (bulk_pair (map ctrl_entry (m_softs m))). reflexivity.
Qed.

Lemma s_change_pair {V} (tick : V -> Z) (l : list (V * V)) s :
  s_change (change_entries tick l) s =
  (add_all (map (fun v => (tick v, v)) (map snd l)) (remove_keys (map tick (map fst l)) s),
   snd (s_bulk_add (map (fun v => (tick v, v)) (map snd l)) (remove_keys (map tick (map fst l)) s))).
Proof.
  unfold s_change. rewrite change_keys, (change_new tick (fun v => (tick v, v))) by auto.
  fold (@remove_keys V (map tick (map fst l)) s). apply bulk_pair.
Qed.

Lemma change_runs p c : change p c = runs (changes_from c) (changes_to c) true p.
Proof.
  unfold change, runs, recorded, exchange. rewrite !s_change_pair.
  unfold b_change. rewrite !map_map. cbn [fst snd].
  cbn [changes_from changes_to m_notes m_bars m_tempos m_dumpers m_softs].
  rewrite <- !(map_map snd note_entry), <- !(map_map fst note_entry), <- !(map_map fst b_tick),
    <- !(map_map fst tp_tick), <- !(map_map fst cc_tick), <- !(map_map snd (fun v => (b_tick v, v))),
    <- !(map_map snd (fun v => (tp_tick v, v))), <- !(map_map snd (fun v => (cc_tick v, v))).
  reflexivity.
Qed.

(** What is replaced was there. *)
Lemma s_add_old_in {V} k (v : V) s w : snd (s_add k v s) = Some w -> In (k, w) s.
Proof.
  induction s as [|[k' v'] s IH]; cbn; [discriminate|].
  destruct (Z.eqb_spec k k') as [<-|]; [intros E; inv E; auto|]. destruct (k <? k'); [discriminate|].
  destruct (s_add k v s); auto.
Qed.

Lemma bulk_old_in {V} (l : list (Z * V)) : forall s k v, In (k, v) (snd (s_bulk_add l s)) -> In (k, v) s \/ In (k, v) l.
Proof.
  induction l as [|[k0 v0] l IH]; intros s k v; cbn [s_bulk_add]; [cbn; tauto|].
  pose proof (s_add_in V k0 v0 s) as SI. pose proof (s_add_old_in k0 v0 s) as SO.
  destruct (s_add k0 v0 s) as [s1 o]. cbn [fst snd] in *. specialize (IH s1).
  destruct (s_bulk_add l s1) as [s2 r]. cbn [snd] in *.
  assert (G : In (k, v) r -> In (k, v) s \/ In (k, v) ((k0, v0) :: l)).
  { intros I. apply IH in I. destruct I as [I|I]; [|right; right; auto].
    apply SI in I. destruct I as [[-> ->]|I]; auto. right. left. auto. }
  destruct o as [w|]; auto. intros [E|I]; auto. inv E. left. apply SO. auto.
Qed.

Section Replaced.
Variable V : Type.
Variable tick : V -> Z.
Notation entry := (fun v => (tick v, v)).

Lemma replaced_entries F A s : keyed tick s ->
  map entry (replaced tick F A s) = snd (s_bulk_add (map entry A) (remove_keys (map tick F) s)).
Proof.
  intros K. unfold replaced. rewrite map_map. rewrite <- map_id. apply map_ext_in. intros [k v] I.
  apply bulk_old_in in I. destruct I as [I|I].
  - apply remove_keys_in in I. apply K in I. destruct I as [-> _]. auto.
  - apply in_map_iff in I. destruct I as [w [E _]]. inv E. auto.
Qed.

Lemma replaced_typed F A s : keyed tick s -> Forall (fun v => u32 (tick v)) A ->
  Forall (fun v => u32 (tick v)) (replaced tick F A s).
Proof.
  intros K T. apply Forall_forall. intros v I. unfold replaced in I. apply in_map_iff in I.
  destruct I as [[k w] [E I]]. cbn in E. subst w. apply bulk_old_in in I. destruct I as [I|I].
  - apply remove_keys_in in I. apply K in I. destruct I as [-> U]. auto.
  - apply in_map_iff in I. destruct I as [w [E I]]. inv E. rewrite Forall_forall in T. auto.
Qed.

Lemma replaced_delta F A s : keyed tick s -> contains_all tick s F -> distinct_ticks tick A ->
  delta V (map entry A) (map entry (F ++ replaced tick F A s)) s (add_all (map entry A) (remove_keys (map tick F) s)).
Proof.
  intros K C N. rewrite map_app, replaced_entries by auto. pose proof (keyed_srt _ _ K) as S.
  pose proof (delta_change V (map entry A) (map entry F) s S) as D.
  cbv zeta in D. rewrite bulk_add_fst in D. rewrite !(map_fst_entry V tick entry (fun v => eq_refl)) in D.
  apply D.
  - exact N.
  - intros k v I. apply (in_entry V tick entry (fun v => eq_refl)) in I. destruct I as [-> I].
    apply (get_In V _ _ s S), C, I.
Qed.
End Replaced.

Lemma exchange_step F A p : project_ok p -> all_present p F -> all_distinct A ->
  step p A (recorded F A p) (exchange F A p).
Proof.
  intros [] [] []. constructor; cbn; auto.
  - apply ndelta_run; auto.
  - apply (replaced_delta bar b_tick); auto.
  - apply (replaced_delta tempo tp_tick); auto.
  - apply (replaced_delta ctrl_chg cc_tick); auto.
  - apply (replaced_delta ctrl_chg cc_tick); auto.
Qed.

Lemma recorded_typed F A p : project_ok p -> models_typed F -> models_typed A -> models_typed (recorded F A p).
Proof.
  intros [] [] []. constructor; cbn; apply Forall_app; split; auto; apply replaced_typed; auto.
Qed.

Lemma runs_ok F A rep p p' c : project_ok p -> models_typed F -> models_typed A ->
  runs F A rep p = Ret (Some (p', c)) -> project_ok p' /\ cmd_typed c.
Proof.
  intros O TF TA E. unfold runs in E. apply bind_ret in E. destruct E as [[p2 more] [E1 E2]].
  apply ret_inj in E2. inv E2.
  pose proof (exchange_ok F A p O TA) as O1. pose proof (recorded_typed F A p O TF TA) as TR.
  destruct rep.
  - split; [eapply replenish_project_ok; eauto|]. cbn. split; auto. destruct TA. constructor; cbn; auto.
    apply Forall_app. split; auto. apply Forall_forall. intros b I.
    destruct (replenish_ok _ _ _ (ok_bars _ O1) E1) as [_ [_ [T _]]]. apply T in I. tauto.
  - apply ret_inj in E1. inv E1. split; auto. cbn. rewrite app_nil_r. destruct TA. split; auto. constructor; auto.
Qed.

Lemma runs_did F A rep p p' c : project_ok p -> models_typed F -> models_typed A ->
  all_present p F -> all_distinct A ->
  runs F A rep p = Ret (Some (p', c)) -> did p c p'.
Proof.
  intros O TF TA PF DA E. destruct (runs_ok _ _ _ _ _ _ O TF TA E) as [O' CT].
  pose proof (exchange_step F A p O PF DA) as ST. pose proof (exchange_ok F A p O TA) as O1.
  unfold runs in E. apply bind_ret in E. destruct E as [[p2 more] [E1 E2]].
  apply ret_inj in E2. inv E2. cbn in CT. constructor; try tauto. destruct rep.
  - eapply step_more; eauto.
  - apply ret_inj in E1. inv E1. rewrite app_nil_r. destruct A. exact ST.
Qed.

(** ** All edits *)
Lemma edit_cases e p p' c : edit_run e p = Ret (Some (p', c)) ->
  (exists r, e = ESetRhythm r /\ p' = pj_set_rhythm p r /\ c = SetRhythm (pj_rhythm p) r) \/
  (exists k, e = ESetKey k /\ p' = pj_set_key p k /\ c = SetKey (pj_key p) k) \/
  (exists g, e = ESetGrid g /\ p' = pj_set_grid p g /\ c = SetGrid (pj_grid p) g) \/
  (exists F A, moves e F A /\ runs F A (may_append e) p = Ret (Some (p', c))).
Proof.
  intros E. destruct e; cbn [edit_run may_append] in *.
  - left. unfold set_rhythm, by_cmd in E. apply ret_inj in E. inv E. exists r. auto.
  - right; left. unfold set_key, by_cmd in E. apply ret_inj in E. inv E. exists k. auto.
  - do 2 right; left. unfold set_grid, by_cmd in E. apply ret_inj in E. inv E. exists g. auto.
  - do 3 right. do 2 eexists. split; [constructor|]. rewrite <- add_note_runs; auto.
  - do 3 right. do 2 eexists. split; [constructor|]. rewrite <- add_bar_runs; auto.
  - do 3 right. do 2 eexists. split; [constructor|]. rewrite <- add_tempo_runs; auto.
  - do 3 right. do 2 eexists. split; [constructor|]. rewrite <- add_dumper_runs; auto.
  - do 3 right. do 2 eexists. split; [constructor|]. rewrite <- add_soft_runs; auto.
  - do 3 right. rewrite tuplize_runs in E. destruct (1 <? length l)%nat; [|discriminate].
    apply bind_ret in E. destruct E as [t [Et E]]. do 2 eexists. split; [constructor; eauto|]. auto.
  - do 3 right. do 2 eexists. split; [constructor|]. rewrite <- bulk_remove_runs; auto.
  - do 3 right. do 2 eexists. split; [constructor|]. rewrite <- bulk_add_runs; auto.
  - do 3 right. do 2 eexists. split; [constructor|]. rewrite <- change_runs; auto.
Qed.

Lemma typed_empty : models_typed models_empty.
Proof. constructor; constructor. Qed.
Lemma present_empty p : all_present p models_empty.
Proof. constructor; cbn; try (intros v []). exists (map snd (pj_notes p)). auto. Qed.
Lemma distinct_empty : all_distinct models_empty.
Proof. constructor; constructor. Qed.

Lemma moves_typed e F A : moves e F A -> edit_typed e -> models_typed F /\ models_typed A.
Proof.
  intros M T. destruct M; cbn in T; split; try apply typed_empty; try tauto;
    constructor; cbn; auto.
Qed.

Lemma moves_wf e F A p : moves e F A -> edit_wf e p -> all_present p F /\ all_distinct A.
Proof.
  intros M T. destruct M; cbn in T; split; try apply present_empty; try apply distinct_empty; try tauto;
    constructor; cbn; try (intros v []); auto; unfold distinct_ticks; cbn; repeat constructor; auto.
Qed.

Lemma edit_ok e p p' c : project_ok p -> edit_typed e -> edit_run e p = Ret (Some (p', c)) ->
  project_ok p' /\ cmd_typed c.
Proof.
  intros O T E. destruct (set_settings_ok p O) as [S1 [S2 S3]].
  apply edit_cases in E. destruct E as [[r [-> [-> ->]]]|[[k [-> [-> ->]]]|[[g [-> [-> ->]]]|[F [A [M E]]]]]];
    [split; [apply S1|exact I]|split; [apply S2|exact I]|split; [apply S3|exact I]|].
  destruct (moves_typed _ _ _ M T) as [TF TA]. exact (runs_ok _ _ _ _ _ _ O TF TA E).
Qed.

Lemma edit_did e p p' c : project_ok p -> edit_typed e -> edit_wf e p -> edit_run e p = Ret (Some (p', c)) ->
  did p c p'.
Proof.
  intros O T W E.
  apply edit_cases in E. destruct E as [[r [-> [-> ->]]]|[[k [-> [-> ->]]]|[[g [-> [-> ->]]]|[F [A [M E]]]]]];
    try constructor.
  destruct (moves_typed _ _ _ M T) as [TF TA], (moves_wf _ _ _ p M W) as [WF WA].
  exact (runs_did _ _ _ _ _ _ O TF TA WF WA E).
Qed.

(** ** Edits of equal projects *)
Lemma replenish_cong p q p' more : project_ok p -> project_ok q -> same_project p q ->
  replenish_bars p = Ret (p', more) -> exists q', replenish_bars q = Ret (q', more) /\ same_project p' q'.
Proof.
  intros Op Oq S E. rewrite (replenish_unfold p (ok_bars _ Op)) in E. rewrite (replenish_unfold q (ok_bars _ Oq)).
  apply bind_ret in E. destruct E as [ne [En E]].
  rewrite (max_end_perm p q ne (proj1 (ok_notes _ Op)) (proj1 (ok_notes _ Oq)) (same_notes _ _ S) En). cbn [bind].
  replace (content_end q ne) with (content_end p ne)
    by (unfold content_end; rewrite (same_tempos _ _ S), (same_dumpers _ _ S), (same_softs _ _ S); auto).
  replace (last_tick q) with (last_tick p) by (unfold last_tick; rewrite (same_bars _ _ S); auto).
  destruct (content_end p ne <=? last_tick p).
  - apply ret_inj in E. inv E. eauto.
  - apply bind_ret in E. destruct E as [r [Er E]].
    replace (rhythm_at q (last_tick p)) with (rhythm_at p (last_tick p))
      by (unfold rhythm_at; rewrite (same_bars _ _ S), (same_rhythm _ _ S); auto).
    rewrite Er. cbn [bind]. rewrite <- (same_bars _ _ S).
    apply bind_ret in E. destruct E as [[bars added] [El E]]. rewrite El. cbn [bind].
    apply ret_inj in E. inv E. eexists. split; [reflexivity|]. destruct S. constructor; cbn; auto.
Qed.

Lemma runs_cong F A rep p q p' c : project_ok p -> project_ok q -> models_typed A -> same_project p q ->
  runs F A rep p = Ret (Some (p', c)) -> exists q', runs F A rep q = Ret (Some (q', c)) /\ same_project p' q'.
Proof.
  intros Op Oq TA S E. unfold runs in *. apply bind_ret in E. destruct E as [[p2 more] [E1 E2]].
  apply ret_inj in E2. inv E2.
  assert (R : recorded F A p = recorded F A q) by (destruct S; unfold recorded; congruence).
  pose proof (exchange_cong F A p q S) as X. destruct rep.
  - destruct (replenish_cong _ (exchange F A q) _ _ (exchange_ok F A p Op TA) (exchange_ok F A q Oq TA) X E1) as [q' [E' S']].
    rewrite E'. cbn [bind]. rewrite <- R. eauto.
  - apply ret_inj in E1. inv E1. cbn [bind]. rewrite <- R. eauto.
Qed.

Lemma edit_cong e p q p' c : project_ok p -> project_ok q -> edit_typed e -> same_project p q ->
  edit_run e p = Ret (Some (p', c)) -> exists q', edit_run e q = Ret (Some (q', c)) /\ same_project p' q'.
Proof.
  intros Op Oq T S E. pose proof E as E0.
  apply edit_cases in E. destruct E as [[r [-> [-> ->]]]|[[k [-> [-> ->]]]|[[g [-> [-> ->]]]|[F [A [M E]]]]]].
  1-3: destruct S; cbn; unfold set_rhythm, set_key, set_grid, by_cmd;
       rewrite <- ?same_rhythm, <- ?same_key, <- ?same_grid; eexists; split; [reflexivity|]; constructor; cbn; auto.
  destruct (moves_typed _ _ _ M T) as [TF TA]. destruct (runs_cong _ _ _ p q _ _ Op Oq TA S E) as [q' [E' S']].
  exists q'. split; auto. destruct M; cbn [edit_run may_append] in *.
  - rewrite add_note_runs; auto.
  - rewrite add_bar_runs; auto.
  - rewrite add_tempo_runs; auto.
  - rewrite add_dumper_runs; auto.
  - rewrite add_soft_runs; auto.
  - rewrite tuplize_runs in *. destruct (1 <? length l)%nat; [|discriminate]. rewrite H. auto.
  - rewrite bulk_remove_runs; auto.
  - rewrite bulk_add_runs; auto.
  - rewrite change_runs; auto.
Qed.

Lemma edit_none e p q : edit_run e p = Ret None -> edit_run e q = Ret None.
Proof.
  intros E. destruct e; cbn [edit_run] in *; unfold set_rhythm, set_key, set_grid, by_cmd in *;
    rewrite ?add_note_runs, ?add_bar_runs, ?add_tempo_runs, ?add_dumper_runs, ?add_soft_runs,
      ?bulk_remove_runs, ?bulk_add_runs, ?change_runs in E; try discriminate;
    try (unfold runs in E; apply bind_ret in E; destruct E as [[? ?] [_ E]]; discriminate).
  rewrite tuplize_runs in *. destruct (1 <? length l)%nat; auto.
  apply bind_ret in E. destruct E as [t [_ E]]. unfold runs in E. apply bind_ret in E.
  destruct E as [[? ?] [_ E]]. discriminate.
Qed.

(** ** What the edits do *)
Lemma add_all_overwritten {V} (tick : V -> Z) F A s : srt V s -> distinct_ticks tick A ->
  overwritten tick s F A (add_all (map (fun v => (tick v, v)) A) (remove_keys F s)).
Proof.
  intros H N k v. pose proof (remove_keys_sorted V F s H) as H1.
  rewrite <- (get_In V k v _ (add_all_sorted V _ _ H1)), add_all_get by auto.
  rewrite remove_keys_get by auto. unfold distinct_ticks in N.
  assert (MF : map fst (map (fun v => (tick v, v)) A) = map tick A) by (rewrite map_map; auto).
  rewrite <- MF in N.
  destruct (get V k (rev (map (fun v => (tick v, v)) A))) as [w|] eqn:E.
  - pose proof (get_rev_in V _ _ _ E) as I. apply in_map_iff in I. destruct I as [w' [Q I]]. inv Q. split.
    + intros Q. inv Q. left. auto.
    + intros [[I' Q]|[Q _]].
      * rewrite <- E. rewrite Q. apply get_rev_nodup; auto. apply in_map_iff. eauto.
      * exfalso. apply Q. apply in_map. auto.
  - apply get_rev_none in E. rewrite MF in E.
    destruct (in_dec Z.eq_dec k F) as [I|I].
    + split; [discriminate|]. intros [[I' ->]|[_ [Q _]]]; [|tauto]. exfalso. apply E. apply in_map. auto.
    + rewrite (get_In V k v s H). split; [auto|]. intros [[I' ->]|[_ [_ Q]]]; auto.
      exfalso. apply E. apply in_map. auto.
Qed.

Lemma exchange_notes_perm F A p : notes_ok (pj_notes p) -> contains_notes p (m_notes F) ->
  Permutation (map snd (pj_notes (exchange F A p)) ++ m_notes F) (map snd (pj_notes p) ++ m_notes A).
Proof.
  intros H C. destruct (ndelta_run (m_notes A) (m_notes F) (pj_notes p) H C) as [rest [P1 P2]]. cbn.
  apply (Permutation_map snd) in P1, P2. rewrite map_app in P1, P2.
  rewrite map_map, map_id in P1, P2. rewrite P1, P2.
  rewrite <- !app_assoc. etransitivity; [apply Permutation_app_comm|].
  etransitivity; [|apply Permutation_app_comm]. rewrite <- !app_assoc. apply Permutation_app_head, Permutation_app_comm.
Qed.

Lemma add_all_key {V} (l : list (Z * V)) s k : srt V s -> In k (map fst l) -> exists v, In (k, v) (add_all l s).
Proof.
  intros H I. pose proof (add_all_get V l s k H) as G.
  destruct (get V k (rev l)) as [v|] eqn:E; [|apply get_rev_none in E; tauto].
  exists v. apply get_in. auto.
Qed.

Lemma runs_exchanged F A rep p p' c : project_ok p -> models_typed A -> all_present p F -> all_distinct A ->
  runs F A rep p = Ret (Some (p', c)) ->
  exists more, exchanged p F A more p' /\ (rep = false -> more = []) /\
    Forall (fun b => b_rhythm b = None /\ b_key b = None /\ b_marks b = 0 /\ forall k v, In (k, v) (pj_bars (exchange F A p)) -> k < b_tick b) more /\
    c = ModelChanged (with_bars A (m_bars A ++ more)) (recorded F A p).
Proof.
  intros O TA PF DA E. unfold runs in E. apply bind_ret in E. destruct E as [[p2 more] [E1 E2]].
  apply ret_inj in E2. injection E2 as <- <-. exists more.
  pose proof (exchange_ok F A p O TA) as O1.
  assert (X : rep = false -> more = []) by (intros ->; apply ret_inj in E1; inv E1; auto).
  assert (Y : p2 = pj_set_bars (exchange F A p) (pj_bars (exchange F A p) ++ map bar_entry more) /\
     (forall b, In b more -> last_tick (exchange F A p) < b_tick b /\ u32 (b_tick b) /\ b_rhythm b = None /\ b_key b = None /\ b_marks b = 0) /\
     srt bar (map bar_entry more) /\ keyed b_tick (pj_bars (exchange F A p) ++ map bar_entry more)).
  { destruct rep.
    - destruct (replenish_ok _ _ _ (ok_bars _ O1) E1) as [-> [K [T S]]]. auto.
    - apply ret_inj in E1. inv E1. cbn [map]. rewrite app_nil_r, pj_set_bars_id.
      split; auto. split; [intros b []|]. split; [constructor|apply (ok_bars _ O1)]. }
  destruct Y as [-> [T [S K]]]. split; [|split; auto].
  - constructor; cbn [pj_set_bars pj_rhythm pj_key pj_grid pj_notes pj_bars pj_tempos pj_dumpers pj_softs]; auto.
    + apply exchange_notes_perm; [apply (ok_notes _ O)|apply PF].
    + rewrite (replenish_add_all _ more (ok_bars _ O1) T S K). cbn [exchange pj_bars].
      rewrite <- add_all_app, <- map_app.
      apply add_all_overwritten; [apply (keyed_srt _ _ (ok_bars _ O))|].
      unfold distinct_ticks. rewrite map_app.
      assert (N2 : NoDup (map b_tick more)) by (apply srt_nodup in S; rewrite map_map in S; exact S).
      assert (N1 : NoDup (map b_tick (m_bars A))) by apply DA.
      assert (D : forall k, In k (map b_tick (m_bars A)) -> ~ In k (map b_tick more)).
      { intros k I J. apply in_map_iff in J. destruct J as [b [<- J]]. apply T in J.
        destruct (add_all_key (map bar_entry (m_bars A)) (remove_keys (map b_tick (m_bars F)) (pj_bars p)) (b_tick b)) as [v V].
        - apply remove_keys_sorted, (keyed_srt _ _ (ok_bars _ O)).
        - rewrite map_map. exact I.
        - apply (last_tick_max _ (ok_bars _ O1)) in V. lia. }
      clear - N1 N2 D. induction (map b_tick (m_bars A)) as [|k l IH]; cbn; auto.
      inv N1. constructor.
      * intros I. apply in_app_or in I. destruct I as [I|I]; auto. apply (D k); auto. left; auto.
      * apply IH; auto. intros k' I. apply D. right; auto.
    + apply add_all_overwritten; [apply (keyed_srt _ _ (ok_tempos _ O))|apply DA].
    + apply add_all_overwritten; [apply (keyed_srt _ _ (ok_dumpers _ O))|apply DA].
    + apply add_all_overwritten; [apply (keyed_srt _ _ (ok_softs _ O))|apply DA].
  - split; auto. apply Forall_forall. intros b I. apply T in I. destruct I as [I1 [I2 [I3 [I4 I5]]]].
    repeat split; auto. intros k v J. apply (last_tick_max _ (ok_bars _ O1)) in J. lia.
Qed.

(** ** Redoing a command where it was recorded *)
Lemma bulk_old_keys {V} (l : list (Z * V)) : forall s k, In k (map fst (snd (s_bulk_add l s))) -> In k (map fst l).
Proof.
  induction l as [|[k0 v0] l IH]; intros s k; cbn [s_bulk_add]; [cbn; tauto|].
  destruct (s_add k0 v0 s) as [s1 o]. specialize (IH s1 k). destruct (s_bulk_add l s1) as [s2 r]. cbn [snd] in *.
  destruct o as [w|]; cbn [map fst In]; tauto.
Qed.

Lemma replaced_again {V} (tick : V -> Z) F A s : keyed tick s ->
  add_all (map (fun v => (tick v, v)) A) (remove_keys (map tick (F ++ replaced tick F A s)) s) =
  add_all (map (fun v => (tick v, v)) A) (remove_keys (map tick F) s).
Proof.
  intros K. pose proof (keyed_srt _ _ K) as S.
  apply (srt_ext V); try (apply add_all_sorted, remove_keys_sorted; exact S).
  intros k. rewrite !add_all_get by (apply remove_keys_sorted; exact S). rewrite !remove_keys_get by exact S.
  destruct (get V k (rev (map (fun v => (tick v, v)) A))) eqn:G; auto. apply get_rev_none in G.
  rewrite map_app. destruct (in_dec Z.eq_dec k (map tick F)) as [I|I], (in_dec Z.eq_dec k (map tick F ++ map tick (replaced tick F A s))) as [J|J]; auto.
  - destruct J. apply in_or_app. auto.
  - apply in_app_or in J. destruct J as [J|J]; [tauto|].
    rewrite <- (map_fst_entry V tick (fun v => (tick v, v)) (fun v => eq_refl)), replaced_entries in J by exact K.
    apply bulk_old_keys in J. tauto.
Qed.

Lemma runs_again F A rep p p' c : project_ok p -> models_typed A ->
  runs F A rep p = Ret (Some (p', c)) -> cmd_redo c p = p'.
Proof.
  intros O TA E. pose proof (exchange_ok F A p O TA) as O1.
  unfold runs in E. apply bind_ret in E. destruct E as [[p2 more] [E1 E2]]. apply ret_inj in E2. inv E2.
  pose proof (replaced_again b_tick (m_bars F) (m_bars A) _ (ok_bars _ O)) as B.
  pose proof (replaced_again tp_tick (m_tempos F) (m_tempos A) _ (ok_tempos _ O)) as T.
  pose proof (replaced_again cc_tick (m_dumpers F) (m_dumpers A) _ (ok_dumpers _ O)) as D.
  pose proof (replaced_again cc_tick (m_softs F) (m_softs A) _ (ok_softs _ O)) as S.
  assert (X : p' = pj_set_bars (exchange F A p) (add_all (map bar_entry more) (pj_bars (exchange F A p)))).
  { destruct rep.
    - destruct (replenish_ok _ _ _ (ok_bars _ O1) E1) as [-> [K [TT SS]]].
      rewrite (replenish_add_all _ more (ok_bars _ O1) TT SS K). reflexivity.
    - apply ret_inj in E1. inv E1. reflexivity. }
  rewrite X. unfold cmd_redo, exchange, pj_set_bars, with_bars, recorded.
  cbn [m_notes m_bars m_tempos m_dumpers m_softs pj_rhythm pj_key pj_grid pj_notes pj_bars pj_tempos pj_dumpers pj_softs].
  change bar_entry with (fun v => (b_tick v, v)) in *. change tempo_entry with (fun v => (tp_tick v, v)) in *.
  change ctrl_entry with (fun v => (cc_tick v, v)) in *.
  rewrite map_app, add_all_app, B, T, D, S. reflexivity.
Qed.

Lemma edit_again e p p' c : project_ok p -> edit_typed e -> edit_run e p = Ret (Some (p', c)) -> cmd_redo c p = p'.
Proof.
  intros O T E. apply edit_cases in E. destruct E as [[r [-> [-> ->]]]|[[k [-> [-> ->]]]|[[g [-> [-> ->]]]|[F [A [M E]]]]]];
    [reflexivity|reflexivity|reflexivity|].
  destruct (moves_typed _ _ _ M T) as [TF TA]. exact (runs_again _ _ _ _ _ _ O TA E).
Qed.

(** ** What the edits do, whatever they are given *)
Lemma get_rev_last {V} (tick : V -> Z) (A : list V) k v :
  get V k (rev (map (fun v => (tick v, v)) A)) = Some v <-> last_with tick A k v.
Proof.
  induction A as [|x A IH] using rev_ind.
  - cbn. split; [discriminate|]. intros [_ (a & b & E & _)]. destruct a; discriminate.
  - rewrite map_app, rev_app_distr. cbn [map rev app get]. destruct (Z.eqb_spec k (tick x)) as [->|N].
    + split.
      * intros [= <-]. split; auto. exists A, []. auto.
      * intros [T (a & b & E & D)]. destruct b as [|y b] using rev_ind.
        -- apply app_inj_tail in E. destruct E as [_ ->]. auto.
        -- clear IHb. rewrite app_comm_cons, app_assoc in E. apply app_inj_tail in E. destruct E as [_ ->].
           exfalso. apply D. rewrite map_app, in_app_iff. right. left. auto.
    + rewrite IH. split; intros [T (a & b & E & D)]; (split; [exact T|]).
      * exists a, (b ++ [x]). rewrite E, <- app_assoc. split; auto. rewrite map_app, in_app_iff. intros [I|[I|[]]]; auto.
      * destruct b as [|y b] using rev_ind.
        -- apply app_inj_tail in E. destruct E as [_ ->]. congruence.
        -- clear IHb. rewrite app_comm_cons, app_assoc in E. apply app_inj_tail in E. destruct E as [-> ->].
           exists a, b. split; auto. intros I. apply D. rewrite map_app, in_app_iff. auto.
Qed.

Lemma add_all_written {V} (tick : V -> Z) F A s : srt V s ->
  written_over tick s F A (add_all (map (fun v => (tick v, v)) A) (remove_keys F s)).
Proof.
  intros H k v. pose proof (remove_keys_sorted V F s H) as H1.
  rewrite <- (get_In V k v _ (add_all_sorted V _ _ H1)), add_all_get by auto.
  rewrite remove_keys_get by auto.
  assert (MF : map fst (map (fun v => (tick v, v)) A) = map tick A) by (rewrite map_map; auto).
  destruct (get V k (rev (map (fun v => (tick v, v)) A))) as [w|] eqn:E.
  - pose proof E as E'. apply get_rev_last in E'. rewrite <- E, get_rev_last.
    split; auto. intros [L|[N _]]; auto. exfalso. apply N. rewrite <- MF. apply get_rev_in in E.
    apply (in_map fst) in E. exact E.
  - pose proof E as E'. apply get_rev_none in E'. rewrite MF in E'.
    assert (NL : ~ last_with tick A k v) by (rewrite <- get_rev_last, E; discriminate).
    destruct (in_dec Z.eq_dec k F) as [I|I].
    + split; [discriminate|]. tauto.
    + rewrite (get_In V k v s H). tauto.
Qed.

Lemma count_perm (l l' : list note) n : Permutation l l' -> count_occ note_eq_dec l n = count_occ note_eq_dec l' n.
Proof. intros P. revert n. apply Permutation_count_occ. exact P. Qed.

Lemma remove_count F : forall s n, notes_ok s ->
  count_occ note_eq_dec (map snd (b_bulk_remove note_eq_dec (map note_entry F) s)) n =
  (count_occ note_eq_dec (map snd s) n - count_occ note_eq_dec F n)%nat.
Proof.
  induction F as [|x F IH]; intros s n H; [cbn; lia|].
  change (b_bulk_remove note_eq_dec (map note_entry (x :: F)) s)
    with (b_bulk_remove note_eq_dec (map note_entry F) (b_remove note_eq_dec (note_start_tick x) x s)).
  assert (H' : notes_ok (b_remove note_eq_dec (note_start_tick x) x s)).
  { destruct H as [H1 H2]. split; [apply b_remove_sorted; auto|]. intros k m I. apply b_remove_sub in I. auto. }
  rewrite IH by auto.
  assert (C : count_occ note_eq_dec (map snd (b_remove note_eq_dec (note_start_tick x) x s)) n =
    (count_occ note_eq_dec (map snd s) n - if note_eq_dec x n then 1 else 0)%nat).
  { destruct (in_dec (pair_eq_dec note note_eq_dec) (note_start_tick x, x) s) as [I|I].
    - pose proof (b_remove_perm note note_eq_dec _ _ _ I) as P. apply (Permutation_map snd) in P. cbn [map snd] in P.
      rewrite (count_perm _ _ n P). cbn [count_occ]. destruct (note_eq_dec x n); lia.
    - rewrite b_remove_absent by auto. destruct (note_eq_dec x n) as [<-|N]; [|lia].
      assert (Z0 : count_occ note_eq_dec (map snd s) x = 0%nat); [|lia].
      apply count_occ_not_In. intros J. apply in_map_iff in J. destruct J as [[k m] [E J]]. cbn in E. subst m.
      apply I. destruct H as [_ H]. rewrite <- (H _ _ J). exact J. }
  rewrite C. cbn [count_occ]. destruct (note_eq_dec x n); lia.
Qed.

Lemma runs_rewritten F A rep p p' c : project_ok p -> models_typed A ->
  runs F A rep p = Ret (Some (p', c)) ->
  exists more, rewritten p F A more p' /\ (rep = false -> more = []) /\
    Forall (fun b => b_rhythm b = None /\ b_key b = None /\ b_marks b = 0 /\ forall k v, In (k, v) (pj_bars (exchange F A p)) -> k < b_tick b) more /\
    NoDup (map b_tick more).
Proof.
  intros O TA E. unfold runs in E. apply bind_ret in E. destruct E as [[p2 more] [E1 E2]].
  apply ret_inj in E2. injection E2 as <- <-. exists more.
  pose proof (exchange_ok F A p O TA) as O1.
  assert (X : rep = false -> more = []) by (intros ->; apply ret_inj in E1; inv E1; auto).
  assert (Y : p2 = pj_set_bars (exchange F A p) (pj_bars (exchange F A p) ++ map bar_entry more) /\
     (forall b, In b more -> last_tick (exchange F A p) < b_tick b /\ u32 (b_tick b) /\ b_rhythm b = None /\ b_key b = None /\ b_marks b = 0) /\
     srt bar (map bar_entry more) /\ keyed b_tick (pj_bars (exchange F A p) ++ map bar_entry more)).
  { destruct rep.
    - destruct (replenish_ok _ _ _ (ok_bars _ O1) E1) as [-> [K [T S]]]. auto.
    - apply ret_inj in E1. inv E1. cbn [map]. rewrite app_nil_r, pj_set_bars_id.
      split; auto. split; [intros b []|]. split; [constructor|apply (ok_bars _ O1)]. }
  destruct Y as [-> [T [S K]]]. split; [|split; auto].
  - constructor; cbn [pj_set_bars pj_rhythm pj_key pj_grid pj_notes pj_bars pj_tempos pj_dumpers pj_softs]; auto.
    + intro n. cbn [exchange pj_notes]. unfold how_many.
      pose proof (Permutation_map snd (b_bulk_add_perm note (map note_entry (m_notes A))
        (b_bulk_remove note_eq_dec (map note_entry (m_notes F)) (pj_notes p)))) as P.
      rewrite (count_perm _ _ n P), map_app, count_occ_app, remove_count by apply (ok_notes _ O).
      rewrite map_map. cbn [note_entry snd]. rewrite map_id. lia.
    + rewrite (replenish_add_all _ more (ok_bars _ O1) T S K). cbn [exchange pj_bars].
      rewrite <- add_all_app, <- map_app. apply add_all_written. apply (keyed_srt _ _ (ok_bars _ O)).
    + apply add_all_written, (keyed_srt _ _ (ok_tempos _ O)).
    + apply add_all_written, (keyed_srt _ _ (ok_dumpers _ O)).
    + apply add_all_written, (keyed_srt _ _ (ok_softs _ O)).
  - split; [|apply srt_nodup in S; rewrite map_map in S; exact S].
    apply Forall_forall. intros b I. apply T in I. destruct I as [I1 [I2 [I3 [I4 I5]]]].
    repeat split; auto. intros k v J. apply (last_tick_max _ (ok_bars _ O1)) in J. lia.
Qed.
