(** Property theorems about adding elements together or one after the other: C73. *)
From Coq Require Import ZArith List Bool Lia Sorted Permutation.
From Verif Require Import Base M_Pitch M_Duration M_Percent M_Scalar M_Bar M_Note M_Store M_Tuple M_Models M_Project.
From Verif Require Import S_Project S_Score S_Effect P_Base P_Store P_Query P_Replenish P_Edit P_History P_Effect P_Together.
From Verif Require T_Project.
Import ListNotations.
Open Scope Z_scope.

Lemma runs_added m p p' : (exists c, runs models_empty m true p = Ret (Some (p', c))) <->
  exists more, replenish_bars (add_in m p) = Ret (p', more).
Proof.
  rewrite runs_add. split.
  - intros (c & E). apply bind_ret in E. destruct E as ([p2 more] & E & E2). apply ret_inj in E2. inversion E2; subst. eauto.
  - intros (more & ->). cbn. eauto.
Qed.

Lemma both_typed m m' : models_typed m -> models_typed m' -> models_typed (m_both m m').
Proof. intros [A B C D] [A' B' C' D']. constructor; cbn; apply Forall_app; auto. Qed.

(** * C73 *)

(** Adding a selection and then another one, without bars, is adding both at once: one returns exactly if
    the other does, and then with exactly the same project. *)
Theorem C73_together : forall p m m' p', project_ok p -> notes_valid p -> models_typed m -> models_typed m' ->
  Forall note_valid (m_notes m) -> Forall note_valid (m_notes m') -> m_bars m' = [] ->
  (edits_done p [EBulkAdd m; EBulkAdd m'] p' <-> edits_done p [EBulkAdd (m_both m m')] p').
Proof.
  intros p m m' p' O V T T' N N' B.
  assert (D1 : forall q e q', edits_done q [e] q' <-> exists c, edit_run e q = Ret (Some (q', c))).
  { intros q e q'. split.
    - intros D. inversion D; subst. match goal with H : edits_done _ [] _ |- _ => inversion H; subst end. eauto.
    - intros (c & E). econstructor; [exact E|constructor]. }
  rewrite D1. cbn [edit_run]. rewrite (bulk_add_runs p (m_both m m')), runs_added, add_in_both.
  rewrite (replenish_between m' (add_in m p)); auto; [|apply exchange_ok; auto|apply add_valid; auto].
  split.
  - intros D. inversion D as [|? ? c p1 ? ? E D2]; subst. apply D1 in D2. cbn [edit_run] in *. rewrite bulk_add_runs in E, D2.
    apply runs_added in D2. destruct D2 as (more2 & D2).
    assert (exists c, runs models_empty m true p = Ret (Some (p1, c))) as R by eauto. apply runs_added in R. destruct R as (more1 & R).
    exists p1, more1, more2. auto.
  - intros (y' & more1 & more2 & R1 & R2).
    assert (exists more, replenish_bars (add_in m p) = Ret (y', more)) as R by eauto. apply runs_added in R. destruct R as (c & R).
    apply (done_cons p _ c y'); [cbn [edit_run]; rewrite bulk_add_runs; exact R|]. apply D1. cbn [edit_run]. rewrite bulk_add_runs.
    apply runs_added. eauto.
Qed.
Print Assumptions C73_together.

Lemma adds_one_run e a p : adds_one e = Some a -> edit_run e p = edit_run (EBulkAdd a) p.
Proof.
  intros E. cbn [edit_run]. rewrite bulk_add_runs. destruct e; try discriminate; injection E as <-; cbn [edit_run].
  - apply add_note_runs.
  - apply add_tempo_runs.
  - apply add_dumper_runs.
  - apply add_soft_runs.
Qed.

Definition adding (e : edit) : Prop :=
  exists a, adds_one e = Some a /\ models_typed a /\ Forall note_valid (m_notes a).

Lemma all_added_ok es : Forall adding es -> models_typed (all_added es) /\ Forall note_valid (m_notes (all_added es)) /\ m_bars (all_added es) = [].
Proof.
  induction 1 as [|e es (a & E & T & N) _ (IT & IN & IB)]; [split; [apply typed_empty|split; [constructor|reflexivity]]|].
  cbn [all_added fold_right]. rewrite E. fold (all_added es). split; [apply both_typed; auto|].
  split; [cbn; apply Forall_app; auto|]. cbn. rewrite IB. destruct e; try discriminate; injection E as <-; reflexivity.
Qed.

Lemma done_same p e e' es p' : (forall q, edit_run e q = edit_run e' q) -> edits_done p (e :: es) p' <-> edits_done p (e' :: es) p'.
Proof. intros H. split; intros D; inversion D; subst; econstructor; eauto; [rewrite <- H|rewrite H]; eauto. Qed.

Lemma bulk_valid m p p' c : project_ok p -> notes_valid p -> models_typed m -> Forall note_valid (m_notes m) ->
  edit_run (EBulkAdd m) p = Ret (Some (p', c)) -> notes_valid p'.
Proof.
  intros O V T N E. cbn [edit_run] in E. rewrite bulk_add_runs in E.
  assert (exists c, runs models_empty m true p = Ret (Some (p', c))) as R by eauto. apply runs_added in R. destruct R as (more & R).
  destruct (replenish_ok _ _ _ (ok_bars _ (exchange_ok models_empty m p O T)) R) as (-> & _). exact (add_valid m p V N).
Qed.

(** Adding notes, tempos and pedal events one after the other is adding all of them at once. *)
Theorem C73_one_by_one : forall es p p', project_ok p -> notes_valid p -> Forall adding es -> es <> [] ->
  (edits_done p es p' <-> edits_done p [EBulkAdd (all_added es)] p').
Proof.
  induction es as [|e es IH]; intros p p' O V F NE; [congruence|]. clear NE.
  inversion F as [|? ? (a & E & T & N) F']; subst. cbn [all_added fold_right]. rewrite E. fold (all_added es).
  rewrite (done_same p e (EBulkAdd a)) by (intros q; apply adds_one_run; exact E).
  destruct es as [|e' es].
  { assert (m_both a (all_added []) = a) as -> by (destruct a; unfold m_both; cbn; rewrite !app_nil_r; reflexivity). reflexivity. }
  destruct (all_added_ok _ F') as (T' & N' & B').
  rewrite <- C73_together by auto. split; intros D; inversion D as [|? ? c p1 ? ? E1 D1]; subst.
  - econstructor; [exact E1|]. apply IH; auto; [| |discriminate].
    + apply (edit_ok (EBulkAdd a) p p1 c O T E1).
    + exact (bulk_valid a p p1 c O V T N E1).
  - econstructor; [exact E1|]. apply IH in D1; auto; [| |discriminate].
    + apply (edit_ok (EBulkAdd a) p p1 c O T E1).
    + exact (bulk_valid a p p1 c O V T N E1).
Qed.
Print Assumptions C73_one_by_one.

Lemma added_app es es' : all_added (es ++ es') = m_both (all_added es) (all_added es').
Proof.
  induction es as [|e es IH]; cbn [app all_added fold_right].
  - fold (all_added es'). destruct (all_added es'). reflexivity.
  - fold (all_added (es ++ es')). fold (all_added es). rewrite IH. destruct (adds_one e); [|reflexivity].
    unfold m_both. cbn. rewrite !app_assoc. reflexivity.
Qed.

Lemma added_as_edits m : m_bars m = [] -> all_added (as_edits m) = m.
Proof.
  intros B. unfold as_edits. rewrite !added_app.
  assert (forall l, all_added (map EAddNote l) = mkModels l [] [] [] []) as ->.
  { induction l as [|x l IH]; [reflexivity|]. cbn [map all_added fold_right adds_one]. fold (all_added (map EAddNote l)). rewrite IH. reflexivity. }
  assert (forall l, all_added (map EAddTempo l) = mkModels [] [] l [] []) as ->.
  { induction l as [|x l IH]; [reflexivity|]. cbn [map all_added fold_right adds_one]. fold (all_added (map EAddTempo l)). rewrite IH. reflexivity. }
  assert (forall l, all_added (map EAddDumper l) = mkModels [] [] [] l []) as ->.
  { induction l as [|x l IH]; [reflexivity|]. cbn [map all_added fold_right adds_one]. fold (all_added (map EAddDumper l)). rewrite IH. reflexivity. }
  assert (forall l, all_added (map EAddSoft l) = mkModels [] [] [] [] l) as ->.
  { induction l as [|x l IH]; [reflexivity|]. cbn [map all_added fold_right adds_one]. fold (all_added (map EAddSoft l)). rewrite IH. reflexivity. }
  destruct m as [n b t d s]. cbn in *. subst b. unfold m_both. cbn. rewrite !app_nil_r. reflexivity.
Qed.

(** Pasting a selection without bars is adding its elements one by one. *)
Theorem C73_selection : forall m p p', project_ok p -> notes_valid p -> models_typed m -> Forall note_valid (m_notes m) ->
  m_bars m = [] -> as_edits m <> [] ->
  (edits_done p [EBulkAdd m] p' <-> edits_done p (as_edits m) p').
Proof.
  intros m p p' O V [_ TT TD TS] N B NE. assert (F : Forall adding (as_edits m)).
  { unfold as_edits. rewrite !Forall_app, !Forall_map. split; [|split; [|split]];
      [revert N|revert TT|revert TD|revert TS]; apply Forall_impl; intros x X; eexists; (split; [reflexivity|]);
      (split; [constructor; cbn; auto|cbn; auto]). }
  rewrite (C73_one_by_one (as_edits m)) by assumption.
  rewrite added_as_edits by exact B. reflexivity.
Qed.
Print Assumptions C73_selection.

Lemma added_perm es es' : Permutation es es' ->
  Permutation (m_notes (all_added es)) (m_notes (all_added es')) /\ Permutation (m_bars (all_added es)) (m_bars (all_added es')) /\
  Permutation (m_tempos (all_added es)) (m_tempos (all_added es')) /\
  Permutation (m_dumpers (all_added es)) (m_dumpers (all_added es')) /\ Permutation (m_softs (all_added es)) (m_softs (all_added es')).
Proof.
  assert (X : forall A (l l' r : list A), Permutation (l ++ l' ++ r) (l' ++ l ++ r)).
  { intros A l l' r. rewrite !app_assoc. apply Permutation_app_tail, Permutation_app_comm. }
  induction 1 as [|e es es' _ IH|e e' es|es es' es'' _ IH1 _ IH2].
  - repeat split; constructor.
  - cbn [all_added fold_right]. fold (all_added es). fold (all_added es'). destruct (adds_one e); [|exact IH]. cbn.
    destruct IH as (A & B & C & D & E). repeat split; apply Permutation_app_head; assumption.
  - cbn [all_added fold_right]. fold (all_added es). destruct (adds_one e), (adds_one e'); cbn; repeat split; try reflexivity; apply X.
  - destruct IH1 as (A & B & C & D & E), IH2 as (A' & B' & C' & D' & E'). repeat split; etransitivity; eauto.
Qed.

Lemma add_all_perm {V} (tick : V -> Z) l l' s : srt V s -> distinct_ticks tick l -> Permutation l l' ->
  add_all (map (fun v => (tick v, v)) l) s = add_all (map (fun v => (tick v, v)) l') s.
Proof.
  intros S D P. apply (srt_ext V); try (apply add_all_sorted; exact S). intros k.
  assert (D' : distinct_ticks tick l') by (unfold distinct_ticks; eapply Permutation_NoDup; [apply Permutation_map; exact P|exact D]).
  assert (G : forall l0, distinct_ticks tick l0 -> forall v, last_with tick l0 k v <-> In v l0 /\ tick v = k).
  { intros l0 D0 v. split.
    - intros (E & a & b & -> & _). split; [apply in_app_iff; right; left; reflexivity|exact E].
    - intros (I & E). split; [exact E|]. apply in_split in I. destruct I as (a & b & ->). exists a, b. split; [reflexivity|].
      unfold distinct_ticks in D0. rewrite map_app in D0. cbn in D0. apply NoDup_remove_2 in D0. rewrite in_app_iff in D0. subst k. tauto. }
  pose proof (add_all_written tick [] l s S k) as W. pose proof (add_all_written tick [] l' s S k) as W'.
  change (remove_keys [] s) with s in *.
  assert (IFF : forall v, get V k (add_all (map (fun v => (tick v, v)) l) s) = Some v <-> get V k (add_all (map (fun v => (tick v, v)) l') s) = Some v).
  { intros v. rewrite !(get_In V) by (apply add_all_sorted; exact S). rewrite W, W', !G by auto.
    assert (In v l <-> In v l') as -> by (split; apply Permutation_in; [|symmetry]; exact P).
    assert (In k (map tick l) <-> In k (map tick l')) as -> by (split; apply Permutation_in; [|symmetry]; apply Permutation_map; exact P).
    reflexivity. }
  destruct (get V k (add_all (map (fun v => (tick v, v)) l) s)) as [v|] eqn:E; [symmetry; apply IFF; reflexivity|].
  destruct (get V k (add_all (map (fun v => (tick v, v)) l') s)) as [v|] eqn:E'; [|reflexivity].
  pose proof (proj2 (IFF v) eq_refl) as C. discriminate C.
Qed.

(** In which order notes, tempos and pedal events are added does not matter, as long as no two tempos (damper
    events, soft events) are at the same tick: in any order they give the same project, bars included. *)
Theorem C73_order : forall es es' p p', project_ok p -> notes_valid p -> Forall adding es -> all_distinct (all_added es) ->
  Permutation es es' -> edits_done p es p' -> exists p'', edits_done p es' p'' /\ same_project p' p''.
Proof.
  intros es es' p p' O V F D P E. destruct es as [|e es].
  { apply Permutation_nil in P. subst. exists p'. split; [exact E|apply same_refl]. }
  assert (NE' : es' <> []) by (intros ->; apply Permutation_sym, Permutation_nil in P; discriminate).
  assert (F' : Forall adding es').
  { apply Forall_forall. intros x I. rewrite Forall_forall in F. apply F. eapply Permutation_in; [symmetry; exact P|exact I]. }
  apply C73_one_by_one in E; auto; [|discriminate].
  destruct (all_added_ok _ F) as (T & N & B). destruct (all_added_ok _ F') as (T' & N' & B').
  destruct (added_perm _ _ P) as (P1 & _ & P3 & P4 & P5).
  set (m := all_added (e :: es)) in *. set (m' := all_added es') in *.
  assert (S : same_project (add_in m p) (add_in m' p)).
  { constructor; try reflexivity; cbn [add_in exchange pj_notes pj_bars pj_tempos pj_dumpers pj_softs models_empty m_notes m_bars m_tempos m_dumpers m_softs map].
    - unfold b_bulk_remove. cbn [fold_left]. etransitivity; [apply b_bulk_add_perm|]. etransitivity; [|symmetry; apply b_bulk_add_perm].
      apply Permutation_app_tail, Permutation_map. exact P1.
    - rewrite B, B'. reflexivity.
    - apply (add_all_perm tp_tick); [apply (keyed_srt _ _ (ok_tempos _ O))|apply D|exact P3].
    - apply (add_all_perm cc_tick); [apply (keyed_srt _ _ (ok_dumpers _ O))|apply D|exact P4].
    - apply (add_all_perm cc_tick); [apply (keyed_srt _ _ (ok_softs _ O))|apply D|exact P5]. }
  inversion E as [|? ? c p1 ? ? E1 E2]; subst. inversion E2; subst. cbn [edit_run] in E1. rewrite bulk_add_runs in E1.
  assert (exists c, runs models_empty m true p = Ret (Some (p', c))) as R by eauto. apply runs_added in R. destruct R as (more & R).
  destruct (replenish_cong _ _ _ _ (exchange_ok models_empty m p O T) (exchange_ok models_empty m' p O T') S R) as (q' & R' & S').
  exists q'. split; [|exact S']. apply C73_one_by_one; auto.
  assert (exists c, runs models_empty m' true p = Ret (Some (q', c))) as (c' & R2) by (apply runs_added; eauto).
  econstructor; [cbn [edit_run]; rewrite bulk_add_runs; exact R2|constructor].
Qed.
Print Assumptions C73_order.

(** With bars it does matter: a bar put in after a note was added does not move the bars that were appended
    for the note. *)
Theorem C73_bars_refuted : exists p n b p1 p2, project_ok p /\ notes_valid p /\ valid_rhythms p /\ note_valid n /\
  edits_done p [EAddNote n; EAddBar b] p1 /\ edits_done p [EAddBar b; EAddNote n] p2 /\ ~ same_project p1 p2 /\
  map fst (pj_bars p1) = [960; 1920; 2000; 2640; 3360] /\ map fst (pj_bars p2) = [960; 1920; 2000; 2720; 3440].
Proof.
  exists T_Project.ex_project, (T_Project.ex_note 3000 SC), (mkBar 2000 None None 0). do 2 eexists.
  split; [exact T_Project.ex_project_ok|]. split; [exact T_Project.ex_project_valid|]. split; [exact T_Project.ex_project_rhythms|].
  split; [apply T_Project.ex_note_valid|].
  split; [econstructor; [vm_compute; reflexivity|]; econstructor; [vm_compute; reflexivity|]; constructor|].
  split; [econstructor; [vm_compute; reflexivity|]; econstructor; [vm_compute; reflexivity|]; constructor|].
  split; [|split; reflexivity]. intros S. apply same_bars in S. discriminate S.
Qed.
Print Assumptions C73_bars_refuted.

(** Taking out a selection and then another one is taking out both at once. *)
Theorem C73_removal : forall p m m' p',
  edits_done p [EBulkRemove m; EBulkRemove m'] p' <-> edits_done p [EBulkRemove (m_both m m')] p'.
Proof.
  intros p m m' p'.
  assert (D1 : forall q k q', edits_done q [EBulkRemove k] q' <-> q' = exchange k models_empty q).
  { intros q k q'. split.
    - intros D. inversion D as [|? ? c q1 ? ? E E2]; subst. inversion E2; subst. cbn [edit_run] in E. rewrite bulk_remove_runs in E.
      apply ret_inj in E. inversion E. reflexivity.
    - intros ->. econstructor; [cbn [edit_run]; rewrite bulk_remove_runs; reflexivity|constructor]. }
  rewrite D1.
  assert (exchange (m_both m m') models_empty p = exchange m' models_empty (exchange m models_empty p)) as ->.
  { unfold exchange, m_both. cbn [m_notes m_bars m_tempos m_dumpers m_softs pj_notes pj_bars pj_tempos pj_dumpers pj_softs pj_rhythm pj_key pj_grid models_empty map].
    unfold add_all, b_bulk_add, remove_keys, b_bulk_remove. cbn [fold_left]. rewrite !map_app, !fold_left_app. reflexivity. }
  split.
  - intros D. inversion D as [|? ? c p1 ? ? E E2]; subst. apply D1 in E2.
    assert (edits_done p [EBulkRemove m] p1) as E1 by (econstructor; [exact E|constructor]). apply D1 in E1. subst. reflexivity.
  - intros ->. econstructor; [cbn [edit_run]; rewrite bulk_remove_runs; reflexivity|]. apply D1. reflexivity.
Qed.
Print Assumptions C73_removal.

Lemma done_runs F A p p' : (exists c, runs F A true p = Ret (Some (p', c))) <-> edits_done p [EBulkRemove F; EBulkAdd A] p'.
Proof.
  assert (X : exchange F A p = add_in A (exchange F models_empty p)) by reflexivity.
  unfold runs. rewrite X. split.
  - intros (c & E). apply bind_ret in E. destruct E as ([p2 more] & E & E2). apply ret_inj in E2. inversion E2; subst.
    econstructor; [cbn [edit_run]; rewrite bulk_remove_runs; reflexivity|].
    destruct (proj2 (runs_added A (exchange F models_empty p) p') (ex_intro _ more E)) as (c' & R).
    econstructor; [cbn [edit_run]; rewrite bulk_add_runs; exact R|constructor].
  - intros D. inversion D as [|? ? c p1 ? ? E D2]; subst. inversion D2 as [|? ? c2 p2 ? ? E2 D3]; subst. inversion D3; subst.
    cbn [edit_run] in *. rewrite bulk_remove_runs in E. rewrite bulk_add_runs in E2. apply ret_inj in E. inversion E; subst.
    destruct (proj1 (runs_added A _ p') (ex_intro _ c2 E2)) as (more & ->). cbn. eauto.
Qed.

(** A change is taking out what is changed and adding what it is changed to; making a tuplet of at least two
    notes is taking them out and adding the notes of the tuplet. *)
Theorem C73_change : forall p c p',
  edits_done p [EChange c] p' <-> edits_done p [EBulkRemove (changes_from c); EBulkAdd (changes_to c)] p'.
Proof.
  intros p c p'. rewrite <- done_runs. split.
  - intros D. inversion D as [|? ? k p1 ? ? E D2]; subst. inversion D2; subst. cbn [edit_run] in E. rewrite change_runs in E. eauto.
  - intros (k & E). econstructor; [cbn [edit_run]; rewrite change_runs; exact E|constructor].
Qed.
Print Assumptions C73_change.

Theorem C73_tuplet : forall p l p', (2 <= length l)%nat ->
  (edits_done p [ETuplize l] p' <-> exists t, tuplize l = Ret t /\
     edits_done p [EBulkRemove (mkModels l [] [] [] []); EBulkAdd (mkModels t [] [] [] [])] p').
Proof.
  intros p l p' L. assert (Q : (1 <? length l)%nat = true) by (apply Nat.ltb_lt; lia). split.
  - intros D. inversion D as [|? ? k p1 ? ? E D2]; subst. inversion D2; subst. cbn [edit_run] in E. rewrite tuplize_runs, Q in E.
    apply bind_ret in E. destruct E as (t & Et & E). exists t. split; [exact Et|]. apply done_runs. eauto.
  - intros (t & Et & D). apply done_runs in D. destruct D as (k & E). econstructor; [|constructor].
    cbn [edit_run]. rewrite tuplize_runs, Q, Et. cbn [bind]. exact E.
Qed.
Print Assumptions C73_tuplet.

(** Adding elements at free ticks and taking them out again leaves at most blank bars behind the others. *)
Theorem C73_and_back : forall p m p', project_ok p -> models_typed m -> all_distinct m ->
  (forall x, In x (m_bars m) -> ~ In (b_tick x) (map fst (pj_bars p))) ->
  (forall x, In x (m_tempos m) -> ~ In (tp_tick x) (map fst (pj_tempos p))) ->
  (forall x, In x (m_dumpers m) -> ~ In (cc_tick x) (map fst (pj_dumpers p))) ->
  (forall x, In x (m_softs m) -> ~ In (cc_tick x) (map fst (pj_softs p))) ->
  edits_done p [EBulkAdd m; EBulkRemove m] p' ->
  exists more, Forall (fun b => b_rhythm b = None /\ b_key b = None /\ b_marks b = 0 /\ last_tick p < b_tick b) more /\
    same_project p' (pj_set_bars p (pj_bars p ++ map (fun b => (b_tick b, b)) more)).
Proof.
  intros p m p' O T D NB NT ND NS E.
  inversion E as [|? ? c p1 ? ? E1 E2]; subst. inversion E2 as [|? ? c2 p2 ? ? E3 E4]; subst. inversion E4; subst. clear E E2 E4.
  cbn [edit_run] in E1, E3. rewrite bulk_add_runs in E1. rewrite bulk_remove_runs in E3. apply ret_inj in E3. inversion E3; subst. clear E3.
  destruct (proj1 (runs_added m p p1) (ex_intro _ c E1)) as (more & R).
  pose proof (exchange_ok models_empty m p O T) as O1.
  destruct (replenish_ok _ _ _ (ok_bars _ O1) R) as (-> & K & TM & SM). exists more.
  assert (LT : last_tick p <= last_tick (add_in m p)).
  { unfold last_tick at 1. destruct (pj_bars p) as [|x s] eqn:EP; [exact (proj1 (last_tick_range _ (ok_bars _ O1)))|].
    destruct (last s x) as [k b] eqn:EL. cbn [fst].
    destruct (add_keeps b_tick (m_bars m) (pj_bars p) k b (keyed_srt _ _ (ok_bars _ O))) as (w & W).
    { rewrite EP, <- EL. apply last_In. }
    exact (last_tick_max _ (ok_bars _ O1) k w W). }
  split.
  { apply Forall_forall. intros b I. destruct (TM b I) as (Q1 & _ & Q2 & Q3 & Q4). split; [exact Q2|]. split; [exact Q3|]. split; [exact Q4|]. unfold add_in in LT. lia. }
  assert (G : forall V (tick : V -> Z) (l : list V) (s : list (Z * V)), srt V s -> distinct_ticks tick l ->
     (forall x, In x l -> ~ In (tick x) (map fst s)) ->
     remove_keys (map tick l) (add_all (map (fun v => (tick v, v)) l) s) = s).
  { intros V tick l s S DT N. apply (srt_ext V); [apply remove_keys_sorted, add_all_sorted; exact S|exact S|]. intros k.
    rewrite remove_keys_get by (apply add_all_sorted; exact S). destruct (in_dec Z.eq_dec k (map tick l)) as [I|I].
    - symmetry. apply in_map_iff in I. destruct I as (x & <- & I). apply N in I.
      destruct (get V (tick x) s) as [v|] eqn:EG; [|reflexivity]. exfalso. apply I. apply (get_In V) in EG; [|exact S].
      exact (in_map fst _ _ EG).
    - rewrite add_all_get by exact S. destruct (get V k (rev (map (fun v => (tick v, v)) l))) as [v|] eqn:EG; [|reflexivity].
      exfalso. apply I. apply get_rev_in in EG. apply (in_map fst) in EG. rewrite map_map in EG. exact EG. }
  constructor; cbn [pj_set_bars exchange pj_rhythm pj_key pj_grid pj_notes pj_bars pj_tempos pj_dumpers pj_softs models_empty m_notes m_bars m_tempos m_dumpers m_softs map]; try reflexivity.
  - change (b_bulk_add [] ?s) with s. apply b_bulk_remove_perm. unfold b_bulk_remove. cbn [fold_left]. apply b_bulk_add_perm.
  - change (add_all [] ?s) with s. pose proof (keyed_srt _ _ (ok_bars _ O)) as S.
    apply (srt_ext bar); [apply remove_keys_sorted, (keyed_srt _ _ K)| |].
    + apply srt_app; [exact S|exact SM|]. intros [k v] x I J. apply in_map_iff in J. destruct J as (b & <- & J). apply TM in J.
      apply (last_tick_max p (ok_bars _ O)) in I. cbn. unfold add_in in LT. lia.
    + intros k. rewrite remove_keys_get by apply (keyed_srt _ _ K). rewrite !get_app.
      destruct (in_dec Z.eq_dec k (map b_tick (m_bars m))) as [I|I].
      * apply in_map_iff in I. destruct I as (x & <- & I). pose proof (NB x I) as NI.
        destruct (get bar (b_tick x) (pj_bars p)) as [v|] eqn:EG.
        { exfalso. apply NI. apply (get_In bar) in EG; [|exact S]. exact (in_map fst _ _ EG). }
        destruct (get bar (b_tick x) (map (fun b => (b_tick b, b)) more)) as [v|] eqn:EM; [|reflexivity]. exfalso.
        apply (get_In bar) in EM; [|exact SM]. apply in_map_iff in EM. destruct EM as (b & Eb & J). inversion Eb; subst. apply TM in J.
        destruct (add_all_key (map bar_entry (m_bars m)) (pj_bars p) (b_tick x) S) as (w & W).
        { rewrite map_map. cbn [bar_entry fst]. apply in_map. exact I. }
        pose proof (last_tick_max _ (ok_bars _ O1) (b_tick x) w W). lia.
      * assert (get bar k (add_all (map bar_entry (m_bars m)) (pj_bars p)) = get bar k (pj_bars p)) as EG.
        { rewrite add_all_get by exact S. destruct (get bar k (rev (map bar_entry (m_bars m)))) as [v|] eqn:Q; [|reflexivity].
          exfalso. apply I. apply get_rev_in in Q. apply (in_map fst) in Q. rewrite map_map in Q. exact Q. }
        change (add_all (map bar_entry (m_bars m)) (remove_keys [] (pj_bars p))) with (add_all (map bar_entry (m_bars m)) (pj_bars p)).
        rewrite EG. reflexivity.
  - apply (G tempo tp_tick); [apply (keyed_srt _ _ (ok_tempos _ O))|apply D|exact NT].
  - apply (G ctrl_chg cc_tick); [apply (keyed_srt _ _ (ok_dumpers _ O))|apply D|exact ND].
  - apply (G ctrl_chg cc_tick); [apply (keyed_srt _ _ (ok_softs _ O))|apply D|exact NS].
Qed.
Print Assumptions C73_and_back.

Definition ex_adds : list edit :=
  [EAddNote (T_Project.ex_note 3000 SC); EAddTempo (mkTempo 5000 90); EAddNote (T_Project.ex_note 10 SC); EAddDumper (mkCtrl 480 3 0)].

Example C73_case : let p := T_Project.ex_project in let m := all_added ex_adds in
  project_ok p /\ notes_valid p /\ Forall adding ex_adds /\ all_distinct m /\
  models_typed m /\ Forall note_valid (m_notes m) /\ m_bars m = [] /\ length (as_edits m) = 4%nat /\
  exists p1 p2 p3, edits_done p ex_adds p1 /\ edits_done p (rev ex_adds) p2 /\ edits_done p [EBulkAdd m] p3 /\
    p3 = p1 /\ map fst (pj_bars p1) = [960; 1920; 2640; 3360; 4080; 4800; 5520] /\ pj_bars p2 = pj_bars p1.
Proof.
  cbv zeta. split; [exact T_Project.ex_project_ok|]. split; [exact T_Project.ex_project_valid|].
  assert (F : Forall adding ex_adds).
  { repeat constructor; eexists; (split; [reflexivity|]); (split; [constructor; repeat constructor; cbn; unfold u32_max; lia|]);
      repeat constructor; apply T_Project.ex_note_valid. }
  split; [exact F|]. split.
  { constructor; unfold distinct_ticks; cbn; repeat constructor; cbn; lia. }
  destruct (all_added_ok _ F) as (T & N & B). split; [exact T|]. split; [exact N|]. split; [exact B|]. split; [reflexivity|].
  do 3 eexists. split; [unfold ex_adds; do 4 (econstructor; [vm_compute; reflexivity|]); constructor|].
  split; [unfold ex_adds; cbn [rev app]; do 4 (econstructor; [vm_compute; reflexivity|]); constructor|].
  split; [econstructor; [vm_compute; reflexivity|]; constructor|].
  split; [reflexivity|]. split; reflexivity.
Qed.

(** Two selections taken out, a change and a tuplet, each in two ways; a selection added and taken out again. *)
Example C73_other_cases : let p := T_Project.ex_project in
  let a := mkModels [T_Project.ex_note 0 SC] [] [mkTempo 960 140] [] [] in
  let b := mkModels [] [mkBar 960 None None 0] [] [mkCtrl 480 127 0] [] in
  let c := mkModels [T_Project.ex_note 3000 SC] [mkBar 2000 None None 0] [mkTempo 70 90] [mkCtrl 5 1 0] [mkCtrl 6 1 0] in
  let l := [T_Project.ex_note 0 SC; T_Project.ex_note 480 SE] in
  models_typed c /\ all_distinct c /\
  (forall x, In x (m_bars c) -> ~ In (b_tick x) (map fst (pj_bars p))) /\
  (forall x, In x (m_tempos c) -> ~ In (tp_tick x) (map fst (pj_tempos p))) /\
  (forall x, In x (m_dumpers c) -> ~ In (cc_tick x) (map fst (pj_dumpers p))) /\
  (forall x, In x (m_softs c) -> ~ In (cc_tick x) (map fst (pj_softs p))) /\
  (exists q, edits_done p [EBulkAdd c; EBulkRemove c] q /\ map fst (pj_bars q) = [960; 1920; 2720; 3440]) /\
  (exists q, edits_done p [EBulkRemove a; EBulkRemove b] q /\ map fst (pj_bars q) = [1920] /\ map fst (pj_tempos q) = [0]) /\
  (exists q, edits_done p [EChange T_Project.ex_change] q) /\
  (exists q, edits_done p [ETuplize l] q /\ length (pj_notes q) = 4%nat).
Proof.
  cbv zeta.
  split; [constructor; cbn [m_notes m_bars m_tempos m_dumpers m_softs]; repeat constructor; cbn; unfold u32_max; lia|].
  split; [constructor; unfold distinct_ticks; cbn; repeat constructor; cbn; lia|].
  split; [intros x I; cbn in I; destruct I as [<-|[]]; cbn; lia|]. split; [intros x I; cbn in I; destruct I as [<-|[]]; cbn; lia|].
  split; [intros x I; cbn in I; destruct I as [<-|[]]; cbn; lia|]. split; [intros x I; cbn in I; destruct I as [<-|[]]; cbn; lia|].
  split; [eexists; split; [do 2 (econstructor; [vm_compute; reflexivity|]); constructor|reflexivity]|].
  split; [eexists; split; [do 2 (econstructor; [vm_compute; reflexivity|]); constructor|split; reflexivity]|].
  split; [eexists; (econstructor; [vm_compute; reflexivity|]); constructor|].
  eexists; split; [(econstructor; [vm_compute; reflexivity|]); constructor|reflexivity].
Qed.
