(** Lemmas about undoing edits that are given anything. *)
From Coq Require Import Sorted Permutation.
From Verif Require Import P_Base M_Scalar M_Bar M_Note M_Store M_Tuple M_Models M_Project S_Project P_Store P_Query P_Replenish P_Edit P_History.
Open Scope Z_scope.

Section Back.
Variable V : Type.
Variable tick : V -> Z.
Notation entry := (fun v => (tick v, v)).

Lemma last_with_snoc l x k v : last_with tick (l ++ [x]) k v <-> (tick x = k /\ v = x) \/ (tick x <> k /\ last_with tick l k v).
Proof.
  rewrite <- !get_rev_last, map_app, rev_app_distr. cbn [map rev app get].
  destruct (Z.eqb_spec k (tick x)) as [E|E]; split.
  - intros H. injection H as <-. auto.
  - intros [[_ ->]|[N _]]; auto. congruence.
  - intros H. right. split; auto.
  - intros [[N _]|[_ H]]; auto. congruence.
Qed.

Lemma before_last_snoc l x k v : before_last tick (l ++ [x]) k v <->
  (tick x = k /\ last_with tick l k v) \/ (tick x <> k /\ before_last tick l k v).
Proof.
  split.
  - intros (a & w & b & E & T & N & L). destruct b as [|y b] using rev_ind.
    + apply app_inj_tail in E. destruct E as [-> ->]. auto.
    + clear IHb. rewrite app_comm_cons, app_assoc in E. apply app_inj_tail in E. destruct E as [-> ->]. right.
      rewrite map_app, in_app_iff in N. split; [intros Q; apply N; right; left; auto|].
      exists a, w, b. split; [|split; [|split]]; auto.
  - intros [[T L]|[T (a & w & b & -> & Tw & N & L)]].
    + exists l, x, []. split; [|split; [|split]]; auto.
    + exists a, w, (b ++ [x]). rewrite <- app_assoc. split; [|split; [|split]]; auto.
      rewrite map_app, in_app_iff. intros [I|[I|[]]]; auto.
Qed.

Lemma before_last_nil k v : ~ before_last tick [] k v.
Proof. intros (a & w & b & E & _). destruct a; discriminate. Qed.

Lemma last_with_key l k v : last_with tick l k v -> In k (map tick l).
Proof. intros [T (a & b & -> & _)]. rewrite map_app, in_app_iff. right. left. auto. Qed.

Lemma before_last_key l k v : before_last tick l k v -> In k (map tick l).
Proof. intros (a & w & b & -> & T & _). rewrite map_app, in_app_iff. right. left. auto. Qed.

Lemma last_with_ex l k : In k (map tick l) -> exists v, last_with tick l k v.
Proof.
  intros I. destruct (get V k (rev (map entry l))) as [v|] eqn:E; [exists v; apply get_rev_last; auto|].
  apply get_rev_none in E. rewrite map_map in E. cbn in E. tauto.
Qed.

Lemma before_last_dec l k : (exists v, before_last tick l k v) \/ ~ exists v, before_last tick l k v.
Proof.
  induction l as [|x l IH] using rev_ind; [right; intros [v H]; apply before_last_nil in H; auto|].
  destruct (Z.eq_dec (tick x) k) as [E|E].
  - destruct (get V k (rev (map entry l))) as [v|] eqn:G.
    + left. exists v. apply before_last_snoc. left. split; auto. apply get_rev_last; auto.
    + right. intros [v H]. apply before_last_snoc in H. destruct H as [[_ H]|[H _]]; [|auto].
      apply get_rev_last in H. congruence.
  - destruct IH as [[v IH]|IH].
    + left. exists v. apply before_last_snoc. auto.
    + right. intros [v H]. apply before_last_snoc in H. destruct H as [[H _]|[_ H]]; eauto.
Qed.

Lemma before_last_fun l k v w : before_last tick l k v -> before_last tick l k w -> v = w.
Proof.
  induction l as [|x l IH] using rev_ind; intros A B; [apply before_last_nil in A; tauto|].
  apply before_last_snoc in A, B. destruct A as [[A1 A2]|[A1 A2]], B as [[B1 B2]|[B1 B2]]; try congruence; auto.
  apply get_rev_last in A2, B2. congruence.
Qed.

Lemma s_add_old k (v : V) s : srt V s -> snd (s_add k v s) = get V k s.
Proof.
  induction s as [|[k' v'] s IH]; intros S; auto. cbn. destruct (Z.eqb_spec k k'); auto.
  apply srt_cons in S. destruct S as [S1 S2]. destruct (Z.ltb_spec k k').
  - cbn. symmetry. apply get_none. intros I. apply in_map_iff in I. destruct I as [[k2 v2] [E I]]. cbn in E. subst k2.
    apply S2 in I. cbn in I. lia.
  - rewrite <- IH by auto. destruct (s_add k v s); auto.
Qed.

Lemma bulk_snoc l : forall s k v, srt V s ->
  snd (s_bulk_add (l ++ [(k, v)]) s) = snd (s_bulk_add l s) ++ match get V k (add_all l s) with Some w => [(k, w)] | None => [] end.
Proof.
  induction l as [|[k0 v0] l IH]; intros s k v S; cbn [app s_bulk_add].
  - pose proof (s_add_old k v s S) as E. destruct (s_add k v s) as [s1 o]. cbn [snd] in *. subst o.
    cbn [add_all fold_left]. reflexivity.
  - pose proof (s_add_sorted V k0 v0 s S) as S1. unfold add_all. cbn [fold_left fst snd].
    destruct (s_add k0 v0 s) as [s1 o]. cbn [fst] in *. fold (add_all l s1).
    specialize (IH s1 k v S1). destruct (s_bulk_add (l ++ [(k, v)]) s1) as [s2 r]. destruct (s_bulk_add l s1) as [s3 r'].
    cbn [snd] in *. subst r. destruct o; auto.
Qed.

(** What was replaced, by tick. *)
Lemma replaced_last A : forall s k v, srt V s ->
  (get V k (rev (snd (s_bulk_add (map entry A) s))) = Some v <->
   before_last tick A k v \/ (~ (exists w, before_last tick A k w) /\ In k (map tick A) /\ get V k s = Some v)).
Proof.
  induction A as [|x A IH] using rev_ind; intros s k v S.
  - cbn. split; [discriminate|]. intros [H|[_ [[] _]]]. apply before_last_nil in H. tauto.
  - rewrite map_app. cbn [map]. rewrite bulk_snoc, rev_app_distr by auto.
    assert (BL : forall w, before_last tick (A ++ [x]) k w <-> (tick x = k /\ last_with tick A k w) \/ (tick x <> k /\ before_last tick A k w))
      by (intros; apply before_last_snoc).
    rewrite map_app, in_app_iff. cbn [map In].
    destruct (Z.eq_dec (tick x) k) as [E|E].
    + assert (G : get V k (rev (match get V (tick x) (add_all (map entry A) s) with Some w => [(tick x, w)] | None => [] end) ++
                   rev (snd (s_bulk_add (map entry A) s))) = get V k (add_all (map entry A) s)).
      { rewrite E. destruct (get V k (add_all (map entry A) s)) as [w|] eqn:G.
        - cbn. rewrite Z.eqb_refl. auto.
        - cbn [rev app]. rewrite add_all_get in G by auto. destruct (get V k (rev (map entry A))) eqn:G1; [discriminate|].
          apply get_rev_none. apply get_rev_none in G1. intros I. apply bulk_old_keys in I. tauto. }
      rewrite G, add_all_get by auto.
      destruct (get V k (rev (map entry A))) as [w|] eqn:G1.
      * apply get_rev_last in G1. split.
        -- intros H. injection H as <-. left. apply BL. auto.
        -- intros [H|[N _]].
           ++ apply BL in H. destruct H as [[_ H]|[H _]]; [|tauto]. apply get_rev_last in H, G1. congruence.
           ++ exfalso. apply N. exists w. apply BL. auto.
      * assert (NL : forall w, ~ last_with tick A k w) by (intros w H; apply get_rev_last in H; congruence).
        split.
        -- intros H. right. split; [|auto]. intros [w H']. apply BL in H'. destruct H' as [[_ H']|[H' _]]; [apply NL in H'|]; tauto.
        -- intros [H|[_ [_ H]]]; auto. apply BL in H. destruct H as [[_ H]|[H _]]; [apply NL in H|]; tauto.
    + assert (G : get V k (rev (match get V (tick x) (add_all (map entry A) s) with Some w => [(tick x, w)] | None => [] end) ++
                   rev (snd (s_bulk_add (map entry A) s))) = get V k (rev (snd (s_bulk_add (map entry A) s)))).
      { destruct (get V (tick x) (add_all (map entry A) s)); auto. cbn. destruct (Z.eqb_spec k (tick x)); congruence. }
      rewrite G, IH by auto. rewrite BL.
      assert (X : (exists w, before_last tick A k w) <-> (exists w, before_last tick (A ++ [x]) k w)).
      { split; intros [w H]; exists w; [apply BL; auto|]. apply BL in H. tauto. }
      rewrite <- X. tauto.
Qed.

(** [more] stands for bars added behind everything. *)
Lemma undo_taken_back F A more s s1 : keyed tick s ->
  s1 = add_all (map entry (A ++ more)) (remove_keys (map tick F) s) ->
  (forall k v, In k (map tick more) -> ~ In (k, v) (add_all (map entry A) (remove_keys (map tick F) s))) ->
  taken_back tick s F A
    (add_all (map entry (F ++ replaced tick F A s)) (remove_keys (map tick (A ++ more)) s1)).
Proof.
  intros K E1 M k v. pose proof (keyed_srt _ _ K) as S.
  pose proof (remove_keys_sorted V (map tick F) s S) as S0.
  assert (Ss1 : srt V s1) by (subst s1; apply add_all_sorted; auto).
  rewrite <- (get_In V k v _ (add_all_sorted V _ _ (remove_keys_sorted V _ _ Ss1))).
  rewrite add_all_get by (apply remove_keys_sorted; auto). rewrite remove_keys_get by auto.
  rewrite map_app, rev_app_distr, get_app, (replaced_entries V tick F A s K).
  pose proof (replaced_last A (remove_keys (map tick F) s) k) as R.
  rewrite (remove_keys_get V (map tick F) s k S) in R.
  unfold given_back.
  destruct (get V k (rev (snd (s_bulk_add (map entry A) (remove_keys (map tick F) s))))) as [w|] eqn:G.
  - clear G. pose proof (proj1 (R w S0) eq_refl) as G. destruct G as [G|[G1 [G2 G3]]].
    + split.
      * intros H. injection H as <-. auto.
      * intros [[H|[H _]]|[H _]].
        -- f_equal. eapply before_last_fun; eauto.
        -- exfalso. eauto.
        -- exfalso. apply H. exists w. auto.
    + destruct (in_dec Z.eq_dec k (map tick F)) as [I|I]; [discriminate|].
      apply (get_In V k w s S) in G3. split.
      * intros H. injection H as <-. right. split; auto. intros [u [H|[_ H]]]; [eauto|]. apply last_with_key in H. auto.
      * intros [[H|[_ H]]|[_ H]]; [exfalso; eauto|apply last_with_key in H; tauto|].
        apply (get_In V k v s S) in H. apply (get_In V k w s S) in G3. congruence.
  - assert (NB : ~ exists w, before_last tick A k w).
    { intros [w H]. assert (X : None = Some w) by (apply R; auto). discriminate. }
    destruct (get V k (rev (map entry F))) as [w|] eqn:GF.
    + apply get_rev_last in GF. split.
      * intros H. injection H as <-. auto.
      * intros [[H|[_ H]]|[H _]]; [exfalso; eauto| |].
        -- apply get_rev_last in H, GF. congruence.
        -- exfalso. apply H. exists w. auto.
    + apply get_rev_none in GF. rewrite map_map in GF. cbn [fst] in GF.
      assert (NF : forall w, ~ last_with tick F k w) by (intros w H; apply last_with_key in H; auto).
      destruct (in_dec Z.eq_dec k (map tick F)) as [|_]; [tauto|].
      destruct (in_dec Z.eq_dec k (map tick (A ++ more))) as [I|I].
      * assert (GN : get V k s = None).
        { destruct (get V k s) as [u|] eqn:Gs; auto. exfalso.
          rewrite map_app in I. apply in_app_or in I. destruct I as [I|I].
          - assert (X : None = Some u) by (apply R; auto). discriminate.
          - assert (Q : exists w, In (k, w) (add_all (map entry A) (remove_keys (map tick F) s))).
            { destruct (get V k (rev (map entry A))) as [w|] eqn:GA.
              - exists w. apply get_In; [apply add_all_sorted; auto|]. rewrite add_all_get, GA by auto. auto.
              - exists u. apply get_In; [apply add_all_sorted; auto|]. rewrite add_all_get, GA by auto.
                rewrite remove_keys_get by auto. destruct (in_dec Z.eq_dec k (map tick F)); tauto. }
            destruct Q as [w Q]. apply (M k w I Q). }
        split; [discriminate|]. intros [[H|[_ H]]|[_ H]]; [exfalso; eauto|apply NF in H; tauto|].
        apply (get_In V k v s S) in H. congruence.
      * assert (G1 : get V k s1 = get V k s).
        { subst s1. rewrite add_all_get by auto. rewrite remove_keys_get by auto.
          destruct (get V k (rev (map entry (A ++ more)))) as [w|] eqn:GA.
          - exfalso. apply I. apply get_rev_last in GA. apply last_with_key in GA. auto.
          - destruct (in_dec Z.eq_dec k (map tick F)); tauto. }
        rewrite G1, (get_In V k v s S). split.
        -- intros H. right. split; auto. intros [w [H'|[_ H']]]; [eauto|apply NF in H'; tauto].
        -- intros [[H|[_ H]]|[_ H]]; [exfalso; eauto|apply NF in H; tauto|auto].
Qed.

Lemma taken_back_same s out into s' : srt V s -> srt V s' -> taken_back tick s out into s' ->
  (s' = s <-> nothing_new tick s out into).
Proof.
  intros S S' T. split.
  - intros -> k v G. apply T. auto.
  - intros N. apply (srt_ext V); auto. intros k.
    assert (E : forall v, get V k s' = Some v <-> get V k s = Some v).
    { intros v. rewrite (get_In V k v s S), (get_In V k v s' S'), (T k v). split.
      - intros [G|[_ I]]; auto.
      - intros I. destruct (before_last_dec into k) as [[w B]|B].
        + assert (W : In (k, w) s) by (apply N; left; auto). left. left.
          apply (get_In V k w s S) in W. apply (get_In V k v s S) in I. congruence.
        + destruct (get V k (rev (map entry out))) as [w|] eqn:GF.
          * apply get_rev_last in GF. left. right. split; auto.
            assert (W : In (k, w) s) by (apply N; right; auto).
            apply (get_In V k w s S) in W. apply (get_In V k v s S) in I. congruence.
          * right. split; auto. intros [w [H|[_ H]]]; [eauto|]. apply get_rev_last in H. congruence. }
    destruct (get V k s') as [v|] eqn:G; [symmetry; apply E; auto|].
    destruct (get V k s) as [v|] eqn:G2; auto. exfalso. assert (X : None = Some v) by (apply E; auto). discriminate.
Qed.
End Back.

Lemma bulk_add_count A s n :
  count_occ note_eq_dec (map snd (b_bulk_add (map note_entry A) s)) n =
  (count_occ note_eq_dec (map snd s) n + count_occ note_eq_dec A n)%nat.
Proof.
  pose proof (Permutation_map snd (b_bulk_add_perm note (map note_entry A) s)) as P.
  rewrite (count_perm _ _ n P), map_app, count_occ_app, map_map. cbn [note_entry snd]. rewrite map_id. lia.
Qed.

Lemma runs_undone F A rep p p' c : project_ok p -> models_typed F -> models_typed A ->
  runs F A rep p = Ret (Some (p', c)) -> undone p F A (cmd_undo c p').
Proof.
  intros O TF TA E. pose proof (exchange_ok F A p O TA) as O1.
  unfold runs in E. apply bind_ret in E. destruct E as [[p2 more] [E1 E2]]. apply ret_inj in E2. inv E2.
  assert (X : p' = pj_set_bars (exchange F A p) (add_all (map bar_entry more) (pj_bars (exchange F A p))) /\
    forall b, In b more -> last_tick (exchange F A p) < b_tick b).
  { destruct rep.
    - destruct (replenish_ok _ _ _ (ok_bars _ O1) E1) as [-> [K [TT SS]]].
      rewrite (replenish_add_all _ more (ok_bars _ O1) TT SS K). split; auto. intros b I. apply TT in I. tauto.
    - apply ret_inj in E1. inv E1. split; [reflexivity|intros b []]. }
  destruct X as [X M]. rewrite X. unfold cmd_undo, exchange, pj_set_bars, with_bars, recorded.
  cbn [m_notes m_bars m_tempos m_dumpers m_softs pj_rhythm pj_key pj_grid pj_notes pj_bars pj_tempos pj_dumpers pj_softs].
  change bar_entry with (fun v => (b_tick v, v)) in *. change tempo_entry with (fun v => (tp_tick v, v)) in *.
  change ctrl_entry with (fun v => (cc_tick v, v)) in *.
  constructor; cbn [pj_rhythm pj_key pj_grid pj_notes pj_bars pj_tempos pj_dumpers pj_softs]; auto.
  - intros n. unfold how_many. rewrite bulk_add_count, remove_count, bulk_add_count, remove_count.
    + lia.
    + apply (ok_notes _ O).
    + apply (ok_notes _ O1).
  - apply undo_taken_back; [apply (ok_bars _ O)|rewrite map_app, add_all_app; reflexivity|].
    intros k v I J. apply in_map_iff in I. destruct I as [b [<- I]]. apply M in I.
    pose proof (last_tick_max _ (ok_bars _ O1) (b_tick b) v) as L. cbn [exchange pj_bars] in L.
    change bar_entry with (fun v => (b_tick v, v)) in L. apply L in J. lia.
  - pose proof (undo_taken_back _ tp_tick (m_tempos F) (m_tempos A) [] (pj_tempos p) _ (ok_tempos _ O) eq_refl) as U.
    rewrite !app_nil_r in U. apply U. intros k v [].
  - pose proof (undo_taken_back _ cc_tick (m_dumpers F) (m_dumpers A) [] (pj_dumpers p) _ (ok_dumpers _ O) eq_refl) as U.
    rewrite !app_nil_r in U. apply U. intros k v [].
  - pose proof (undo_taken_back _ cc_tick (m_softs F) (m_softs A) [] (pj_softs p) _ (ok_softs _ O) eq_refl) as U.
    rewrite !app_nil_r in U. apply U. intros k v [].
Qed.

Lemma edit_undone e p p' c F A : project_ok p -> edit_typed e -> moves e F A ->
  edit_run e p = Ret (Some (p', c)) -> undone p F A (cmd_undo c p').
Proof.
  intros O T M E. destruct (moves_typed _ _ _ M T) as [TF TA].
  destruct (edit_runs e p F A M) as [R|R]; rewrite R in E; [discriminate|]. exact (runs_undone _ _ _ _ _ _ O TF TA E).
Qed.

Lemma notes_same_count s s' : notes_ok s -> notes_ok s' ->
  (Permutation s' s <-> forall n, how_many (map snd s') n = how_many (map snd s) n).
Proof.
  intros H H'. split.
  - intros P n. apply count_perm, Permutation_map, P.
  - intros C. assert (P : Permutation (map snd s') (map snd s)).
    { apply (Permutation_count_occ note_eq_dec). exact C. }
    assert (M : forall t, notes_ok t -> t = map (fun n => (note_start_tick n, n)) (map snd t)).
    { intros t [_ K]. rewrite map_map. rewrite <- map_id at 1. apply map_ext_in. intros [k n] I. apply K in I. cbn. congruence. }
    rewrite (M s H), (M s' H'). apply Permutation_map, P.
Qed.

Lemma undone_same p F A q : project_ok p -> project_ok q -> undone p F A q ->
  (same_project q p <-> undoable p F A).
Proof.
  intros O Q [US UN UB UT UD UO].
  pose proof (taken_back_same _ _ _ _ _ _ (keyed_srt _ _ (ok_bars _ O)) (keyed_srt _ _ (ok_bars _ Q)) UB) as B.
  pose proof (taken_back_same _ _ _ _ _ _ (keyed_srt _ _ (ok_tempos _ O)) (keyed_srt _ _ (ok_tempos _ Q)) UT) as T.
  pose proof (taken_back_same _ _ _ _ _ _ (keyed_srt _ _ (ok_dumpers _ O)) (keyed_srt _ _ (ok_dumpers _ Q)) UD) as D.
  pose proof (taken_back_same _ _ _ _ _ _ (keyed_srt _ _ (ok_softs _ O)) (keyed_srt _ _ (ok_softs _ Q)) UO) as S.
  pose proof (notes_same_count _ _ (ok_notes _ O) (ok_notes _ Q)) as N.
  split.
  - intros [S1 S2 S3 S4 S5 S6 S7 S8]. constructor; try tauto.
    intros n. pose proof (proj1 N S4 n) as E. rewrite UN in E. lia.
  - intros [U1 U2 U3 U4 U5]. destruct US as [? [? ?]]. constructor; try tauto.
    apply N. intros n. rewrite UN. specialize (U1 n). lia.
Qed.
