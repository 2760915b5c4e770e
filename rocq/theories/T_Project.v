(** Property theorems about projects: C22-C33, C50. *)
From Coq Require Import ZArith List Bool Lia Sorted Permutation.
From Verif Require Import Base M_Pitch M_Duration M_Percent M_Scalar M_Bar M_Note M_Store M_Tuple M_Models M_Project
  S_Percent S_Project P_Base P_Store P_Query P_Replenish P_Edit P_History P_Back.
Import ListNotations.
Open Scope Z_scope.

(** A small project for the examples: two bars, the second changes rhythm and
    key; tempos, pedal events and notes, two of them at the same tick. *)
Definition ex_note (t : Z) (s : solfa) : note :=
  mkNote t (match pitch_new s O4 NoAccidental with Ret p => p | _ => mkPitch s O4 NoAccidental 0 0 end)
    (mkDur Quarter 2 0) false false 64 trimmer_zero rate_one trimmer_zero 0.
Definition ex_project : project :=
  mkProject rhythm_default 0 60
    [(0, ex_note 0 SC); (480, ex_note 480 SE); (480, ex_note 480 SG); (1600, ex_note 1600 SA)]
    [(960, mkBar 960 None None 0); (1920, mkBar 1920 (Some (mkRhythm 3 D4)) (Some 2) 0)]
    [(0, mkTempo 0 100); (960, mkTempo 960 140)]
    [(480, mkCtrl 480 127 0); (900, mkCtrl 900 0 0)] [].

Ltac in_list := cbn; intros; repeat match goal with
  | H : _ \/ _ |- _ => destruct H
  | H : (_, _) = (_, _) |- _ => inversion H; clear H; subst
  | H : False |- _ => destruct H end.

Lemma ex_project_ok : project_ok ex_project.
Proof.
  constructor; (split; [repeat constructor; cbn; lia|in_list]);
    first [reflexivity | split; [reflexivity|unfold u32, u32_max; cbn; lia]].
Qed.
Lemma ex_note_valid t s : note_valid (ex_note t s).
Proof. split; [unfold duration_valid; cbn; lia|constructor]. Qed.
Lemma ex_project_valid : notes_valid ex_project.
Proof. intros k n. in_list; apply ex_note_valid. Qed.
Lemma ex_project_rhythms : valid_rhythms ex_project.
Proof. split; [cbn; lia|]. in_list; cbn in *; try discriminate. inv H0. cbn. lia. Qed.

(** * C22 *)

(** The tempo at a tick is that of the latest tempo entry not after it, 120 if there is none. *)
Theorem C22_tempo : forall p t, project_ok p ->
  (exists o, latest (pj_tempos p) t o) /\
  forall o, latest (pj_tempos p) t o ->
    tempo_at p t = Ret (match o with Some v => tp_value v | None => 120 end).
Proof.
  intros p t O. destruct (tempo_at_spec p t (ok_tempos p O)) as [o [L E]]. split; [eauto|].
  intros o' L'. rewrite (latest_unique _ _ _ _ (keyed_srt _ _ (ok_tempos p O)) L' L). exact E.
Qed.
Print Assumptions C22_tempo.

(** The same for the pedals, with default 0. *)
Theorem C22_pedals : forall p t, project_ok p ->
  ((exists o, latest (pj_dumpers p) t o) /\
   forall o, latest (pj_dumpers p) t o ->
     dumper_at p t = Ret (match o with Some v => cc_velocity v | None => 0 end)) /\
  ((exists o, latest (pj_softs p) t o) /\
   forall o, latest (pj_softs p) t o ->
     soft_at p t = Ret (match o with Some v => cc_velocity v | None => 0 end)).
Proof.
  intros p t O. split.
  - destruct (ctrl_at_spec _ t (ok_dumpers p O)) as [o [L E]]. split; [eauto|].
    intros o' L'. rewrite (latest_unique _ _ _ _ (keyed_srt _ _ (ok_dumpers p O)) L' L). exact E.
  - destruct (ctrl_at_spec _ t (ok_softs p O)) as [o [L E]]. split; [eauto|].
    intros o' L'. rewrite (latest_unique _ _ _ _ (keyed_srt _ _ (ok_softs p O)) L' L). exact E.
Qed.
Print Assumptions C22_pedals.

Example C22_example : project_ok ex_project /\
  map (tempo_at ex_project) [0; 959; 960; 5000] = map Ret [100; 100; 140; 140] /\
  map (dumper_at ex_project) [479; 480; 899; 900] = map Ret [0; 127; 127; 0] /\
  soft_at ex_project 5 = Ret 0 /\ tempo_at project_default 7 = Ret 120.
Proof. split; [exact ex_project_ok|]. repeat split; vm_compute; reflexivity. Qed.

(** * C23 *)

Theorem C23_rhythm : forall p t, project_ok p ->
  (exists o, latest (setting b_rhythm (pj_bars p)) t o) /\
  forall o, latest (setting b_rhythm (pj_bars p)) t o ->
    rhythm_at p t = Ret (match o with Some r => r | None => pj_rhythm p end).
Proof.
  intros p t O. destruct (rhythm_at_spec p t (ok_bars p O)) as [o [L E]]. split; [eauto|].
  intros o' L'. rewrite (latest_unique _ _ _ _ (setting_srt _ _ (keyed_srt _ _ (ok_bars p O))) L' L). exact E.
Qed.
Print Assumptions C23_rhythm.

Theorem C23_key : forall p t, project_ok p ->
  (exists o, latest (setting b_key (pj_bars p)) t o) /\
  forall o, latest (setting b_key (pj_bars p)) t o ->
    key_at p t = Ret (match o with Some r => r | None => pj_key p end).
Proof.
  intros p t O. destruct (key_at_spec p t (ok_bars p O)) as [o [L E]]. split; [eauto|].
  intros o' L'. rewrite (latest_unique _ _ _ _ (setting_srt _ _ (keyed_srt _ _ (ok_bars p O))) L' L). exact E.
Qed.
Print Assumptions C23_key.

Example C23_example :
  map (rhythm_at ex_project) [0; 1919; 1920; 9999] =
    map Ret [rhythm_default; rhythm_default; mkRhythm 3 D4; mkRhythm 3 D4] /\
  map (key_at ex_project) [0; 1919; 1920] = map Ret [0; 0; 2].
Proof. split; vm_compute; reflexivity. Qed.

(** * C24 *)

(** Every tick converts to a location and back (for fewer than 2^32 bars). *)
Theorem C24_roundtrip : forall p t, project_ok p -> Z.of_nat (length (pj_bars p)) <= u32_max -> u32 t ->
  exists l, tick_to_location p t = Ret l /\ location_to_tick p l = Ret (Ok t).
Proof. intros p t O. exact (roundtrip p t (ok_bars p O)). Qed.
Print Assumptions C24_roundtrip.

(** Later ticks have later locations; so different ticks have different locations. *)
Theorem C24_monotone : forall p t t' l l', project_ok p -> u32 t -> u32 t' ->
  tick_to_location p t = Ret l -> tick_to_location p t' = Ret l' ->
  (t < t' <-> loc_lt l l') /\ (t = t' <-> l = l').
Proof.
  intros p t t' l l' O U U' E E'. pose proof (ok_bars p O) as K.
  assert (A : t < t' -> loc_lt l l') by (intros L; exact (location_monotone p t t' l l' K U U' L E E')).
  assert (B : t' < t -> loc_lt l' l) by (intros L; exact (location_monotone p t' t l' l K U' U L E' E)).
  assert (C : t = t' -> l = l') by (intros <-; rewrite E in E'; apply ret_inj in E'; auto).
  assert (D : forall a b, loc_lt a b -> loc_lt b a -> False) by (unfold loc_lt; intros; lia).
  assert (F : forall a, loc_lt a a -> False) by (unfold loc_lt; intros; lia).
  destruct (Z.lt_trichotomy t t') as [L|[L|L]].
  - split; split; intros H; auto; try lia. subst. destruct (F _ (A L)).
  - split; split; intros H; auto; try lia. rewrite (C L) in H. destruct (F _ H).
  - split; split; intros H; auto; try lia; [destruct (D _ _ H (B L))|]. subst. destruct (F _ (B L)).
Qed.
Print Assumptions C24_monotone.

(** What a location means: bar number 0 is what is before the first bar; in bar
    number b the offset counts from the start of that bar, and the next bar
    starts later. *)
Theorem C24_meaning : forall p t l, project_ok p -> u32 t -> tick_to_location p t = Ret l ->
  (loc_bar l = 0 /\ loc_offset l = t /\ (forall k b, In (k, b) (pj_bars p) -> t < k)) \/
  (exists i k b, loc_bar l = Z.of_nat i + 1 /\ nth_error (pj_bars p) i = Some (k, b) /\
     k <= t /\ loc_offset l = t - k /\
     forall k' b', nth_error (pj_bars p) (S i) = Some (k', b') -> t < k').
Proof.
  intros p t l O U E. pose proof (ok_bars p O) as K.
  destruct (tick_to_location_spec p t K U) as [l' [E' L]]. rewrite E in E'. apply ret_inj in E'. subst l'.
  pose proof (last_idx_spec _ t (keyed_srt _ _ K)) as F. destruct (last_idx t (pj_bars p)) as [i|].
  - right. destruct L as [b [N [H ->]]]. exists i, (b_tick b), b. repeat split; auto.
    destruct F as [k [v [_ [_ M]]]]. intros k' b' N'. apply (M (S i) k' b'); auto.
  - left. subst l. auto.
Qed.
Print Assumptions C24_meaning.

(** The number asked for a bar is the position of the stored bar at its tick (the
    location of that tick is the start of the bar of the next number), and there is
    none exactly if no bar is stored there. *)
Theorem C24_bar_no : forall p b, project_ok p ->
  (forall i, bar_no p b = Some i <-> exists b', nth_error (map snd (pj_bars p)) i = Some b' /\ b_tick b' = b_tick b) /\
  (bar_no p b = None <-> forall b', In b' (map snd (pj_bars p)) -> b_tick b' <> b_tick b) /\
  (forall i, bar_no p b = Some i -> u32 (b_tick b) -> tick_to_location p (b_tick b) = Ret (mkLoc (Z.of_nat i + 1) 0)).
Proof.
  intros p b O. pose proof (ok_bars p O) as K.
  assert (KE : forall k v, In (k, v) (pj_bars p) -> k = b_tick v) by (intros k v I; exact (proj1 (proj2 K k v I))).
  pose proof (keyed_srt _ _ K) as SR.
  assert (NU : forall i j k v v', nth_error (pj_bars p) i = Some (k, v) -> nth_error (pj_bars p) j = Some (k, v') -> i = j).
  { intros i j k v v' E F. destruct (Nat.lt_trichotomy i j) as [X|[X|X]]; [|exact X|].
    - pose proof (nth_lt_sorted _ _ SR _ _ _ _ E F X). cbn in *. lia.
    - pose proof (nth_lt_sorted _ _ SR _ _ _ _ F E X). cbn in *. lia. }
  assert (A : forall i, bar_no p b = Some i <-> exists b', nth_error (map snd (pj_bars p)) i = Some b' /\ b_tick b' = b_tick b).
  { intros i. unfold bar_no. split.
    - intros H. destruct (s_find (b_tick b) (pj_bars p)) as [j|j] eqn:E; inversion H; subst.
      destruct (s_find_ok _ _ _ _ SR E) as [v N]. exists v. rewrite nth_error_map, N. split; [reflexivity|].
      symmetry. apply KE. eapply nth_error_In; eauto.
    - intros [b' [N T]]. rewrite nth_error_map in N. destruct (nth_error (pj_bars p) i) as [[k v]|] eqn:E; inversion N; subst.
      assert (k = b_tick b) by (rewrite <- T; apply KE; eapply nth_error_In; eauto). subst k.
      pose proof (s_find_spec _ (b_tick b) _ SR) as F. destruct (s_find (b_tick b) (pj_bars p)) as [j|j].
      + destruct F as [w F]. f_equal. exact (NU _ _ _ _ _ F E).
      + destruct F as [F1 [F2 _]]. destruct (Nat.lt_ge_cases i j) as [L|L]; [specialize (F1 _ _ _ E L)|specialize (F2 _ _ _ E L)]; lia. }
  split; [exact A|]. split.
  - split.
    + intros H b' I T. apply In_nth_error in I. destruct I as [i N].
      assert (X : bar_no p b = Some i) by (apply A; eauto). rewrite H in X. discriminate.
    + intros H. destruct (bar_no p b) as [i|] eqn:E; [|reflexivity]. destruct (proj1 (A i) eq_refl) as [b' [N T]].
      destruct (H b' (nth_error_In _ _ N) T).
  - intros i H U. apply A in H. destruct H as [b' [N T]].
    rewrite nth_error_map in N. destruct (nth_error (pj_bars p) i) as [[k v]|] eqn:E; inversion N; subst.
    assert (k = b_tick b) by (rewrite <- T; apply KE; eapply nth_error_In; eauto). subst k.
    destruct (tick_to_location_spec p _ K U) as [l [EL L]]. rewrite EL. f_equal.
    destruct (C24_meaning p _ l O U EL) as [[_ [_ M]]|[j [k [c [LB [NJ [LE [LO NX]]]]]]]].
    { specialize (M _ _ (nth_error_In _ _ E)). lia. }
    assert (j = i).
    { destruct (Nat.lt_trichotomy j i) as [X|[X|X]]; [|exact X|].
      - destruct (nth_error (pj_bars p) (S j)) as [[k' c']|] eqn:EJ.
        + specialize (NX _ _ eq_refl). destruct (Nat.eq_dec (S j) i) as [Y|Y].
          * subst i. rewrite E in EJ. inversion EJ; subst. lia.
          * pose proof (nth_lt_sorted _ _ SR _ _ _ _ EJ E ltac:(lia)). cbn in *. lia.
        + apply nth_error_None in EJ. assert (i < length (pj_bars p))%nat by (apply nth_error_Some; congruence). lia.
      - pose proof (nth_lt_sorted _ _ SR _ _ _ _ E NJ X). cbn in *. lia. }
    subst j. rewrite E in NJ. inversion NJ; subst. destruct l as [lb lo]. cbn in LB, LO. subst. f_equal. lia.
Qed.
Print Assumptions C24_bar_no.

Example C24_example :
  map (tick_to_location ex_project) [0; 959; 960; 1919; 1925] =
    map Ret [mkLoc 0 0; mkLoc 0 959; mkLoc 1 0; mkLoc 1 959; mkLoc 2 5] /\
  location_to_tick ex_project (mkLoc 2 5) = Ret (Ok 1925) /\
  map (fun x => bar_no ex_project (snd x)) (pj_bars ex_project) = [Some 0%nat; Some 1%nat].
Proof. repeat split; vm_compute; reflexivity. Qed.

(** * C25 *)

(** A location is refused exactly if the tick it stands for exceeds u32::MAX;
    otherwise the tick is given.  (Offsets up to 2^64 - 2^51.) *)
Theorem C25_extrapolation : forall p l, project_ok p -> Z.of_nat (length (pj_bars p)) <= u32_max ->
  valid_rhythms p -> 0 <= loc_bar l -> 0 <= loc_offset l <= usize_max - 2251799813685248 ->
  exists r, rhythm_at p (last_tick p) = Ret r /\
    let t := bar_start p (rhythm_tick_len r) (loc_bar l) + loc_offset l in
    (t <= u32_max -> location_to_tick p l = Ret (Ok t)) /\
    (u32_max < t -> location_to_tick p l = Ret (Err Overflow)).
Proof.
  intros p l O N R B X. destruct (location_to_tick_spec p l (ok_bars p O) N R B X) as [r [E F]].
  exists r. split; [exact E|]. cbv zeta. rewrite F. unfold fits.
  destruct (Z.ltb_spec u32_max (bar_start p (rhythm_tick_len r) (loc_bar l) + loc_offset l)); split; intros; auto; lia.
Qed.
Print Assumptions C25_extrapolation.

(** For larger offsets the code panics instead of refusing. *)
Theorem C25_total_refuted : exists p l, project_ok p /\ usize (loc_bar l) /\ usize (loc_offset l) /\
  location_to_tick p l = Panic.
Proof.
  exists ex_project, (mkLoc 1 usize_max). split; [exact ex_project_ok|].
  split; [unfold usize, usize_max; cbn; lia|]. split; [unfold usize, usize_max; cbn; lia|]. vm_compute. reflexivity.
Qed.
Print Assumptions C25_total_refuted.

Example C25_example : valid_rhythms ex_project /\
  bar_start ex_project 720 5 = 4080 /\
  location_to_tick ex_project (mkLoc 5 7) = Ret (Ok 4087) /\
  location_to_tick project_default (mkLoc 3 1) = Ret (Ok 2881) /\
  location_to_tick ex_project (mkLoc 4000000000 0) = Ret (Err Overflow) /\
  location_to_tick ex_project (mkLoc 18446744073709551615 0) = Ret (Err Overflow).
Proof. split; [exact ex_project_rhythms|]. repeat split; vm_compute; reflexivity. Qed.

(** * C26 *)

(** After every edit that adds content all content lies within bars. *)
Theorem C26_covered : forall e out into p p' c,
  project_ok p -> notes_valid p -> edit_typed e -> may_append e = true ->
  moves e out into -> Forall note_valid (m_notes into) ->
  edit_run e p = Ret (Some (p', c)) -> covered p'.
Proof. intros e out into p p' c O V T Ap M W E. exact (edit_covered e p p' c out into O V T Ap M W E). Qed.
Print Assumptions C26_covered.

(** No bar is appended that is not needed: the bar before the last appended one
    does not yet reach the end of the content. *)
Theorem C26_no_excess : forall e out into p p' c,
  project_ok p -> notes_valid p -> edit_typed e -> edit_wf e p -> may_append e = true ->
  moves e out into -> Forall note_valid (m_notes into) ->
  edit_run e p = Ret (Some (p', c)) ->
  exists q r n, exchanged p out into [] q /\ rhythm_at q (last_tick q) = Ret r /\
    length (pj_bars p') = (length (pj_bars q) + n)%nat /\
    (n = O \/ exists t, ends_at p' t /\ last_tick q + (Z.of_nat n - 1) * rhythm_tick_len r < t).
Proof.
  intros e out into p p' c O V T Wf Ap M W E.
  destruct (edit_appends e p p' c out into O V T Wf Ap M W E) as [q [r [n [H1 [H2 [H3 [H4 [H5 H6]]]]]]]].
  exists q, r, n. repeat split; try apply H1; auto. rewrite H5, app_length, map_length, even_bars_length. auto.
Qed.
Print Assumptions C26_no_excess.

Example C26_no_excess_case : let e := EAddTempo (mkTempo 4000 90) in let into := mkModels [] [] [mkTempo 4000 90] [] [] in
  project_ok ex_project /\ notes_valid ex_project /\ edit_typed e /\ edit_wf e ex_project /\ may_append e = true /\
  moves e models_empty into /\ Forall note_valid (m_notes into) /\
  exists p' c, edit_run e ex_project = Ret (Some (p', c)) /\ length (pj_bars p') = 5%nat /\ ends_at p' 4000 /\ 3360 < 4000.
Proof.
  split; [exact ex_project_ok|]. split; [exact ex_project_valid|]. split; [vm_compute; split; congruence|].
  split; [exact I|]. split; [reflexivity|]. split; [constructor|]. split; [constructor|].
  do 2 eexists. split; [vm_compute; reflexivity|]. split; [reflexivity|].
  split; [|reflexivity]. apply (ends_tempo _ 4000 (mkTempo 4000 90)). cbn. tauto.
Qed.

(** A note that ends exactly at the last bar needs no new bar, one tick more does. *)
Example C26_example :
  exists p' c q' d,
    edit_run (EAddNote (ex_note 1680 SC)) ex_project = Ret (Some (p', c)) /\ pj_bars p' = pj_bars ex_project /\
    edit_run (EAddNote (ex_note 1681 SC)) ex_project = Ret (Some (q', d)) /\
    pj_bars q' = pj_bars ex_project ++ [(2640, mkBar 2640 None None 0)] /\
    notes_valid ex_project /\ moves (EAddNote (ex_note 1681 SC)) models_empty (mkModels [ex_note 1681 SC] [] [] [] []) /\
    Forall note_valid [ex_note 1681 SC].
Proof.
  do 4 eexists. split; [vm_compute; reflexivity|]. split; [vm_compute; reflexivity|].
  split; [vm_compute; reflexivity|]. split; [vm_compute; reflexivity|].
  split; [exact ex_project_valid|]. split; [constructor|]. constructor; [apply ex_note_valid|constructor].
Qed.

(** * C27 *)

(** The automatically appended bars come after all others, evenly spaced by the
    bar length in force, blank; nothing else of the project changes. *)
Theorem C27_spacing : forall e out into p p' c,
  project_ok p -> notes_valid p -> edit_typed e -> edit_wf e p -> may_append e = true ->
  moves e out into -> Forall note_valid (m_notes into) ->
  edit_run e p = Ret (Some (p', c)) ->
  exists q r n, exchanged p out into [] q /\ project_ok q /\ same_but_bars q p' /\
    rhythm_at q (last_tick q) = Ret r /\
    pj_bars p' = pj_bars q ++ map (fun b => (b_tick b, b)) (even_bars (last_tick q) (rhythm_tick_len r) n).
Proof.
  intros e out into p p' c O V T Wf Ap M W E.
  destruct (edit_appends e p p' c out into O V T Wf Ap M W E) as [q [r [n [H1 [H2 [H3 [H4 [H5 H6]]]]]]]].
  exists q, r, n. auto.
Qed.
Print Assumptions C27_spacing.

(** With bars of positive length every edit ends. *)
Theorem C27_terminates : forall e out into p,
  project_ok p -> notes_valid p -> valid_rhythms p -> edit_typed e -> moves e out into ->
  Forall note_valid (m_notes into) ->
  (forall b r, In b (m_bars into) -> b_rhythm b = Some r -> 1 <= rh_num r <= 255) ->
  edit_run e p <> Hang.
Proof. intros e out into p. exact (edit_terminates e p out into). Qed.
Print Assumptions C27_terminates.

(** It returns normally if the content ends at least 122400 ticks (the longest
    possible bar) before the end of the tick range. *)
Theorem C27_returns : forall e out into p,
  project_ok p -> notes_valid p -> valid_rhythms p -> edit_typed e -> moves e out into ->
  Forall note_valid (m_notes into) ->
  (forall b r, In b (m_bars into) -> b_rhythm b = Some r -> 1 <= rh_num r <= 255) ->
  (forall t, ends_at p t \/ ends_in into t -> t + 122400 <= u32_max + 1) ->
  exists o, edit_run e p = Ret o.
Proof. intros e out into p. exact (edit_returns e p out into). Qed.
Print Assumptions C27_returns.

Example C27_returns_case : let e := EAddNote (ex_note 1681 SC) in let into := mkModels [ex_note 1681 SC] [] [] [] [] in
  project_ok ex_project /\ notes_valid ex_project /\ valid_rhythms ex_project /\ edit_typed e /\ moves e models_empty into /\
  Forall note_valid (m_notes into) /\ (forall t, ends_at ex_project t \/ ends_in into t -> t + 122400 <= u32_max + 1).
Proof.
  split; [exact ex_project_ok|]. split; [exact ex_project_valid|]. split; [exact ex_project_rhythms|]. split; [exact I|].
  split; [constructor|]. split; [constructor; [apply ex_note_valid|constructor]|].
  assert (K : forall n l, note_valid n -> note_tick_len n = Ret l -> l <= 3826).
  { intros n l (A & B) L. destruct (P_Note.note_tick_len_bound n A B) as (t & m & T & M & R).
    rewrite P_Note.longest in M. rewrite L in T. injection T as ->. injection M as <-. lia. }
  intros t H. enough (t <= 6000) by (unfold u32_max; lia). destruct H as [H|H].
  - destruct H as [k n l H L|k v H|k v H|k v H].
    + apply K in L; [|exact (ex_project_valid _ _ H)]. clear K. revert H. in_list; lia.
    + clear K. revert H. in_list; lia.
    + clear K. revert H. in_list; lia.
    + destruct H.
  - destruct H as [n l H L|v H|v H|v H]; cbn [m_notes m_tempos m_dumpers m_softs In] in H; destruct H as [<-|[]] || destruct H.
    apply K in L; [|apply ex_note_valid]. change (note_start_tick (ex_note 1681 SC)) with 1681. lia.
Qed.

(** Exactly when an edit does not return, [q] being the project as changed by
    the edit before any bar is appended: it runs for ever if the bar length in
    force at the end is 0 and some content ends after the last bar; it panics if
    some content ends beyond the tick range, or after the last bar with no bar
    line left for it in the tick range. *)
Theorem C27_exact : forall e out into p,
  project_ok p -> notes_valid p -> edit_typed e -> edit_wf e p -> moves e out into ->
  Forall note_valid (m_notes into) -> records e = true ->
  exists q r, exchanged p out into [] q /\ project_ok q /\ rhythm_at q (last_tick q) = Ret r /\
  (edit_run e p = Hang <-> may_append e = true /\
     rhythm_tick_len r = 0 /\ (exists t, ends_at q t /\ last_tick q < t) /\ forall t, ends_at q t -> t <= u32_max) /\
  (edit_run e p = Panic <-> may_append e = true /\ exists t, ends_at q t /\
     (u32_max < t \/
      last_tick q < t /\ 0 < rhythm_tick_len r /\
      forall k, 0 <= k -> t <= last_tick q + k * rhythm_tick_len r -> u32_max < last_tick q + k * rhythm_tick_len r)).
Proof. intros e out into p. exact (edit_exact e p out into). Qed.
Print Assumptions C27_exact.

Example C27_exact_case :
  let p := mkProject rhythm_default 0 60 [] [(4294967290, mkBar 4294967290 None None 0)] [] [] [] in
  let e t := EAddTempo (mkTempo t 90) in
  project_ok p /\ notes_valid p /\
  (forall t, u32 t -> edit_typed (e t) /\ edit_wf (e t) p /\ records (e t) = true /\
     moves (e t) models_empty (mkModels [] [] [mkTempo t 90] [] [])) /\
  edit_run (e 4294967291) p = Panic /\ (exists o, edit_run (e 4294967290) p = Ret (Some o)).
Proof.
  cbv zeta. split; [|split; [intros k n []|split]].
  - constructor; (split; [repeat constructor|]); cbn; intros k n H; try (destruct H; fail).
    destruct H as [H|[]]. inversion H. split; auto. unfold u32, u32_max; lia.
  - intros t U. split; [exact U|]. split; [exact Logic.I|]. split; [reflexivity|constructor].
  - split; [vm_compute; reflexivity|]. eexists. vm_compute. reflexivity.
Qed.

(** A rhythm with numerator 0 (serde accepts any u8) makes an edit loop for ever;
    an end near u32::MAX makes it panic. *)
Theorem C27_always_returns_refuted :
  (exists p n, project_ok p /\ note_valid n /\ rh_num (pj_rhythm p) = 0 /\ edit_run (EAddNote n) p = Hang) /\
  (exists p n, project_ok p /\ note_valid n /\ valid_rhythms p /\ u32 (n_base_tick n) /\ edit_run (EAddNote n) p = Panic).
Proof.
  split.
  - exists (mkProject (mkRhythm 0 D4) 0 60 [] [] [] [] []), (ex_note 0 SC).
    split; [constructor; (split; [constructor|intros k n []])|].
    split; [apply ex_note_valid|]. split; [reflexivity|]. vm_compute. reflexivity.
  - exists project_default, (ex_note 4294967295 SC).
    split; [constructor; (split; [constructor|intros k n []])|].
    split; [apply ex_note_valid|]. split; [split; [cbn; lia|intros k b r []]|].
    split; [unfold u32, u32_max; cbn; lia|]. vm_compute. reflexivity.
Qed.
Print Assumptions C27_always_returns_refuted.

Example C27_example : exists p' c,
  edit_run (EAddTempo (mkTempo 4000 90)) ex_project = Ret (Some (p', c)) /\
  map fst (pj_bars p') = [960; 1920; 2640; 3360; 4080] /\ last_tick ex_project = 1920 /\
  rhythm_at ex_project 1920 = Ret (mkRhythm 3 D4) /\ rhythm_tick_len (mkRhythm 3 D4) = 720 /\
  edit_wf (EAddTempo (mkTempo 4000 90)) ex_project /\ edit_typed (EAddTempo (mkTempo 4000 90)).
Proof.
  do 2 eexists. split; [vm_compute; reflexivity|]. split; [vm_compute; reflexivity|].
  split; [reflexivity|]. split; [vm_compute; reflexivity|]. split; [reflexivity|]. split; [exact I|].
  unfold edit_typed, u32, u32_max. cbn. lia.
Qed.

(** * C28 *)
Theorem C28_undo : forall e p p' c, project_ok p -> edit_typed e -> edit_wf e p ->
  edit_run e p = Ret (Some (p', c)) -> same_project (cmd_undo c p') p.
Proof.
  intros e p p' c O T W E. apply did_undo; auto.
  - apply (edit_ok e p p' c O T E).
  - apply (edit_did e p p' c O T W E).
Qed.
Print Assumptions C28_undo.

(** Ill-formed edits are accepted, and undo then does not restore the project:
    removing a note that is not there, adding two bars at one tick. *)
Theorem C28_ill_formed_refuted :
  (exists n p' c, edit_run (EBulkRemove (mkModels [n] [] [] [] [])) ex_project = Ret (Some (p', c)) /\
     pj_notes p' = pj_notes ex_project /\ length (pj_notes (cmd_undo c p')) = 5%nat) /\
  (exists a b p' c, edit_run (EBulkAdd (mkModels [] [a; b] [] [] [])) ex_project = Ret (Some (p', c)) /\
     length (pj_bars (cmd_undo c p')) <> length (pj_bars ex_project)).
Proof.
  split.
  - exists (ex_note 77 SD). do 2 eexists. split; [vm_compute; reflexivity|]. split; vm_compute; reflexivity.
  - exists (mkBar 500 None None 0), (mkBar 500 None (Some 1) 0). do 2 eexists.
    split; [vm_compute; reflexivity|]. vm_compute. discriminate.
Qed.
Print Assumptions C28_ill_formed_refuted.

Definition ex_change : model_changes :=
  mkChanges [(ex_note 480 SG, ex_note 700 SB)]
    [(mkBar 1920 (Some (mkRhythm 3 D4)) (Some 2) 0, mkBar 960 (Some (mkRhythm 2 D4)) None 0)] [(mkTempo 0 100, mkTempo 960 60)]
    [(mkCtrl 480 127 0, mkCtrl 3000 64 0)] [].

Lemma ex_change_wf : edit_wf (EChange ex_change) ex_project /\ edit_typed (EChange ex_change).
Proof.
  split.
  - split; constructor; unfold distinct_ticks; cbn; try (repeat constructor; cbn; tauto);
      try (intros v [<-|[]]; cbn; tauto); try (intros v []).
    exists [ex_note 0 SC; ex_note 480 SE; ex_note 1600 SA]. apply perm_trans with [ex_note 0 SC; ex_note 480 SG; ex_note 480 SE; ex_note 1600 SA].
    + apply perm_skip, perm_swap.
    + apply perm_swap.
  - split; constructor; cbn; repeat constructor; unfold u32, u32_max; cbn; lia.
Qed.

(** What undoing any edit gives, whatever the edit was given. *)
Theorem C28_any : forall e out into p p' c,
  project_ok p -> edit_typed e -> moves e out into -> edit_run e p = Ret (Some (p', c)) ->
  undone p out into (cmd_undo c p').
Proof. intros e out into p p' c O T M E. exact (edit_undone e p p' c out into O T M E). Qed.
Print Assumptions C28_any.

(** So undo restores the project exactly if what is taken out was there, and
    where several elements are put at one tick, the last but one was there. *)
Theorem C28_exact : forall e out into p p' c,
  project_ok p -> edit_typed e -> moves e out into -> edit_run e p = Ret (Some (p', c)) ->
  (same_project (cmd_undo c p') p <-> undoable p out into).
Proof.
  intros e out into p p' c O T M E. destruct (moves_typed _ _ _ M T) as [TF TA].
  pose proof (edit_undone e p p' c out into O T M E) as U.
  destruct (edit_runs e p out into M) as [R|R]; rewrite R in E; [discriminate|].
  destruct (runs_ok _ _ _ _ _ _ O TF TA E) as [O' Tc]. apply undone_same; auto. apply cmd_undo_ok; auto.
Qed.
Print Assumptions C28_exact.

Example C28_exact_case : let m := mkModels [] [mkBar 960 None (Some 3) 0] [] [] [] in
  project_ok ex_project /\ edit_typed (EBulkRemove m) /\ moves (EBulkRemove m) m models_empty /\ ~ edit_wf (EBulkRemove m) ex_project.
Proof.
  split; [exact ex_project_ok|]. split; [split; repeat constructor; cbn; unfold u32_max; lia|]. split; [constructor|].
  intro W. destruct W as [_ B _ _ _]. specialize (B _ (or_introl eq_refl)). cbn in B. in_list; discriminate.
Qed.

(** A bar removed by a tick, with other contents than those that are there, comes
    back with the given contents; of two tempos put at one tick the first stays. *)
Example C28_any_case : exists p1 c1 p2 c2,
  edit_run (EBulkRemove (mkModels [] [mkBar 960 None (Some 3) 0] [] [] [])) ex_project = Ret (Some (p1, c1)) /\
  pj_bars (cmd_undo c1 p1) = [(960, mkBar 960 None (Some 3) 0); (1920, mkBar 1920 (Some (mkRhythm 3 D4)) (Some 2) 0)] /\
  edit_run (EBulkAdd (mkModels [] [] [mkTempo 960 70; mkTempo 960 80] [] [])) ex_project = Ret (Some (p2, c2)) /\
  pj_tempos (cmd_undo c2 p2) = [(0, mkTempo 0 100); (960, mkTempo 960 70)] /\
  ~ same_project (cmd_undo c2 p2) ex_project.
Proof.
  do 4 eexists. split; [vm_compute; reflexivity|]. split; [vm_compute; reflexivity|].
  split; [vm_compute; reflexivity|]. split; [vm_compute; reflexivity|].
  intros S. pose proof (same_tempos _ _ S) as E. vm_compute in E. discriminate.
Qed.

(** A change that moves a bar onto another one and makes new bars necessary. *)
Example C28_example : exists p' c,
  edit_run (EChange ex_change) ex_project = Ret (Some (p', c)) /\
  map fst (pj_bars p') = [960; 1440; 1920; 2400; 2880; 3360] /\ map fst (pj_tempos p') = [960] /\
  cmd_undo c p' = ex_project.
Proof.
  do 2 eexists. split; [vm_compute; reflexivity|]. repeat split; vm_compute; reflexivity.
Qed.

(** * C29 *)
Theorem C29_redo : forall e p p' c, project_ok p -> edit_typed e -> edit_wf e p ->
  edit_run e p = Ret (Some (p', c)) ->
  same_project (cmd_redo c p) p' /\ same_project (cmd_redo c (cmd_undo c p')) p'.
Proof.
  intros e p p' c O T W E. pose proof (edit_ok e p p' c O T E) as [O' _]. pose proof (edit_did e p p' c O T W E) as D.
  assert (R : same_project (cmd_redo c p) p') by (apply did_redo; auto). split; auto.
  apply same_trans with (cmd_redo c p); [apply cmd_redo_cong, did_undo; auto|exact R].
Qed.
Print Assumptions C29_redo.

Example C29_example : exists p' c,
  edit_run (EChange ex_change) ex_project = Ret (Some (p', c)) /\ cmd_redo c ex_project = p' /\
  edit_wf (EChange ex_change) ex_project.
Proof.
  do 2 eexists. split; [vm_compute; reflexivity|]. split; [vm_compute; reflexivity|exact (proj1 ex_change_wf)].
Qed.

(** Where a command was recorded, doing it again gives exactly the project the edit
    gave, also if the edit was given things that are not there or several elements
    for one tick. *)
Theorem C29_again : forall e p p' c, project_ok p -> edit_typed e ->
  edit_run e p = Ret (Some (p', c)) -> cmd_redo c p = p'.
Proof. exact edit_again. Qed.
Print Assumptions C29_again.

Example C29_again_case : let m := mkModels [] [mkBar 500 None None 0; mkBar 500 None (Some 1) 0] [] [] [] in
  edit_typed (EBulkAdd m) /\ ~ edit_wf (EBulkAdd m) ex_project /\
  exists p' c, edit_run (EBulkAdd m) ex_project = Ret (Some (p', c)) /\ p' <> ex_project /\
    ~ same_project (cmd_undo c p') ex_project.
Proof.
  cbv zeta. split; [|split].
  - constructor; cbn [m_notes m_bars m_tempos m_dumpers m_softs]; repeat constructor; cbn; unfold u32_max; lia.
  - intros [W _ _ _]. unfold distinct_ticks in W. cbn in W. inversion W as [|? ? X _]. apply X. left. reflexivity.
  - do 2 eexists. split; [vm_compute; reflexivity|]. split; [vm_compute; discriminate|].
    intros S. apply same_bars in S. revert S. vm_compute. discriminate.
Qed.

(** * C30 *)

(** Any history of edits, undos and redos shows what an editor that stores full
    snapshots would show; it returns normally exactly if that one does; as many
    steps can be undone and redone, at most the configured number. *)
Theorem C30_snapshots : forall p limit os,
  project_ok p -> hist_wf (mkSnap [] p [] limit) os ->
  (forall h, hist_run (history_new p limit) os = Ret h ->
     exists s, snap_run (mkSnap [] p [] limit) os = Ret s /\
       same_project (h_model h) (sn_now s) /\
       length (h_undo h) = length (sn_past s) /\ length (h_redo h) = length (sn_future s) /\
       (length (h_undo h) + length (h_redo h) <= limit)%nat) /\
  (forall s, snap_run (mkSnap [] p [] limit) os = Ret s -> exists h, hist_run (history_new p limit) os = Ret h).
Proof.
  intros p limit os O W. pose proof (sim_new p limit O) as S. split.
  - intros h E. destruct (sim_run os _ _ h S W E) as [s [E' S']]. exists s. split; auto.
    destruct (limit_run os (history_new p limit) h) as [L1 L2]; [cbn; lia|auto|].
    destruct S'. repeat split; try apply sim_now; auto.
    + eapply past_length; eauto.
    + eapply future_length; eauto.
    + rewrite L2 in L1. exact L1.
  - intros s E. destruct (sim_run_back os _ _ s S W E) as [h [E' _]]. eauto.
Qed.
Print Assumptions C30_snapshots.

Definition ex_history : list hop :=
  [HEdit (EAddNote (ex_note 3000 SC)); HEdit (EChange ex_change); HUndo; HUndo; HRedo;
   HEdit (EAddBar (mkBar 960 None (Some 3) 0)); HEdit (ESetKey 5); HUndo].

Lemma ex_history_wf : hist_wf (mkSnap [] ex_project [] 10) ex_history.
Proof.
  cbn [ex_history hist_wf]. split; [split; exact I|].
  match goal with |- match ?x with _ => _ end => let v := eval vm_compute in x in change x with v end. cbv iota.
  split.
  { split; [|exact (proj2 ex_change_wf)]. split; constructor; unfold distinct_ticks; cbn; try (repeat constructor; cbn; tauto);
      try (intros v [<-|[]]; cbn; tauto); try (intros v []).
    exists [ex_note 0 SC; ex_note 480 SE; ex_note 1600 SA; ex_note 3000 SC].
    apply perm_trans with [ex_note 0 SC; ex_note 480 SG; ex_note 480 SE; ex_note 1600 SA; ex_note 3000 SC].
    - apply perm_skip, perm_swap.
    - apply perm_swap. }
  match goal with |- match ?x with _ => _ end => let v := eval vm_compute in x in change x with v end. cbv iota.
  split; [exact I|]. cbn [snap_step snap_undo sn_past sn_now sn_future sn_limit].
  split; [exact I|]. cbn [snap_step snap_undo sn_past sn_now sn_future sn_limit].
  split; [exact I|]. cbn [snap_step snap_redo sn_past sn_now sn_future sn_limit].
  split; [split; [exact I|unfold edit_typed, u32, u32_max; cbn; lia]|].
  match goal with |- match ?x with _ => _ end => let v := eval vm_compute in x in change x with v end. cbv iota.
  split; [split; exact I|].
  match goal with |- match ?x with _ => _ end => let v := eval vm_compute in x in change x with v end. cbv iota.
  split; [exact I|]. exact I.
Qed.

Example C30_example : hist_wf (mkSnap [] ex_project [] 10) ex_history /\
  exists h, hist_run (history_new ex_project 10) ex_history = Ret h /\
    map fst (pj_bars (h_model h)) = [960; 1920; 2640; 3360] /\ pj_key (h_model h) = 0 /\
    length (h_undo h) = 2%nat /\ length (h_redo h) = 1%nat.
Proof.
  split; [exact ex_history_wf|]. eexists. split; [vm_compute; reflexivity|]. repeat split; vm_compute; reflexivity.
Qed.

(** * C31 *)

(** Whatever snapshot (the project as it was k commands ago, saved and loaded) the
    recovery starts from, redoing the recorded commands since then gives the
    project as it was after the last command. *)
Theorem C31_recovery : forall p limit os h s k q,
  project_ok p -> hist_wf (mkSnap [] p [] limit) os ->
  hist_run (history_new p limit) os = Ret h -> snap_run (mkSnap [] p [] limit) os = Ret s ->
  nth_error (sn_now s :: sn_past s) k = Some q ->
  same_project (replay (import (export q)) (rev (firstn k (h_undo h)))) (h_model h).
Proof.
  intros p limit os h s k q O W E E' N. destruct (sim_run os _ _ h (sim_new p limit O) W E) as [s' [E'' S]].
  rewrite E' in E''. apply ret_inj in E''. subst s'. destruct S.
  eapply same_trans; [|apply same_sym; exact sim_now].
  eapply replay_past; eauto. rewrite import_export; [apply same_refl|].
  clear - sim_past sim_ok' N. revert k N. remember (sn_now s) as x. remember (sn_past s) as y. clear Heqx Heqy.
  induction sim_past; intros k N; (destruct k as [|k]; [cbn in N; inversion N; subst; auto|]).
  - destruct k; discriminate.
  - cbn [nth_error] in N. apply IHsim_past with k; auto.
Qed.
Print Assumptions C31_recovery.

(** After any operations at all, if only edits follow (as many as can be undone), then
    redoing what they recorded, from the project as it was before them, saved and
    loaded, gives exactly the project as it is after them.  No condition on what the
    edits are given. *)
Theorem C31_edits : forall p limit os h1 es h,
  project_ok p -> Forall hop_typed os -> hist_run (history_new p limit) os = Ret h1 ->
  Forall edit_typed es -> hist_run h1 (map HEdit es) = Ret h ->
  let k := length (filter records es) in (k <= limit)%nat ->
  replay (import (export (h_model h1))) (rev (firstn k (h_undo h))) = h_model h.
Proof.
  intros p limit os h1 es h O T E1 TE E k L.
  assert (O1 : hist_ok h1) by (apply (hist_ok_run os (history_new p limit) h1); auto; split; [exact O|split; constructor]).
  destruct (limit_run os (history_new p limit) h1) as [_ LM]; [cbn; lia|exact E1|]. cbn in LM.
  destruct (edits_again es h1 h (proj1 O1) TE E) as (new & LN & _ & U & R & _).
  rewrite (import_export _ (proj1 O1)), <- R. f_equal.
  assert (X : firstn k (h_undo h) = rev new).
  { rewrite LM in U. apply (f_equal (firstn k)) in U. rewrite !firstn_firstn, !Nat.min_l in U by exact L.
    rewrite U. unfold k. rewrite <- LN, <- (rev_length new), firstn_app, Nat.sub_diag, firstn_all, app_nil_r. reflexivity. }
  rewrite X, rev_involutive. reflexivity.
Qed.
Print Assumptions C31_edits.

(** With such edits undone again, the stored commands do not give the project that
    was shown: the one that was shown before has one bar more. *)
Theorem C31_undone_refuted : exists e h, edit_typed e /\
  hist_run (history_new ex_project 10) [HEdit e; HUndo] = Ret h /\
  h_undo h = [] /\ ~ same_project (replay (import (export ex_project)) (rev (h_undo h))) (h_model h).
Proof.
  exists (EBulkAdd (mkModels [] [mkBar 500 None None 0; mkBar 500 None (Some 1) 0] [] [] [])). eexists.
  split; [constructor; cbn [m_notes m_bars m_tempos m_dumpers m_softs]; repeat constructor; cbn; unfold u32_max; lia|].
  split; [vm_compute; reflexivity|]. split; [reflexivity|].
  intros S. apply same_bars in S. revert S. vm_compute. discriminate.
Qed.
Print Assumptions C31_undone_refuted.

Example C31_edits_case :
  let es := [EBulkRemove (mkModels [ex_note 77 SD] [mkBar 7 None None 0] [] [] []); ETuplize [ex_note 0 SC];
             EBulkAdd (mkModels [ex_note 3000 SC] [mkBar 500 None None 0; mkBar 500 None (Some 1) 0] [] [] [])] in
  Forall hop_typed ex_history /\ Forall edit_typed es /\ length (filter records es) = 2%nat /\
  exists h1 h, hist_run (history_new ex_project 10) ex_history = Ret h1 /\ hist_run h1 (map HEdit es) = Ret h /\
    map fst (pj_bars (h_model h)) = [500; 960; 1920; 2640; 3360] /\ length (h_undo h) = 4%nat.
Proof.
  cbv zeta. split; [|split; [|split]].
  - unfold ex_history. repeat apply Forall_cons; try exact I; try apply Forall_nil.
    + exact (proj2 ex_change_wf).
    + unfold hop_typed, edit_typed, u32, u32_max. cbn. lia.
  - repeat apply Forall_cons; try exact I; try apply Forall_nil;
      (constructor; cbn [m_notes m_bars m_tempos m_dumpers m_softs]; repeat constructor; cbn; unfold u32_max; lia).
  - reflexivity.
  - do 2 eexists. split; [vm_compute; reflexivity|]. split; [vm_compute; reflexivity|]. split; vm_compute; reflexivity.
Qed.

Example C31_example : exists h s q,
  hist_run (history_new ex_project 10) ex_history = Ret h /\
  snap_run (mkSnap [] ex_project [] 10) ex_history = Ret s /\
  nth_error (sn_now s :: sn_past s) 2 = Some q /\ q = ex_project /\
  replay (import (export q)) (rev (firstn 2 (h_undo h))) = h_model h /\ h_model h <> q.
Proof.
  do 3 eexists. split; [vm_compute; reflexivity|]. split; [vm_compute; reflexivity|].
  split; [cbn [nth_error sn_now sn_past]; reflexivity|]. split; [reflexivity|].
  split; [vm_compute; reflexivity|]. vm_compute. discriminate.
Qed.

(** * C32 *)
Theorem C32_invariant : forall p limit os h, project_ok p -> Forall hop_typed os ->
  hist_run (history_new p limit) os = Ret h -> project_ok (h_model h).
Proof.
  intros p limit os h O T E. apply (hist_ok_run os (history_new p limit) h); auto.
  split; [exact O|]. split; constructor.
Qed.
Print Assumptions C32_invariant.

Theorem C32_initial : project_ok project_default /\
  (forall e, models_typed (ex_models e) -> project_ok (import e)).
Proof.
  split; [constructor; (split; [constructor|intros k n []])|]. exact import_ok.
Qed.
Print Assumptions C32_initial.

(** Also after an ill-formed edit (a note removed that is not there, two bars at one tick). *)
Example C32_example :
  let os := [HEdit (EBulkRemove (mkModels [ex_note 5 SD] [] [] [] []));
             HEdit (EBulkAdd (mkModels [] [mkBar 500 None None 0; mkBar 500 None (Some 1) 0] [] [] [])); HUndo; HUndo] in
  Forall hop_typed os /\ exists h, hist_run (history_new ex_project 5) os = Ret h /\
    map fst (pj_bars (h_model h)) = [500; 960; 1920] /\ map fst (pj_notes (h_model h)) = [0; 5; 480; 480; 1600].
Proof.
  cbv zeta. split.
  - repeat constructor; unfold u32, u32_max; cbn; lia.
  - eexists. split; [vm_compute; reflexivity|]. split; vm_compute; reflexivity.
Qed.

(** * C33 *)
Theorem C33_export_import : forall p, project_ok p -> import (export p) = p.
Proof. exact import_export. Qed.
Print Assumptions C33_export_import.

(** Loading and saving a file sorts its elements and changes nothing else. *)
Theorem C33_import_export : forall e, models_typed (ex_models e) -> all_distinct (ex_models e) ->
  let e' := export (import e) in
  ex_rhythm e' = ex_rhythm e /\ ex_key e' = ex_key e /\ ex_grid e' = ex_grid e /\
  Permutation (m_notes (ex_models e')) (m_notes (ex_models e)) /\
  StronglySorted (fun a b => note_start_tick a <= note_start_tick b) (m_notes (ex_models e')) /\
  Permutation (m_bars (ex_models e')) (m_bars (ex_models e)) /\
  StronglySorted (fun a b => b_tick a < b_tick b) (m_bars (ex_models e')) /\
  Permutation (m_tempos (ex_models e')) (m_tempos (ex_models e)) /\
  StronglySorted (fun a b => tp_tick a < tp_tick b) (m_tempos (ex_models e')) /\
  Permutation (m_dumpers (ex_models e')) (m_dumpers (ex_models e)) /\
  StronglySorted (fun a b => cc_tick a < cc_tick b) (m_dumpers (ex_models e')) /\
  Permutation (m_softs (ex_models e')) (m_softs (ex_models e)) /\
  StronglySorted (fun a b => cc_tick a < cc_tick b) (m_softs (ex_models e')).
Proof.
  intros e T D e'. destruct (export_import e D) as [A1 [A2 [A3 [A4 [A5 [A6 [A7 A8]]]]]]].
  destruct (import_ok e T) as [[N1 N2] [B1 B2] [T1 T2] [D1 D2] [S1 S2]].
  do 3 (split; [assumption|]). split; [exact A4|].
  split; [apply (map_sorted note_start_tick Z.le); auto|]. split; [exact A5|].
  split; [apply (map_sorted b_tick Z.lt); auto; intros k v I; apply B2 in I; tauto|]. split; [exact A6|].
  split; [apply (map_sorted tp_tick Z.lt); auto; intros k v I; apply T2 in I; tauto|]. split; [exact A7|].
  split; [apply (map_sorted cc_tick Z.lt); auto; intros k v I; apply D2 in I; tauto|]. split; [exact A8|].
  apply (map_sorted cc_tick Z.lt); auto; intros k v I; apply S2 in I; tauto.
Qed.
Print Assumptions C33_import_export.

Example C33_import_export_case : let m := mkModels [ex_note 480 SE; ex_note 0 SC] [mkBar 960 None None 0; mkBar 100 None None 0] [mkTempo 7 90] [] [] in
  models_typed m /\ all_distinct m.
Proof.
  split; constructor; unfold distinct_ticks; cbn; repeat constructor; cbn; unfold u32_max; try lia; intuition lia.
Qed.

(** Whatever a file contains: the project has all its notes and, at every tick, the
    last of the elements that the file gives for it. *)
Theorem C33_loaded : forall e, let p := import e in
  pj_rhythm p = ex_rhythm e /\ pj_key p = ex_key e /\ pj_grid p = ex_grid e /\
  Permutation (map snd (pj_notes p)) (m_notes (ex_models e)) /\
  written_over b_tick [] [] (m_bars (ex_models e)) (pj_bars p) /\
  written_over tp_tick [] [] (m_tempos (ex_models e)) (pj_tempos p) /\
  written_over cc_tick [] [] (m_dumpers (ex_models e)) (pj_dumpers p) /\
  written_over cc_tick [] [] (m_softs (ex_models e)) (pj_softs p).
Proof.
  intros e p. subst p. unfold import. cbn [pj_rhythm pj_key pj_grid pj_notes pj_bars pj_tempos pj_dumpers pj_softs].
  rewrite !bulk_add_fst. do 3 (split; [reflexivity|]). split.
  - pose proof (Permutation_map snd (b_bulk_add_perm note (map note_entry (m_notes (ex_models e))) [])) as P.
    rewrite app_nil_r, map_map in P. cbn [note_entry snd] in P. rewrite map_id in P. exact P.
  - split; [|split; [|split]].
    + exact (add_all_written b_tick [] (m_bars (ex_models e)) [] (SSorted_nil _)).
    + exact (add_all_written tp_tick [] (m_tempos (ex_models e)) [] (SSorted_nil _)).
    + exact (add_all_written cc_tick [] (m_dumpers (ex_models e)) [] (SSorted_nil _)).
    + exact (add_all_written cc_tick [] (m_softs (ex_models e)) [] (SSorted_nil _)).
Qed.
Print Assumptions C33_loaded.

Example C33_loaded_case : let e := mkExported rhythm_default 0 60
    (mkModels [] [mkBar 960 None None 0; mkBar 100 None None 0; mkBar 960 None (Some 3) 0] [] [] []) in
  ~ all_distinct (ex_models e) /\ pj_bars (import e) = [(100, mkBar 100 None None 0); (960, mkBar 960 None (Some 3) 0)].
Proof.
  split; [|reflexivity]. intros [D _ _ _]. unfold distinct_ticks in D. cbn in D. inversion D as [|? ? N _]. apply N. cbn. auto.
Qed.

Example C33_example : import (export ex_project) = ex_project /\
  map b_tick (m_bars (ex_models (export (import (mkExported rhythm_default 0 60
    (mkModels [] [mkBar 960 None None 0; mkBar 100 None None 0; mkBar 500 None None 0] [] [] [])))))) = [100; 500; 960].
Proof. split; vm_compute; reflexivity. Qed.

(** * C50 *)

(** An edit takes out exactly what it is told to, puts in exactly what it is
    told to (overwriting what is at the same tick), may append blank bars behind
    everything else, and leaves the rest alone. *)
Theorem C50_edit : forall e out into p p' c,
  project_ok p -> edit_typed e -> edit_wf e p -> moves e out into ->
  edit_run e p = Ret (Some (p', c)) ->
  exists more, exchanged p out into more p' /\ (may_append e = false -> more = []) /\
    Forall (fun b => b_rhythm b = None /\ b_key b = None /\ b_marks b = 0) more.
Proof.
  intros e out into p p' c O T W M E. destruct (moves_typed _ _ _ M T) as [TF TA]. destruct (moves_wf _ _ _ p M W) as [PF DA].
  destruct (edit_runs e p out into M) as [R|R]; rewrite R in E; [discriminate|].
  destruct (runs_exchanged _ _ _ _ _ _ O TA PF DA E) as [more [X [Y [Z _]]]]. exists more. split; auto. split; auto.
  eapply Forall_impl; [|exact Z]. intros b [H1 [H2 [H3 _]]]. auto.
Qed.
Print Assumptions C50_edit.

(** Nothing is recorded only by tuplizing fewer than two notes. *)
Theorem C50_recorded : forall e p, edit_run e p = Ret None <-> exists l, e = ETuplize l /\ (length l <= 1)%nat.
Proof. exact unrecorded. Qed.
Print Assumptions C50_recorded.

(** The settings. *)
Theorem C50_settings : forall p r k g,
  (exists p' c, edit_run (ESetRhythm r) p = Ret (Some (p', c)) /\ pj_rhythm p' = r /\ pj_key p' = pj_key p /\ pj_grid p' = pj_grid p /\
     export p' = mkExported r (pj_key p) (pj_grid p) (ex_models (export p))) /\
  (exists p' c, edit_run (ESetKey k) p = Ret (Some (p', c)) /\
     export p' = mkExported (pj_rhythm p) k (pj_grid p) (ex_models (export p))) /\
  (exists p' c, edit_run (ESetGrid g) p = Ret (Some (p', c)) /\
     export p' = mkExported (pj_rhythm p) (pj_key p) g (ex_models (export p))).
Proof.
  intros p r k g. split; [|split]; do 2 eexists; (split; [reflexivity|]); repeat split; reflexivity.
Qed.
Print Assumptions C50_settings.

(** Whatever an edit is given: what is told to be taken out and is there is taken out, the
    rest of it is ignored; of the elements told to be put at one tick the last stays. *)
Theorem C50_any : forall e out into p p' c,
  project_ok p -> edit_typed e -> moves e out into -> edit_run e p = Ret (Some (p', c)) ->
  exists more, rewritten p out into more p' /\ (may_append e = false -> more = []) /\
    Forall (fun b => b_rhythm b = None /\ b_key b = None /\ b_marks b = 0) more /\
    NoDup (map b_tick more) /\ forall b b', In b more -> In b' (m_bars into) -> b_tick b' < b_tick b.
Proof.
  intros e out into p p' c O T M E. destruct (moves_typed _ _ _ M T) as [TF TA].
  destruct (edit_runs e p out into M) as [R|R]; rewrite R in E; [discriminate|].
  destruct (runs_rewritten _ _ _ _ _ _ O TA E) as [more [X [Y [Z N]]]]. exists more. split; auto. split; auto.
  split; [eapply Forall_impl; [|exact Z]; intros b [H1 [H2 [H3 _]]]; auto|]. split; [exact N|].
  intros b b' I J. rewrite Forall_forall in Z. destruct (Z _ I) as (_ & _ & _ & Q).
  destruct (add_all_key (map bar_entry (m_bars into)) (remove_keys (map b_tick (m_bars out)) (pj_bars p)) (b_tick b')) as [v W].
  - apply remove_keys_sorted, (keyed_srt _ _ (ok_bars _ O)).
  - rewrite map_map. cbn [bar_entry fst]. apply in_map. exact J.
  - apply (Q _ v). exact W.
Qed.
Print Assumptions C50_any.

Example C50_any_case :
  let m := mkModels [ex_note 77 SD] [mkBar 7 None None 0; mkBar 960 None None 0] [] [] [] in
  let a := mkModels [] [mkBar 500 None None 0; mkBar 500 None (Some 1) 0] [] [] [] in
  edit_typed (EBulkRemove m) /\ ~ edit_wf (EBulkRemove m) ex_project /\
  edit_typed (EBulkAdd a) /\ ~ edit_wf (EBulkAdd a) ex_project /\
  exists p' c q' d, edit_run (EBulkRemove m) ex_project = Ret (Some (p', c)) /\ pj_notes p' = pj_notes ex_project /\
    map fst (pj_bars p') = [1920] /\
    edit_run (EBulkAdd a) ex_project = Ret (Some (q', d)) /\
    map (fun kb => (fst kb, b_key (snd kb))) (pj_bars q') = [(500, Some 1); (960, None); (1920, Some 2)].
Proof.
  cbv zeta. split; [|split; [|split; [|split]]].
  - constructor; cbn [m_notes m_bars m_tempos m_dumpers m_softs]; repeat constructor; cbn; unfold u32_max; lia.
  - intros [_ W _ _ _]. assert (I : In (7, mkBar 7 None None 0) (pj_bars ex_project)) by (apply (W (mkBar 7 None None 0)); left; reflexivity).
    cbn in I. intuition discriminate.
  - constructor; cbn [m_notes m_bars m_tempos m_dumpers m_softs]; repeat constructor; cbn; unfold u32_max; lia.
  - intros [W _ _ _]. unfold distinct_ticks in W. cbn in W. inversion W as [|? ? X _]. apply X. left. reflexivity.
  - do 4 eexists. split; [vm_compute; reflexivity|]. split; [vm_compute; reflexivity|]. split; [vm_compute; reflexivity|].
    split; vm_compute; reflexivity.
Qed.

Example C50_example : edit_wf (EChange ex_change) ex_project /\ moves (EChange ex_change) (changes_from ex_change) (changes_to ex_change) /\
  exists p' c, edit_run (EChange ex_change) ex_project = Ret (Some (p', c)) /\
    map (fun kn => fst kn) (pj_notes p') = [0; 480; 700; 1600] /\ map fst (pj_dumpers p') = [900; 3000].
Proof.
  split; [exact (proj1 ex_change_wf)|]. split; [constructor|]. do 2 eexists. split; [vm_compute; reflexivity|].
  split; vm_compute; reflexivity.
Qed.
