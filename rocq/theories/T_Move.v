(** Property theorems about moving elements in several steps, there and back, or some of them first: C88. *)
From Coq Require Import ZArith List Bool Lia Sorted Permutation.
From Verif Require Import Base M_Pitch M_Duration M_Percent M_Scalar M_Bar M_Note M_Store M_Tuple M_Models M_Project.
From Verif Require Import S_Project S_Score S_Effect S_Safe S_Move P_Base P_Store P_Query P_Replenish P_Edit P_History P_Effect.
From Verif Require T_Project T_Safe.
Import ListNotations.
Open Scope Z_scope.

(** What is at [k] when [out] is taken away and [into] put in. *)
Definition then_at {V} (tick : V -> Z) (s : list (Z * V)) (out into : list V) (k : Z) (v : V) : Prop :=
  (In v into /\ k = tick v) \/ (~ In k (map tick into) /\ ~ In k (map tick out) /\ In (k, v) s).
Lemma then_over {V} (tick : V -> Z) s out into s' : overwritten tick s (map tick out) into s' <-> forall k v, In (k, v) s' <-> then_at tick s out into k v.
Proof. reflexivity. Qed.
Lemma tick_in {V} (tick : V -> Z) l v k : In v l -> k = tick v -> In k (map tick l).
Proof. intros I ->. apply in_map. exact I. Qed.
Lemma key_in {V} (s : list (Z * V)) k v : In (k, v) s -> In k (map fst s).
Proof. intros I. apply (in_map fst) in I. exact I. Qed.

(** A project after moves: as told, but for blank bars. *)
Record moved (p : project) (out into : models) (q : project) : Prop := mkMoved {
  mo_settings : pj_rhythm q = pj_rhythm p /\ pj_key q = pj_key p /\ pj_grid q = pj_grid p;
  mo_notes : Permutation (map snd (pj_notes q) ++ m_notes out) (map snd (pj_notes p) ++ m_notes into);
  mo_bars : forall k b, then_at b_tick (pj_bars p) (m_bars out) (m_bars into) k b -> In (k, b) (pj_bars q);
  mo_blank : forall k b, In (k, b) (pj_bars q) -> then_at b_tick (pj_bars p) (m_bars out) (m_bars into) k b \/
    blank b /\ forall b', ~ then_at b_tick (pj_bars p) (m_bars out) (m_bars into) k b';
  mo_tempos : forall k v, In (k, v) (pj_tempos q) <-> then_at tp_tick (pj_tempos p) (m_tempos out) (m_tempos into) k v;
  mo_dumpers : forall k v, In (k, v) (pj_dumpers q) <-> then_at cc_tick (pj_dumpers p) (m_dumpers out) (m_dumpers into) k v;
  mo_softs : forall k v, In (k, v) (pj_softs q) <-> then_at cc_tick (pj_softs p) (m_softs out) (m_softs into) k v;
}.

(** One change. *)
Lemma change_step p c p' k : project_ok p -> edit_typed (EChange c) -> edit_wf (EChange c) p -> edit_run (EChange c) p = Ret (Some (p', k)) ->
  project_ok p' /\ exists more, exchanged p (changes_from c) (changes_to c) more p' /\ Forall blank more /\
    forall b t v, In b more -> then_at b_tick (pj_bars p) (m_bars (changes_from c)) (m_bars (changes_to c)) t v -> t < b_tick b.
Proof.
  intros O T W E. split; [apply (edit_ok (EChange c) p p' k O T E)|]. cbn [edit_run edit_wf edit_typed] in *. rewrite change_runs in E. destruct W as [W1 W2], T as [T1 T2].
  destruct (runs_exchanged _ _ _ _ _ _ O T2 W1 W2 E) as (more & X & _ & F & _). exists more. split; [exact X|]. split.
  { eapply Forall_impl; [|exact F]. intros b (A & B & C & _). repeat split; auto. }
  intros b t v I H. rewrite Forall_forall in F. destruct (F b I) as (_ & _ & _ & L). apply (L t v).
  cbn [exchange pj_bars]. apply (add_all_overwritten b_tick); [apply (keyed_srt _ _ (ok_bars _ O))|apply W2|exact H].
Qed.

Lemma moved_one p c p' k : project_ok p -> edit_typed (EChange c) -> edit_wf (EChange c) p -> edit_run (EChange c) p = Ret (Some (p', k)) ->
  project_ok p' /\ moved p (changes_from c) (changes_to c) p'.
Proof.
  intros O T W E. destruct (change_step p c p' k O T W E) as (O' & more & [X1 X2 X3 X4 X5 X6] & B & L). split; [exact O'|]. constructor; auto.
  - intros t b H. apply X3. destruct H as [[I ->]|(N1 & N2 & I)]; [left; split; [apply in_app_iff; auto|reflexivity]|]. right.
    split; [|auto]. rewrite map_app, in_app_iff. intros [M|M]; [auto|]. apply in_map_iff in M as (g & <- & M).
    assert (b_tick g < b_tick g); [|lia]. apply (L g _ b M). right. auto.
  - intros t b H. apply X3 in H as [[I ->]|(N1 & N2 & I)].
    + apply in_app_iff in I as [I|I]; [left; left; auto|]. right. rewrite Forall_forall in B. split; [auto|]. intros b' H. apply (L b) in H; [lia|exact I].
    + left. right. rewrite map_app, in_app_iff in N1. auto.
Qed.

(** A step that goes on. *)
Lemma on_store {V} (tick : V -> Z) s out into into2 s1 s2 : free tick s out into ->
  (forall k v, In (k, v) s1 <-> then_at tick s out into k v) -> overwritten tick s1 (map tick into) into2 s2 ->
  forall k v, In (k, v) s2 <-> then_at tick s out into2 k v.
Proof.
  intros F H1 H2 k v. rewrite (H2 k v). split; intros [A|(N1 & N2 & A)]; [left; exact A| |left; exact A|]; right; (split; [exact N1|]).
  - apply H1 in A as [[I ->]|(N3 & N4 & A)]; [|auto]. exfalso. apply N2, in_map, I.
  - assert (N : ~ In k (map tick into)).
    { intros I. apply in_map_iff in I as (x & <- & I). destruct (F x I) as [J|J]; [auto|]. apply J, (key_in s _ _ A). }
    split; [exact N|]. apply H1. right. auto.
Qed.
Lemma on_bars s out into into2 more s1 s2 : free b_tick s out into ->
  (forall k b, then_at b_tick s out into k b -> In (k, b) s1) ->
  (forall k b, In (k, b) s1 -> then_at b_tick s out into k b \/ blank b /\ forall b', ~ then_at b_tick s out into k b') ->
  overwritten b_tick s1 (map b_tick into) (into2 ++ more) s2 -> Forall blank more -> (forall b t v, In b more -> then_at b_tick s1 into into2 t v -> t < b_tick b) ->
  (forall k b, then_at b_tick s out into2 k b -> In (k, b) s2) /\
  (forall k b, In (k, b) s2 -> then_at b_tick s out into2 k b \/ blank b /\ forall b', ~ then_at b_tick s out into2 k b').
Proof.
  intros F H1 H2 H3 B L.
  assert (K : forall k b, ~ In k (map b_tick out) -> In (k, b) s -> ~ In k (map b_tick into) /\ In (k, b) s1).
  { intros k b N A. assert (N' : ~ In k (map b_tick into)).
    { intros I. apply in_map_iff in I as (x & <- & I). destruct (F x I) as [J|J]; [auto|]. apply J, (key_in s _ _ A). }
    split; [exact N'|]. apply H1. right. auto. }
  split.
  - intros k b [[I ->]|(N1 & N2 & I)]; apply H3; [left; split; [apply in_app_iff; auto|reflexivity]|]. right. destruct (K k b N2 I) as [N3 I1]. split; [|auto].
    rewrite map_app, in_app_iff. intros [M|M]; [auto|]. apply in_map_iff in M as (g & <- & M).
    assert (b_tick g < b_tick g); [|lia]. apply (L g _ b M). right. auto.
  - intros k b I. apply H3 in I as [[I ->]|(N1 & N2 & I)].
    + apply in_app_iff in I as [I|I]; [left; left; auto|]. right. split; [rewrite Forall_forall in B; auto|].
      intros b' [[J E]|(N3 & N4 & J)].
      * assert (b_tick b < b_tick b); [|lia]. apply (L b _ b' I). left. auto.
      * destruct (K _ b' N4 J) as [N5 J1]. assert (b_tick b < b_tick b); [|lia]. apply (L b _ b' I). right. auto.
    + rewrite map_app, in_app_iff in N1. destruct (H2 k b I) as [[[J ->]|(N3 & N4 & J)]|[BL NO]].
      * exfalso. apply N2, in_map, J.
      * left. right. auto.
      * right. split; [exact BL|]. intros b' [[J ->]|(N3 & N4 & J)]; [apply N1; left; apply in_map, J|]. apply (NO b'). right. auto.
Qed.

Lemma moved_present p out into q : project_ok p -> all_present p out -> moved p out into q -> all_present q into.
Proof.
  intros O [P1 _ _ _ _] M. constructor.
  - destruct P1 as [rest P1]. exists rest. pose proof (mo_notes _ _ _ _ M) as N. rewrite P1 in N.
    apply (Permutation_app_inv_r (m_notes out)). rewrite N, <- app_assoc. rewrite (Permutation_app_comm (m_notes out)), <- app_assoc.
    rewrite (Permutation_app_comm rest). rewrite <- !app_assoc. apply Permutation_app_head. apply Permutation_app_comm.
  - intros v I. apply (mo_bars _ _ _ _ M). left. auto.
  - intros v I. apply (mo_tempos _ _ _ _ M). left. auto.
  - intros v I. apply (mo_dumpers _ _ _ _ M). left. auto.
  - intros v I. apply (mo_softs _ _ _ _ M). left. auto.
Qed.

Lemma moved_on p out into q d q' k : project_ok p -> project_ok q -> all_present p out -> moved p out into q -> all_free p out into -> changes_from d = into ->
  edit_typed (EChange d) -> all_distinct (changes_to d) -> edit_run (EChange d) q = Ret (Some (q', k)) -> project_ok q' /\ moved p out (changes_to d) q'.
Proof.
  intros O OQ P M [F1 F2 F3 F4] <- T D E.
  destruct (change_step q d q' k OQ T (conj (moved_present _ _ _ _ O P M) D) E) as (OQ' & more & [X1 X2 X3 X4 X5 X6] & B & L). split; [exact OQ'|].
  destruct M as [M1 M2 M3 M4 M5 M6 M7]. destruct (on_bars _ _ _ _ _ _ _ F1 M3 M4 X3 B L) as [B1 B2].
  constructor; auto; try (eapply on_store; eassumption).
  - destruct M1 as (A1 & A2 & A3), X1 as (C1 & C2 & C3). repeat split; congruence.
  - apply (Permutation_app_inv_r (m_notes (changes_from d))). rewrite <- !app_assoc.
    rewrite (Permutation_app_comm (m_notes out)), !app_assoc. rewrite X2. rewrite <- !app_assoc. rewrite (Permutation_app_comm (m_notes (changes_to d))), !app_assoc.
    rewrite M2. rewrite <- !app_assoc. apply Permutation_app_head, Permutation_app_comm.
Qed.

(** A further change of other elements. *)
Lemma part_store {V} (tick : V -> Z) s out into out2 into2 s1 s2 : elsewhere tick out2 into -> NoDup (map tick (into ++ into2)) ->
  (forall k v, In (k, v) s1 <-> then_at tick s out into k v) -> overwritten tick s1 (map tick out2) into2 s2 ->
  forall k v, In (k, v) s2 <-> then_at tick s (out ++ out2) (into ++ into2) k v.
Proof.
  intros F N H1 H2 k v. rewrite (H2 k v). unfold then_at at 1. rewrite !map_app, !in_app_iff. split.
  - intros [[A ->]|(N1 & N2 & A)]; [left; auto|]. apply H1 in A as [[I ->]|(N3 & N4 & A)]; [left; auto|]. right. intuition.
  - intros [[[A|A] ->]|(N1 & N2 & A)]; [|left; auto|].
    + right. split; [|split]; [| |apply H1; left; auto].
      * rewrite map_app in N. intros J. apply (in_map tick) in A. revert A J. revert N. generalize (tick v). intros t N A J.
        induction (map tick into) as [|x l IH]; [destruct A|]. inversion N as [|? ? N1 N2]; subst. destruct A as [->|A]; [apply N1, in_app_iff; auto|auto].
      * intros J. apply in_map_iff in J as (x & E & J). apply (F x J). rewrite E. apply in_map, A.
    + right. split; [intuition|]. split; [intuition|]. apply H1. right. intuition.
Qed.
Lemma apart_ticks {V} (tick : V -> Z) l l' v : NoDup (map tick (l ++ l')) -> In v l -> ~ In (tick v) (map tick l').
Proof.
  rewrite map_app. intros N A J. apply (in_map tick) in A. revert A J. revert N. generalize (tick v). intros t N A J.
  induction (map tick l) as [|x m IH]; [destruct A|]. inversion N as [|? ? N1 N2]; subst. destruct A as [->|A]; [apply N1, in_app_iff; auto|auto].
Qed.
Lemma part_bars s out into out2 into2 more s1 s2 : elsewhere b_tick out2 into -> NoDup (map b_tick (into ++ into2)) ->
  (forall k b, then_at b_tick s out into k b -> In (k, b) s1) ->
  (forall k b, In (k, b) s1 -> then_at b_tick s out into k b \/ blank b /\ forall b', ~ then_at b_tick s out into k b') ->
  overwritten b_tick s1 (map b_tick out2) (into2 ++ more) s2 -> Forall blank more -> (forall b t v, In b more -> then_at b_tick s1 out2 into2 t v -> t < b_tick b) ->
  (forall k b, then_at b_tick s (out ++ out2) (into ++ into2) k b -> In (k, b) s2) /\
  (forall k b, In (k, b) s2 -> then_at b_tick s (out ++ out2) (into ++ into2) k b \/ blank b /\ forall b', ~ then_at b_tick s (out ++ out2) (into ++ into2) k b').
Proof.
  intros F N H1 H2 H3 B L.
  assert (K : forall k b, then_at b_tick s (out ++ out2) (into ++ into2) k b -> then_at b_tick s1 out2 into2 k b).
  { intros k b. unfold then_at at 1. rewrite !map_app, !in_app_iff. intros [[[A|A] ->]|(N1 & N2 & A)]; [|left; auto|].
    - right. split; [apply (apart_ticks b_tick into); assumption|]. split; [|apply H1; left; auto].
      intros J. apply in_map_iff in J as (x & E & J). apply (F x J). rewrite E. apply in_map, A.
    - right. split; [intuition|]. split; [intuition|]. apply H1. right. intuition. }
  split.
  - intros k b H. apply K in H. apply H3. pose proof H as H'. destruct H as [[A ->]|(N1 & N2 & A)]; [left; split; [apply in_app_iff; auto|reflexivity]|].
    right. split; [|auto]. rewrite map_app, in_app_iff. intros [M|M]; [auto|]. apply in_map_iff in M as (g & <- & M).
    specialize (L g _ b M H'). lia.
  - intros k b I. apply H3 in I as [[I ->]|(N1 & N2 & I)].
    + apply in_app_iff in I as [I|I]; [left; left; split; [apply in_app_iff; auto|reflexivity]|]. right. rewrite Forall_forall in B. split; [auto|].
      intros b' H. apply K in H. specialize (L b _ b' I H). lia.
    + rewrite map_app, in_app_iff in N1. destruct (H2 k b I) as [[[J ->]|(N3 & N4 & J)]|[BL NO]].
      * left. left. split; [apply in_app_iff; auto|reflexivity].
      * left. right. rewrite !map_app, !in_app_iff. intuition.
      * right. split; [exact BL|]. intros b'. unfold then_at. rewrite !map_app, !in_app_iff. intros [[[J|J] ->]|(N3 & N4 & J)].
        -- apply (NO b'). left. auto.
        -- apply N1. left. apply in_map, J.
        -- apply (NO b'). right. intuition.
Qed.

Lemma nodup_right {A} (l l' : list A) : NoDup (l ++ l') -> NoDup l'.
Proof. induction l as [|x l IH]; cbn; intros N; [exact N|]. inversion N; auto. Qed.
Lemma nodup_left {A} (l l' : list A) : NoDup (l ++ l') -> NoDup l.
Proof. induction l as [|x l IH]; cbn; intros N; [constructor|]. inversion N as [|? ? N1 N2]; subst. constructor; [intros I; apply N1, in_app_iff; auto|auto]. Qed.
Definition m_plus (m m' : models) : models :=
  mkModels (m_notes m ++ m_notes m') (m_bars m ++ m_bars m') (m_tempos m ++ m_tempos m') (m_dumpers m ++ m_dumpers m') (m_softs m ++ m_softs m').
Lemma once_from c d : changes_from (at_once c d) = m_plus (changes_from c) (changes_from d).
Proof. unfold changes_from, at_once, m_plus. cbn. rewrite !map_app. reflexivity. Qed.
Lemma once_to c d : changes_to (at_once c d) = m_plus (changes_to c) (changes_to d).
Proof. unfold changes_to, at_once, m_plus. cbn. rewrite !map_app. reflexivity. Qed.

Lemma moved_part p out into q d q' k : project_ok p -> project_ok q -> moved p out into q ->
  all_present p (m_plus out (changes_from d)) -> all_elsewhere (changes_from d) out -> all_elsewhere (changes_from d) into -> all_distinct (m_plus into (changes_to d)) ->
  edit_typed (EChange d) -> edit_run (EChange d) q = Ret (Some (q', k)) -> project_ok q' /\ moved p (m_plus out (changes_from d)) (m_plus into (changes_to d)) q'.
Proof.
  intros O OQ M P FO [F1 F2 F3 F4] D T E.
  assert (P' : all_present q (changes_from d)).
  { destruct P as [P1 P2 P3 P4 P5], FO as [O1 O2 O3 O4]. destruct M as [M1 M2 M3 M4 M5 M6 M7]. constructor.
    - destruct P1 as [rest P1]. unfold m_plus in P1. cbn [m_notes] in P1. exists (rest ++ m_notes into). apply (Permutation_app_inv_r (m_notes out)).
      rewrite M2, P1, <- !app_assoc. rewrite (Permutation_app_comm (m_notes out)), <- !app_assoc. reflexivity.
    - intros v I. apply M3. right. split; [apply F1, I|]. split; [apply O1, I|]. apply P2, in_app_iff. auto.
    - intros v I. apply M5. right. split; [apply F2, I|]. split; [apply O2, I|]. apply P3, in_app_iff. auto.
    - intros v I. apply M6. right. split; [apply F3, I|]. split; [apply O3, I|]. apply P4, in_app_iff. auto.
    - intros v I. apply M7. right. split; [apply F4, I|]. split; [apply O4, I|]. apply P5, in_app_iff. auto. }
  assert (D' : all_distinct (changes_to d)).
  { destruct D as [D1 D2 D3 D4]. unfold distinct_ticks, m_plus in D1, D2, D3, D4. cbn [m_bars m_tempos m_dumpers m_softs] in D1, D2, D3, D4. rewrite map_app in D1, D2, D3, D4.
    constructor; eapply nodup_right; eassumption. }
  destruct (change_step q d q' k OQ T (conj P' D') E) as (OQ' & more & [X1 X2 X3 X4 X5 X6] & B & L). split; [exact OQ'|].
  destruct M as [M1 M2 M3 M4 M5 M6 M7], D as [D1 D2 D3 D4]. destruct (part_bars _ _ _ _ _ _ _ _ F1 D1 M3 M4 X3 B L) as [B1 B2].
  constructor; auto; try (eapply part_store; eassumption).
  - destruct M1 as (A1 & A2 & A3), X1 as (C1 & C2 & C3). repeat split; congruence.
  - unfold m_plus. cbn [m_notes]. rewrite (Permutation_app_comm (m_notes out)), !app_assoc, X2, <- !app_assoc.
    rewrite (Permutation_app_comm (m_notes (changes_to d))), !app_assoc. rewrite M2. reflexivity.
Qed.

(** Two projects moved to in the same way. *)
Definition same_models (m m' : models) : Prop :=
  Permutation (m_notes m) (m_notes m') /\ (forall b, In b (m_bars m) <-> In b (m_bars m')) /\ (forall b, In b (m_tempos m) <-> In b (m_tempos m')) /\
  (forall b, In b (m_dumpers m) <-> In b (m_dumpers m')) /\ (forall b, In b (m_softs m) <-> In b (m_softs m')).
Lemma then_same {V} (tick : V -> Z) s out into out' into' : (forall b, In b out <-> In b out') -> (forall b, In b into <-> In b into') ->
  forall k v, then_at tick s out into k v <-> then_at tick s out' into' k v.
Proof.
  intros A B k v. assert (C : forall l l' : list V, (forall b, In b l <-> In b l') -> (In k (map tick l) <-> In k (map tick l'))).
  { intros l l' H. rewrite !in_map_iff. split; intros (x & E & I); exists x; split; auto; apply H; auto. }
  unfold then_at. rewrite (B v), (C _ _ A), (C _ _ B). reflexivity.
Qed.
Lemma store_eq {V} (tick : V -> Z) (s s' : list (Z * V)) : keyed tick s -> keyed tick s' -> (forall k v, In (k, v) s <-> In (k, v) s') -> s = s'.
Proof.
  intros K K' H. apply keyed_srt in K, K'. apply srt_ext; auto. intros k. destruct (get V k s) as [v|] eqn:E.
  - symmetry. apply get_In; auto. apply H. apply get_in. exact E.
  - destruct (get V k s') as [v|] eqn:E'; auto. apply get_in, H in E'. apply get_In in E'; auto. congruence.
Qed.
Lemma keyed_tick {V} (tick : V -> Z) (s : list (Z * V)) k v : keyed tick s -> In (k, v) s -> tick v = k.
Proof. intros [_ H] I. destruct (H k v I) as [A _]. auto. Qed.
Lemma blank_eq b b' : blank b -> blank b' -> b_tick b = b_tick b' -> b = b'.
Proof. destruct b, b'. unfold blank. cbn. intros (-> & -> & ->) (-> & -> & ->) ->. reflexivity. Qed.

Lemma bars_apart s out into out' into' s1 s2 : keyed b_tick s1 -> keyed b_tick s2 -> (forall b, In b out <-> In b out') -> (forall b, In b into <-> In b into') ->
  (forall k b, In (k, b) s1 -> then_at b_tick s out into k b \/ blank b /\ forall b', ~ then_at b_tick s out into k b') ->
  (forall k b, then_at b_tick s out' into' k b -> In (k, b) s2) ->
  (forall k b, In (k, b) s2 -> then_at b_tick s out' into' k b \/ blank b /\ forall b', ~ then_at b_tick s out' into' k b') ->
  forall k b, In (k, b) s1 -> In (k, b) s2 \/ blank b /\ ~ In k (map fst s2).
Proof.
  intros K1 K2 A B H1 H2 H2' k b I. pose proof (then_same b_tick s _ _ _ _ A B) as S. destruct (H1 k b I) as [W|[BL NO]]; [left; apply H2, S, W|].
  destruct (in_dec Z.eq_dec k (map fst s2)) as [J|J]; [|auto]. left. apply in_map_iff in J as ([k' b'] & E & J). cbn in E. subst k'.
  destruct (H2' k b' J) as [W|[BL' _]]; [exfalso; apply (NO b'), S, W|]. rewrite (blank_eq b b'); auto.
  rewrite (keyed_tick _ _ _ _ K1 I), (keyed_tick _ _ _ _ K2 J). reflexivity.
Qed.

Lemma moved_same p out into out' into' q q' : project_ok q -> project_ok q' -> same_models out out' -> same_models into into' ->
  moved p out into q -> moved p out' into' q' -> apart_from_blanks q q'.
Proof.
  intros O O' (A1 & A2 & A3 & A4 & A5) (B1 & B2 & B3 & B4 & B5) [M1 M2 M3 M4 M5 M6 M7] [N1 N2 N3 N4 N5 N6 N7]. constructor.
  - destruct M1 as (C1 & C2 & C3), N1 as (E1 & E2 & E3). repeat split; congruence.
  - apply (Permutation_app_inv_r (m_notes out')). rewrite N2. rewrite <- A1, <- B1. symmetry. exact M2.
  - apply (store_eq tp_tick); [apply O'|apply O|]. intros k v. rewrite M5, N5. symmetry. apply then_same; auto.
  - apply (store_eq cc_tick); [apply O'|apply O|]. intros k v. rewrite M6, N6. symmetry. apply then_same; auto.
  - apply (store_eq cc_tick); [apply O'|apply O|]. intros k v. rewrite M7, N7. symmetry. apply then_same; auto.
  - apply (bars_apart (pj_bars p) (m_bars out) (m_bars into) (m_bars out') (m_bars into')); auto; [apply O|apply O'].
  - apply (bars_apart (pj_bars p) (m_bars out') (m_bars into') (m_bars out) (m_bars into)); auto; try (apply O); try (apply O'); intros; symmetry; auto.
Qed.

(** Back where it was. *)
Lemma then_back {V} (tick : V -> Z) s l : keyed tick s -> contains_all tick s l -> forall k v, In (k, v) s <-> then_at tick s l l k v.
Proof.
  intros K C k v. split.
  - intros I. destruct (in_dec Z.eq_dec k (map tick l)) as [J|J]; [|right; auto]. left. apply in_map_iff in J as (x & E & J). pose proof (C x J) as Jx.
    rewrite E in Jx. apply keyed_srt in K. apply (get_In _ _ _ _ K) in Jx. apply (get_In _ _ _ _ K) in I. assert (x = v) by congruence. subst. auto.
  - intros [[I ->]|(_ & _ & I)]; [apply C, I|exact I].
Qed.
Lemma moved_back p l q : project_ok p -> project_ok q -> all_present p l -> moved p l l q -> with_blanks p q.
Proof.
  intros O O' [P1 P2 P3 P4 P5] [M1 M2 M3 M4 M5 M6 M7]. constructor.
  - exact M1.
  - apply (Permutation_app_inv_r (m_notes l)), M2.
  - apply (store_eq tp_tick); [apply O'|apply O|]. intros k v. rewrite M5. symmetry. apply then_back; auto. apply O.
  - apply (store_eq cc_tick); [apply O'|apply O|]. intros k v. rewrite M6. symmetry. apply then_back; auto. apply O.
  - apply (store_eq cc_tick); [apply O'|apply O|]. intros k v. rewrite M7. symmetry. apply then_back; auto. apply O.
  - intros k b I. apply M3. apply then_back; auto. apply O.
  - intros k b I. pose proof (then_back b_tick (pj_bars p) (m_bars l) (ok_bars p O) P2) as S. destruct (M4 k b I) as [W|[BL NO]]; [left; apply S, W|].
    right. split; [exact BL|]. intros J. apply in_map_iff in J as ([k' b'] & E & J). cbn in E. subst k'. apply (NO b'), S, J.
Qed.

(** Chains. *)
Lemma moved_chain p out : project_ok p -> all_present p out -> forall cs c q q', project_ok q -> moved p out (changes_to c) q -> continues c cs ->
  Forall (fun d => edit_typed (EChange d) /\ all_distinct (changes_to d)) cs -> Forall (fun d => all_free p out (changes_to d)) (removelast (c :: cs)) ->
  edits_done q (map EChange cs) q' -> project_ok q' /\ moved p out (changes_to (last cs c)) q'.
Proof.
  intros O P. induction cs as [|d cs IH]; intros c q q' OQ M C T F D.
  - inversion D; subst. auto.
  - cbn [map] in D. inversion D as [|? ? k q1 ? ? E D2]; subst. destruct C as [C1 C2]. inversion T as [|? ? [T1 T2] T3]; subst.
    change (removelast (c :: d :: cs)) with (c :: removelast (d :: cs)) in F. inversion F as [|? ? F1 F2]; subst.
    destruct (moved_on p out _ q d q1 k O OQ P M F1 C1 T1 T2 E) as [OQ1 M1].
    replace (last (d :: cs) c) with (last cs d); [apply (IH d q1 q'); auto|]. clear. revert d c. induction cs as [|x cs IH]; intros d c; [reflexivity|].
    change (last (d :: x :: cs) c) with (last (x :: cs) c). rewrite <- (IH x c). symmetry. rewrite (IH x d). reflexivity.
Qed.
Lemma moved_all p c cs q : project_ok p -> all_present p (changes_from c) -> continues c cs ->
  Forall (fun d => edit_typed (EChange d) /\ all_distinct (changes_to d)) (c :: cs) -> Forall (fun d => all_free p (changes_from c) (changes_to d)) (removelast (c :: cs)) ->
  edits_done p (map EChange (c :: cs)) q -> project_ok q /\ moved p (changes_from c) (changes_to (last cs c)) q.
Proof.
  intros O P C T F D. cbn [map] in D. inversion D as [|? ? k q1 ? ? E D2]; subst. inversion T as [|? ? [T1 T2] T3]; subst.
  destruct (moved_one p c q1 k O T1 (conj P T2) E) as [O1 M1]. apply (moved_chain p (changes_from c) O P cs c q1 q); auto.
Qed.

Lemma fst_combine {A B} (l : list A) (l' : list B) : length l = length l' -> map fst (combine l l') = l.
Proof. revert l'. induction l as [|x l IH]; intros [|y l'] E; try discriminate; [reflexivity|]. cbn. rewrite IH; auto. Qed.
Lemma snd_combine {A B} (l : list A) (l' : list B) : length l = length l' -> map snd (combine l l') = l'.
Proof. revert l'. induction l as [|x l IH]; intros [|y l'] E; try discriminate; [reflexivity|]. cbn. rewrite IH; auto. Qed.
Definition as_long (c d : model_changes) : Prop :=
  length (ch_notes c) = length (ch_notes d) /\ length (ch_bars c) = length (ch_bars d) /\ length (ch_tempos c) = length (ch_tempos d) /\
  length (ch_dumpers c) = length (ch_dumpers d) /\ length (ch_softs c) = length (ch_softs d).
Lemma last_long cs : forall c, continues c cs -> as_long c (last cs c).
Proof.
  induction cs as [|d cs IH]; intros c C; [unfold as_long; auto|]. destruct C as [C1 C2].
  replace (last (d :: cs) c) with (last cs d).
  - destruct (IH d C2) as (A1 & A2 & A3 & A4 & A5). unfold as_long. rewrite <- A1, <- A2, <- A3, <- A4, <- A5. unfold changes_from, changes_to in C1.
    injection C1 as B1 B2 B3 B4 B5. apply (f_equal (@length _)) in B1, B2, B3, B4, B5. rewrite !map_length in *. auto.
  - clear. revert d c. induction cs as [|x cs IH]; intros d c; [reflexivity|].
    change (last (d :: x :: cs) c) with (last (x :: cs) c). rewrite <- (IH x c). symmetry. rewrite (IH x d). reflexivity.
Qed.
Lemma straight_from c d : as_long c d -> changes_from (straight c d) = changes_from c.
Proof. intros (A1 & A2 & A3 & A4 & A5). unfold changes_from, straight. cbn. rewrite !fst_combine; [reflexivity|..]; rewrite !map_length; auto. Qed.
Lemma straight_to c d : as_long c d -> changes_to (straight c d) = changes_to d.
Proof. intros (A1 & A2 & A3 & A4 & A5). unfold changes_to, straight. cbn. rewrite !snd_combine; [reflexivity|..]; rewrite !map_length; auto. Qed.
Lemma same_refl m : same_models m m.
Proof. unfold same_models. repeat split; auto. Qed.
Lemma last_in {A} (cs : list A) c : In (last cs c) (c :: cs).
Proof. revert c. induction cs as [|x cs IH]; intros c; [left; reflexivity|]. right. destruct cs as [|y cs]; [left; reflexivity|]. specialize (IH x). change (last (x :: y :: cs) c) with (last (y :: cs) c).
  assert (E : last (y :: cs) c = last (y :: cs) x); [|rewrite E; exact IH]. clear. revert y. induction cs as [|z cs IH]; intros y; [reflexivity|]. exact (IH z).
Qed.

(** * C88 *)

(** Elements that are moved in any number of steps, each going on where the last one stopped, are in the end where one
    step would have brought them, with all else untouched: at every step but the last they must come to free places,
    and where another number of bars has been filled in on the way only blank bars differ. *)
Theorem C88_drag : forall p c cs q q', project_ok p -> all_present p (changes_from c) -> continues c cs ->
  Forall (fun d => edit_typed (EChange d) /\ all_distinct (changes_to d)) (c :: cs) ->
  Forall (fun d => all_free p (changes_from c) (changes_to d)) (removelast (c :: cs)) ->
  edits_done p (map EChange (c :: cs)) q -> edits_done p [EChange (straight c (last cs c))] q' -> apart_from_blanks q q'.
Proof.
  intros p c cs q q' O P C T F D D'. destruct (moved_all p c cs q O P C T F D) as [OQ M]. pose proof (last_long cs c C) as L.
  inversion D' as [|? ? k q1 ? ? E D2]; subst. inversion D2; subst. rewrite Forall_forall in T.
  destruct (T c (or_introl eq_refl)) as [[T1 _] _]. destruct (T (last cs c) (last_in cs c)) as [[_ T2] T3].
  destruct (moved_one p (straight c (last cs c)) q' k) as [OQ' M']; auto.
  - cbn [edit_typed]. rewrite straight_from, straight_to; auto.
  - cbn [edit_wf]. rewrite straight_from, straight_to; auto.
  - rewrite straight_from, straight_to in M'; auto. eapply moved_same; try eassumption; apply same_refl.
Qed.
Print Assumptions C88_drag.

(** Elements that are moved about and at last put back where they were: the project is as it was, but for blank bars
    at other places. *)
Theorem C88_back : forall p c cs q, project_ok p -> all_present p (changes_from c) -> continues c cs ->
  Forall (fun d => edit_typed (EChange d) /\ all_distinct (changes_to d)) (c :: cs) ->
  Forall (fun d => all_free p (changes_from c) (changes_to d)) (removelast (c :: cs)) ->
  changes_to (last cs c) = changes_from c -> edits_done p (map EChange (c :: cs)) q -> with_blanks p q.
Proof.
  intros p c cs q O P C T F E D. destruct (moved_all p c cs q O P C T F D) as [OQ M]. rewrite E in M. apply (moved_back p (changes_from c)); auto.
Qed.
Print Assumptions C88_back.

Lemma back_from c : changes_from (back c) = changes_to c.
Proof. unfold changes_from, changes_to, back. cbn. rewrite !map_map. reflexivity. Qed.
Lemma back_to c : changes_to (back c) = changes_from c.
Proof. unfold changes_from, changes_to, back. cbn. rewrite !map_map. reflexivity. Qed.

(** In particular there and back. *)
Theorem C88_there_and_back : forall p c q, project_ok p -> all_present p (changes_from c) -> edit_typed (EChange c) ->
  all_distinct (changes_from c) -> all_distinct (changes_to c) -> all_free p (changes_from c) (changes_to c) ->
  edits_done p [EChange c; EChange (back c)] q -> with_blanks p q.
Proof.
  intros p c q O P [T1 T2] D1 D2 F D. apply (C88_back p c [back c]); auto.
  - cbn. rewrite back_from. auto.
  - constructor; [split; [split|]; assumption|]. constructor; [|constructor]. cbn [edit_typed]. rewrite back_from, back_to. split; [split|]; assumption.
  - cbn [removelast]. auto.
  - apply back_to.
Qed.
Print Assumptions C88_there_and_back.

Lemma moved_two : forall p c d q, project_ok p -> all_present p (m_plus (changes_from c) (changes_from d)) ->
    all_elsewhere (changes_from d) (changes_from c) -> all_elsewhere (changes_from d) (changes_to c) ->
    all_distinct (m_plus (changes_to c) (changes_to d)) -> edit_typed (EChange c) -> edit_typed (EChange d) ->
    edits_done p [EChange c; EChange d] q -> project_ok q /\ moved p (m_plus (changes_from c) (changes_from d)) (m_plus (changes_to c) (changes_to d)) q.
Proof.
  intros p c d q O P E1 E2 D T T' R. inversion R as [|? ? k q1 ? ? R1 R2]; subst. inversion R2 as [|? ? k2 q2 ? ? R3 R4]; subst. inversion R4; subst.
    destruct (moved_one p c q1 k O T) as [O1 M1]; auto.
    - split.
      + destruct P as [[rest P1] P2 P3 P4 P5]. unfold m_plus in *. cbn [m_notes m_bars m_tempos m_dumpers m_softs] in *.
        constructor; [exists (m_notes (changes_from d) ++ rest); rewrite app_assoc; exact P1|..]; intros v I;
          [apply P2|apply P3|apply P4|apply P5]; apply in_app_iff; auto.
      + destruct D as [D1 D2 D3 D4]. unfold distinct_ticks, m_plus in D1, D2, D3, D4. cbn [m_bars m_tempos m_dumpers m_softs] in D1, D2, D3, D4.
        rewrite map_app in D1, D2, D3, D4. constructor; eapply nodup_left; eassumption.
    - apply (moved_part p _ _ q1 d q k2); auto.
Qed.

(** Elements moved in two parts are in the end where they are when they are moved together, if no element of the second
    part is moved upon by the first; the parts may then also be moved in the other order, if that holds the other way too. *)
Theorem C88_parts : forall p c d q q', project_ok p -> all_present p (changes_from (at_once c d)) ->
  all_elsewhere (changes_from d) (changes_from c) -> all_elsewhere (changes_from d) (changes_to c) ->
  all_distinct (changes_to (at_once c d)) -> edit_typed (EChange c) -> edit_typed (EChange d) ->
  edits_done p [EChange c; EChange d] q -> edits_done p [EChange (at_once c d)] q' -> apart_from_blanks q q'.
Proof.
  intros p c d q q' O P E1 E2 D T T' R R'. rewrite once_from in P. rewrite once_to in D.
  pose proof (moved_two p c d q O P E1 E2 D T T' R) as Q.
  destruct Q as [OQ M]. inversion R' as [|? ? k q1 ? ? R1 R2]; subst. inversion R2; subst.
  destruct (moved_one p (at_once c d) q' k O) as [OQ' M']; auto.
  - cbn [edit_typed] in *. rewrite once_from, once_to. destruct T as [[] []], T' as [[] []]. split; constructor; apply Forall_app; auto.
  - cbn [edit_wf]. rewrite once_from, once_to. auto.
  - rewrite once_from, once_to in M'. eapply moved_same; try eassumption; apply same_refl.
Qed.
Print Assumptions C88_parts.

Theorem C88_either_first : forall p c d q q', project_ok p -> all_present p (changes_from (at_once c d)) ->
  all_elsewhere (changes_from d) (changes_from c) -> all_elsewhere (changes_from d) (changes_to c) -> all_elsewhere (changes_from c) (changes_to d) ->
  all_distinct (changes_to (at_once c d)) -> edit_typed (EChange c) -> edit_typed (EChange d) ->
  edits_done p [EChange c; EChange d] q -> edits_done p [EChange d; EChange c] q' -> apart_from_blanks q q'.
Proof.
  intros p c d q q' O P E1 E2 E3 D T T' R R'. rewrite once_from in P. rewrite once_to in D.
  destruct (moved_two p c d q O P E1 E2 D T T' R) as [OQ M].
  assert (E1' : all_elsewhere (changes_from c) (changes_from d)).
  { destruct E1 as [A1 A2 A3 A4]. constructor; intros v I J; apply in_map_iff in J as (x & E & J); [apply (A1 x J)|apply (A2 x J)|apply (A3 x J)|apply (A4 x J)]; rewrite E; apply in_map, I. }
  destruct (moved_two p d c q' O) as [OQ' M']; auto.
  - destruct P as [[rest P1] P2 P3 P4 P5]. unfold m_plus in *. cbn [m_notes m_bars m_tempos m_dumpers m_softs] in *.
    constructor; cbn [m_plus m_notes m_bars m_tempos m_dumpers m_softs].
    + exists rest. rewrite P1. apply Permutation_app_tail, Permutation_app_comm.
    + intros v I. apply P2, in_app_iff. apply in_app_iff in I. intuition.
    + intros v I. apply P3, in_app_iff. apply in_app_iff in I. intuition.
    + intros v I. apply P4, in_app_iff. apply in_app_iff in I. intuition.
    + intros v I. apply P5, in_app_iff. apply in_app_iff in I. intuition.
  - destruct D as [D1 D2 D3 D4]. unfold distinct_ticks in *. constructor; unfold distinct_ticks; cbn [m_plus m_bars m_tempos m_dumpers m_softs] in *;
      eapply Permutation_NoDup; try apply Permutation_map; try apply Permutation_app_comm; assumption.
  - eapply moved_same; try eassumption; unfold same_models, m_plus; cbn [m_notes m_bars m_tempos m_dumpers m_softs];
      (split; [apply Permutation_app_comm|]); repeat split; intros I; apply in_app_iff; apply in_app_iff in I; intuition.
Qed.
Print Assumptions C88_either_first.

Lemma change_goes p c : safe_project p -> edit_safe (EChange c) -> exists p' k, edit_run (EChange c) p = Ret (Some (p', k)) /\ safe_project p'.
Proof.
  intros SP S. destruct (T_Safe.edit_step (EChange c) p SP S) as ([[p' k]|] & E & X); [destruct X; eauto|]. exfalso.
  cbn [edit_run] in E. rewrite change_runs in E. unfold runs in E. apply bind_ret in E as ([p' more] & _ & E). apply ret_inj in E. discriminate.
Qed.
Lemma changes_go cs : forall p, safe_project p -> Forall (fun d => edit_safe (EChange d)) cs -> exists q, edits_done p (map EChange cs) q /\ safe_project q.
Proof.
  induction cs as [|c cs IH]; intros p SP F; [exists p; split; [constructor|exact SP]|]. inversion F; subst.
  destruct (change_goes p c) as (p' & k & E & SP'); auto. destruct (IH p' SP') as (q & D & SQ); auto. exists q. split; [|exact SQ]. econstructor; eassumption.
Qed.

(** With proper elements (see C67) all of these changes return. *)
Theorem C88_safe : forall p c cs, safe_project p -> all_present p (changes_from c) -> continues c cs ->
  Forall (fun d => edit_safe (EChange d) /\ all_distinct (changes_to d)) (c :: cs) ->
  Forall (fun d => all_free p (changes_from c) (changes_to d)) (removelast (c :: cs)) ->
  exists q q', edits_done p (map EChange (c :: cs)) q /\ edits_done p [EChange (straight c (last cs c))] q' /\
    safe_project q /\ safe_project q' /\ apart_from_blanks q q'.
Proof.
  intros p c cs SP P C T F. pose proof (last_long cs c C) as L.
  assert (T1 : Forall (fun d => edit_safe (EChange d)) (c :: cs)) by (eapply Forall_impl; [|exact T]; cbv beta; intros ? [? ?]; assumption).
  destruct (changes_go (c :: cs) p SP T1) as (q & D & SQ).
  assert (S : edit_safe (EChange (straight c (last cs c)))).
  { rewrite Forall_forall in T1. cbn [edit_safe]. rewrite straight_from, straight_to by exact L. split; [apply (T1 c); left; reflexivity|apply (T1 (last cs c)), last_in]. }
  destruct (change_goes p _ SP S) as (q' & k & E & SQ'). exists q, q'.
  assert (D' : edits_done p [EChange (straight c (last cs c))] q') by (econstructor; [exact E|constructor]).
  split; [exact D|]. split; [exact D'|]. split; [exact SQ|]. split; [exact SQ'|].
  apply (C88_drag p c cs); auto; [apply SP|]. eapply Forall_impl; [|exact T]. cbv beta. intros d [A B]. split; [apply T_Safe.safe_edit_typed, A|exact B].
Qed.
Print Assumptions C88_safe.

(** A tempo that is moved over another one: the other one is lost, which it is not when the tempo is moved there at once. *)
Definition over1 : model_changes := mkChanges [] [] [(mkTempo 0 100, mkTempo 960 100)] [] [].
Definition over2 : model_changes := mkChanges [] [] [(mkTempo 960 100, mkTempo 1200 100)] [] [].
Theorem C88_over_refuted : exists p c d q q', project_ok p /\ all_present p (changes_from c) /\ continues c [d] /\
  Forall (fun e => edit_typed (EChange e) /\ all_distinct (changes_to e)) [c; d] /\
  edits_done p [EChange c; EChange d] q /\ edits_done p [EChange (straight c d)] q' /\
  In (960, mkTempo 960 140) (pj_tempos p) /\ In (960, mkTempo 960 140) (pj_tempos q') /\ ~ In 960 (map fst (pj_tempos q)).
Proof.
  exists T_Project.ex_project, over1, over2. eexists. eexists. split; [exact T_Project.ex_project_ok|]. split.
  { constructor; cbn; [exists (map snd (pj_notes T_Project.ex_project)); reflexivity|..]; intros v I; cbn in *; intuition; subst; auto. }
  split; [cbn; auto|]. split.
  { repeat (constructor; [split; [split; constructor; cbn; repeat constructor; unfold u32, u32_max; cbn; lia|constructor; unfold distinct_ticks; cbn; repeat constructor; cbn; intuition]|]). constructor. }
  split. { eapply done_cons; [vm_compute; reflexivity|]. eapply done_cons; [vm_compute; reflexivity|apply done_nil]. }
  split. { eapply done_cons; [vm_compute; reflexivity|apply done_nil]. }
  cbn. split; [auto|]. split; [auto|]. intuition; discriminate.
Qed.
Print Assumptions C88_over_refuted.

(** A note and a tempo dragged in two steps, far away first, and a pedal event moved before them or after them. *)
Definition drag1 : model_changes :=
  mkChanges [(T_Project.ex_note 480 SE, T_Project.ex_note 5000 SE)] [] [(mkTempo 960 140, mkTempo 1000 140)] [] [].
Definition drag2 : model_changes :=
  mkChanges [(T_Project.ex_note 5000 SE, T_Project.ex_note 720 SE)] [] [(mkTempo 1000 140, mkTempo 0 150)] [] [].
Definition press : model_changes :=
  mkChanges [(T_Project.ex_note 480 SG, T_Project.ex_note 490 SG)] [] [] [(mkCtrl 480 127 0, mkCtrl 490 127 0)] [].
Ltac typed := repeat split; cbn; repeat constructor; unfold u32, u32_max; cbn; lia.
Ltac distinct := constructor; unfold distinct_ticks; cbn; repeat constructor; cbn; intuition; try discriminate; try lia.
Ltac storewise := intros v I; cbn in *; intuition; subst; cbn in *; intuition; try discriminate; try lia.
Example C88_case : project_ok T_Project.ex_project /\ all_present T_Project.ex_project (changes_from drag1) /\ continues drag1 [drag2] /\
  Forall (fun d => edit_typed (EChange d) /\ all_distinct (changes_to d)) [drag1; drag2] /\
  Forall (fun d => all_free T_Project.ex_project (changes_from drag1) (changes_to d)) (removelast [drag1; drag2]) /\
  exists q q', edits_done T_Project.ex_project [EChange drag1; EChange drag2] q /\ edits_done T_Project.ex_project [EChange (straight drag1 drag2)] q' /\
    map fst (pj_notes q) = [0; 480; 720; 1600] /\ map fst (pj_notes q') = [0; 480; 720; 1600] /\
    map fst (pj_bars q) = [960; 1920; 2640; 3360; 4080; 4800; 5520] /\ map fst (pj_bars q') = [960; 1920].
Proof.
  split; [exact T_Project.ex_project_ok|]. split.
  { constructor; [|storewise..]. exists [T_Project.ex_note 0 SC; T_Project.ex_note 480 SG; T_Project.ex_note 1600 SA]. cbn. apply perm_swap. }
  split; [cbn; auto|]. split. { constructor; [split; [typed|distinct]|]. constructor; [split; [typed|distinct]|]. constructor. }
  split. { cbn [removelast]. constructor; [|constructor]. constructor; storewise. }
  eexists. eexists. split. { eapply done_cons; [vm_compute; reflexivity|]. eapply done_cons; [vm_compute; reflexivity|apply done_nil]. }
  split. { eapply done_cons; [vm_compute; reflexivity|apply done_nil]. }
  repeat split; reflexivity.
Qed.
Example C88_back_case : all_distinct (changes_from drag1) /\ exists q, edits_done T_Project.ex_project [EChange drag1; EChange (back drag1)] q /\
  map fst (pj_notes q) = [0; 480; 480; 1600] /\ map fst (pj_bars q) = [960; 1920; 2640; 3360; 4080; 4800; 5520].
Proof.
  split; [distinct|]. eexists. split. { eapply done_cons; [vm_compute; reflexivity|]. eapply done_cons; [vm_compute; reflexivity|apply done_nil]. }
  split; reflexivity.
Qed.
Example C88_parts_case : all_present T_Project.ex_project (changes_from (at_once drag1 press)) /\
  all_elsewhere (changes_from press) (changes_from drag1) /\ all_elsewhere (changes_from press) (changes_to drag1) /\ all_elsewhere (changes_from drag1) (changes_to press) /\
  all_distinct (changes_to (at_once drag1 press)) /\ edit_typed (EChange drag1) /\ edit_typed (EChange press) /\
  (exists q, edits_done T_Project.ex_project [EChange drag1; EChange press] q) /\ (exists q, edits_done T_Project.ex_project [EChange press; EChange drag1] q) /\
  exists q, edits_done T_Project.ex_project [EChange (at_once drag1 press)] q.
Proof.
  split.
  { constructor; [|storewise..]. exists [T_Project.ex_note 0 SC; T_Project.ex_note 1600 SA]. cbn. etransitivity; [apply perm_swap|]. apply perm_skip, perm_swap. }
  split; [constructor; storewise|]. split; [constructor; storewise|]. split; [constructor; storewise|]. split; [distinct|]. split; [typed|]. split; [typed|].
  split; [|split]; eexists; repeat (eapply done_cons; [vm_compute; reflexivity|]); apply done_nil.
Qed.
Example C88_safe_case : safe_project T_Project.ex_project /\ Forall (fun d => edit_safe (EChange d)) [drag1; drag2].
Proof.
  split; [apply T_Safe.C67_example|].
  repeat (constructor; [cbn [edit_safe]; unfold safe; cbn; repeat split; repeat (apply Forall_cons; [first [apply T_Safe.ex_note_safe; lia|split; unfold in_reach, u32, u32_max; cbn; lia]|]); constructor|]). constructor.
Qed.
