(** Property theorems about writing a whole score element by element: C95. *)
From Coq Require Import ZArith List Bool Lia Sorted Permutation.
From Verif Require Import Base M_Pitch M_Duration M_Percent M_Scalar M_Bar M_Note M_Store M_Tuple M_Models M_Project M_Repeat.
From Verif Require Import S_Project S_Score S_Effect S_Safe S_Move S_Order S_Enter P_Base P_Store P_Query P_Replenish P_Edit P_History P_Effect.
From Verif Require Import T_Move T_Order.
From Verif Require S_Blank T_Blank T_Project T_Safe T_Hand.
Import ListNotations.
Open Scope Z_scope.

Lemma settle_bare e p : bare_project p -> bare_project (settle e p).
Proof. destruct e; exact (fun H => H). Qed.
Lemma settled_bare es p : bare_project p -> bare_project (settled es p).
Proof. revert p. induction es as [|e es IH]; intros p H; [exact H|]. apply (IH (settle e p)), settle_bare, H. Qed.
Lemma settled_moves es p : Forall (fun e => exists out into, moves e out into) es -> settled es p = p.
Proof. revert p. induction 1 as [|e es (o & i & M) F IH]; [reflexivity|]. unfold settled in *. cbn. rewrite (moves_keep e o i _ M). exact IH. Qed.

Lemma keyed_values {V} (tick : V -> Z) s v k : keyed tick s -> (In (k, v) s <-> In v (map snd s) /\ k = tick v).
Proof.
  intros [_ K]. split.
  - intros I. destruct (K k v I) as [-> _]. split; [apply in_map_iff; exists (tick v, v); auto|reflexivity].
  - intros [I ->]. apply in_map_iff in I as ([k v'] & <- & I). cbn. destruct (K k v' I) as [-> _]. exact I.
Qed.

(** What is in a project that had nothing in it, when everything of [p] has been put in. *)
Lemma bare_moved p0 p INTO q : bare_project p0 -> project_ok p -> project_ok q -> pj_rhythm p0 = pj_rhythm p -> pj_key p0 = pj_key p -> pj_grid p0 = pj_grid p ->
  same_models INTO (contents p) -> moved p0 models_empty INTO q -> with_blanks p q.
Proof.
  intros (B1 & B2 & B3 & B4 & B5) O OQ E1 E2 E3 (I1 & I2 & I3 & I4 & I5) [M1 M2 M3 M4 M5 M6 M7].
  assert (X : forall V (tick : V -> Z) s I k v, keyed tick s -> (forall v, In v I <-> In v (map snd s)) -> then_at tick [] [] I k v <-> In (k, v) s).
  { intros V tick s I k v K H. rewrite (keyed_values tick s v k K), <- H. unfold then_at. cbn [In map]. tauto. }
  rewrite B1 in M2. rewrite B2 in M3, M4. rewrite B3 in M5. rewrite B4 in M6. rewrite B5 in M7. cbn [models_empty contents m_notes m_bars m_tempos m_dumpers m_softs app map] in *.
  constructor.
  - destruct M1 as (a & b & c). repeat split; congruence.
  - rewrite app_nil_r in M2. rewrite M2, I1. reflexivity.
  - apply (store_eq tp_tick); [apply OQ|apply O|]. intros k v. rewrite M5. apply X; [apply O|exact I3].
  - apply (store_eq cc_tick); [apply OQ|apply O|]. intros k v. rewrite M6. apply X; [apply O|exact I4].
  - apply (store_eq cc_tick); [apply OQ|apply O|]. intros k v. rewrite M7. apply X; [apply O|exact I5].
  - intros k b J. apply M3, X with (s := pj_bars p); [apply O|exact I2|exact J].
  - intros k b J. destruct (M4 k b J) as [H|[H N]]; [left; revert H; apply X; [apply O|exact I2]|right]. split; [exact H|]. intros J'.
    apply in_map_iff in J' as ([k' b'] & <- & J'). apply (N b'). apply X with (s := pj_bars p); [apply O|exact I2|exact J'].
Qed.

(** Deleting everything. *)
Lemma contents_present p : project_ok p -> all_present p (contents p).
Proof.
  intros O. constructor; cbn [contents m_notes m_bars m_tempos m_dumpers m_softs].
  - exists []. rewrite app_nil_r. reflexivity.
  - intros v I. apply (keyed_values b_tick); [apply O|auto].
  - intros v I. apply (keyed_values tp_tick); [apply O|auto].
  - intros v I. apply (keyed_values cc_tick); [apply O|auto].
  - intros v I. apply (keyed_values cc_tick); [apply O|auto].
Qed.
Lemma contents_distinct p : project_ok p -> all_distinct (contents p).
Proof.
  assert (X : forall V (tick : V -> Z) s, keyed tick s -> distinct_ticks tick (map snd s)).
  { intros V tick s K. unfold distinct_ticks. rewrite map_map. rewrite (map_ext_in _ fst); [apply srt_nodup, K|].
    intros [k v] I. cbn. symmetry. apply (proj2 K k v I). }
  intros O. constructor; apply X, O.
Qed.
Lemma contents_typed p : project_ok p -> models_typed (contents p).
Proof.
  intros O. constructor; apply Forall_forall; intros v I; cbn in I; apply in_map_iff in I as ([k v'] & <- & I);
    [destruct (proj2 (ok_bars _ O) k v' I)|destruct (proj2 (ok_tempos _ O) k v' I)|destruct (proj2 (ok_dumpers _ O) k v' I)|destruct (proj2 (ok_softs _ O) k v' I)]; cbn; subst; assumption.
Qed.
Lemma cleared p q k : project_ok p -> edit_run (EBulkRemove (contents p)) p = Ret (Some (q, k)) ->
  project_ok q /\ bare_project q /\ pj_rhythm q = pj_rhythm p /\ pj_key q = pj_key p /\ pj_grid q = pj_grid p.
Proof.
  intros O E. pose proof (contents_typed p O) as T. split; [apply (edit_ok (EBulkRemove (contents p)) _ _ _ O T E)|].
  assert (MV : moves (EBulkRemove (contents p)) (contents p) models_empty) by constructor.
  destruct (T_Project.C50_edit (EBulkRemove (contents p)) _ _ _ _ _ O T (contents_present p O) MV E) as (more & [X1 X2 X3 X4 X5 X6] & NM & _).
  rewrite (NM eq_refl) in *. cbn [models_empty contents m_notes m_bars m_tempos m_dumpers m_softs app] in *.
  assert (Y : forall W (tick : W -> Z) s s', keyed tick s -> overwritten tick s (map tick (map snd s)) [] s' -> s' = []).
  { intros V tick s s' K H. destruct s' as [|[k0 v] s']; [reflexivity|]. exfalso. destruct (proj1 (H k0 v) (or_introl eq_refl)) as [[[] _]|(_ & N & I)].
    apply (keyed_values tick) in I as [I ->]; [|exact K]. apply N, in_map, I. }
  split; [|exact X1]. split; [|split; [|split; [|split]]].
  - rewrite app_nil_r in X2. apply Permutation_length in X2. rewrite app_length, !map_length in X2. destruct (pj_notes q); [reflexivity|]. cbn in X2. lia.
  - apply (Y _ b_tick (pj_bars p)); [apply O|exact X3].
  - apply (Y _ tp_tick (pj_tempos p)); [apply O|exact X4].
  - apply (Y _ cc_tick (pj_dumpers p)); [apply O|exact X5].
  - apply (Y _ cc_tick (pj_softs p)); [apply O|exact X6].
Qed.

(** ** The edits that write [p] *)
Lemma adds_take {A} (c : A -> edit) (f : list A -> models) : (forall x, moves (c x) models_empty (f [x])) -> f [] = models_empty -> (forall l l', f (l ++ l') = m_both (f l) (f l')) ->
  forall l, all_take (map c l) models_empty (f l).
Proof.
  intros M E B. induction l as [|x l IH]; [rewrite E; constructor|]. change (x :: l) with ([x] ++ l). rewrite B. cbn. rewrite <- (nil_both models_empty). constructor; [apply tk_moves, M|exact IH].
Qed.
Lemma take_app es es' o i o' i' : all_take es o i -> all_take es' o' i' -> all_take (es ++ es') (m_both o o') (m_both i i').
Proof.
  intros K K'. induction K as [|e a b es o i T K IH]; [rewrite !nil_both; exact K'|]. cbn [app]. rewrite <- !both_assoc. constructor; assumption.
Qed.
Lemma entries_take p : all_take (entries p) models_empty (contents p).
Proof.
  unfold entries.
  assert (K1 := adds_take EAddBar (fun l => mkModels [] l [] [] []) mv_bar eq_refl (fun _ _ => eq_refl) (map snd (pj_bars p))).
  assert (K2 := adds_take EAddNote (fun l => mkModels l [] [] [] []) mv_note eq_refl (fun _ _ => eq_refl) (map snd (pj_notes p))).
  assert (K3 := adds_take EAddTempo (fun l => mkModels [] [] l [] []) mv_tempo eq_refl (fun _ _ => eq_refl) (map snd (pj_tempos p))).
  assert (K4 := adds_take EAddDumper (fun l => mkModels [] [] [] l []) mv_dumper eq_refl (fun _ _ => eq_refl) (map snd (pj_dumpers p))).
  assert (K5 := adds_take EAddSoft (fun l => mkModels [] [] [] [] l) mv_soft eq_refl (fun _ _ => eq_refl) (map snd (pj_softs p))).
  pose proof (take_app _ _ _ _ _ _ K1 (take_app _ _ _ _ _ _ K2 (take_app _ _ _ _ _ _ K3 (take_app _ _ _ _ _ _ K4 K5)))) as K.
  assert (K0 : all_take [ESetRhythm (pj_rhythm p); ESetKey (pj_key p); ESetGrid (pj_grid p)] models_empty models_empty).
  { change models_empty with (m_both models_empty (m_both models_empty (m_both models_empty models_empty))). apply at_cons; [apply tk_rhythm|]. apply at_cons; [apply tk_key|]. apply at_cons; [apply tk_grid|]. apply at_nil. }
  pose proof (take_app _ _ _ _ _ _ K0 K) as R. unfold m_both in R. cbn [models_empty m_notes m_bars m_tempos m_dumpers m_softs app] in R. rewrite !app_nil_r in R. exact R.
Qed.
Lemma take_nothing e a b : takes e a b -> match e with EBulkRemove _ | EChange _ | ETuplize _ => True | _ => a = models_empty end.
Proof. intros [e' o i []| | |]; auto. Qed.
Definition only_adds (e : edit) : Prop := match e with EBulkRemove _ | EChange _ | ETuplize _ => False | _ => True end.
Lemma adds_apart e f : only_adds e -> only_adds f -> ~ same_setting e f -> apart e f.
Proof.
  intros A B N. split; [exact N|]. intros a b a' b' K K'. apply take_nothing in K, K'.
  assert (a = models_empty) as -> by (destruct e; cbn in A; tauto). assert (a' = models_empty) as -> by (destruct f; cbn in B; tauto).
  split; [|split]; constructor; intros v [].
Qed.
Lemma entries_add p : Forall only_adds (entries p).
Proof. unfold entries. rewrite !Forall_app, !Forall_map. repeat split; try (apply Forall_forall; intros; exact Logic.I). repeat constructor. Qed.
Lemma pairs_app {A} (R : A -> A -> Prop) l l' : ForallOrdPairs R l -> ForallOrdPairs R l' -> (forall x y, In x l -> In y l' -> R x y) -> ForallOrdPairs R (l ++ l').
Proof.
  intros F F' H. induction F as [|x l G F IH]; [exact F'|]. cbn. constructor; [apply Forall_app; split; [exact G|apply Forall_forall; intros y I; apply H; cbn; auto]|]. apply IH. intros u v I J. apply H; cbn; auto.
Qed.
Lemma pairs_all {A} (R : A -> A -> Prop) l : (forall x y, In x l -> In y l -> R x y) -> ForallOrdPairs R l.
Proof. induction l as [|x l IH]; intros H; constructor; [apply Forall_forall; intros y I; apply H; cbn; auto|]. apply IH. intros; apply H; cbn; auto. Qed.
Definition no_setting (e : edit) : Prop := match e with ESetRhythm _ | ESetKey _ | ESetGrid _ => False | _ => True end.
Lemma entries_apart p : ForallOrdPairs apart (entries p).
Proof.
  pose proof (entries_add p) as A. rewrite Forall_forall in A. unfold entries in *.
  set (l := map EAddBar _ ++ _) in *. assert (N : forall e, In e l -> no_setting e).
  { intros e I. unfold l in I. rewrite !in_app_iff, !in_map_iff in I. destruct I as [(x & <- & _)|[(x & <- & _)|[(x & <- & _)|[(x & <- & _)|(x & <- & _)]]]]; exact Logic.I. }
  apply pairs_app.
  - repeat apply FOP_cons; repeat apply Forall_cons; try apply Forall_nil; try apply FOP_nil; apply adds_apart; try exact Logic.I; intros [].
  - apply pairs_all. intros x y I J. apply adds_apart; [apply A, in_app_iff; auto..|]. specialize (N x I). destruct x; cbn in *; tauto.
  - intros x y I J. apply adds_apart; [apply A, in_app_iff; auto..|]. specialize (N y J). destruct x, y; cbn in *; tauto.
Qed.
Lemma entries_settled p p0 : settled (entries p) p0 = mkProject (pj_rhythm p) (pj_key p) (pj_grid p) (pj_notes p0) (pj_bars p0) (pj_tempos p0) (pj_dumpers p0) (pj_softs p0).
Proof.
  unfold entries. rewrite T_Hand.settled_app, settled_moves; [reflexivity|].
  rewrite !Forall_app, !Forall_map, !Forall_forall. repeat split; intros; eexists; eexists; constructor.
Qed.
Lemma entries_typed p : project_ok p -> Forall edit_typed (entries p).
Proof.
  intros O. destruct (contents_typed p O) as [T1 T2 T3 T4]. cbn [contents m_bars m_tempos m_dumpers m_softs] in *. unfold entries. rewrite !Forall_app, !(Forall_map EAddBar), !(Forall_map EAddNote), !(Forall_map EAddTempo), !(Forall_map EAddDumper), !(Forall_map EAddSoft).
  split; [repeat constructor|]. split; [exact T1|]. split; [apply Forall_forall; intros; exact Logic.I|]. auto.
Qed.
Lemma entries_safe p : safe_project p -> Forall edit_safe (entries p).
Proof.
  intros (O & R & G & S1 & S2 & S3 & S4 & S5). cbn [m_notes m_bars m_tempos m_dumpers m_softs] in *. unfold entries. rewrite !Forall_app, !(Forall_map EAddBar), !(Forall_map EAddNote), !(Forall_map EAddTempo), !(Forall_map EAddDumper), !(Forall_map EAddSoft).
  split; [|auto 10]. apply Forall_cons; [exact R|]. apply Forall_cons; [exact Logic.I|]. apply Forall_cons; [exact G|apply Forall_nil].
Qed.
Lemma entries_record p : Forall (fun e => records e = true) (entries p).
Proof. unfold entries. rewrite !Forall_app, !Forall_map, !Forall_forall. repeat split; auto. intros x [<-|[<-|[<-|[]]]]; reflexivity. Qed.

(** What is set in the end. *)
Lemma settled_sets es p : forall p0, sets_as p p0 es -> let s := settled es p0 in pj_rhythm s = pj_rhythm p /\ pj_key s = pj_key p /\ pj_grid s = pj_grid p.
Proof.
  induction es as [|e es IH]; intros p0 (A1 & A2 & A3 & A4 & A5 & A6); cbn [settled fold_left].
  - cbn in *. tauto.
  - apply (IH (settle e p0)). split; [intros r I; apply A1; cbn; auto|]. split; [|split; [intros r I; apply A3; cbn; auto|split; [|split; [intros r I; apply A5; cbn; auto|]]]].
    + destruct A2 as [[->|A2]|A2]; [right; reflexivity|auto|right]. destruct e; try exact A2. cbn. apply A1. cbn. auto.
    + destruct A4 as [[->|A4]|A4]; [right; reflexivity|auto|right]. destruct e; try exact A4. cbn. apply A3. cbn. auto.
    + destruct A6 as [[->|A6]|A6]; [right; reflexivity|auto|right]. destruct e; try exact A6. cbn. apply A5. cbn. auto.
Qed.

(** Whatever edits put in exactly what a project [p] holds, taking out nothing, and set its settings: made in a project without elements they
    lead to [p], with no other bars than blank ones besides. *)
Theorem C95_written : forall p p0 es into q, project_ok p -> project_ok p0 -> bare_project p0 -> Forall edit_typed es -> ForallOrdPairs apart es ->
  all_take es models_empty into -> same_elements into (contents p) -> sets_as p p0 es -> edits_done p0 es q -> with_blanks p q.
Proof.
  intros p p0 es into q O O0 B T F K A ST R. destruct (settled_sets es p p0 ST) as (E1 & E2 & E3). assert (A' : alike_models into (contents p)) by (destruct A as (X1 & X2 & X3 & X4 & X5); constructor; assumption).
  assert (D : all_distinct into) by (eapply am_distinct; [apply T_Hand.am_sym; exact A'|apply contents_distinct, O]).
  destruct (edits_all p0 es models_empty into q O0 T K (present_empty p0) D F R) as [OQ M].
  apply (bare_moved (settled es p0) p into q); auto; [apply settled_bare, B|apply am_same, A'].
Qed.
Print Assumptions C95_written.

(** So every project can be written by its settings and its elements, one by one and in any order, into a project without elements, *)
Theorem C95_one_by_one : forall p p0 es q, project_ok p -> project_ok p0 -> bare_project p0 -> Permutation (entries p) es -> edits_done p0 es q -> with_blanks p q.
Proof.
  intros p p0 es q O O0 B X R. destruct (takes_any _ _ X _ _ (entries_take p)) as (o & i & K & A1 & A2).
  assert (o = models_empty) as ->. { destruct A1 as [A1 A1' A1'' A1''' A1'''']. cbn in *. apply Permutation_nil in A1, A1', A1'', A1''', A1''''. destruct o. cbn in *. subst. reflexivity. }
  apply (C95_written p p0 es i q); auto.
  - eapply Permutation_Forall; [exact X|apply entries_typed, O].
  - apply (pairs_any _ _ X), entries_apart.
  - apply T_Hand.am_sym in A2. destruct A2. repeat split; assumption.
  - assert (Y : forall e, In e es <-> In e (entries p)) by (intros e; split; apply Permutation_in; [symmetry|]; exact X).
    assert (N : forall e, In e (entries p) -> match e with ESetRhythm r => r = pj_rhythm p | ESetKey k => k = pj_key p | ESetGrid g => g = pj_grid p | _ => True end).
    { intros e I. unfold entries in I. rewrite !in_app_iff, !in_map_iff in I. destruct I as [[<-|[<-|[<-|[]]]]|[(x & <- & _)|[(x & <- & _)|[(x & <- & _)|[(x & <- & _)|(x & <- & _)]]]]]; reflexivity || exact Logic.I. }
    unfold sets_as. rewrite !Y. split; [intros r I; apply Y in I; apply (N _ I)|]. split; [left; cbn; auto|]. split; [intros r I; apply Y in I; apply (N _ I)|]. split; [left; cbn; auto|]. split; [intros r I; apply Y in I; apply (N _ I)|]. left; cbn; auto.
Qed.
Print Assumptions C95_one_by_one.

(** and any project can be made any other one: delete everything, then write the other one. *)
Theorem C95_any_to_any : forall p p0, safe_project p -> safe_project p0 -> forall es, Permutation (entries p) es ->
  exists q, edits_done p0 (EBulkRemove (contents p0) :: es) q /\ safe_project q /\ with_blanks p q.
Proof.
  intros p p0 SP SP0 es X. destruct (edits_go (EBulkRemove (contents p0) :: es) p0 SP0) as (q & R & SQ).
  - apply Forall_cons; [apply SP0|]. eapply Permutation_Forall; [exact X|apply entries_safe, SP].
  - apply Forall_cons; [reflexivity|]. eapply Permutation_Forall; [exact X|apply entries_record].
  - exists q. split; [exact R|]. split; [exact SQ|]. inversion R as [|? ? k p1 ? ? E R1]; subst. destruct (cleared p0 p1 k (proj1 SP0) E) as (O1 & B1 & _).
    apply (C95_one_by_one p p1 es q); auto. apply SP.
Qed.
Print Assumptions C95_any_to_any.

(** ** No bars are added if the bars come first and cover everything *)
Record part (r p : project) : Prop := mkPart {
  pt_notes : forall n, In n (map snd (pj_notes r)) -> In n (map snd (pj_notes p));
  pt_tempos : forall v, In v (map snd (pj_tempos r)) -> In v (map snd (pj_tempos p));
  pt_dumpers : forall v, In v (map snd (pj_dumpers r)) -> In v (map snd (pj_dumpers p));
  pt_softs : forall v, In v (map snd (pj_softs r)) -> In v (map snd (pj_softs p));
}.
Lemma part_ends r p t : project_ok r -> project_ok p -> part r p -> ends_at r t -> ends_at p t.
Proof.
  intros O O' [P1 P2 P3 P4] [k n l I E|k v I|k v I|k v I].
  - pose proof (proj2 (ok_notes _ O) k n I) as ->. apply (in_map snd) in I. apply P1, in_map_iff in I as ([k' n'] & E' & I). cbn in E'. subst n'.
    pose proof (proj2 (ok_notes _ O') k' n I) as ->. eapply ends_note; eassumption.
  - apply (keyed_values tp_tick) in I as [I ->]; [|apply O]. apply (ends_tempo p _ v). apply (keyed_values tp_tick); [apply O'|auto].
  - apply (keyed_values cc_tick) in I as [I ->]; [|apply O]. apply (ends_dumper p _ v). apply (keyed_values cc_tick); [apply O'|auto].
  - apply (keyed_values cc_tick) in I as [I ->]; [|apply O]. apply (ends_soft p _ v). apply (keyed_values cc_tick); [apply O'|auto].
Qed.
Lemma over_values {V} (tick : V -> Z) s gone put s' : overwritten tick s gone put s' -> forall v, In v (map snd s') -> In v put \/ In v (map snd s).
Proof. intros H v I. apply in_map_iff in I as ([k v'] & <- & I). cbn. destruct (proj1 (H k v') I) as [[J _]|(_ & _ & J)]; [auto|right]. apply (in_map snd) in J. exact J. Qed.

(** The edits of [entries] after the bars. *)
Definition entered (p : project) (e : edit) : Prop :=
  match e with
  | EAddNote n => In n (map snd (pj_notes p)) | EAddTempo v => In v (map snd (pj_tempos p))
  | EAddDumper v => In v (map snd (pj_dumpers p)) | EAddSoft v => In v (map snd (pj_softs p)) | _ => False
  end.
Lemma entered_step p r e r' k : project_ok p -> notes_valid p -> covered p -> project_ok r -> part r p -> pj_bars r = pj_bars p -> entered p e -> edit_typed e ->
  edit_run e r = Ret (Some (r', k)) -> project_ok r' /\ part r' p /\ pj_bars r' = pj_bars p.
Proof.
  intros O V C OR PT B EN T E. pose proof (proj1 (edit_ok e r r' k OR T E)) as OR'.
  assert (M : exists into, moves e models_empty into /\ m_bars into = [] /\ (forall n, In n (m_notes into) -> In n (map snd (pj_notes p))) /\
    (forall n, In n (m_tempos into) -> In n (map snd (pj_tempos p))) /\ (forall n, In n (m_dumpers into) -> In n (map snd (pj_dumpers p))) /\ (forall n, In n (m_softs into) -> In n (map snd (pj_softs p)))).
  { destruct e; cbn in EN; try tauto; eexists; (split; [constructor|]); cbn; intuition; subst; assumption. }
  destruct M as (into & M & MB & M1 & M2 & M3 & M4).
  assert (VP : forall n, In n (map snd (pj_notes p)) -> note_valid n) by (intros n I; apply in_map_iff in I as ([k0 n'] & <- & I); apply (V k0 n' I)).
  assert (VR : notes_valid r) by (intros k0 n I; apply VP, (pt_notes _ _ PT); apply (in_map snd) in I; exact I).
  assert (VI : Forall note_valid (m_notes into)) by (apply Forall_forall; intros n I; apply VP, M1, I).
  assert (WF : edit_wf e r) by (destruct e; cbn in EN |- *; tauto). assert (AP : may_append e = true) by (destruct e; cbn in EN; reflexivity || contradiction).
  destruct (edit_appends e r r' k models_empty into OR VR T WF AP M VI E) as (q & rh & n & [X1 X2 X3 X4 X5 X6] & OQ & (S1 & S2 & S3 & S4 & S5 & S6 & S7) & RH & BB & L).
  assert (QB : pj_bars q = pj_bars p).
  { rewrite <- B. apply (store_eq b_tick); [apply OQ|apply OR|]. intros k0 b. rewrite (X3 k0 b). rewrite MB. cbn. tauto. }
  assert (PR : part r' p).
  { constructor; rewrite <- ?S4, <- ?S5, <- ?S6, <- ?S7.
    - intros x I. cbn in X2. rewrite app_nil_r in X2. apply (Permutation_in x X2) in I. apply in_app_iff in I as [I|I]; [apply (pt_notes _ _ PT), I|apply M1, I].
    - intros x I. destruct (over_values _ _ _ _ _ X4 x I); [apply M2|apply (pt_tempos _ _ PT)]; assumption.
    - intros x I. destruct (over_values _ _ _ _ _ X5 x I); [apply M3|apply (pt_dumpers _ _ PT)]; assumption.
    - intros x I. destruct (over_values _ _ _ _ _ X6 x I); [apply M4|apply (pt_softs _ _ PT)]; assumption. }
  split; [exact OR'|]. split; [exact PR|]. rewrite BB, QB. destruct L as [->|(t & EA & L)]; [cbn; apply app_nil_r|]. destruct n as [|n]; [cbn; apply app_nil_r|]. exfalso.
  apply (part_ends r' p t OR' O PR) in EA. apply C in EA. pose proof (last_tick_range p (ok_bars _ O)) as [U _].
  assert (LT : last_tick q = last_tick p) by (unfold last_tick; rewrite QB; reflexivity). rewrite LT in L. pose proof (rhythm_tick_len_nonneg rh) as RN.
  assert (0 <= (Z.of_nat (S n) - 1) * rhythm_tick_len rh) by (apply Z.mul_nonneg_nonneg; lia).
  destruct EA as [EA|(k0 & b & I & EA)]; [lia|]. pose proof (last_tick_max p (ok_bars _ O) k0 b I). lia.
Qed.
Lemma entered_all p es : project_ok p -> notes_valid p -> covered p -> Forall (fun e => entered p e \/ ~ no_setting e) es -> Forall edit_typed es -> forall r q,
  project_ok r -> part r p -> pj_bars r = pj_bars p -> edits_done r es q -> pj_bars q = pj_bars p.
Proof.
  intros O V C. induction es as [|e es IH]; intros F T r q OR PT B R; inversion R as [|? ? k r' ? ? E R']; subst; [exact B|]. inversion F; subst. inversion T; subst.
  assert (X : project_ok r' /\ part r' p /\ pj_bars r' = pj_bars p).
  { destruct H1 as [EN|NS]; [apply (entered_step p r e r' k); auto|]. pose proof (proj1 (edit_ok e r r' k OR H3 E)) as O1. split; [exact O1|].
    apply settle_run in E; [|destruct e; cbn in *; tauto]. subst r'. destruct PT. destruct e; split; try exact B; constructor; assumption. }
  destruct X as (O1 & P1 & B1). apply (IH H2 H4 r' q); auto.
Qed.

(** The settings and the bars. *)
Lemma frame_done es : Forall (fun e => match e with ESetRhythm _ | ESetKey _ | ESetGrid _ | EAddBar _ => True | _ => False end) es -> forall p q, Forall edit_typed es -> project_ok p -> edits_done p es q ->
  project_ok q /\ pj_notes q = pj_notes p /\ pj_tempos q = pj_tempos p /\ pj_dumpers q = pj_dumpers p /\ pj_softs q = pj_softs p /\
  forall k b, In (k, b) (pj_bars q) -> In (k, b) (pj_bars p) \/ In (EAddBar b) es.
Proof.
  induction es as [|e es IH]; intros F p q T O R; inversion R as [|? ? k r ? ? E R']; subst; [split; [exact O|]; auto 10|]. inversion F; subst. inversion T; subst.
  pose proof (proj1 (edit_ok e p r k O H3 E)) as OR. destruct (IH H2 r q H4 OR R') as (OQ & A1 & A2 & A3 & A4 & A5).
  assert (X : pj_notes r = pj_notes p /\ pj_tempos r = pj_tempos p /\ pj_dumpers r = pj_dumpers p /\ pj_softs r = pj_softs p /\ forall k b, In (k, b) (pj_bars r) -> In (k, b) (pj_bars p) \/ e = EAddBar b).
  { destruct e; try tauto; try (apply settle_run in E; [|exact Logic.I]; subst r; cbn; tauto).
    destruct (T_Project.C50_edit (EAddBar b) models_empty (mkModels [] [b] [] [] []) p r k O H3 Logic.I (mv_bar b) E) as (more & [X1 X2 X3 X4 X5 X6] & NM & _).
    rewrite (NM eq_refl) in X3. cbn [models_empty m_notes m_bars m_tempos m_dumpers m_softs app map] in *.
    assert (Y : forall W (tick : W -> Z) s s', keyed tick s -> keyed tick s' -> overwritten tick s [] [] s' -> s' = s).
    { intros W tick s s' K K' H. apply (store_eq tick); auto. intros k0 v. rewrite (H k0 v). cbn. tauto. }
    cbn in E. rewrite add_bar_runs in E. unfold runs in E. cbn [bind] in E. injection E as Er _. split; [rewrite <- Er; reflexivity|].
    split; [apply (Y _ tp_tick); [apply O|apply OR|exact X4]|]. split; [apply (Y _ cc_tick); [apply O|apply OR|exact X5]|]. split; [apply (Y _ cc_tick); [apply O|apply OR|exact X6]|].
    intros k0 b0 I. destruct (proj1 (X3 k0 b0) I) as [[[->|[]] _]|(_ & _ & J)]; auto. }
  destruct X as (B1 & B2 & B3 & B4 & B5). rewrite A1, A2, A3, A4. split; [exact OQ|]. repeat (split; [assumption|]). intros k0 b I.
  destruct (A5 k0 b I) as [J|J]; [|cbn; auto]. destruct (B5 k0 b J) as [J'|J']; cbn; auto.
Qed.

Lemma take_split es es' : forall o i, all_take (es ++ es') o i -> exists o1 i1 o2 i2, all_take es o1 i1 /\ all_take es' o2 i2 /\ o = m_both o1 o2 /\ i = m_both i1 i2.
Proof.
  induction es as [|e es IH]; intros o i K; [exists models_empty, models_empty, o, i; rewrite !nil_both; repeat split; auto; constructor|].
  inversion K as [|? a b ? o' i' T K']; subst. destruct (IH o' i' K') as (o1 & i1 & o2 & i2 & A & B & -> & ->). exists (m_both a o1), (m_both b i1), o2, i2.
  rewrite !both_assoc. split; [constructor; assumption|auto].
Qed.
Lemma no_bars_put p es o i : Forall (fun e => entered p e \/ ~ no_setting e) es -> all_take es o i -> m_bars i = [].
Proof.
  intros F K. induction K as [|e a b es o i T K IH]; [reflexivity|]. inversion F as [|? ? F1 F2]; subst. cbn. rewrite (IH F2), app_nil_r.
  destruct T as [e' o' i' M| | |]; try reflexivity. destruct M; cbn in F1; tauto || reflexivity.
Qed.
Lemma pairs_left {A} (R : A -> A -> Prop) l l' : ForallOrdPairs R (l ++ l') -> ForallOrdPairs R l.
Proof. induction l as [|x l IH]; intros H; [constructor|]. inversion H as [|? ? G H']; subst. apply Forall_app in G as [G _]. constructor; auto. Qed.
Lemma done_app p es es' q : edits_done p (es ++ es') q -> exists r, edits_done p es r /\ edits_done r es' q.
Proof.
  revert p. induction es as [|e es IH]; intros p R; [exists p; split; [constructor|exact R]|]. inversion R as [|? ? k r ? ? E R']; subst. destruct (IH r R') as (r' & A & B). exists r'. split; [econstructor; eassumption|exact B].
Qed.
Lemma in_entries p e : In e (entries p) -> match e with EAddBar b => In b (map snd (pj_bars p)) | _ => entered p e \/ ~ no_setting e end.
Proof.
  unfold entries. rewrite !in_app_iff, !in_map_iff. intros [[<-|[<-|[<-|[]]]]|[(x & <- & I)|[(x & <- & I)|[(x & <- & I)|[(x & <- & I)|(x & <- & I)]]]]]; cbn; try tauto;
    auto.
Qed.

(** Written with its bars first, in any order, and then everything else, in any order, a project whose bars cover everything in it comes out
    exactly: no bar is added. *)
Theorem C95_bars_first : forall p p0 es es' q, project_ok p -> notes_valid p -> covered p -> project_ok p0 -> bare_project p0 ->
  Permutation (entries p) (es ++ es') ->
  Forall (fun e => match e with ESetRhythm _ | ESetKey _ | ESetGrid _ | EAddBar _ => True | _ => False end) es ->
  Forall (fun e => match e with EAddBar _ => False | _ => True end) es' ->
  edits_done p0 (es ++ es') q -> with_blanks p q /\ pj_bars q = pj_bars p.
Proof.
  intros p p0 es es' q O V C O0 B0 X F F' R. pose proof (C95_one_by_one p p0 _ q O O0 B0 X R) as W. split; [exact W|].
  pose proof (Permutation_Forall X (entries_typed p O)) as T. apply Forall_app in T as [T T'].
  pose proof (pairs_any _ _ X (entries_apart p)) as AP. apply pairs_left in AP.
  assert (IE : forall e, In e (es ++ es') -> In e (entries p)) by (intros e; apply Permutation_in; symmetry; exact X).
  assert (EN : Forall (fun e => entered p e \/ ~ no_setting e) es').
  { rewrite Forall_forall in *. intros e I. specialize (F' e I). pose proof (in_entries p e (IE e (proj2 (in_app_iff _ _ _) (or_intror I)))) as N. destruct e; tauto. }
  destruct (takes_any _ _ X _ _ (entries_take p)) as (o & i & K & _ & A2). destruct (take_split es es' o i K) as (o1 & i1 & o2 & i2 & K1 & K2 & -> & ->).
  pose proof (no_bars_put p es' o2 i2 EN K2) as NB. pose proof (am_distinct _ _ A2 (contents_distinct p O)) as D. apply distinct_left in D.
  destruct (done_app p0 es es' q R) as (r & R1 & R2). destruct (frame_done es F p0 r T O0 R1) as (OR & N1 & N2 & N3 & N4 & NBR).
  destruct B0 as (Z1 & Z2 & Z3 & Z4 & Z5).
  assert (o1 = models_empty) as ->.
  { revert K1 F. clear. intros K F. induction K as [|e a b es o i TK K IH]; [reflexivity|]. inversion F; subst. rewrite (IH H2), both_nil.
    destruct TK as [e' o' i' M| | |]; try reflexivity. destruct M; tauto || reflexivity. }
  destruct (edits_all p0 es models_empty i1 r O0 T K1 (present_empty p0) D AP R1) as [_ MV].
  apply (entered_all p es' O V C EN T' r q OR); auto.
  - constructor; [rewrite N1, Z1|rewrite N2, Z3|rewrite N3, Z4|rewrite N4, Z5]; intros v [].
  - apply (store_eq b_tick); [apply OR|apply O|]. intros k b. split.
    + intros I. destruct (NBR k b I) as [J|J]; [rewrite Z2 in J; destruct J|]. apply (keyed_values b_tick); [apply O|]. split; [|apply (proj2 (ok_bars _ OR) k b I)].
      apply (in_entries p (EAddBar b)), IE, in_app_iff. auto.
    + intros I. apply (mo_bars _ _ _ _ MV). left. apply (keyed_values b_tick) in I as [I ->]; [|apply O]. split; [|reflexivity].
      destruct A2 as [_ A2 _ _ _]. cbn [m_both m_bars contents] in A2. rewrite NB, app_nil_r in A2. apply (Permutation_in b A2), I.
Qed.
Print Assumptions C95_bars_first.

(** It is then played as [p] is, and the same is in force everywhere; of the other orders this is so under the conditions of C93. *)
Theorem C95_bars_first_heard : forall p p0 es es' q, project_ok p -> notes_valid p -> covered p -> project_ok p0 -> bare_project p0 ->
  Permutation (entries p) (es ++ es') ->
  Forall (fun e => match e with ESetRhythm _ | ESetKey _ | ESetGrid _ | EAddBar _ => True | _ => False end) es ->
  Forall (fun e => match e with EAddBar _ => False | _ => True end) es' ->
  edits_done p0 (es ++ es') q -> render_project q = render_project p /\ forall t, tick_to_location q t = tick_to_location p t.
Proof.
  intros p p0 es es' q O V C O0 B0 X F F' R. destruct (C95_bars_first p p0 es es' q O V C O0 B0 X F F' R) as [W B]. destruct (wb_settings _ _ W) as (E & _).
  unfold render_project, score, tick_to_location. rewrite B, E. auto.
Qed.
Print Assumptions C95_bars_first_heard.

Theorem C95_heard : forall p p0 es q, project_ok p -> project_ok p0 -> bare_project p0 -> Permutation (entries p) es -> edits_done p0 es q ->
  (forall t, rhythm_at q t = rhythm_at p t /\ key_at q t = key_at p t /\ tempo_at q t = tempo_at p t /\ dumper_at q t = dumper_at p t /\ soft_at q t = soft_at p t) /\
  ((forall b, S_Blank.only_in q p b -> S_Blank.passed_over q b) -> render_project q = render_project p).
Proof.
  intros p p0 es q O O0 B X R. pose proof (C95_one_by_one p p0 es q O O0 B X R) as W.
  pose proof (T_Blank.apart_sym _ _ (T_Blank.blanks_apart p q W)) as A.
  assert (OQ : project_ok q) by (apply (T_Hand.done_ok p0 es q O0); [eapply Permutation_Forall; [exact X|apply entries_typed, O]|exact R]).
  split; [intros t; apply T_Blank.C93_in_force; assumption|]. intros H. apply T_Blank.C93_heard; auto.
  intros b [I N]. exfalso. apply N. unfold score in *. apply in_map_iff in I as ([k b'] & <- & I). apply (wb_bars _ _ W) in I. apply (in_map snd) in I. exact I.
Qed.
Print Assumptions C95_heard.

(** With a note before the bars there can be more bars than the project has. *)
Theorem C95_notes_first_refuted : exists p es q, safe_project p /\ covered p /\ Permutation (entries p) es /\ edits_done project_default es q /\ ~ pj_bars q = pj_bars p.
Proof.
  pose (p := mkProject rhythm_default 0 60 [(1600, T_Project.ex_note 1600 SA)] [(2000, mkBar 2000 None None 0)] [] [] []).
  exists p, (rev (entries p)). eexists. split.
  { split.
    - constructor; (split; [repeat constructor; cbn; lia|T_Project.in_list]); try (vm_compute; reflexivity); split; try (vm_compute; reflexivity); vm_compute; split; discriminate.
    - split; [unfold safe_rhythm; cbn; lia|]. split; [unfold u32_max; cbn; lia|]. split; [cbn; apply Forall_cons; [apply T_Safe.ex_note_safe; lia|apply Forall_nil]|].
      split; [|cbn; auto]. cbn. apply Forall_cons; [|apply Forall_nil]. split; [split; vm_compute; discriminate|]. cbn. discriminate. }
  split. { intros t H. right. exists 2000, (mkBar 2000 None None 0). split; [cbn; auto|]. destruct H as [k n l I E|k v []|k v []|k v []]. destruct I as [I|[]]. inversion I; subst. vm_compute in E. inversion E; subst. lia. }
  split; [apply Permutation_rev|]. split; [repeat (eapply done_cons; [vm_compute; reflexivity|]); apply done_nil|]. vm_compute. discriminate.
Qed.
Print Assumptions C95_notes_first_refuted.

(** Two of the bars, notes, tempos and pedal events of the example, written into a new project, and over another one. *)
Definition ex_split : list edit * list edit := (firstn 5 (entries T_Project.ex_project), rev (skipn 5 (entries T_Project.ex_project))).
Example C95_case : safe_project T_Project.ex_project /\ notes_valid T_Project.ex_project /\ covered T_Project.ex_project /\ project_ok project_default /\ bare_project project_default /\
  Permutation (entries T_Project.ex_project) (fst ex_split ++ snd ex_split) /\
  Forall (fun e => match e with ESetRhythm _ | ESetKey _ | ESetGrid _ | EAddBar _ => True | _ => False end) (fst ex_split) /\
  Forall (fun e => match e with EAddBar _ => False | _ => True end) (snd ex_split) /\ length (snd ex_split) = 8%nat /\
  (exists q, edits_done project_default (fst ex_split ++ snd ex_split) q) /\ safe_project project_default.
Proof.
  split; [apply T_Safe.C67_example|]. split; [apply T_Project.ex_project_valid|]. split.
  { intros t H. right. exists 1920, (mkBar 1920 (Some (mkRhythm 3 D4)) (Some 2) 0). split; [cbn; auto|].
    destruct H as [k n l I E|k v I|k v I|k v I].
    - assert (L : note_tick_len n = Ret 240 /\ k <= 1600).
      { destruct I as [I|[I|[I|[I|[]]]]]; injection I as <- <-; (split; [vm_compute; reflexivity|discriminate]). }
      destruct L as [L K]. rewrite L in E. injection E as <-. lia.
    - destruct I as [I|[I|[]]]; injection I as <- _; lia.
    - destruct I as [I|[I|[]]]; injection I as <- _; lia.
    - destruct I. }
  assert (O : project_ok project_default) by (constructor; (split; [constructor|intros k v []])). split; [exact O|].
  split; [repeat split|]. split; [unfold ex_split; cbn [fst snd]; rewrite <- Permutation_rev, firstn_skipn; reflexivity|]. split; [repeat constructor|]. split; [repeat constructor|]. split; [reflexivity|].
  split; [eexists; unfold ex_split; repeat (eapply done_cons; [vm_compute; reflexivity|]); apply done_nil|].
  split; [exact O|]. split; [unfold safe_rhythm; cbn; lia|]. split; [vm_compute; split; discriminate|]. repeat split; apply Forall_nil.
Qed.
