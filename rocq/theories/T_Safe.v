(** Property theorems about sessions that never panic or hang: C67. *)
From Coq Require Import ZArith List Bool Lia Permutation Ascii String Sorted.
From Verif Require Import Base M_Pitch M_Duration M_Percent M_Scalar M_Bar M_Note M_Models M_Store M_Tuple M_Project M_Event M_Text M_Json M_Disk.
From Verif Require Import S_Pitch S_Note S_Percent S_Tuple S_Project S_Event S_Json S_Disk S_Safe.
From Verif Require Import P_Base P_Percent P_Query P_Store P_Replenish P_Note P_Tuple P_Json P_Savable P_Edit P_History P_Disk.
From Verif Require T_Values T_Tuple T_Project T_Event T_Json T_Disk.
Import ListNotations.
Open Scope Z_scope.
Open Scope list_scope.

(** ** Elements go through edits unchanged *)

Definition elements (p : project) : models :=
  mkModels (map snd (pj_notes p)) (map snd (pj_bars p)) (map snd (pj_tempos p)) (map snd (pj_dumpers p)) (map snd (pj_softs p)).

Lemma safe_empty : safe models_empty.
Proof. repeat split; constructor. Qed.

Lemma safe_app_bars m more : safe m -> Forall safe_bar more -> safe (with_bars m (m_bars m ++ more)).
Proof.
  intros (N & B & T & D & S) M. unfold safe, with_bars. cbn [m_notes m_bars m_tempos m_dumpers m_softs].
  split; [exact N|]. split; [apply Forall_app; auto|auto].
Qed.

Lemma exchange_safe F A p : safe (elements p) -> safe A -> safe (elements (exchange F A p)).
Proof.
  intros (N & B & T & D & S) (AN & AB & AT & AD & AS). unfold elements in *. cbn [m_notes m_bars m_tempos m_dumpers m_softs] in *.
  unfold safe, exchange. cbn [pj_notes pj_bars pj_tempos pj_dumpers pj_softs m_notes m_bars m_tempos m_dumpers m_softs].
  split; [now apply notes_forall|].
  split; [exact (exch_forall safe_bar b_tick _ _ _ B AB)|].
  split; [exact (exch_forall safe_tempo tp_tick _ _ _ T AT)|].
  split; [exact (exch_forall safe_ctrl cc_tick _ _ _ D AD)|].
  exact (exch_forall safe_ctrl cc_tick _ _ _ S AS).
Qed.

Lemma recorded_safe F A p : safe (elements p) -> safe F -> safe A -> safe (recorded F A p).
Proof.
  intros (N & B & T & D & S) (FN & FB & FT & FD & FS) (AN & AB & AT & AD & AS).
  unfold elements in *. cbn [m_notes m_bars m_tempos m_dumpers m_softs] in *.
  unfold safe, recorded. cbn [m_notes m_bars m_tempos m_dumpers m_softs].
  split; [assumption|]. split; [|split; [|split]]; apply Forall_app; split; auto using replaced_forall.
Qed.

Lemma replenish_safe p p' more : keyed b_tick (pj_bars p) -> safe (elements p) ->
  replenish_bars p = Ret (p', more) -> safe (elements p') /\ Forall safe_bar more /\ pj_rhythm p' = pj_rhythm p /\ pj_grid p' = pj_grid p.
Proof.
  intros K (N & B & T & D & S) E.
  destruct (replenish_ret p p' more K E) as (ne & r & n & _ & _ & -> & -> & _ & H).
  assert (M : Forall safe_bar (even_bars (last_tick p) (rhythm_tick_len r) n)).
  { apply Forall_forall. intros b I. apply even_bars_ticks in I as (i & Hi & ->).
    destruct H as [->|(L & _ & U)]; [lia|]. split; [|discriminate].
    pose proof (last_tick_range p K) as [U0 _]. cbn [b_tick]. unfold u32 in *. split; nia. }
  split; [|split; [exact M|split; reflexivity]]. unfold elements in *. cbn [m_notes m_bars m_tempos m_dumpers m_softs] in *.
  unfold safe. cbn [pj_set_bars pj_notes pj_bars pj_tempos pj_dumpers pj_softs m_notes m_bars m_tempos m_dumpers m_softs].
  split; [assumption|]. split; [|auto]. rewrite map_app, map_map. apply Forall_app. split; [exact B|].
  cbn. rewrite map_id. exact M.
Qed.

Definition safe_cmd (c : cmd) : Prop :=
  match c with
  | SetRhythm a b => safe_rhythm a /\ safe_rhythm b
  | SetKey _ _ => True
  | SetGrid a b => 1 <= a <= u32_max /\ 1 <= b <= u32_max
  | ModelChanged a r => safe a /\ safe r
  end.

Lemma safe_typed m : safe m -> models_typed m.
Proof.
  intros (N & B & T & D & S). constructor; eapply Forall_impl; try eassumption; cbn; intros x H; apply H.
Qed.

Lemma safe_cmd_typed c : safe_cmd c -> cmd_typed c.
Proof. destruct c; cbn; auto. intros [A R]. split; now apply safe_typed. Qed.

Lemma cmd_apply_safe c p : safe_project p -> safe_cmd c -> safe_project (cmd_undo c p) /\ safe_project (cmd_redo c p).
Proof.
  intros (O & R & G & E) C. pose proof (cmd_undo_ok c p O (safe_cmd_typed c C)) as O1.
  pose proof (cmd_redo_ok c p O (safe_cmd_typed c C)) as O2.
  split; (split; [assumption|]); destruct c; cbn [cmd_undo cmd_redo safe_cmd] in *;
    cbn [pj_set_rhythm pj_set_key pj_set_grid pj_rhythm pj_grid pj_notes pj_bars pj_tempos pj_dumpers pj_softs];
    try (split; [tauto|split; [tauto|exact E]]);
    (split; [exact R|split; [exact G|]]; apply exchange_safe; [exact E|tauto]).
Qed.

(** ** Projects whose elements are safe can be edited *)

Lemma safe_notes_valid p : safe (elements p) -> notes_valid p.
Proof. intros (N & _) k n I. rewrite Forall_forall in N. apply (N n). unfold elements. cbn [m_notes]. apply in_map_iff. now exists (k, n). Qed.

Lemma safe_rhythms_valid p : safe_rhythm (pj_rhythm p) -> safe (elements p) -> valid_rhythms p.
Proof.
  intros R (_ & B & _). split; [exact R|]. intros k b r I E. rewrite Forall_forall in B.
  apply (B b); [|exact E]. unfold elements. cbn [m_bars]. apply in_map_iff. now exists (k, b).
Qed.

Lemma safe_ends p t : project_ok p -> safe (elements p) -> ends_at p t -> in_reach t.
Proof.
  intros O (N & B & T & D & S) E. unfold elements in *. cbn [m_notes m_bars m_tempos m_dumpers m_softs] in *.
  pose proof (proj1 (snd_forall _ _) N) as N'. pose proof (proj1 (snd_forall _ _) T) as T'.
  pose proof (proj1 (snd_forall _ _) D) as D'. pose proof (proj1 (snd_forall _ _) S) as S'.
  destruct E as [k n l I L|k v I|k v I|k v I].
  - destruct (ok_notes p O) as [_ K]. rewrite (K _ _ I). apply (N' _ _ I). exact L.
  - destruct (ok_tempos p O) as [_ K]. rewrite (proj1 (K _ _ I)). apply (T' _ _ I).
  - destruct (ok_dumpers p O) as [_ K]. rewrite (proj1 (K _ _ I)). apply (D' _ _ I).
  - destruct (ok_softs p O) as [_ K]. rewrite (proj1 (K _ _ I)). apply (S' _ _ I).
Qed.

Lemma safe_ends_in m t : safe m -> ends_in m t -> in_reach t.
Proof.
  intros (N & B & T & D & S) E. rewrite Forall_forall in N, T, D, S.
  destruct E as [n l I L|v I|v I|v I].
  - apply (N _ I). exact L.
  - apply (T _ I).
  - apply (D _ I).
  - apply (S _ I).
Qed.

Lemma safe_edit_typed e : edit_safe e -> edit_typed e.
Proof.
  destruct e; cbn; auto; try (intros H; apply H).
  - apply safe_typed.
  - apply safe_typed.
  - intros [A B]. split; now apply safe_typed.
Qed.

(** ** Tuplets stay safe *)

Lemma sum_firstn_le l : Forall (fun x => 0 <= x) l -> forall i, sum (firstn i l) <= sum l.
Proof.
  induction 1 as [|x l X L IH]; intros [|i]; cbn [firstn sum fold_right]; try lia.
  - apply sum_nonneg in L. unfold sum in L. lia.
  - specialize (IH i). unfold sum in IH. lia.
Qed.

Lemma tuplet_offset tick unit g s :
  0 < g -> 2 <= unit / g -> 0 <= tick <= 4 * unit -> 0 <= s -> 0 <= tick / (unit / g) * 2 * s / unit <= 4 * s.
Proof.
  intros G U T S. assert (0 < unit) by (destruct (Z_le_gt_dec unit 0); [|lia]; pose proof (Z.div_le_mono unit 0 g G l); rewrite Z.div_0_l in *; lia).
  assert (A : 0 <= tick / (unit / g)) by (apply Z.div_pos; lia).
  assert (B : tick / (unit / g) * 2 <= tick) by (pose proof (Z.mul_div_le tick (unit / g) ltac:(lia)); nia).
  split; [apply Z.div_pos; nia|]. apply Z.div_le_upper_bound; [lia|]. nia.
Qed.

Lemma start_moved n t d : u32 t -> t <= 4200000000 + 4177920 -> valid_trimmer (n_tick_trimmer n) ->
  note_start_tick (replaced_by n t d) <= t + 131068.
Proof.
  intros U L V. destruct (T_Values.C15_start_tick (replaced_by n t d) U V) as [A B]. cbn [replaced_by n_base_tick n_tick_trimmer] in A, B.
  destruct V as [V V']. unfold trim_values in V. 
  assert (X : trim_total (n_tick_trimmer n) <= 131068).
  { unfold trim_total, trim_values in *. cbn [fold_right] in *.
    repeat match goal with H : Forall _ (_ :: _) |- _ => inversion H; clear H; subst end. unfold i16, i16_max in *. cbn. lia. }
  unfold u32, u32_max in *. rewrite A by lia. lia.
Qed.

Lemma chord_sums l cs : Forall nvalid l -> Forall (fun c => shortest_at l (fst (fst c)) (snd (fst c)) (snd c)) cs ->
  0 <= sum (map snd cs) <= 4 * sum (map (fun c => units (snd (fst c))) cs).
Proof.
  intros V F. induction F as [|[[t d] x] cs [[n (I & _ & E)] [L _]] F IH]; unfold sum in *; cbn [map fold_right fst snd] in *; [lia|].
  rewrite Forall_forall in V. specialize (V n I). subst d. apply plain_lasts in L; [|exact V]. subst x.
  pose proof (len_of_bound (d_num (n_duration n)) (d_dots (n_duration n)) ltac:(destruct V; auto)).
  pose proof (len_units (d_num (n_duration n)) (d_dots (n_duration n)) ltac:(destruct V; auto)).
  unfold S_Tuple.plain. lia.
Qed.

Lemma tuplize_safe l : Forall safe_note l -> safe_tuplet l -> exists t, tuplize l = Ret t /\ Forall safe_note t.
Proof.
  intros S (LL & LB & LD). destruct l as [|a l0] eqn:El; [exists []; split; [reflexivity|constructor]|]. rewrite <- El in *.
  assert (NE : l <> []) by (rewrite El; discriminate). clear El.
  assert (V : Forall nvalid l) by (eapply Forall_impl; [|exact S]; intros n N; apply N).
  rewrite Forall_forall in LB.
  destruct (T_Tuple.C39_returns l NE V LL) as [t E]; [| |exact LD|].
  - intros n I. rewrite Forall_forall in S. apply (S n I).
  - intros s [I _]. apply in_map_iff in I as (n & <- & I). specialize (LB n I). cbv beta in LB. unfold u32_max. lia.
  - exists t. split; [exact E|].
    destruct (T_Tuple.C39_places l t NE V E) as (n0 & r & cs & g & ST & CH & G & P1 & P2). cbv zeta in P1, P2.
    set (unit := sum (map (fun c => units (snd (fst c))) cs)) in *. set (tick := sum (map snd cs)) in *.
    destruct (Z_lt_le_dec (unit / g) 2) as [L|L]; [rewrite (P1 L); exact S|]. specialize (P2 L) as [PL P2].
    pose proof (Permutation_length (proj1 ST)) as PL'.
    assert (SS : Forall safe_note (n0 :: r)) by (eapply Permutation_Forall; [apply ST|exact S]).
    assert (SV : Forall nvalid (n0 :: r)) by (eapply Permutation_Forall; [apply ST|exact V]).
    assert (B0 : 0 <= n_base_tick n0 <= 4200000000).
    { split; [inversion SS; subst; apply H1|]. apply LB, (Permutation_in _ (Permutation_sym (proj1 ST))). now left. }
    apply Forall_forall. intros m I. apply In_nth_error in I as (i & I).
    destruct (nth_error (n0 :: r) i) as [n|] eqn:En.
    2: { apply nth_error_None in En. assert (X : (i < length t)%nat) by (apply nth_error_Some; congruence). lia. }
    destruct (P2 i n En) as [Em D]. rewrite Em in I. injection I as <-.
    assert (Sn : safe_note n) by (rewrite Forall_forall in SS; apply SS; eapply nth_error_In; exact En).
    destruct Sn as ([DV OR] & U & VT & UV & VV & R).
    set (s := sum (map (fun n => units (n_duration n)) (firstn i (n0 :: r)))) in *.
    assert (Hs : 0 <= s <= 1044480).
    { pose proof (sum_units_le _ (Forall_firstn nvalid i _ SV)) as H. fold s in H.
      rewrite firstn_length in H. lia. }
    assert (O : 0 <= tick / (unit / g) * 2 * s / unit <= 4 * s).
    { apply tuplet_offset; [apply G|exact L|exact (chord_sums l cs V (proj2 (proj2 CH)))|lia]. }
    set (o := tick / (unit / g) * 2 * s / unit) in *. clearbody o.
    pose proof (Z.mod_pos_bound (unit / g) 256 ltac:(lia)) as DB.
    assert (DV' : duration_valid (n_duration (replaced_by n (n_base_tick n0 + o) ((unit / g) mod 256)))).
    { destruct DV as [_ DV]. split; cbn; [lia|exact DV]. }
    assert (U' : u32 (n_base_tick n0 + o)) by (unfold u32, u32_max; lia).
    split; [split; [exact DV'|exact OR]|]. split; [exact U'|]. split; [exact VT|]. split; [exact UV|]. split; [exact VV|].
    intros x Ex. pose proof (start_moved n (n_base_tick n0 + o) ((unit / g) mod 256) U' ltac:(lia) VT) as SM.
    destruct (T_Values.C08_longest _ DV' OR) as (x' & y & Ex' & Ey & Hx). rewrite Ex in Ex'. apply ret_inj in Ex'. subst x'.
    rewrite T_Values.C08_longest_value in Ey. apply ret_inj in Ey. subst y. unfold in_reach, u32_max. lia.
Qed.

(** ** Edits *)

Lemma edit_moves e : edit_safe e ->
  (exists r, e = ESetRhythm r) \/ (exists k, e = ESetKey k) \/ (exists g, e = ESetGrid g) \/
  exists F A, moves e F A /\ safe F /\ safe A.
Proof.
  intros S. destruct e; cbn [edit_safe] in S; eauto; do 3 right.
  - do 2 eexists. split; [constructor|]. split; [apply safe_empty|]. repeat split; cbn [m_notes m_bars m_tempos m_dumpers m_softs]; auto using Forall_cons, Forall_nil.
  - do 2 eexists. split; [constructor|]. split; [apply safe_empty|]. repeat split; cbn [m_notes m_bars m_tempos m_dumpers m_softs]; auto using Forall_cons, Forall_nil.
  - do 2 eexists. split; [constructor|]. split; [apply safe_empty|]. repeat split; cbn [m_notes m_bars m_tempos m_dumpers m_softs]; auto using Forall_cons, Forall_nil.
  - do 2 eexists. split; [constructor|]. split; [apply safe_empty|]. repeat split; cbn [m_notes m_bars m_tempos m_dumpers m_softs]; auto using Forall_cons, Forall_nil.
  - do 2 eexists. split; [constructor|]. split; [apply safe_empty|]. repeat split; cbn [m_notes m_bars m_tempos m_dumpers m_softs]; auto using Forall_cons, Forall_nil.
  - destruct S as [S1 S2]. destruct (tuplize_safe l S1 S2) as (t & E & T).
    do 2 eexists. split; [constructor; exact E|]. split; repeat split; cbn [m_notes m_bars m_tempos m_dumpers m_softs]; auto using Forall_cons, Forall_nil.
  - do 2 eexists. split; [constructor|]. split; [exact S|apply safe_empty].
  - do 2 eexists. split; [constructor|]. split; [apply safe_empty|exact S].
  - do 2 eexists. split; [constructor|]. exact S.
Qed.

Lemma edit_step e p : safe_project p -> edit_safe e ->
  exists o, edit_run e p = Ret o /\ match o with Some (q, c) => safe_project q /\ safe_cmd c | None => True end.
Proof.
  intros SP S. pose proof SP as (O & R & G & E). pose proof (safe_edit_typed e S) as T.
  assert (X : exists o, edit_run e p = Ret o).
  { destruct (edit_moves e S) as [[r ->]|[[k ->]|[[g ->]|(F & A & M & SF & SA)]]]; [eexists; reflexivity..|].
    eapply edit_returns; [exact O|now apply safe_notes_valid|now apply safe_rhythms_valid|exact T|exact M| | |].
    - eapply Forall_impl; [|apply SA]. intros n N. apply N.
    - intros b r I Er. destruct SA as (_ & SB & _). rewrite Forall_forall in SB. now apply (SB b I).
    - intros t [I|I]; [exact (safe_ends p t O E I)|exact (safe_ends_in A t SA I)]. }
  destruct X as [[[q c]|] Er]; eexists; (split; [exact Er|]); [|exact I].
  destruct (edit_ok e p q c O T Er) as [Oq _].
  destruct (edit_cases _ _ _ _ Er) as [(r & -> & -> & ->)|[(k & -> & -> & ->)|[(g & -> & -> & ->)|(F & A & M & E1)]]];
    cbn [edit_safe] in S.
  1-3: split; [|cbn; auto]; (split; [exact Oq|]); cbn; auto.
  destruct (edit_moves e S) as [[r ->]|[[k ->]|[[g ->]|(F' & A' & M' & SF & SA)]]]; [inversion M..|].
  destruct (moves_fun _ _ _ _ _ M M') as [<- <-]. clear M'.
  unfold runs in E1. apply bind_ret in E1 as ([q' more] & E1 & E2). apply ret_inj in E2. injection E2 as -> <-.
  destruct (moves_typed _ _ _ M T) as [TF TA].
  pose proof (exchange_safe F A p E SA) as SX.
  assert (Y : safe (elements q) /\ Forall safe_bar more /\ pj_rhythm q = pj_rhythm p /\ pj_grid q = pj_grid p).
  { destruct (may_append e).
    - exact (replenish_safe _ _ _ (ok_bars _ (exchange_ok F A p O TA)) SX E1).
    - apply ret_inj in E1. injection E1 as <- <-. split; [exact SX|]. split; [constructor|]. split; reflexivity. }
  destruct Y as (Y1 & Y2 & Y3 & Y4). split.
  - split; [exact Oq|]. rewrite Y3, Y4. split; [exact R|]. split; [exact G|]. exact Y1.
  - split; [now apply safe_app_bars|now apply recorded_safe].
Qed.

(** ** Sessions *)

Lemma safe_history h os : safe_project (h_model h) -> Forall safe_cmd (h_undo h) -> Forall safe_cmd (h_redo h) -> Forall hop_safe os ->
  exists h', hist_run h os = Ret h' /\ safe_project (h_model h') /\ Forall safe_cmd (h_undo h') /\ Forall safe_cmd (h_redo h').
Proof.
  intros P U R F. revert h P U R. induction F as [|o os O F IH]; intros h P U R; cbn [hist_run]; [eauto 6|].
  assert (X : exists h1, hist_step h o = Ret h1 /\ safe_project (h_model h1) /\ Forall safe_cmd (h_undo h1) /\ Forall safe_cmd (h_redo h1)).
  { destruct o; cbn [hist_step hop_safe] in *.
    - unfold history_edit. destruct (edit_step e (h_model h) P O) as ([[q c]|] & -> & X); cbn [bind]; eexists; (split; [reflexivity|]); [|auto].
      destruct X as [X1 X2]. cbn [h_model h_undo h_redo]. split; [exact X1|]. split; [apply Forall_firstn; auto|auto].
    - eexists. split; [reflexivity|]. unfold history_undo. destruct (h_undo h) as [|c cs] eqn:E; [rewrite E; auto|].
      inversion U; subst. cbn [h_model h_undo h_redo]. split; [apply cmd_apply_safe; auto|auto].
    - eexists. split; [reflexivity|]. unfold history_redo. destruct (h_redo h) as [|c cs] eqn:E; [rewrite E; auto|].
      inversion R; subst. cbn [h_model h_undo h_redo]. split; [apply cmd_apply_safe; auto|auto]. }
  destruct X as (h1 & -> & P1 & U1 & R1). cbn [bind]. auto.
Qed.

Definition safe_session (s : session) : Prop :=
  safe_project (ss_model s) /\ Forall safe_cmd (map fst (ss_undo s)) /\ Forall safe_cmd (map fst (ss_redo s)).

Lemma safe_act a s : safe_session s -> act_safe a -> exists s', act_run a s = Ret s' /\ safe_session s'.
Proof.
  intros (P & U & R) A. destruct (T_Event.C59_history s) as (_ & HQ & (s1 & E1 & F1) & (s2 & E2 & F2)).
  assert (X : forall s' h, T_Event.forget s' = h -> safe_project (h_model h) /\ Forall safe_cmd (h_undo h) /\ Forall safe_cmd (h_redo h) -> safe_session s').
  { intros s' h <-. auto. }
  destruct a as [q| | |keep]; cbn [act_safe] in A.
  - destruct (safe_history (T_Event.forget s) [HEdit (request_edit q)] P U R) as (h & E & H); [auto using Forall_cons, Forall_nil|].
    cbn [hist_run hist_step] in E. apply bind_ret in E as (h1 & E & Eh). apply ret_inj in Eh. subst h1.
    destruct (HQ q h E) as (s' & E' & F'). exists s'. split; [exact E'|]. exact (X s' h F' H).
  - exists s1. split; [exact E1|]. destruct (safe_history (T_Event.forget s) [HUndo] P U R) as (h & E & H); [auto using Forall_cons, Forall_nil; repeat constructor|].
    cbn [hist_run hist_step bind] in E. apply ret_inj in E. subst h. exact (X s1 _ F1 H).
  - exists s2. split; [exact E2|]. destruct (safe_history (T_Event.forget s) [HRedo] P U R) as (h & E & H); [auto using Forall_cons, Forall_nil; repeat constructor|].
    cbn [hist_run hist_step bind] in E. apply ret_inj in E. subst h. exact (X s2 _ F2 H).
  - cbn [act_run]. eexists. split; [reflexivity|]. destruct keep; (split; [exact P|]; cbn [ss_undo ss_redo map]; split; auto using Forall_nil).
Qed.

(** * C67 *)

(** Whatever is done to a safe project, as long as what is put in is safe: every
    call returns, and the project is safe again.  Taking out what is not there,
    adding to a taken tick, undoing more than was done and so on are all allowed. *)
Theorem C67_session : forall p limit l, safe_project p -> Forall act_safe l ->
  exists s, acts_run (session_new p limit) l = Ret s /\ safe_project (ss_model s).
Proof.
  intros p limit l P F. assert (S : safe_session (session_new p limit)) by (split; [exact P|split; constructor]).
  revert S. generalize (session_new p limit). induction F as [|a l A F IH]; intros s S; cbn [acts_run].
  - exists s. split; [reflexivity|apply S].
  - destruct (safe_act a s S A) as (s' & -> & S'). cbn [bind]. apply IH, S'.
Qed.
Print Assumptions C67_session.

(** A session can be ended and reopened at any time: the project as it was at any
    earlier point and any number of the latest commands, written to disk, are read
    back without a panic, and what comes back is safe and can be stored again.  So
    sessions and reopenings can follow each other for ever. *)
Theorem C67_reopened : forall p limit l1 l2 s1 s k, safe_project p -> savable_project p ->
  Forall act_safe (l1 ++ l2) -> Forall act_storable (l1 ++ l2) ->
  acts_run (session_new p limit) l1 = Ret s1 -> acts_run s1 l2 = Ret s ->
  exists r, reopen (write_project (ss_model s1)) (map write_cmd (rev (firstn k (ss_undo s)))) = Ret (Some r) /\
    safe_project (ro_model r) /\ savable_project (ro_model r).
Proof.
  intros p limit l1 l2 s1 s k P V SA ST E1 E2. apply Forall_app in SA as [SA1 SA2]. apply Forall_app in ST as [ST1 ST2].
  assert (X : forall l s s', safe_session s -> Forall act_safe l -> acts_run s l = Ret s' -> safe_session s').
  { induction l as [|a l IH]; intros x x' H F E; cbn [acts_run] in E; [apply ret_inj in E; now subst|].
    inversion F; subst. destruct (safe_act a x H ltac:(assumption)) as (x1 & E3 & H1). rewrite E3 in E. cbn [bind] in E. eauto. }
  assert (S1 : safe_session s1) by (apply (X l1 (session_new p limit)); auto; split; [exact P|split; constructor]).
  assert (S2 : safe_session s) by (apply (X l2 s1); auto). clear X.
  assert (T1 : T_Disk.storable s1) by (apply (T_Disk.storable_acts l1 (session_new p limit)); auto; split; [apply P|split; [exact V|split; constructor]]).
  assert (T2 : T_Disk.storable s) by (apply (T_Disk.storable_acts l2 s1); auto).
  destruct T1 as (O1 & V1 & _). destruct T2 as (_ & _ & U & _). destruct S1 as (P1 & _). destruct S2 as (_ & SU & _).
  assert (U' : Forall logged_ok (rev (firstn k (ss_undo s)))).
  { apply Forall_rev, Forall_firstn. eapply Forall_impl; [|exact U]. cbn. tauto. }
  destruct (reopen_back (ss_model s1) _ O1 V1 U') as (r & ER & MR & _). exists r. split; [exact ER|]. rewrite MR.
  assert (SL : Forall safe_cmd (map fst (rev (firstn k (ss_undo s))))) by (rewrite map_rev, <- firstn_map; apply Forall_rev, Forall_firstn, SU).
  assert (VL : Forall savable_cmd (map fst (rev (firstn k (ss_undo s))))).
  { apply Forall_map. eapply Forall_impl; [|exact U']. intros cm [H _]. exact H. }
  revert P1 V1 SL VL. generalize (map fst (rev (firstn k (ss_undo s)))) as cs. generalize (ss_model s1) as q.
  clear. intros q cs. revert q. induction cs as [|c cs IH]; intros q P V SL VL; [split; assumption|].
  inversion SL; inversion VL; subst. cbn [replay fold_left]. apply IH; auto.
  - now apply cmd_apply_safe.
  - now apply T_Disk.cmd_apply_savable.
Qed.
Print Assumptions C67_reopened.

(** What can be asked of a safe project is answered. *)
Theorem C67_queries : forall p, safe_project p ->
  (forall t, (exists v, tempo_at p t = Ret v) /\ (exists v, dumper_at p t = Ret v) /\ (exists v, soft_at p t = Ret v) /\
     (exists r, rhythm_at p t = Ret r /\ safe_rhythm r) /\ (exists k, key_at p t = Ret k)) /\
  (forall t, u32 t -> Z.of_nat (length (pj_bars p)) <= u32_max -> exists l, tick_to_location p t = Ret l) /\
  (forall t, -9223372034707292160 <= t <= 9223372034707292160 -> exists s, grid_snap (pj_grid p) t = Ret s) /\
  forall k n, In (k, n) (pj_notes p) ->
    (exists l, note_tick_len n = Ret l /\ 0 <= l <= 3826) /\ exists v, note_velocity n = Ret v /\ 0 <= v <= 127.
Proof.
  intros p (O & R & G & E). split; [|split; [|split]].
  - intros t. destruct (T_Project.C22_tempo p t O) as [[o1 L1] Q1]. destruct (T_Project.C22_pedals p t O) as [[[o2 L2] Q2] [[o3 L3] Q3]].
    destruct (T_Project.C23_key p t O) as [[o4 L4] Q4].
    split; [eauto|]. split; [eauto|]. split; [eauto|]. split; [|eauto].
    destruct (rhythm_at_all _ p t (ok_bars p O) (safe_rhythms_valid p R E)) as (r & Er & Rr). eauto.
  - intros t U L. destruct (T_Project.C24_roundtrip p t O L U) as (l & El & _). eauto.
  - intros t T. apply T_Values.C18_snap_defined; [|exact T]. lia.
  - intros k n I. destruct E as (N & _). cbn [m_notes] in N. destruct (proj1 (snd_forall _ _) N k n I) as ([DV OR] & _ & _ & UV & VV & _).
    split.
    + destruct (T_Values.C08_longest n DV OR) as (x & y & Ex & Ey & Hx). rewrite T_Values.C08_longest_value in Ey. apply ret_inj in Ey. subst y. eauto.
    + rewrite (T_Values.C15_velocity n UV VV). eexists. split; [reflexivity|]. unfold clamp. lia.
Qed.
Print Assumptions C67_queries.

(** A loaded project is safe if its rhythms have beats, its notes have at most seven
    dots, its grid is not 0 and there is room behind its last element. *)
Theorem C67_loaded : forall ov t p, loads ov t p ->
  1 <= rh_num (pj_rhythm p) -> (forall k b r, In (k, b) (pj_bars p) -> b_rhythm b = Some r -> 1 <= rh_num r) ->
  (forall k n, In (k, n) (pj_notes p) -> d_dots (n_duration n) <= 7) -> 1 <= pj_grid p ->
  (forall x, ends_at p x -> in_reach x) -> safe_project p.
Proof.
  intros ov t p (j & _ & R) R1 R2 D G E. destruct (read_project_ok _ _ R) as (O & (SR & _ & SG & SN & SB & ST & SD & SS)).
  split; [exact O|]. split; [unfold savable_rhythm in SR; split; [exact R1|apply SR]|]. split; [split; [exact G|apply SG]|].
  assert (VT : forall x, savable_trimmer x -> valid_trimmer x) by (intros x (A & B & _); split; assumption).
  pose proof (proj1 (snd_forall _ _) SN) as SN'. pose proof (proj1 (snd_forall _ _) SB) as SB'.
  pose proof (proj1 (snd_forall _ _) ST) as ST'. pose proof (proj1 (snd_forall _ _) SD) as SD'. pose proof (proj1 (snd_forall _ _) SS) as SS'.
  unfold safe. cbn [m_notes m_bars m_tempos m_dumpers m_softs].
  split; [|split; [|split; [|split]]]; apply snd_forall; intros k v I.
  - destruct (SN' k v I) as (U & _ & DN & DD & V & T1 & (_ & _ & _ & _ & RS) & T2 & _). specialize (D k v I).
    split; [split; [split; lia|]|].
    { destruct (n_duration_trimmer v) as [a b c d s]. cbn [r_v0 r_v1 r_v2 r_v3 r_sum] in RS. subst s. apply (or_array a b c d). }
    split; [exact U|]. split; [auto|]. split; [unfold u8, u8_max; lia|]. split; [auto|].
    intros l L. destruct (ok_notes p O) as [_ K]. rewrite <- (K _ _ I). apply E. econstructor; eassumption.
  - destruct (SB' k v I) as (U & SRr & _). split; [exact U|]. intros r Er. split; [eauto|]. apply (SRr r Er).
  - split; [apply (ST' k v I)|]. destruct (ok_tempos p O) as [_ K]. rewrite <- (proj1 (K _ _ I)). apply E. econstructor 2; eassumption.
  - split; [apply (SD' k v I)|]. destruct (ok_dumpers p O) as [_ K]. rewrite <- (proj1 (K _ _ I)). apply E. econstructor 3; eassumption.
  - split; [apply (SS' k v I)|]. destruct (ok_softs p O) as [_ K]. rewrite <- (proj1 (K _ _ I)). apply E. econstructor 4; eassumption.
Qed.
Print Assumptions C67_loaded.

(** The conditions are needed: files that load contain what makes edits of safe
    notes run for ever or panic, or the grid panic. *)
Theorem C67_files_refuted : exists n, safe_note n /\
  (exists t p, loads T_Json.none t p /\ rh_num (pj_rhythm p) = 0 /\ edit_run (EAddNote n) p = Hang) /\
  (exists t p m, loads T_Json.none t p /\ In (0, m) (pj_notes p) /\ d_dots (n_duration m) = 32 /\ edit_run (EAddNote n) p = Panic) /\
  (exists t p, loads T_Json.none t p /\ pj_grid p = 0 /\ forall x, grid_snap (pj_grid p) x = Panic) /\
  (exists t p, loads T_Json.none t p /\ ends_at p u32_max /\ edit_run (EAddNote n) p = Panic).
Proof.
  assert (L : forall p, read_project (write_project p) = Ret (Some p) -> project_ok p -> savable_project p -> loads T_Json.none (show_json (write_project p)) p).
  { intros p _ O S. exact (T_Json.C53_project T_Json.none p O S). }
  assert (L' : forall p, read_project (write_project p) = Ret (Some p) -> loads T_Json.none (show_json (write_project p)) p).
  { intros p R. destruct (read_project_ok _ _ R). auto. }
  exists (T_Project.ex_note 3000 SC). split.
  { split; [split; [split; cbn; lia|constructor]|]. split; [unfold u32, u32_max; cbn; lia|].
    assert (V : valid_trimmer trimmer_zero) by (split; [repeat constructor; vm_compute; discriminate|reflexivity]).
    split; [exact V|]. split; [unfold u8, u8_max; cbn; lia|]. split; [exact V|].
    intros l E. vm_compute in E. apply ret_inj in E. subst l. vm_compute. discriminate. }
  split; [|split; [|split]].
  - exists (show_json (write_project (mkProject (mkRhythm 0 D4) 0 60 [] [] [] [] []))), (mkProject (mkRhythm 0 D4) 0 60 [] [] [] [] []).
    split; [apply L'; vm_compute; reflexivity|]. split; [reflexivity|]. vm_compute. reflexivity.
  - pose (m := mkNote 0 (n_pitch (T_Project.ex_note 0 SC)) (mkDur Quarter 2 32) false false 64 trimmer_zero rate_one trimmer_zero 0).
    exists (show_json (write_project (mkProject rhythm_default 0 60 [(0, m)] [] [] [] []))), (mkProject rhythm_default 0 60 [(0, m)] [] [] [] []), m.
    split; [apply L'; vm_compute; reflexivity|]. split; [now left|]. split; [reflexivity|]. vm_compute. reflexivity.
  - exists (show_json (write_project (mkProject rhythm_default 0 0 [] [] [] [] []))), (mkProject rhythm_default 0 0 [] [] [] [] []).
    split; [apply L'; vm_compute; reflexivity|]. split; reflexivity.
  - exists (show_json (write_project (mkProject rhythm_default 0 60 [] [(4294966400, mkBar 4294966400 None None 0)] [(4294967295, mkTempo 4294967295 100)] [] []))),
      (mkProject rhythm_default 0 60 [] [(4294966400, mkBar 4294966400 None None 0)] [(4294967295, mkTempo 4294967295 100)] [] []).
    split; [apply L'; vm_compute; reflexivity|]. split; [apply (S_Project.ends_tempo _ 4294967295 (mkTempo 4294967295 100)); now left|].
    vm_compute. reflexivity.
Qed.
Print Assumptions C67_files_refuted.

(** Equal notes that do not start together, up to 255 of them, can be made a tuplet. *)
Theorem C67_even_tuplet : forall l d, (2 <= length l <= 255)%nat -> Forall safe_note l -> NoDup (map n_base_tick l) ->
  Forall (fun n => n_duration n = d) l -> Forall (fun n => n_base_tick n <= 4200000000) l -> edit_safe (ETuplize l).
Proof.
  intros l d L S ND SD B. split; [exact S|]. split; [lia|]. split; [exact B|]. intros cs g CH G.
  assert (V : Forall nvalid l) by (eapply Forall_impl; [|exact S]; intros n N; apply N).
  assert (Vd : duration_valid d).
  { destruct l as [|n l]; [cbn in L; lia|]. inversion V; inversion SD; subst. assumption. }
  assert (SP : Forall (fun n => S_Tuple.plain (n_duration n) = S_Tuple.plain d) l) by (eapply Forall_impl; [|exact SD]; cbv beta; intros n ->; reflexivity).
  destruct (even_chords l cs d V ND SP Vd CH) as (_ & -> & _).
  assert (UB : 2 <= units d <= 510) by (apply units_bound; destruct Vd; auto).
  assert (GE : g = units d).
  { apply (gcd_const g (units d) (map (fun n => units (n_duration n)) l)); [|lia| |exact G].
    - destruct l; [cbn in L; lia|cbn [map]; intros X; discriminate X].
    - rewrite Forall_map. eapply Forall_impl; [|exact SD]. cbv beta. intros n ->. reflexivity. }
  rewrite GE.
  rewrite Z.div_mul by lia. lia.
Qed.
Print Assumptions C67_even_tuplet.

(** A session with a triplet, a bar with another rhythm, something taken out that is
    not there, a tempo on a taken tick, and more undone than done. *)
Definition ex_acts : list act :=
  [Ask (QTuplize [T_Project.ex_note 0 SC; T_Project.ex_note 480 SE; T_Project.ex_note 1600 SA]);
   Ask (QAddBar (mkBar 2000 (Some (mkRhythm 255 D2)) None 0) true);
   Ask (QBulkRemove (mkModels [T_Project.ex_note 7 SD] [mkBar 7 None None 0] [] [] []) meta_new);
   Ask (QAddTempo (mkTempo 960 90) false); UndoIt; UndoIt; RedoIt; Clear true; UndoIt; UndoIt; UndoIt; UndoIt].
Lemma ex_note_safe t s : 0 <= t <= 4200000000 -> safe_note (T_Project.ex_note t s).
Proof.
  intros T. assert (V : valid_trimmer trimmer_zero) by (split; [repeat constructor; vm_compute; discriminate|reflexivity]).
  split; [split; [split; cbn; lia|constructor]|]. split; [unfold u32, u32_max; cbn; lia|].
  split; [exact V|]. split; [unfold u8, u8_max; cbn; lia|]. split; [exact V|].
  intros l E. assert (El : l = 240) by (vm_compute in E; apply ret_inj in E; auto). subst l.
  destruct (T_Values.C15_start_tick (T_Project.ex_note t s)) as [X _]; [unfold u32, u32_max; cbn; lia|exact V|].
  change (n_base_tick (T_Project.ex_note t s)) with t in X. change (trim_total (n_tick_trimmer (T_Project.ex_note t s))) with 0 in X.
  cbv zeta in X. unfold u32_max in X. rewrite X by lia. unfold in_reach, u32_max. lia.
Qed.
Example C67_example : safe_project T_Project.ex_project /\ Forall act_safe ex_acts.
Proof.
  split.
  - split; [exact T_Project.ex_project_ok|]. split; [split; vm_compute; discriminate|]. split; [split; vm_compute; discriminate|].
    unfold safe. cbn [m_notes m_bars m_tempos m_dumpers m_softs T_Project.ex_project pj_notes pj_bars pj_tempos pj_dumpers pj_softs map snd].
    split; [repeat (apply Forall_cons; [apply ex_note_safe; lia|]); constructor|].
    split. { repeat (apply Forall_cons; [split; [split; vm_compute; discriminate|]|]); try apply Forall_nil; cbn; intros r E; inversion E; subst; split; vm_compute; discriminate. }
    split; [|split]; repeat (apply Forall_cons; [split; [split; vm_compute; discriminate|vm_compute; discriminate]|]); apply Forall_nil.
  - unfold ex_acts. apply Forall_cons.
    { apply (C67_even_tuplet _ (mkDur Quarter 2 0)).
      - cbn; lia.
      - repeat (apply Forall_cons; [apply ex_note_safe; lia|]); constructor.
      - repeat constructor; cbn; lia.
      - repeat constructor.
      - repeat (apply Forall_cons; [cbn; lia|]); constructor. }
    apply Forall_cons. { split; [split; vm_compute; discriminate|]. cbn. intros r E. inversion E; subst. split; vm_compute; discriminate. }
    apply Forall_cons. { split; [apply Forall_cons; [apply ex_note_safe; lia|constructor]|]. split; [|repeat split; constructor].
      apply Forall_cons; [|constructor]. split; [split; vm_compute; discriminate|]. cbn. discriminate. }
    apply Forall_cons. { split; [split; vm_compute; discriminate|vm_compute; discriminate]. }
    repeat (apply Forall_cons; [exact I|]). constructor.
Qed.

Example C67_reopened_case : Forall act_safe ex_acts /\ Forall act_storable ex_acts /\ savable_project T_Project.ex_project /\
  exists s1 s r, acts_run (session_new T_Project.ex_project 10) (firstn 3 ex_acts) = Ret s1 /\
    acts_run s1 (skipn 3 ex_acts) = Ret s /\
    reopen (write_project (ss_model s1)) (map write_cmd (rev (firstn 1 (ss_undo s1)))) = Ret (Some r) /\
    length (pj_notes (ro_model r)) = length (pj_notes (ss_model s1)).
Proof.
  split; [exact (proj2 C67_example)|]. split; [|split; [exact T_Disk.ex_savable_project|]].
  - pose proof (T_Disk.savable_of_read (mkModels [T_Project.ex_note 0 SC; T_Project.ex_note 480 SE; T_Project.ex_note 1600 SA]
      [mkBar 2000 (Some (mkRhythm 255 D2)) None 0] [mkTempo 960 90] [] []) ltac:(vm_compute; reflexivity)) as (N & B & T & _).
    unfold ex_acts. repeat apply Forall_cons; try exact I; try apply Forall_nil; cbn [act_storable request_edit]; split;
      cbn [edit_typed edit_all_savable edit_savable]; try exact I; try exact N; try exact (Forall_inv B); try exact (Forall_inv T);
      try (apply T_Disk.savable_of_read; vm_compute; reflexivity);
      try (constructor; cbn [m_notes m_bars m_tempos m_dumpers m_softs]; repeat constructor; cbn; unfold u32_max; lia);
      unfold u32, u32_max; cbn; lia.
  - do 3 eexists. split; [vm_compute; reflexivity|]. split; [vm_compute; reflexivity|]. split; vm_compute; reflexivity.
Qed.

Example C67_loaded_case : loads T_Json.none (show_json (write_project T_Project.ex_project)) T_Project.ex_project /\
  (forall x, ends_at T_Project.ex_project x -> in_reach x).
Proof.
  destruct C67_example as [S _]. split.
  - assert (R : read_project (write_project T_Project.ex_project) = Ret (Some T_Project.ex_project)) by (vm_compute; reflexivity).
    destruct (read_project_ok _ _ R) as [O V]. exact (T_Json.C53_project T_Json.none _ O V).
  - intros x. apply safe_ends; [apply S|]. destruct S as (_ & _ & _ & S). exact S.
Qed.
Example C67_even_tuplet_case : let l := [T_Project.ex_note 0 SC; T_Project.ex_note 480 SE; T_Project.ex_note 1600 SA] in
  (2 <= length l <= 255)%nat /\ Forall safe_note l /\ NoDup (map n_base_tick l) /\
  Forall (fun n => n_duration n = mkDur Quarter 2 0) l /\ Forall (fun n => n_base_tick n <= 4200000000) l.
Proof.
  cbv zeta. split; [cbn; lia|]. split; [repeat (apply Forall_cons; [apply ex_note_safe; lia|]); constructor|].
  split; [cbn; repeat constructor; cbn; lia|]. split; repeat constructor; cbn; lia.
Qed.
