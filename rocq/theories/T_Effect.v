(** Property theorems about where edits take effect: C71, C72. *)
From Coq Require Import ZArith List Bool Lia Sorted.
From Verif Require Import Base M_Pitch M_Duration M_Percent M_Scalar M_Bar M_Note M_Store M_Tuple M_Models M_Project.
From Verif Require Import S_Project S_Score S_Effect P_Base P_Store P_Query P_Replenish P_Edit P_History P_Effect.
From Verif Require T_Project.
Import ListNotations.
Open Scope Z_scope.

(** * C71 *)

(** Editing notes, tempos and pedals (and the grid) changes the time signature and the key nowhere,
    although bars may be appended; setting the key of the project does not change the time signature. *)
Theorem C71_signatures : forall e p p' c, project_ok p -> edit_typed e -> leaves_bars e ->
  edit_run e p = Ret (Some (p', c)) ->
  (forall t, rhythm_at p' t = rhythm_at p t) /\
  ((forall k, e <> ESetKey k) -> forall t, key_at p' t = key_at p t).
Proof.
  intros e p p' c O T L E. destruct (leaves_extended e p p' c O T L E) as [X K]. destruct (edit_ok e p p' c O T E) as [O' _].
  split; [intros t; apply extended_rhythm; auto|]. intros N t. apply extended_key; auto.
Qed.
Print Assumptions C71_signatures.

(** Every location that can be typed stands for the same tick as before (or is refused, or panics, as
    before), also where the bars it counts have been appended by the edit. *)
Theorem C71_location : forall e p p' c l, project_ok p -> valid_rhythms p -> edit_typed e -> leaves_bars e ->
  edit_run e p = Ret (Some (p', c)) -> usize (loc_bar l) -> usize (loc_offset l) ->
  location_to_tick p' l = location_to_tick p l.
Proof.
  intros e p p' c l O V T L E B F. destruct (leaves_extended e p p' c O T L E) as [X _]. destruct (edit_ok e p p' c O T E) as [O' _].
  unfold usize in *. apply extended_location; auto; lia.
Qed.
Print Assumptions C71_location.

(** The location shown for a tick before the edit still stands for that tick after it; and it is still
    the one that is shown, unless a bar has been appended at or before the tick. *)
Theorem C71_shown : forall e p p' c t l, project_ok p -> valid_rhythms p -> Z.of_nat (length (pj_bars p)) <= u32_max ->
  edit_typed e -> leaves_bars e -> edit_run e p = Ret (Some (p', c)) -> u32 t -> tick_to_location p t = Ret l ->
  location_to_tick p' l = Ret (Ok t) /\
  ((forall b, In b (score p') -> b_tick b <= t -> In b (score p)) -> tick_to_location p' t = Ret l) /\
  (t <= last_tick p -> tick_to_location p' t = Ret l).
Proof.
  intros e p p' c t l O V N T L E U S. destruct (leaves_extended e p p' c O T L E) as [X _]. destruct (edit_ok e p p' c O T E) as [O' _].
  assert (A : (forall b, In b (score p') -> b_tick b <= t -> In b (score p)) -> tick_to_location p' t = Ret l).
  { intros H. destruct X as (_ & r & n & _ & B). pose proof (ok_bars _ O) as K. pose proof (ok_bars _ O') as K'.
    destruct (tick_to_location_spec p t K U) as (l1 & E1 & D1). rewrite S in E1. apply ret_inj in E1. subst l1.
    destruct (tick_to_location_spec p' t K' U) as (l2 & E2 & D2). rewrite E2. f_equal.
    pose proof (last_idx_spec _ t (keyed_srt _ _ K)) as F1. pose proof (last_idx_spec _ t (keyed_srt _ _ K')) as F2.
    assert (NB : forall j k v, nth_error (pj_bars p') j = Some (k, v) -> k <= t -> nth_error (pj_bars p) j = Some (k, v)).
    { intros j k v J Lk. pose proof (nth_error_In _ _ J) as JI. destruct (proj2 K' _ _ JI) as [Ek _].
      assert (In v (score p)) as IV by (apply H; [exact (in_map snd _ _ JI)|lia]).
      apply in_map_iff in IV. destruct IV as ([k0 v0] & Ev & IV). cbn in Ev. subst v0.
      destruct (proj2 K _ _ IV) as [Ek0 _]. assert (k0 = k) as -> by lia.
      apply In_nth_error in IV. destruct IV as [i IV].
      assert (nth_error (pj_bars p') i = Some (k, v)) as IV' by (rewrite B, nth_error_app1; [exact IV|apply nth_error_Some; congruence]).
      destruct (Nat.lt_trichotomy i j) as [Q|[->|Q]]; [|exact IV|].
      - pose proof (nth_lt_sorted _ _ (keyed_srt _ _ K') _ _ _ _ IV' J Q) as W. cbn in W. lia.
      - pose proof (nth_lt_sorted _ _ (keyed_srt _ _ K') _ _ _ _ J IV' Q) as W. cbn in W. lia. }
    assert (BN : forall j x, nth_error (pj_bars p) j = Some x -> nth_error (pj_bars p') j = Some x).
    { intros j x J. rewrite B, nth_error_app1; [exact J|]. apply nth_error_Some. congruence. }
    destruct (last_idx t (pj_bars p')) as [i2|].
    - destruct F2 as (k2 & v2 & N2 & L2 & M2). destruct D2 as (b2 & Nb2 & Lb2 & ->). rewrite N2 in Nb2. inversion Nb2; subst.
      pose proof (NB _ _ _ N2 L2) as N1. destruct (last_idx t (pj_bars p)) as [i1|].
      + destruct F1 as (k1 & v1 & Nx & L1 & M1). destruct D1 as (b1 & Nb1 & Lb1 & ->). rewrite Nx in Nb1. inversion Nb1; subst.
        assert (i1 = i2) as ->.
        { destruct (Nat.lt_trichotomy i1 i2) as [Q|[Q|Q]]; [|exact Q|].
          - pose proof (M1 _ _ _ N1 Q). lia.
          - pose proof (M2 _ _ _ (BN _ _ Nx) Q). lia. }
        rewrite N1 in Nx. inversion Nx. reflexivity.
      + pose proof (F1 _ _ (nth_error_In _ _ N1)). lia.
    - subst l2. destruct (last_idx t (pj_bars p)) as [i1|]; [|subst l; reflexivity].
      destruct F1 as (k1 & v1 & Nx & L1 & _). pose proof (F2 _ _ (nth_error_In _ _ (BN _ _ Nx))). lia. }
  split; [|split; [exact A|]].
  - destruct (roundtrip p t (ok_bars _ O) N U) as (l' & E1 & E2). rewrite S in E1. apply ret_inj in E1. subst l'.
    rewrite <- E2. destruct (Z.le_gt_cases 0 (loc_bar l)) as [B|B].
    + apply extended_location; auto. destruct (T_Project.C24_meaning p t l O U S) as [(_ & -> & _)|(i & k & b & _ & _ & Q & -> & _)]; [apply U|lia].
    + exfalso. destruct (T_Project.C24_meaning p t l O U S) as [(Q & _)|(i & k & b & Q & _)]; lia.
  - intros LT. apply A. intros b I Lb. destruct X as (_ & r & n & Rr & B). unfold score in *. rewrite B, map_app, map_map in I.
    apply in_app_iff in I. destruct I as [I|I]; [exact I|exfalso]. cbn [bar_entry snd] in I. rewrite map_id in I.
    destruct (rhythm_at_all _ p (last_tick p) (ok_bars _ O) V) as (r' & Er & Vr).
    assert (PL : 0 < rhythm_tick_len r) by (rewrite (ret_inj _ _ (eq_trans (eq_sym Rr) Er)); pose proof (rhythm_tick_len_pos r' Vr); lia).
    apply even_bars_ticks in I. destruct I as (i & Hi & ->). cbn in Lb. nia.
Qed.
Print Assumptions C71_shown.

(** Over a whole history of such edits, with any undoing and redoing, the time signatures are the same
    everywhere (and the keys, if the key of the project is not set), every location stands for the same tick as
    at the beginning, and so does the one that was shown for a tick. *)
Theorem C71_history : forall p limit os h l t, project_ok p -> valid_rhythms p ->
  hist_wf (mkSnap [] p [] limit) os -> Forall (fun o => match o with HEdit e => leaves_bars e | _ => True end) os ->
  hist_run (history_new p limit) os = Ret h -> usize (loc_bar l) -> usize (loc_offset l) ->
  location_to_tick (h_model h) l = location_to_tick p l /\ rhythm_at (h_model h) t = rhythm_at p t /\
  (Forall (fun o => forall k, o <> HEdit (ESetKey k)) os -> key_at (h_model h) t = key_at p t) /\
  (u32 t -> Z.of_nat (length (pj_bars p)) <= u32_max -> tick_to_location p t = Ret l -> location_to_tick (h_model h) l = Ret (Ok t)).
Proof.
  intros p limit os h l t O V W LV E B F. set (K := Forall (fun o => forall k, o <> HEdit (ESetKey k)) os).
  destruct (sim_run os _ _ h (sim_new p limit O) W E) as (s & ES & S).
  set (good q := project_ok q /\ valid_rhythms q /\ location_to_tick q l = location_to_tick p l /\ rhythm_at q t = rhythm_at p t /\
    (K -> key_at q t = key_at p t)).
  assert (G : forall os s s', Forall good (sn_now s :: sn_past s ++ sn_future s) -> hist_wf s os ->
     Forall (fun o => match o with HEdit e => leaves_bars e | _ => True end) os ->
     (K -> Forall (fun o => forall k, o <> HEdit (ESetKey k)) os) -> snap_run s os = Ret s' -> good (sn_now s')).
  { clearbody K. clear - B F. induction os as [|o os IH]; intros s s' G W L LK E; cbn [snap_run hist_wf] in *.
    - apply ret_inj in E. subst. inversion G; auto.
    - apply bind_ret in E. destruct E as (s1 & E1 & E). destruct W as [W1 W]. rewrite E1 in W. inversion L as [|? ? L1 L2]; subst.
      apply (IH s1 s'); auto; [|intros HK; specialize (LK HK); inversion LK; auto]. clear IH E W. inversion G as [|? ? Gn Gr]; subst. apply Forall_app in Gr. destruct Gr as [Gp Gf].
      destruct o as [e| |]; cbn [snap_step] in E1.
      + unfold snap_edit in E1. apply bind_ret in E1. destruct E1 as ([[q k]|] & R & E1); apply ret_inj in E1; subst s1.
        * destruct W1 as [_ T]. destruct Gn as (Gn1 & Gn2 & Gn3 & Gn4 & Gn5).
          destruct (C71_signatures e _ q k Gn1 T L1 R) as [_ SK].
          destruct (leaves_extended e _ q k Gn1 T L1 R) as [X _]. destruct (edit_ok e _ q k Gn1 T R) as [O' _].
          cbn. rewrite app_nil_r. constructor.
          -- split; [exact O'|]. split; [exact (extended_valid _ _ X Gn2)|]. unfold usize in *. split.
             ++ rewrite <- Gn3. apply extended_location; auto; lia.
             ++ split; [rewrite <- Gn4; apply extended_rhythm; auto|]. intros HK. rewrite <- (Gn5 HK). apply SK.
                intros k' ->. specialize (LK HK). inversion LK as [|? ? N _]; subst. apply (N k'). reflexivity.
          -- apply (forall_firstn good). constructor; [|exact Gp]. split; [exact Gn1|]. split; [exact Gn2|]. split; [exact Gn3|]. split; [exact Gn4|exact Gn5].
        * constructor; [exact Gn|]. apply Forall_app. auto.
      + apply ret_inj in E1. subst s1. unfold snap_undo. destruct (sn_past s) as [|q r] eqn:EP; cbn.
        * rewrite EP. cbn. constructor; auto.
        * inversion Gp; subst. constructor; [auto|]. apply Forall_app. split; [auto|]. constructor; auto.
      + apply ret_inj in E1. subst s1. unfold snap_redo. destruct (sn_future s) as [|q r] eqn:EP; cbn.
        * rewrite EP, app_nil_r. constructor; auto.
        * inversion Gf; subst. constructor; [auto|]. constructor; [auto|]. apply Forall_app. auto. }
  assert (GN : good (sn_now s)).
  { apply (G os _ s) in ES; auto. cbn. constructor; [|constructor]. split; [exact O|]. split; [exact V|]. split; [reflexivity|]. split; reflexivity. }
  destruct GN as (_ & _ & G3 & G4 & G5). destruct S as [[SR SK _ _ SB _ _ _] _ _ _ _ _].
  assert (LL : location_to_tick (h_model h) l = location_to_tick p l).
  { rewrite <- G3. unfold location_to_tick, last_bar, rhythm_at. rewrite SR, SB. reflexivity. }
  split; [exact LL|]. split; [rewrite <- G4; unfold rhythm_at; rewrite SR, SB; reflexivity|].
  split; [intros HK; rewrite <- (G5 HK); unfold key_at; rewrite SK, SB; reflexivity|].
  intros T N TL. rewrite LL. destruct (roundtrip p t (ok_bars _ O) N T) as (l' & E1 & E2).
  rewrite TL in E1. apply ret_inj in E1. subst l'. exact E2.
Qed.
Print Assumptions C71_history.

(** A note is put far behind the last bar: five bars are appended, and all locations stay. *)
Example C71_case : let e := EAddNote (T_Project.ex_note 5000 SC) in let p := T_Project.ex_project in
  project_ok p /\ valid_rhythms p /\ edit_typed e /\ leaves_bars e /\ (forall k, e <> ESetKey k) /\
  exists p' c, edit_run e p = Ret (Some (p', c)) /\ (length (score p) = 2 /\ length (score p') = 7)%nat /\
    location_to_tick p (mkLoc 6 7) = Ret (Ok 4807) /\ location_to_tick p' (mkLoc 6 7) = Ret (Ok 4807) /\
    tick_to_location p 4807 = Ret (mkLoc 2 2887) /\ tick_to_location p' 4807 = Ret (mkLoc 6 7) /\
    location_to_tick p' (mkLoc 2 2887) = Ret (Ok 4807).
Proof.
  cbv zeta. split; [exact T_Project.ex_project_ok|]. split; [exact T_Project.ex_project_rhythms|]. split; [split; exact Logic.I|].
  split; [exact Logic.I|]. split; [discriminate|]. do 2 eexists. split; [vm_compute; reflexivity|].
  split; [split; reflexivity|]. repeat split; vm_compute; reflexivity.
Qed.

Definition ex_leaving : list hop :=
  [HEdit (EAddNote (T_Project.ex_note 5000 SC)); HEdit (ESetKey 5); HUndo; HUndo; HRedo].
Example C71_history_case : let p := T_Project.ex_project in
  hist_wf (mkSnap [] p [] 10) ex_leaving /\
  Forall (fun o => match o with HEdit e => leaves_bars e | _ => True end) ex_leaving /\
  exists h, hist_run (history_new p 10) ex_leaving = Ret h /\ length (score (h_model h)) = 7%nat /\
    location_to_tick (h_model h) (mkLoc 6 7) = Ret (Ok 4807).
Proof.
  cbv zeta. split; [|split].
  - unfold ex_leaving. cbn [hist_wf]. split; [split; exact Logic.I|].
    match goal with |- match ?x with _ => _ end => let v := eval vm_compute in x in change x with v end. cbv iota.
    split; [split; exact Logic.I|]. cbn. tauto.
  - repeat constructor.
  - eexists. split; [vm_compute; reflexivity|]. split; vm_compute; reflexivity.
Qed.

(** * C72 *)

(** An edit is heard only from the ticks it names up to the next change that it does not name. *)
Theorem C72_local : forall e out into p p' c, project_ok p -> edit_typed e -> moves e out into ->
  edit_run e p = Ret (Some (p', c)) ->
  (forall x, shielded (ticks_of tp_tick m_tempos out into) (pj_tempos p) x -> tempo_at p' x = tempo_at p x) /\
  (forall x, shielded (ticks_of cc_tick m_dumpers out into) (pj_dumpers p) x -> dumper_at p' x = dumper_at p x) /\
  (forall x, shielded (ticks_of cc_tick m_softs out into) (pj_softs p) x -> soft_at p' x = soft_at p x) /\
  (forall x, shielded (ticks_of b_tick m_bars out into) (setting b_rhythm (pj_bars p)) x -> rhythm_at p' x = rhythm_at p x) /\
  (forall x, shielded (ticks_of b_tick m_bars out into) (setting b_key (pj_bars p)) x -> key_at p' x = key_at p x).
Proof.
  intros e out into p p' c O T M E. destruct (edit_ok e p p' c O T E) as [O' _].
  destruct (moves_typed _ _ _ M T) as [TF TA].
  destruct (edit_runs e p out into M) as [R|R]; rewrite R in E; [discriminate|].
  destruct (runs_rewritten _ _ _ _ _ _ O TA E) as [more [[(R1 & R2 & _) _ RB RT RD RS] [_ [Z _]]]].
  assert (Z1 : Forall (fun b => b_rhythm b = None) more) by (eapply Forall_impl; [|exact Z]; cbn; tauto).
  assert (Z2 : Forall (fun b => b_key b = None) more) by (eapply Forall_impl; [|exact Z]; cbn; tauto).
  assert (Z3 : Forall (fun b => forall k v, In (k, v) (pj_bars (exchange out into p)) -> k < b_tick b) more) by (eapply Forall_impl; [|exact Z]; cbn; tauto).
  split; [|split; [|split; [|split]]]; intros x SH.
  - destruct (tempo_at_spec p x (ok_tempos _ O)) as (o & L & ->). apply tempo_latest; [apply (ok_tempos _ O')|].
    eapply latest_local; eauto. intros k v N. eapply written_else; eauto.
  - destruct (ctrl_at_spec (pj_dumpers p) x (ok_dumpers _ O)) as (o & L & Eo). unfold dumper_at. rewrite Eo. apply ctrl_latest; [apply (ok_dumpers _ O')|].
    eapply latest_local; eauto. intros k v N. eapply written_else; eauto.
  - destruct (ctrl_at_spec (pj_softs p) x (ok_softs _ O)) as (o & L & Eo). unfold soft_at. rewrite Eo. apply ctrl_latest; [apply (ok_softs _ O')|].
    eapply latest_local; eauto. intros k v N. eapply written_else; eauto.
  - destruct (rhythm_at_spec p x (ok_bars _ O)) as (o & L & ->). rewrite <- R1. apply rhythm_latest; [apply (ok_bars _ O')|].
    eapply latest_local; eauto. intros k v N. eapply bars_else; eauto.
  - destruct (key_at_spec p x (ok_bars _ O)) as (o & L & ->). rewrite <- R2. apply key_latest; [apply (ok_bars _ O')|].
    eapply latest_local; eauto. intros k v N. eapply bars_else; eauto.
Qed.
Print Assumptions C72_local.

(** What an edit puts in is in force from its tick up to the next change. *)
Theorem C72_in_force : forall e out into p p' c, project_ok p -> edit_typed e -> moves e out into ->
  edit_run e p = Ret (Some (p', c)) ->
  (forall v x, last_with tp_tick (m_tempos into) (tp_tick v) v -> tp_tick v <= x ->
     clear_between (map tp_tick (m_tempos out)) (pj_tempos p) (tp_tick v) x ->
     (forall w, In w (m_tempos into) -> ~ tp_tick v < tp_tick w <= x) -> tempo_at p' x = Ret (tp_value v)) /\
  (forall v x, last_with cc_tick (m_dumpers into) (cc_tick v) v -> cc_tick v <= x ->
     clear_between (map cc_tick (m_dumpers out)) (pj_dumpers p) (cc_tick v) x ->
     (forall w, In w (m_dumpers into) -> ~ cc_tick v < cc_tick w <= x) -> dumper_at p' x = Ret (cc_velocity v)) /\
  (forall v x, last_with cc_tick (m_softs into) (cc_tick v) v -> cc_tick v <= x ->
     clear_between (map cc_tick (m_softs out)) (pj_softs p) (cc_tick v) x ->
     (forall w, In w (m_softs into) -> ~ cc_tick v < cc_tick w <= x) -> soft_at p' x = Ret (cc_velocity v)) /\
  (forall b r x, last_with b_tick (m_bars into) (b_tick b) b -> b_rhythm b = Some r -> b_tick b <= x ->
     clear_between (ticks_of b_tick m_bars out into) (setting b_rhythm (pj_bars p)) (b_tick b) x ->
     (forall w, In w (m_bars into) -> b_tick b < b_tick w <= x -> b_rhythm w = None) -> rhythm_at p' x = Ret r) /\
  (forall b k x, last_with b_tick (m_bars into) (b_tick b) b -> b_key b = Some k -> b_tick b <= x ->
     clear_between (ticks_of b_tick m_bars out into) (setting b_key (pj_bars p)) (b_tick b) x ->
     (forall w, In w (m_bars into) -> b_tick b < b_tick w <= x -> b_key w = None) -> key_at p' x = Ret k).
Proof.
  intros e out into p p' c O T M E. destruct (edit_ok e p p' c O T E) as [O' _].
  destruct (moves_typed _ _ _ M T) as [TF TA].
  destruct (edit_runs e p out into M) as [R|R]; rewrite R in E; [discriminate|].
  destruct (runs_rewritten _ _ _ _ _ _ O TA E) as [more [[(R1 & R2 & _) _ RB RT RD RS] [_ [Z _]]]].
  assert (Z1 : Forall (fun b => b_rhythm b = None) more) by (eapply Forall_impl; [|exact Z]; cbn; tauto).
  assert (Z2 : Forall (fun b => b_key b = None) more) by (eapply Forall_impl; [|exact Z]; cbn; tauto).
  assert (Z3 : Forall (fun b => forall k v, In (k, v) (pj_bars (exchange out into p)) -> k < b_tick b) more) by (eapply Forall_impl; [|exact Z]; cbn; tauto).
  split; [|split; [|split; [|split]]].
  - intros v x L LE C N. apply (tempo_latest p' x (Some v)); [apply (ok_tempos _ O')|]. eapply written_latest; eauto.
  - intros v x L LE C N. apply (ctrl_latest (pj_dumpers p') x (Some v)); [apply (ok_dumpers _ O')|]. eapply written_latest; eauto.
  - intros v x L LE C N. apply (ctrl_latest (pj_softs p') x (Some v)); [apply (ok_softs _ O')|]. eapply written_latest; eauto.
  - intros b r x L Eb LE C N. apply (rhythm_latest p' x (Some r)); [apply (ok_bars _ O')|]. exact (bars_latest b_rhythm p out into more _ b r x O TA RB Z1 Z3 L Eb LE C N).
  - intros b r x L Eb LE C N. apply (key_latest p' x (Some r)); [apply (ok_bars _ O')|]. exact (bars_latest b_key p out into more _ b r x O TA RB Z2 Z3 L Eb LE C N).
Qed.
Print Assumptions C72_in_force.

(** Where an edit takes something out (and puts nothing in its place) what was in force before goes on,
    up to the next change; at tick 0 the default comes into force. *)
Theorem C72_taken_out : forall e out into p p' c k x, project_ok p -> edit_typed e -> moves e out into ->
  edit_run e p = Ret (Some (p', c)) -> 0 <= k <= x ->
  (In k (map tp_tick (m_tempos out)) -> ~ In k (map tp_tick (m_tempos into)) ->
     clear_between [] (pj_tempos p') k x ->
     tempo_at p' x = if k =? 0 then Ret 120 else tempo_at p' (k - 1)) /\
  (In k (map cc_tick (m_dumpers out)) -> ~ In k (map cc_tick (m_dumpers into)) ->
     clear_between [] (pj_dumpers p') k x ->
     dumper_at p' x = if k =? 0 then Ret 0 else dumper_at p' (k - 1)) /\
  (In k (map cc_tick (m_softs out)) -> ~ In k (map cc_tick (m_softs into)) ->
     clear_between [] (pj_softs p') k x ->
     soft_at p' x = if k =? 0 then Ret 0 else soft_at p' (k - 1)) /\
  (In k (map b_tick (m_bars out)) -> ~ In k (map b_tick (m_bars into)) ->
     clear_between [] (setting b_rhythm (pj_bars p')) k x ->
     rhythm_at p' x = if k =? 0 then Ret (pj_rhythm p) else rhythm_at p' (k - 1)) /\
  (In k (map b_tick (m_bars out)) -> ~ In k (map b_tick (m_bars into)) ->
     clear_between [] (setting b_key (pj_bars p')) k x ->
     key_at p' x = if k =? 0 then Ret (pj_key p) else key_at p' (k - 1)).
Proof.
  intros e out into p p' c k x O T M E B. destruct (edit_ok e p p' c O T E) as [O' _].
  destruct (moves_typed _ _ _ M T) as [TF TA].
  destruct (edit_runs e p out into M) as [R|R]; rewrite R in E; [discriminate|].
  destruct (runs_rewritten _ _ _ _ _ _ O TA E) as [more [[(R1 & R2 & _) _ RB RT RD RS] [_ [Z _]]]].
  assert (Z1 : Forall (fun b => b_rhythm b = None) more) by (eapply Forall_impl; [|exact Z]; cbn; tauto).
  assert (Z2 : Forall (fun b => b_key b = None) more) by (eapply Forall_impl; [|exact Z]; cbn; tauto).
  split; [|split; [|split; [|split]]]; intros I N C.
  - pose proof (written_gone _ _ _ _ _ _ RT I N) as G. destruct (Z.eqb_spec k 0) as [->|K].
    + apply (tempo_latest p' x None); [apply (ok_tempos _ O')|]. eapply latest_from_start; eauto. intros k' v J.
      apply (proj2 (ok_tempos _ O')) in J. apply J.
    + destruct (tempo_at_spec p' (k - 1) (ok_tempos _ O')) as (o & L & ->). apply tempo_latest; [apply (ok_tempos _ O')|].
      eapply latest_gap; eauto; lia.
  - pose proof (written_gone _ _ _ _ _ _ RD I N) as G. destruct (Z.eqb_spec k 0) as [->|K].
    + apply (ctrl_latest (pj_dumpers p') x None); [apply (ok_dumpers _ O')|]. eapply latest_from_start; eauto. intros k' v J.
      apply (proj2 (ok_dumpers _ O')) in J. apply J.
    + unfold dumper_at. destruct (ctrl_at_spec (pj_dumpers p') (k - 1) (ok_dumpers _ O')) as (o & L & ->). apply ctrl_latest; [apply (ok_dumpers _ O')|].
      eapply latest_gap; eauto; lia.
  - pose proof (written_gone _ _ _ _ _ _ RS I N) as G. destruct (Z.eqb_spec k 0) as [->|K].
    + apply (ctrl_latest (pj_softs p') x None); [apply (ok_softs _ O')|]. eapply latest_from_start; eauto. intros k' v J.
      apply (proj2 (ok_softs _ O')) in J. apply J.
    + unfold soft_at. destruct (ctrl_at_spec (pj_softs p') (k - 1) (ok_softs _ O')) as (o & L & ->). apply ctrl_latest; [apply (ok_softs _ O')|].
      eapply latest_gap; eauto; lia.
  - pose proof (bars_gone b_rhythm _ _ _ _ _ _ RB Z1 I N) as G. destruct (Z.eqb_spec k 0) as [->|K].
    + rewrite <- R1. apply (rhythm_latest p' x None); [apply (ok_bars _ O')|]. eapply latest_from_start; eauto. intros k' v J.
      apply setting_in in J. destruct J as (b & J & _). apply (proj2 (ok_bars _ O')) in J. apply J.
    + destruct (rhythm_at_spec p' (k - 1) (ok_bars _ O')) as (o & L & ->). apply rhythm_latest; [apply (ok_bars _ O')|].
      eapply latest_gap; eauto; lia.
  - pose proof (bars_gone b_key _ _ _ _ _ _ RB Z2 I N) as G. destruct (Z.eqb_spec k 0) as [->|K].
    + rewrite <- R2. apply (key_latest p' x None); [apply (ok_bars _ O')|]. eapply latest_from_start; eauto. intros k' v J.
      apply setting_in in J. destruct J as (b & J & _). apply (proj2 (ok_bars _ O')) in J. apply J.
    + destruct (key_at_spec p' (k - 1) (ok_bars _ O')) as (o & L & ->). apply key_latest; [apply (ok_bars _ O')|].
      eapply latest_gap; eauto; lia.
Qed.
Print Assumptions C72_taken_out.

(** Setting the time signature or the key of the project is heard exactly before the first bar that sets one. *)
Theorem C72_settings : forall p r k x, project_ok p ->
  (exists p' c, edit_run (ESetRhythm r) p = Ret (Some (p', c)) /\
     rhythm_at p' x = (if existsb (fun b => (b_tick b <=? x) && (match b_rhythm b with Some _ => true | None => false end)) (score p)
                       then rhythm_at p x else Ret r) /\
     key_at p' x = key_at p x /\ tempo_at p' x = tempo_at p x) /\
  (exists p' c, edit_run (ESetKey k) p = Ret (Some (p', c)) /\
     key_at p' x = (if existsb (fun b => (b_tick b <=? x) && (match b_key b with Some _ => true | None => false end)) (score p)
                    then key_at p x else Ret k) /\
     rhythm_at p' x = rhythm_at p x /\ tempo_at p' x = tempo_at p x).
Proof.
  intros p r k x O. pose proof (ok_bars _ O) as K. split; [exists (pj_set_rhythm p r)|exists (pj_set_key p k)]; eexists; (split; [reflexivity|]); (split; [|split; reflexivity]).
  - destruct (rhythm_at_spec p x K) as (o & L & E). rewrite (rhythm_latest (pj_set_rhythm p r) x o K L). cbn [pj_set_rhythm pj_rhythm].
    pose proof (latest_exists b_rhythm p x o K L) as X. destruct o as [v|]; rewrite X; [|reflexivity]. rewrite E. reflexivity.
  - destruct (key_at_spec p x K) as (o & L & E). rewrite (key_latest (pj_set_key p k) x o K L). cbn [pj_set_key pj_key].
    pose proof (latest_exists b_key p x o K L) as X. destruct o as [v|]; rewrite X; [|reflexivity]. rewrite E. reflexivity.
Qed.
Print Assumptions C72_settings.

(** A tempo put between two others; a paste of two tempos and a bar with a key; taking out a tempo. *)
Example C72_case : let p := T_Project.ex_project in
  let m := mkModels [] [mkBar 100 None (Some 3) 0] [mkTempo 200 77; mkTempo 300 88] [] [] in
  let d := mkModels [] [] [mkTempo 960 140] [] [] in
  project_ok p /\ edit_typed (EBulkAdd m) /\ moves (EBulkAdd m) models_empty m /\
  shielded (ticks_of tp_tick m_tempos models_empty m) (pj_tempos p) 199 /\
  shielded (ticks_of tp_tick m_tempos models_empty m) (pj_tempos p) 960 /\
  ~ shielded (ticks_of tp_tick m_tempos models_empty m) (pj_tempos p) 959 /\
  last_with tp_tick (m_tempos m) 300 (mkTempo 300 88) /\ clear_between [] (pj_tempos p) 300 959 /\
  clear_between (ticks_of b_tick m_bars models_empty m) (setting b_key (pj_bars p)) 100 1919 /\
  (exists p' c, edit_run (EBulkAdd m) p = Ret (Some (p', c)) /\
     map (tempo_at p') [0; 199; 200; 299; 300; 959; 960] = map Ret [100; 100; 77; 77; 88; 88; 140] /\
     map (key_at p') [99; 100; 1919; 1920] = map Ret [0; 3; 3; 2]) /\
  (exists p' c, edit_run (EBulkRemove d) p = Ret (Some (p', c)) /\ In 960 (map tp_tick (m_tempos d)) /\
     clear_between [] (pj_tempos p') 960 5000 /\ tempo_at p' 5000 = Ret 100 /\ tempo_at p' 959 = Ret 100) /\
  (exists p' c, edit_run (ESetRhythm (mkRhythm 2 D4)) p = Ret (Some (p', c)) /\
     map (rhythm_at p') [0; 1919; 1920] = map Ret [mkRhythm 2 D4; mkRhythm 2 D4; mkRhythm 3 D4]).
Proof.
  cbv zeta. split; [exact T_Project.ex_project_ok|].
  split; [constructor; cbn [m_notes m_bars m_tempos m_dumpers m_softs]; repeat constructor; cbn; unfold u32_max; lia|].
  split; [constructor|].
  split; [intros k H; cbn in H; destruct H as [<-|[<-|[]]]; left; lia|].
  split; [intros k H; right; exists 960, (mkTempo 960 140); cbn in *; destruct H as [<-|[<-|[]]]; (split; [tauto|split; [lia|lia]])|].
  split.
  { intros H. destruct (H 200 ltac:(cbn; tauto)) as [H'|(k & a & I & N & B)]; [lia|]. cbn in I. destruct I as [I|[I|[]]]; inversion I; subst; lia. }
  split; [split; [reflexivity|]; exists [mkTempo 200 77], []; split; [reflexivity|intros []]|].
  split; [intros k a I B; cbn in I; destruct I as [I|[I|[]]]; inversion I; subst; lia|].
  split; [intros k a I B; cbn in I; destruct I as [I|[]]; inversion I; subst; lia|].
  split; [do 2 eexists; split; [vm_compute; reflexivity|]; split; vm_compute; reflexivity|].
  split; [|do 2 eexists; split; [vm_compute; reflexivity|]; vm_compute; reflexivity].
  do 2 eexists. split; [vm_compute; reflexivity|]. split; [left; reflexivity|].
  split; [intros k a I B; cbn in I; destruct I as [I|[]]; inversion I; subst; lia|]. split; vm_compute; reflexivity.
Qed.
