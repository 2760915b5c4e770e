From Coq Require Import Sorted Permutation.
From Verif Require Import P_Base M_Duration M_Percent M_Scalar M_Bar M_Note M_Tuple M_Models S_Note S_Tuple P_Note.
Open Scope Z_scope.

(** ** Moving a selection *)
Lemma fold_min l : forall z, let m := fold_left (fun a t => Z.min t a) l z in
  m <= z /\ (forall x, In x l -> m <= x) /\ (m = z \/ In m l).
Proof.
  induction l as [|y l IH]; intros z; cbn [fold_left].
  - cbn. split; [lia|]. split; [intros x []|auto].
  - destruct (IH (Z.min y z)) as [A [B C]]. cbv zeta. split; [lia|]. split.
    + intros x [<-|I]; [lia|auto].
    + destruct C as [C|C]; [|right; right; auto].
      destruct (Z.min_spec y z) as [[_ M]|[_ M]]; rewrite M in *; [right; left; congruence|left; congruence].
Qed.

Lemma smallest_fold m : smallest_tick m = fold_left (fun a t => Z.min t a) (all_ticks m) u32_max.
Proof. unfold smallest_tick, all_ticks. rewrite !fold_left_app. reflexivity. Qed.

Lemma smallest_least m s : Forall u32 (all_ticks m) -> least (all_ticks m) s -> smallest_tick m = s.
Proof.
  intros U [I L]. rewrite smallest_fold. destruct (fold_min (all_ticks m) u32_max) as [A [B C]].
  rewrite Forall_forall in U. pose proof (U s I) as Us. unfold u32 in Us. specialize (B s I).
  destruct C as [C|C]; [|apply L in C; lia]. cbv zeta in *. rewrite C in *. lia.
Qed.

Lemma smallest_empty m : all_ticks m = [] -> smallest_tick m = u32_max.
Proof. intros E. rewrite smallest_fold, E. reflexivity. Qed.

Lemma forall2_map {A} (R : A -> A -> Prop) (f : A -> A) l : (forall x, In x l -> R x (f x)) -> Forall2 R l (map f l).
Proof. induction l; intros H; cbn; constructor; [apply H; left; auto|apply IHl; intros; apply H; right; auto]. Qed.
Lemma forall2_id {A} (R : A -> A -> Prop) l : (forall x, In x l -> R x x) -> Forall2 R l l.
Proof. intros H. rewrite <- (map_id l) at 2. apply forall2_map; auto. Qed.

Lemma move_spec m s t : Forall u32 (all_ticks m) -> least (all_ticks m) s -> u32 t ->
  (forall x, In x (all_ticks m) -> x + (t - s) <= u32_max) ->
  moved (t - s) m (move_to_tick m t).
Proof.
  intros U L T F. pose proof (smallest_least m s U L) as E. unfold move_to_tick. rewrite E.
  destruct L as [_ L]. rewrite Forall_forall in U.
  assert (G : forall x, In x (all_ticks m) -> as_u32 (x + (t - s)) = x + (t - s)).
  { intros x I. apply as_u32_id. pose proof (U x I). pose proof (L x I). pose proof (F x I). unfold u32 in *. lia. }
  unfold all_ticks in *.
  destruct (Z.eqb_spec (t - s) 0) as [Z|Z].
  - rewrite Z. unfold moved; repeat split; apply forall2_id; intros x _;
      unfold moved_note, moved_bar, moved_tempo, moved_ctrl; rewrite Z.add_0_r; destruct x; reflexivity.
  - unfold moved; cbn [m_notes m_bars m_tempos m_dumpers m_softs]; repeat split; apply forall2_map; intros x I;
      unfold moved_note, moved_bar, moved_tempo, moved_ctrl, set_base_tick, bar_set_tick, tempo_set_tick, ctrl_set_tick;
      rewrite G; auto; rewrite !in_app_iff.
    + left. apply in_map; auto.
    + right; left. apply in_map; auto.
    + right; right; left. apply in_map; auto.
    + right; right; right; left. apply in_map; auto.
    + right; right; right; right. apply in_map; auto.
Qed.

Lemma move_round m s t : Forall u32 (all_ticks m) -> least (all_ticks m) s ->
  moved_round (t - s) m (move_to_tick m t).
Proof.
  intros U L. unfold move_to_tick. rewrite (smallest_least m s U L). rewrite Forall_forall in U. unfold all_ticks in U.
  assert (W : forall x, wrapped (t - s) x = as_u32 (x + (t - s))) by reflexivity.
  assert (G : forall (X : Type) (R : X -> X -> Prop) (f : X -> X) l, (forall a, In a l -> R a (f a)) -> Forall2 R l (map f l)).
  { intros X R f l. induction l; cbn; intros H; constructor; auto. }
  assert (G0 : forall (X : Type) (R : X -> X -> Prop) l, (forall a, In a l -> R a a) -> Forall2 R l l).
  { intros X R l. induction l; cbn; intros H; constructor; auto. }
  destruct (Z.eqb_spec (t - s) 0) as [Q|Q].
  - assert (W0 : forall x, u32 x -> wrapped (t - s) x - x = 0).
    { intros x H. rewrite W, Q, Z.add_0_r, as_u32_id by exact H. lia. }
    unfold moved_round. repeat split; apply G0; intros a I; rewrite W0 by
      (apply U; rewrite !in_app_iff, !in_map_iff; eauto 8); destruct a; unfold moved_note, moved_bar, moved_tempo, moved_ctrl; cbn; rewrite Z.add_0_r; reflexivity.
  - unfold moved_round. cbn [m_notes m_bars m_tempos m_dumpers m_softs].
    repeat split; apply G; intros a I; destruct a; unfold moved_note, moved_bar, moved_tempo, moved_ctrl, set_base_tick, bar_set_tick, tempo_set_tick, ctrl_set_tick; cbn -[wrapped as_u32 Z.add Z.sub]; rewrite W; f_equal; lia.
Qed.

Lemma moved_ticks k m m' : moved k m m' -> all_ticks m' = map (fun x => x + k) (all_ticks m).
Proof.
  intros [A [B [C [D E]]]]. unfold all_ticks. rewrite !map_app, !map_map.
  assert (G : forall (X : Type) (R : X -> X -> Prop) (f : X -> Z) l l', (forall a b, R a b -> f b = f a + k) ->
    Forall2 R l l' -> map f l' = map (fun x => f x + k) l).
  { intros X R f l l' H F. induction F; cbn; auto. rewrite (H _ _ H0), IHF. auto. }
  assert (G' : forall l l', Forall2 (moved_ctrl k) l l' -> map cc_tick l' = map (fun x => cc_tick x + k) l).
  { intros l l'. apply G. intros a b ->. reflexivity. }
  rewrite (G' _ _ D), (G' _ _ E).
  rewrite (G _ (moved_note k) n_base_tick _ _ ltac:(intros a b ->; reflexivity) A), (G _ (moved_bar k) b_tick _ _ ltac:(intros a b ->; reflexivity) B),
    (G _ (moved_tempo k) tp_tick _ _ ltac:(intros a b ->; reflexivity) C). reflexivity.
Qed.

Lemma moved_least k m m' s : moved k m m' -> least (all_ticks m) s -> least (all_ticks m') (s + k).
Proof.
  intros M [I L]. rewrite (moved_ticks _ _ _ M). split.
  - apply in_map_iff. eauto.
  - intros x J. apply in_map_iff in J. destruct J as [y [<- J]]. apply L in J. lia.
Qed.

Lemma move_empty m t : all_ticks m = [] -> move_to_tick m t = m.
Proof.
  intros E. unfold move_to_tick. destruct (_ =? 0); [auto|]. unfold all_ticks in E.
  destruct m as [a b c d e]. cbn in *.
  apply app_eq_nil in E as [E1 E]. apply app_eq_nil in E as [E2 E]. apply app_eq_nil in E as [E3 E]. apply app_eq_nil in E as [E4 E5].
  apply map_eq_nil in E1, E2, E3, E4, E5. subst. reflexivity.
Qed.

Lemma least_exists l : l <> [] -> exists s, least l s.
Proof.
  induction l as [|x l IH]; [congruence|]. intros _. destruct l as [|y l].
  - exists x. split; [left; auto|]. intros z [<-|[]]. lia.
  - destruct IH as [s [I L]]; [congruence|]. destruct (Z.le_ge_cases x s).
    + exists x. split; [left; auto|]. intros z [<-|J]; [lia|]. apply L in J. lia.
    + exists s. split; [right; auto|]. intros z [<-|J]; [lia|]. apply L in J. lia.
Qed.

Lemma move_idem m t : Forall u32 (all_ticks m) -> u32 t ->
  (forall s x, least (all_ticks m) s -> In x (all_ticks m) -> x + (t - s) <= u32_max) ->
  move_to_tick (move_to_tick m t) t = move_to_tick m t.
Proof.
  intros U T F. destruct (all_ticks m) eqn:E.
  - rewrite !move_empty; auto. rewrite move_empty; auto.
  - destruct (least_exists (all_ticks m)) as [s L]; [congruence|]. rewrite <- E in *.
    pose proof (move_spec m s t U L T (fun x I => F s x L I)) as M.
    pose proof (moved_least _ _ _ _ M L) as L'. replace (s + (t - s)) with t in L' by lia.
    unfold move_to_tick at 1. rewrite (smallest_least _ t); auto.
    + rewrite Z.sub_diag. reflexivity.
    + rewrite (moved_ticks _ _ _ M). rewrite Forall_forall in *. intros y I. apply in_map_iff in I.
      destruct I as [x [<- I]]. pose proof (U x I). pose proof (proj2 L x I). pose proof (F s x L I). unfold u32 in *. lia.
Qed.

(** ** Tuplizing *)
Lemma units_bound d : 0 <= d_dots d <= 7 -> 2 <= units d <= 510.
Proof.
  intros H. unfold units. destruct d as [n x k]; cbn [d_num d_dots] in *.
  destruct n; apply dots_cases in H as [-> | [-> | [-> | [-> | [-> | [-> | [-> | ->]]]]]]]; vm_compute; split; congruence.
Qed.

Lemma unit_eq d : 0 <= d_dots d <= 7 -> numerator_unit d = Ret (units d).
Proof.
  intros H. destruct d as [n x k]; cbn [d_num d_dots] in *. unfold numerator_unit, units. cbn [d_num d_dots].
  destruct n; apply dots_cases in H as [-> | [-> | [-> | [-> | [-> | [-> | [-> | ->]]]]]]]; reflexivity.
Qed.

Lemma units_den d x : units (mkDur (d_num d) x (d_dots d)) = units d.
Proof. reflexivity. Qed.

(** A plain duration has at most 4 ticks per 256th note. *)
Lemma len_units n k : 0 <= k <= 7 -> len_of n k <= 4 * units (mkDur n 2 k).
Proof.
  intros H. unfold len_of, units. cbn [d_num d_dots].
  destruct n; apply dots_cases in H as [-> | [-> | [-> | [-> | [-> | [-> | [-> | ->]]]]]]]; vm_compute; congruence.
Qed.

(** Plain durations of the same length have the same number of units: the chords of a selection determine its units. *)
Lemma len_same n k n' k' : 0 <= k <= 7 -> 0 <= k' <= 7 -> len_of n k = len_of n' k' -> units (mkDur n 2 k) = units (mkDur n' 2 k').
Proof.
  intros H H'. unfold len_of, units. cbn [d_num d_dots].
  destruct n; apply dots_cases in H as [-> | [-> | [-> | [-> | [-> | [-> | [-> | ->]]]]]]];
  destruct n'; apply dots_cases in H' as [-> | [-> | [-> | [-> | [-> | [-> | [-> | ->]]]]]]]; vm_compute; congruence.
Qed.

Definition nvalid (n : note) : Prop := duration_valid (n_duration n).
Lemma plain_valid d : duration_valid d -> duration_valid (plain d).
Proof. intros [A B]. split; cbn; lia. Qed.

Lemma plain_len d : duration_valid d -> tick_length (plain d) = Ret (len_of (d_num d) (d_dots d)).
Proof.
  intros H. rewrite (tick_length_closed _ (plain_valid d H)). f_equal.
  cbn [plain d_num d_den d_dots]. rewrite Z.mul_comm, Z.div_mul; lia.
Qed.
Lemma plain_lasts d x : duration_valid d -> lasts (plain d) x <-> x = len_of (d_num d) (d_dots d).
Proof.
  intros H. destruct (tick_length_lasts _ (plain_valid d H)) as [t [E L]]. rewrite plain_len in E by auto. apply ret_inj in E. subst t.
  split; [|intros ->; auto]. intros L'. exact (lasts_unique _ _ _ (plain_valid d H) L' L).
Qed.

(** *** Sorting *)
Definition tle (a b : note) : Prop := n_base_tick a <= n_base_tick b.
Lemma insert_perm n l : Permutation (n :: l) (insert_by_tick n l).
Proof.
  induction l as [|m l IH]; cbn; auto. destruct (_ <=? _); auto.
  eapply perm_trans; [apply perm_swap|]. apply perm_skip, IH.
Qed.
Lemma sort_perm l : Permutation l (sort_notes l).
Proof. induction l; cbn; auto. eapply perm_trans; [apply perm_skip, IHl|apply insert_perm]. Qed.
Lemma insert_sorted n l : StronglySorted tle l -> StronglySorted tle (insert_by_tick n l).
Proof.
  induction 1 as [|m l S IH F]; cbn; [repeat constructor|].
  destruct (Z.leb_spec (n_base_tick n) (n_base_tick m)).
  - constructor; [constructor; auto|]. constructor; [auto|]. eapply Forall_impl; [|exact F]. unfold tle. intros; lia.
  - constructor; auto. apply (Permutation_Forall (insert_perm n l)). constructor; auto. unfold tle. lia.
Qed.
Lemma sort_sorted l : StronglySorted tle (sort_notes l).
Proof. induction l; cbn; [constructor|apply insert_sorted; auto]. Qed.
Lemma insert_stable t n l :
  filter (fun n => n_base_tick n =? t) (insert_by_tick n l) = filter (fun n => n_base_tick n =? t) (n :: l).
Proof.
  induction l as [|m l IH]; [reflexivity|]. cbn [insert_by_tick].
  destruct (Z.leb_spec (n_base_tick n) (n_base_tick m)); [reflexivity|].
  cbn [filter] in *. rewrite IH. destruct (Z.eqb_spec (n_base_tick m) t), (Z.eqb_spec (n_base_tick n) t); auto; lia.
Qed.
Lemma sort_stable l : stable_sorted l (sort_notes l).
Proof.
  split; [apply sort_perm|]. split; [apply sort_sorted|]. intros t.
  induction l as [|n l IH]; [reflexivity|]. cbn [sort_notes fold_right].
  change (fold_right insert_by_tick [] l) with (sort_notes l). rewrite insert_stable. cbn [filter]. rewrite IH. reflexivity.
Qed.

(** *** Grouping *)
Definition elem_ok (e : tuple_elem) : Prop :=
  te_notes e <> [] /\ Forall (fun n => n_base_tick n = te_tick e) (te_notes e) /\
  (exists n, In n (te_notes e) /\ te_min e = plain (n_duration n)) /\
  forall n y, In n (te_notes e) -> tick_length (plain (n_duration n)) = Ret y -> exists x, tick_length (te_min e) = Ret x /\ x <= y.
Definition cur_notes (c : option tuple_elem) : list note := match c with Some e => te_notes e | None => [] end.
Definition tlt (a b : tuple_elem) : Prop := te_tick a < te_tick b.

Lemma ss_app_r {A} (R : A -> A -> Prop) a b : StronglySorted R (a ++ b) -> StronglySorted R b.
Proof. induction a; cbn; auto. intros H. inversion H; auto. Qed.
Lemma ss_app_lt {A} (R : A -> A -> Prop) a b x y : StronglySorted R (a ++ b) -> In x a -> In y b -> R x y.
Proof.
  induction a as [|z a IH]; cbn; [tauto|]. intros H I J. inversion H; subst. destruct I as [->|I]; auto.
  rewrite Forall_forall in H3. apply H3, in_app_iff; auto.
Qed.

Lemma elem_single n : nvalid n -> elem_ok (mkTE (n_base_tick n) [n] (with_denominator (n_duration n) 2)).
Proof.
  intros V. split; [discriminate|]. cbn. split; [repeat constructor|]. split; [exists n; auto|].
  intros m y [<-|[]] E. exists y. split; [exact E|lia].
Qed.

Lemma te_loop_spec l : forall cur, Forall nvalid (cur_notes cur ++ l) -> StronglySorted tle (cur_notes cur ++ l) ->
  (forall e, cur = Some e -> elem_ok e) ->
  exists es, te_loop cur l = Ret es /\ flat_map te_notes es = cur_notes cur ++ l /\
    Forall elem_ok es /\ StronglySorted tlt es.
Proof.
  induction l as [|n l IH]; intros cur V S O.
  - cbn [te_loop]. eexists. split; [reflexivity|]. destruct cur as [e|]; cbn.
    + split; [reflexivity|]. split; [constructor; [apply O; reflexivity|constructor]|repeat constructor].
    + split; [reflexivity|]. split; constructor.
  - cbn [te_loop]. assert (Vn : nvalid n) by (rewrite Forall_forall in V; apply V, in_app_iff; right; left; auto).
    rewrite unit_eq by (destruct Vn; auto). cbn [bind]. unfold te_add. destruct cur as [e|]; cbn [cur_notes app] in *.
    + destruct (O e eq_refl) as [O1 [O2 [O3 O4]]]. destruct (Z.eqb_spec (te_tick e) (n_base_tick n)) as [T|T]; cbn [negb bind].
      * destruct O3 as [m [I M]]. assert (Vm : nvalid m) by (rewrite Forall_forall in V; apply V, in_app_iff; auto).
        unfold duration_min. rewrite M, plain_len by auto. cbn [bind].
        change (with_denominator (n_duration n) 2) with (plain (n_duration n)). rewrite plain_len by auto. cbn [bind].
        set (d := if _ <? _ then _ else _).
        assert (X : elem_ok (mkTE (te_tick e) (te_notes e ++ [n]) d)).
        { split; [destruct (te_notes e); discriminate|]. cbn [te_notes te_tick te_min].
          split; [apply Forall_app; split; auto|]. unfold d. split.
          - destruct (_ <? _); [exists m|exists n]; (split; [apply in_app_iff; cbn; auto|auto]).
          - intros a y Ia Ea. apply in_app_iff in Ia.
            destruct (Z.ltb_spec (len_of (d_num (n_duration m)) (d_dots (n_duration m))) (len_of (d_num (n_duration n)) (d_dots (n_duration n)))) as [L|L].
            + exists (len_of (d_num (n_duration m)) (d_dots (n_duration m))). rewrite plain_len by auto. split; auto.
              destruct Ia as [Ia|[<-|[]]].
              * destruct (O4 a y Ia Ea) as [x [E1 E2]]. rewrite M, plain_len in E1 by auto. apply ret_inj in E1. lia.
              * rewrite plain_len in Ea by auto. apply ret_inj in Ea. lia.
            + exists (len_of (d_num (n_duration n)) (d_dots (n_duration n))). rewrite plain_len by auto. split; auto.
              destruct Ia as [Ia|[<-|[]]].
              * destruct (O4 a y Ia Ea) as [x [E1 E2]]. rewrite M, plain_len in E1 by auto. apply ret_inj in E1. lia.
              * rewrite plain_len in Ea by auto. apply ret_inj in Ea. lia. }
        destruct (IH (Some (mkTE (te_tick e) (te_notes e ++ [n]) d))) as [es [E1 [E2 [E3 E4]]]]; cbn [cur_notes te_notes];
          rewrite <- ?app_assoc; cbn [app]; auto.
        { intros e' H. inversion H; subst; auto. }
        exists es. split; [exact E1|]. split; [|split; auto]. rewrite E2. cbn [cur_notes te_notes]. rewrite <- app_assoc. reflexivity.
      * destruct (IH (Some (mkTE (n_base_tick n) [n] (with_denominator (n_duration n) 2)))) as [es [E1 [E2 [E3 E4]]]]; cbn [cur_notes te_notes app].
        { apply Forall_app in V. tauto. }
        { eapply ss_app_r; eauto. }
        { intros e' H. inversion H; subst. apply elem_single; auto. }
        cbn [bind]. rewrite E1. cbn [bind]. exists (e :: es). split; [reflexivity|]. split; [cbn; rewrite E2; reflexivity|].
        split; [constructor; [unfold elem_ok; auto|auto]|]. constructor; auto. rewrite Forall_forall. intros e' I'.
        rewrite Forall_forall in E3. destruct (E3 e' I') as [P1 [P2 _]]. destruct (te_notes e') as [|a r] eqn:Ee; [congruence|].
        assert (Ia : In a (flat_map te_notes es)). { apply in_flat_map. exists e'. split; auto. rewrite Ee. left; auto. }
        rewrite E2 in Ia. cbn [cur_notes te_notes app] in Ia.
        destruct (te_notes e) as [|b q] eqn:Eb; [congruence|].
        inversion P2; subst. inversion O2; subst. unfold tlt.
        assert (Lb : tle b n) by (eapply (ss_app_lt tle (b :: q)); eauto; left; auto).
        assert (Sn : StronglySorted tle (n :: l)) by (eapply ss_app_r; eauto). inversion Sn as [|? ? _ Fn]; subst.
        assert (La : tle n a). { destruct Ia as [->|Ia]; [unfold tle; lia|]. rewrite Forall_forall in Fn. auto. }
        unfold tle in *. lia.
    + destruct (IH (Some (mkTE (n_base_tick n) [n] (with_denominator (n_duration n) 2)))) as [es [E1 [E2 [E3 E4]]]]; cbn [cur_notes te_notes app]; auto.
      { intros e' H. inversion H; subst. apply elem_single; auto. }
      cbn [bind]. exists es. split; [exact E1|]. split; auto.
Qed.

(** *** The sums *)
Definition chord_of (e : tuple_elem) : Z * duration * Z :=
  (te_tick e, te_min e, len_of (d_num (te_min e)) (d_dots (te_min e))).

Lemma elem_min e : elem_ok e -> Forall nvalid (te_notes e) ->
  duration_valid (te_min e) /\ tick_length (te_min e) = Ret (snd (chord_of e)) /\
  numerator_unit (te_min e) = Ret (units (te_min e)) /\ 2 <= units (te_min e) <= 510 /\
  0 <= snd (chord_of e) <= 4 * units (te_min e).
Proof.
  intros [_ [_ [[n [I E]] _]]] V. rewrite Forall_forall in V. pose proof (V n I) as Vn. unfold chord_of. rewrite E. cbn [snd].
  pose proof (plain_valid _ Vn) as W. split; auto. split; [exact (plain_len _ Vn)|].
  assert (K : 0 <= d_dots (plain (n_duration n)) <= 7) by (destruct W; auto).
  split; [apply unit_eq; auto|]. split; [apply units_bound; auto|].
  pose proof (len_units (d_num (n_duration n)) (d_dots (n_duration n)) K). pose proof (len_of_bound (d_num (n_duration n)) _ K).
  cbn in *. unfold plain, units in *. cbn in *. lia.
Qed.

Lemma sum_nonneg l : Forall (fun x => 0 <= x) l -> 0 <= sum l.
Proof. induction 1; unfold sum in *; cbn; lia. Qed.

Definition tick_sum (es : list tuple_elem) := sum (map (fun e => snd (chord_of e)) es).
Definition unit_sum (es : list tuple_elem) := sum (map (fun e => units (te_min e)) es).
Definition eok (e : tuple_elem) : Prop := elem_ok e /\ Forall nvalid (te_notes e).

Lemma sums_bound es : Forall eok es -> 0 <= tick_sum es <= 4 * unit_sum es /\ 2 * Z.of_nat (length es) <= unit_sum es.
Proof.
  induction 1 as [|e es [A B] F IH]; [cbn; lia|]. pose proof (elem_min e A B) as [_ [_ [_ [H1 H2]]]].
  unfold tick_sum, unit_sum, sum in *. cbn [map fold_right length]. rewrite Nat2Z.inj_succ. lia.
Qed.

Definition sum_step : Z * Z -> tuple_elem -> outcome (Z * Z) := fun '(tick, unit) e =>
    let! l := tick_length (te_min e) in
    let! tick' := chk_u32 (tick + l) in
    let! u := numerator_unit (te_min e) in
    let! unit' := chk_u32 (unit + u) in
    Ret (tick', unit').
Lemma sums_inv es : Forall eok es -> forall a b x y,
  ofold sum_step (a, b) es = Ret (x, y) -> x = a + tick_sum es /\ y = b + unit_sum es.
Proof.
  induction 1 as [|e es [A B] F IH]; intros a b x y E.
  - cbn in E. inversion E; subst. cbn. lia.
  - cbn [ofold] in E. pose proof (elem_min e A B) as [_ [H1 [H2 _]]]. unfold sum_step at 1 in E. rewrite H1, H2 in E. cbn [bind] in E.
    unfold chk_u32 in E. apply bind_ret in E. destruct E as [[p q] [E1 E2]].
    apply bind_ret in E1. destruct E1 as [t [C1 E1]]. apply chk_inv in C1. destruct C1 as [-> _].
    apply bind_ret in E1. destruct E1 as [u [C2 E1]]. apply chk_inv in C2. destruct C2 as [-> _].
    apply ret_inj in E1. pose proof (f_equal fst E1) as F1. pose proof (f_equal snd E1) as F2. cbn [fst snd] in F1, F2. subst p q.
    apply IH in E2. unfold tick_sum, unit_sum, sum in *. cbn [map fold_right]. lia.
Qed.
Lemma sums_ret es : Forall eok es -> forall a b, 0 <= a -> 0 <= b -> a + tick_sum es <= u32_max -> b + unit_sum es <= u32_max ->
  ofold sum_step (a, b) es = Ret (a + tick_sum es, b + unit_sum es).
Proof.
  induction 1 as [|e es [A B] F IH]; intros a b Ha Hb X Y.
  - cbn. f_equal. f_equal; lia.
  - cbn [ofold]. pose proof (elem_min e A B) as [_ [H1 [H2 [H3 H4]]]]. pose proof (sums_bound es F) as SB.
    unfold tick_sum, unit_sum, sum in *. cbn [map fold_right] in *.
    unfold sum_step at 1. rewrite H1, H2. cbn [bind]. unfold chk_u32.
    rewrite chk_ret by lia. cbn [bind]. rewrite chk_ret by lia. cbn [bind].
    rewrite IH by lia. f_equal. f_equal; lia.
Qed.

Lemma fold_gcd l : forall u, 0 < u -> is_gcd (fold_left Z.gcd l u) (u :: l).
Proof.
  induction l as [|v l IH]; intros u H; cbn [fold_left].
  - split; auto. split; [intros x [<-|[]]; apply Z.divide_refl|]. intros h D. apply D. left; auto.
  - assert (P : 0 < Z.gcd u v). { pose proof (Z.gcd_nonneg u v). pose proof (Z.gcd_eq_0_l u v). lia. }
    destruct (IH _ P) as [A [B C]]. split; auto. split.
    + pose proof (B (Z.gcd u v) (or_introl eq_refl)) as G.
      intros x [<-|[<-|I]]; [eapply Z.divide_trans; [exact G|apply Z.gcd_divide_l]|eapply Z.divide_trans; [exact G|apply Z.gcd_divide_r]|].
      apply B. right; auto.
    + intros h D. apply C. intros x [<-|I]; [|apply D; right; right; auto].
      apply Z.gcd_greatest; apply D; [left; auto|right; left; auto].
Qed.

Lemma units_map l : Forall nvalid l -> omapM (fun n => numerator_unit (n_duration n)) l = Ret (map (fun n => units (n_duration n)) l).
Proof. induction 1 as [|n l [A B] F IH]; cbn; auto. rewrite unit_eq by auto. cbn. rewrite IH. reflexivity. Qed.

Lemma divide_sum g es l : Forall eok es -> flat_map te_notes es = l -> (forall u, In u (map (fun n => units (n_duration n)) l) -> (g | u)) -> (g | unit_sum es).
Proof.
  intros F <- D. induction F as [|e es [A B] F IH]; [exists 0; reflexivity|].
  unfold unit_sum, sum in *. cbn [map fold_right flat_map] in *. apply Z.divide_add_r.
  - destruct A as [_ [_ [[n [I E]] _]]]. rewrite E. apply D. apply in_map_iff. exists n. split; [reflexivity|]. apply in_app_iff; auto.
  - apply IH. intros u I. apply D. rewrite map_app. apply in_app_iff; auto.
Qed.

(** *** Placing *)
Lemma tuple_notes_inv start total unit den l : Forall nvalid l -> forall u out,
  tuple_notes start total unit den u l = Ret out -> length out = length l /\
  forall i n, nth_error l i = Some n ->
    nth_error out i = Some (replaced_by n (start + total * (u + sum (map (fun n => units (n_duration n)) (firstn i l))) / unit) den).
Proof.
  induction 1 as [|n l [A B] F IH]; intros u out E.
  - cbn in E. inversion E; subst. split; auto. intros [|i] n H; discriminate.
  - cbn [tuple_notes] in E. unfold chk_u32 in E.
    apply bind_ret in E. destruct E as [m [C E]]. apply chk_inv in C. destruct C as [-> _].
    apply bind_ret in E. destruct E as [t [C E]]. apply chk_inv in C. destruct C as [-> _].
    rewrite unit_eq in E by auto. cbn [bind] in E.
    apply bind_ret in E. destruct E as [u' [C E]]. apply chk_inv in C. destruct C as [-> _].
    apply bind_ret in E. destruct E as [rest [C E]]. apply ret_inj in E. subst out.
    destruct (IH _ _ C) as [L N]. split; [cbn; auto|]. intros [|i] m H; cbn [nth_error] in *.
    + inversion H; subst. cbn [firstn map]. unfold sum. cbn [fold_right]. rewrite Z.add_0_r. reflexivity.
    + rewrite (N i m H). cbn [firstn map]. unfold sum. cbn [fold_right]. do 4 f_equal.
      unfold units, with_denominator. cbn. lia.
Qed.

Lemma tuple_notes_ret start total unit den l : Forall nvalid l -> forall u, 0 <= start -> 0 <= total -> 0 < unit -> 0 <= u ->
  (forall v, u <= v <= u + sum (map (fun n => units (n_duration n)) l) ->
     total * v <= u32_max /\ v <= u32_max /\ start + total * v / unit <= u32_max) ->
  exists out, tuple_notes start total unit den u l = Ret out.
Proof.
  induction 1 as [|n l [A B] F IH]; intros u H1 H2 H3 H4 H.
  - cbn. eauto.
  - cbn [tuple_notes]. pose proof (units_bound _ B) as UB. unfold sum in *. cbn [map fold_right] in H.
    assert (SN : 0 <= fold_right Z.add 0 (map (fun n => units (n_duration n)) l)).
    { apply sum_nonneg. rewrite Forall_map. eapply Forall_impl; [|exact F]. intros a [_ Ba]. pose proof (units_bound _ Ba). cbn; lia. }
    destruct (H u ltac:(lia)) as [P1 [P2 P3]]. unfold chk_u32. rewrite chk_ret by nia. cbn [bind].
    assert (0 <= total * u / unit) by (apply Z.div_pos; nia).
    rewrite chk_ret by lia. cbn [bind]. rewrite unit_eq by auto. cbn [bind].
    change (units (with_denominator (n_duration n) den)) with (units (n_duration n)). destruct (H (u + units (n_duration n)) ltac:(lia)) as [_ [Q _]]. rewrite chk_ret by lia. cbn [bind].
    destruct (IH (u + units (n_duration n))) as [out E]; auto; try lia.
    { intros v Hv. apply H. lia. }
    rewrite E. cbn. eauto.
Qed.

(** *** All together *)
Lemma sort_cons l : l <> [] -> exists n r, sort_notes l = n :: r.
Proof.
  intros H. destruct (sort_notes l) eqn:E; eauto. pose proof (sort_perm l) as P. rewrite E in P.
  apply Permutation_sym, Permutation_nil in P. congruence.
Qed.

Lemma tuplize_unfold notes : notes <> [] -> Forall nvalid notes ->
  exists n0 r es g, sort_notes notes = n0 :: r /\ Forall nvalid (n0 :: r) /\ StronglySorted tle (n0 :: r) /\
    flat_map te_notes es = n0 :: r /\ Forall eok es /\ StronglySorted tlt es /\
    is_gcd g (map (fun n => units (n_duration n)) (n0 :: r)) /\
    tuplize notes =
      (let! (total_tick, total_unit) := ofold sum_step (0, 0) es in
       let den := total_unit / g in
       if den <? 2 then Ret notes
       else
         let! total := chk_u32 (total_tick / den * 2) in
         let! den := unwrap_opt (denominator_from_value (as_u8 den)) in
         tuple_notes (n_base_tick n0) total total_unit den 0 (n0 :: r)).
Proof.
  intros NE V. destruct (sort_cons notes NE) as [n0 [r S]].
  assert (V' : Forall nvalid (n0 :: r)) by (rewrite <- S; apply (Permutation_Forall (sort_perm notes)); auto).
  assert (SS : StronglySorted tle (n0 :: r)) by (rewrite <- S; apply sort_sorted).
  destruct (te_loop_spec (n0 :: r) None) as [es [E1 [E2 [E3 E4]]]]; cbn [cur_notes app]; auto; [discriminate|].
  cbn [cur_notes app] in E2.
  assert (EO : Forall eok es).
  { rewrite Forall_forall in *. intros e I. split; auto. rewrite Forall_forall. intros n J. apply V'. rewrite <- E2. apply in_flat_map. eauto. }
  assert (U0 : 0 < units (n_duration n0)). { inversion V'; subst. destruct H1. pose proof (units_bound (n_duration n0) H0). lia. }
  exists n0, r, es, (fold_left Z.gcd (map (fun n => units (n_duration n)) r) (units (n_duration n0))).
  do 6 (split; [assumption|]). split; [cbn [map]; apply fold_gcd; auto|].
  unfold tuplize. destruct notes as [|n notes]; [congruence|]. unfold sort_by_start_tick. rewrite S, E1. cbn [bind].
  rewrite (units_map _ V'). cbn [bind map gcd_units]. change (total_tick_unit es) with (ofold sum_step (0, 0) es). rewrite E2. reflexivity.
Qed.

Lemma chords_of notes s es : Permutation notes s -> flat_map te_notes es = s -> Forall eok es -> StronglySorted tlt es ->
  chords notes (map chord_of es).
Proof.
  intros P E F S. assert (IFF : forall n, In n notes <-> exists e, In e es /\ In n (te_notes e)).
  { intros n. rewrite <- in_flat_map, E. split; apply Permutation_in; [auto|apply Permutation_sym; auto]. }
  rewrite Forall_forall in F. split; [|split].
  - clear - S. induction S; cbn; constructor; auto. rewrite Forall_map. exact H.
  - intros t. rewrite map_map. cbn [chord_of fst]. rewrite !in_map_iff. split.
    + intros [e [<- I]]. destruct (F e I) as [[_ [A [[n [J _]] _]]] _]. exists n. rewrite Forall_forall in A. split; auto. apply IFF; eauto.
    + intros [n [<- I]]. apply IFF in I. destruct I as [e [I J]]. exists e. split; auto. destruct (F e I) as [[_ [A _]] _].
      rewrite Forall_forall in A. symmetry; auto.
  - rewrite Forall_map, Forall_forall. intros e I. pose proof (F e I) as [[A1 [A2 [[m [J M]] A4]]] B]. cbn [chord_of fst snd].
    rewrite Forall_forall in A2, B. split; [|split].
    + exists m. split; [apply IFF; eauto|]. auto.
    + rewrite M. cbn. apply plain_lasts; [apply B; auto|reflexivity].
    + intros n y In_n T L. apply IFF in In_n. destruct In_n as [e' [I' J']].
      assert (e' = e).
      { assert (T' : te_tick e' = te_tick e). { destruct (F e' I') as [[_ [A2' _]] _]. rewrite Forall_forall in A2'. rewrite <- T. symmetry; auto. }
        clear - S I I' T'. induction S as [|a l S IH Fa]; [destruct I|]. rewrite Forall_forall in Fa. unfold tlt in Fa.
        destruct I as [->|I], I' as [->|I']; auto; [apply Fa in I'; lia|apply Fa in I; lia]. }
      subst e'. apply plain_lasts in L; [|apply B; auto]. destruct (A4 n y J') as [x [X1 X2]].
      { rewrite plain_len by (apply B; auto). congruence. }
      rewrite M, plain_len in X1 by (apply B; auto). apply ret_inj in X1. rewrite M. cbn. lia.
Qed.

Lemma unwrap_den x d : unwrap_opt (denominator_from_value x) = Ret d -> x = d /\ 2 <= d.
Proof. unfold denominator_from_value. destruct (Z.ltb_spec x 2); cbn; [discriminate|]. intros E. inversion E; subst; auto. Qed.

Lemma tuplize_spec notes out : notes <> [] -> Forall nvalid notes -> tuplize notes = Ret out ->
  exists n0 r cs g, stable_sorted notes (n0 :: r) /\ chords notes cs /\ is_gcd g (map (fun n => units (n_duration n)) notes) /\
    let unit := sum (map (fun c => units (snd (fst c))) cs) in
    let tick := sum (map snd cs) in
    (unit / g < 2 -> out = notes) /\
    (2 <= unit / g ->
       length out = length notes /\
       forall i n, nth_error (n0 :: r) i = Some n ->
         nth_error out i = Some (replaced_by n
           (n_base_tick n0 + tick / (unit / g) * 2 * sum (map (fun n => units (n_duration n)) (firstn i (n0 :: r))) / unit)
           ((unit / g) mod 256)) /\ 2 <= (unit / g) mod 256).
Proof.
  intros NE V E. destruct (tuplize_unfold notes NE V) as [n0 [r [es [g [S [V' [SS [FM [EO [ST [G U]]]]]]]]]]].
  rewrite U in E. apply bind_ret in E. destruct E as [[tt tu] [E1 E]]. apply sums_inv in E1; auto. destruct E1 as [-> ->]. cbv zeta in E.
  pose proof (sort_stable notes) as P. rewrite S in P.
  exists n0, r, (map chord_of es), g. split; auto. split; [apply (chords_of _ (n0 :: r)); auto; apply P|].
  split.
  { destruct G as [G1 [G2 G3]]. pose proof (Permutation_map (fun n => units (n_duration n)) (proj1 P)) as PM. split; auto. split.
    - intros u I. apply G2. apply (Permutation_in _ PM); auto.
    - intros h D. apply G3. intros u I. apply D. apply (Permutation_in _ (Permutation_sym PM)); auto. }
  cbv zeta. rewrite !map_map. change (sum (map (fun x => units (snd (fst (chord_of x)))) es)) with (unit_sum es).
  change (sum (map (fun x => snd (chord_of x)) es)) with (tick_sum es). rewrite !Z.add_0_l in E.
  destruct (Z.ltb_spec (unit_sum es / g) 2) as [L|L].
  - split; [|lia]. inversion E; auto.
  - split; [lia|]. intros _. apply bind_ret in E. destruct E as [tot [C E]]. apply chk_inv in C. destruct C as [-> _].
    apply bind_ret in E. destruct E as [d [C E]]. apply unwrap_den in C. destruct C as [<- D].
    destruct (tuple_notes_inv _ _ _ _ _ V' _ _ E) as [Len N]. split.
    { rewrite Len. symmetry. apply Permutation_length. apply P. }
    intros i n H. split; [exact (N i n H)|exact D].
Qed.

(** *** What is kept *)
Lemma unit_sum_ge es l g : Forall eok es -> flat_map te_notes es = l -> 0 < g ->
  (forall u, In u (map (fun n => units (n_duration n)) l) -> (g | u)) -> g * Z.of_nat (length es) <= unit_sum es.
Proof.
  intros F <- G D. induction F as [|e es [A B] F IH]; [cbn; lia|].
  assert (X : g <= units (te_min e)).
  { pose proof (elem_min e A B) as [_ [_ [_ [U _]]]]. destruct A as [_ [_ [[n [I E]] _]]].
    apply Z.divide_pos_le; [lia|]. rewrite E. apply D. apply in_map_iff. exists n. split; [reflexivity|].
    cbn [flat_map]. apply in_app_iff; auto. }
  unfold unit_sum, sum in *. cbn [map fold_right length]. rewrite Nat2Z.inj_succ.
  assert (g * Z.of_nat (length es) <= fold_right Z.add 0 (map (fun e => units (te_min e)) es)); [|lia].
  apply IH. intros u I. apply D. cbn [flat_map]. rewrite map_app. apply in_app_iff; auto.
Qed.

Lemma ss_nth {A} (R : A -> A -> Prop) l :
  (forall i j a b, (i < j)%nat -> nth_error l i = Some a -> nth_error l j = Some b -> R a b) -> StronglySorted R l.
Proof.
  induction l as [|x l IH]; intros H; constructor.
  - apply IH. intros i j a b L Ea Eb. apply (H (S i) (S j)); auto. lia.
  - rewrite Forall_forall. intros y I. apply In_nth_error in I. destruct I as [k K]. apply (H 0%nat (S k)); auto. lia.
Qed.

Lemma firstn_S_sum l i n : nth_error l i = Some n -> forall f : note -> Z, sum (map f (firstn (S i) l)) = sum (map f (firstn i l)) + f n.
Proof.
  revert i. induction l as [|m l IH]; intros [|i] E f; try discriminate.
  - cbn in *. inversion E; subst. lia.
  - cbn [firstn map] in *. unfold sum in *. cbn [fold_right nth_error] in *. specialize (IH i E f). cbn [firstn] in IH. lia.
Qed.

Lemma firstn_sum_mono l (f : note -> Z) i j : Forall (fun n => 0 <= f n) l -> (i <= j)%nat ->
  sum (map f (firstn i l)) <= sum (map f (firstn j l)).
Proof.
  intros F. revert i j. induction F as [|n l H F IH]; intros i j L; [rewrite !firstn_nil; lia|].
  unfold sum in *. destruct i as [|i], j as [|j]; [cbn; lia| |lia|]; cbn [firstn map fold_right].
  - specialize (IH 0%nat j ltac:(lia)). cbn in IH. lia.
  - specialize (IH i j ltac:(lia)). lia.
Qed.

Lemma nvalid_units n : nvalid n -> 2 <= units (n_duration n) <= 510.
Proof. intros [_ B]. apply units_bound; auto. Qed.

Lemma nth_map_eq {A B} (f : A -> B) l l' : length l = length l' ->
  (forall i a, nth_error l i = Some a -> exists b, nth_error l' i = Some b /\ f a = f b) -> map f l = map f l'.
Proof.
  revert l'. induction l as [|a l IH]; intros [|b l'] L H; try discriminate; auto. cbn.
  destruct (H 0%nat a eq_refl) as [b' [E1 E2]]. inversion E1; subst. rewrite E2. f_equal.
  apply IH; [auto|]. intros i x E. apply (H (S i) x E).
Qed.

Lemma tuplize_keeps notes out : notes <> [] -> Forall nvalid notes -> tuplize notes = Ret out ->
  Permutation (map essence out) (map essence notes) /\
  StronglySorted (fun a b => n_base_tick a <= n_base_tick b) out /\
  forall s, least (map n_base_tick notes) s -> least (map n_base_tick out) s.
Proof.
  intros NE V E. destruct (tuplize_unfold notes NE V) as [n0 [r [es [g [S [V' [SS [FM [EO [ST [G U]]]]]]]]]]].
  rewrite U in E. apply bind_ret in E. destruct E as [[tt tu] [E1 E]]. apply sums_inv in E1; auto. destruct E1 as [-> ->]. cbv zeta in E.
  rewrite !Z.add_0_l in E. pose proof (sort_perm notes) as P. rewrite S in P. destruct G as [G1 [G2 _]].
  pose proof (unit_sum_ge es _ g EO FM G1 G2) as UG. pose proof (sums_bound es EO) as SB.
  destruct (Z.ltb_spec (unit_sum es / g) 2) as [L|L].
  - apply ret_inj in E. subst out. split; [apply Permutation_refl|]. split; [|auto].
    assert (LE : (length es <= 1)%nat).
    { assert (unit_sum es < 2 * g); [|nia]. pose proof (Z.mul_succ_div_gt (unit_sum es) g G1). nia. }
    assert (EQ : forall n, In n notes -> n_base_tick n = n_base_tick n0).
    { destruct es as [|e [|e' es]]; cbn in LE; [discriminate| |lia]. cbn in FM. rewrite app_nil_r in FM.
      inversion EO as [|? ? [A B] _]; subst. destruct A as [_ [A _]]. rewrite FM in A. rewrite Forall_forall in A.
      intros n I. rewrite (A n), (A n0); auto; [left; auto|]. apply (Permutation_in _ P); auto. }
    clear - EQ. induction notes as [|n l IH]; constructor.
    + apply IH. intros m I. apply EQ. right; auto.
    + rewrite Forall_forall. intros m I. rewrite (EQ n), (EQ m); [lia|right; auto|left; auto].
  - apply bind_ret in E. destruct E as [tot [C E]]. apply chk_inv in C. destruct C as [-> _].
    apply bind_ret in E. destruct E as [d [C E]].
    destruct (tuple_notes_inv _ _ _ _ _ V' _ _ E) as [Len N].
    assert (TT : 0 <= tick_sum es / (unit_sum es / g) * 2). { pose proof (Z.div_pos (tick_sum es) (unit_sum es / g)). lia. }
    assert (U0 : 0 < unit_sum es). { destruct (Z.eq_dec (unit_sum es) 0) as [Z|Z]; [rewrite Z in L; cbn in L; lia|lia]. }
    assert (W : Forall (fun n => 0 <= units (n_duration n)) (n0 :: r)).
    { eapply Forall_impl; [|exact V']. intros n H. pose proof (nvalid_units n H). cbn. lia. }
    remember (n0 :: r) as l eqn:El.
    assert (M : forall i j a b, (i <= j)%nat -> nth_error out i = Some a -> nth_error out j = Some b -> n_base_tick a <= n_base_tick b).
    { intros i j a b Lij Ea Eb.
      assert (X : forall i a, nth_error out i = Some a -> exists n, nth_error l i = Some n).
      { intros i' a' H. destruct (nth_error l i') eqn:Q; eauto. apply nth_error_None in Q. rewrite <- Len in Q.
        apply nth_error_None in Q. congruence. }
      destruct (X _ _ Ea) as [na Na]. destruct (X _ _ Eb) as [nb Nb].
      rewrite (N _ _ Na) in Ea. rewrite (N _ _ Nb) in Eb. inversion Ea; subst. inversion Eb; subst.
      cbn [n_base_tick replaced_by]. apply Z.add_le_mono_l, Z.div_le_mono; auto. apply Z.mul_le_mono_nonneg_l; auto.
      apply firstn_sum_mono; auto. }
    split; [|split].
    + rewrite (nth_map_eq essence out l); auto.
      { apply Permutation_map, Permutation_sym, P. }
      intros i a Ea. destruct (nth_error l i) as [n|] eqn:Q.
      * exists n. split; auto. rewrite (N _ _ Q) in Ea. inversion Ea; subst. reflexivity.
      * apply nth_error_None in Q. rewrite <- Len in Q. apply nth_error_None in Q. congruence.
    + apply ss_nth. intros i j a b Lij. apply M. lia.
    + intros s [I Ls].
      assert (s = n_base_tick n0).
      { apply in_map_iff in I. destruct I as [n [<- I]]. apply (Permutation_in _ P) in I.
        assert (n_base_tick n <= n_base_tick n0).
        { apply Ls. apply in_map. apply (Permutation_in _ (Permutation_sym P)). rewrite El. left; auto. }
        rewrite El in I, SS. destruct I as [->|I]; auto. inversion SS as [|? ? _ Fr]; subst.
        rewrite Forall_forall in Fr. specialize (Fr n I). unfold tle in Fr. lia. }
      subst s. assert (Q : nth_error l 0 = Some n0) by (rewrite El; reflexivity).
      pose proof (N _ _ Q) as Q'. cbn [firstn map] in Q'. unfold sum in Q'. cbn [fold_right] in Q'.
      rewrite Z.mul_0_r, Z.div_0_l, Z.add_0_r in Q' by lia. split.
      * apply in_map_iff. eexists. split; [|eapply nth_error_In; exact Q']. reflexivity.
      * intros x Ix. apply in_map_iff in Ix. destruct Ix as [b [<- Ix]]. apply In_nth_error in Ix. destruct Ix as [j Ej].
        exact (M 0%nat j _ _ (Nat.le_0_l j) Q' Ej).
Qed.

(** *** When it returns *)
Lemma sum_units_le l : Forall nvalid l -> 0 <= sum (map (fun n => units (n_duration n)) l) <= 510 * Z.of_nat (length l).
Proof.
  induction 1 as [|n l H F IH]; [cbn; lia|]. pose proof (nvalid_units n H). unfold sum in *. cbn [map fold_right length]. lia.
Qed.

Lemma elems_length es l : Forall eok es -> flat_map te_notes es = l -> (length es <= length l)%nat.
Proof.
  intros F <-. induction F as [|e es [[A _] _] F IH]; [auto|]. cbn [flat_map length]. rewrite app_length.
  destruct (te_notes e); [congruence|]. cbn. lia.
Qed.

Lemma unit_sum_le es : Forall eok es -> unit_sum es <= 510 * Z.of_nat (length es).
Proof.
  induction 1 as [|e es [A B] F IH]; [cbn; lia|]. pose proof (elem_min e A B) as [_ [_ [_ [U _]]]].
  unfold unit_sum, sum in *. cbn [map fold_right length]. lia.
Qed.

Lemma unwrap_den_ret x : 2 <= x <= 255 -> unwrap_opt (denominator_from_value (as_u8 x)) = Ret x.
Proof.
  intros H. assert (E : as_u8 x = x). { unfold as_u8. apply Z.mod_small. lia. }
  rewrite E. unfold denominator_from_value. destruct (Z.ltb_spec x 2); [lia|reflexivity].
Qed.

(** Exactly when it panics, as long as the ticks and the number of notes leave room. *)
Lemma tuplize_panics notes : notes <> [] -> Forall nvalid notes -> Z.of_nat (length notes) <= 2048 ->
  (forall n, In n notes -> 0 <= n_base_tick n) ->
  (forall s, least (map n_base_tick notes) s -> s + 2048 * Z.of_nat (length notes) <= u32_max) ->
  exists cs g, chords notes cs /\ is_gcd g (map (fun n => units (n_duration n)) notes) /\
    let q := sum (map (fun c => units (snd (fst c))) cs) / g in
    (tuplize notes = Panic /\ 2 <= q /\ q mod 256 < 2 \/ exists out, tuplize notes = Ret out /\ (q < 2 \/ 2 <= q mod 256)).
Proof.
  intros NE V B0 T0 B1. destruct (tuplize_unfold notes NE V) as [n0 [r [es [g [S [V' [SS [FM [EO [ST [G U]]]]]]]]]]].
  exists (map chord_of es), g.
  pose proof (sort_perm notes) as P. rewrite S in P. pose proof (Permutation_length P) as PL.
  split; [apply (chords_of _ (n0 :: r)); auto|]. split.
  { destruct G as [G1 [G2 G3]]. pose proof (Permutation_map (fun n => units (n_duration n)) P) as PM. split; auto. split.
    - intros u I. apply G2. apply (Permutation_in _ PM); auto.
    - intros h D. apply G3. intros u I. apply D. apply (Permutation_in _ (Permutation_sym PM)); auto. }
  rewrite map_map. change (sum (map (fun x => units (snd (fst (chord_of x)))) es)) with (unit_sum es). cbv zeta.
  rewrite U.
  destruct G as [G1 [G2 _]].
  pose proof (unit_sum_ge es _ g EO FM G1 G2) as UG. pose proof (sums_bound es EO) as [SB _].
  pose proof (elems_length es _ EO FM) as EL. pose proof (unit_sum_le es EO) as UL.
  pose proof (sum_units_le _ V') as SU. pose proof (divide_sum g es _ EO FM G2) as [q Q].
  assert (G5 : g <= 510).
  { inversion V' as [|? ? H _]; subst. pose proof (nvalid_units n0 H). assert (g <= units (n_duration n0)); [|lia].
    apply Z.divide_pos_le; [lia|]. apply G2. left; auto. }
  assert (ST0 : 0 <= n_base_tick n0 /\ n_base_tick n0 + 2048 * Z.of_nat (length notes) <= u32_max).
  { split; [apply T0, (Permutation_in _ (Permutation_sym P)); left; auto|]. apply B1. split.
    - apply in_map, (Permutation_in _ (Permutation_sym P)). left; auto.
    - intros x I. apply in_map_iff in I. destruct I as [n [<- I]]. apply (Permutation_in _ P) in I. destruct I as [->|I]; [lia|].
      inversion SS as [|? ? _ Fr]; subst. rewrite Forall_forall in Fr. exact (Fr n I). }
  rewrite <- PL in *. set (N := Z.of_nat (length notes)) in *.
  assert (Z.of_nat (length es) <= N) by lia. clear EL PL.
  rewrite sums_ret; auto; try (unfold u32_max in *; lia). cbn [bind]. cbv zeta. rewrite !Z.add_0_l.
  rewrite Q in *. rewrite Z.div_mul in * by lia.
  destruct (Z.ltb_spec q 2) as [L|L]; [right; eauto|].
  assert (TQ : 0 <= tick_sum es / q <= 4 * g).
  { split; [apply Z.div_pos; lia|]. apply Z.div_le_upper_bound; nia. }
  unfold chk_u32. rewrite chk_ret by (unfold u32_max; lia). cbn [bind].
  unfold denominator_from_value, as_u8. destruct (Z.ltb_spec (q mod 256) 2) as [L2|L2]; [left; auto|].
  cbn [unwrap_opt bind]. right.
  match goal with |- exists out, ?t = Ret out /\ _ => assert (X : exists out, t = Ret out); [|destruct X as [out X]; eauto] end.
  apply tuple_notes_ret; auto; try lia.
  intros v Hv. set (tot := tick_sum es / q * 2) in *.
  assert (Ht : 0 <= tot <= 8 * g) by (unfold tot; lia). clearbody tot.
  assert (Hv' : 0 <= v <= 510 * N) by lia.
  assert (TV : tot * v <= 8 * g * (510 * N)) by nia.
  split; [unfold u32_max; nia|]. split; [unfold u32_max; nia|].
  assert (tot * v / (q * g) <= 2048 * N); [|lia].
  apply Z.div_le_upper_bound; [nia|]. nia.
Qed.

Lemma tuplize_returns notes : notes <> [] -> Forall nvalid notes -> Z.of_nat (length notes) <= 2048 ->
  (forall n, In n notes -> 0 <= n_base_tick n) ->
  (forall s, least (map n_base_tick notes) s -> s + 2048 * Z.of_nat (length notes) <= u32_max) ->
  (forall cs g, chords notes cs -> is_gcd g (map (fun n => units (n_duration n)) notes) ->
     sum (map (fun c => units (snd (fst c))) cs) / g <= 255) ->
  exists out, tuplize notes = Ret out.
Proof.
  intros NE V B0 T0 B1 B2. destruct (tuplize_panics notes NE V B0 T0 B1) as (cs & g & C & G & [(_ & A & B)|(out & E & _)]); [|eauto].
  exfalso. specialize (B2 cs g C G). rewrite Z.mod_small in B by lia. lia.
Qed.

(** *** Exactly when it panics *)
Lemma sums_panic es : Forall eok es -> forall a b, 0 <= a -> 0 <= b ->
  u32_max < a + tick_sum es \/ u32_max < b + unit_sum es -> a <= u32_max -> b <= u32_max -> ofold sum_step (a, b) es = Panic.
Proof.
  induction 1 as [|e es [A B] F IH]; intros a b Ha Hb X Y1 Y2.
  - cbn in X. lia.
  - cbn [ofold]. pose proof (elem_min e A B) as [_ [H1 [H2 [H3 H4]]]].
    unfold tick_sum, unit_sum, sum in *. cbn [map fold_right] in *.
    unfold sum_step at 1. rewrite H1, H2. cbn [bind]. unfold chk_u32.
    destruct (Z_le_gt_dec (a + snd (chord_of e)) u32_max); [rewrite chk_ret by lia|rewrite chk_panic by lia; reflexivity]. cbn [bind].
    destruct (Z_le_gt_dec (b + units (te_min e)) u32_max); [rewrite chk_ret by lia|rewrite chk_panic by lia; reflexivity]. cbn [bind].
    apply IH; lia.
Qed.

Lemma units_of_nonneg l : Forall nvalid l -> 0 <= units_of l.
Proof. intros F. apply (sum_units_le l F). Qed.

Lemma tuple_notes_exact start total unit den l : Forall nvalid l -> l <> [] -> forall u, 0 <= start -> 0 <= total -> 0 < unit -> 0 <= u ->
  let v := u + units_of (removelast l) in
  (u32_max < total * v \/ u32_max < start + total * v / unit \/ u32_max < u + units_of l) /\ tuple_notes start total unit den u l = Panic \/
  (total * v <= u32_max /\ start + total * v / unit <= u32_max /\ u + units_of l <= u32_max) /\ exists out, tuple_notes start total unit den u l = Ret out.
Proof.
  induction 1 as [|n l [A B] F IH]; intros NE u H1 H2 H3 H4; [congruence|].
  cbn [tuple_notes]. pose proof (units_bound _ B) as UB. pose proof (units_of_nonneg l F) as UL.
  change (units_of (n :: l)) with (units (n_duration n) + units_of l).
  assert (D : 0 <= total * u / unit) by (apply Z.div_pos; nia). unfold chk_u32.
  assert (M : forall v, u <= v -> total * u <= total * v /\ total * u / unit <= total * v / unit).
  { intros v Hv. assert (total * u <= total * v) by nia. split; [lia|]. apply Z.div_le_mono; lia. }
  assert (R : 0 <= units_of (removelast (n :: l))).
  { apply units_of_nonneg. rewrite Forall_forall in *. intros x I. assert (J : In x (n :: l)).
    { rewrite (app_removelast_last n NE). apply in_app_iff. auto. }
    destruct J as [<-|J]; [split; auto|apply F; auto]. }
  pose proof (M (u + units_of (removelast (n :: l))) ltac:(lia)) as [M1 M2]. cbv zeta.
  destruct (Z_le_gt_dec (total * u) u32_max) as [X|X]; [rewrite chk_ret by nia|rewrite chk_panic by lia; left; split; [lia|reflexivity]]. cbn [bind].
  destruct (Z_le_gt_dec (start + total * u / unit) u32_max) as [Y|Y]; [rewrite chk_ret by lia|rewrite chk_panic by lia; left; split; [lia|reflexivity]]. cbn [bind].
  rewrite unit_eq by auto. cbn [bind]. change (units (with_denominator (n_duration n) den)) with (units (n_duration n)).
  destruct (Z_le_gt_dec (u + units (n_duration n)) u32_max) as [Z|Z]; [rewrite chk_ret by lia|rewrite chk_panic by lia; left; split; [lia|reflexivity]]. cbn [bind].
  destruct l as [|m l].
  - right. cbn [removelast]. unfold units_of, sum. cbn [map fold_right]. rewrite Z.add_0_r. split; [lia|]. cbn [tuple_notes bind]. eauto.
  - specialize (IH ltac:(discriminate) (u + units (n_duration n)) H1 H2 H3 ltac:(lia)). cbv zeta in IH.
    replace (u + units_of (removelast (n :: m :: l))) with (u + units (n_duration n) + units_of (removelast (m :: l)))
      by (unfold units_of, sum; cbn [removelast map fold_right]; lia).
    destruct IH as [[C E]|[C [out E]]]; rewrite E; [left|right]; (split; [lia|]); cbn [bind]; eauto.
Qed.

Lemma unit_sum_all es l : Forall eok es -> flat_map te_notes es = l -> unit_sum es <= units_of l.
Proof.
  intros F <-. induction F as [|e es [A B] F IH]; [cbn; lia|].
  unfold unit_sum, units_of in *. cbn [map flat_map]. rewrite map_app.
  assert (SA : forall a b, sum (a ++ b) = sum a + sum b) by (induction a as [|x a Ia]; intros b; unfold sum in *; cbn [app fold_right]; [lia|rewrite Ia; lia]).
  rewrite SA. unfold sum in *. cbn [fold_right]. destruct A as [_ [_ [[n [I E]] _]]]. rewrite E.
  enough (units (n_duration n) <= fold_right Z.add 0 (map (fun n => units (n_duration n)) (te_notes e))).
  { change (units (plain (n_duration n))) with (units (n_duration n)). lia. }
  clear E. induction (te_notes e) as [|x r IHr]; [destruct I|]. inversion B as [|? ? V Vr]; subst.
  pose proof (nvalid_units x V). pose proof (sum_units_le r Vr) as [S0 _]. unfold sum in S0. cbn [map fold_right].
  destruct I as [->|I]; [lia|]. specialize (IHr I Vr). lia.
Qed.

Lemma tuplize_exact notes : notes <> [] -> Forall nvalid notes -> (forall n, In n notes -> 0 <= n_base_tick n) ->
  exists n0 r cs g, stable_sorted notes (n0 :: r) /\ chords notes cs /\ is_gcd g (map (fun n => units (n_duration n)) notes) /\
    let unit := sum (map (fun c => units (snd (fst c))) cs) in
    let tick := sum (map snd cs) in
    let q := unit / g in
    let before := units_of (removelast (n0 :: r)) in
    tuplize notes <> Hang /\
    (tuplize notes = Panic <-> 2 <= q /\
      (q mod 256 < 2 \/ u32_max < tick \/ u32_max < units_of notes \/ u32_max < tick / q * 2 * before \/
       u32_max < n_base_tick n0 + tick / q * 2 * before / unit)).
Proof.
  intros NE V T0. destruct (tuplize_unfold notes NE V) as [n0 [r [es [g [S [V' [SS [FM [EO [ST [G U]]]]]]]]]]].
  exists n0, r, (map chord_of es), g. pose proof (sort_stable notes) as P. rewrite S in P. split; [exact P|]. apply proj1 in P.
  split; [apply (chords_of _ (n0 :: r)); auto|]. split.
  { destruct G as [G1 [G2 G3]]. pose proof (Permutation_map (fun n => units (n_duration n)) P) as PM. split; auto. split.
    - intros u I. apply G2. apply (Permutation_in _ PM); auto.
    - intros h D. apply G3. intros u I. apply D. apply (Permutation_in _ (Permutation_sym PM)); auto. }
  rewrite !map_map. change (sum (map (fun x => units (snd (fst (chord_of x)))) es)) with (unit_sum es).
  change (sum (map (fun x => snd (chord_of x)) es)) with (tick_sum es). cbv zeta.
  assert (UN : units_of notes = units_of (n0 :: r)).
  { unfold units_of, sum. set (f := fun n => units (n_duration n)). clearbody f. clear - P. induction P; cbn [map fold_right]; lia. }
  rewrite UN, U. destruct G as [G1 [G2 _]].
  pose proof (unit_sum_ge es _ g EO FM G1 G2) as UG. pose proof (sums_bound es EO) as [SB _].
  pose proof (unit_sum_all es _ EO FM) as UA. pose proof (divide_sum g es _ EO FM G2) as [q Q].
  assert (G5 : g <= 510).
  { inversion V' as [|? ? H _]; subst. pose proof (nvalid_units n0 H). assert (g <= units (n_duration n0)); [|lia].
    apply Z.divide_pos_le; [lia|]. apply G2. left; auto. }
  assert (N0 : 0 <= n_base_tick n0) by (apply T0, (Permutation_in _ (Permutation_sym P)); left; auto).
  assert (QE : unit_sum es / g = q) by (rewrite Q; apply Z.div_mul; lia). rewrite QE.
  destruct (Z_le_gt_dec (tick_sum es) u32_max) as [X|X].
  2:{ rewrite sums_panic; auto; try (unfold u32_max in *; lia). cbn [bind]. split; [discriminate|]. split; [|reflexivity]. intros _.
      unfold u32_max in *. split; [nia|lia]. }
  destruct (Z_le_gt_dec (unit_sum es) u32_max) as [Y|Y].
  2:{ rewrite sums_panic; auto; try (unfold u32_max in *; lia). cbn [bind]. split; [discriminate|]. split; [|reflexivity]. intros _.
      unfold u32_max in *. split; [nia|lia]. }
  rewrite sums_ret; auto; try lia. cbn [bind]. cbv zeta. rewrite !Z.add_0_l, QE.
  destruct (Z.ltb_spec q 2) as [L|L]; [split; [discriminate|]; split; [discriminate|lia]|].
  assert (TQ : 0 <= tick_sum es / q * 2 <= u32_max).
  { assert (0 <= tick_sum es / q) by (apply Z.div_pos; lia). pose proof (Z.mul_div_le (tick_sum es) q ltac:(lia)). nia. }
  unfold chk_u32. rewrite chk_ret by lia. cbn [bind].
  unfold denominator_from_value, as_u8. destruct (Z.ltb_spec (q mod 256) 2) as [L2|L2].
  { cbn [unwrap_opt bind]. split; [discriminate|]. split; [auto|reflexivity]. }
  cbn [unwrap_opt bind].
  destruct (tuple_notes_exact (n_base_tick n0) (tick_sum es / q * 2) (unit_sum es) (q mod 256) (n0 :: r) V' ltac:(discriminate) 0) as [[C E]|[C [out E]]];
    try lia; rewrite E; rewrite !Z.add_0_l in C; (split; [discriminate|]); split; intros H; try discriminate H; try reflexivity; try (split; [lia|]; tauto).
  exfalso. lia.
Qed.

(** *** Equal notes *)
Lemma sum_const {A} (f : A -> Z) l c : Forall (fun a => f a = c) l -> sum (map f l) = Z.of_nat (length l) * c.
Proof. induction 1; unfold sum in *; cbn [map fold_right length]; [lia|]. rewrite Nat2Z.inj_succ. lia. Qed.

Lemma even_chords notes cs d : Forall nvalid notes -> NoDup (map n_base_tick notes) ->
  Forall (fun n => plain (n_duration n) = plain d) notes -> duration_valid d -> chords notes cs ->
  length cs = length notes /\
  sum (map (fun c => units (snd (fst c))) cs) = Z.of_nat (length notes) * units d /\ sum (map snd cs) = Z.of_nat (length notes) * len_of (d_num d) (d_dots d).
Proof.
  intros V ND SAME Vd [S [I F]].
  assert (L : length cs = length notes).
  { rewrite <- (map_length (fun c => fst (fst c)) cs), <- (map_length n_base_tick notes). apply Permutation_length.
    apply NoDup_Permutation; auto. clear - S. induction S; cbn; constructor; auto.
    rewrite Forall_forall in H. intros J. apply in_map_iff in J. destruct J as [x [E J]]. apply H in J. lia. }
  rewrite <- L. split; auto. rewrite Forall_forall in SAME.
  split; apply sum_const; eapply Forall_impl; try exact F; intros c [[n [J [_ E]]] [X _]]; rewrite SAME in E by auto.
  - rewrite E. reflexivity.
  - rewrite E in X. apply plain_lasts in X; auto.
Qed.

Lemma gcd_const g c l : l <> [] -> 0 < c -> Forall (fun u => u = c) l -> is_gcd g l -> g = c.
Proof.
  intros NE C F [G1 [G2 G3]]. rewrite Forall_forall in F. apply Z.divide_antisym_nonneg; try lia.
  - destruct l as [|u l]; [congruence|]. rewrite <- (F u (or_introl eq_refl)). apply G2. left; auto.
  - apply G3. intros u I. rewrite (F u I). apply Z.divide_refl.
Qed.

Lemma tuplize_even notes d : (2 <= length notes <= 255)%nat -> Forall nvalid notes -> NoDup (map n_base_tick notes) ->
  Forall (fun n => plain (n_duration n) = plain d) notes -> duration_valid d ->
  (forall n, In n notes -> 0 <= n_base_tick n) ->
  (forall s, least (map n_base_tick notes) s -> s + 3826 <= u32_max) ->
  exists out s, tuplize notes = Ret out /\ length out = length notes /\ stable_sorted notes s /\ forall i n n0, nth_error s i = Some n -> nth_error s 0 = Some n0 ->
      nth_error out i = Some (replaced_by n
        (n_base_tick n0 + 2 * len_of (d_num d) (d_dots d) * Z.of_nat i / Z.of_nat (length notes)) (Z.of_nat (length notes))).
Proof.
  intros LN V ND SAME Vd T0 B1. assert (NE : notes <> []) by (destruct notes; cbn in LN; [lia|discriminate]).
  destruct (tuplize_unfold notes NE V) as [n0 [r [es [g [S [V' [SS [FM [EO [ST [G U]]]]]]]]]]].
  rewrite U. pose proof (sort_stable notes) as P. rewrite S in P. pose proof (Permutation_length (proj1 P)) as PL.
  assert (CH : chords notes (map chord_of es)) by (apply (chords_of _ (n0 :: r)); auto; apply P).
  destruct (even_chords _ _ d V ND SAME Vd CH) as [L1 [L2 L3]]. rewrite map_map in L2, L3.
  change (unit_sum es = Z.of_nat (length notes) * units d) in L2.
  change (tick_sum es = Z.of_nat (length notes) * len_of (d_num d) (d_dots d)) in L3.
  assert (UB : 2 <= units d <= 510) by (apply units_bound; destruct Vd; auto).
  assert (LB : 7 <= len_of (d_num d) (d_dots d) <= 1913) by (apply len_of_bound; destruct Vd; auto).
  assert (SU : Forall (fun n => units (n_duration n) = units d) (n0 :: r)).
  { apply (Permutation_Forall (proj1 P)). eapply Forall_impl; [|exact SAME]. intros n E.
    change (units (plain (n_duration n)) = units (plain d)). rewrite E. reflexivity. }
  assert (GE : g = units d). { refine (gcd_const g (units d) _ _ _ _ G); [discriminate|lia|]. rewrite Forall_map. exact SU. }
  set (N := Z.of_nat (length notes)) in *. assert (HN : 2 <= N <= 255) by lia.
  set (len := len_of (d_num d) (d_dots d)) in *. clearbody len. set (u := units d) in *. clearbody u. subst g.
  assert (ST0 : 0 <= n_base_tick n0 /\ n_base_tick n0 + 3826 <= u32_max).
  { split; [apply T0, (Permutation_in _ (Permutation_sym (proj1 P))); left; auto|]. apply B1. split.
    - apply in_map, (Permutation_in _ (Permutation_sym (proj1 P))). left; auto.
    - intros x I. apply in_map_iff in I. destruct I as [n [<- I]]. apply (Permutation_in _ (proj1 P)) in I. destruct I as [->|I]; [lia|].
      inversion SS as [|? ? _ Fr]; subst. rewrite Forall_forall in Fr. exact (Fr n I). }
  rewrite sums_ret; auto; try (unfold u32_max; nia). cbn [bind]. cbv zeta. rewrite !Z.add_0_l, L2, L3.
  rewrite Z.div_mul by lia. destruct (Z.ltb_spec N 2); [lia|].
  rewrite (Z.mul_comm N len), Z.div_mul by lia. unfold chk_u32. rewrite chk_ret by (unfold u32_max; lia). cbn [bind].
  rewrite unwrap_den_ret by lia. cbn [bind].
  assert (SUM : forall i, (i <= length (n0 :: r))%nat -> sum (map (fun n => units (n_duration n)) (firstn i (n0 :: r))) = Z.of_nat i * u).
  { intros i Li. rewrite (sum_const _ _ u); [rewrite firstn_length_le; auto|].
    rewrite Forall_forall in SU |- *. intros n I. apply SU. rewrite <- (firstn_skipn i (n0 :: r)). apply in_app_iff; auto. }
  assert (NU : 0 < N * u) by nia.
  destruct (tuple_notes_ret (n_base_tick n0) (len * 2) (N * u) N _ V' 0) as [out E]; [lia|lia|exact NU|lia| |].
  { intros v Hv. specialize (SUM _ (le_n _)). rewrite firstn_all in SUM. rewrite SUM, <- PL in Hv. fold N in Hv.
    split; [unfold u32_max; nia|]. split; [unfold u32_max; nia|].
    assert (len * 2 * v / (N * u) <= 3826); [|lia]. apply Z.div_le_upper_bound; nia. }
  exists out, (n0 :: r). split; auto. destruct (tuple_notes_inv _ _ _ _ _ V' _ _ E) as [Len Nth].
  split; [rewrite PL; exact Len|]. split; auto. intros i n n0' Hi H0. cbn in H0. inversion H0; subst n0'.
  rewrite (Nth i n Hi). assert (Li : (i < length (n0 :: r))%nat) by (apply nth_error_Some; congruence).
  rewrite SUM by lia. do 3 f_equal. rewrite Z.add_0_l.
  replace (len * 2 * (Z.of_nat i * u)) with (2 * len * Z.of_nat i * u) by lia. rewrite Z.div_mul_cancel_r by lia. reflexivity.
Qed.
