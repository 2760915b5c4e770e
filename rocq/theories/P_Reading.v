(** How bars with contradictory marks are read. *)
From Coq Require Import Sorted.
From Verif Require Import Base P_Base M_Duration M_Scalar M_Bar M_Repeat S_Note S_Repeat S_Reading P_Marks P_Chunk P_Machine P_Order P_Errors P_Jump P_Panic.
Import ListNotations.
Open Scope Z_scope.

(** ** One bar *)
Definition with_marks (b : bar) (s : mark_set) : bar := mkBar (b_tick b) (b_rhythm b) (b_key b) s.
Definition drop_vars (b : bar) : bar := with_marks b (remove_regions (b_marks b)).
Definition single (b : bar) : bar :=
  match region_index (b_marks b) with
  | None => b
  | Some v => with_marks b (Z.lor (ms_remove (remove_regions (b_marks b)) Start) (ms_single (var_to_mark v)))
  end.
Definition is_jump (b : bar) : bool := has b Dc || has b Ds.
Definition tidy (inside : bool) (b : bar) : bar :=
  if (inside && negb (has b End) && negb (is_jump b)) || negb (has b Start || has b End || is_jump b) then single b else drop_vars b.

Lemma drop_has b m : has (drop_vars b) m = has b m && negb (is_var m).
Proof. unfold has, drop_vars. cbn. apply remove_regions_contains. Qed.
Lemma single_has b v m : region_index (b_marks b) = Some v ->
  has (single b) m = (has b m && negb (is_var m) && negb (mark_eqb Start m)) || mark_eqb (var_to_mark v) m.
Proof. intros E. unfold has, single. rewrite E. cbn [b_marks with_marks]. rewrite lor_contains, remove_contains, remove_regions_contains. reflexivity. Qed.

Lemma index_none b : region_index (b_marks b) = None <-> no_var b.
Proof.
  unfold region_index, no_var, has. split.
  - intros E m V. destruct (ms_contains (b_marks b) Var1) eqn:E1, (ms_contains (b_marks b) Var2) eqn:E2, (ms_contains (b_marks b) Var3) eqn:E3, (ms_contains (b_marks b) Var4) eqn:E4; try discriminate.
    destruct m; try discriminate; auto.
  - intros N. rewrite !N by reflexivity. reflexivity.
Qed.
Lemma index_some b v : region_index (b_marks b) = Some v -> has b (var_to_mark v) = true.
Proof.
  unfold region_index, has. destruct (ms_contains (b_marks b) Var1) eqn:E1; [intros X; inv X; auto|].
  destruct (ms_contains (b_marks b) Var2) eqn:E2; [intros X; inv X; auto|]. destruct (ms_contains (b_marks b) Var3) eqn:E3; [intros X; inv X; auto|].
  destruct (ms_contains (b_marks b) Var4) eqn:E4; [intros X; inv X; auto|discriminate].
Qed.

Lemma single_index b v : region_index (b_marks b) = Some v -> region_index (b_marks (single b)) = Some v.
Proof.
  intros E. pose proof (fun m => single_has b v m E) as H. unfold region_index. change (ms_contains (b_marks (single b))) with (has (single b)).
  rewrite !H. destruct v; cbn; rewrite ?andb_false_r; reflexivity.
Qed.
Lemma drop_index b : region_index (b_marks (drop_vars b)) = None.
Proof. apply index_none. intros m V. rewrite drop_has, V, andb_false_r. reflexivity. Qed.

Lemma no_var_compat b : no_var b -> compatible b.
Proof. intros N x y V X. rewrite N in X by exact V. discriminate. Qed.

Lemma tidy_compat i b : compatible (tidy i b).
Proof.
  unfold tidy. destruct ((i && _ && _) || _) eqn:K; [|apply no_var_compat, index_none, drop_index].
  destruct (region_index (b_marks b)) as [v|] eqn:R; [|unfold single; rewrite R; apply no_var_compat, index_none, R].
  assert (EJ : has b End = false /\ is_jump b = false) by (destruct (has b End), (is_jump b), i, (has b Start); cbn in K; try discriminate; auto).
  destruct EJ as [E J]. unfold is_jump in J. apply orb_false_iff in J. destruct J as [J1 J2].
  intros x y V X Y. rewrite (single_has b v x R) in X. rewrite (single_has b v y R) in Y. rewrite V, andb_false_r in X. cbn [andb orb] in X. apply mark_eqb_eq in X. subst x.
  destruct v, y; cbn in *; try reflexivity; rewrite ?E, ?J1, ?J2, ?andb_false_r in Y; cbn in Y; discriminate.
Qed.

Lemma tidy_reads i b : reads b (tidy i b).
Proof.
  assert (SAME : reads b b) by (unfold reads; repeat split; auto; intros m A B; congruence).
  unfold tidy. destruct ((i && _ && _) || _) eqn:K.
  - destruct (region_index (b_marks b)) as [v|] eqn:R; [|unfold single; rewrite R; exact SAME].
    pose proof (fun m => single_has b v m R) as H.
    assert (T : b_tick (single b) = b_tick b /\ b_rhythm (single b) = b_rhythm b /\ b_key (single b) = b_key b) by (unfold single; rewrite R; auto).
    destruct T as [T1 [T2 T3]]. unfold reads. repeat match goal with |- _ /\ _ => split end; auto.
    + intros m M. rewrite H in M. apply orb_true_iff in M. destruct M as [M|M].
      * apply andb_true_iff in M. destruct M as [M _]. apply andb_true_iff in M. tauto.
      * apply mark_eqb_eq in M. subst m. apply index_some, R.
    + intros m M N. exists (var_to_mark v). split; [rewrite H; replace (mark_eqb (var_to_mark v) (var_to_mark v)) with true by (destruct v; reflexivity); apply orb_true_r|].
      rewrite H, M in N. unfold has in M. unfold region_index in R.
      destruct v, m; cbn in N |- *; try discriminate; try (split; [reflexivity|]; right; split; [reflexivity|]; intros _; lia); auto;
        exfalso; clear H; repeat match type of R with (if ?c then _ else _) = _ => destruct c; try discriminate end; congruence.
  - destruct (region_index (b_marks b)) as [v|] eqn:R.
    + unfold reads. repeat match goal with |- _ /\ _ => split end; auto.
      * intros m M. rewrite drop_has in M. apply andb_true_iff in M. tauto.
      * intros m M N. rewrite drop_has, M in N. cbn in N. apply negb_false_iff in N.
        assert (SEJ : has b Start || has b End || is_jump b = true) by (destruct (has b Start || has b End || is_jump b); [auto|rewrite orb_true_r in K; discriminate]).
        assert (W : forall k, has b k = true -> match k with Start | End | Dc | Ds => True | _ => False end ->
          exists k, has (drop_vars b) k = true /\ contradict m k = true /\ ((m = Start /\ is_var k = true) \/ (is_var m = true /\ (is_var k = true -> mark_bit k < mark_bit m)))).
        { intros k KB X. exists k. rewrite drop_has, KB, N. split; [destruct k; auto|]. split; [destruct m, k; auto; discriminate|]. right. split; [reflexivity|]. destruct k; try destruct X; discriminate. }
        unfold is_jump in SEJ. destruct (has b Start) eqn:E1; [apply (W Start); auto; exact Logic.I|].
        destruct (has b End) eqn:E2; [apply (W End); auto; exact Logic.I|].
        destruct (has b Dc) eqn:E3; [apply (W Dc); auto; exact Logic.I|].
        destruct (has b Ds) eqn:E4; [apply (W Ds); auto; exact Logic.I|discriminate].
    + apply index_none in R. unfold reads. repeat match goal with |- _ /\ _ => split end; auto.
      * intros m M. rewrite drop_has in M. apply andb_true_iff in M. tauto.
      * intros m M N. rewrite drop_has, M in N. cbn in N. apply negb_false_iff in N. rewrite R in M by exact N. discriminate.
Qed.

Lemma tidy_tick i b : b_tick (tidy i b) = b_tick b.
Proof. apply (tidy_reads i b). Qed.
Lemma tidy_other i b m : is_var m = false -> m <> Start -> has (tidy i b) m = has b m.
Proof.
  intros V S. destruct (tidy_reads i b) as [_ [_ [_ [A B]]]]. destruct (has b m) eqn:E.
  - destruct (has (tidy i b) m) eqn:F; [reflexivity|]. destruct (B m E F) as [k [_ [_ [[X _]|[X _]]]]]; congruence.
  - destruct (has (tidy i b) m) eqn:F; [|reflexivity]. rewrite (A m F) in E. discriminate.
Qed.

Lemma tidy_on_bar i b g : on_bar (tidy i b) g = on_bar b g.
Proof.
  unfold on_bar, on_bar_length. rewrite !tidy_other by (reflexivity || discriminate). rewrite tidy_tick.
  destruct (tidy_reads i b) as [_ [-> _]]. reflexivity.
Qed.

(** ** One step *)
Definition in_var (st : rr_state) : bool := match st with SVariation _ _ => true | _ => false end.
Definition spoils (st : rr_state) (b : bar) : Prop :=
  is_jump b = true /\ region_index (b_marks b) <> None /\ has b End = false /\
  match st with SVariation _ _ => True | SIdle => has b Start = false | _ => False end.

Lemma tidy_step sg st b : ~ spoils st b -> rr_step sg (tidy (in_var st) b) st = rr_step sg b st.
Proof.
  intros NS. assert (E : has (tidy (in_var st) b) End = has b End) by (apply tidy_other; [reflexivity|discriminate]).
  assert (D1 : has (tidy (in_var st) b) Dc = has b Dc) by (apply tidy_other; [reflexivity|discriminate]).
  assert (D2 : has (tidy (in_var st) b) Ds = has b Ds) by (apply tidy_other; [reflexivity|discriminate]).
  pose proof (tidy_tick (in_var st) b) as TT. unfold rr_step. rewrite E, D1, D2, TT. clear E D1 D2 TT.
  destruct (region_index (b_marks b)) as [v|] eqn:R.
  2:{ assert (X : has (tidy (in_var st) b) Start = has b Start /\ region_index (b_marks (tidy (in_var st) b)) = None).
      { unfold tidy. destruct (_ || _).
        - unfold single. rewrite R. auto.
        - rewrite drop_has, drop_index. rewrite andb_true_r. auto. }
      destruct X as [-> ->]. reflexivity. }
  assert (DS : has (drop_vars b) Start = has b Start) by (rewrite drop_has, andb_true_r; reflexivity).
  assert (SS : has (single b) Start = false) by (rewrite (single_has b v _ R); destruct v; cbn; rewrite ?andb_false_r; reflexivity).
  pose proof (single_index b v R) as SI. pose proof (drop_index b) as DI.
  assert (NJ : match st with SVariation _ _ | SIdle => has b End = false -> (in_var st = false -> has b Start = false) -> is_jump b = false | _ => True end).
  { destruct st; auto; intros NE NST; destruct (is_jump b) eqn:J; auto; exfalso; apply NS; unfold spoils; rewrite R, J; repeat split; auto; try discriminate. }
  unfold tidy. destruct st as [|s|s|s l]; cbn [in_var andb orb] in *.
  - destruct (has b Start) eqn:S; cbn [negb orb andb]; [rewrite DS; destruct (has b End); reflexivity|].
    destruct (has b End) eqn:E; cbn [negb orb andb]; [rewrite DS; reflexivity|]. rewrite NJ by auto. cbn [negb]. rewrite SS, SI. cbn [andb]. reflexivity.
  - destruct (has b End) eqn:E; [reflexivity|]. destruct (has b Start) eqn:S; cbn [negb orb andb]; [rewrite DS; reflexivity|].
    destruct (is_jump b); cbn [negb]; [rewrite DS|rewrite SS]; reflexivity.
  - destruct (has b Start) eqn:S; cbn [negb orb andb]; [rewrite DS; destruct (has b End); reflexivity|].
    destruct (has b End) eqn:E; cbn [negb orb andb]; [rewrite DS; reflexivity|]. unfold is_jump. destruct (has b Dc || has b Ds) eqn:J; cbn [negb]; [rewrite DS|rewrite SS, SI]; reflexivity.
  - destruct (has b End) eqn:E; [reflexivity|]. rewrite NJ by (auto; discriminate). cbn [negb andb orb]. rewrite SI. reflexivity.
Qed.

(** ** The loop *)
Lemma varies_index b : varies b = true <-> region_index (b_marks b) <> None.
Proof.
  unfold varies, region_index, has. destruct (ms_contains (b_marks b) Var1), (ms_contains (b_marks b) Var2), (ms_contains (b_marks b) Var3), (ms_contains (b_marks b) Var4);
    cbn; split; congruence.
Qed.
Lemma step_var sg b st st' new : rr_step sg b st = Ret (Ok (st', new)) -> in_var st' = true -> varies b = true.
Proof.
  intros E V. apply varies_index. intros N. destruct st as [|s|s|s l]; unfold rr_step in E; rewrite ?N in E.
  - destruct (has b Start && has b End); [inv E; discriminate|]. destruct (has b End); [inv E; discriminate|]. destruct (has b Start); inv E; discriminate.
  - destruct (has b End); [discriminate|]. destruct (has b Start); inv E; discriminate.
  - destruct (has b Start && has b End); [inv E; discriminate|]. destruct (has b End); [inv E; discriminate|]. destruct (has b Start); [discriminate|].
    destruct (has b Dc || has b Ds); inv E; discriminate.
  - destruct (has b End); [discriminate|]. destruct (index l 0); try discriminate. cbn [bind] in E. destruct (unwrap_opt _); try discriminate. cbn [bind] in E.
    destruct (match sg with Some g => _ | None => _ end); [discriminate|]. destruct (create_variation _ _ _); try discriminate. cbn [bind] in E. inv E.
    destruct (has b Start); discriminate.
Qed.
Lemma tidy_start i b : has b Start = true -> has (tidy i b) Start = false -> i = true.
Proof.
  intros S N. destruct i; [reflexivity|]. unfold tidy in N. rewrite S in N. cbn [negb andb orb] in N. rewrite drop_has, S in N. discriminate.
Qed.
Lemma tidy_all l : forall after, read_from after l (map (tidy false) l) /\ Forall compatible (map (tidy false) l).
Proof.
  induction l as [|x l IH]; intros after; cbn [map]; [split; constructor|]. destruct (IH (varies (tidy false x))) as [A B]. split; constructor; auto using tidy_reads, tidy_compat.
  intros S N. pose proof (tidy_start _ _ S N). discriminate.
Qed.

Lemma loop_reading bars : forall after g st regs, (in_var st = true -> after = true) ->
  (exists bars', read_from after bars bars' /\ Forall compatible bars' /\ rr_loop g st regs bars' = rr_loop g st regs bars) \/
  exists pre b post g1 st1 regs1, bars = pre ++ b :: post /\ rr_loop g st regs pre = Ret (Ok (g1, st1, regs1)) /\ spoils st1 b.
Proof.
  induction bars as [|b bars IH]; intros after g st regs AF.
  - left. exists []. split; [constructor|]. auto.
  - assert (D : spoils st b \/ ~ spoils st b).
    { unfold spoils. destruct (is_jump b); [|right; intuition discriminate]. destruct (region_index (b_marks b)); [|right; intuition]. destruct (has b End); [right; intuition discriminate|].
      destruct st; try (right; tauto).
      - destruct (has b Start); [right; intuition discriminate|left]. repeat split; auto; discriminate.
      - left. repeat split; auto; discriminate. }
    destruct D as [D|D].
    + right. exists [], b, bars, g, st, regs. auto.
    + set (b' := tidy (in_var st) b). assert (OB : on_bar b' g = on_bar b g) by apply tidy_on_bar.
      assert (ST : forall sg, rr_step sg b' st = rr_step sg b st) by (intros; apply tidy_step; auto).
      assert (B1 : reads b b') by apply tidy_reads. assert (B2 : has b Start = true -> has b' Start = false -> after = true) by (intros X Y; apply AF, (tidy_start _ _ X Y)).
      assert (STOP : rr_loop g st regs (b' :: map (tidy false) bars) = rr_loop g st regs (b :: bars) ->
        exists bars', read_from after (b :: bars) bars' /\ Forall compatible bars' /\ rr_loop g st regs bars' = rr_loop g st regs (b :: bars)).
      { intros X. destruct (tidy_all bars (varies b')) as [A B]. exists (b' :: map (tidy false) bars). split; [constructor; auto|]. split; [constructor; [apply tidy_compat|exact B]|exact X]. }
      cbn [rr_loop] in STOP |- *. rewrite OB in STOP. destruct (on_bar b g) as [g'|e] eqn:OE; [|left; auto].
      rewrite ST in STOP. destruct (rr_step (gb_segno g') b st) as [[[st' new]|e]| |] eqn:SE; cbn [bind] in *; try (left; apply STOP; reflexivity).
      destruct (IH (varies b') g' st' (regs ++ new)) as [[bars' [A [B C]]]|[pre [x [post [g1 [st1 [regs1 [A [B C]]]]]]]]].
      * intros V. rewrite <- ST in SE. exact (step_var _ _ _ _ _ SE V).
      * left. exists (b' :: bars'). split; [constructor; auto|]. split; [constructor; [apply tidy_compat|exact B]|].
        cbn [rr_loop]. rewrite OB, ST, SE. cbn [bind]. exact C.
      * right. exists (b :: pre), x, post, g1, st1, regs1. cbn [app rr_loop]. rewrite A, OE, SE. auto.
Qed.

Lemma read_all after bars bars' : read_from after bars bars' -> Forall2 reads bars bars'.
Proof. induction 1; constructor; auto. Qed.

(** ** A variation that starts at a jump *)
Lemma last_default {A} (l : list A) d d' : l <> [] -> last l d = last l d'.
Proof. induction l as [|x l IH]; [congruence|]. intros _. cbn [last]. destruct l; [reflexivity|]. apply IH. discriminate. Qed.
Lemma ranges_last l : forall t e, exists a, last_variation (variation_ranges t l e) = Ret (a, e).
Proof.
  induction l as [|x l IH]; intros t e; cbn [variation_ranges last_variation last]; [eauto|].
  destruct (IH x e) as [a A]. exists a. destruct l as [|z l]; cbn [variation_ranges last_variation last] in *; [exact A|].
  rewrite <- A. f_equal. destruct l as [|z' l]; apply last_default; discriminate.
Qed.

Lemma var_closes sg bars : forall s t l st' new x, st_wf (SVariation s (t :: l)) ->
  st_run sg (SVariation s (t :: l)) bars = Ret (Ok (st', new)) -> closing st' = Some x ->
  exists vs y a, In (RVar (s, t) vs) new /\ In y bars /\ last_variation vs = Ret (a, b_tick y).
Proof.
  induction bars as [|b bars IH]; intros s t l st' new x W E C; cbn [st_run] in E; [inv E; discriminate|].
  destruct (has b End) eqn:N; [unfold rr_step in E; rewrite N in E; discriminate|].
  destruct (rr_step sg b (SVariation s (t :: l))) as [[[st1 n1]|]| |] eqn:SE; try discriminate. cbn [bind] in E.
  destruct (st_run sg st1 bars) as [[[st2 n2]|]| |] eqn:RE; try discriminate. cbn [bind] in E. inv E.
  pose proof (step_wf _ _ _ _ _ W SE) as W1. rewrite step_variation in SE by auto. destruct (region_index (b_marks b)) as [v|].
  - destruct (has b Dc || has b Ds); [discriminate|]. destruct (var_no v =? _).
    + inv SE. destruct (IH _ _ _ _ _ _ W1 RE C) as [vs [y [a [A [B D]]]]]. exists vs, y, a. cbn. auto.
    + destruct (var_no v =? _); [|destruct (unwrap_opt _); discriminate]. inv SE. cbn [app] in RE, W1.
      destruct (IH _ _ _ _ _ _ W1 RE C) as [vs [y [a [A [B D]]]]]. exists vs, y, a. cbn. auto.
  - destruct (match sg with Some g => _ | None => _ end); [discriminate|]. inv SE. cbn [hd tl app].
    destruct (ranges_last l t (b_tick b)) as [a A]. exists (variation_ranges t l (b_tick b)), b, a. cbn. auto.
Qed.

Lemma omapM_all {A B} (f : A -> outcome B) l : forall r x, omapM f l = Ret r -> In x l -> exists y, f x = Ret y.
Proof.
  induction l as [|a l IH]; intros r x E []; apply omapM_cons in E; destruct E as [p [q [E1 [E2 _]]]]; [subst; eauto|eauto].
Qed.

Lemma spoilt r bars pre b post g1 st1 regs1 c w : tune bars -> bars = pre ++ b :: post ->
  rr_loop (gb_new r) SIdle [] pre = Ret (Ok (g1, st1, regs1)) -> spoils st1 b ->
  render_region r bars = Ret (Ok (c, w)) -> to_chunks c = Panic.
Proof.
  intros T EB RP [J [RI [NE SP]]] E. unfold render_region in E.
  destruct (rr_loop (gb_new r) SIdle [] bars) as [[[[g st] regs]|]| |] eqn:R; try discriminate. cbn [bind] in E.
  apply finish_closing in E. destruct E as [s [gr [w' [CL [B X]]]]]. injection X as -> <-.
  assert (C : counts_ok bars) by (rewrite <- builder_nil in R; exact (loop_counts r bars [] SIdle [] _ T counts_nil R)).
  pose proof R as R0. rewrite <- builder_nil in R0. rewrite (loop_ok r bars [] SIdle [] T C Logic.I) in R0 by (intros ? []).
  destruct (st_run _ SIdle bars) as [[[st0 n0]|]| |]; try discriminate. cbn [bind] in R0. cbn [app] in R0. injection R0 as <- <- <-.
  assert (PB : g1 = builder_of r pre).
  { pose proof RP as P0. assert (T1 : tune pre) by (rewrite EB in T; exact (tune_app_l _ _ T)). assert (C1 : counts_ok pre) by (rewrite EB in C; exact (counts_app_l _ _ C)).
    rewrite <- builder_nil in P0. rewrite (loop_ok r pre [] SIdle [] T1 C1 Logic.I) in P0 by (intros ? []).
    destruct (st_run _ SIdle pre) as [[[st2 n2]|]| |]; try discriminate. cbn [bind] in P0. cbn [app] in P0. injection P0 as <- _ _. reflexivity. }
  subst g1. rewrite EB in R at 1. rewrite loop_app, RP in R. cbn [bind rr_loop] in R.
  assert (EB2 : bars = (pre ++ [b]) ++ post) by (rewrite EB, <- app_assoc; reflexivity).
  assert (T2 : tune ((pre ++ [b]) ++ post)) by (rewrite <- EB2; exact T). assert (C2 : counts_ok ((pre ++ [b]) ++ post)) by (rewrite <- EB2; exact C).
  pose proof (on_bar_run r pre b (tune_app_l _ _ T2) (counts_app_l _ _ (counts_app_l _ _ C2))) as O.
  destruct (on_bar b (builder_of r pre)) as [g'|e]; [|discriminate]. destruct O as [_ ->].
  destruct (region_index (b_marks b)) as [v|] eqn:RV; [|congruence]. unfold is_jump in J.
  destruct st1 as [|s1|s1|s1 l1]; try contradiction; unfold rr_step in R; rewrite NE in R.
  2:{ rewrite RV, J in R. discriminate. }
  rewrite SP, RV in R. cbn [andb] in R. destruct v; try discriminate. cbn [bind] in R. rewrite app_nil_r in R.
  rewrite (loop_ok r post (pre ++ [b]) (SVariation 0 [b_tick b]) regs1 T2 C2) in R.
  2:{ cbn. lia. }
  2:{ cbn. intros x [<-|[]]. exists b. rewrite in_app_iff. cbn. auto. }
  destruct (st_run _ (SVariation 0 [b_tick b]) post) as [[[st3 n3]|]| |] eqn:RE; try discriminate. cbn [bind] in R.
  assert (Q : st3 = st0 /\ n0 = regs1 ++ n3) by (split; congruence). destruct Q as [-> ->]. clear R.
  destruct (var_closes _ post 0 (b_tick b) [] st0 n3 s ltac:(cbn; lia) RE CL) as [vs [y [a [V1 [V2 V3]]]]].
  assert (BY : 0 <= b_tick b < b_tick y).
  { split; [|apply (tune_lt _ _ _ _ T2); auto; rewrite in_app_iff; cbn; auto]. destruct T as [_ T]. rewrite Forall_forall in T. apply (T b). rewrite EB, in_app_iff. cbn. auto. }
  assert (IB : In b bars) by (rewrite EB, in_app_iff; cbn; auto). assert (IY : In y bars) by (rewrite EB2, in_app_iff; auto).
  assert (NJ : ~ no_jump b) by (intros [N1 N2]; rewrite N1, N2 in J; discriminate).
  destruct gr as [gl|].
  2:{ exfalso. pose proof (build_cases r bars T C (build_no_overflow _ _ _ T C B)) as BC. rewrite B in BC.
      assert (JO : jump_of bars <> None).
      { unfold jump_of. apply orb_true_iff in J. destruct J as [J|J].
        - assert (I1 : In (b_tick b) (marked Dc bars)) by (apply marked_In; eauto). destruct (marked Dc bars); [destruct I1|discriminate].
        - assert (I1 : In (b_tick b) (marked Ds bars)) by (apply marked_In; eauto). destruct (marked Dc bars), (marked Ds bars); try discriminate. destruct I1. }
      destruct (jump_of bars) as [j|]; [|congruence]. destruct BC as [[e BC]|[[FB _]|[s2 [_ BC]]]]; [discriminate| |].
      - apply (first_bar_some bars (b_tick y)); [apply in_map; exact IY|lia|exact FB].
      - destruct (to_interval_set _ _ _); discriminate. }
  destruct (jump_built r bars gl w T C B) as [s2 [JU _]]. pose proof (jump_unique _ _ _ _ b JU IB NJ) as JT.
  assert (IR : In (RVar (0, b_tick b) vs) ((regs1 ++ n3) ++ [RSeq (s, u32_max)])) by (rewrite !in_app_iff; auto).
  destruct (to_chunks _) as [cs| |] eqn:TC; [exfalso|reflexivity|exact (False_ind _ (chunks_hang _ TC))].
  unfold to_chunks in TC. cbn [cp_global cp_regions] in TC.
  match type of TC with bind ?m _ = _ => destruct m as [l0| |] eqn:M0 end; try discriminate. cbn [bind] in TC.
  match type of TC with bind ?m _ = _ => destruct m as [l1| |] eqn:M1 end; try discriminate.
  destruct (omapM_all _ _ _ _ M0 IR) as [z0 Z0]. destruct (omapM_all _ _ _ _ M1 IR) as [z1 Z1].
  rewrite <- JT in Z0. cbn [render_chunks fst] in Z0. destruct (Z.leb_spec (b_tick b) 0).
  - replace (b_tick b) with 0 in Z1 by lia. cbn [render_chunks] in Z1. unfold to_iter1_chunks in Z1. cbn [iter1_interval_set] in Z1. unfold range_interval_set in Z1. cbn [snd fst] in Z1.
    unfold chk_u32 in Z1 at 1. rewrite chk_panic in Z1 by lia. discriminate.
  - rewrite V3 in Z0. cbn [bind snd] in Z0. destruct (Z.ltb_spec (b_tick b) (b_tick y)); [discriminate|lia].
Qed.

(** ** The whole score *)
Lemma spoils_torn st b : spoils st b -> torn b.
Proof.
  intros [J [R [E _]]]. split; [|split; [|exact E]].
  - intros [A B]. unfold is_jump in J. rewrite A, B in J. discriminate.
  - intros N. apply R, index_none, N.
Qed.

Lemma render_reading r bars : tune bars ->
  (exists bars', read_as bars bars' /\ Forall compatible bars' /\ render_region r bars' = render_region r bars) \/
  ((exists b, In b bars /\ torn b) /\ forall c w, render_region r bars = Ret (Ok (c, w)) -> to_chunks c = Panic).
Proof.
  intros T. destruct (loop_reading bars false (gb_new r) SIdle [] ltac:(discriminate)) as [[bars' [A [B C]]]|[pre [b [post [g1 [st1 [regs1 [A [B C]]]]]]]]].
  - left. exists bars'. split; [exact A|]. split; [exact B|]. unfold render_region. rewrite C. reflexivity.
  - right. split.
    + exists b. split; [rewrite A, in_app_iff; cbn; auto|]. exact (spoils_torn _ _ C).
    + intros c w E. exact (spoilt r bars pre b post g1 st1 regs1 c w T A B C E).
Qed.

Lemma reads_ticks bars bars' : read_as bars bars' -> map b_tick bars' = map b_tick bars.
Proof. intros H. apply read_all in H. induction H as [|b b' l l' [H _] _ IH]; cbn; congruence. Qed.
Lemma reads_tune bars bars' : read_as bars bars' -> tune bars -> tune bars'.
Proof.
  intros F [S G]. pose proof (reads_ticks _ _ F) as M. split; [rewrite M; exact S|].
  assert (X : Forall (fun t => 0 <= t < u32_max) (map b_tick bars')) by (rewrite M; apply Forall_map; exact G). apply Forall_map in X. exact X.
Qed.
Lemma reads_marked bars bars' m : read_as bars bars' -> is_var m = false -> m <> Start -> marked m bars' = marked m bars.
Proof.
  intros F V N. apply read_all in F. unfold marked. induction F as [|b b' l l' [HT [_ [_ [H1 H2]]]] _ IH]; [reflexivity|]. cbn [filter].
  assert (E : has b' m = has b m).
  { destruct (has b m) eqn:E.
    - destruct (has b' m) eqn:G; [reflexivity|]. destruct (H2 m E G) as [k [_ [_ [[X _]|[X _]]]]]; congruence.
    - destruct (has b' m) eqn:G; [|reflexivity]. rewrite (H1 m G) in E. discriminate. }
  rewrite E. destruct (has b m); cbn [map]; congruence.
Qed.
Lemma reads_same b b' : compatible b -> reads b b' -> forall m, has b' m = has b m.
Proof.
  intros C [_ [_ [_ [H1 H2]]]] m. destruct (has b m) eqn:E.
  - destruct (has b' m) eqn:G; [reflexivity|]. destruct (H2 m E G) as [k [K [X D]]]. pose proof (H1 k K) as K'. exfalso.
    destruct D as [[-> V]|[V _]].
    + specialize (C k Start V K' E). destruct k; discriminate.
    + specialize (C m k V E K'). congruence.
  - destruct (has b' m) eqn:G; [|reflexivity]. rewrite (H1 m G) in E. discriminate.
Qed.

(** ** Which marks count *)
Lemma index_has b b' : (forall m, is_var m = true -> has b' m = has b m) -> region_index (b_marks b') = region_index (b_marks b).
Proof. intros H. unfold region_index. change (ms_contains (b_marks b')) with (has b'). rewrite !H by reflexivity. reflexivity. Qed.

Lemma without_on_bar p b b' g : without p b b' -> (forall m, p m = true -> m = Start \/ is_var m = true) -> on_bar b' g = on_bar b g.
Proof.
  intros [T [R [_ H]]] P. assert (X : forall m, m <> Start -> is_var m = false -> has b' m = has b m).
  { intros m N V. rewrite H. destruct (p m) eqn:E; [destruct (P m E); congruence|apply andb_true_r]. }
  unfold on_bar, on_bar_length. rewrite !X by (reflexivity || discriminate). rewrite T, R. reflexivity.
Qed.

Lemma loop_wf bars : forall g st regs g' st' regs', st_wf st -> rr_loop g st regs bars = Ret (Ok (g', st', regs')) -> st_wf st'.
Proof.
  induction bars as [|b bars IH]; intros g st regs g' st' regs' W E; cbn [rr_loop] in E; [inv E; exact W|].
  destruct (on_bar b g) as [g1|]; [|discriminate]. destruct (rr_step (gb_segno g1) b st) as [[[st1 new]|]| |] eqn:SE; try discriminate. cbn [bind] in E.
  exact (IH _ _ _ _ _ _ (step_wf _ _ _ _ _ W SE) E).
Qed.

Lemma swap_bar r pre b b' post :
  (forall g st regs, st_wf st -> rr_loop (gb_new r) SIdle [] pre = Ret (Ok (g, st, regs)) ->
    on_bar b' g = on_bar b g /\ forall sg, rr_step sg b' st = rr_step sg b st) ->
  render_region r (pre ++ b' :: post) = render_region r (pre ++ b :: post).
Proof.
  intros H. unfold render_region. rewrite !loop_app. destruct (rr_loop (gb_new r) SIdle [] pre) as [[[[g st] regs]|]| |] eqn:R; try reflexivity. cbn [bind].
  destruct (H g st regs (loop_wf pre (gb_new r) SIdle [] g st regs Logic.I R) eq_refl) as [O S]. cbn [rr_loop]. rewrite O. destruct (on_bar b g); [|reflexivity]. rewrite S. reflexivity.
Qed.

Lemma check_not_open from to fine t : check_coda_pos from to fine <> Err (VariationNotClosed t).
Proof. unfold check_coda_pos. destruct fine; [|discriminate]. repeat match goal with |- context [if ?c then _ else _] => destruct c end; discriminate. Qed.

Lemma build_not_open g t : gb_build g <> Ret (Err (VariationNotClosed t)).
Proof.
  unfold gb_build. destruct (gb_ds_dc g) as [[tick len|tick]|]; [| |discriminate].
  - destruct (gb_first_bar_len g); [|discriminate].
    match goal with |- bind ?m _ <> _ => destruct m as [[segno w]| |]; [|discriminate..] end. cbn [bind].
    destruct (gb_coda g) as [[t0|from to]|].
    + destruct (to_interval_set segno (gb_fine g) None); discriminate.
    + destruct (check_coda_pos from to (gb_fine g)) eqn:C; cbn [and_then].
      * destruct (to_interval_set segno (gb_fine g) (Some (from, to))); discriminate.
      * intros E. injection E as ->. exact (check_not_open _ _ _ _ C).
    + destruct (to_interval_set segno (gb_fine g) None); discriminate.
  - destruct (gb_segno g) as [segno|]; [|discriminate]. destruct (gb_coda g) as [[t0|from to]|].
    + discriminate.
    + destruct (check_coda_pos from to (gb_fine g)) eqn:C; cbn [and_then].
      * destruct (to_interval_set segno (gb_fine g) (Some (from, to))); discriminate.
      * intros E. injection E as ->. exact (check_not_open _ _ _ _ C).
    + destruct (to_interval_set segno (gb_fine g) None); discriminate.
Qed.

Lemma finish_open r pre g st regs : rr_loop (gb_new r) SIdle [] pre = Ret (Ok (g, st, regs)) -> st_wf st ->
  (in_var st = true <-> in_variation r pre).
Proof.
  intros R W. unfold in_variation, render_region. rewrite R. cbn [bind]. destruct st as [|s|s|s l]; cbn [rr_finish in_var].
  - split; [discriminate|]. intros [t E]. destruct (gb_build g) as [[[gr w]|e]| |] eqn:B; try discriminate. cbn in E. injection E as ->. exfalso. revert B. apply build_not_open.
  - split; [discriminate|]. intros [t E]. destruct (gb_build g) as [[[gr w]|e]| |] eqn:B; try discriminate. cbn in E. injection E as ->. exfalso. revert B. apply build_not_open.
  - split; [discriminate|]. intros [t E]. discriminate.
  - split; [|reflexivity]. intros _. cbn in W. assert (N : l <> []) by (destruct l; [cbn in W; lia|discriminate]). rewrite (last_nth l 0 N). cbn. eauto.
Qed.

Lemma start_gives_way r pre b b' post : in_variation r pre -> varies b = true -> without is_start b b' ->
  render_region r (pre ++ b' :: post) = render_region r (pre ++ b :: post).
Proof.
  intros V X W. apply swap_bar. intros g st regs ST R. split; [apply (without_on_bar _ _ _ _ W); intros m M; destruct m; try discriminate; auto|].
  apply (finish_open r pre g st regs R ST) in V. destruct st as [|s|s|s l]; try discriminate. intros sg.
  destruct W as [T [_ [_ H]]]. assert (RI : region_index (b_marks b') = region_index (b_marks b)).
  { apply index_has. intros m M. rewrite H. destruct m; try discriminate; apply andb_true_r. }
  unfold rr_step. rewrite RI, T, !H. cbn [is_start]. destruct (region_index (b_marks b)) eqn:E; [|apply varies_index in X; congruence].
  cbn. rewrite !andb_true_r. reflexivity.
Qed.

Lemma var_gives_way r pre b b' post : ~ in_variation r pre \/ has b End = true -> has b Start = true \/ has b End = true -> without is_var b b' ->
  render_region r (pre ++ b' :: post) = render_region r (pre ++ b :: post).
Proof.
  intros V X W. apply swap_bar. intros g st regs ST R. split; [apply (without_on_bar _ _ _ _ W); auto|].
  destruct W as [T [_ [_ H]]]. intros sg. unfold rr_step. rewrite T, !H. cbn [is_var negb]. rewrite !andb_true_r.
  destruct st as [|s|s|s l].
  - destruct X as [-> | ->]; [|destruct (has b Start); reflexivity]. destruct (has b End); reflexivity.
  - destruct X as [-> | ->]; reflexivity.
  - destruct X as [-> | ->]; [|destruct (has b Start); reflexivity]. destruct (has b End); reflexivity.
  - destruct V as [V| ->]; [|reflexivity]. exfalso. apply V. apply (finish_open r pre g _ regs R ST). reflexivity.
Qed.

Lemma higher_ignored r pre b b' post k : is_var k = true -> has b k = true -> without (fun m => is_var m && (mark_bit k <? mark_bit m)) b b' ->
  render_region r (pre ++ b' :: post) = render_region r (pre ++ b :: post).
Proof.
  intros K B W. apply swap_bar. intros g st regs ST R. split.
  { apply (without_on_bar _ _ _ _ W). intros m M. apply andb_true_iff in M. tauto. }
  destruct W as [T [_ [_ H]]]. intros sg. unfold rr_step. assert (RI : region_index (b_marks b') = region_index (b_marks b)).
  { unfold region_index. change (ms_contains (b_marks b')) with (has b'). change (ms_contains (b_marks b)) with (has b). rewrite !H.
    destruct k; try discriminate; cbn [is_var mark_bit andb negb Z.ltb Z.compare Pos.compare Pos.compare_cont]; rewrite ?andb_true_r, ?andb_false_r, ?B; try reflexivity;
      destruct (has b Var1); try reflexivity; destruct (has b Var2); try reflexivity; destruct (has b Var3); reflexivity. }
  rewrite RI, T, !H. cbn [is_var andb negb]. rewrite !andb_true_r. reflexivity.
Qed.
