(** Lemmas for T_Lines.v: what a bar line without marks does to rendering. *)
From Coq Require Import ZArith List Bool Lia.
From Verif Require Import Base M_Scalar M_Bar M_Repeat S_Note S_Repeat S_Lines P_Base T_Score.
Import ListNotations.
Open Scope Z_scope.

(** ** The state tells the variation mark of the last bar *)
Definition small_state (st : rr_state) : Prop :=
  match st with SVariation _ starts => (1 <= length starts <= 4)%nat | _ => True end.
Definition tells (b : bar) (st : rr_state) : Prop :=
  match st with
  | SVariation _ starts => exists i, region_index (b_marks b) = Some i /\ var_value i = Z.of_nat (length starts)
  | _ => True
  end.

Lemma step_tells sg b st st' new : small_state st -> rr_step sg b st = Ret (Ok (st', new)) -> tells b st' /\ small_state st'.
Proof.
  intros S E. destruct st as [|s|s|s starts]; unfold rr_step in E.
  - destruct (has b Start && has b End); [inversion E; subst; cbn; auto|].
    destruct (has b End); [inversion E; subst; cbn; auto|].
    destruct (has b Start); [inversion E; subst; cbn; auto|].
    destruct (region_index (b_marks b)) as [[]|] eqn:R; inversion E; subst; cbn; auto. split; [exists VI1; auto|lia].
  - destruct (has b End); [discriminate|]. destruct (has b Start); inversion E; subst; cbn; auto.
  - destruct (has b Start && has b End); [inversion E; subst; cbn; auto|].
    destruct (has b End); [inversion E; subst; cbn; auto|].
    destruct (has b Start); [discriminate|]. destruct (has b Dc || has b Ds); [discriminate|].
    destruct (region_index (b_marks b)) as [[]|] eqn:R; inversion E; subst; cbn; auto. split; [exists VI1; auto|lia].
  - cbn in S. destruct (has b End); [discriminate|]. destruct (region_index (b_marks b)) as [i|] eqn:R.
    + destruct (has b Dc || has b Ds); [discriminate|]. cbv zeta in E.
      assert (A : as_u8 (Z.of_nat (length starts)) = Z.of_nat (length starts)) by (unfold as_u8; rewrite Z.mod_small; lia).
      rewrite A in E. destruct (Z.eqb_spec (var_value i) (Z.of_nat (length starts))) as [Q|Q].
      * inversion E; subst. cbn. split; [exists i; auto|lia].
      * unfold chk_u8 in E. rewrite (chk_ret 0 255) in E by lia. cbn [bind] in E.
        destruct (Z.eqb_spec (var_value i) (Z.of_nat (length starts) + 1)) as [Q'|Q'].
        -- inversion E; subst. cbn. rewrite app_length. cbn [length]. split; [exists i; split; auto; lia|].
           destruct i; cbn in Q'; lia.
        -- apply bind_ret in E as (x & _ & E). discriminate.
    + apply bind_ret in E as (x & _ & E). apply bind_ret in E as (y & _ & E).
      destruct (match sg with Some _ => _ | None => _ end); [discriminate|]. apply bind_ret in E as (z & _ & E).
      inversion E; subst. destruct (has b Start); cbn; auto.
Qed.

(** ** A line that cuts does nothing to the state *)
Definition blind (x : option bar) (st : rr_state) : Prop :=
  small_state st /\
  match x with
  | None => st = SIdle
  | Some x => tells x st /\ (compatible x -> (exists i, region_index (b_marks x) = Some i) -> (exists s, st = SSeq s) \/ exists s l, st = SVariation s l)
  end.

Lemma region_var b i : region_index (b_marks b) = Some i -> is_var (var_to_mark i) = true /\ has b (var_to_mark i) = true.
Proof.
  unfold region_index, has. destruct (ms_contains (b_marks b) Var1) eqn:E1; [intros H; inversion H; subst; auto|].
  destruct (ms_contains (b_marks b) Var2) eqn:E2; [intros H; inversion H; subst; auto|].
  destruct (ms_contains (b_marks b) Var3) eqn:E3; [intros H; inversion H; subst; auto|].
  destruct (ms_contains (b_marks b) Var4) eqn:E4; [intros H; inversion H; subst; auto|discriminate].
Qed.
Lemma no_var_region b : no_var b -> region_index (b_marks b) = None.
Proof.
  intros N. destruct (region_index (b_marks b)) as [i|] eqn:E; auto. apply region_var in E as [A B]. rewrite (N _ A) in B. discriminate.
Qed.

Lemma step_blind sg b x st st' new : blind x st -> rr_step sg b st = Ret (Ok (st', new)) -> blind (Some b) st'.
Proof.
  intros [S _] E. destruct (step_tells _ _ _ _ _ S E) as [T S']. split; [exact S'|]. cbn. split; [exact T|].
  intros C [i I]. destruct (region_var _ _ I) as [V H].
  assert (NS : has b Start = false).
  { destruct (has b Start) eqn:X; auto. specialize (C _ _ V H X). destruct i; discriminate. }
  assert (NE : has b End = false).
  { destruct (has b End) eqn:X; auto. specialize (C _ _ V H X). destruct i; discriminate. }
  unfold rr_step in E. rewrite NS, NE, I in E. destruct st as [|s|s|s starts]; cbn [andb] in E.
  - destruct i; inversion E; subst; eauto.
  - inversion E; subst; eauto.
  - destruct (has b Dc || has b Ds); [discriminate|]. destruct i; inversion E; subst; eauto.
  - destruct (has b Dc || has b Ds); [discriminate|]. cbv zeta in E. destruct (var_value i =? as_u8 (Z.of_nat (length starts))).
    + inversion E; subst; eauto.
    + apply bind_ret in E as (n & _ & E). destruct (var_value i =? n); [inversion E; subst; eauto|].
      apply bind_ret in E as (y & _ & E). discriminate.
Qed.

Lemma loop_blind l : forall g x st regs g' st' regs', blind x st -> rr_loop g st regs l = Ret (Ok (g', st', regs')) ->
  blind (match rev l with [] => x | y :: _ => Some y end) st'.
Proof.
  induction l as [|b l IH]; intros g x st regs g' st' regs' B E; cbn [rr_loop] in E.
  - apply ret_inj in E. inversion E; subst. exact B.
  - destruct (on_bar b g) as [g1|]; [|discriminate]. apply bind_ret in E as ([[st1 new]|e] & S & E); [|discriminate].
    pose proof (IH _ (Some b) _ _ _ _ _ (step_blind _ _ _ _ _ _ B S) E) as H. cbn [rev].
    destruct (rev l) as [|y r]; cbn [app]; exact H.
Qed.

Lemma only_region k b : 1 <= k <= 4 -> (forall m, is_var m = true -> has b m = (mark_bit m =? 6 + k)) ->
  exists i, region_index (b_marks b) = Some i /\ var_value i = k.
Proof.
  intros K H. unfold region_index. fold (has b Var1) (has b Var2) (has b Var3) (has b Var4).
  rewrite (H Var1), (H Var2), (H Var3), (H Var4) by reflexivity. cbn [mark_bit].
  destruct (Z.eqb_spec 7 (6 + k)); [exists VI1; split; auto; cbn; lia|].
  destruct (Z.eqb_spec 8 (6 + k)); [exists VI2; split; auto; cbn; lia|].
  destruct (Z.eqb_spec 9 (6 + k)); [exists VI3; split; auto; cbn; lia|].
  destruct (Z.eqb_spec 10 (6 + k)); [exists VI4; split; auto; cbn; lia|]. lia.
Qed.

Lemma cut_step l b st sg : cuts l b -> blind (match rev l with [] => None | y :: _ => Some y end) st ->
  rr_step sg b st = Ret (Ok (st, [])).
Proof.
  intros C [S B]. unfold cuts in C.
  assert (U : unmarked b -> (forall s starts, st <> SVariation s starts) -> rr_step sg b st = Ret (Ok (st, []))).
  { intros U N. assert (R : region_index (b_marks b) = None) by (apply no_var_region; intros m _; apply U).
    unfold rr_step. rewrite !U, R. cbn. destruct st; auto. destruct (N start starts eq_refl). }
  destruct (rev l) as [|x r].
  { subst st. apply U; auto. intros; discriminate. }
  destruct B as [T V]. destruct C as [[N C]|(k & K & Cx & Co & C)].
  - apply U; auto. intros s starts ->. cbn in T. destruct T as (i & I & _). rewrite (no_var_region _ N) in I. discriminate.
  - destruct (only_region k x K Cx) as (i & Ix & Vi). destruct (only_region k b K ltac:(intros m _; apply C)) as (j & Ij & Vj).
    assert (NS : has b Start = false) by (rewrite C; apply Z.eqb_neq; cbn [mark_bit]; lia).
    assert (NE : has b End = false) by (rewrite C; apply Z.eqb_neq; cbn [mark_bit]; lia).
    assert (ND : has b Dc = false) by (rewrite C; apply Z.eqb_neq; cbn [mark_bit]; lia).
    assert (ND' : has b Ds = false) by (rewrite C; apply Z.eqb_neq; cbn [mark_bit]; lia).
    destruct (V Co (ex_intro _ i Ix)) as [[s ->]|(s & starts & ->)]; unfold rr_step; rewrite NS, NE, ?ND, ?ND'; cbn [andb orb].
    + reflexivity.
    + cbn in T, S. destruct T as (i' & I' & L). rewrite Ix in I'. inversion I'; subst i'.
      rewrite Ij. cbv zeta. assert (A : as_u8 (Z.of_nat (length starts)) = Z.of_nat (length starts)) by (unfold as_u8; rewrite Z.mod_small; lia).
      rewrite A. rewrite (proj2 (Z.eqb_eq _ _)) by lia. reflexivity.
Qed.

(** ** and, but for the length of the first bar, nothing to the builder *)
Lemma cut_marks l b : cuts l b -> has b Dc = false /\ has b Ds = false /\ has b Fine = false /\ has b Segno = false /\ has b Coda = false.
Proof.
  unfold cuts. assert (U : unmarked b -> has b Dc = false /\ has b Ds = false /\ has b Fine = false /\ has b Segno = false /\ has b Coda = false).
  { intros U. rewrite !U. auto. }
  destruct (rev l); [exact U|]. intros [[_ X]|(k & K & _ & _ & C)]; [auto|].
  rewrite !C. cbn [mark_bit]. repeat split; apply Z.eqb_neq; lia.
Qed.
Lemma cut_bar l b g : cuts l b -> on_bar b g = Ok (on_bar_length b g).
Proof. intros C. destruct (cut_marks _ _ C) as (A & B & D & E & F). unfold on_bar. rewrite A, B, D, E, F. reflexivity. Qed.

(** two builders that differ at most in the length of the first bar and the first rhythm *)
Definition alike (g g' : gr_builder) : Prop :=
  gb_ds_dc g = gb_ds_dc g' /\ gb_fine g = gb_fine g' /\ gb_segno g = gb_segno g' /\ gb_coda g = gb_coda g'.
Lemma length_alike b g : alike (on_bar_length b g) g.
Proof. unfold on_bar_length. destruct (gb_first_bar_len g); [|destruct (b_tick b =? 0); [destruct (b_rhythm b)|]]; repeat split. Qed.
Lemma on_bar_alike b g g' : has b Dc = false -> alike g g' ->
  match on_bar b g, on_bar b g' with Ok x, Ok y => alike x y | Err x, Err y => x = y | _, _ => False end.
Proof.
  intros D A. unfold on_bar. rewrite D.
  assert (A' : alike (on_bar_length b g) (on_bar_length b g')).
  { destruct A as (A1 & A2 & A3 & A4), (length_alike b g) as (B1 & B2 & B3 & B4), (length_alike b g') as (C1 & C2 & C3 & C4).
    repeat split; congruence. }
  remember (on_bar_length b g) as h. remember (on_bar_length b g') as h'. clear - A'.
  destruct h as [j f s c l r], h' as [j' f' s' c' l' r']. unfold alike in A'.
  cbn [gb_ds_dc gb_fine gb_segno gb_coda gb_first_bar_len gb_top_rhythm] in A'. destruct A' as (<- & <- & <- & <-).
  destruct (has b Ds), (has b Fine), (has b Segno), (has b Coda), j as [j|], f as [f|], s as [s|], c as [[c|c d]|]; cbn; unfold alike; cbn; auto 10.
Qed.
Lemma loop_alike bars : forall g g' st regs, marked Dc bars = [] -> alike g g' ->
  match rr_loop g st regs bars, rr_loop g' st regs bars with
  | Ret (Ok (x, s, q)), Ret (Ok (y, s', q')) => alike x y /\ s = s' /\ q = q'
  | Ret (Err x), Ret (Err y) => x = y
  | Panic, Panic => True | Hang, Hang => True
  | _, _ => False
  end.
Proof.
  induction bars as [|b bars IH]; intros g g' st regs M H; cbn [rr_loop]; [auto|].
  unfold marked in M. cbn [filter] in M. destruct (has b Dc) eqn:D; [discriminate|].
  pose proof (on_bar_alike b g g' D H) as K. destruct (on_bar b g) as [x|], (on_bar b g') as [y|]; try contradiction; [|exact K].
  replace (gb_segno y) with (gb_segno x) by apply K.
  destruct (rr_step (gb_segno x) b st) as [[[st' new]|e]| |]; cbn [bind]; auto. apply IH; auto.
Qed.
Lemma build_alike g g' : (forall t x, gb_ds_dc g <> Some (JDc t x)) -> alike g g' -> gb_build g = gb_build g'.
Proof.
  intros D (A & B & C & E). unfold gb_build. rewrite <- A. destruct (gb_ds_dc g) as [[t y|t]|]; auto; [destruct (D t y eq_refl)|].
  rewrite B, C, E. reflexivity.
Qed.

Lemma marked_app m a b : marked m (a ++ b) = marked m a ++ marked m b.
Proof. unfold marked. rewrite filter_app, map_app. reflexivity. Qed.

Lemma render_cut r l1 b l2 : cuts l1 b -> marked Dc (l1 ++ l2) = [] \/ (exists x, In x l1 /\ b_tick x <> 0) ->
  render_region r (l1 ++ b :: l2) = render_region r (l1 ++ l2).
Proof.
  intros C D. unfold render_region. rewrite !rr_loop_app.
  destruct (rr_loop (gb_new r) SIdle [] l1) as [[[[g st] regs]|e]| |] eqn:L; cbn [bind]; auto.
  assert (B : blind (match rev l1 with [] => None | y :: _ => Some y end) st).
  { refine (loop_blind l1 _ None _ _ _ _ _ _ L). split; cbn; auto. }
  cbn [rr_loop]. rewrite (cut_bar l1 b g C), (cut_step l1 b st _ C B). cbn [bind]. rewrite app_nil_r.
  destruct D as [D|(x & I & N)].
  - rewrite marked_app in D. apply app_eq_nil in D as [D1 D2].
    pose proof (loop_alike l2 _ _ st regs D2 (length_alike b g)) as H.
    pose proof (loop_dc l1 _ _ _ _ _ _ L D1 ltac:(cbn; discriminate)) as J.
    pose proof (loop_dc l2 (on_bar_length b g) st regs) as J2.
    destruct (rr_loop (on_bar_length b g) st regs l2) as [[[[g2 st2] regs2]|e2]| |], (rr_loop g st regs l2) as [[[[g3 st3] regs3]|e3]| |];
      try contradiction; cbn [bind]; auto; [|now rewrite H].
    destruct H as (A & <- & <-). unfold rr_finish. rewrite (build_alike g2 g3); auto.
    apply (J2 _ _ _ eq_refl D2). destruct (length_alike b g) as [-> _]. exact J.
  - assert (F : gb_first_bar_len g <> None).
    { rewrite (loop_first l1 _ _ _ _ _ _ L). cbn. unfold first_bar_len. clear - I N. induction l1 as [|y l IH]; [destruct I|].
      cbn [map filter]. destruct (Z.eqb_spec (b_tick y) 0) as [Q|Q]; cbn [negb]; [|discriminate]. destruct I as [->|I]; [congruence|auto]. }
    assert (on_bar_length b g = g) as ->; [|reflexivity]. unfold on_bar_length. destruct (gb_first_bar_len g); congruence.
Qed.
