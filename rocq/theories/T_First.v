(** Property theorems about which error is reported if there are several: C45. *)
From Coq Require Import ZArith List Bool Lia.
From Coq Require Import Sorting.Sorted.
From Verif Require Import Base M_Duration M_Scalar M_Bar M_Store M_Repeat S_Note S_Repeat P_Base P_Note P_Machine P_Errors P_Chunk.
From Verif Require T_Repeat T_Score.
Import ListNotations.
Open Scope Z_scope.

Lemma on_bar_found b g e : on_bar b g = Err e -> found_at e = Some (b_tick b).
Proof.
  unfold on_bar, and_then. generalize (on_bar_length b g). clear g. intros g.
  assert (D : forall j g, ds_dc_tick j = b_tick b -> forall e, adding_ds_dc j g = Err e -> found_at e = Some (b_tick b)).
  { intros j h J x. unfold adding_ds_dc. destruct (gb_ds_dc h); intros H; inversion H; subst. cbn. now rewrite J. }
  assert (F : forall g e, adding_fine (b_tick b) g = Err e -> found_at e = Some (b_tick b)).
  { intros h x. unfold adding_fine. destruct (gb_fine h); intros H; inversion H; subst; reflexivity. }
  assert (S : forall g e, adding_segno (b_tick b) g = Err e -> found_at e = Some (b_tick b)).
  { intros h x. unfold adding_segno. destruct (gb_segno h); intros H; inversion H; subst; reflexivity. }
  assert (C : forall g e, adding_coda (b_tick b) g = Err e -> found_at e = Some (b_tick b)).
  { intros h x. unfold adding_coda. destruct (gb_coda h) as [[]|]; intros H; inversion H; subst; reflexivity. }
  cbv zeta.
  match goal with |- match ?x with Ok _ => _ | Err _ => _ end = _ -> _ => destruct x as [g1|e1] eqn:E1 end.
  2:{ intros H. injection H as <-. destruct (has b Dc); [eapply D; [|exact E1]; reflexivity|discriminate]. }
  match goal with |- match ?x with Ok _ => _ | Err _ => _ end = _ -> _ => destruct x as [g2|e2] eqn:E2 end.
  2:{ intros H. injection H as <-. destruct (has b Ds); [eapply D; [|exact E2]; reflexivity|discriminate]. }
  match goal with |- match ?x with Ok _ => _ | Err _ => _ end = _ -> _ => destruct x as [g3|e3] eqn:E3 end.
  2:{ intros H. injection H as <-. destruct (has b Fine); [eapply F; exact E3|discriminate]. }
  match goal with |- match ?x with Ok _ => _ | Err _ => _ end = _ -> _ => destruct x as [g4|e4] eqn:E4 end.
  2:{ intros H. injection H as <-. destruct (has b Segno); [eapply S; exact E4|discriminate]. }
  destruct (has b Coda); [apply C|discriminate].
Qed.

Lemma rr_step_found s b st e : rr_step s b st = Ret (Err e) -> found_at e = Some (b_tick b).
Proof.
  unfold rr_step. destruct st as [|s0|s0|s0 starts]; cbv zeta.
  - destruct (has b Start && has b End); [discriminate|]. destruct (has b End); [discriminate|]. destruct (has b Start); [discriminate|].
    destruct (region_index (b_marks b)) as [[]|]; intros H; inversion H; reflexivity.
  - destruct (has b End); [intros H; inversion H; reflexivity|]. destruct (has b Start); discriminate.
  - destruct (has b Start && has b End); [discriminate|]. destruct (has b End); [discriminate|].
    destruct (has b Start); [intros H; inversion H; reflexivity|].
    destruct (has b Dc || has b Ds); [intros H; inversion H; reflexivity|].
    destruct (region_index (b_marks b)) as [[]|]; intros H; inversion H; reflexivity.
  - destruct (has b End); [intros H; inversion H; reflexivity|]. destruct (region_index (b_marks b)) as [ri|].
    + destruct (has b Dc || has b Ds); [intros H; inversion H; reflexivity|].
      destruct (_ =? _); [discriminate|]. intros H. apply bind_ret in H as (next & _ & H).
      destruct (_ =? _); [discriminate|]. apply bind_ret in H as (x & _ & H). inversion H; reflexivity.
    + intros H. apply bind_ret in H as (f & _ & H). apply bind_ret in H as (l & _ & H).
      match type of H with (if ?c then _ else _) = _ => destruct c end; [inversion H; reflexivity|].
      apply bind_ret in H as (x & _ & H). discriminate.
Qed.

Lemma loop_found bars : forall g st regs e, rr_loop g st regs bars = Ret (Err e) ->
  exists a b c s, bars = a ++ b :: c /\ found_at e = Some (b_tick b) /\ rr_loop g st regs a = Ret (Ok s) /\
    forall c', rr_loop g st regs (a ++ b :: c') = Ret (Err e).
Proof.
  induction bars as [|b bars IH]; intros g st regs e H; cbn [rr_loop] in H; [discriminate|].
  destruct (on_bar b g) as [g'|x] eqn:E.
  - apply bind_ret in H as ([[st' new]|x] & E1 & H).
    + destruct (IH _ _ _ _ H) as (a & b0 & c & s & -> & F & R & G). exists (b :: a), b0, c, s. split; [reflexivity|]. split; [exact F|].
      cbn [app rr_loop]. rewrite E, E1. cbn [bind]. split; [exact R|exact G].
    + apply ret_inj in H. injection H as <-. exists [], b, bars, (g, st, regs). split; [reflexivity|].
      split; [eapply rr_step_found; exact E1|]. split; [reflexivity|]. intros c'. cbn [app rr_loop]. rewrite E, E1. reflexivity.
  - apply ret_inj in H. injection H as <-. exists [], b, bars, (g, st, regs). split; [reflexivity|].
    split; [eapply on_bar_found; exact E|]. split; [reflexivity|]. intros c'. cbn [app rr_loop]. rewrite E. reflexivity.
Qed.

Lemma build_late g e : gb_build g = Ret (Err e) -> found_at e = None.
Proof.
  assert (C : forall (B : Type) a b f (k : unit -> result B rr_error) x, and_then (check_coda_pos a b f) k = Err x -> (forall u, k u <> Err x) -> found_at x = None).
  { intros B a b f k x. unfold check_coda_pos. destruct f as [f|]; [destruct (f <? b)|]; cbn [and_then]; intros H N; [injection H as <-; reflexivity| |]; exfalso; eapply N; exact H. }
  unfold gb_build. destruct (gb_ds_dc g) as [[tick len|tick]|]; [| |discriminate].
  - destruct (gb_first_bar_len g) as [fl|]; [|discriminate]. intros H. apply bind_ret in H as ([sg w] & _ & H).
    destruct (gb_coda g) as [[t|from to]|].
    + apply bind_ret in H as (s & _ & H). discriminate.
    + destruct (and_then _ _) as [[c w']|x] eqn:E; [apply bind_ret in H as (s & _ & H); discriminate|].
      injection H as <-. eapply C; [exact E|]. discriminate.
    + apply bind_ret in H as (s & _ & H). discriminate.
  - destruct (gb_segno g) as [sg|]; [|intros H; injection H as <-; reflexivity]. intros H.
    destruct (gb_coda g) as [[t|from to]|].
    + injection H as <-. reflexivity.
    + destruct (and_then _ _) as [c|x] eqn:E; [apply bind_ret in H as (s & _ & H); discriminate|].
      injection H as <-. eapply C; [exact E|]. discriminate.
    + apply bind_ret in H as (s & _ & H). discriminate.
Qed.

Lemma finish_late g st regs e : rr_finish g st regs = Ret (Err e) -> found_at e = None.
Proof.
  assert (F : forall s, (let! r := gb_build g in Ret (match r with Ok (gr, w) => Ok (mkCompound gr (regs ++ [RSeq (s, u32_max)]), w) | Err x => Err x end))
    = Ret (Err e) -> found_at e = None).
  { intros s H. apply bind_ret in H as ([[gr w]|x] & E & H); apply ret_inj in H; [discriminate|]. injection H as <-. eapply build_late; exact E. }
  unfold rr_finish. destruct st; cbv zeta; try apply F.
  - intros H. injection H as <-. reflexivity.
  - intros H. apply bind_ret in H as (x & _ & H). injection H as <-. reflexivity.
Qed.

Lemma prefix_ok a1 : forall a2 g st regs s, rr_loop g st regs (a1 ++ a2) = Ret (Ok s) -> exists s1, rr_loop g st regs a1 = Ret (Ok s1).
Proof.
  intros a2 g st regs s H. rewrite T_Score.rr_loop_app in H. apply bind_ret in H as ([s1|e] & E & H); [eauto|discriminate].
Qed.

(** * C45 *)

(** Of several errors the first is reported: nothing that comes later changes it, and
    of the bars before it no part is wrong in itself (it may at most end too early). *)
Theorem C45_first : forall r bars e t, render_region r bars = Ret (Err e) -> found_at e = Some t ->
  exists a b c, bars = a ++ b :: c /\ b_tick b = t /\
    (forall c', render_region r (a ++ b :: c') = Ret (Err e)) /\
    (forall a1 a2 e', a = a1 ++ a2 -> render_region r a1 = Ret (Err e') -> found_at e' = None).
Proof.
  intros r bars e t H F. unfold render_region in *. apply bind_ret in H as ([[[g st] regs]|x] & E & H).
  - apply finish_late in H. congruence.
  - apply ret_inj in H. injection H as ->. destruct (loop_found _ _ _ _ _ E) as (a & b & c & s & -> & K & R & G).
    exists a, b, c. split; [reflexivity|]. split; [congruence|]. split.
    + intros c'. rewrite G. reflexivity.
    + intros a1 a2 e' -> H1. destruct (prefix_ok a1 a2 _ _ _ _ R) as [[[g1 st1] regs1] E1]. rewrite E1 in H1. cbn [bind] in H1.
      eapply finish_late; exact H1.
Qed.
Print Assumptions C45_first.


(** The errors of the end are reported only if the bars can be read through: first a
    repeat or variation that is still open, and only if there is none, with at most one
    mark of each kind, what is wrong with the jump. *)
Theorem C45_last : forall r bars e, tune bars -> Forall compatible bars ->
  render_region r bars = Ret (Err e) -> found_at e = None ->
  (forall a c e', bars = a ++ c -> render_region r a = Ret (Err e') -> found_at e' = None) /\
  match e with
  | NoRepeatEnd s => open_repeat bars s
  | VariationNotClosed t => exists k t1, open_variation bars k t1 t
  | _ => (idle bars \/ exists s, closed bars s) /\ counts_ok bars
  end.
Proof.
  intros r bars e T F E N. split.
  - intros a c e' -> H. unfold render_region in *. apply bind_ret in E as ([s|x] & L & E).
    + destruct (prefix_ok a c _ _ _ _ L) as [[[g1 st1] regs1] E1]. rewrite E1 in H. cbn [bind] in H. eapply finish_late; exact H.
    + apply ret_inj in E. injection E as ->. destruct (loop_found _ _ _ _ _ L) as (? & ? & ? & ? & _ & X & _). congruence.
  - pose proof (render_error r bars e T F E) as R. unfold render_region in E. rewrite <- builder_nil in E.
    apply bind_ret in E as ([[[g st] regs]|x] & L & E).
    + destruct (loop_known r bars [] SIdle [] g st regs T F counts_nil I (Forall_nil _) L) as [W [K [-> C]]]. cbn [app] in *.
      destruct st as [|s|s|s l].
      * destruct e; try discriminate N; try exact R; (split; [left; exact K|exact C]).
      * destruct e; try discriminate N; try exact R; (split; [right; exists s; exact K|exact C]).
      * cbn [rr_finish] in E. apply ret_inj in E. injection E as <-. exact R.
      * cbn [rr_finish] in E. apply bind_ret in E as (t & _ & E). apply ret_inj in E. injection E as <-. exact R.
    + apply ret_inj in E. injection E as ->. destruct (loop_found _ _ _ _ _ L) as (? & ? & ? & ? & _ & X & _). congruence.
Qed.
Print Assumptions C45_last.

(** An open repeat, two Segno and D.S. without a second coda: the second Segno is
    reported; without it the open repeat; when this is closed, the missing coda. *)
Example C45_first_case : let b := T_Repeat.bar_at in
  render_region T_Repeat.four_four [b 480 [Segno]; b 960 [Start]; b 1440 [Segno]; b 1920 [Start]] = Ret (Err (DuplicatedSegno 480 1440)) /\
  render_region T_Repeat.four_four [b 480 [Segno]; b 720 [Coda]; b 800 [Ds]; b 960 [Start]] = Ret (Err (NoRepeatEnd 960)) /\
  render_region T_Repeat.four_four [b 480 [Segno]; b 720 [Coda]; b 800 [Ds]; b 960 [Start]; b 1920 [End]] = Ret (Err (OnlyOneCoda 720)) /\
  found_at (DuplicatedSegno 480 1440) = Some 1440 /\ found_at (OnlyOneCoda 720) = None /\
  (let bars := [b 480 [Segno]; b 720 [Coda]; b 800 [Ds]; b 960 [Start]; b 1920 [End]] in tune bars /\ Forall compatible bars).
Proof.
  cbv zeta. split; [vm_compute; reflexivity|]. split; [vm_compute; reflexivity|]. split; [vm_compute; reflexivity|]. split; [reflexivity|]. split; [reflexivity|].
  split; [T_Repeat.tune_tac|T_Repeat.compat_tac].
Qed.

(** The hypothesis [tune] excludes one tick a bar can have: u32::MAX.  A repeat that ends
    there is played twice, but both passes count as "to the end of time": the table of
    start positions keeps neither, and no tick of the tune is found, though every one is
    played twice. *)
Theorem C47_last_tick_refuted : exists r bars c w cs tab,
  StronglySorted Z.lt (map b_tick bars) /\ Forall (fun b => 0 <= b_tick b <= u32_max) bars /\ Forall compatible bars /\
  render_region r bars = Ret (Ok (c, w)) /\ to_chunks c = Ret cs /\ ~ open_only_last cs /\
  by_accum_tick cs = Ret tab /\ to_accum_tick (play_start_new 0 2) tab = Ret (Err (CannotFind 2 0)) /\
  nth_time 0 2 (performance cs) u32_max.
Proof.
  exists T_Repeat.four_four, [T_Repeat.bar_at u32_max [End]].
  eexists. eexists. exists [mkChunk 0 u32_max; mkChunk 0 u32_max; mkChunk u32_max u32_max].
  exists [(0, mkChunk u32_max u32_max)].
  split; [repeat (apply SSorted_cons; [|T_Repeat.each ltac:(cbn; unfold u32_max; lia)]); apply SSorted_nil|].
  split; [T_Repeat.each ltac:(cbn; unfold u32_max; lia)|].
  split; [T_Repeat.compat_tac|].
  split; [vm_compute; reflexivity|].
  split; [vm_compute; reflexivity|].
  split.
  { intros O. apply ends_last_iff in O. cbn in O. unfold u32_max in O. lia. }
  split; [vm_compute; reflexivity|].
  split; [vm_compute; reflexivity|].
  assert (E : from_to 0 u32_max = 0 :: from_to 1 u32_max) by (apply from_to_cons; unfold u32_max; lia).
  exists (from_to 0 u32_max), (from_to 1 u32_max).
  rewrite !perf_cons. cbn [ck_start ck_end]. change (performance []) with (@nil Z).
  rewrite (from_to_nil u32_max u32_max) by lia. rewrite !app_nil_r.
  split; [exact (f_equal (app (from_to 0 u32_max)) E)|]. split; [rewrite from_to_length; unfold u32_max; lia|].
  rewrite E. unfold times. cbn [filter]. rewrite Z.eqb_refl. cbn [length].
  pose proof (times_zero 0 (from_to 1 u32_max)) as Z0. unfold times in Z0. rewrite from_to_In in Z0. lia.
Qed.
Print Assumptions C47_last_tick_refuted.
