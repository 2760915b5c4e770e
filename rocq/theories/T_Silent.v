(** Property theorems about the signs a jump looks at: C84. *)
From Coq Require Import ZArith List Bool Lia Sorted.
From Verif Require Import Base M_Duration M_Scalar M_Bar M_Repeat S_Note S_Repeat S_Silent P_Base P_Chunk P_Machine P_Errors P_Order P_Jump P_Marks.
From Verif Require T_Repeat.
Import ListNotations.
Open Scope Z_scope.

(** ** Scores of the same shape *)
Definition shape_sign (m : mark) : bool := match m with Start | End | Var1 | Var2 | Var3 | Var4 => true | _ => false end.
Definition shaped (b b' : bar) : Prop :=
  b_tick b' = b_tick b /\ b_rhythm b' = b_rhythm b /\ (forall m, shape_sign m = true -> has b' m = has b m) /\
  has b' Dc || has b' Ds = has b Dc || has b Ds.

Lemma step_shaped sg sg' b b' st x : shaped b b' -> sg' = None \/ sg' = sg -> rr_step sg b st = Ret (Ok x) -> rr_step sg' b' st = Ret (Ok x).
Proof.
  intros (T & _ & H & J) S E.
  assert (R : region_index (b_marks b') = region_index (b_marks b)).
  { unfold region_index. change (ms_contains (b_marks b')) with (has b'). rewrite !H by reflexivity. reflexivity. }
  unfold rr_step in *. rewrite T, R, J, !(H Start eq_refl), !(H End eq_refl).
  destruct S as [->| ->]; [|exact E]. destruct st as [|s|s|s l]; try exact E.
  destruct (has b End); [exact E|]. destruct (region_index (b_marks b)); [exact E|].
  destruct (index l 0) as [f| |]; try discriminate. cbn [bind] in *. destruct (unwrap_opt _) as [f'| |]; try discriminate. cbn [bind] in *.
  destruct (match sg with Some g => _ | None => _ end); [discriminate|exact E].
Qed.
Lemma run_shaped sg sg' bars bars' : Forall2 shaped bars bars' -> sg' = None \/ sg' = sg ->
  forall st x, st_run sg st bars = Ret (Ok x) -> st_run sg' st bars' = Ret (Ok x).
Proof.
  intros F S. induction F as [|b b' bars bars' B F IH]; intros st x E; cbn [st_run] in *; [exact E|].
  destruct (rr_step sg b st) as [[[st' new]|e]| |] eqn:SE; try discriminate. rewrite (step_shaped sg sg' b b' st _ B S SE). cbn [bind] in *.
  destruct (st_run sg st' bars) as [[[st'' new']|e]| |] eqn:RE; try discriminate. rewrite (IH _ _ RE). exact E.
Qed.

Lemma shaped_ticks l l' : Forall2 shaped l l' -> map b_tick l' = map b_tick l.
Proof. induction 1 as [|x x' l l' (E & _) _ IH]; [reflexivity|]. cbn [map]. rewrite E, IH. reflexivity. Qed.
Lemma shaped_tune l l' : Forall2 shaped l l' -> tune l -> tune l'.
Proof.
  intros H [S F]. pose proof (shaped_ticks l l' H) as T. split; [rewrite T; exact S|].
  assert (E : Forall (fun t => 0 <= t < u32_max) (map b_tick l)) by (apply Forall_map; exact F).
  rewrite <- T in E. apply Forall_map in E. exact E.
Qed.
Lemma shaped_top l l' r : Forall2 shaped l l' -> top_rhythm r l' = top_rhythm r l.
Proof. intros [|x x' l0 l0' (E & R & _) _]; [reflexivity|]. cbn. rewrite E, R. reflexivity. Qed.
Lemma shaped_full l l' r : Forall2 shaped l l' -> full_bar r l' = full_bar r l.
Proof. intros H. unfold full_bar. rewrite (shaped_top l l' r H). reflexivity. Qed.
Lemma shaped_first l l' : Forall2 shaped l l' -> first_bar_len l' = first_bar_len l.
Proof. intros H. unfold first_bar_len. rewrite (shaped_ticks l l' H). reflexivity. Qed.

Lemma finish_regions g st regs x : rr_finish g st regs = Ret (Ok x) -> gb_build g = Ret (Ok (cp_global (fst x), snd x)) /\
  forall g' gr w', gb_build g' = Ret (Ok (gr, w')) -> rr_finish g' st regs = Ret (Ok (mkCompound gr (cp_regions (fst x)), w')).
Proof.
  intros E. destruct (finish_closing _ _ _ _ E) as (s & gr & w & CL & B & ->). cbn [fst snd cp_global cp_regions]. split; [exact B|].
  intros g' gr' w' B'. unfold rr_finish. rewrite B'. destruct st; cbn in CL; inv CL; reflexivity.
Qed.

Lemma accepted_counts r bars c w : tune bars -> render_region r bars = Ret (Ok (c, w)) -> counts_ok bars.
Proof.
  intros T E. unfold render_region in E. destruct (rr_loop (gb_new r) SIdle [] bars) as [[[[g st] regs]|]| |] eqn:R; try discriminate.
  apply (loop_counts r bars [] SIdle [] (g, st, regs)); [exact T| |exact R]. unfold counts_ok. cbn. lia.
Qed.

(** Of an accepted score, all scores of the same shape have the same sections. *)
Lemma render_shaped r bars bars' c w : tune bars -> render_region r bars = Ret (Ok (c, w)) -> Forall2 shaped bars bars' ->
  counts_ok bars' -> marked Segno bars' = [] \/ marked Segno bars' = marked Segno bars ->
  gb_build (builder_of r bars) = Ret (Ok (cp_global c, w)) /\
  forall gr w', gb_build (builder_of r bars') = Ret (Ok (gr, w')) -> render_region r bars' = Ret (Ok (mkCompound gr (cp_regions c), w')).
Proof.
  intros T E F C' S. pose proof (accepted_counts r bars c w T E) as C. unfold render_region in *.
  assert (W : st_wf SIdle) by exact Logic.I.
  assert (N : forall (l : list bar) x, In x (starts SIdle) -> exists b, In b (@nil bar) /\ b_tick b = x) by (intros l x []).
  change (gb_new r) with (builder_of r []) in *.
  rewrite (loop_ok r bars [] SIdle [] T C W (N bars)) in E. rewrite (loop_ok r bars' [] SIdle [] (shaped_tune _ _ F T) C' W (N bars')).
  cbn [app] in *. destruct (st_run (hd_error (marked Segno bars)) SIdle bars) as [[[st new]|e]| |] eqn:R; try discriminate.
  assert (SG : hd_error (marked Segno bars') = None \/ hd_error (marked Segno bars') = hd_error (marked Segno bars)) by (destruct S as [->| ->]; auto).
  rewrite (run_shaped _ _ bars bars' F SG _ _ R). cbn [bind] in *.
  destruct (finish_regions _ _ _ _ E) as [A B]. cbn [fst snd] in *. split; [exact A|]. intros gr w' G. exact (B _ _ _ G).
Qed.

(** ** Signs of changed bars *)
Lemma marked_like (P : bar -> bar -> Prop) k k' bars bars' : Forall2 P bars bars' ->
  (forall b b', P b b' -> b_tick b' = b_tick b /\ has b' k' = has b k) -> marked k' bars' = marked k bars.
Proof.
  intros F H. unfold marked. induction F as [|x x' l l' X F IH]; [reflexivity|]. cbn [filter]. destruct (H _ _ X) as [T ->].
  destruct (has x k); cbn [map]; rewrite ?T, IH; reflexivity.
Qed.
Lemma marked_nowhere (P : bar -> bar -> Prop) k bars bars' : Forall2 P bars bars' -> (forall b b', P b b' -> has b' k = false) -> marked k bars' = [].
Proof. intros F H. unfold marked. induction F as [|x x' l l' X F IH]; [reflexivity|]. cbn [filter]. rewrite (H _ _ X). exact IH. Qed.
Lemma marked_less (P : bar -> bar -> Prop) k bars bars' : Forall2 P bars bars' -> (forall b b', P b b' -> has b' k = true -> has b k = true) ->
  (length (marked k bars') <= length (marked k bars))%nat.
Proof.
  intros F H. unfold marked. induction F as [|x x' l l' X F IH]; [reflexivity|]. cbn [filter]. specialize (H _ _ X).
  destruct (has x' k); [rewrite (H eq_refl); cbn; lia|]. destruct (has x k); cbn; lia.
Qed.
Lemma shape_all (P : bar -> bar -> Prop) bars bars' : (forall b b', P b b' -> shaped b b') -> Forall2 P bars bars' -> Forall2 shaped bars bars'.
Proof. intros H F. induction F; constructor; auto. Qed.

Lemma fewer_shaped b b' : fewer_goals b b' -> shaped b b'.
Proof.
  intros (T & R & H). split; [exact T|]. split; [exact R|]. split.
  - intros m M. apply H. destruct m; try discriminate; reflexivity.
  - rewrite (proj1 (H Dc) eq_refl), (proj1 (H Ds) eq_refl). reflexivity.
Qed.
Lemma fewer_counts bars bars' : Forall2 fewer_goals bars bars' -> counts_ok bars -> counts_ok bars'.
Proof.
  intros F. unfold counts_ok.
  pose proof (fun k => marked_less _ k _ _ F (fun b b' H => proj2 (proj2 (proj2 H) k))) as L.
  pose proof (L Segno). pose proof (L Fine). pose proof (L Coda). pose proof (L Dc). pose proof (L Ds). lia.
Qed.

(** Segno marks of a score with at most one of them. *)
Lemma fewer_segno bars bars' : tune bars -> counts_ok bars -> Forall2 fewer_goals bars bars' ->
  marked Segno bars' = [] \/ marked Segno bars' = marked Segno bars.
Proof.
  intros _ [C _] F. destruct (marked Segno bars') as [|t l] eqn:M; [auto|]. right.
  pose proof (marked_less _ Segno _ _ F (fun b b' H => proj2 (proj2 (proj2 H) Segno))) as L. rewrite M in L.
  destruct (marked Segno bars) as [|s [|]] eqn:MS; cbn [length] in *; [lia| |lia]. destruct l; [|cbn in L; lia]. f_equal.
  assert (I : In t (marked Segno bars')) by (rewrite M; cbn; auto). apply marked_In in I. destruct I as (b' & B & H & <-).
  destruct (In_nth_error _ _ B) as [i N].
  assert (X : exists b, In b bars /\ fewer_goals b b').
  { clear - F B. induction F as [|x x' l l' X F IH]; [destruct B|]. destruct B as [->|B]; [exists x; cbn; auto|]. destruct (IH B) as (b & I & J). exists b. cbn. auto. }
  destruct X as (b & I & T & _ & K). apply K in H. rewrite T.
  assert (Y : In (b_tick b) (marked Segno bars)) by (apply marked_In; eauto). rewrite MS in Y. destruct Y as [<-|[]]. reflexivity.
Qed.

Lemma no_jump_built r bars : marked Dc bars = [] -> marked Ds bars = [] -> gb_build (builder_of r bars) = Ret (Ok (None, [])).
Proof. intros A B. unfold gb_build, builder_of, jump_of. cbn [gb_ds_dc]. rewrite A, B. reflexivity. Qed.

(** Without a jump, nothing changes if any of the signs is taken away: ... *)
Theorem C84_silent : forall r bars bars' c w, tune bars -> marked Dc bars = [] -> marked Ds bars = [] ->
  Forall2 fewer_goals bars bars' -> render_region r bars = Ret (Ok (c, w)) -> render_region r bars' = Ret (Ok (c, w)).
Proof.
  intros r bars bars' c w T D S F E. pose proof (accepted_counts _ _ _ _ T E) as C.
  destruct (render_shaped r bars bars' c w T E (shape_all _ _ _ fewer_shaped F) (fewer_counts _ _ F C) (fewer_segno _ _ T C F)) as [A B].
  rewrite no_jump_built in A by auto. injection A as A1 <-. rewrite (B None []).
  - rewrite A1. destruct c. reflexivity.
  - apply no_jump_built; [rewrite <- D|rewrite <- S]; apply (marked_like _ _ _ _ _ F); intros b b' (U & _ & H); split; auto; apply H; reflexivity.
Qed.
Print Assumptions C84_silent.

(** ... so what is heard does not depend on them. *)
Definition bare (b : bar) : bar :=
  mkBar (b_tick b) (b_rhythm b) (b_key b) (ms_remove (ms_remove (ms_remove (b_marks b) Segno) Fine) Coda).
Lemma bare_fewer b b' : other_goals b b' -> fewer_goals b (bare b') /\ fewer_goals b' (bare b').
Proof.
  intros (T & R & H). assert (X : forall k, has (bare b') k = has b' k && negb (goal_sign k)).
  { intros k. unfold has, bare. cbn [b_marks]. rewrite !remove_contains. destruct k; cbn; rewrite ?andb_true_r, ?andb_false_r; reflexivity. }
  split; (split; [auto|]; split; [auto|]); intros m; rewrite X; (split; [intros G; rewrite G, andb_true_r; auto|intros G; apply andb_prop in G as [G1 G2]; auto]).
  rewrite <- (H m); [exact G1|]. destruct (goal_sign m); [discriminate|reflexivity].
Qed.
Theorem C84_alike : forall r bars bars' x x', tune bars -> marked Dc bars = [] -> marked Ds bars = [] ->
  Forall2 other_goals bars bars' -> render_region r bars = Ret (Ok x) -> render_region r bars' = Ret (Ok x') -> x = x'.
Proof.
  intros r bars bars' [c w] [c' w'] T D S F E E'.
  assert (G : Forall2 fewer_goals bars (map bare bars') /\ Forall2 fewer_goals bars' (map bare bars')).
  { clear - F. induction F as [|b b' l l' B F [IH1 IH2]]; cbn [map]; [auto|]. destruct (bare_fewer b b' B). auto. }
  destruct G as [G G'].
  assert (T' : tune bars').
  { apply (shaped_tune bars bars'); auto. apply (shape_all other_goals); auto. intros b b' (B & R & H). split; [exact B|]. split; [exact R|].
    rewrite !H by reflexivity. split; [|reflexivity]. intros m M. apply H. destruct m; try discriminate; reflexivity. }
  assert (M : forall k, goal_sign k = false -> marked k bars' = marked k bars).
  { intros k K. apply (marked_like _ _ _ _ _ F). intros b b' (U & _ & H). auto. }
  pose proof (C84_silent r bars _ c w T D S G E) as A.
  pose proof (C84_silent r bars' _ c' w' T' ltac:(rewrite M; auto) ltac:(rewrite M; auto) G' E') as A'.
  congruence.
Qed.
Print Assumptions C84_alike.

(** ** With a jump *)
Lemma chunks_like g g' regs : ds_dc_tick (gr_ds_dc g') = ds_dc_tick (gr_ds_dc g) -> gr_iter1 g' = gr_iter1 g ->
  to_chunks (mkCompound (Some g') regs) = to_chunks (mkCompound (Some g) regs).
Proof.
  intros A B. unfold to_chunks. cbn [cp_global cp_regions]. rewrite A.
  assert (H : forall x, render_chunks (DcDsIter1 g') x = render_chunks (DcDsIter1 g) x) by (intros [[]|[]|[] ?]; cbn; unfold to_iter1_chunks; rewrite B; reflexivity).
  assert (O : omapM (render_chunks (DcDsIter1 g')) regs = omapM (render_chunks (DcDsIter1 g)) regs) by (induction regs as [|x l IH]; cbn [omapM]; rewrite ?H, ?IH; reflexivity).
  rewrite O. reflexivity.
Qed.

(** If the jump goes to the same place and ends and leaves out the same, the same is heard. *)
Lemma same_goal r bars bars' c w d s : tune bars -> render_region r bars = Ret (Ok (c, w)) -> Forall2 shaped bars bars' ->
  counts_ok bars' -> marked Segno bars' = [] \/ marked Segno bars' = marked Segno bars ->
  (marked Dc bars' <> [] -> marked Segno bars' = [] -> d <> 0 -> small_first bars') ->
  jump (actual_top (full_bar r bars)) bars d s -> jump (actual_top (full_bar r bars')) bars' d s ->
  marked Fine bars' = marked Fine bars -> pair_of (marked Coda bars') = pair_of (marked Coda bars) ->
  exists c', render_region r bars' = Ret (Ok (c', warnings_of bars')) /\ to_chunks c' = to_chunks c /\ w = warnings_of bars.
Proof.
  intros T E F C' S SF J J' MF MC. pose proof (accepted_counts _ _ _ _ T E) as C. pose proof (shaped_tune _ _ F T) as T'.
  destruct (render_shaped r bars bars' c w T E F C' S) as [B R].
  destruct (cp_global c) as [g|] eqn:CG.
  - destruct (jump_built r bars g w T C B) as (s' & J1 & -> & CO & IS). destruct (jump_det _ _ _ _ _ _ J J1) as [-> <-].
    assert (CO' : codas_ok s bars').
    { apply (set_codas bars' s (gr_iter1 g) T'); [apply (segno_range _ _ _ _ T J)|]. rewrite MF, MC. exact IS. }
    destruct (build_jump_any r bars' _ s T' C' SF J' CO') as (g' & B' & D' & _ & IS' & _).
    exists (mkCompound (Some g') (cp_regions c)). split; [apply R; exact B'|]. split; [|reflexivity].
    replace c with (mkCompound (Some g) (cp_regions c)) at 2 by (destruct c; cbn in *; congruence).
    apply chunks_like; [exact D'|]. rewrite MF, MC, IS in IS'. congruence.
  - exfalso. pose proof (build_cases r bars T C (build_no_overflow _ _ _ T C B)) as X. rewrite B in X.
    destruct (jump_of_jump _ _ _ _ J) as (j & JE & JD). rewrite JE in X.
    destruct X as [[e X]|[(X1 & X2 & _)|(s' & _ & X)]]; [discriminate| |destruct (to_interval_set s' _ _); discriminate].
    destruct J; congruence.
Qed.

Lemma unsigned_shaped m b b' : goal_sign m = true -> unsigned m b b' -> shaped b b'.
Proof.
  intros G (T & R & H). split; [exact T|]. split; [exact R|]. split.
  - intros k K. rewrite H. destruct k, m; try discriminate; cbn; apply andb_true_r.
  - rewrite !H. destruct m; try discriminate; cbn; rewrite !andb_true_r; reflexivity.
Qed.
Lemma unsigned_fewer m b b' : goal_sign m = true -> unsigned m b b' -> fewer_goals b b'.
Proof.
  intros G (T & R & H). split; [exact T|]. split; [exact R|]. intros k. rewrite H. split.
  - intros K. destruct k, m; try discriminate; cbn; apply andb_true_r.
  - intros K. apply andb_prop in K. tauto.
Qed.
Lemma all_fewer m bars bars' : goal_sign m = true -> Forall2 (unsigned m) bars bars' -> Forall2 fewer_goals bars bars'.
Proof. intros G F. induction F; constructor; auto. apply (unsigned_fewer m); auto. Qed.
Lemma unsigned_marked m k bars bars' : Forall2 (unsigned m) bars bars' -> mark_bit k <> mark_bit m -> marked k bars' = marked k bars.
Proof.
  intros F N. apply (marked_like _ _ _ _ _ F). intros b b' (T & _ & H). split; [exact T|]. rewrite H. apply Z.eqb_neq in N. rewrite N. apply andb_true_r.
Qed.
Lemma unsigned_gone m bars bars' : Forall2 (unsigned m) bars bars' -> marked m bars' = [].
Proof. intros F. apply (marked_nowhere _ _ _ _ F). intros b b' (T & _ & H). rewrite H, Z.eqb_refl. apply andb_false_r. Qed.

(** What the warnings warn of: a single Coda is not heard. *)
Theorem C84_orphan : forall r bars bars' c w t, tune bars -> render_region r bars = Ret (Ok (c, w)) -> In (OrphanCodaFound t) w ->
  Forall2 (unsigned Coda) bars bars' ->
  exists c' w', render_region r bars' = Ret (Ok (c', w')) /\ to_chunks c' = to_chunks c /\ w = w' ++ [OrphanCodaFound t] /\
    marked Coda bars = [t] /\ ~ exists t', In (OrphanCodaFound t') w'.
Proof.
  intros r bars bars' c w t T E I F. pose proof (accepted_counts _ _ _ _ T E) as C. pose proof (all_fewer Coda _ _ eq_refl F) as FW.
  pose proof (shape_all _ _ _ fewer_shaped FW) as FS.
  destruct (render_shaped r bars bars c w T E) as [B _]; [|exact C|auto|].
  { clear. induction bars; constructor; auto. split; auto. }
  assert (X : exists g, cp_global c = Some g).
  { destruct (cp_global c) as [g|] eqn:CG; [eauto|]. exfalso.
    pose proof (build_cases r bars T C (build_no_overflow _ _ _ T C B)) as X. rewrite B in X.
    destruct (jump_of bars); [|congruence || (inv X; destruct I)].
    destruct X as [[e X]|[(X1 & X2 & X)|(s' & _ & X)]]; [discriminate|inv X; destruct I|destruct (to_interval_set s' _ _); discriminate]. }
  destruct X as [g CG]. rewrite CG in B. destruct (jump_built r bars g w T C B) as (s & J & -> & CO & IS).
  assert (MK : forall k, mark_bit k <> mark_bit Coda -> marked k bars' = marked k bars) by (intros k; apply (unsigned_marked Coda); auto).
  pose proof (unsigned_gone Coda _ _ F) as MG.
  unfold warnings_of in I. destruct (marked Dc bars) as [|d dl] eqn:MD; [destruct I|].
  assert (MC : marked Coda bars = [t]).
  { apply in_app_iff in I. destruct I as [I|I]; [destruct (marked Segno bars); [destruct I|destruct I as [I|[]]; discriminate]|].
    destruct (marked Coda bars) as [|q [|]]; try destruct I; try (destruct I as [I|[]]; inv I; reflexivity). all: try contradiction. inv H; reflexivity. }
  destruct (same_goal r bars bars' c (warnings_of bars) (ds_dc_tick (gr_ds_dc g)) s T E FS (fewer_counts _ _ FW C) (fewer_segno _ _ T C FW)) as (c' & R' & TC & _); auto.
  - intros _ NS D0 f. rewrite (shaped_first _ _ FS). rewrite (MK Segno) in NS by discriminate.
    pose proof (build_no_overflow _ _ _ T C B) as NO. unfold no_overflow in NO. destruct NO as [NO _]; [unfold jump_of; rewrite MD; discriminate|].
    apply (NO (ds_dc_tick (gr_ds_dc g))); auto. destruct J; congruence.
  - rewrite (shaped_full _ _ _ FS). destruct J as [J1 J2 J3 J4|J1 J2 J3 J4|f J1 J2 J3 J4 J5]; [congruence| |].
    + apply jump_dc_segno; rewrite ?(shaped_first _ _ FS), ?MK by discriminate; auto; congruence.
    + apply (jump_dc _ _ _ _ f); rewrite ?(shaped_first _ _ FS), ?MK by discriminate; auto; congruence.
  - apply MK. discriminate.
  - rewrite MG, MC. reflexivity.
  - exists c', (warnings_of bars'). split; [exact R'|]. split; [exact TC|].
    unfold warnings_of. rewrite MG, !MK, MD, MC, app_nil_r by discriminate. split; [reflexivity|]. split; [reflexivity|].
    intros [t' Q]. destruct (marked Segno bars); [destruct Q|destruct Q as [Q|[]]; discriminate].
Qed.
Print Assumptions C84_orphan.

Lemma swapped_shaped b b' : swapped b b' -> shaped b b'.
Proof.
  intros (T & R & H). split; [exact T|]. split; [exact R|]. split; [|rewrite !H; cbn; apply orb_comm].
  intros m M. rewrite H. destruct m; try discriminate; reflexivity.
Qed.
Lemma swapped_marked k bars bars' : Forall2 swapped bars bars' -> marked k bars' = marked (other_jump k) bars.
Proof. intros F. apply (marked_like _ _ _ _ _ F). intros b b' (T & _ & H). auto. Qed.
Lemma swapped_counts bars bars' : Forall2 swapped bars bars' -> counts_ok bars -> counts_ok bars'.
Proof. intros F. unfold counts_ok. rewrite !(swapped_marked _ _ _ F). cbn [other_jump]. lia. Qed.

(** D.C. in a score with a Segno does what D.S. does there, and says so. *)
Theorem C84_ds : forall r bars bars' c w, tune bars -> render_region r bars = Ret (Ok (c, w)) -> marked Ds bars <> [] -> first_bar_len bars <> None ->
  Forall2 swapped bars bars' ->
  exists c' s d, marked Segno bars = [s] /\ marked Ds bars = [d] /\ render_region r bars' = Ret (Ok (c', [SegnoAndDcFound s d])) /\ to_chunks c' = to_chunks c.
Proof.
  intros r bars bars' c w T E MD FB F. pose proof (accepted_counts _ _ _ _ T E) as C. pose proof (shape_all _ _ _ swapped_shaped F) as FS.
  destruct (render_shaped r bars bars' c w T E FS (swapped_counts _ _ F C)) as [B _]; [right; apply (swapped_marked Segno _ _ F)|].
  pose proof C as [_ [_ [_ C4]]]. pose proof (build_cases r bars T C (build_no_overflow _ _ _ T C B)) as X. rewrite B in X.
  unfold jump_of in X. destruct (marked Dc bars) as [|x dl] eqn:DC; [|destruct (marked Ds bars); [congruence|cbn in C4; lia]].
  destruct (marked Ds bars) as [|d dl] eqn:DS; [congruence|].
  destruct X as [[e X]|[(X1 & X2 & X)|(s & J & X)]]; [discriminate|discriminate|].
  cbn [ds_dc_tick] in J. destruct J as [J1 J2 J3 J4|J1 J2 J3 J4|f J1 J2 J3 J4 J5]; try congruence.
  destruct (same_goal r bars bars' c w d s T E FS (swapped_counts _ _ F C)) as (c' & R' & TC & _).
  - right. apply (swapped_marked Segno _ _ F).
  - intros _ N. rewrite (swapped_marked Segno _ _ F) in N. cbn in N. congruence.
  - apply jump_ds; auto; congruence.
  - rewrite (shaped_full _ _ _ FS). apply jump_dc_segno; rewrite ?(swapped_marked _ _ _ F), ?(shaped_first _ _ FS); cbn [other_jump]; auto; congruence.
  - apply (swapped_marked Fine _ _ F).
  - rewrite (swapped_marked Coda _ _ F). reflexivity.
  - exists c', s, d. split; [exact J3|]. split; [congruence|]. split; [|exact TC]. rewrite R'. unfold warnings_of.
    rewrite !(swapped_marked _ _ _ F). cbn [other_jump]. rewrite DS, J3. destruct (marked Coda bars) as [|p [|]]; try reflexivity. cbn in J4. congruence.
Qed.
Print Assumptions C84_ds.

Theorem C84_dc : forall r bars bars' c s d, tune bars -> render_region r bars = Ret (Ok (c, [SegnoAndDcFound s d])) ->
  Forall2 swapped bars bars' ->
  marked Segno bars = [s] /\ marked Dc bars = [d] /\ exists c', render_region r bars' = Ret (Ok (c', [])) /\ to_chunks c' = to_chunks c.
Proof.
  intros r bars bars' c s d T E F. pose proof (accepted_counts _ _ _ _ T E) as C. pose proof (shape_all _ _ _ swapped_shaped F) as FS.
  destruct (render_shaped r bars bars' c _ T E FS (swapped_counts _ _ F C)) as [B _]; [right; apply (swapped_marked Segno _ _ F)|].
  pose proof C as [_ [_ [_ C4]]]. pose proof (build_cases r bars T C (build_no_overflow _ _ _ T C B)) as X. rewrite B in X.
  destruct (jump_of bars) as [j|]; [|discriminate].
  destruct X as [[e X]|[(X1 & X2 & X)|(s' & J & X)]]; [discriminate|discriminate|].
  assert (W : warnings_of bars = [SegnoAndDcFound s d]) by (destruct (to_interval_set s' _ _); try discriminate; cbn [bind] in X; congruence).
  unfold warnings_of in W. destruct (marked Dc bars) as [|x dl] eqn:DC; [discriminate|].
  destruct (marked Ds bars) as [|y yl] eqn:DS; [|cbn in C4; lia]. assert (dl = []) as -> by (destruct dl; [reflexivity|cbn in C4; lia]).
  pose proof C as [C1 _]. destruct (marked Segno bars) as [|s0 [|]] eqn:MS; [|cbn [app] in W; injection W as -> -> W|cbn in C1; lia].
  { destruct (marked Coda bars) as [|p [|]]; discriminate. }
  split; [reflexivity|]. split; [reflexivity|].
  assert (SS : s' = s /\ ds_dc_tick j = d /\ first_bar_len bars <> None) by (destruct J; split; congruence || (split; congruence)).
  destruct SS as (-> & JD & FB). rewrite JD in J.
  assert (L1 : length (marked Coda bars) <> 1%nat) by (destruct (marked Coda bars) as [|p [|]]; try discriminate; cbn; lia).
  destruct (same_goal r bars bars' c _ d s T E FS (swapped_counts _ _ F C)) as (c' & R' & TC & _).
  - right. apply (swapped_marked Segno _ _ F).
  - intros N. rewrite (swapped_marked Dc _ _ F) in N. cbn in N. congruence.
  - exact J.
  - rewrite (shaped_full _ _ _ FS). apply jump_ds; rewrite ?(swapped_marked _ _ _ F); cbn [other_jump]; auto.
  - apply (swapped_marked Fine _ _ F).
  - rewrite (swapped_marked Coda _ _ F). reflexivity.
  - exists c'. split; [|exact TC]. rewrite R'. unfold warnings_of. rewrite (swapped_marked Dc _ _ F). cbn [other_jump]. rewrite DS. reflexivity.
Qed.
Print Assumptions C84_dc.

Lemma top_shaped b b' : from_the_top b b' -> shaped b b'.
Proof.
  intros (T & R & H). split; [exact T|]. split; [exact R|]. split; [|rewrite !H; cbn; rewrite !andb_true_r; apply orb_comm].
  intros m M. rewrite H. destruct m; try discriminate; cbn; apply andb_true_r.
Qed.
Lemma top_marked k bars bars' : Forall2 from_the_top bars bars' -> k <> Segno -> marked k bars' = marked (other_jump k) bars.
Proof.
  intros F N. apply (marked_like _ _ _ _ _ F). intros b b' (T & _ & H). split; [exact T|]. rewrite H.
  destruct k; try congruence; cbn; apply andb_true_r.
Qed.
Lemma top_no_segno bars bars' : Forall2 from_the_top bars bars' -> marked Segno bars' = [].
Proof. intros F. apply (marked_nowhere _ _ _ _ F). intros b b' (_ & _ & H). rewrite H. cbn. apply andb_false_r. Qed.

(** Where the first bar is a full one, D.S. to a Segno at the top is D.C. *)
Theorem C84_top : forall r bars bars' c w, tune bars -> render_region r bars = Ret (Ok (c, w)) -> marked Ds bars <> [] -> marked Segno bars = [0] ->
  first_bar_len bars = Some (full_bar r bars) -> small_first bars -> Forall2 from_the_top bars bars' ->
  exists c', render_region r bars' = Ret (Ok (c', [])) /\ to_chunks c' = to_chunks c.
Proof.
  intros r bars bars' c w T E MD MS FB SF F. pose proof (accepted_counts _ _ _ _ T E) as C. pose proof (shape_all _ _ _ top_shaped F) as FS.
  pose proof (top_no_segno _ _ F) as NS.
  assert (C' : counts_ok bars').
  { unfold counts_ok in *. rewrite NS, !(top_marked _ _ _ F) by discriminate. cbn [other_jump length]. lia. }
  destruct (render_shaped r bars bars' c _ T E FS C') as [B _]; [auto|].
  pose proof C as [_ [_ [_ C4]]]. pose proof (build_cases r bars T C (build_no_overflow _ _ _ T C B)) as X. rewrite B in X.
  unfold jump_of in X. destruct (marked Dc bars) as [|x dl] eqn:DC; [|destruct (marked Ds bars); [congruence|cbn in C4; lia]].
  destruct (marked Ds bars) as [|d dl] eqn:DS; [congruence|].
  destruct X as [[e X]|[(X1 & X2 & X)|(s & J & X)]]; [discriminate|discriminate|].
  cbn [ds_dc_tick] in J. destruct J as [J1 J2 J3 J4|J1 J2 J3 J4|f J1 J2 J3 J4 J5]; try congruence.
  assert (s = 0) as -> by congruence.
  destruct (same_goal r bars bars' c w d 0 T E FS C') as (c' & R' & TC & _).
  - auto.
  - intros _ _ _ f Ff. apply SF. rewrite <- (shaped_first _ _ FS). exact Ff.
  - apply jump_ds; auto; congruence.
  - apply (jump_dc _ _ _ _ (full_bar r bars)); rewrite ?(shaped_first _ _ FS), ?(shaped_full _ _ _ FS), ?(top_marked _ _ _ F) by discriminate; cbn [other_jump]; auto; try congruence.
    unfold actual_top. rewrite Z.eqb_refl. reflexivity.
  - apply (top_marked Fine _ _ F). discriminate.
  - rewrite (top_marked Coda _ _ F) by discriminate. reflexivity.
  - exists c'. split; [|exact TC]. rewrite R'. unfold warnings_of. rewrite NS, !(top_marked _ _ _ F) by discriminate. cbn [other_jump]. rewrite DS.
    destruct (marked Coda bars) as [|p [|]]; try reflexivity. cbn in J4. congruence.
Qed.
Print Assumptions C84_top.

(** ** Fine and the codas *)
Lemma last_pass r bars c w cs g : tune bars -> Forall compatible bars -> render_region r bars = Ret (Ok (c, w)) -> to_chunks c = Ret cs -> cp_global c = Some g ->
  exists l first s, well_laid l /\ layout_bars l = bars /\ jump (actual_top (full_bar r bars)) bars (ds_dc_tick (gr_ds_dc g)) s /\ codas_ok s bars /\
    performance cs = first ++ second_pass l s (hd_error (marked Fine bars)) (pair_of (marked Coda bars)) /\
    forall g' s' fine' codas', ds_dc_tick (gr_ds_dc g') = ds_dc_tick (gr_ds_dc g) -> 0 <= s' -> iv_ok s' (gr_iter1 g') ->
      (forall f, fine' = Some f -> f <= u32_max) ->
      (forall t, in_iv t (gr_iter1 g') <-> s' <= t < match fine' with Some f => f | None => u32_max end /\ S_Repeat.between codas' t = false) ->
      exists cs', to_chunks (mkCompound (Some g') (cp_regions c)) = Ret cs' /\ performance cs' = first ++ second_pass l s' fine' codas'.
Proof.
  intros T F R TC CG. destruct (render_sound r bars c w T F R) as [C [l [gr [W [LB [_ [-> B]]]]]]]. cbn [cp_global cp_regions] in *. subst gr.
  assert (CH : chain 0 0 (timed_layout l)) by (apply layout_chain; auto; rewrite LB; exact T).
  destruct (jump_built r bars g w T C B) as [s [J [WE [CO IS]]]]. pose proof (segno_range _ _ _ _ T J) as SR.
  destruct (jump_set_ok bars s T C SR CO) as [is [E [K M]]]. rewrite IS in E. inv E.
  unfold to_chunks in TC. cbn [cp_global cp_regions] in TC.
  destruct (omapM (render_chunks (DcDsIter0 (ds_dc_tick (gr_ds_dc g)))) (map region_of (timed_layout l))) as [c1| |] eqn:E1; try discriminate. cbn [bind] in TC.
  destruct (omapM (render_chunks (DcDsIter1 g)) (map region_of (timed_layout l))) as [c2| |] eqn:E2; try discriminate. cbn [bind] in TC. inv TC.
  pose proof (second_top _ _ _ CH (timed_ne _ _ _) E2) as CH1.
  destruct (second_perf l s (hd_error (marked Fine (layout_bars l))) (pair_of (marked Coda (layout_bars l))) g (gr_iter1 g) W CH1 ltac:(lia) eq_refl K ltac:(intros f H; apply fine_range in H; auto; lia) M) as [c2' [E2' [_ [_ P2]]]].
  rewrite E2 in E2'. inv E2'.
  exists l, (performance (concat c1)), s. split; [exact W|]. split; [reflexivity|]. split; [exact J|]. split; [exact CO|]. split; [rewrite perf_app, P2; reflexivity|].
  intros g' s' fine' codas' D' S' K' F' M'.
  destruct (second_perf l s' fine' codas' g' (gr_iter1 g') W CH1 S' eq_refl K' F' M') as [c3 [E3 [_ [_ P3]]]].
  exists (concat c1 ++ concat c3). unfold to_chunks. cbn [cp_global cp_regions]. rewrite D', E1. cbn [bind]. rewrite E3. split; [reflexivity|].
  rewrite perf_app, P3. reflexivity.
Qed.

Lemma accepted_jump r bars c w : tune bars -> render_region r bars = Ret (Ok (c, w)) -> marked Dc bars ++ marked Ds bars <> [] -> first_bar_len bars <> None ->
  exists g, cp_global c = Some g /\ gb_build (builder_of r bars) = Ret (Ok (Some g, w)).
Proof.
  intros T E N FB. pose proof (accepted_counts _ _ _ _ T E) as C.
  destruct (render_shaped r bars bars c w T E) as [B _]; [|exact C|auto|].
  { clear. induction bars; constructor; auto. split; auto. }
  destruct (cp_global c) as [g|] eqn:CG; [eauto|]. exfalso. pose proof (build_cases r bars T C (build_no_overflow _ _ _ T C B)) as X. rewrite B in X.
  unfold jump_of in X. destruct (marked Dc bars); [destruct (marked Ds bars); [destruct N; reflexivity|]|];
    (destruct X as [[e X]|[(X1 & X2 & X)|(s & J & X)]]; [discriminate|congruence|destruct (to_interval_set s _ _); discriminate]).
Qed.

Lemma without_goal r bars bars' c w cs m : goal_sign m = true -> m <> Segno -> tune bars -> Forall compatible bars -> render_region r bars = Ret (Ok (c, w)) -> to_chunks c = Ret cs ->
  marked Dc bars ++ marked Ds bars <> [] -> first_bar_len bars <> None -> (m = Coda -> length (marked Coda bars) = 2%nat) -> Forall2 (unsigned m) bars bars' ->
  exists l first s c' cs', well_laid l /\ layout_bars l = bars /\ codas_ok s bars /\ counts_ok bars /\
    (exists d, jump (actual_top (full_bar r bars)) bars d s) /\
    performance cs = first ++ second_pass l s (hd_error (marked Fine bars)) (pair_of (marked Coda bars)) /\
    render_region r bars' = Ret (Ok (c', w)) /\ to_chunks c' = Ret cs' /\
    performance cs' = first ++ second_pass l s (hd_error (marked Fine bars')) (pair_of (marked Coda bars')).
Proof.
  intros G NS T F E TC N FB L F2. pose proof (accepted_counts _ _ _ _ T E) as C. pose proof (all_fewer m _ _ G F2) as FW.
  pose proof (shape_all _ _ _ fewer_shaped FW) as FS. pose proof (fewer_counts _ _ FW C) as C'. pose proof (shaped_tune _ _ FS T) as T'.
  destruct (accepted_jump r bars c w T E N FB) as (g & CG & B).
  destruct (last_pass r bars c w cs g T F E TC CG) as (l & first & s & W & LB & J & CO & P & H).
  assert (MK : forall k, mark_bit k <> mark_bit m -> marked k bars' = marked k bars) by (intros k; apply unsigned_marked; auto).
  pose proof (unsigned_gone m _ _ F2) as MG.
  assert (KD : mark_bit Dc <> mark_bit m /\ mark_bit Ds <> mark_bit m /\ mark_bit Segno <> mark_bit m) by (destruct m; try discriminate; try congruence; cbn; lia).
  destruct KD as (KD & KS & KG).
  assert (J' : jump (actual_top (full_bar r bars')) bars' (ds_dc_tick (gr_ds_dc g)) s).
  { rewrite (shaped_full _ _ _ FS). destruct J as [J1 J2 J3 J4|J1 J2 J3 J4|f J1 J2 J3 J4 J5].
    - apply jump_ds; rewrite ?MK by auto; auto. destruct m; try discriminate; try congruence; [|rewrite MG; cbn; lia]. rewrite MK by discriminate. auto.
    - apply jump_dc_segno; rewrite ?(shaped_first _ _ FS), ?MK by auto; auto.
    - apply (jump_dc _ _ _ _ f); rewrite ?(shaped_first _ _ FS), ?MK by auto; auto. }
  assert (CO' : codas_ok s bars').
  { intros a b. destruct m; try discriminate; try congruence; rewrite ?MG. rewrite MK by discriminate. intros Q.
    destruct (CO a b Q) as [Q1 Q2]. split; [exact Q1|]. destruct (marked Fine bars) as [|f fl] eqn:MF; [exact Q2|].
    assert (X : 0 <= f < u32_max) by (apply (marked_range Fine bars f T); rewrite MF; cbn; auto). lia. }
  destruct (build_jump_any r bars' (ds_dc_tick (gr_ds_dc g)) s T' C') as (g' & B' & D' & S0 & IS' & K' & M'); [|exact J'|exact CO'|].
  { intros A A' D0 f. rewrite (shaped_first _ _ FS). rewrite MK in A, A' by auto.
    pose proof (build_no_overflow _ _ _ T C B) as NO. unfold no_overflow in NO. destruct NO as [NO _].
    - unfold jump_of. destruct (marked Dc bars); [congruence|discriminate].
    - apply (NO (ds_dc_tick (gr_ds_dc g))); auto. destruct J; congruence. }
  destruct (H g' s (hd_error (marked Fine bars')) (pair_of (marked Coda bars')) D' S0 K') as (cs' & TC' & P'); auto.
  { intros f Q. apply fine_range in Q; auto. lia. }
  exists l, first, s, (mkCompound (Some g') (cp_regions c)), cs'. split; [exact W|]. split; [exact LB|]. split; [exact CO|]. split; [exact C|].
  split; [eauto|]. split; [exact P|]. split; [|split; [exact TC'|exact P']].
  destruct (render_shaped r bars bars' c w T E FS C' (fewer_segno _ _ T C FW)) as [_ RR].
  replace w with (warnings_of bars').
  - apply RR. exact B'.
  - destruct (jump_built r bars g w T C B) as (_ & _ & -> & _). unfold warnings_of. rewrite !(MK Dc), !(MK Segno) by auto.
    destruct m; try discriminate; try congruence; [rewrite MK by discriminate; reflexivity|]. rewrite MG. specialize (L eq_refl).
    destruct (marked Coda bars) as [|x [|y [|]]]; cbn in L; try lia. reflexivity.
Qed.

Lemma filter_split {A} (p q : A -> bool) l : Forall (fun x => p x = q x) l -> filter p l = filter q l.
Proof. induction 1 as [|x l E F IH]; cbn [filter]; [reflexivity|]. rewrite E, IH. reflexivity. Qed.
Lemma filter_none {A} (p : A -> bool) l : Forall (fun x => p x = false) l -> filter p l = [].
Proof. induction 1 as [|x l E F IH]; cbn [filter]; [reflexivity|]. rewrite E. exact IH. Qed.
Lemma ticks_in lo hi (P : Z -> Prop) : (forall t, lo <= t < hi -> P t) -> Forall P (from_to lo hi).
Proof. intros H. apply Forall_forall. intros t I. apply from_to_In in I. auto. Qed.

(** Fine takes away exactly what comes from there on, and only in the last pass. *)
Theorem C84_fine : forall r bars bars' c w cs f, tune bars -> Forall compatible bars -> render_region r bars = Ret (Ok (c, w)) -> to_chunks c = Ret cs ->
  marked Dc bars ++ marked Ds bars <> [] -> first_bar_len bars <> None -> marked Fine bars = [f] -> Forall2 (unsigned Fine) bars bars' ->
  exists l d s c' cs' first second, well_laid l /\ layout_bars l = bars /\ jump (actual_top (full_bar r bars)) bars d s /\
    render_region r bars' = Ret (Ok (c', w)) /\ to_chunks c' = Ret cs' /\
    performance cs = first ++ second /\ Forall (fun t => t < f) second /\
    performance cs' = performance cs ++ second_pass l (Z.max s f) None (pair_of (marked Coda bars)).
Proof.
  intros r bars bars' c w cs f T F E TC N FB MF F2.
  destruct (without_goal r bars bars' c w cs Fine eq_refl ltac:(discriminate) T F E TC N FB ltac:(discriminate) F2)
    as (l & first & s & c' & cs' & W & LB & CO & C & [d J] & P & R' & TC' & P').
  rewrite (unsigned_gone _ _ _ F2), (unsigned_marked _ Coda _ _ F2) in P' by discriminate. rewrite MF in P. cbn [hd_error] in P, P'.
  assert (FR : 0 <= f < u32_max) by (apply (marked_range Fine bars f T); rewrite MF; cbn; auto).
  exists l, d, s, c', cs', first, (second_pass l s (Some f) (pair_of (marked Coda bars))).
  split; [exact W|]. split; [exact LB|]. split; [exact J|]. split; [exact R'|]. split; [exact TC'|]. split; [exact P|]. split.
  - apply Forall_forall. intros t I. unfold second_pass in I. apply filter_In in I as [_ I]. lia.
  - rewrite P', P, <- app_assoc. f_equal. unfold second_pass. rewrite <- (from_to_app 0 f u32_max) by lia. rewrite !filter_app.
    rewrite (filter_none (fun t => (s <=? t) && (t <? f) && _ && _) (from_to f u32_max)) by (apply ticks_in; intros t I; replace (t <? f) with false by lia; rewrite andb_false_r; reflexivity).
    rewrite (filter_none (fun t => (Z.max s f <=? t) && true && _ && _) (from_to 0 f)) by (apply ticks_in; intros t I; replace (Z.max s f <=? t) with false by lia; reflexivity).
    rewrite app_nil_r. cbn [app]. f_equal; apply filter_split, ticks_in; intros t I.
    + replace (t <? f) with true by lia. reflexivity.
    + replace (Z.max s f <=? t) with (s <=? t) by lia. reflexivity.
Qed.
Print Assumptions C84_fine.

(** Two codas take away exactly what is between them, and only in the last pass. *)
Theorem C84_codas : forall r bars bars' c w cs a b, tune bars -> Forall compatible bars -> render_region r bars = Ret (Ok (c, w)) -> to_chunks c = Ret cs ->
  marked Dc bars ++ marked Ds bars <> [] -> first_bar_len bars <> None -> marked Coda bars = [a; b] -> Forall2 (unsigned Coda) bars bars' ->
  exists l c' cs' first before after, well_laid l /\ layout_bars l = bars /\
    render_region r bars' = Ret (Ok (c', w)) /\ to_chunks c' = Ret cs' /\
    performance cs = first ++ before ++ after /\ Forall (fun t => t < a) before /\ Forall (fun t => b <= t) after /\
    performance cs' = first ++ before ++ second_pass l a (Some b) None ++ after.
Proof.
  intros r bars bars' c w cs a b T F E TC N FB MC F2.
  destruct (without_goal r bars bars' c w cs Coda eq_refl ltac:(discriminate) T F E TC N FB ltac:(rewrite MC; reflexivity) F2)
    as (l & first & s & c' & cs' & W & LB & CO & C & [d J] & P & R' & TC' & P').
  rewrite (unsigned_gone _ _ _ F2), (unsigned_marked _ Fine _ _ F2) in P' by discriminate. rewrite MC in P. cbn [pair_of] in P, P'.
  pose proof (coda_pair bars (proj1 (proj2 (proj2 C))) T) as CP. rewrite MC in CP. cbn [coda_of] in CP.
  assert (AB : 0 <= a < b /\ b < u32_max).
  { destruct CP as (_ & CP). pose proof (marked_range Coda bars a T ltac:(rewrite MC; cbn; auto)). pose proof (marked_range Coda bars b T ltac:(rewrite MC; cbn; auto)). lia. }
  destruct (CO a b MC) as [SA BF].
  assert (BF' : forall f, hd_error (marked Fine bars) = Some f -> b < f) by (intros f Q; destruct (marked Fine bars); inv Q; exact BF).
  set (en t := match hd_error (marked Fine bars) with Some f => t <? f | None => true end).
  exists l, c', cs', first, (second_pass l s (Some a) None), (second_pass l b (hd_error (marked Fine bars)) None).
  split; [exact W|]. split; [exact LB|]. split; [exact R'|]. split; [exact TC'|].
  assert (S0 : forall fine, (forall f, fine = Some f -> b < f) -> forall codas, codas = None \/ codas = Some (a, b) ->
    second_pass l s fine codas = second_pass l s (Some a) None ++ (if codas then [] else second_pass l a (Some b) None) ++ second_pass l b fine None).
  { intros fine FF codas CC. unfold second_pass. rewrite <- (from_to_app 0 a u32_max), <- (from_to_app a b u32_max) by lia. rewrite !filter_app.
    rewrite (filter_none (fun t => (s <=? t) && (t <? a) && _ && _) (from_to a b)) by (apply ticks_in; intros t I; replace (t <? a) with false by lia; rewrite andb_false_r; reflexivity).
    rewrite (filter_none (fun t => (s <=? t) && (t <? a) && _ && _) (from_to b u32_max)) by (apply ticks_in; intros t I; replace (t <? a) with false by lia; rewrite andb_false_r; reflexivity).
    rewrite (filter_none (fun t => (b <=? t) && _ && _ && _) (from_to 0 a)) by (apply ticks_in; intros t I; replace (b <=? t) with false by lia; reflexivity).
    rewrite (filter_none (fun t => (b <=? t) && _ && _ && _) (from_to a b)) by (apply ticks_in; intros t I; replace (b <=? t) with false by lia; reflexivity).
    rewrite (filter_none (fun t => (a <=? t) && (t <? b) && _ && _) (from_to 0 a)) by (apply ticks_in; intros t I; replace (a <=? t) with false by lia; reflexivity).
    rewrite (filter_none (fun t => (a <=? t) && (t <? b) && _ && _) (from_to b u32_max)) by (apply ticks_in; intros t I; replace (t <? b) with false by lia; rewrite andb_false_r; reflexivity).
    cbn [app]. rewrite !app_nil_r. f_equal; [|f_equal].
    - apply filter_split, ticks_in. intros t I. replace (t <? a) with true by lia. replace (S_Repeat.between codas t) with false by (destruct CC as [->| ->]; cbn; lia).
      destruct fine as [f|]; [|reflexivity]. specialize (FF f eq_refl). replace (t <? f) with true by lia. reflexivity.
    - destruct CC as [->| ->].
      + apply filter_split, ticks_in. intros t I. replace (s <=? t) with true by lia. replace (a <=? t) with true by lia. replace (t <? b) with true by lia.
        destruct fine as [f|]; [|reflexivity]. specialize (FF f eq_refl). replace (t <? f) with true by lia. reflexivity.
      + apply filter_none, ticks_in. intros t I. cbn [S_Repeat.between]. replace ((a <=? t) && (t <? b)) with true by lia. cbn [negb]. rewrite andb_false_r. reflexivity.
    - apply filter_split, ticks_in. intros t I. replace (s <=? t) with true by lia. replace (b <=? t) with true by lia.
      replace (S_Repeat.between codas t) with false by (destruct CC as [->| ->]; cbn; lia). reflexivity. }
  split; [rewrite P, (S0 _ BF') by auto; reflexivity|].
  split; [apply Forall_forall; intros t I; unfold second_pass in I; apply filter_In in I as [_ I]; lia|].
  split; [apply Forall_forall; intros t I; unfold second_pass in I; apply filter_In in I as [_ I]; lia|].
  rewrite P', (S0 _ BF') by auto. reflexivity.
Qed.
Print Assumptions C84_codas.

(** ** Scores to which this applies *)
Import T_Repeat.
Definition jump_bars : list bar := [bar_at 960 [Segno]; bar_at 1920 [Coda]; bar_at 2880 [Coda; Start]; bar_at 3840 [Fine; End]; bar_at 4800 [Ds]].
Ltac relate_tac := repeat constructor; intros; match goal with k : mark |- _ => destruct k; cbn in *; try reflexivity; try discriminate; auto end.

Example C84_case : exists c c0 cs, tune jump_bars /\ Forall compatible jump_bars /\ render_region four_four jump_bars = Ret (Ok (c, [])) /\ to_chunks c = Ret cs /\
  marked Dc jump_bars ++ marked Ds jump_bars <> [] /\ first_bar_len jump_bars <> None /\ marked Fine jump_bars = [3840] /\ marked Coda jump_bars = [1920; 2880] /\
  Forall2 (unsigned Fine) jump_bars [bar_at 960 [Segno]; bar_at 1920 [Coda]; bar_at 2880 [Coda; Start]; bar_at 3840 [End]; bar_at 4800 [Ds]] /\
  Forall2 (unsigned Coda) jump_bars [bar_at 960 [Segno]; bar_at 1920 []; bar_at 2880 [Start]; bar_at 3840 [Fine; End]; bar_at 4800 [Ds]] /\
  Forall2 swapped jump_bars [bar_at 960 [Segno]; bar_at 1920 [Coda]; bar_at 2880 [Coda; Start]; bar_at 3840 [Fine; End]; bar_at 4800 [Dc]] /\
  render_region four_four [bar_at 960 [Segno]; bar_at 1920 [Coda]; bar_at 2880 [Coda; Start]; bar_at 3840 [Fine; End]; bar_at 4800 [Dc]] = Ret (Ok (c0, [SegnoAndDcFound 960 4800])).
Proof.
  eexists. eexists. eexists. split; [tune_tac|]. split; [compat_tac|]. split; [vm_compute; reflexivity|]. split; [vm_compute; reflexivity|].
  split; [discriminate|]. split; [discriminate|]. split; [reflexivity|]. split; [reflexivity|].
  split; [relate_tac|]. split; [relate_tac|]. split; [relate_tac|]. vm_compute. reflexivity.
Qed.

Example C84_silent_case : exists x, let bars := [bar_at 960 [Segno]; bar_at 1920 [Coda]; bar_at 2880 [Coda; Start]; bar_at 3840 [Fine; End]; bar_at 4800 []] in
  let bars' := [bar_at 960 []; bar_at 1920 [Coda]; bar_at 2880 [Start]; bar_at 3840 [End]; bar_at 4800 []] in
  tune bars /\ marked Dc bars = [] /\ marked Ds bars = [] /\ Forall2 fewer_goals bars bars' /\ Forall2 other_goals bars' bars /\
  render_region four_four bars = Ret (Ok x) /\ render_region four_four bars' = Ret (Ok x).
Proof.
  eexists. cbv zeta. split; [tune_tac|]. split; [reflexivity|]. split; [reflexivity|]. split; [relate_tac|]. split; [relate_tac|].
  split; [vm_compute; reflexivity|]. vm_compute. reflexivity.
Qed.

Example C84_orphan_case : exists c, let bars := [bar_at 480 []; bar_at 960 [Coda]; bar_at 1920 [Dc]] in
  tune bars /\ render_region four_four bars = Ret (Ok (c, [OrphanCodaFound 960])) /\ Forall2 (unsigned Coda) bars [bar_at 480 []; bar_at 960 []; bar_at 1920 [Dc]].
Proof. eexists. cbv zeta. split; [tune_tac|]. split; [vm_compute; reflexivity|]. relate_tac. Qed.

Example C84_top_case : exists c, let bars := [bar_at 0 [Segno]; bar_at 960 [Fine]; bar_at 1920 [Ds]] in
  tune bars /\ render_region four_four bars = Ret (Ok (c, [])) /\ marked Ds bars <> [] /\ marked Segno bars = [0] /\
  first_bar_len bars = Some (full_bar four_four bars) /\ small_first bars /\ Forall2 from_the_top bars [bar_at 0 []; bar_at 960 [Fine]; bar_at 1920 [Dc]].
Proof.
  eexists. cbv zeta. split; [tune_tac|]. split; [vm_compute; reflexivity|]. split; [discriminate|]. split; [reflexivity|]. split; [reflexivity|].
  split; [intros f E; vm_compute in E; inv E; unfold u32_max; lia|]. relate_tac.
Qed.

(** A single Coda is only warned of with D.C.; with D.S. it is refused. *)
Theorem C84_coda_refuted : exists bars bars' c s d t, tune bars /\ Forall2 swapped bars bars' /\
  render_region four_four bars = Ret (Ok (c, [SegnoAndDcFound s d; OrphanCodaFound t])) /\ render_region four_four bars' = Ret (Err (OnlyOneCoda t)).
Proof.
  exists [bar_at 960 [Segno]; bar_at 1920 [Coda]; bar_at 2880 [Dc]], [bar_at 960 [Segno]; bar_at 1920 [Coda]; bar_at 2880 [Ds]]. eexists. eexists. eexists. eexists.
  split; [tune_tac|]. split; [relate_tac|]. split; [vm_compute; reflexivity|]. vm_compute. reflexivity.
Qed.
Print Assumptions C84_coda_refuted.

(** Where the first bar is not full, D.S. to the top and D.C. differ. *)
Theorem C84_top_refuted : exists bars bars' c c' cs cs', tune bars /\ Forall2 from_the_top bars bars' /\ marked Segno bars = [0] /\
  render_region four_four bars = Ret (Ok (c, [])) /\ to_chunks c = Ret cs /\ render_region four_four bars' = Ret (Ok (c', [])) /\ to_chunks c' = Ret cs' /\
  cs = [mkChunk 0 2160; mkChunk 0 u32_max] /\ cs' = [mkChunk 0 2160; mkChunk 240 u32_max].
Proof.
  exists [bar_at 0 [Segno]; bar_at 240 []; bar_at 1200 []; bar_at 2160 [Ds]], [bar_at 0 []; bar_at 240 []; bar_at 1200 []; bar_at 2160 [Dc]]. eexists. eexists. eexists. eexists.
  split; [tune_tac|]. split; [relate_tac|]. split; [reflexivity|]. split; [vm_compute; reflexivity|]. split; [vm_compute; reflexivity|]. split; [vm_compute; reflexivity|].
  split; [vm_compute; reflexivity|]. split; vm_compute; reflexivity.
Qed.
Print Assumptions C84_top_refuted.
