(** Property theorems about what is heard before a bar line is reached: C78. *)
From Coq Require Import ZArith List Bool Lia Sorted.
From Verif Require Import Base M_Pitch M_Duration M_Percent M_Scalar M_Bar M_Note M_Store M_Tuple M_Models M_Project M_Repeat.
From Verif Require Import S_Project S_Repeat S_Score P_Base P_Store P_Query P_Edit P_Jump P_Lines P_Heard.
From Verif Require T_Project T_Repeat T_Score T_Lines.
Import ListNotations.
Open Scope Z_scope.

(** Two scores that are the same up to the line [b], and no jump up to there: whatever follows, the
    same is heard until that line is first reached, and it is reached. *)
Theorem C78_heard : forall r a b c1 c2 k1 k2 w1 w2 cs1 cs2, tune (a ++ b :: c1) -> tune (a ++ b :: c2) ->
  Forall no_jump (a ++ [b]) -> implicit_clear (a ++ b :: c1) -> implicit_clear (a ++ b :: c2) ->
  render_region r (a ++ b :: c1) = Ret (Ok (k1, w1)) -> to_chunks k1 = Ret cs1 ->
  render_region r (a ++ b :: c2) = Ret (Ok (k2, w2)) -> to_chunks k2 = Ret cs2 ->
  until (b_tick b) (performance cs1) = until (b_tick b) (performance cs2) /\
  In (b_tick b) (performance cs1) /\ In (b_tick b) (performance cs2).
Proof.
  intros r a b c1 c2 k1 k2 w1 w2 cs1 cs2 T1 T2 NJ I1 I2 R1 C1 R2 C2.
  assert (L : exists g st regs, rr_loop (gb_new r) SIdle [] (a ++ [b]) = Ret (Ok (g, st, regs))).
  { unfold render_region in R1. change (a ++ b :: c1) with (a ++ [b] ++ c1) in R1. rewrite app_assoc, P_Panic.loop_app in R1.
    destruct (rr_loop (gb_new r) SIdle [] (a ++ [b])) as [[[[g st] regs]|e]| |]; cbn in R1; try discriminate. eauto. }
  destruct L as (g & st & regs & L).
  destruct (heard_prefix r a b c1 k1 w1 cs1 g st regs T1 NJ I1 L R1 C1) as [A1 B1].
  destruct (heard_prefix r a b c2 k2 w2 cs2 g st regs T2 NJ I2 L R2 C2) as [A2 B2]. split; [congruence|auto].
Qed.
Print Assumptions C78_heard.

(** ** In a project *)
(** The bars of the project up to a tick. *)
Definition bars_to (x : Z) (p : project) : list bar := filter (fun y => b_tick y <=? x) (score p).

Lemma split_at_line x bars : StronglySorted Z.lt (map b_tick bars) -> In x (map b_tick bars) ->
  exists a b c, bars = a ++ b :: c /\ b_tick b = x /\ filter (fun y => b_tick y <=? x) bars = a ++ [b].
Proof.
  induction bars as [|y bars IH]; intros S I; [destruct I|]. inversion S as [|? ? S1 S2]; subst. rewrite Forall_forall in S2. destruct I as [<-|I].
  - exists [], y, bars. split; [reflexivity|]. split; [reflexivity|]. cbn [filter app]. rewrite Z.leb_refl. f_equal.
    clear - S2. induction bars as [|z bars IH]; [reflexivity|]. cbn [filter]. rewrite (proj2 (Z.leb_gt _ _) (S2 _ (or_introl eq_refl))).
    apply IH. intros w W. apply S2. right. exact W.
  - destruct (IH S1 I) as (a & b & c & -> & B & F). exists (y :: a), b, c. split; [reflexivity|]. split; [exact B|]. cbn [filter app].
    rewrite (proj2 (Z.leb_le _ _)) by (apply Z.lt_le_incl, S2, I). f_equal. exact F.
Qed.

(** Two projects with the same rhythm and the same bars up to the line at [x]. *)
Theorem C78_projects : forall p p' x k k' w w' cs cs', tune (score p) -> tune (score p') ->
  pj_rhythm p = pj_rhythm p' -> bars_to x p = bars_to x p' -> In x (map b_tick (score p)) ->
  Forall no_jump (bars_to x p) -> implicit_clear (score p) -> implicit_clear (score p') ->
  render_project p = Ret (Ok (k, w)) -> to_chunks k = Ret cs ->
  render_project p' = Ret (Ok (k', w')) -> to_chunks k' = Ret cs' ->
  until x (performance cs) = until x (performance cs') /\ In x (performance cs) /\ In x (performance cs').
Proof.
  intros p p' x k k' w w' cs cs' T T' RH B I NJ C C' R K R' K'. unfold render_project, bars_to in *.
  destruct (split_at_line x (score p) (proj1 T) I) as (a & b & c & E & <- & F).
  assert (I' : In (b_tick b) (map b_tick (score p'))).
  { assert (Q : In b (filter (fun y => b_tick y <=? b_tick b) (score p'))) by (rewrite <- B, F, in_app_iff; right; left; reflexivity).
    apply filter_In in Q as [Q _]. apply in_map. exact Q. }
  destruct (split_at_line _ (score p') (proj1 T') I') as (a' & b' & c' & E' & _ & F').
  rewrite F, F' in B. apply app_inj_tail in B as [<- <-]. rewrite F in NJ. rewrite E in *. rewrite E' in *. rewrite <- RH in R'.
  exact (C78_heard (pj_rhythm p) a b c c' k k' w w' cs cs' T T' NJ C C' R K R' K').
Qed.
Print Assumptions C78_projects.

(** A bar put behind the line with any rhythm, key and marks: the same is heard until the line. *)
Theorem C78_add : forall p p' x b c k k' w w' cs cs', project_ok p -> u32 (b_tick b) -> x < b_tick b ->
  edit_run (EAddBar b) p = Ret (Some (p', c)) ->
  tune (score p) -> tune (score p') -> In x (map b_tick (score p)) ->
  Forall no_jump (bars_to x p) -> implicit_clear (score p) -> implicit_clear (score p') ->
  render_project p = Ret (Ok (k, w)) -> to_chunks k = Ret cs ->
  render_project p' = Ret (Ok (k', w')) -> to_chunks k' = Ret cs' ->
  until x (performance cs) = until x (performance cs') /\ In x (performance cs) /\ In x (performance cs').
Proof.
  intros p p' x b c k k' w w' cs cs' O U X E T T' I NJ C C' R K R' K'.
  destruct (ok_bars p O) as [S KK].
  cbn [edit_run] in E. unfold add_bar in E.
  destruct (s_add (b_tick b) b (pj_bars p)) as [s o] eqn:A. 
  assert (P' : pj_rhythm p' = pj_rhythm p /\ pj_bars p' = s).
  { apply ret_inj in E. inv E. auto. }
  destruct P' as [RH P'].
  eapply (C78_projects p p'); eauto. unfold bars_to, score. rewrite P'. replace s with (fst (s_add (b_tick b) b (pj_bars p))) by (rewrite A; reflexivity).
  clear - X KK. induction (pj_bars p) as [|[k0 v0] l IH]; cbn [s_add fst map snd filter].
  - rewrite (proj2 (Z.leb_gt _ _) X). reflexivity.
  - destruct (KK k0 v0 (or_introl eq_refl)) as [Q _]. destruct (Z.eqb_spec (b_tick b) k0) as [Q'|_].
    + cbn [fst map snd filter]. rewrite (proj2 (Z.leb_gt (b_tick b) x) X), (proj2 (Z.leb_gt (b_tick v0) x)) by lia. reflexivity.
    + destruct (b_tick b <? k0).
      * cbn [fst map snd filter]. rewrite (proj2 (Z.leb_gt (b_tick b) x) X). reflexivity.
      * destruct (s_add (b_tick b) b l) as [t o]. cbn [fst map snd filter] in *. rewrite IH by (intros k v I; apply (KK k v); right; exact I). reflexivity.
Qed.
Print Assumptions C78_add.

Import T_Repeat.
(** A repeated bar, then the line at 3840 in the second variation; what follows is a third
    variation with the end of the piece, or a bar with D.C. after the second. *)
Definition before_line : list bar := [bar_at 960 []; bar_at 1440 [Start]; bar_at 1920 [End]; bar_at 2400 [Start]; bar_at 2880 [Var1]; bar_at 3360 [Var2]].
Definition after_one : list bar := [bar_at 4800 [Var3]; bar_at 5760 []].
Definition after_two : list bar := [bar_at 4320 []; bar_at 5760 [Dc]; bar_at 6720 []].
Lemma clear_first l1 z l2 : Forall no_jump l1 -> ~ (no_repeat z /\ no_var z) -> implicit_clear (l1 ++ z :: l2).
Proof.
  intros F N pre j mid x post E NJ ID _. exfalso. revert pre E ID. induction F as [|y l1 Y F IH]; intros pre E ID.
  - destruct pre as [|p pre]; injection E as -> _; inversion ID; subst; contradiction.
  - destruct pre as [|p pre]; injection E as -> E; [contradiction|]. inversion ID; subst. eapply IH; eauto.
Qed.
Ltac clear_tac l1 := apply (clear_first l1); [repeat constructor|intros [[X _] _]; vm_compute in X; discriminate].
Example C78_heard_case : tune (before_line ++ bar_at 3840 [Var2] :: after_one) /\ tune (before_line ++ bar_at 3840 [Var2] :: after_two) /\
  Forall no_jump (before_line ++ [bar_at 3840 [Var2]]) /\
  implicit_clear (before_line ++ bar_at 3840 [Var2] :: after_one) /\ implicit_clear (before_line ++ bar_at 3840 [Var2] :: after_two) /\
  exists k1 k2, render_region four_four (before_line ++ bar_at 3840 [Var2] :: after_one) = Ret (Ok (k1, [])) /\
    to_chunks k1 = Ret [mkChunk 0 1440; mkChunk 1440 1920; mkChunk 1440 1920; mkChunk 1920 2400; mkChunk 2400 2880; mkChunk 2880 3360;
      mkChunk 2400 2880; mkChunk 3360 4800; mkChunk 2400 2880; mkChunk 4800 5760; mkChunk 5760 u32_max] /\
    render_region four_four (before_line ++ bar_at 3840 [Var2] :: after_two) = Ret (Ok (k2, [])) /\
    to_chunks k2 = Ret [mkChunk 0 1440; mkChunk 1440 1920; mkChunk 1440 1920; mkChunk 1920 2400; mkChunk 2400 2880; mkChunk 2880 3360;
      mkChunk 2400 2880; mkChunk 3360 4320; mkChunk 4320 5760; mkChunk 0 1440; mkChunk 1440 1920; mkChunk 1920 2400; mkChunk 2400 2880; mkChunk 3360 4320; mkChunk 4320 u32_max].
Proof.
  split; [tune_tac|]. split; [tune_tac|]. split; [repeat constructor|]. split; [clear_tac [bar_at 960 []]|]. split; [clear_tac [bar_at 960 []]|].
  eexists. eexists. split; [vm_compute; reflexivity|]. split; [vm_compute; reflexivity|]. split; [vm_compute; reflexivity|]. vm_compute. reflexivity.
Qed.

Import T_Project.
(** A project, and the same project with a D.C. put behind the line at 1920. *)
Definition heard_project : project :=
  mkProject (pj_rhythm ex_project) (pj_key ex_project) (pj_grid ex_project) [] (map (fun b => (b_tick b, b)) [bar_at 960 []; bar_at 1920 [Start]; bar_at 2880 [End]]) [] [] [].
Example C78_add_case : exists p' c k k', edit_run (EAddBar (bar_at 4800 [Dc])) heard_project = Ret (Some (p', c)) /\
  project_ok heard_project /\ tune (score heard_project) /\ tune (score p') /\ In 1920 (map b_tick (score heard_project)) /\ Forall no_jump (bars_to 1920 heard_project) /\
  implicit_clear (score heard_project) /\ implicit_clear (score p') /\ render_project heard_project = Ret (Ok (k, [])) /\
  to_chunks k = Ret [mkChunk 0 1920; mkChunk 1920 2880; mkChunk 1920 2880; mkChunk 2880 u32_max] /\
  render_project p' = Ret (Ok (k', [])) /\ to_chunks k' = Ret [mkChunk 0 1920; mkChunk 1920 2880; mkChunk 1920 2880; mkChunk 2880 4800; mkChunk 0 1920; mkChunk 1920 2880; mkChunk 2880 u32_max].
Proof.
  eexists. eexists. eexists. eexists. split; [vm_compute; reflexivity|].
  split; [constructor; (split; [repeat constructor; cbn; lia|in_list]); first [reflexivity | split; [reflexivity|unfold u32, u32_max; cbn; lia]]|].
  split; [tune_tac|]. split; [tune_tac|]. split; [right; left; reflexivity|]. split; [repeat constructor|].
  split; [clear_tac [bar_at 960 []]|]. split; [clear_tac [bar_at 960 []]|]. split; [vm_compute; reflexivity|]. split; [vm_compute; reflexivity|]. split; [vm_compute; reflexivity|]. vm_compute. reflexivity.
Qed.

(** Without [implicit_clear] it is false: a D.S. behind the line, before the end of a repeat whose start
    is not written, takes the beginning away. *)
Theorem C78_implicit_refuted : exists a b c1 c2 k1 k2 cs1 cs2, tune (a ++ b :: c1) /\ tune (a ++ b :: c2) /\
  Forall no_jump (a ++ [b]) /\ Forall compatible (a ++ b :: c1) /\ Forall compatible (a ++ b :: c2) /\
  render_region four_four (a ++ b :: c1) = Ret (Ok (k1, [])) /\ to_chunks k1 = Ret cs1 /\
  render_region four_four (a ++ b :: c2) = Ret (Ok (k2, [])) /\ to_chunks k2 = Ret cs2 /\
  In 0 (until (b_tick b) (performance cs1)) /\ ~ In 0 (performance cs2).
Proof.
  exists [bar_at 480 [Segno]], (bar_at 960 []), [bar_at 1920 []; bar_at 2880 [End]], [bar_at 1920 [Ds]; bar_at 2880 [End]].
  eexists. eexists. exists [mkChunk 0 2880; mkChunk 0 2880; mkChunk 2880 u32_max], [mkChunk 480 2880; mkChunk 2880 u32_max].
  split; [tune_tac|]. split; [tune_tac|]. split; [repeat constructor|]. split; [compat_tac|]. split; [compat_tac|].
  split; [vm_compute; reflexivity|]. split; [vm_compute; reflexivity|]. split; [vm_compute; reflexivity|]. split; [vm_compute; reflexivity|]. split.
  - unfold performance. cbn [flat_map ck_start ck_end b_tick bar_at]. rewrite until_in by lia. apply P_Chunk.from_to_In. lia.
  - unfold performance. cbn [flat_map ck_start ck_end]. rewrite !in_app_iff, !P_Chunk.from_to_In. cbn. lia.
Qed.
Print Assumptions C78_implicit_refuted.
