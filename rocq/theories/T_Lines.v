(** Property theorems about bar lines that cannot be heard: C74. *)
From Coq Require Import ZArith List Bool Lia Sorted.
From Verif Require Import Base M_Pitch M_Duration M_Percent M_Scalar M_Bar M_Note M_Store M_Tuple M_Models M_Project M_Repeat.
From Verif Require Import S_Project S_Repeat S_Score S_Lines P_Base P_Store P_Query P_Edit P_Lines.
From Verif Require T_Project T_Repeat T_Score.
Import ListNotations.
Open Scope Z_scope.

(** Bar lines that only cut bars in two do not change what is played, not the regions, the
    warnings or the error, however many are drawn. *)
Theorem C74_lines : forall r bars more, ruled bars more -> render_region r more = render_region r bars.
Proof.
  intros r bars more H. induction H as [l|l1 b l2 more C D H IH]; [reflexivity|].
  rewrite IH. apply render_cut; auto.
Qed.
Print Assumptions C74_lines.

(** ** In a project *)
Lemma add_split {V} k (v : V) s : srt V s -> (forall w, ~ In (k, w) s) -> exists s1 s2,
  s = s1 ++ s2 /\ fst (s_add k v s) = s1 ++ (k, v) :: s2 /\
  (forall k' w, In (k', w) s1 -> k' < k) /\ (forall k' w, In (k', w) s2 -> k < k').
Proof.
  induction s as [|[k0 v0] s IH]; intros S N.
  - exists [], []. repeat split; cbn; tauto.
  - apply srt_cons in S as [S L]. cbn [fst] in L. cbn [s_add].
    destruct (Z.eqb_spec k k0) as [->|Q2]; [exfalso; apply (N v0); now left|]. destruct (Z.ltb_spec k k0) as [Q|Q].
    + exists [], ((k0, v0) :: s). split; [reflexivity|]. split; [reflexivity|]. split; [intros k' w []|].
      intros k' w [E|E]; [inv E; lia|]. apply L in E. lia.
    + destruct IH as (s1 & s2 & -> & E & A & B); [exact S|intros w J; apply (N w); now right|].
      exists ((k0, v0) :: s1), s2. destruct (s_add k v (s1 ++ s2)) as [t o]. cbn [fst] in *. subst t. repeat split; auto.
      intros k' w [J|J]; [inv J; lia|eauto].
Qed.
Lemma remove_split {V} k (v : V) s : srt V s -> In (k, v) s -> exists s1 s2,
  s = s1 ++ (k, v) :: s2 /\ s_remove k s = s1 ++ s2 /\
  (forall k' w, In (k', w) s1 -> k' < k) /\ (forall k' w, In (k', w) s2 -> k < k').
Proof.
  induction s as [|[k0 v0] s IH]; intros S I; [destruct I|]. apply srt_cons in S as [S L]. cbn [fst] in L. cbn [s_remove].
  destruct I as [I|I].
  - inv I. rewrite Z.eqb_refl. exists [], s. split; [reflexivity|]. split; [reflexivity|]. split; [intros k' w []|exact L].
  - pose proof (L _ _ I) as Q. destruct (Z.eqb_spec k k0) as [->|_]; [lia|].
    destruct IH as (s1 & s2 & -> & -> & A & B); auto. exists ((k0, v0) :: s1), s2. repeat split; auto.
    intros k' w [J|J]; [inv J; lia|eauto].
Qed.

(** The bars of the project in front of a tick. *)
Definition in_front (t : Z) (p : project) : list bar := filter (fun x => b_tick x <? t) (score p).

Lemma front_app t l1 l2 : (forall x, In x l1 -> b_tick x < t) -> (forall x, In x l2 -> t <= b_tick x) ->
  filter (fun x => b_tick x <? t) (l1 ++ l2) = l1.
Proof.
  intros A B. rewrite filter_app.
  assert (filter (fun x => b_tick x <? t) l1 = l1) as ->.
  { induction l1 as [|x l1 IH]; cbn; auto. rewrite (proj2 (Z.ltb_lt _ _) (A x (or_introl eq_refl))). f_equal. apply IH. intros; apply A; now right. }
  assert (filter (fun x => b_tick x <? t) l2 = []) as ->; [|apply app_nil_r].
  induction l2 as [|x l2 IH]; cbn; auto. rewrite (proj2 (Z.ltb_ge _ _) (B x (or_introl eq_refl))). apply IH. intros; apply B; now right.
Qed.

(** Drawing such a line in a project at a tick without one does not change what the project plays;
    nor does taking it out (with whatever else). *)
Theorem C74_project : forall p b p' c, project_ok p -> u32 (b_tick b) ->
  cuts (in_front (b_tick b) p) b ->
  marked Dc (score p) = [] \/ (exists x, In x (score p) /\ 0 < b_tick x < b_tick b) ->
  (~ In (b_tick b) (map b_tick (score p)) -> edit_run (EAddBar b) p = Ret (Some (p', c)) ->
     render_project p' = render_project p) /\
  (forall m, m_bars m = [b] -> In b (score p) -> edit_run (EBulkRemove m) p = Ret (Some (p', c)) ->
     render_project p' = render_project p).
Proof.
  intros p b p' c O U C D. destruct (ok_bars p O) as [S K]. unfold render_project, in_front, score in *. split.
  - intros N E. cbn [edit_run add_bar] in E. unfold add_bar in E.
    destruct (add_split (b_tick b) b (pj_bars p) S) as (s1 & s2 & E1 & E2 & A & B).
    { intros w J. apply N. rewrite in_map_iff. exists w. destruct (K _ _ J) as [-> _]. split; auto. apply (in_map snd) in J. exact J. }
    destruct (s_add (b_tick b) b (pj_bars p)) as [s o]. cbn [fst] in E2. subst s. apply ret_inj in E. inv E.
    cbn [pj_set_bars pj_rhythm pj_bars]. rewrite E1 in *. rewrite !map_app in *. cbn [map snd].
    rewrite front_app in C.
    2:{ intros x J. apply in_map_iff in J as ([k y] & <- & J). pose proof (A _ _ J). destruct (K k y); [apply in_app_iff; auto|]. cbn. lia. }
    2:{ intros x J. apply in_map_iff in J as ([k y] & <- & J). pose proof (B _ _ J). destruct (K k y); [apply in_app_iff; auto|]. cbn. lia. }
    apply render_cut; [exact C|]. destruct D as [D|(x & J & D)]; [left; exact D|right]. exists x. split; [|lia].
    apply in_app_iff in J as [J|J]; [exact J|]. apply in_map_iff in J as ([k y] & <- & J). pose proof (B _ _ J).
    destruct (K k y); [apply in_app_iff; auto|]. cbn in *. lia.
  - intros m M I E. cbn [edit_run] in E. unfold bulk_remove, by_cmd in E. apply ret_inj in E. inv E.
    assert (J : In (b_tick b, b) (pj_bars p)).
    { apply in_map_iff in I as ([k y] & Q & J). cbn in Q. subst y. destruct (K _ _ J) as [<- _]. exact J. }
    destruct (remove_split (b_tick b) b (pj_bars p) S J) as (s1 & s2 & E1 & E2 & A & B).
    cbn [cmd_redo exchange pj_rhythm pj_bars m_bars models_empty map add_all fold_left]. rewrite M.
    unfold remove_keys. cbn [map fold_left]. rewrite E2. rewrite E1 in *. rewrite !map_app in *. cbn [map snd] in *.
    rewrite front_app in C.
    2:{ intros x G. apply in_map_iff in G as ([k y] & <- & G). pose proof (A _ _ G). destruct (K k y); [apply in_app_iff; auto|]. cbn. lia. }
    2:{ intros x [<-|G]; [lia|]. apply in_map_iff in G as ([k y] & <- & G). pose proof (B _ _ G).
        destruct (K k y); [apply in_app_iff; right; now right|]. cbn. lia. }
    symmetry. apply render_cut; [exact C|]. destruct D as [D|(x & G & D)].
    + left. rewrite marked_app in *. apply app_eq_nil in D as [D1 D2]. rewrite D1. unfold marked in *. cbn [filter] in D2.
      destruct (has b Dc); [discriminate|]. exact D2.
    + right. exists x. split; [|lia]. apply in_app_iff in G as [G|[<-|G]]; [exact G|lia|].
      apply in_map_iff in G as ([k y] & <- & G). pose proof (B _ _ G). destruct (K k y); [apply in_app_iff; right; now right|]. cbn in *. lia.
Qed.
Print Assumptions C74_project.

Import T_Repeat.
Definition plain_score : list bar :=
  [bar_at 960 []; bar_at 1920 [Start]; bar_at 2880 [Var1]; bar_at 3840 [Var2]; bar_at 4800 []; bar_at 5760 [Fine]; bar_at 6720 [Dc]].
Definition ruled_score : list bar :=
  [bar_at 960 []; bar_at 1440 []; bar_at 1920 [Start]; bar_at 2400 []; bar_at 2880 [Var1]; bar_at 3360 [Var1]; bar_at 3840 [Var2];
   bar_at 4320 [Var2]; bar_at 4800 []; bar_at 5760 [Fine]; bar_at 6240 []; bar_at 6720 [Dc]].
Ltac blank_line := first [left; split; intros m; destruct m; first [reflexivity|discriminate]|intros m; destruct m; reflexivity].
Ltac same_line k := right; exists k; split; [lia|]; split; [|split]; [intros m; destruct m; vm_compute; congruence|intros x y; destruct x, y; vm_compute; congruence|intros m; destruct m; reflexivity].
Ltac behind := right; exists (bar_at 960 []); split; [now left|discriminate].
Example C74_lines_case : ruled plain_score ruled_score /\ exists c cs, render_region four_four plain_score = Ret (Ok (c, [])) /\
  to_chunks c = Ret cs /\ length cs = 10%nat.
Proof.
  split.
  - refine (ruled_one [bar_at 960 []] (bar_at 1440 []) _ _ _ _ _); [blank_line|behind|].
    refine (ruled_one [bar_at 960 []; bar_at 1440 []; bar_at 1920 [Start]] (bar_at 2400 []) _ _ _ _ _); [blank_line|behind|].
    refine (ruled_one [bar_at 960 []; bar_at 1440 []; bar_at 1920 [Start]; bar_at 2400 []; bar_at 2880 [Var1]] (bar_at 3360 [Var1]) _ _ _ _ _);
      [same_line 1|behind|].
    refine (ruled_one [bar_at 960 []; bar_at 1440 []; bar_at 1920 [Start]; bar_at 2400 []; bar_at 2880 [Var1]; bar_at 3360 [Var1]; bar_at 3840 [Var2]]
      (bar_at 4320 [Var2]) _ _ _ _ _); [same_line 2|behind|].
    refine (ruled_one [bar_at 960 []; bar_at 1440 []; bar_at 1920 [Start]; bar_at 2400 []; bar_at 2880 [Var1]; bar_at 3360 [Var1]; bar_at 3840 [Var2];
      bar_at 4320 [Var2]; bar_at 4800 []; bar_at 5760 [Fine]] (bar_at 6240 []) _ _ _ _ _); [blank_line|behind|]. constructor.
  - eexists. eexists. split; [vm_compute; reflexivity|]. split; vm_compute; reflexivity.
Qed.

Definition plain_project : project :=
  mkProject rhythm_default 0 60 [] (map (fun b => (b_tick b, b)) plain_score) [] [] [].
Lemma plain_ok : project_ok plain_project.
Proof. constructor; (split; [repeat constructor|T_Project.in_list]); (split; [reflexivity|unfold u32, u32_max; cbn; lia]). Qed.
(** A line in the second variation is drawn; a line that is there is taken out. *)
Example C74_project_case :
  (let b := bar_at 4320 [Var2] in
   project_ok plain_project /\ u32 (b_tick b) /\ cuts (in_front (b_tick b) plain_project) b /\
   (exists x, In x (score plain_project) /\ 0 < b_tick x < b_tick b) /\ ~ In (b_tick b) (map b_tick (score plain_project)) /\
   exists p' c, edit_run (EAddBar b) plain_project = Ret (Some (p', c)) /\ score p' <> score plain_project) /\
  (let b := bar_at 960 [] in let m := mkModels [] [b] [] [] [] in
   cuts (in_front 960 T_Project.ex_project) (mkBar 960 None None 0) /\ marked Dc (score T_Project.ex_project) = [] /\
   In b (score T_Project.ex_project) /\
   exists p' c, edit_run (EBulkRemove m) T_Project.ex_project = Ret (Some (p', c)) /\ map b_tick (score p') = [1920]).
Proof.
  cbv zeta. split.
  - split; [exact plain_ok|]. split; [unfold u32, u32_max; cbn; lia|]. split; [same_line 2|].
    split; [exists (bar_at 960 []); split; [now left|cbn; lia]|]. split; [cbn; lia|].
    eexists. eexists. split; [vm_compute; reflexivity|]. intros H. apply (f_equal (@length _)) in H. discriminate H.
  - split; [blank_line|]. split; [reflexivity|]. split; [now left|]. eexists. eexists. split; [vm_compute; reflexivity|reflexivity].
Qed.

(** A line without a mark inside a variation ends it, and the variation after it is then no longer one;
    a line inside the first bar of a score with a D.C. can change where the D.C. goes on. *)
Theorem C74_marks_refuted : exists c c',
  render_region four_four [bar_at 960 [Start]; bar_at 1920 [Var1]; bar_at 2880 [Var2]; bar_at 3840 []] = Ret (Ok (c, [])) /\
  to_chunks c = Ret [mkChunk 0 960; mkChunk 960 1920; mkChunk 1920 2880; mkChunk 960 1920; mkChunk 2880 3840; mkChunk 3840 u32_max] /\
  render_region four_four [bar_at 960 [Start]; bar_at 1920 [Var1]; bar_at 2400 []; bar_at 2880 [Var2]; bar_at 3840 []] = Ret (Ok (c', [])) /\
  to_chunks c' = Ret [mkChunk 0 960; mkChunk 960 1920; mkChunk 1920 2400; mkChunk 2400 u32_max].
Proof. eexists. eexists. split; [vm_compute; reflexivity|]. split; [vm_compute; reflexivity|]. split; [vm_compute; reflexivity|vm_compute; reflexivity]. Qed.
Print Assumptions C74_marks_refuted.
Theorem C74_upbeat_refuted : exists c c',
  render_region four_four [bar_at 960 []; bar_at 1920 [Fine]; bar_at 2880 [Dc]] = Ret (Ok (c, [])) /\
  to_chunks c = Ret [mkChunk 0 2880; mkChunk 0 1920] /\
  render_region four_four [bar_at 240 []; bar_at 960 []; bar_at 1920 [Fine]; bar_at 2880 [Dc]] = Ret (Ok (c', [])) /\
  to_chunks c' = Ret [mkChunk 0 2880; mkChunk 240 1920].
Proof. eexists. eexists. split; [vm_compute; reflexivity|]. split; [vm_compute; reflexivity|]. split; [vm_compute; reflexivity|vm_compute; reflexivity]. Qed.
Print Assumptions C74_upbeat_refuted.
