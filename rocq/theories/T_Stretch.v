(** Property theorems about stretched scores: C75. *)
From Coq Require Import ZArith List Bool Lia Sorted.
From Verif Require Import Base M_Duration M_Scalar M_Bar M_Repeat.
From Verif Require Import S_Repeat S_Stretch P_Base P_Stretch.
From Verif Require T_Repeat.
Import ListNotations.
Open Scope Z_scope.

(** If the lines of a score are moved without passing each other, the rendering moves with
    them: the same regions between the moved lines, the same warnings or the same error at the moved
    lines, the same chunks, and the same set of ticks played last. *)
Theorem C75_stretch : forall to r bars bars', stretch to -> Forall2 (moved_bar to) bars bars' ->
  marked Dc bars = [] \/ marked Segno bars <> [] \/ first_bar_len bars = first_bar_len bars' ->
  moved_rendering to (render_region r bars) (render_region r bars') /\
  (forall c w c' w', render_region r bars = Ret (Ok (c, w)) -> render_region r bars' = Ret (Ok (c', w')) ->
     moved_chunks to (to_chunks c) (to_chunks c') /\
     both (Forall2 (moved_interval to)) (compound_interval_set c) (compound_interval_set c')).
Proof.
  intros to r bars bars' S B D. pose proof (render_to to S r bars bars' B D) as R. split; [exact R|].
  intros c w c' w' E E'. rewrite E, E' in R. destruct R as [R _]. cbn in R. split; [apply to_chunks_to; auto|].
  apply set_to; auto.
Qed.
Print Assumptions C75_stretch.

(** ** Any two scores with the same marks *)

(** [t] and [t'] are both the beginning, both the end, or the ticks of corresponding bars. *)
Definition same_line (bars bars' : list bar) (t t' : Z) : Prop :=
  t = 0 /\ t' = 0 \/ t = u32_max /\ t' = u32_max \/
  exists n b b', nth_error bars n = Some b /\ nth_error bars' n = Some b' /\ t = b_tick b /\ t' = b_tick b'.

(** Corresponding bars carry the same marks, and are both at the beginning (then with the same
    rhythm) or both not. *)
Definition same_notation (b b' : bar) : Prop :=
  b_marks b = b_marks b' /\ (b_tick b = 0 <-> b_tick b' = 0) /\ (b_tick b = 0 -> b_rhythm b = b_rhythm b').

Lemma sorted_nth l : StronglySorted Z.lt (map b_tick l) -> forall i j a b,
  nth_error l i = Some a -> nth_error l j = Some b -> (b_tick a < b_tick b <-> (i < j)%nat).
Proof.
  induction l as [|x l IH]; intros S [|i] [|j] a b A B; cbn in A, B; try discriminate; cbn [map] in S; inversion S as [|? ? S' F]; subst.
  - inv A. inv B. lia.
  - inv A. apply nth_error_In in B. rewrite Forall_forall in F. specialize (F (b_tick b) (in_map _ _ _ B)). lia.
  - inv B. apply nth_error_In in A. rewrite Forall_forall in F. specialize (F (b_tick a) (in_map _ _ _ A)). lia.
  - rewrite (IH S' i j a b A B). lia.
Qed.

Lemma tune_at l n b : tune l -> nth_error l n = Some b -> 0 <= b_tick b < u32_max.
Proof. intros [_ F] N. rewrite Forall_forall in F. apply F. eapply nth_error_In; eauto. Qed.
Lemma notation_at bars bars' : Forall2 same_notation bars bars' -> forall n b b', nth_error bars n = Some b -> nth_error bars' n = Some b' ->
  same_notation b b'.
Proof. induction 1; intros [|n] b b' A B; cbn in A, B; try discriminate; [inv A; inv B; auto|eauto]. Qed.

Lemma line_stretch bars bars' : tune bars -> tune bars' -> Forall2 same_notation bars bars' -> stretch (same_line bars bars').
Proof.
  intros T T' F. assert (UM : 0 < u32_max) by reflexivity. constructor.
  - intros a a' b b' [[-> ->]|[[-> ->]|(i & x & x' & I1 & I2 & -> & ->)]] [[-> ->]|[[-> ->]|(j & y & y' & J1 & J2 & -> & ->)]]; try lia;
      try (pose proof (tune_at _ _ _ T I1); pose proof (tune_at _ _ _ T' I2); pose proof (notation_at _ _ F _ _ _ I1 I2) as (_ & ? & _));
      try (pose proof (tune_at _ _ _ T J1); pose proof (tune_at _ _ _ T' J2); pose proof (notation_at _ _ F _ _ _ J1 J2) as (_ & ? & _)); try lia.
    rewrite (sorted_nth bars (proj1 T) i j x y I1 J1), (sorted_nth bars' (proj1 T') i j x' y' I2 J2). reflexivity.
  - intros a a' [[-> ->]|[[-> ->]|(i & x & x' & I1 & I2 & -> & ->)]]; try lia.
    pose proof (tune_at _ _ _ T I1); pose proof (tune_at _ _ _ T' I2). lia.
  - left. auto.
  - right. left. auto.
Qed.

Lemma line_bars bars bars' : Forall2 same_notation bars bars' -> Forall2 (moved_bar (same_line bars bars')) bars bars'.
Proof.
  intros F. assert (H : forall k k' p p', Forall2 same_notation k k' -> length p = length p' ->
    Forall2 (moved_bar (same_line (p ++ k) (p' ++ k'))) k k'); [|apply (H bars bars' [] [] F eq_refl)].
  clear. intros k k' p p' F. revert p p'. induction F as [|b b' k k' (M & Z0 & R) F IH]; intros p p' L; [constructor|].
  constructor.
  - split; [|split; auto]. right. right. exists (length p), b, b'. rewrite nth_error_app2, Nat.sub_diag by lia. cbn [nth_error].
    rewrite L, nth_error_app2, Nat.sub_diag by lia. auto.
  - specialize (IH (p ++ [b]) (p' ++ [b'])). rewrite <- !app_assoc in IH. cbn [app] in IH. apply IH. rewrite !app_length. cbn. lia.
Qed.

(** Scores that differ only in the distances of their lines are accepted or refused alike, and are played alike
    from line to line. *)
Theorem C75_distances : forall r bars bars', tune bars -> tune bars' -> Forall2 same_notation bars bars' ->
  marked Dc bars = [] \/ marked Segno bars <> [] \/ first_bar_len bars = first_bar_len bars' ->
  let to := same_line bars bars' in
  moved_rendering to (render_region r bars) (render_region r bars') /\
  (forall c w c' w', render_region r bars = Ret (Ok (c, w)) -> render_region r bars' = Ret (Ok (c', w')) ->
     moved_chunks to (to_chunks c) (to_chunks c') /\
     both (Forall2 (moved_interval to)) (compound_interval_set c) (compound_interval_set c')).
Proof.
  intros r bars bars' T T' F D. apply C75_stretch; [apply line_stretch; auto|apply line_bars; auto|exact D].
Qed.
Print Assumptions C75_distances.

Import T_Repeat.
(** A score with a repeat with variations, D.S. and a Coda, and the same with lines elsewhere. *)
Definition short_score : list bar :=
  [bar_at 960 [Segno]; bar_at 1920 [Start]; bar_at 2880 [Var1]; bar_at 3840 [Var2]; bar_at 4800 []; bar_at 5760 [Coda]; bar_at 6720 [Coda];
   bar_at 7680 [Fine]; bar_at 8640 [Ds]].
Definition long_score : list bar :=
  [bar_at 1 [Segno]; bar_at 5000 [Start]; bar_at 5001 [Var1]; bar_at 9999 [Var2]; bar_at 20000 []; bar_at 20480 [Coda]; bar_at 20481 [Coda];
   bar_at 900000 [Fine]; bar_at 1000000 [Ds]].
Example C75_case : tune short_score /\ tune long_score /\ Forall2 same_notation short_score long_score /\ marked Dc short_score = [] /\
  exists c c', render_region four_four short_score = Ret (Ok (c, [])) /\ render_region four_four long_score = Ret (Ok (c', [])) /\
    to_chunks c = Ret [mkChunk 0 1920; mkChunk 1920 2880; mkChunk 2880 3840; mkChunk 1920 2880; mkChunk 3840 4800; mkChunk 4800 8640;
      mkChunk 960 1920; mkChunk 1920 2880; mkChunk 3840 4800; mkChunk 4800 5760; mkChunk 6720 7680] /\
    to_chunks c' = Ret [mkChunk 0 5000; mkChunk 5000 5001; mkChunk 5001 9999; mkChunk 5000 5001; mkChunk 9999 20000; mkChunk 20000 1000000;
      mkChunk 1 5000; mkChunk 5000 5001; mkChunk 9999 20000; mkChunk 20000 20480; mkChunk 20481 900000].
Proof.
  split; [tune_tac|]. split; [tune_tac|]. split.
  { unfold short_score, long_score. repeat constructor; cbn; lia. }
  split; [reflexivity|]. eexists. eexists. split; [vm_compute; reflexivity|]. split; [vm_compute; reflexivity|]. split; [vm_compute; reflexivity|]. vm_compute; reflexivity.
Qed.
(** Malformed scores are covered too. *)
Example C75_case_error : let a := [bar_at 960 [Start]; bar_at 1920 [Start]] in let b := [bar_at 10 [Start]; bar_at 11 [Start]] in
  tune a /\ tune b /\ Forall2 same_notation a b /\ marked Dc a = [] /\
  render_region four_four a = Ret (Err (DuplicatedRepeatStart 1920)) /\ render_region four_four b = Ret (Err (DuplicatedRepeatStart 11)).
Proof.
  cbv zeta. split; [tune_tac|]. split; [tune_tac|]. split; [repeat constructor; cbn; lia|]. split; [reflexivity|]. split; vm_compute; reflexivity.
Qed.

(** With a D.C. and no Segno the length of the first bar matters (see C44). *)
Theorem C75_upbeat_refuted : exists bars bars' c c', tune bars /\ tune bars' /\ Forall2 same_notation bars bars' /\
  render_region four_four bars = Ret (Ok (c, [])) /\ to_chunks c = Ret [mkChunk 0 2880; mkChunk 0 1920] /\
  render_region four_four bars' = Ret (Ok (c', [])) /\ to_chunks c' = Ret [mkChunk 0 2160; mkChunk 240 1200].
Proof.
  exists [bar_at 960 []; bar_at 1920 [Fine]; bar_at 2880 [Dc]], [bar_at 240 []; bar_at 1200 [Fine]; bar_at 2160 [Dc]]. eexists. eexists.
  split; [tune_tac|]. split; [tune_tac|]. split; [repeat constructor; cbn; lia|]. split; [vm_compute; reflexivity|]. split; [vm_compute; reflexivity|].
  split; [vm_compute; reflexivity|]. vm_compute; reflexivity.
Qed.
Print Assumptions C75_upbeat_refuted.
