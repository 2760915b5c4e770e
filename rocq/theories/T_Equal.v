(** Property theorems about comparing notes: C61. *)
From Coq Require Import ZArith List Bool Lia.
From Verif Require Import Base M_Pitch M_Duration M_Percent M_Scalar M_Note M_Equal S_Percent P_Base P_Percent.
From Verif Require T_Project.
Import ListNotations.
Open Scope Z_scope.

Lemma solfa_eqb_eq a b : solfa_eqb a b = true <-> a = b.
Proof. split; [|intros ->; destruct b; reflexivity]. destruct a, b; cbn; congruence. Qed.
Lemma octave_eqb_eq a b : octave_eqb a b = true <-> a = b.
Proof. split; [|intros ->; destruct b; reflexivity]. destruct a, b; cbn; congruence. Qed.
Lemma sharp_flat_eqb_eq a b : sharp_flat_eqb a b = true <-> a = b.
Proof. split; [|intros ->; destruct b; reflexivity]. destruct a, b; cbn; congruence. Qed.
Lemma num_eqb_eq a b : num_eqb a b = true <-> a = b.
Proof. unfold num_eqb. split; [|intros ->; apply Z.eqb_refl]. destruct a, b; cbn; congruence. Qed.
Lemma pitch_eqb_eq a b : pitch_eqb a b = true <-> a = b.
Proof.
  destruct a, b. unfold pitch_eqb. cbn. rewrite !andb_true_iff, solfa_eqb_eq, octave_eqb_eq, sharp_flat_eqb_eq, !Z.eqb_eq.
  split; [intros ((((-> & ->) & ->) & ->) & ->); reflexivity|]. intros E. inversion E; subst. auto.
Qed.
Lemma duration_eqb_eq a b : duration_eqb a b = true <-> a = b.
Proof.
  destruct a, b. unfold duration_eqb. cbn. rewrite !andb_true_iff, num_eqb_eq, !Z.eqb_eq.
  split; [intros ((-> & ->) & ->); reflexivity|]. intros E. inversion E; subst. auto.
Qed.
Lemma trimmer_eqb_eq a b : trimmer_eqb a b = true <-> a = b.
Proof.
  destruct a, b. unfold trimmer_eqb. cbn. destruct (Z.eqb_spec t_sum t_sum0).
  - subst. rewrite !andb_true_iff, !Z.eqb_eq. split; [intros (((-> & ->) & ->) & ->); reflexivity|]. intros E. inversion E; subst. auto.
  - split; [discriminate|]. intros E. inversion E; subst. congruence.
Qed.
Lemma rate_eqb_eq a b : rate_eqb a b = true <-> a = b.
Proof.
  destruct a, b. unfold rate_eqb. cbn. destruct (Z.eqb_spec r_sum r_sum0).
  - subst. rewrite !andb_true_iff, !Z.eqb_eq. split; [intros (((-> & ->) & ->) & ->); reflexivity|]. intros E. inversion E; subst. auto.
  - split; [discriminate|]. intros E. inversion E; subst. congruence.
Qed.

(** * C61 *)

(** Two notes compare equal exactly when they are the same in every respect, so
    the comparison is an equivalence and equal notes behave the same. *)
Theorem C61_note : forall a b, note_eqb a b = true <-> a = b.
Proof.
  intros a b. unfold note_eqb.
  rewrite !andb_true_iff, !Z.eqb_eq, pitch_eqb_eq, duration_eqb_eq, !eqb_true_iff, !trimmer_eqb_eq, rate_eqb_eq.
  split; [|intros ->; tauto]. destruct a, b. cbn. intros H. decompose [and] H. subst. reflexivity.
Qed.
Print Assumptions C61_note.

(** Pitches are compared as written, not as they sound. *)
Theorem C61_pitch : forall s o a p s' o' a' p', pitch_new s o a = Ret p -> pitch_new s' o' a' = Ret p' ->
  (pitch_eqb p p' = true <-> s = s' /\ o = o' /\ a = a').
Proof.
  intros s o a p s' o' a' p' E E'. rewrite pitch_eqb_eq. split.
  - assert (K : forall s o a p, pitch_new s o a = Ret p -> p_solfa p = s /\ p_octave p = o /\ p_sharp_flat p = a).
    { intros ? ? ? q Q. unfold pitch_new, pitch_value_of in Q. destruct (_ <? _); [discriminate|]. destruct (_ <? _); [discriminate|].
      apply ret_inj in Q. subst q. auto. }
    intros <-. destruct (K _ _ _ _ E) as (<- & <- & <-). destruct (K _ _ _ _ E') as (<- & <- & <-). auto.
  - intros (-> & -> & ->). rewrite E in E'. apply ret_inj in E'. exact E'.
Qed.
Print Assumptions C61_pitch.

(** Trimmers are equal if their four values are. *)
Definition same_values (x y : trimmer) : Prop := t_v0 x = t_v0 y /\ t_v1 x = t_v1 y /\ t_v2 x = t_v2 y /\ t_v3 x = t_v3 y.
Theorem C61_trimmer : forall x y, obtainable_trimmer x -> obtainable_trimmer y -> (trimmer_eqb x y = true <-> same_values x y).
Proof.
  intros x y X Y. apply obtainable_trimmer_valid in X. apply obtainable_trimmer_valid in Y. rewrite trimmer_eqb_eq. split; [intros ->; repeat split|].
  destruct X as [_ X], Y as [_ Y]. intros (A & B & C & D). destruct x, y. unfold trim_total, trim_values in *. cbn in *. subst. reflexivity.
Qed.
Print Assumptions C61_trimmer.

(** Equal trimmers have equal hashes; the hash is that of the sum of the values. *)
Theorem C61_hash : forall x y,
  (trimmer_eqb x y = true -> trimmer_hashed x = trimmer_hashed y) /\
  (obtainable_trimmer x -> trimmer_hashed x = t_v0 x + t_v1 x + t_v2 x + t_v3 x).
Proof.
  intros x y. split; [intros E; apply trimmer_eqb_eq in E; subst; reflexivity|].
  intros X. apply obtainable_trimmer_valid in X. destruct X as [_ X]. unfold trimmer_hashed. rewrite X.
  unfold trim_total, trim_values. cbn. lia.
Qed.
Print Assumptions C61_hash.

(** Rates that were given as percentages or loaded are equal if their four
    values are … *)
Definition same_rates (x y : rate_trimmer) : Prop := r_v0 x = r_v0 y /\ r_v1 x = r_v1 y /\ r_v2 x = r_v2 y /\ r_v3 x = r_v3 y.
Inductive from_percents : rate_trimmer -> Prop :=
| fp_array a b c d : from_percents (rate_from_array a b c d)
| fp_load r : from_percents (rate_deser r).
Theorem C61_rate : forall x y, from_percents x -> from_percents y -> (rate_eqb x y = true <-> same_rates x y).
Proof.
  intros x y X Y. rewrite rate_eqb_eq. split; [intros ->; repeat split|].
  destruct X, Y; intros (A & B & C & D); cbn in A, B, C, D; unfold rate_deser; subst; rewrite ?A, ?B, ?C, ?D; reflexivity.
Qed.
Print Assumptions C61_rate.

Example C61_rate_case : let x := rate_deser (rate_new third three_halves (f32_of_Z 1) (f32_of_Z 1)) in let y := rate_from_array 333 1500 1000 1000 in
  from_percents x /\ from_percents y /\ same_rates x y /\ rate_eqb x y = true.
Proof. split; [constructor|]. split; [constructor|]. split; [repeat split; vm_compute; reflexivity|vm_compute; reflexivity]. Qed.
(** … but rates that were given as floating point numbers can differ although
    all four values they show are equal. *)
Theorem C61_rate_refuted : exists x y, obtainable_rate x /\ obtainable_rate y /\ same_rates x y /\ rate_eqb x y = false.
Proof.
  exists (rate_deser (rate_new third three_halves (f32_of_Z 1) (f32_of_Z 1))), (rate_new third three_halves (f32_of_Z 1) (f32_of_Z 1)).
  split; [repeat constructor|]. split; [constructor|]. split; [repeat split|]. exact rate_new_lossy.
Qed.
Print Assumptions C61_rate_refuted.

(** C sharp and D flat sound the same and are different; two trimmers with the
    same sum have the same hash and are different. *)
Example C61_example : exists p q, pitch_new SC O4 Sharp = Ret p /\ pitch_new SD O4 Flat = Ret q /\ p_value p = p_value q /\ pitch_eqb p q = false /\
  trimmer_eqb (trimmer_new 1 2 0 0) (trimmer_new 2 1 0 0) = false /\ trimmer_hashed (trimmer_new 1 2 0 0) = trimmer_hashed (trimmer_new 2 1 0 0) /\
  obtainable_trimmer (trimmer_new 1 2 0 0) /\ obtainable_trimmer (trimmer_new 2 1 0 0) /\
  note_eqb (T_Project.ex_note 480 SC) (T_Project.ex_note 480 SC) = true /\ note_eqb (T_Project.ex_note 480 SC) (T_Project.ex_note 480 SD) = false.
Proof.
  exists (mkPitch SC O4 Sharp 73 42), (mkPitch SD O4 Flat 73 43). repeat (split; [first [vm_compute; reflexivity | constructor; unfold i16; vm_compute; split; discriminate]|]); vm_compute; reflexivity.
Qed.
