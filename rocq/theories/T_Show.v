(** Property theorems about texts shown to the user: C66. *)
From Coq Require Import ZArith List Bool Lia String.
From Verif Require Import Base M_Pitch M_Scalar M_Bar M_Text M_Json M_Repeat M_Show S_Pitch S_Text S_Repeat P_Base P_Text.
From Verif Require T_Repeat.
Import ListNotations.
Open Scope list_scope.
Open Scope Z_scope.

(** ** Texts that begin differently *)
Fixpoint clash (a b : text) : bool :=
  match a, b with
  | x :: a', y :: b' => if x =? y then clash a' b' else true
  | _, _ => false
  end.
Lemma clash_no a : forall b x y, clash a b = true -> a ++ x <> b ++ y.
Proof.
  induction a as [|c a IH]; intros [|d b] x y H E; try discriminate. cbn in H, E. injection E as -> E. rewrite Z.eqb_refl in H. eapply IH; eauto.
Qed.

(** A number ends where the digits end. *)
Definition stops (t : text) : Prop := match t with [] => True | c :: _ => ~ digit c end.
Lemma nat_stop a b x y : 0 <= a -> 0 <= b -> stops x -> stops y -> show_nat a ++ x = show_nat b ++ y -> a = b /\ x = y.
Proof.
  intros A B X Y E. pose proof (show_nat_numeral a A) as NA. pose proof (show_nat_numeral b B) as NB.
  apply numeral_val in NA as (_ & DA & VA). apply numeral_val in NB as (_ & DB & VB).
  pose proof (digits_span _ _ DA X) as SA. pose proof (digits_span _ _ DB Y) as SB. rewrite E, SB in SA. injection SA as S1 S2. split; congruence.
Qed.
Lemma nat_first a : 0 <= a -> exists c l, show_nat a = c :: l /\ digit c.
Proof.
  intros A. pose proof (show_nat_numeral a A) as N. apply numeral_val in N as (NE & D & _). destruct (show_nat a) as [|c l]; [congruence|].
  inversion D; subst. eauto.
Qed.
Lemma int_stop a b x y : stops x -> stops y -> show_int a ++ x = show_int b ++ y -> a = b /\ x = y.
Proof.
  intros X Y E. unfold show_int in E. destruct (Z.ltb_spec a 0), (Z.ltb_spec b 0).
  - cbn [app] in E. injection E as E. destruct (nat_stop (- a) (- b) x y) as [P Q]; auto; try lia. split; [lia|exact Q].
  - destruct (nat_first b) as (c & l & Q & D); [lia|]. rewrite Q in E. cbn [app] in E. injection E as E _. unfold digit in D. lia.
  - destruct (nat_first a) as (c & l & Q & D); [lia|]. rewrite Q in E. cbn [app] in E. injection E as E _. unfold digit in D. lia.
  - apply nat_stop; auto.
Qed.
Lemma int_eq a b : show_int a = show_int b -> a = b.
Proof. intros E. apply (int_stop a b [] []); [exact I|exact I|]. rewrite !app_nil_r. exact E. Qed.

Ltac not_digit := unfold stops, digit; cbn; lia.
Ltac number H := apply int_stop in H as [? H]; [|not_digit|not_digit]; subst.

(** * C66 *)

(** Different marks, letters, variations are shown differently. *)
Theorem C66_marks : forall a b, show_mark a = show_mark b -> a = b.
Proof. intros a b H. destruct a, b; first [reflexivity|vm_compute in H; discriminate H]. Qed.
Print Assumptions C66_marks.
Theorem C66_letters : forall a b, show_solfa a = show_solfa b -> a = b.
Proof. intros a b H. destruct a, b; first [reflexivity|vm_compute in H; discriminate H]. Qed.
Print Assumptions C66_letters.
Theorem C66_numbers : (forall a b, show_u8 a = show_u8 b -> a = b) /\
  (forall a b, show_rhythm_denominator a = show_rhythm_denominator b -> a = b).
Proof.
  split; [exact int_eq|]. intros a b H. apply int_eq in H. destruct a, b; first [reflexivity|discriminate H].
Qed.
Print Assumptions C66_numbers.

(** Letters are shown as in the alphabet, numbers in decimal digits. *)
Theorem C66_what :
  (forall s, show_solfa s = [65 + (letter_index s + 2) mod 7]) /\
  (forall v, 0 <= v -> numeral (show_u8 v) v) /\
  (forall d, exists z, numeral (show_rhythm_denominator d) z /\ rhythm_den_from_value z = Some d).
Proof.
  split; [intros []; reflexivity|]. split.
  - intros v V. unfold show_u8, show_int. destruct (Z.ltb_spec v 0); [lia|]. apply show_nat_numeral, V.
  - intros d. exists (rhythm_den_value d). split; [|destruct d; reflexivity].
    unfold show_rhythm_denominator, show_int. destruct (Z.ltb_spec (rhythm_den_value d) 0); [destruct d; discriminate|].
    apply show_nat_numeral. assumption.
Qed.
Print Assumptions C66_what.

Lemma var_index_stop a b x y : show_var_index a ++ x = show_var_index b ++ y -> a = b /\ x = y.
Proof. intros H. destruct a, b; vm_compute in H; first [discriminate H|injection H as H; auto]. Qed.

(** The message of a tune that cannot be rendered tells what is wrong and at which
    ticks: different errors have different texts. *)
Theorem C66_render : forall e e', show_rr_error e = show_rr_error e' -> e = e'.
Proof.
  intros e e' H.
  destruct e, e';
    try (exfalso; unfold show_rr_error, show_struct in H; cbv zeta in H; rewrite !(app_assoc (chars _) (chars " { ")) in H; revert H; apply clash_no; vm_compute; reflexivity);
    unfold show_rr_error, show_struct, show_array in H; cbv zeta in H; cbn [flat_map] in H; repeat rewrite <- app_assoc in H; rewrite ?app_nil_r in H;
    repeat (apply app_inv_head in H || (apply int_stop in H as [? H]; [subst|not_digit|not_digit]) || (apply var_index_stop in H as [? H]; subst));
    reflexivity.
Qed.
Print Assumptions C66_render.

(** So two tunes with the same message have the same error. *)
Theorem C66_same_message : forall r r' bars bars' e e', render_region r bars = Ret (Err e) -> render_region r' bars' = Ret (Err e') ->
  show_rr_error e = show_rr_error e' -> render_region r bars = render_region r' bars'.
Proof. intros r r' bars bars' e e' -> -> H. apply C66_render in H. congruence. Qed.
Print Assumptions C66_same_message.

Example C66_same_message_case : let b := [T_Repeat.bar_at 960 [Start]; T_Repeat.bar_at 1920 [Start]] in let b' := b ++ [T_Repeat.bar_at 2880 [End]] in
  render_region T_Repeat.four_four b = Ret (Err (DuplicatedRepeatStart 1920)) /\
  render_region T_Repeat.four_four b' = Ret (Err (DuplicatedRepeatStart 1920)).
Proof. split; vm_compute; reflexivity. Qed.

(** The same for pitches that do not exist. *)
Theorem C66_pitch : forall e e', show_pitch_error e = show_pitch_error e' -> e = e'.
Proof.
  assert (SS : forall a b x y, solfa_name a ++ chars ", " ++ x = solfa_name b ++ chars ", " ++ y -> a = b /\ x = y)
    by (intros a b x y H; destruct a, b; vm_compute in H; first [discriminate H|injection H as H; auto]).
  assert (OO : forall a b x y, octave_name a ++ chars ", " ++ x = octave_name b ++ chars ", " ++ y -> a = b /\ x = y)
    by (intros a b x y H; destruct a, b; vm_compute in H; first [discriminate H|injection H as H; auto]).
  assert (AA : forall a b x y, sharp_flat_name a ++ 41 :: x = sharp_flat_name b ++ 41 :: y -> a = b /\ x = y)
    by (intros a b x y H; destruct a, b; vm_compute in H; first [discriminate H|injection H as H; auto]).
  intros e e' H. destruct e as [s o a v|s o a v|v], e' as [s' o' a' v'|s' o' a' v'|v']; unfold show_pitch_error in H; cbv zeta in H; repeat rewrite <- app_assoc in H;
    try (exfalso; revert H; apply clash_no; vm_compute; reflexivity).
  - apply app_inv_head in H. apply SS in H as [-> H]. apply OO in H as [-> H].
    change (chars ") is too low ") with (41 :: chars " is too low ") in H. cbn [app] in H. apply AA in H as [-> H]. apply app_inv_head in H. apply int_eq in H. congruence.
  - exfalso. apply app_inv_head in H. apply SS in H as [-> H]. apply OO in H as [-> H].
    change (chars ") is too low ") with (41 :: chars " is too low ") in H. change (chars ") is too high ") with (41 :: chars " is too high ") in H.
    cbn [app] in H. apply AA in H as [-> H]. revert H. apply clash_no. vm_compute. reflexivity.
  - exfalso. apply app_inv_head in H. apply SS in H as [-> H]. apply OO in H as [-> H].
    change (chars ") is too low ") with (41 :: chars " is too low ") in H. change (chars ") is too high ") with (41 :: chars " is too high ") in H.
    cbn [app] in H. apply AA in H as [-> H]. revert H. apply clash_no. vm_compute. reflexivity.
  - apply app_inv_head in H. apply SS in H as [-> H]. apply OO in H as [-> H].
    change (chars ") is too high ") with (41 :: chars " is too high ") in H. cbn [app] in H. apply AA in H as [-> H]. apply app_inv_head in H. apply int_eq in H. congruence.
  - apply app_inv_head in H. number H. reflexivity.
Qed.
Print Assumptions C66_pitch.

(** The message for an octave that does not exist names the position, not the octave that was asked for, so it may be
    wrong: octave -4 gives "Octave(-2) should -2 <= -2 <= 8". *)
Theorem C66_octave_refuted :
  octave_value_of (-4) = Ret (Err (-2)) /\ show_octave_error (-2) = chars "Octave(-2) should -2 <= -2 <= 8" /\
  (forall v e, -2147483648 <= v <= 2147483645 -> octave_value_of v = Ret (Err e) -> e = v + 2).
Proof.
  split; [vm_compute; reflexivity|]. split; [vm_compute; reflexivity|]. intros v e V H. unfold octave_value_of in H.
  destruct (chk_i32 (v + octave_bias)) as [x| |] eqn:C; try discriminate. cbn [bind] in H. unfold octave_from_score_offset in H.
  assert (x = v + 2) by (unfold chk_i32, chk in C; destruct (in_range _ _); [injection C as <-; reflexivity|discriminate C]). subst x.
  destruct (_ || _); [congruence|]. destruct (index octave_all _); discriminate.
Qed.
Print Assumptions C66_octave_refuted.

Example C66_case :
  show_rr_error (InvalidRegionIndex 960 VI3 VI2) = chars "InvalidRegionIndex { tick: 960, actual: VI3, expected: VI2 }" /\
  show_rr_error (MoreThanTwoCodas 1 20 300) = chars "MoreThanTwoCodas { tick: [1, 20, 300] }" /\
  show_rr_error (CodaAfterFine 1 2 0) = chars "CodaAfterFine { coda_from: 1, coda_to: 2, fine: 0 }" /\
  show_pitch_error (TooLow SC OM2 Flat (-1)) = chars "Pitch(C, OctM2, Flat) is too low -1" /\
  render_region T_Repeat.four_four [T_Repeat.bar_at 960 [Start]; T_Repeat.bar_at 1920 [Start]] = Ret (Err (DuplicatedRepeatStart 1920)).
Proof. repeat split; vm_compute; reflexivity. Qed.
