(** Property theorems about text: C37, C38, C51, C56. *)
From Coq Require Import ZArith List Bool Lia Reals Lra.
From Flocq Require Import Core BinarySingleNaN.
From Verif Require Import Base M_Duration M_Percent M_Scalar M_Project M_Text S_Percent S_Text P_Base P_Percent P_Text P_IntError.
Import ListNotations.
Open Scope Z_scope.

(** For the concrete cases. *)
Ltac rates := unfold rate_value, powerRZ;
  replace (Pos.to_nat 3) with 3%nat by reflexivity; replace (Pos.to_nat 4) with 4%nat by reflexivity;
  replace (Pos.to_nat 2) with 2%nat by reflexivity; replace (Pos.to_nat 1) with 1%nat by reflexivity;
  cbn [pow Z.add Pos.add Pos.succ]; rewrite ?Rinv_mult, ?Rinv_1 by lra; lra.

(** * C37 *)

(** Whatever the version of Unicode, provided that it is right about ASCII. *)
Theorem C37_roundtrip : forall nd l, ascii_digits nd -> usize (loc_bar l) -> usize (loc_offset l) ->
  parse_location nd (show_location l) = Ret (Some l).
Proof. exact location_roundtrip. Qed.
Print Assumptions C37_roundtrip.

(** Exactly the texts of two numerals with a colon in between are accepted, and
    they are read as what they say. *)
Theorem C37_accepts : forall nd s l, ascii_digits nd ->
  parse_location nd s = Ret (Some l) <->
  exists a b, s = a ++ 58 :: b /\ numeral a (loc_bar l) /\ numeral b (loc_offset l) /\ usize (loc_bar l) /\ usize (loc_offset l).
Proof. exact parse_location_some. Qed.
Print Assumptions C37_accepts.

(** Exactly the texts of another shape are refused. *)
Theorem C37_refuses : forall nd s, ascii_digits nd ->
  parse_location nd s = Ret None <-> forall a b, ~ location_shape nd s a b.
Proof.
  intros nd s A. split; [|apply parse_location_none].
  intros E a b S. rewrite (parse_location_shape nd s a b A S) in E.
  destruct (parse_int 0 usize_max a); [|discriminate]. cbn [unwrap bind] in E. destruct (parse_int 0 usize_max b); discriminate.
Qed.
Print Assumptions C37_refuses.

(** The rest panics: numerals too large for usize, and digits of other scripts. *)
Theorem C37_panics : forall nd s, ascii_digits nd ->
  parse_location nd s = Panic <->
  exists a b, location_shape nd s a b /\ ~ ((exists x, numeral a x /\ usize x) /\ (exists y, numeral b y /\ usize y)).
Proof. exact parse_location_panic. Qed.
Print Assumptions C37_panics.

Definition ascii_nd (c : Z) : bool := is_digit c.
(** the ASCII digits and the Arabic-Indic digits U+0660 to U+0669 *)
Definition arabic_nd (c : Z) : bool := is_digit c || ((1632 <=? c) && (c <=? 1641)).
Lemma ascii_nd_ok : ascii_digits ascii_nd.
Proof. intros c _. apply is_digit_iff. Qed.
Lemma arabic_nd_ok : ascii_digits arabic_nd.
Proof. intros c H. rewrite <- is_digit_iff. unfold arabic_nd. rewrite orb_true_iff. split; [intros [A|A]; [auto|lia]|auto]. Qed.

Theorem C37_total_refuted :
  (exists s, parse_location ascii_nd s = Panic) /\ parse_location arabic_nd [1633; 58; 48] = Panic.
Proof. split; [exists ([49] ++ repeat 48 20 ++ [58; 48])|]; vm_compute; reflexivity. Qed.
Print Assumptions C37_total_refuted.

Example C37_example : parse_location ascii_nd [49; 50; 58; 51; 52] = Ret (Some (mkLoc 12 34)) /\
  show_location (mkLoc 12 34) = [49; 50; 58; 51; 52] /\ parse_location ascii_nd [45; 49; 58; 50] = Ret None.
Proof. vm_compute. auto. Qed.

(** * C38 *)

(** However a field came to its text, its verdict is that of a fresh field with
    this text. *)
Theorem C38_verdict : forall (T E : Type) (read : text -> outcome (result T E)) s fs t u,
  ti_from_string read s = Ret t -> edited read fs t u ->
  ti_buffer u = edited_text fs s /\ read (ti_buffer u) = Ret (ti_validated u).
Proof.
  intros T E read s fs t u H D.
  assert (B : ti_buffer t = s /\ read (ti_buffer t) = Ret (ti_validated t)).
  { unfold ti_from_string in H. destruct (read s) as [v| |] eqn:R; try discriminate. cbn [bind] in H. apply ret_inj in H. subst t. cbn. auto. }
  clear H. revert s B. induction D as [t|f fs t u v M D IH]; intros s [B1 B2]; [auto|].
  unfold ti_mutate in M. destruct (read (f (ti_buffer t))) as [w| |] eqn:R; try discriminate. cbn [bind] in M.
  pose proof (f_equal (fun o => match o with Ret p => fst p | _ => u end) M) as M1. cbn in M1.
  cbn [edited_text fold_left]. apply (IH (f s)). subst u s. cbn. auto.
Qed.
Print Assumptions C38_verdict.

(** An edit hands the text of the field to the caller and returns the caller's answer. *)
Theorem C38_mutate : forall (T E R : Type) (read : text -> outcome (result T E)) (f : text -> text * R) t u r,
  ti_mutate read f t = Ret (u, r) -> (ti_buffer u, r) = f (ti_buffer t) /\ read (ti_buffer u) = Ret (ti_validated u).
Proof.
  intros T E R read f t u r H. unfold ti_mutate in H. destruct (f (ti_buffer t)) as [s r'] eqn:F.
  destruct (read s) as [v| |] eqn:V; try discriminate. cbn [bind] in H. apply ret_inj in H. inversion H; subst. auto.
Qed.
Print Assumptions C38_mutate.

Theorem C38_empty : forall nd,
  read_location nd [] = Ret (Ok None) /\ read_i16 [] = Ret (Ok None) /\ read_tempo [] = Ret (Ok None) /\
  read_velocity [] = Ret (Ok None) /\ read_numerator [] = Ret (Ok None) /\ read_denominator [] = Ret (Ok None) /\
  read_percent [] = Ret (Ok None).
Proof. intros. repeat split; reflexivity. Qed.
Print Assumptions C38_empty.

Lemma nonempty_int b s z : int_text b s z -> s <> [].
Proof.
  intros [N|[[r [-> _]]|[_ [r [-> _]]]]]; try discriminate. apply numeral_val in N. tauto.
Qed.
Lemma u8_parse s z : parse_int 0 u8_max s = Ok z <-> int_text false s z /\ u8 z.
Proof. apply parse_int_iff. unfold u8_max. lia. Qed.
Lemma u16_parse s z : parse_int 0 u16_max s = Ok z <-> int_text false s z /\ u16 z.
Proof. apply parse_int_iff. unfold u16_max. lia. Qed.
Lemma i16_parse s z : parse_int i16_min i16_max s = Ok z <-> int_text true s z /\ i16 z.
Proof. apply (parse_int_iff i16_min i16_max). unfold i16_min, i16_max. lia. Qed.

Lemma int_text_fun b s x y : int_text b s x -> int_text b s y -> x = y.
Proof.
  assert (F : forall r x y, numeral r x -> numeral r y -> x = y).
  { intros r a c A C. apply numeral_val in A, C. destruct A as [_ [_ ->]], C as [_ [_ ->]]. reflexivity. }
  assert (D : forall c r z, numeral (c :: r) z -> digit c).
  { intros c r z A. apply numeral_val in A. destruct A as [_ [A _]]. inversion A; auto. }
  intros [A|[[r [E A]]|[B [r [E A]]]]] [C|[[r' [E' C]]|[B' [r' [E' C]]]]]; subst.
  - eauto.
  - apply D in A. unfold digit in A. lia.
  - apply D in A. unfold digit in A. lia.
  - apply D in C. unfold digit in C. lia.
  - inversion E'; subst. eauto.
  - discriminate.
  - apply D in C. unfold digit in C. lia.
  - discriminate.
  - inversion E'; subst. specialize (F _ _ _ A C). lia.
Qed.

(** Exactly which texts are accepted, and as what. *)
Theorem C38_i16 : forall s z, read_i16 s = Ret (Ok (Some z)) <-> int_text true s z /\ i16 z.
Proof.
  intros s z. split.
  - unfold read_i16. destruct s as [|c s]; [discriminate|]. intros E. apply ret_inj in E.
    destruct (parse_int i16_min i16_max (c :: s)) as [y|] eqn:P; [|discriminate]. cbn in E. inversion E; subst. apply i16_parse; auto.
  - intros [H U]. pose proof (nonempty_int _ _ _ H). unfold read_i16. destruct s; [congruence|]. rewrite (proj2 (i16_parse _ _) (conj H U)). reflexivity.
Qed.
Print Assumptions C38_i16.

Theorem C38_velocity : forall s v, read_velocity s = Ret (Ok (Some v)) <-> exists z, int_text false s z /\ u8 z /\ v = Z.min 127 z.
Proof.
  intros s v. assert (M : forall z, velocity_new z = Z.min 127 z) by (intros; unfold velocity_new; destruct (Z.ltb_spec 127 z); lia). split.
  - unfold read_velocity. destruct s as [|c s]; [discriminate|]. intros E. apply ret_inj in E.
    destruct (parse_int 0 u8_max (c :: s)) as [y|] eqn:P; [|discriminate]. cbn [res_map] in E. inversion E. subst. apply u8_parse in P.
    exists y. rewrite M. tauto.
  - intros [z [H [U ->]]]. pose proof (nonempty_int _ _ _ H). unfold read_velocity. destruct s; [congruence|].
    rewrite (proj2 (u8_parse _ _) (conj H U)). cbn [res_map]. rewrite M. reflexivity.
Qed.
Print Assumptions C38_velocity.

Theorem C38_numerator : forall s,
  (forall v, read_numerator s = Ret (Ok (Some v)) <-> int_text false s v /\ 1 <= v <= 99) /\
  (forall v, read_numerator s = Ret (Err (NumInvalidValue v)) <-> int_text false s v /\ u8 v /\ ~ (1 <= v <= 99)).
Proof.
  intros s. assert (N : forall v, rhythm_num_from_value v = if (v <? 1) || (99 <? v) then None else Some v) by reflexivity.
  split; intros v; (split; [unfold read_numerator; destruct s as [|c s]; [discriminate|]; intros E;
      destruct (parse_int 0 u8_max (c :: s)) as [y|] eqn:P; [apply ret_inj in E; apply u8_parse in P; destruct P as [P U]; rewrite N in E;
        destruct ((y <? 1) || (99 <? y)) eqn:R; inversion E; subst; split; auto; unfold u8, u8_max in *; lia|discriminate]|]).
  - intros [H B]. pose proof (nonempty_int _ _ _ H). unfold read_numerator. destruct s; [congruence|].
    assert (U : u8 v) by (unfold u8, u8_max; lia). rewrite (proj2 (u8_parse _ v) (conj H U)). rewrite N. replace ((v <? 1) || (99 <? v)) with false by lia. reflexivity.
  - intros [H [U B]]. pose proof (nonempty_int _ _ _ H). unfold read_numerator. destruct s; [congruence|].
    rewrite (proj2 (u8_parse _ v) (conj H U)). rewrite N. replace ((v <? 1) || (99 <? v)) with true by lia. reflexivity.
Qed.
Print Assumptions C38_numerator.

Theorem C38_denominator : forall s,
  (forall v, read_denominator s = Ret (Ok (Some v)) <-> int_text false s v /\ 2 <= v <= 255) /\
  (read_denominator s = Ret (Err DenInvalidValue) <-> exists v, int_text false s v /\ 0 <= v <= 1).
Proof.
  intros s. assert (N : forall v, u8 v -> denominator_from_value v = if v <? 2 then None else Some v).
  { intros v U. unfold denominator_from_value. unfold u8, u8_max in U. destruct (Z.ltb_spec v 2); [|reflexivity]. reflexivity. }
  split.
  - intros v. split.
    + unfold read_denominator. destruct s as [|c s]; [discriminate|]. intros E.
      destruct (parse_int 0 u8_max (c :: s)) as [y|] eqn:P; [|discriminate]. apply ret_inj in E. apply u8_parse in P. destruct P as [P U]. rewrite N in E by auto.
      destruct (Z.ltb_spec y 2); inversion E; subst. split; auto. unfold u8, u8_max in U. lia.
    + intros [H B]. pose proof (nonempty_int _ _ _ H). unfold read_denominator. destruct s; [congruence|].
      assert (U : u8 v) by (unfold u8, u8_max; lia).
      rewrite (proj2 (u8_parse _ v) (conj H U)), N by auto. replace (v <? 2) with false by lia. reflexivity.
  - split.
    + unfold read_denominator. destruct s as [|c s]; [discriminate|]. intros E.
      destruct (parse_int 0 u8_max (c :: s)) as [y|] eqn:P; [|discriminate]. apply ret_inj in E. apply u8_parse in P. destruct P as [P U]. rewrite N in E by auto.
      destruct (Z.ltb_spec y 2); inversion E; subst. exists y. split; auto. unfold u8, u8_max in U. lia.
    + intros [v [H B]]. pose proof (nonempty_int _ _ _ H). unfold read_denominator. destruct s; [congruence|].
      assert (U : u8 v) by (unfold u8, u8_max; lia).
      rewrite (proj2 (u8_parse _ v) (conj H U)), N by auto. replace (v <? 2) with true by lia. reflexivity.
Qed.
Print Assumptions C38_denominator.

(** A tempo is accepted up to the largest tempo; text above it up to the limit
    of the number type panics, everything else is refused. *)
Theorem C38_tempo : forall s,
  (forall v, read_tempo s = Ret (Ok (Some v)) <-> int_text false s v /\ 0 <= v <= 999) /\
  (read_tempo s = Panic <-> exists v, int_text false s v /\ 999 < v <= 65535).
Proof.
  intros s. unfold tempo_value_new, max_tempo. split.
  - intros v. split.
    + unfold read_tempo. destruct s as [|c s]; [discriminate|].
      destruct (parse_int 0 u16_max (c :: s)) as [y|] eqn:P; [|discriminate]. apply u16_parse in P. destruct P as [P U].
      unfold tempo_value_new, max_tempo. destruct (Z.ltb_spec 999 y); [discriminate|]. cbn [bind]. intros E. apply ret_inj in E. inversion E; subst.
      split; auto. unfold u16 in U. lia.
    + intros [H B]. pose proof (nonempty_int _ _ _ H). unfold read_tempo. destruct s; [congruence|].
      assert (U : u16 v) by (unfold u16, u16_max; lia). rewrite (proj2 (u16_parse _ v) (conj H U)). unfold tempo_value_new, max_tempo.
      replace (999 <? v) with false by lia. reflexivity.
  - split.
    + unfold read_tempo. destruct s as [|c s]; [discriminate|].
      destruct (parse_int 0 u16_max (c :: s)) as [y|] eqn:P; [|discriminate]. apply u16_parse in P. destruct P as [P U].
      unfold tempo_value_new, max_tempo. destruct (Z.ltb_spec 999 y); [|discriminate]. intros _. exists y. split; auto. unfold u16, u16_max in U. lia.
    + intros [v [H B]]. pose proof (nonempty_int _ _ _ H). unfold read_tempo. destruct s; [congruence|].
      assert (U : u16 v) by (unfold u16, u16_max; lia). rewrite (proj2 (u16_parse _ v) (conj H U)). unfold tempo_value_new, max_tempo.
      replace (999 <? v) with true by lia. reflexivity.
Qed.
Print Assumptions C38_tempo.

(** So checking a text can panic, and can accept a tempo of 0. *)
Theorem C38_tempo_refuted : read_tempo [49; 48; 48; 48] = Panic /\ read_tempo [48] = Ret (Ok (Some 0)).
Proof. vm_compute. auto. Qed.
Print Assumptions C38_tempo_refuted.

(** The other number fields never panic. *)
Theorem C38_total : forall s, (exists v, read_i16 s = Ret v) /\ (exists v, read_velocity s = Ret v) /\
  (exists v, read_numerator s = Ret v) /\ (exists v, read_denominator s = Ret v) /\ (exists v, read_percent s = Ret v).
Proof.
  intros s. unfold read_i16, read_velocity, read_numerator, read_denominator, read_percent. destruct s as [|c s]; [repeat split; eauto|].
  split; [eauto|]. split; [eauto|]. split; [destruct (parse_int 0 u8_max (c :: s)); eauto|].
  split; [destruct (parse_int 0 u8_max (c :: s)); eauto|eauto].
Qed.
Print Assumptions C38_total.

(** Nothing but the empty text is taken for no value. *)
Theorem C38_none : forall nd s,
  (read_location nd s = Ret (Ok None) <-> s = []) /\ (read_i16 s = Ret (Ok None) <-> s = []) /\ (read_tempo s = Ret (Ok None) <-> s = []) /\
  (read_velocity s = Ret (Ok None) <-> s = []) /\ (read_numerator s = Ret (Ok None) <-> s = []) /\ (read_denominator s = Ret (Ok None) <-> s = []) /\
  (read_percent s = Ret (Ok None) <-> s = []).
Proof.
  intros nd [|c s]; [repeat split; reflexivity|].
  unfold read_location, read_i16, read_tempo, read_velocity, read_numerator, read_denominator, read_percent, tempo_value_new.
  repeat match goal with |- _ /\ _ => split end; (split; [|discriminate]).
  - destruct (parse_location nd (c :: s)) as [[?|]| |]; discriminate.
  - destruct (parse_int i16_min i16_max (c :: s)); discriminate.
  - destruct (parse_int 0 u16_max (c :: s)) as [u|]; [|discriminate]. destruct (max_tempo <? u); discriminate.
  - destruct (parse_int 0 u8_max (c :: s)); discriminate.
  - destruct (parse_int 0 u8_max (c :: s)) as [u|]; [|discriminate]. destruct (rhythm_num_from_value u); discriminate.
  - destruct (parse_int 0 u8_max (c :: s)) as [u|]; [|discriminate]. destruct (denominator_from_value u); discriminate.
  - destruct (parse_f32 (c :: s)); discriminate.
Qed.
Print Assumptions C38_none.

(** Exactly which error is reported for text that is refused. *)
Theorem C38_refused : forall s e,
  (read_i16 s = Ret (Err e) <-> s <> [] /\ refused true i16_min i16_max s e) /\
  (read_tempo s = Ret (Err e) <-> s <> [] /\ refused false 0 u16_max s e) /\
  (read_velocity s = Ret (Err e) <-> s <> [] /\ refused false 0 u8_max s e).
Proof.
  intros [|c s] e; [repeat match goal with |- _ /\ _ => split end; (split; [discriminate|intros [N _]; congruence])|].
  assert (N : c :: s <> []) by discriminate.
  pose proof (int_errors i16_min i16_max (c :: s) ltac:(unfold i16_min, i16_max; lia) N e) as A.
  pose proof (int_errors 0 u16_max (c :: s) ltac:(unfold u16_max; lia) N e) as B.
  pose proof (int_errors 0 u8_max (c :: s) ltac:(unfold u8_max; lia) N e) as C.
  change (sgn i16_min) with true in A. change (sgn 0) with false in B, C. rewrite <- A, <- B, <- C. clear A B C.
  unfold read_i16, read_tempo, read_velocity, tempo_value_new. repeat match goal with |- _ /\ _ => split end.
  - destruct (parse_int i16_min i16_max (c :: s)); cbn; split; try discriminate; try (intros [_ H]; congruence). intros H. split; congruence.
  - destruct (parse_int 0 u16_max (c :: s)) as [u|]; [destruct (max_tempo <? u); cbn|]; split; try discriminate; try (intros [_ H]; congruence). intros H. split; congruence.
  - destruct (parse_int 0 u8_max (c :: s)); cbn; split; try discriminate; try (intros [_ H]; congruence). intros H. split; congruence.
Qed.
Print Assumptions C38_refused.

(** The two halves of a time signature: text that is no number from 0 to 255. *)
Theorem C38_refused_rhythm : forall s,
  (forall t, read_numerator s = Ret (Err (NumCannotParse t)) <-> t = s /\ s <> [] /\ forall v, int_text false s v -> 255 < v) /\
  (read_denominator s = Ret (Err DenParseInt) <-> s <> [] /\ forall v, int_text false s v -> 255 < v).
Proof.
  intros [|c s]; [split; [intros t|]; (split; [discriminate|]); [intros (_ & N & _)|intros (N & _)]; congruence|].
  assert (P : (exists e, parse_int 0 u8_max (c :: s) = Err e) <-> forall v, int_text false (c :: s) v -> 255 < v).
  { split.
    - intros [e E] v T. destruct (Z_lt_le_dec 255 v) as [L|L]; [exact L|]. pose proof (int_text_unsigned_nonneg _ _ T).
      rewrite (proj2 (u8_parse _ v)) in E; [discriminate|]. split; [exact T|]. unfold u8, u8_max. lia.
    - intros H. destruct (parse_int 0 u8_max (c :: s)) as [v|e] eqn:E; [|eauto]. apply u8_parse in E as [T U]. specialize (H v T). unfold u8, u8_max in U. lia. }
  unfold read_numerator, read_denominator. split; [intros t|]; rewrite <- P; (destruct (parse_int 0 u8_max (c :: s)) as [v|e]; split).
  - destruct (rhythm_num_from_value v); discriminate.
  - intros (_ & _ & e & E). discriminate.
  - intros E. assert (t = c :: s) by congruence. repeat split; [assumption|discriminate|eauto].
  - intros (-> & _). reflexivity.
  - destruct (denominator_from_value v); discriminate.
  - intros (_ & e & E). discriminate.
  - intros _. split; [discriminate|eauto].
  - reflexivity.
Qed.
Print Assumptions C38_refused_rhythm.

(** "300x" is too large a velocity before it is no number, "30x" is no number. *)
Example C38_refused_case :
  refused false 0 u8_max [51; 48; 48; 120] IntPosOverflow /\ read_velocity [51; 48; 48; 120] = Ret (Err IntPosOverflow) /\
  read_velocity [51; 48; 120] = Ret (Err IntInvalidDigit) /\ read_i16 [45; 51; 50; 55; 54; 57] = Ret (Err IntNegOverflow) /\
  read_numerator [120] = Ret (Err (NumCannotParse [120])) /\ read_denominator [50; 53; 54] = Ret (Err DenParseInt).
Proof.
  split; [|vm_compute; auto 6]. exists [51; 48; 48], [120], 300. split; [reflexivity|]. split; [|reflexivity]. left.
  apply (num_more [51; 48] 30 48); [|unfold digit; lia]. apply (num_more [51] 3 48); [|unfold digit; lia]. apply (num_one 51). unfold digit; lia.
Qed.

(** An accepted value is read again from its own text. *)
Theorem C38_redisplay : forall s v,
  (read_i16 s = Ret (Ok (Some v)) -> read_i16 (show_int v) = Ret (Ok (Some v))) /\
  (read_tempo s = Ret (Ok (Some v)) -> read_tempo (show_int v) = Ret (Ok (Some v))) /\
  (read_velocity s = Ret (Ok (Some v)) -> read_velocity (show_int v) = Ret (Ok (Some v))) /\
  (read_numerator s = Ret (Ok (Some v)) -> read_numerator (show_int v) = Ret (Ok (Some v))) /\
  (read_denominator s = Ret (Ok (Some v)) -> read_denominator (show_int v) = Ret (Ok (Some v))).
Proof.
  intros s v. split; [|split; [|split; [|split]]]; intros H.
  - apply C38_i16 in H. apply C38_i16. split; [apply show_int_text|tauto].
  - apply C38_tempo in H. apply C38_tempo. split; [apply show_int_unsigned; lia|tauto].
  - apply C38_velocity in H. apply C38_velocity. destruct H as [z [_ [U ->]]]. exists (Z.min 127 z).
    unfold u8, u8_max in *. split; [apply show_int_unsigned; lia|lia].
  - apply C38_numerator in H. apply C38_numerator. split; [apply show_int_unsigned; lia|tauto].
  - apply C38_denominator in H. apply C38_denominator. split; [apply show_int_unsigned; lia|tauto].
Qed.
Print Assumptions C38_redisplay.

(** A location field. *)
Theorem C38_location : forall nd s, ascii_digits nd -> s <> [] ->
  (forall l, read_location nd s = Ret (Ok (Some l)) <->
     exists a b, s = a ++ 58 :: b /\ numeral a (loc_bar l) /\ numeral b (loc_offset l) /\ usize (loc_bar l) /\ usize (loc_offset l)) /\
  (read_location nd s = Ret (Err InvalidFormat) <-> forall a b, ~ location_shape nd s a b).
Proof.
  intros nd s A N. destruct s as [|c s]; [congruence|]. unfold read_location. split.
  - intros l. rewrite <- (C37_accepts nd (c :: s) l A). destruct (parse_location nd (c :: s)) as [[k|]| |]; cbn [bind]; split; intros E; try discriminate;
      apply ret_inj in E; inversion E; reflexivity.
  - rewrite <- (C37_refuses nd (c :: s) A). destruct (parse_location nd (c :: s)) as [[k|]| |]; cbn [bind]; split; intros E; try discriminate; reflexivity.
Qed.
Print Assumptions C38_location.

Example C38_example :
  edited read_velocity [fun s => s ++ [50]; fun s => s ++ [51]; fun s => 45 :: s] (mkTI (Ok None) []) (mkTI (Err IntInvalidDigit) [45; 50; 51]) /\
  read_i16 [45; 50; 51] = Ret (Ok (Some (-23))) /\ read_velocity [50; 48; 48] = Ret (Ok (Some 127)) /\
  read_numerator [49; 48; 48] = Ret (Err (NumInvalidValue 100)) /\ read_denominator [43; 51] = Ret (Ok (Some 3)).
Proof.
  split; [|vm_compute; auto].
  eapply ed_cons; [vm_compute; reflexivity|]. eapply ed_cons; [vm_compute; reflexivity|]. eapply ed_cons; [vm_compute; reflexivity|]. constructor.
Qed.

(** * C51 *)

(** A typed rate that is a whole number of thousandths is read as that percentage,
    except ten values that are read as one thousandth less. *)
Theorem C51_exact : forall s neg m e p, rate_text s neg m e -> 0 <= p <= 2000 -> rate_value neg m e = (IZR p / 1000)%R ->
  (~ In p lossy -> read_percent s = Ret (Ok (Some p))) /\ (In p lossy -> read_percent s = Ret (Ok (Some (p - 1)))).
Proof.
  intros s neg m e p R H E. rewrite (read_percent_exact s neg m e p R H E). rewrite <- lossy_In.
  destruct (existsb (Z.eqb p) lossy); split; intros; auto; congruence.
Qed.
Print Assumptions C51_exact.

Example C51_exact_case : rate_text [48; 46; 57; 57; 57] false 999 (-3) /\ 0 <= 999 <= 2000 /\ rate_value false 999 (-3) = (IZR 999 / 1000)%R /\
  ~ In 999 lossy.
Proof.
  split; [apply rt_plain, decimal_sound; reflexivity|]. split; [lia|]. split; [rates|]. vm_compute. intuition congruence.
Qed.

(** "0.251" is read as 0.25. *)
Theorem C51_exact_refuted : rate_text [48; 46; 50; 53; 49] false 251 (-3) /\ read_percent [48; 46; 50; 53; 49] = Ret (Ok (Some 250)).
Proof.
  split; [|vm_compute; reflexivity]. apply rt_plain. apply decimal_sound. reflexivity.
Qed.
Print Assumptions C51_exact_refuted.

(** Any other number between two neighbouring percentages is read within one thousandth of them. *)
Theorem C51_between : forall s neg m e p, rate_text s neg m e -> 0 <= p < 2000 ->
  (IZR p / 1000 <= rate_value neg m e <= IZR (p + 1) / 1000)%R ->
  exists v, read_percent s = Ret (Ok (Some v)) /\ p - 1 <= v <= p + 1.
Proof.
  intros s neg m e p R H B. rewrite (read_percent_rate s neg m e R). eexists. split; [reflexivity|].
  apply rate_text_parse in R. apply read_between; tauto.
Qed.
Print Assumptions C51_between.

Example C51_between_case : rate_text [48; 46; 51; 51; 51; 51] false 3333 (-4) /\
  (IZR 333 / 1000 <= rate_value false 3333 (-4) <= IZR (333 + 1) / 1000)%R /\ read_percent [48; 46; 51; 51; 51; 51] = Ret (Ok (Some 333)).
Proof.
  split; [apply rt_plain, decimal_sound; reflexivity|]. split; [rates|vm_compute; reflexivity].
Qed.

(** Numbers outside are cut off. *)
Theorem C51_cut : forall s neg m e, rate_text s neg m e ->
  ((rate_value neg m e <= 0)%R -> read_percent s = Ret (Ok (Some 0))) /\
  ((2 <= rate_value neg m e)%R -> read_percent s = Ret (Ok (Some 2000))).
Proof.
  intros s neg m e R. rewrite (read_percent_rate s neg m e R). apply rate_text_parse in R. destruct R as [_ Hm].
  split; intros H; [rewrite read_low|rewrite read_high]; auto.
Qed.
Print Assumptions C51_cut.

Example C51_cut_case : rate_text [45; 49] true 1 0 /\ (rate_value true 1 0 <= 0)%R /\ rate_text [51; 101; 49] false 3 1 /\ (2 <= rate_value false 3 1)%R /\
  read_percent [51; 101; 49] = Ret (Ok (Some 2000)).
Proof.
  split; [apply rt_minus, decimal_sound; reflexivity|]. split; [rates|]. split; [apply rt_plain, decimal_sound; reflexivity|].
  split; [rates|vm_compute; reflexivity].
Qed.

(** The order of typed numbers is kept. *)
Theorem C51_monotone : forall s neg m e s' neg' m' e' v v', rate_text s neg m e -> rate_text s' neg' m' e' ->
  (rate_value neg m e <= rate_value neg' m' e')%R ->
  read_percent s = Ret (Ok (Some v)) -> read_percent s' = Ret (Ok (Some v')) -> v <= v'.
Proof.
  intros s neg m e s' neg' m' e' v v' R R' L E E'. rewrite (read_percent_rate _ _ _ _ R) in E. rewrite (read_percent_rate _ _ _ _ R') in E'.
  apply ret_inj, ok_inj in E. apply ret_inj, ok_inj in E'. inversion E; inversion E'.
  apply rate_text_parse in R, R'. apply percent_mono_real; tauto.
Qed.
Print Assumptions C51_monotone.

Example C51_monotone_case : rate_text [46; 53] false 5 (-1) /\ rate_text [48; 46; 53; 49] false 51 (-2) /\
  (rate_value false 5 (-1) <= rate_value false 51 (-2))%R /\
  read_percent [46; 53] = Ret (Ok (Some 500)) /\ read_percent [48; 46; 53; 49] = Ret (Ok (Some 510)).
Proof.
  split; [apply rt_plain, decimal_sound; reflexivity|]. split; [apply rt_plain, decimal_sound; reflexivity|].
  split; [rates|]. split; vm_compute; reflexivity.
Qed.

(** Only numbers and the words for infinity and NaN are accepted. *)
Theorem C51_accepts : forall s p, read_percent s = Ret (Ok (Some p)) ->
  0 <= p <= 2000 /\
  ((exists neg m e, rate_text s neg m e) \/ special_word s \/ (exists c r, s = c :: r /\ (c = 43 \/ c = 45) /\ special_word r)).
Proof.
  intros s p H. split; [|exact (read_percent_accepts s p H)]. unfold read_percent in H. destruct s as [|c s]; [discriminate|].
  destruct (parse_f32 (c :: s)) as [x|]; [|discriminate]. apply ret_inj, ok_inj in H. inversion H. apply percent_range.
Qed.
Print Assumptions C51_accepts.

(** Infinity is the largest rate, minus infinity and NaN are the least. *)
Theorem C51_words : forall w,
  (infinity_word w -> read_percent w = Ret (Ok (Some 2000)) /\ read_percent (43 :: w) = Ret (Ok (Some 2000)) /\
     read_percent (45 :: w) = Ret (Ok (Some 0))) /\
  (nan_word w -> read_percent w = Ret (Ok (Some 0)) /\ read_percent (43 :: w) = Ret (Ok (Some 0)) /\
     read_percent (45 :: w) = Ret (Ok (Some 0))).
Proof.
  assert (G : forall s x, s <> [] -> parse_f32 s = Some x -> read_percent s = Ret (Ok (Some (percent_of_f32 x)))).
  { intros s x N E. destruct s; [congruence|]. unfold read_percent. rewrite E. reflexivity. }
  intros w. split; intros W; (assert (w <> []) by (intros ->; unfold infinity_word, nan_word in W; decompose [or] W;
      match goal with H : Forall2 _ _ [] |- _ => inversion H end)).
  - repeat split.
    + rewrite (G _ (B754_infinity false)); [reflexivity|assumption|]. apply parse_f32_iff. left. right; left. auto.
    + rewrite (G _ (B754_infinity false)); [reflexivity|discriminate|]. apply parse_f32_iff. right; left. exists w. split; [reflexivity|]. right; left. auto.
    + rewrite (G _ (B754_infinity true)); [reflexivity|discriminate|]. apply parse_f32_iff. right; right. exists w. split; [reflexivity|]. right; left. auto.
  - repeat split.
    + rewrite (G _ B754_nan); [reflexivity|assumption|]. apply parse_f32_iff. left. right; right. auto.
    + rewrite (G _ B754_nan); [reflexivity|discriminate|]. apply parse_f32_iff. right; left. exists w. split; [reflexivity|]. right; right. auto.
    + rewrite (G _ B754_nan); [reflexivity|discriminate|]. apply parse_f32_iff. right; right. exists w. split; [reflexivity|]. right; right. auto.
Qed.
Print Assumptions C51_words.

(** An empty text is no rate, and every other text that is neither a number nor such
    a word is refused; nothing panics. *)
Theorem C51_refuses : forall s,
  (read_percent s = Ret (Ok None) <-> s = []) /\
  (read_percent s = Ret (Err FloatError) <->
     s <> [] /\ (forall neg m e, ~ rate_text s neg m e) /\ ~ special_word s /\
     forall c r, s = c :: r -> c = 43 \/ c = 45 -> ~ special_word r) /\
  read_percent s <> Panic /\ read_percent s <> Hang.
Proof.
  intros s. split; [|split].
  - unfold read_percent. destruct s as [|c s]; [tauto|]. split; [|discriminate]. destruct (parse_f32 (c :: s)); discriminate.
  - split.
    + intros H. split; [intros ->; discriminate|]. split; [|split].
      * intros neg m e R. rewrite (read_percent_rate _ _ _ _ R) in H. discriminate.
      * intros W. destruct (C51_words s) as [A B]. unfold special_word, infinity_word, nan_word in *. destruct W as [W|[W|W]].
        -- destruct (A (or_introl W)) as [X _]. rewrite X in H. discriminate.
        -- destruct (A (or_intror W)) as [X _]. rewrite X in H. discriminate.
        -- destruct (B W) as [X _]. rewrite X in H. discriminate.
      * intros c r -> C W. destruct (C51_words r) as [A B]. unfold special_word, infinity_word, nan_word in *.
        destruct W as [W|[W|W]]; [destruct (A (or_introl W)) as [_ [X Y]]|destruct (A (or_intror W)) as [_ [X Y]]|destruct (B W) as [_ [X Y]]];
          destruct C as [->| ->]; [rewrite X in H|rewrite Y in H|rewrite X in H|rewrite Y in H|rewrite X in H|rewrite Y in H]; discriminate.
    + intros [N [H1 [H2 H3]]]. destruct s as [|c s]; [congruence|]. pose proof (read_percent_accepts (c :: s)) as A.
      unfold read_percent in *. destruct (parse_f32 (c :: s)) as [x|] eqn:E; [|reflexivity]. exfalso.
      destruct (A _ eq_refl) as [[neg [m [e R]]]|[W|[d [r [Er [C W]]]]]]; [eapply H1; eauto|auto|eapply H3; eauto].
  - unfold read_percent. destruct s; split; discriminate.
Qed.
Print Assumptions C51_refuses.

(** The text of a percentage stands for exactly this percentage; reading it gives
    the percentage back except in the ten cases. *)
Theorem C51_shown : forall p, 0 <= p -> exists m e,
  rate_text (show_percent p) false m e /\ rate_value false m e = (IZR p / 1000)%R /\
  (p <= 2000 -> ~ In p lossy -> read_percent (show_percent p) = Ret (Ok (Some p))) /\
  (p <= 2000 -> In p lossy -> read_percent (show_percent p) = Ret (Ok (Some (p - 1)))) /\
  (p < 65536 -> exists x, parse_f32 (show_percent p) = Some x /\ finite x /\ real x = real (percent_to_f32 p)).
Proof.
  intros p H. destruct (show_percent_text p H) as [m [e [R V]]]. exists m, e. split; [exact R|]. split; [exact V|].
  split; [|split]; [intros B; apply (C51_exact _ _ _ _ p R ltac:(lia) V)|intros B; apply (C51_exact _ _ _ _ p R ltac:(lia) V)|].
  intros B. apply rate_text_parse in R. destruct R as [R Hm]. eexists. split; [exact R|].
  destruct (decimal_exact false m e p Hm ltac:(lia) V). auto.
Qed.
Print Assumptions C51_shown.

Example C51_example :
  read_percent [49; 46; 53] = Ret (Ok (Some 1500)) /\ show_percent 1500 = [49; 46; 53] /\
  read_percent [49; 53; 48; 101; 45; 50] = Ret (Ok (Some 1500)) /\ read_percent [45; 49] = Ret (Ok (Some 0)) /\
  read_percent [73; 110; 70] = Ret (Ok (Some 2000)) /\ read_percent [49; 46; 46] = Ret (Err FloatError) /\
  rate_text [49; 53; 48; 101; 45; 50] false 150 (-2).
Proof.
  repeat (split; [vm_compute; reflexivity|]). apply rt_plain, decimal_sound. reflexivity.
Qed.

(** * C56 *)

Lemma u32_parse s z : parse_int 0 u32_max s = Ok z <-> int_text false s z /\ u32 z.
Proof. apply parse_int_iff. unfold u32_max. lia. Qed.

(** A grid is read from exactly the texts of positive 32-bit numbers, as what
    they say; the error shows what was refused. *)
Theorem C56_grid : forall s,
  (forall g, grid_value_of s = Ok g <-> int_text false s g /\ 1 <= g <= 4294967295) /\
  (forall e, grid_value_of s = Err e <->
     (int_text false s 0 /\ e = [48]) \/ ((forall z, int_text false s z -> ~ u32 z) /\ e = s)).
Proof.
  intros s. unfold grid_value_of. destruct (parse_int 0 u32_max s) as [z|x] eqn:P.
  - apply u32_parse in P. destruct P as [T U]. unfold u32, u32_max in U. unfold grid_from_u32.
    destruct (Z.eqb_spec z 0) as [->|N]; split.
    + intros g. split; [discriminate|]. intros [T' B]. rewrite (int_text_fun _ _ _ _ T' T) in B. lia.
    + intros e. split; [intros E; inversion E; subst; auto|]. intros [[_ ->]|[F _]]; [reflexivity|]. exfalso. apply (F 0 T).
      unfold u32, u32_max. lia.
    + intros g. split; [intros E; inversion E; subst; split; [assumption|lia]|]. intros [T' _]. f_equal. exact (int_text_fun _ _ _ _ T T').
    + intros e. split; [discriminate|]. intros [[T' _]|[F _]].
      * rewrite (int_text_fun _ _ _ _ T' T) in N. lia.
      * exfalso. apply (F z T). unfold u32, u32_max. lia.
  - assert (F : forall z, int_text false s z -> ~ u32 z).
    { intros z T U. assert (parse_int 0 u32_max s = Ok z) by (apply u32_parse; auto). congruence. }
    split.
    + intros g. split; [discriminate|]. intros [T B]. exfalso. apply (F g T). unfold u32, u32_max. lia.
    + intros e. split; [intros E; inversion E; subst; auto|]. intros [[T _]|[_ ->]]; [|reflexivity].
      exfalso. apply (F 0 T). unfold u32, u32_max. lia.
Qed.
Print Assumptions C56_grid.

(** What is shown for a grid is read as that grid. *)
Theorem C56_grid_text : forall g, 1 <= g <= 4294967295 -> grid_value_of (grid_to_string g) = Ok g.
Proof. intros g H. apply C56_grid. split; [apply show_int_unsigned; lia|exact H]. Qed.
Print Assumptions C56_grid_text.

(** The upper number of a time signature. *)
Theorem C56_numerator : forall s,
  (forall v, rhythm_num_from_str s = Ok v <-> int_text false s v /\ 1 <= v <= 99) /\
  (forall v, rhythm_num_from_str s = Err (inl v) <-> int_text false s v /\ u8 v /\ ~ (1 <= v <= 99)) /\
  (forall e, rhythm_num_from_str s = Err (inr e) <-> (forall z, int_text false s z -> ~ u8 z) /\ e = s).
Proof.
  intros s. unfold rhythm_num_from_str.
  assert (N : forall v, rhythm_num_from_value v = if (v <? 1) || (99 <? v) then None else Some v) by reflexivity.
  destruct (parse_int 0 u8_max s) as [z|x] eqn:P.
  - apply u8_parse in P. destruct P as [T U]. rewrite N.
    destruct (Z.ltb_spec z 1); cbn [orb]; [|destruct (Z.ltb_spec 99 z)]; (split; [|split]);
      intros v; (split; [intros E; try discriminate; inversion E; subst;
        first [split; [assumption|split; [assumption|lia]] | split; [assumption|lia]]|]); intros HH;
      try (destruct HH as [F _]; exfalso; exact (F z T U));
      first [destruct HH as (T' & HH) | destruct HH as [T' HH]]; rewrite (int_text_fun _ _ _ _ T' T) in *; try lia; reflexivity.
  - assert (F : forall z, int_text false s z -> ~ u8 z).
    { intros z T U. assert (parse_int 0 u8_max s = Ok z) by (apply u8_parse; auto). congruence. }
    split; [|split].
    + intros v. split; [discriminate|]. intros [T B]. exfalso. apply (F v T). unfold u8, u8_max. lia.
    + intros v. split; [discriminate|]. intros [T [B _]]. exfalso. exact (F v T B).
    + intros e. split; [intros E; inversion E; subst; auto|]. intros [_ ->]. reflexivity.
Qed.
Print Assumptions C56_numerator.

Example C56_example : grid_value_of [43; 48; 54; 48] = Ok 60 /\ grid_value_of [48; 48] = Err [48] /\
  grid_value_of [49; 97] = Err [49; 97] /\ grid_to_string 60 = [54; 48] /\ rhythm_num_from_str [49; 48; 48] = Err (inl 100).
Proof. repeat split. Qed.
