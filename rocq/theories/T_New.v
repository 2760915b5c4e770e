(** Property theorems C62 (constructors, defaults and builders). *)
From Coq Require Import ZArith List Bool Lia.
From Verif Require Import Base M_Pitch M_Duration M_Percent M_Scalar M_Bar M_Note M_New.
From Verif Require Import S_Pitch S_Percent S_Note S_Json P_Marks.
Import ListNotations.
Open Scope Z_scope.

(** * C62 *)

(** A rhythm is made from exactly the numerators 1..=99 and the denominators
    2, 4, 8, 16, 32 and 64, and it has the values it was made from. *)
Theorem C62_rhythm : forall n d,
  (1 <= n <= 99 /\ In d [2; 4; 8; 16; 32; 64] ->
     exists r, rhythm_new n d = Ret r /\ rh_num r = n /\ rhythm_den_value (rh_den r) = d) /\
  (~ (1 <= n <= 99 /\ In d [2; 4; 8; 16; 32; 64]) -> rhythm_new n d = Panic).
Proof.
  intros n d. unfold rhythm_new, rhythm_value_of, rhythm_num_from_value. split.
  - intros [N D]. destruct ((n <? 1) || (99 <? n)) eqn:E; [lia|].
    cbn in D. intuition subst; eexists; (split; [reflexivity|]); split; reflexivity.
  - intro H. destruct ((n <? 1) || (99 <? n)) eqn:E; [reflexivity|].
    assert (D : ~ In d [2; 4; 8; 16; 32; 64]) by (intro; apply H; split; [lia|assumption]).
    destruct (rhythm_den_from_value d) as [x|] eqn:E'; [|reflexivity]. exfalso. apply D.
    unfold rhythm_den_from_value in E'.
    assert (C : d = 2 \/ d = 4 \/ d = 8 \/ d = 16 \/ d = 32 \/ d = 64).
    { destruct d as [|p|p]; try discriminate.
      repeat (destruct p as [p|p|]; try discriminate; auto 10). }
    cbn. intuition.
Qed.
Print Assumptions C62_rhythm.

(** A tempo is made from the values 0..=999 (0 included), and [safe_new] clamps. *)
Theorem C62_tempo : forall tick v, u16 v ->
  (v <= 999 -> tempo_new tick v = Ret (mkTempo tick v)) /\
  (999 < v -> tempo_new tick v = Panic) /\
  tempo_value_safe_new v = Ret (Z.min v 999).
Proof.
  intros tick v [V1 V2]. unfold tempo_new, tempo_value_safe_new, tempo_value_new, max_tempo.
  destruct (999 <? v) eqn:E; repeat split; intros; try lia; cbn; try reflexivity.
  - f_equal; lia.
  - rewrite E. f_equal; lia.
Qed.
Print Assumptions C62_tempo.

(** Note values, tuplet denominators, dots, grids and variation numbers. *)
Theorem C62_small : forall v, 0 <= v ->
  (denominator_from_value v = if (2 <=? v) then Some v else None) /\
  (dots_from_value v = if (v <=? 7) then Some v else None) /\
  (grid_from_u32 v = if (1 <=? v) then Some v else None) /\
  (forall i, var_into v = Ret i <-> var_value i = v) /\
  (var_into v = Panic <-> ~ 1 <= v <= 4) /\
  (forall n, num_from_ord v = Some n <-> num_ord n = v) /\
  (num_from_ord v = None <-> 7 < v).
Proof.
  intros v V. unfold denominator_from_value, dots_from_value, grid_from_u32, var_into.
  split; [destruct (v <? 2) eqn:A, (2 <=? v) eqn:B; try reflexivity; lia|].
  split; [destruct (7 <? v) eqn:A, (v <=? 7) eqn:B; try reflexivity; lia|].
  split; [destruct (v =? 0) eqn:A, (1 <=? v) eqn:B; try reflexivity; lia|].
  assert (C : v = 0 \/ v = 1 \/ v = 2 \/ v = 3 \/ v = 4 \/ v = 5 \/ v = 6 \/ v = 7 \/ 7 < v) by lia.
  assert (D1 : 4 < v -> var_from_value v = None).
  { intro H. destruct (var_from_value v) as [i|] eqn:E; [|reflexivity]. exfalso.
    unfold var_from_value in E. destruct v as [|p|p]; try discriminate.
    repeat (destruct p as [p|p|]; try discriminate); lia. }
  assert (D2 : 7 < v -> num_from_ord v = None).
  { intro H. destruct (num_from_ord v) as [i|] eqn:E; [|reflexivity]. exfalso.
    unfold num_from_ord in E. destruct v as [|p|p]; try discriminate; try lia.
    repeat (destruct p as [p|p|]; try discriminate); lia. }
  assert (N : forall n, num_ord n <= 7) by (intros []; discriminate).
  assert (I : forall i, 1 <= var_value i <= 4) by (intros []; split; discriminate).
  split; [|split; [|split]].
  - intro i. specialize (I i). destruct (Z_lt_ge_dec 4 v) as [L|L]; [rewrite (D1 L); split; [discriminate|lia]|].
    assert (K : v = 0 \/ v = 1 \/ v = 2 \/ v = 3 \/ v = 4) by lia.
    destruct i; destruct K as [->|[->|[->|[->| ->]]]]; cbn; split; intro; congruence.
  - destruct (Z_lt_ge_dec 4 v) as [L|L]; [rewrite (D1 L); split; [lia|reflexivity]|].
    assert (K : v = 0 \/ v = 1 \/ v = 2 \/ v = 3 \/ v = 4) by lia.
    destruct K as [->|[->|[->|[->| ->]]]]; cbn; split; intro; try congruence; try lia.
  - intro n. specialize (N n). destruct (Z_lt_ge_dec 7 v) as [L|L]; [rewrite (D2 L); split; [discriminate|lia]|].
    destruct n; destruct C as [->|[->|[->|[->|[->|[->|[->|[->|C]]]]]]]]; try lia; cbn; split; intro; congruence.
  - destruct (Z_lt_ge_dec 7 v) as [L|L]; [rewrite (D2 L); split; [lia|reflexivity]|].
    destruct C as [->|[->|[->|[->|[->|[->|[->|[->|C]]]]]]]]; try lia; cbn; split; intro; try congruence; lia.
Qed.
Print Assumptions C62_small.

(** Octaves add as their numbers do; the sum panics outside -2..=8. *)
Theorem C62_octave : forall a b,
  (-2 <= octave_value a + octave_value b <= 8 ->
     exists c, octave_plus a b = Ret c /\ octave_value c = octave_value a + octave_value b) /\
  (~ -2 <= octave_value a + octave_value b <= 8 -> octave_plus a b = Panic).
Proof.
  intros a b. split.
  - intro H. destruct a, b; try (exfalso; cbn in H; lia); eexists; split; reflexivity.
  - intro H. destruct a, b; try (exfalso; cbn in H; lia); reflexivity.
Qed.
Print Assumptions C62_octave.

(** The named keys are the fifteen key signatures, each once; a key other than 0 is
    either sharp or flat, and it has as many altered letters as its number says. *)
Theorem C62_keys :
  (forall k, In k key_all <-> -7 <= k <= 7) /\ NoDup key_all /\
  (forall k, In k key_all -> exists l, key_solfas k = Some l /\ NoDup l /\ Z.of_nat (length l) = Z.abs k) /\
  (forall k, (key_is_sharp k = true <-> 0 < k) /\ (key_is_flat k = true <-> k < 0)).
Proof.
  split; [|split; [|split]].
  - intro k. unfold key_all. cbn [In]. lia.
  - unfold key_all. repeat constructor; cbn; intuition discriminate.
  - intros k H. unfold key_all in H. cbn [In] in H.
    repeat (destruct H as [<-|H]; [eexists; split; [reflexivity|split; [repeat constructor; cbn; intuition discriminate|reflexivity]]|]).
    destruct H.
  - intro k. unfold key_is_sharp, key_is_flat. lia.
Qed.
Print Assumptions C62_keys.

(** ** [repeat_set!] *)

(** The macro gives exactly the listed marks; it panics exactly if one of them is
    refused because of a mark to its right. *)
Theorem C62_repeat_set : forall l,
  (ForallOrdPairs (fun m x => refused_by m x = false) l ->
     exists s, repeat_set l = Ret s /\ forall m, ms_contains s m = true <-> In m l) /\
  (~ ForallOrdPairs (fun m x => refused_by m x = false) l -> repeat_set l = Panic).
Proof.
  induction l as [|m l IH].
  - split.
    + intros _. exists ms_empty. split; [reflexivity|]. intro x. split; [destruct x; discriminate|intros []].
    + intro H. exfalso. apply H. constructor.
  - destruct IH as [I1 I2]. cbn [repeat_set]. split.
    + intro H. inversion H as [|? ? A B]; subst. destruct (I1 B) as (s & E & C). rewrite E. cbn [bind].
      destruct (try_add_spec s m) as [(s' & E' & _ & C')|(d & E' & _ & x & X1 & X2)].
      * rewrite E'. exists s'. split; [reflexivity|]. intro x. rewrite C', orb_true_iff, C. cbn [In].
        assert (Q : mark_eqb m x = true <-> m = x) by (destruct m, x; cbn; split; congruence).
        rewrite Q. tauto.
      * exfalso. apply C in X1. rewrite Forall_forall in A. rewrite (A _ X1) in X2. discriminate.
    + intro H. destruct (repeat_set l) as [s| |] eqn:E; try reflexivity; cbn [bind].
      * destruct (try_add_spec s m) as [(s' & E' & C & _)|(d & E' & _)]; [|rewrite E'; reflexivity].
        exfalso. apply H.
        assert (D : ForallOrdPairs (fun m x => refused_by m x = false) l \/
                    ~ ForallOrdPairs (fun m x => refused_by m x = false) l).
        { clear. induction l as [|a l [IH|IH]].
          - left. constructor.
          - destruct (forallb (fun x => negb (refused_by a x)) l) eqn:F.
            + left. constructor; [|exact IH]. rewrite forallb_forall in F. rewrite Forall_forall.
              intros x X. apply F in X. destruct (refused_by a x); [discriminate|reflexivity].
            + right. intro H. inversion H as [|? ? A B]; subst.
              assert (T : forallb (fun x => negb (refused_by a x)) l = true); [|congruence].
              rewrite forallb_forall. rewrite Forall_forall in A. intros x X. rewrite (A _ X). reflexivity.
          - right. intro H. inversion H; subst; auto. }
        destruct D as [D|D]; [|specialize (I2 D); congruence].
        destruct (I1 D) as (s'' & E'' & C''). injection E'' as <-.
        constructor; [|exact D]. rewrite Forall_forall. intros x X. apply C. apply C''. exact X.
      * exfalso. assert (D := I2). destruct l as [|a l']; [discriminate|].
        assert (~ ForallOrdPairs (fun m x => refused_by m x = false) (a :: l')).
        { intro K. destruct (I1 K) as (s & E' & _). congruence. }
        specialize (I2 H0). congruence.
Qed.
Print Assumptions C62_repeat_set.

(** The order matters: D.C. before Segno in the list panics, Segno before D.C. does not. *)
Theorem C62_repeat_set_order_refuted : exists a b s,
  repeat_set [a; b] = Ret s /\ repeat_set [b; a] = Panic.
Proof. exists Segno, Dc. eexists. split; [vm_compute; reflexivity|reflexivity]. Qed.
Print Assumptions C62_repeat_set_order_refuted.

(** ** Notes *)

(** The default note is a valid and storable quarter note A4 at tick 0, of which every
    correction is neutral. *)
Theorem C62_note_default : exists n, note_default = Ret n /\ valid_note n /\ savable_note n /\
  note_start_tick n = 0 /\ note_tick_len n = Ret 240 /\ note_velocity n = Ret 64 /\
  p_value (n_pitch n) = 81 /\ n_tie n = false /\ n_tied n = false /\ n_channel n = 0.
Proof.
  eexists. split; [vm_compute; reflexivity|].
  split; [|split; [|repeat split; vm_compute; reflexivity]].
  - assert (T : valid_trimmer (mkTrim 0 0 0 0 0)).
    { split; [repeat constructor; discriminate|reflexivity]. }
    split; [split; discriminate|]. split; [split; discriminate|]. split; [split; discriminate|].
    split; [split; split; discriminate|]. split; [exact T|]. split; [exact T|]. exact or_one.
  - assert (T : savable_trimmer (mkTrim 0 0 0 0 0)).
    { split; [repeat constructor; discriminate|]. split; [reflexivity|].
      split; [split; discriminate|]. split; split; discriminate. }
    split; [split; discriminate|]. split; [repeat split; vm_compute; congruence|].
    split; [split; discriminate|]. split; [split; discriminate|]. split; [split; discriminate|].
    split; [exact T|]. split; [|split; [exact T|split; discriminate]].
    split; [split; discriminate|]. split; [split; discriminate|]. split; [split; discriminate|].
    split; [split; discriminate|]. vm_compute. reflexivity.
Qed.
Print Assumptions C62_note_default.

(** A built note has every field that was set, and the default elsewhere. *)
Theorem C62_note_build : forall b, exists n d, note_build b = Ret n /\ note_default = Ret d /\
  let from {A : Type} (set : option A) (x default : A) :=
    match set with Some y => x = y | None => x = default end in
  from (nb_tick b) (n_base_tick n) (n_base_tick d) /\ from (nb_pitch b) (n_pitch n) (n_pitch d) /\
  from (nb_duration b) (n_duration n) (n_duration d) /\ from (nb_tie b) (n_tie n) (n_tie d) /\
  from (nb_tied b) (n_tied n) (n_tied d) /\ from (nb_velocity b) (n_base_velocity n) (n_base_velocity d) /\
  from (nb_tick_trimmer b) (n_tick_trimmer n) (n_tick_trimmer d) /\
  from (nb_duration_trimmer b) (n_duration_trimmer n) (n_duration_trimmer d) /\
  from (nb_velocity_trimmer b) (n_velocity_trimmer n) (n_velocity_trimmer d) /\
  from (nb_channel b) (n_channel n) (n_channel d).
Proof.
  intro b. destruct note_default as [d| |] eqn:E; try discriminate E.
  eexists. exists d. split; [unfold note_build; rewrite E; cbn [bind]; reflexivity|]. split; [reflexivity|].
  destruct b as [b1 b2 b3 b4 b5 b6 b7 b8 b9 b10]. cbn.
  split; [destruct b1; reflexivity|]. split; [destruct b2; reflexivity|]. split; [destruct b3; reflexivity|].
  split; [destruct b4; reflexivity|]. split; [destruct b5; reflexivity|]. split; [destruct b6; reflexivity|].
  split; [destruct b7; reflexivity|]. split; [destruct b8; reflexivity|]. split; [destruct b9; reflexivity|].
  destruct b10; reflexivity.
Qed.
Print Assumptions C62_note_build.

(** ** The other defaults *)
Theorem C62_defaults :
  tempo_default = mkTempo 0 120 /\ velocity_default = 64 /\ channel_default = 0 /\ play_iter_default = 1 /\
  rhythm_new 4 4 = Ret rhythm_default /\ grid_from_u32 60 = Some grid_default.
Proof. repeat split. Qed.
Print Assumptions C62_defaults.

(** ** Trimmers from vectors *)

(** A trimmer made of a vector is the one made of its first four values, and gives
    these values back; a shorter vector panics, and so does one of which a partial sum
    leaves i16. *)
Theorem C62_from_vec : forall v,
  ((length v < 4)%nat -> trimmer_from_vec v = Panic /\ rate_from_vec v = Panic) /\
  (forall a b c d w, v = a :: b :: c :: d :: w ->
     (i16 (a + b) -> i16 (a + b + c) -> i16 (a + b + c + d) -> trimmer_from_vec v = Ret (trimmer_new a b c d)) /\
     (~ (i16 (a + b) /\ i16 (a + b + c) /\ i16 (a + b + c + d)) -> trimmer_from_vec v = Panic) /\
     rate_from_vec v = Ret (rate_from_array a b c d)) /\
  (forall t, trimmer_from_vec v = Ret t -> trimmer_to_vec t = firstn 4 v) /\
  (forall r, rate_from_vec v = Ret r -> rate_to_vec r = firstn 4 v).
Proof.
  assert (K : forall a b c d,
    (i16 (a + b) -> i16 (a + b + c) -> i16 (a + b + c + d) -> trimmer_from_array a b c d = Ret (trimmer_new a b c d)) /\
    (~ (i16 (a + b) /\ i16 (a + b + c) /\ i16 (a + b + c + d)) -> trimmer_from_array a b c d = Panic) /\
    (forall t, trimmer_from_array a b c d = Ret t -> trimmer_to_vec t = [a; b; c; d])).
  { intros a b c d. unfold trimmer_from_array, chk_i16, chk, i16.
    set (x := a + b). fold x. set (y := x + c). set (z := y + d).
    assert (R : forall k, in_range i16_min i16_max k = true <-> i16_min <= k <= i16_max) by (intro; unfold in_range; lia).
    destruct (in_range i16_min i16_max x) eqn:X; cbn [bind].
    2:{ split; [|split; [reflexivity|discriminate]]. intro I. apply R in I. congruence. }
    fold y. destruct (in_range i16_min i16_max y) eqn:Y; cbn [bind].
    2:{ split; [|split; [reflexivity|discriminate]]. intros _ I. apply R in I. congruence. }
    fold z. destruct (in_range i16_min i16_max z) eqn:W; cbn [bind].
    2:{ split; [|split; [reflexivity|discriminate]]. intros _ _ I. apply R in I. congruence. }
    apply R in X, Y, W. split; [reflexivity|]. split; [tauto|].
    intros t E. injection E as <-. reflexivity. }
  intro v. split; [|split; [|split]].
  - intro L. destruct v as [|a [|b [|c [|d w]]]]; cbn in L; try lia; split; reflexivity.
  - intros a b c d w ->. destruct (K a b c d) as (K1 & K2 & _). split; [exact K1|]. split; [exact K2|reflexivity].
  - intros t E. destruct v as [|a [|b [|c [|d w]]]]; try discriminate.
    destruct (K a b c d) as (_ & _ & K3). exact (K3 t E).
  - intros r E. destruct v as [|a [|b [|c [|d w]]]]; try discriminate. injection E as <-. reflexivity.
Qed.
Print Assumptions C62_from_vec.

Example C62_example :
  rhythm_new 7 8 = Ret (mkRhythm 7 D8) /\ rhythm_new 100 8 = Panic /\ rhythm_new 4 3 = Panic /\
  tempo_new 5 0 = Ret (mkTempo 5 0) /\ tempo_new 5 1000 = Panic /\
  octave_plus O3 O4 = Ret O7 /\ octave_plus O5 O4 = Panic /\ octave_plus OM1 OM1 = Ret OM2 /\
  (exists s, repeat_set [Fine; Segno; End] = Ret s /\ ms_contains s Segno = true /\ ms_contains s Start = false) /\
  repeat_set [Var1; Var2] = Panic /\
  trimmer_from_vec [1; -2; 3; -4; 5] = Ret (trimmer_new 1 (-2) 3 (-4)) /\ trimmer_from_vec [1; 2; 3] = Panic.
Proof.
  repeat (split; [vm_compute; reflexivity|]).
  split; [eexists; split; [vm_compute; reflexivity|split; reflexivity]|].
  split; [reflexivity|split; reflexivity].
Qed.
