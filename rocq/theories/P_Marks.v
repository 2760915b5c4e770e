From Verif Require Import P_Base M_Scalar M_Bar S_Note.
Open Scope Z_scope.

Definition mark_eqb (a b : mark) : bool := mark_bit a =? mark_bit b.

Lemma mark_eqb_eq a b : mark_eqb a b = true <-> a = b.
Proof. destruct a, b; cbn; split; intros H; congruence. Qed.

Lemma mark_bit_range m : 0 <= mark_bit m <= 10.
Proof. destruct m; cbn; lia. Qed.

Lemma single_contains m x : ms_contains (ms_single m) x = mark_eqb m x.
Proof. destruct m, x; reflexivity. Qed.

Lemma mark_bit_surj n : 0 <= n <= 10 -> exists m, mark_bit m = n.
Proof.
  intros H. assert (E : In n (map mark_bit all_marks)).
  { cbn. lia. }
  apply in_map_iff in E as (m & Hm & _). eauto.
Qed.

Lemma lor_contains s m x : ms_contains (Z.lor s (ms_single m)) x = ms_contains s x || mark_eqb m x.
Proof. unfold ms_contains. rewrite Z.lor_spec. f_equal. apply single_contains. Qed.

Lemma remove_contains s m x : ms_contains (ms_remove s m) x = ms_contains s x && negb (mark_eqb m x).
Proof. unfold ms_contains, ms_remove. rewrite Z.ldiff_spec. do 2 f_equal. apply single_contains. Qed.

(** the dislike tables *)
Definition dislike_of (m : mark) : mark_set :=
  match m with
  | Start => start_dislike | End => end_dislike | Dc => dc_dislike | Ds => ds_dislike
  | Fine | Segno | Coda => ms_empty
  | Var1 => region1_dislike | Var2 => region2_dislike | Var3 => region3_dislike | Var4 => region4_dislike
  end.

Lemma dislike_refused m x : ms_contains (dislike_of m) x = refused_by m x.
Proof. destruct m, x; reflexivity. Qed.

Lemma dislike_small m : 0 <= dislike_of m < 2 ^ 11.
Proof. destruct m; vm_compute; split; congruence. Qed.

Lemma try_add_unfold s m : try_add s m = try_add_repeat s (dislike_of m) m.
Proof. destruct m; reflexivity. Qed.

Lemma land_zero_iff a s : 0 <= a < 2 ^ 11 ->
  Z.land a s = 0 <-> forall x, ms_contains a x && ms_contains s x = false.
Proof.
  intros Ha. split.
  - intros H x. unfold ms_contains. rewrite <- Z.land_spec, H. apply Z.bits_0.
  - intros H. apply Z.bits_inj'. intros n Hn. rewrite Z.land_spec, Z.bits_0.
    destruct (Z_le_dec n 10).
    + destruct (mark_bit_surj n) as [m <-]; [lia|]. apply H.
    + destruct (Z.eq_dec a 0) as [->|]; [rewrite Z.bits_0; auto|].
      rewrite (Z.bits_above_log2 a n); auto; [lia|].
      assert (Z.log2 a < 11) by (apply Z.log2_lt_pow2; lia). lia.
Qed.

Lemma try_add_spec s m :
  (exists s', try_add s m = Ok s' /\
     (forall x, ms_contains s x = true -> refused_by m x = false) /\
     (forall x, ms_contains s' x = ms_contains s x || mark_eqb m x)) \/
  (exists d, try_add s m = Err d /\
     (forall x, ms_contains d x = ms_contains s x && refused_by m x) /\
     exists x, ms_contains s x = true /\ refused_by m x = true).
Proof.
  rewrite try_add_unfold. unfold try_add_repeat.
  destruct (Z.eqb_spec (Z.land (dislike_of m) s) 0) as [E|E].
  - left. eexists; split; [reflexivity|]. split.
    + intros x Hx. apply (land_zero_iff _ s (dislike_small m)) with (x := x) in E.
      rewrite dislike_refused, Hx, andb_true_r in E. exact E.
    + intros x. apply lor_contains.
  - right. eexists; split; [reflexivity|]. split.
    + intros x. unfold ms_contains. rewrite Z.land_spec. fold (ms_contains (dislike_of m) x) (ms_contains s x).
      rewrite dislike_refused. apply andb_comm.
    + destruct (existsb (fun x => ms_contains s x && refused_by m x) all_marks) eqn:Ex.
      * apply existsb_exists in Ex as (x & _ & Hx). apply andb_prop in Hx. eauto.
      * exfalso. apply E. apply (land_zero_iff _ s (dislike_small m)). intros x. rewrite dislike_refused.
        destruct (refused_by m x) eqn:R, (ms_contains s x) eqn:C; auto.
        assert (existsb (fun x => ms_contains s x && refused_by m x) all_marks = true); [|congruence].
        apply existsb_exists. exists x. rewrite R, C. split; auto. destruct x; cbn; tauto.
Qed.

Definition marks_ok (s : mark_set) : Prop :=
  forall a b, ms_contains s a = true -> ms_contains s b = true -> contradict a b = false.

Lemma remove_regions_contains s x : ms_contains (remove_regions s) x = ms_contains s x && negb (is_var x).
Proof.
  unfold remove_regions. rewrite !remove_contains. destruct x; cbn; rewrite ?andb_true_r, ?andb_false_r; reflexivity.
Qed.

Lemma contradict_refused a b : contradict a b = true -> refused_by a b = true /\ refused_by b a = true.
Proof. destruct a, b; cbn; intros H; try discriminate; auto. Qed.

Lemma contradict_self a : contradict a a = false.
Proof. destruct a; reflexivity. Qed.

Lemma mark_step_ok s o : marks_ok s -> marks_ok (mark_step s o).
Proof.
  intros H. destruct o as [m|m|]; cbn [mark_step].
  - destruct (try_add_spec s m) as [(s' & -> & R & C)|(d & -> & _)]; auto.
    intros a b Ha Hb. rewrite C in Ha, Hb.
    destruct (contradict a b) eqn:E; auto. exfalso.
    pose proof (contradict_refused _ _ E) as [Rab Rba].
    destruct (mark_eqb m a) eqn:Ea, (mark_eqb m b) eqn:Eb; rewrite ?orb_true_r, ?orb_false_r in *.
    + apply mark_eqb_eq in Ea, Eb. subst. rewrite contradict_self in E. discriminate.
    + apply mark_eqb_eq in Ea. subst a. rewrite (R _ Hb) in Rab. discriminate.
    + apply mark_eqb_eq in Eb. subst b. rewrite (R _ Ha) in Rba. discriminate.
    + rewrite (H _ _ Ha Hb) in E. discriminate.
  - intros a b Ha Hb. rewrite remove_contains in Ha, Hb. apply andb_prop in Ha as [Ha _], Hb as [Hb _]. auto.
  - intros a b Ha Hb. rewrite remove_regions_contains in Ha, Hb. apply andb_prop in Ha as [Ha _], Hb as [Hb _]. auto.
Qed.

Lemma marks_history os : marks_ok (fold_left mark_step os ms_empty).
Proof.
  assert (G : forall s, marks_ok s -> marks_ok (fold_left mark_step os s)).
  { induction os as [|o os IH]; cbn [fold_left]; auto. intros s Hs. apply IH, mark_step_ok; auto. }
  apply G. intros a b Ha. unfold ms_contains, ms_empty in Ha. rewrite Z.bits_0 in Ha. discriminate.
Qed.

Lemma region_index_spec s : marks_ok s ->
  forall v, region_index s = Some v <-> ms_contains s (var_to_mark v) = true.
Proof.
  intros H v. unfold region_index.
  assert (X : forall a b, ms_contains s a = true -> ms_contains s b = true -> is_var a = true -> is_var b = true -> a = b).
  { intros a b Ha Hb Va Vb. specialize (H _ _ Ha Hb). destruct a, b; cbn in *; congruence. }
  destruct (ms_contains s Var1) eqn:E1; [|destruct (ms_contains s Var2) eqn:E2; [|destruct (ms_contains s Var3) eqn:E3; [|destruct (ms_contains s Var4) eqn:E4]]];
    destruct v; cbn [var_to_mark]; split; intros G; try congruence; try reflexivity;
    try (pose proof (X _ _ E1 G eq_refl eq_refl); discriminate);
    try (pose proof (X _ _ E2 G eq_refl eq_refl); discriminate);
    try (pose proof (X _ _ E3 G eq_refl eq_refl); discriminate).
Qed.

Lemma marks_same s s' : 0 <= s < 2 ^ 11 -> 0 <= s' < 2 ^ 11 ->
  (forall m, ms_contains s m = ms_contains s' m) -> s = s'.
Proof.
  intros A B H. apply Z.bits_inj'. intros n Hn. destruct (Z_le_dec n 10).
  - destruct (mark_bit_surj n) as [m <-]; [lia|]. apply H.
  - assert (K : forall a, 0 <= a < 2 ^ 11 -> Z.testbit a n = false).
    { intros a Ha. destruct (Z.eq_dec a 0) as [->|]; [apply Z.bits_0|].
      apply Z.bits_above_log2; [lia|]. assert (Z.log2 a < 11) by (apply Z.log2_lt_pow2; lia). lia. }
    rewrite (K s A), (K s' B). reflexivity.
Qed.

Lemma small_bits a : 0 <= a -> (forall n, 11 <= n -> Z.testbit a n = false) -> 0 <= a < 2 ^ 11.
Proof.
  intros A H. split; [exact A|]. destruct (Z.eq_dec a 0) as [->|N]; [reflexivity|].
  apply Z.log2_lt_pow2; [lia|]. destruct (Z_lt_le_dec (Z.log2 a) 11) as [L|L]; [exact L|].
  exfalso. specialize (H _ L). rewrite Z.bit_log2 in H by lia. discriminate.
Qed.

Lemma single_small m : 0 <= ms_single m < 2 ^ 11.
Proof. destruct m; vm_compute; split; congruence. Qed.

Lemma high_bits a n : 0 <= a < 2 ^ 11 -> 11 <= n -> Z.testbit a n = false.
Proof.
  intros Ha Hn. destruct (Z.eq_dec a 0) as [->|]; [apply Z.bits_0|].
  apply Z.bits_above_log2; [lia|]. assert (Z.log2 a < 11) by (apply Z.log2_lt_pow2; lia). lia.
Qed.

Lemma remove_small s m : 0 <= s < 2 ^ 11 -> 0 <= ms_remove s m < 2 ^ 11.
Proof.
  intro H. unfold ms_remove. apply small_bits; [apply Z.ldiff_nonneg; lia|].
  intros n Hn. rewrite Z.ldiff_spec, (high_bits s n H Hn). reflexivity.
Qed.

Lemma mark_step_small s o : 0 <= s < 2 ^ 11 -> 0 <= mark_step s o < 2 ^ 11.
Proof.
  intro H. destruct o as [m|m|].
  - cbn [mark_step]. rewrite try_add_unfold. unfold try_add_repeat.
    destruct (Z.land (dislike_of m) s =? 0); [|exact H].
    apply small_bits; [apply Z.lor_nonneg; pose proof (single_small m); lia|].
    intros n Hn. rewrite Z.lor_spec, (high_bits s n H Hn), (high_bits _ n (single_small m) Hn). reflexivity.
  - apply remove_small, H.
  - unfold mark_step, remove_regions. do 4 apply remove_small. exact H.
Qed.

Lemma marks_small os : forall s, 0 <= s < 2 ^ 11 -> 0 <= fold_left mark_step os s < 2 ^ 11.
Proof. induction os as [|o os IH]; intros s H; [exact H|]. apply IH, mark_step_small, H. Qed.
