(** Property theorems about what a tuplet depends on: C97. *)
From Coq Require Import ZArith List Bool Lia Sorted Permutation.
From Verif Require Import Base M_Duration M_Note M_Tuple S_Note S_Tuple S_Carry P_Base P_Tuple.
From Verif Require Import M_Bar M_Store M_Models M_Project S_Project S_Effect S_Move P_Store P_Query P_Edit P_History P_Effect.
From Verif Require Import T_Tuple T_Move.
Import ListNotations.
Open Scope Z_scope.

Section Carried.
  Variables (R R' : note -> note -> Prop) (k : Z).
  Hypothesis place : forall a b, R a b -> n_base_tick b = n_base_tick a + k.
  Hypothesis value : forall a b, R a b -> d_num (n_duration b) = d_num (n_duration a) /\ d_dots (n_duration b) = d_dots (n_duration a).
  Hypothesis put : forall a b t den, R a b ->
    R' (set_duration (set_base_tick a t) (with_denominator (n_duration a) den)) (set_duration (set_base_tick b (t + k)) (with_denominator (n_duration b) den)).

  Lemma c_unit a b : R a b -> numerator_unit (n_duration b) = numerator_unit (n_duration a).
  Proof. intros H. destruct (value _ _ H) as [A B]. unfold numerator_unit. rewrite A, B. reflexivity. Qed.
  Lemma c_two a b : R a b -> with_denominator (n_duration b) 2 = with_denominator (n_duration a) 2.
  Proof. intros H. destruct (value _ _ H) as [A B]. unfold with_denominator. rewrite A, B. reflexivity. Qed.

  Lemma c_insert a b l l' : R a b -> Forall2 R l l' -> Forall2 R (insert_by_tick a l) (insert_by_tick b l').
  Proof.
    intros H F. induction F as [|x y l l' X F IH]; cbn [insert_by_tick]; [repeat constructor; exact H|].
    rewrite (place _ _ H), (place _ _ X). replace (n_base_tick a + k <=? n_base_tick x + k) with (n_base_tick a <=? n_base_tick x) by lia.
    destruct (n_base_tick a <=? n_base_tick x); constructor; auto.
  Qed.
  Lemma c_sort l l' : Forall2 R l l' -> Forall2 R (sort_notes l) (sort_notes l').
  Proof. intros F. induction F as [|x y l l' X F IH]; cbn; [constructor|]. apply c_insert; auto. Qed.

  (** Groups of notes at one tick. *)
  Definition R_elem (e f : tuple_elem) : Prop := te_tick f = te_tick e + k /\ Forall2 R (te_notes e) (te_notes f) /\ te_min f = te_min e.
  Definition R_opt (e f : option tuple_elem) : Prop := match e, f with Some e, Some f => R_elem e f | None, None => True | _, _ => False end.
  Lemma c_loop l l' : Forall2 R l l' -> forall e f es, R_opt e f -> te_loop e l = Ret es -> exists fs, te_loop f l' = Ret fs /\ Forall2 R_elem es fs.
  Proof.
    induction 1 as [|a b l l' X F IH]; intros e f es H E.
    - cbn in *. injection E as <-. destruct e, f; cbn in H; try contradiction; eexists; (split; [reflexivity|]); [apply Forall2_cons; [exact H|constructor]|constructor].
    - cbn [te_loop] in *. rewrite (c_unit _ _ X). apply bind_ret in E as (u & -> & E). cbn [bind].
      apply bind_ret in E as (r & E1 & E). destruct e as [e|], f as [f|]; cbn in H; try contradiction; unfold te_add in *.
      + destruct H as (T & N & M). rewrite T, (place _ _ X). replace (te_tick e + k =? n_base_tick a + k) with (te_tick e =? n_base_tick a) by lia.
        destruct (te_tick e =? n_base_tick a); cbn [negb] in *.
        * apply bind_ret in E1 as (m & E1 & E2). injection E2 as <-. rewrite M, (c_two _ _ X), E1. cbn [bind].
          eapply IH; [|exact E]. cbn. split; [reflexivity|]. split; [apply Forall2_app; auto|reflexivity].
        * injection E1 as <-. rewrite (c_two _ _ X). cbn [bind]. apply bind_ret in E as (rest & E1 & E). injection E as <-.
          destruct (IH (Some (mkTE (n_base_tick a) [a] (with_denominator (n_duration a) 2))) (Some (mkTE (n_base_tick a + k) [b] (with_denominator (n_duration a) 2))) rest) as (fs & -> & G); [|exact E1|].
          { cbn. split; [reflexivity|]. split; [repeat constructor; exact X|reflexivity]. }
          cbn [bind]. exists (f :: fs). split; [reflexivity|]. constructor; [repeat split; assumption|exact G].
      + injection E1 as <-. rewrite (c_two _ _ X), (place _ _ X). cbn [bind].
        eapply IH; [|exact E]. cbn. split; [reflexivity|]. split; [repeat constructor; exact X|reflexivity].
  Qed.

  Lemma c_units l l' : Forall2 R l l' -> omapM (fun n => numerator_unit (n_duration n)) l' = omapM (fun n => numerator_unit (n_duration n)) l.
  Proof. induction 1 as [|a b l l' X F IH]; [reflexivity|]. cbn [omapM]. rewrite (c_unit _ _ X), IH. reflexivity. Qed.

  Lemma c_total es fs : Forall2 R_elem es fs -> total_tick_unit fs = total_tick_unit es.
  Proof.
    unfold total_tick_unit. generalize (0, 0). intros s F. revert s. induction F as [|e f es fs (_ & _ & M) F IH]; intros s; [reflexivity|]. cbn [ofold]. destruct s as [x y]. rewrite M.
    match goal with |- bind ?x _ = _ => destruct x; cbn [bind]; auto end.
  Qed.

  Lemma c_notes es fs : Forall2 R_elem es fs -> Forall2 R (flat_map te_notes es) (flat_map te_notes fs).
  Proof. induction 1 as [|e f es fs (_ & N & _) F IH]; cbn; [constructor|]. apply Forall2_app; auto. Qed.

  Lemma c_put start total unit den l l' : Forall2 R l l' -> forall u out, tuple_notes start total unit den u l = Ret out ->
    Forall (fun n => Base.u32 (n_base_tick n + k)) out -> exists out', tuple_notes (start + k) total unit den u l' = Ret out' /\ Forall2 R' out out'.
  Proof.
    induction 1 as [|a b l l' X F IH]; intros u out E U; [cbn in *; injection E as <-; exists []; split; [reflexivity|constructor]|].
    cbn [tuple_notes] in *. apply bind_ret in E as (m & E1 & E). apply bind_ret in E as (t & E2 & E). cbv zeta in *. apply bind_ret in E as (v & E3 & E). apply bind_ret in E as (u' & E4 & E).
    apply bind_ret in E as (rest & E5 & E). injection E as <-. inversion U as [|? ? U1 U2]; subst. cbn [set_duration set_base_tick n_base_tick] in U1.
    destruct (IH _ _ E5 U2) as (rest' & R1 & R2). rewrite E1. cbn [bind].
    assert (T : t = start + m / unit) by (apply chk_inv in E2; tauto).
    assert (E2' : chk_u32 (start + k + m / unit) = Ret (t + k)).
    { unfold Base.u32 in U1. replace (start + k + m / unit) with (t + k) by lia. apply chk_ret. exact U1. }
    rewrite E2'. cbn [bind].
    assert (E3' : numerator_unit (with_denominator (n_duration b) den) = Ret v).
    { rewrite <- E3. destruct (value _ _ X) as [A B]. unfold numerator_unit, with_denominator. cbn [d_num d_dots]. rewrite A, B. reflexivity. }
    rewrite E3'. cbn [bind]. rewrite E4. cbn [bind]. rewrite R1. cbn [bind]. eexists. split; [reflexivity|]. constructor; [apply put; exact X|exact R2].
  Qed.

  Lemma carried l l' out : Forall2 R l l' -> tuplize l = Ret out -> Forall (fun n => Base.u32 (n_base_tick n + k)) out ->
    out = l /\ tuplize l' = Ret l' \/ exists out', tuplize l' = Ret out' /\ Forall2 R' out out'.
  Proof.
    intros F E U. destruct F as [|a b l l' X F]; [cbn in E; injection E as <-; left; auto|].
    assert (F0 : Forall2 R (a :: l) (b :: l')) by (constructor; assumption). unfold tuplize in E |- *. unfold sort_by_start_tick in *.
    apply bind_ret in E as ([[work mu] es] & E1 & E). apply bind_ret in E1 as (es' & E1 & E2). apply bind_ret in E2 as (us & E2 & E3). injection E3 as <- <- <-.
    pose proof (c_sort _ _ F0) as FS. destruct (c_loop _ _ FS None None es' Logic.I E1) as (fs & G1 & G2). rewrite G1. cbn [bind]. rewrite (c_units _ _ FS), E2. cbn [bind].
    destruct (gcd_units us) as [g|] eqn:GU; [|injection E as <-; right; exists []; split; [reflexivity|constructor]].
    apply bind_ret in E as (start & E3 & E). 
    assert (S' : match sort_notes (b :: l') with n :: _ => Ret (n_base_tick n) | [] => Panic end = Ret (start + k)).
    { clear - place FS E3. change (insert_by_tick a (sort_notes l)) with (sort_notes (a :: l)) in E3. revert FS E3. generalize (sort_notes (a :: l)) (sort_notes (b :: l')). intros s1 s2 FS E3. revert E3. destruct FS as [|x y ls ls' XY FS]; intros E3; [discriminate E3|]. injection E3 as <-. rewrite (place _ _ XY). reflexivity. }
    rewrite S'. cbn [bind]. rewrite (c_total _ _ G2). apply bind_ret in E as ([tt tu] & -> & E). cbn [bind]. cbv zeta in *.
    destruct (tu / g <? 2); [injection E as <-; left; auto|]. right.
    apply bind_ret in E as (total & -> & E). apply bind_ret in E as (den & -> & E). cbn [bind].
    exact (c_put _ _ _ _ _ _ (c_notes _ _ G2) _ _ E U).
  Qed.
End Carried.

(** What is moved, or gets other pitches, velocities, ties, channels and trimmers, becomes the same tuplet there, with these. *)
Theorem C97_dressed : forall h k notes out, blind h -> tuplize notes = Ret out -> Forall (fun n => Base.u32 (n_base_tick n + k)) out ->
  tuplize (map (dressed h k) notes) = Ret (map (dressed h k) out).
Proof.
  intros h k notes out B E U. destruct (carried (fun a b => b = dressed h k a) (fun a b => b = dressed h k a) k) with (l := notes) (l' := map (dressed h k) notes) (out := out) as [[-> H]|(out' & H & F)]; auto.
  - intros a b ->. reflexivity.
  - intros a b ->. split; reflexivity.
  - intros a b t den ->. assert (X : h (set_duration (set_base_tick a t) (with_denominator (n_duration a) den)) = h a) by (apply B; reflexivity). unfold dressed. rewrite X. reflexivity.
  - clear. induction notes; cbn; constructor; auto.
  - rewrite H. f_equal. clear - F. induction F as [|a b l l' -> F IH]; [reflexivity|]. cbn. f_equal. exact IH.
Qed.
Print Assumptions C97_dressed.

Lemma put_u32 start total unit den l : forall u out, tuple_notes start total unit den u l = Ret out -> Forall (fun n => Base.u32 (n_base_tick n)) out.
Proof.
  induction l as [|n l IH]; intros u out E; cbn [tuple_notes] in E; [injection E as <-; constructor|].
  apply bind_ret in E as (m & _ & E). apply bind_ret in E as (t & E2 & E). cbv zeta in *. apply bind_ret in E as (v & _ & E). apply bind_ret in E as (u' & _ & E).
  apply bind_ret in E as (rest & E5 & E). injection E as <-. constructor; [|eauto]. apply chk_inv in E2 as [-> B]. exact B.
Qed.
Lemma tuplize_u32 l out : Forall (fun n => Base.u32 (n_base_tick n)) l -> tuplize l = Ret out -> Forall (fun n => Base.u32 (n_base_tick n)) out.
Proof.
  intros U E. destruct l as [|a l]; [cbn in E; injection E as <-; constructor|]. unfold tuplize in E. apply bind_ret in E as ([[work mu] es] & _ & E).
  destruct mu as [g|]; [|injection E as <-; constructor]. apply bind_ret in E as (start & _ & E). apply bind_ret in E as ([tt tu] & _ & E). cbv zeta in E.
  destruct (tu / g <? 2); [injection E as <-; exact U|]. apply bind_ret in E as (total & _ & E). apply bind_ret in E as (den & _ & E). exact (put_u32 _ _ _ _ _ _ _ E).
Qed.

(** The tuplet numbers that the notes had do not matter; only where nothing is done the notes are given back as they are. *)
Theorem C97_numbers : forall notes notes' out, Forall2 renumbered notes notes' -> Forall (fun n => Base.u32 (n_base_tick n)) notes -> tuplize notes = Ret out ->
  tuplize notes' = Ret out \/ out = notes /\ tuplize notes' = Ret notes'.
Proof.
  intros notes notes' out F U E. destruct (carried renumbered eq 0) with (l := notes) (l' := notes') (out := out) as [H|(out' & H & G)]; auto.
  - intros a b [T _]. lia.
  - intros a b [_ X]. unfold essence, replaced_by in X. injection X as _ X1 X2 _ _ _ _ _ _ _. auto.
  - intros a b t den [_ X]. unfold essence, replaced_by in X. injection X as X0 X1 X2 X3 X4 X5 X6 X7 X8 X9. unfold set_duration, set_base_tick, with_denominator. cbn. rewrite Z.add_0_r. congruence.
  - eapply Forall_impl; [|exact (tuplize_u32 _ _ U E)]. intros n. rewrite Z.add_0_r. auto.
  - left. rewrite H. f_equal. clear - G. induction G as [|a b l l' -> F IH]; congruence.
Qed.
Print Assumptions C97_numbers.

Lemma insert_swap a b l : n_base_tick a <> n_base_tick b -> insert_by_tick a (insert_by_tick b l) = insert_by_tick b (insert_by_tick a l).
Proof.
  intros N. induction l as [|c l IH]; cbn [insert_by_tick].
  - destruct (Z.leb_spec (n_base_tick a) (n_base_tick b)), (Z.leb_spec (n_base_tick b) (n_base_tick a)); try reflexivity; lia.
  - destruct (Z.leb_spec (n_base_tick b) (n_base_tick c)) as [B|B], (Z.leb_spec (n_base_tick a) (n_base_tick c)) as [A|A]; cbn [insert_by_tick];
      repeat match goal with |- context [?x <=? ?y] => destruct (Z.leb_spec x y) end; try reflexivity; try lia. f_equal. exact IH.
Qed.
Lemma sort_same l l' : Permutation l l' -> NoDup (map n_base_tick l) -> sort_notes l = sort_notes l'.
Proof.
  induction 1 as [|x l l' P IH|x y l|l1 l2 l3 P1 IH1 P2 IH2]; intros N.
  - reflexivity.
  - inversion N; subst. change (insert_by_tick x (sort_notes l) = insert_by_tick x (sort_notes l')). rewrite IH by assumption. reflexivity.
  - change (insert_by_tick y (insert_by_tick x (sort_notes l)) = insert_by_tick x (insert_by_tick y (sort_notes l))). apply insert_swap. cbn in N. inversion N as [|? ? X _]; subst. intros E. apply X. left. symmetry. exact E.
  - rewrite IH1 by exact N. apply IH2. apply (Permutation_NoDup (Permutation_map n_base_tick P1) N).
Qed.

(** The order in which notes at different ticks are given does not matter. *)
Theorem C97_order : forall notes notes' out, Permutation notes notes' -> NoDup (map n_base_tick notes) -> tuplize notes = Ret out ->
  tuplize notes' = Ret out \/ out = notes /\ tuplize notes' = Ret notes'.
Proof.
  intros notes notes' out P N E. pose proof (sort_same _ _ P N) as S0.
  destruct notes as [|a l]; [apply Permutation_nil in P; subst; auto|]. destruct notes' as [|b l']; [apply Permutation_sym, Permutation_nil in P; discriminate|].
  unfold tuplize, sort_by_start_tick in *. rewrite <- S0.
  apply bind_ret in E as ([[work mu] es] & -> & E). cbn [bind]. destruct mu as [g|]; [|auto]. apply bind_ret in E as (start & -> & E). cbn [bind].
  apply bind_ret in E as ([tt tu] & -> & E). cbn [bind]. cbv zeta in *. destruct (tu / g <? 2); [injection E as <-; auto|auto].
Qed.
Print Assumptions C97_order.

Lemma sort_again l : sort_notes (sort_notes l) = sort_notes l.
Proof.
  pose proof (sort_sorted l) as H. induction H as [|a r H IH F]; [reflexivity|]. cbn [sort_notes fold_right]. change (fold_right insert_by_tick [] r) with (sort_notes r). rewrite IH.
  destruct r as [|b r]; [reflexivity|]. cbn [insert_by_tick]. apply Forall_inv in F. apply Z.leb_le in F. rewrite F. reflexivity.
Qed.
Lemma tuplize_sorted l out : tuplize l = Ret out -> tuplize (sort_notes l) = Ret out \/ out = l /\ tuplize (sort_notes l) = Ret (sort_notes l).
Proof.
  intros E. destruct l as [|a l]; [auto|]. destruct (sort_cons (a :: l)) as (n & r & SC); [discriminate|].
  unfold tuplize, sort_by_start_tick in *. rewrite SC. rewrite <- SC, sort_again.
  apply bind_ret in E as ([[work mu] es] & -> & E). cbn [bind]. destruct mu as [g|]; [|auto]. apply bind_ret in E as (start & -> & E). cbn [bind].
  apply bind_ret in E as ([tt tu] & -> & E). cbn [bind]. cbv zeta in *. destruct (tu / g <? 2); [injection E as <-; auto|auto].
Qed.
Lemma tuplize_unsorted l out : tuplize (sort_notes l) = Ret out -> tuplize l = Ret out \/ out = sort_notes l /\ tuplize l = Ret l.
Proof.
  intros E. destruct l as [|a l]; [auto|]. destruct (sort_cons (a :: l)) as (n & r & SC); [discriminate|].
  unfold tuplize, sort_by_start_tick in *. rewrite SC in E. rewrite <- SC, sort_again in E.
  apply bind_ret in E as ([[work mu] es] & -> & E). cbn [bind]. destruct mu as [g|]; [|auto]. apply bind_ret in E as (start & -> & E). cbn [bind].
  apply bind_ret in E as ([tt tu] & -> & E). cbn [bind]. cbv zeta in *. destruct (tu / g <? 2); [injection E as <-; auto|auto].
Qed.

Lemma sorted_eq (l l' : list Z) : StronglySorted Z.le l -> StronglySorted Z.le l' -> Permutation l l' -> l = l'.
Proof.
  intros H. revert l'. induction H as [|a l H IH F]; intros l' H' P; [apply Permutation_nil in P; congruence|].
  destruct l' as [|b l']; [apply Permutation_sym, Permutation_nil in P; discriminate|]. inversion H' as [|? ? H2 F2]; subst.
  assert (T : a = b).
  { assert (A : In a (b :: l')) by (apply (Permutation_in _ P); left; reflexivity). assert (B : In b (a :: l)) by (apply (Permutation_in _ (Permutation_sym P)); left; reflexivity).
    destruct A as [A|A]; [congruence|]. destruct B as [B|B]; [congruence|]. apply (proj1 (Forall_forall _ _) F2) in A. apply (proj1 (Forall_forall _ _) F) in B. lia. }
  subst b. apply Permutation_cons_inv in P. rewrite (IH l' H2 P). reflexivity.
Qed.
Lemma sorted_map l : StronglySorted tle l -> StronglySorted Z.le (map n_base_tick l).
Proof. induction 1 as [|a l H IH F]; cbn; constructor; auto. apply Forall_map. exact F. Qed.

(** Of notes that start together and are worth the same any order will do: the tuplet takes the same places with the same values. *)
Theorem C97_chords : forall notes notes' out, Permutation notes notes' -> Forall (fun n => Base.u32 (n_base_tick n)) notes ->
  (forall a b, In a notes -> In b notes -> n_base_tick a = n_base_tick b -> worth a b) -> tuplize notes = Ret out ->
  exists out', tuplize notes' = Ret out' /\ Permutation (map stands out) (map stands out').
Proof.
  intros notes notes' out P U W E.
  pose (R := fun a b => n_base_tick b = n_base_tick a + 0 /\ worth a b).
  assert (PS : Permutation (sort_notes notes) (sort_notes notes')) by (rewrite <- (sort_perm notes), <- (sort_perm notes'); exact P).
  assert (F : Forall2 R (sort_notes notes) (sort_notes notes')).
  { pose proof (sorted_eq _ _ (sorted_map _ (sort_sorted notes)) (sorted_map _ (sort_sorted notes')) (Permutation_map n_base_tick PS)) as T.
    assert (I1 : forall n, In n (sort_notes notes) -> In n notes) by (intros n; apply (Permutation_in _ (Permutation_sym (sort_perm notes)))).
    assert (I2 : forall n, In n (sort_notes notes') -> In n notes) by (intros n J; apply (Permutation_in _ (Permutation_sym P)); apply (Permutation_in _ (Permutation_sym (sort_perm notes'))); exact J).
    revert T I1 I2. generalize (sort_notes notes) (sort_notes notes'). clear - W. intros l. induction l as [|a l IH]; intros [|b l'] T I1 I2; try discriminate T; constructor.
    - injection T as T _. split; [lia|]. apply W; [apply I1; left; reflexivity|apply I2; left; reflexivity|exact T].
    - injection T as _ T. apply IH; [exact T|intros n J; apply I1; right; exact J|intros n J; apply I2; right; exact J]. }
  assert (SP : Permutation (map stands notes) (map stands notes')) by (apply Permutation_map; exact P).
  assert (PUT : forall a b t den, R a b -> (fun c d => stands c = stands d) (set_duration (set_base_tick a t) (with_denominator (n_duration a) den)) (set_duration (set_base_tick b (t + 0)) (with_denominator (n_duration b) den))).
  { intros a b t den [_ [A B]]. unfold stands, set_duration, set_base_tick, with_denominator. cbn. rewrite A, B, Z.add_0_r. reflexivity. }
  pose proof (carried R (fun c d => stands c = stands d) 0 (fun a b X => proj1 X) (fun a b X => proj2 X) PUT) as CA.
  assert (US : Forall (fun n => Base.u32 (n_base_tick n)) (sort_notes notes)) by (apply (Permutation_Forall (sort_perm notes) U)).
  assert (GO : forall o, tuplize (sort_notes notes) = Ret o -> o = sort_notes notes /\ tuplize (sort_notes notes') = Ret (sort_notes notes') \/ exists o', tuplize (sort_notes notes') = Ret o' /\ map stands o = map stands o').
  { intros o EO. destruct (CA _ _ o F EO) as [X|(o' & X & Y)]; [eapply Forall_impl; [|exact (tuplize_u32 _ _ US EO)]; intros n; rewrite Z.add_0_r; auto|left; exact X|right].
    exists o'. split; [exact X|]. clear - Y. induction Y as [|c d l l' H Y IH]; cbn; congruence. }
  assert (AS : forall l, Permutation (map stands (sort_notes l)) (map stands l)) by (intros l; apply Permutation_map, Permutation_sym, sort_perm).
  assert (OUT : exists o, tuplize (sort_notes notes) = Ret o /\ Permutation (map stands out) (map stands o)).
  { destruct (tuplize_sorted _ _ E) as [X|[-> X]]; [exists out; auto|exists (sort_notes notes); split; [exact X|symmetry; apply AS]]. }
  destruct OUT as (o & EO & PO).
  assert (OUT' : exists o', tuplize (sort_notes notes') = Ret o' /\ Permutation (map stands o) (map stands o')).
  { destruct (GO o EO) as [[-> X]|(o' & X & Y)]; [exists (sort_notes notes'); split; [exact X|apply Permutation_map; exact PS]|exists o'; split; [exact X|rewrite Y; reflexivity]]. }
  destruct OUT' as (o' & EO' & PO'). destruct (tuplize_unsorted _ _ EO') as [X|[-> X]].
  - exists o'. split; [exact X|]. rewrite PO. exact PO'.
  - exists notes'. split; [exact X|]. rewrite PO, PO'. apply AS.
Qed.
Print Assumptions C97_chords.

(** In general the order of a chord does matter: its notes are spread in the order they are given. *)
Theorem C97_chord_refuted : exists notes notes' out out', valid_notes notes /\ Permutation notes notes' /\ tuplize notes = Ret out /\ tuplize notes' = Ret out' /\ ~ Permutation out out'.
Proof.
  pose (a := tnote 0 (mkDur Quarter 2 0)). pose (b := tnote 0 (mkDur Half 2 0)). pose (c := tnote 240 (mkDur Quarter 2 0)).
  exists [a; b; c], [b; a; c]. eexists. eexists. split; [repeat constructor; cbn; lia|]. split; [apply perm_swap|]. split; [vm_compute; reflexivity|]. split; [vm_compute; reflexivity|].
  intros P. apply (Permutation_map n_base_tick) in P. assert (X : In 240 [0; 480; 720]) by (apply (Permutation_in 240 P); right; left; reflexivity).
  destruct X as [X|[X|[X|[]]]]; discriminate X.
Qed.
Print Assumptions C97_chord_refuted.

(** ** In a project *)
Lemma note_from l l' : length l = length l' -> changes_from (note_change l l') = mkModels l [] [] [] [].
Proof. intros H. unfold changes_from, note_change. cbn. rewrite fst_combine by exact H. reflexivity. Qed.
Lemma note_to l l' : length l = length l' -> changes_to (note_change l l') = mkModels l' [] [] [] [].
Proof. intros H. unfold changes_to, note_change. cbn. rewrite snd_combine by exact H. reflexivity. Qed.
Lemma note_typed l l' : length l = length l' -> edit_typed (EChange (note_change l l')).
Proof. intros H. cbn [edit_typed]. rewrite note_from, note_to by exact H. split; repeat constructor. Qed.
Lemma note_distinct l : all_distinct (mkModels l [] [] [] []).
Proof. constructor; constructor. Qed.

(** Making a tuplet is changing its notes. *)
Lemma tuplize_change p l t p' c : tuplize l = Ret t -> length l = length t -> edit_run (ETuplize l) p = Ret (Some (p', c)) -> edit_run (EChange (note_change l t)) p = Ret (Some (p', c)).
Proof.
  intros E L H. cbn [edit_run] in *. rewrite tuplize_runs in H. destruct (1 <? length l)%nat; [|discriminate]. rewrite E in H. cbn [bind] in H.
  rewrite change_runs, note_from, note_to by exact L. exact H.
Qed.

Lemma note_free p l l' : all_free p (mkModels l [] [] [] []) (mkModels l' [] [] [] []).
Proof. constructor; repeat intro; cbn in *; contradiction. Qed.

(** Two note changes in succession. *)
Lemma note_two p l m r q q' c c' : project_ok p -> contains_notes p l -> length l = length m -> length m = length r ->
  edit_run (EChange (note_change l m)) p = Ret (Some (q, c)) -> edit_run (EChange (note_change m r)) q = Ret (Some (q', c')) ->
  project_ok q' /\ moved p (mkModels l [] [] [] []) (mkModels r [] [] [] []) q'.
Proof.
  intros O C L1 L2 E E'. assert (PR : all_present p (mkModels l [] [] [] [])) by (constructor; [exact C|intros v []..]).
  assert (W : edit_wf (EChange (note_change l m)) p) by (cbn [edit_wf]; rewrite note_from, note_to by exact L1; split; [exact PR|apply note_distinct]).
  destruct (moved_one _ _ _ _ O (note_typed _ _ L1) W E) as [OQ M].
  rewrite note_from, note_to in M by exact L1. rewrite <- (note_to m r L2).
  eapply (moved_on p _ _ q (note_change m r)); [exact O|exact OQ|exact PR|exact M|apply note_free|apply note_from; exact L2|apply note_typed; exact L2|rewrite note_to by exact L2; apply note_distinct|exact E'].
Qed.

(** So in a project: making the tuplet and then moving its notes and giving them other pitches, velocities, channels, ties or trimmers comes to the same as doing that first,
    but for blank bars at the end. *)
Theorem C97_project : forall p notes out h k q q', project_ok p -> contains_notes p notes -> valid_notes notes -> blind h -> tuplize notes = Ret out ->
  Forall (fun n => Base.u32 (n_base_tick n + k)) out ->
  edits_done p [ETuplize notes; EChange (note_change out (map (dressed h k) out))] q ->
  edits_done p [EChange (note_change notes (map (dressed h k) notes)); ETuplize (map (dressed h k) notes)] q' -> apart_from_blanks q q'.
Proof.
  intros p notes out h k q q' O C V B E U D D'.
  assert (L : length notes = length out).
  { destruct notes as [|a l]; [cbn in E; injection E as <-; reflexivity|]. destruct (tuplize_keeps (a :: l) out) as (KE & _); [discriminate|exact V|exact E|].
    apply Permutation_length in KE. rewrite !map_length in KE. auto. }
  pose proof (C97_dressed h k notes out B E U) as E'.
  inversion D as [|? ? c1 p1 ? ? R1 D1]; subst. inversion D1 as [|? ? c2 p2 ? ? R2 D2]; subst. inversion D2; subst.
  inversion D' as [|? ? c3 p3 ? ? R3 D3]; subst. inversion D3 as [|? ? c4 p4 ? ? R4 D4]; subst. inversion D4; subst. clear D D1 D2 D' D3 D4.
  apply (tuplize_change _ _ _ _ _ E L) in R1. apply (tuplize_change _ _ _ _ _ E') in R4; [|rewrite !map_length; exact L].
  destruct (note_two _ _ _ _ _ _ _ _ O C L (eq_sym (map_length _ _)) R1 R2) as [O1 M1].
  assert (L2 : length (map (dressed h k) notes) = length (map (dressed h k) out)) by (rewrite !map_length; exact L).
  destruct (note_two _ _ _ _ _ _ _ _ O C (eq_sym (map_length _ _)) L2 R3 R4) as [O2 M2].
  apply (moved_same p _ _ _ _ q q' O1 O2 (same_refl _) (same_refl _) M1 M2).
Qed.
Print Assumptions C97_project.

(** ** The hypotheses are met *)
Local Ltac nums := repeat (apply Forall_cons; [cbn; unfold Base.u32, u32_max; lia|]); apply Forall_nil.
(** Three quarters, made louder and moved by a bar. *)
Definition louder (n : note) : note :=
  mkNote (n_base_tick n) (n_pitch n) (n_duration n) (n_tie n) (n_tied n) (n_base_velocity n + 20) (n_tick_trimmer n) (n_duration_trimmer n) (n_velocity_trimmer n) (n_channel n).
(** As [louder], but blind to where the note starts and to its tuplet number. *)
Definition loud (n : note) : note := louder (essence n).
Lemma loud_blind : blind loud.
Proof. intros n m E. unfold loud. rewrite E. reflexivity. Qed.
Definition three := [tnote 0 (mkDur Quarter 2 0); tnote 240 (mkDur Quarter 2 0); tnote 480 (mkDur Quarter 2 0)].
Example C97_dressed_case : exists out, blind loud /\ tuplize three = Ret out /\ map n_base_tick out = [0; 160; 320] /\ Forall (fun n => Base.u32 (n_base_tick n + 960)) out /\
  tuplize (map (dressed loud 960) three) = Ret (map (dressed loud 960) out) /\ map n_base_tick (map (dressed loud 960) out) = [960; 1120; 1280] /\ map n_base_velocity (map (dressed loud 960) out) = [84; 84; 84].
Proof.
  eexists. split; [exact loud_blind|]. split; [vm_compute; reflexivity|]. split; [reflexivity|]. split; [nums|].
  split; [vm_compute; reflexivity|]. split; reflexivity.
Qed.
(** Quarters that were a quintuplet before; and in another order. *)
Definition five := map (fun n => set_duration n (with_denominator (n_duration n) 5)) three.
Example C97_numbers_case : exists out, Forall2 renumbered three five /\ three <> five /\ Forall (fun n => Base.u32 (n_base_tick n)) three /\ tuplize three = Ret out /\ tuplize five = Ret out.
Proof.
  eexists. split; [repeat constructor|]. split; [discriminate|]. split; [nums|]. split; vm_compute; reflexivity.
Qed.
Example C97_order_case : exists out, Permutation three (rev three) /\ NoDup (map n_base_tick three) /\ tuplize three = Ret out /\ tuplize (rev three) = Ret out.
Proof.
  eexists. split; [apply Permutation_rev|]. split; [cbn; repeat constructor; cbn; intuition discriminate|]. split; [vm_compute; reflexivity|vm_compute; reflexivity].
Qed.
Example C97_chords_case : let l := [tnote 240 (mkDur Quarter 2 0); tnote 0 (mkDur Half 2 0); tnote 0 (mkDur Half 3 0)] in
  exists out, Permutation l (rev l) /\ Forall (fun n => Base.u32 (n_base_tick n)) l /\ (forall a b, In a l -> In b l -> n_base_tick a = n_base_tick b -> worth a b) /\
    tuplize l = Ret out /\ ~ NoDup (map n_base_tick l) /\ map stands out = [(0, mkDur Half 3 0); (320, mkDur Half 3 0); (640, mkDur Quarter 3 0)].
Proof.
  intros l. eexists. split; [apply Permutation_rev|]. split; [nums|]. split.
  { intros a b [<-|[<-|[<-|[]]]] [<-|[<-|[<-|[]]]] T; try discriminate T; split; reflexivity. }
  split; [vm_compute; reflexivity|]. split; [|reflexivity]. intros N. inversion N as [|? ? _ N2]; subst. inversion N2 as [|? ? X _]; subst. apply X. left. reflexivity.
Qed.
Example C97_project_case : let l := [T_Project.ex_note 0 M_Pitch.SC; T_Project.ex_note 480 M_Pitch.SE; T_Project.ex_note 1600 M_Pitch.SA] in
  exists out q q', project_ok T_Project.ex_project /\ contains_notes T_Project.ex_project l /\ valid_notes l /\ blind loud /\ tuplize l = Ret out /\
    Forall (fun n => Base.u32 (n_base_tick n + 960)) out /\
    edits_done T_Project.ex_project [ETuplize l; EChange (note_change out (map (dressed loud 960) out))] q /\
    edits_done T_Project.ex_project [EChange (note_change l (map (dressed loud 960) l)); ETuplize (map (dressed loud 960) l)] q' /\
    map fst (pj_notes q) = [480; 960; 1120; 1280] /\ apart_from_blanks q q'.
Proof.
  intros l. assert (CN : contains_notes T_Project.ex_project l).
  { exists [T_Project.ex_note 480 M_Pitch.SG]. cbn. apply perm_skip, perm_skip, perm_swap. }
  assert (V : valid_notes l) by (repeat constructor; cbn; lia).
  assert (E : exists out, tuplize l = Ret out /\ Forall (fun n => Base.u32 (n_base_tick n + 960)) out /\ exists q, edits_done T_Project.ex_project [ETuplize l; EChange (note_change out (map (dressed loud 960) out))] q /\ map fst (pj_notes q) = [480; 960; 1120; 1280]).
  { eexists. split; [vm_compute; reflexivity|]. split; [nums|]. eexists. split; [eapply done_cons; [vm_compute; reflexivity|eapply done_cons; [vm_compute; reflexivity|apply done_nil]]|reflexivity]. }
  destruct E as (out & E & U & q & D & T).
  assert (E' : exists q', edits_done T_Project.ex_project [EChange (note_change l (map (dressed loud 960) l)); ETuplize (map (dressed loud 960) l)] q').
  { eexists. eapply done_cons; [vm_compute; reflexivity|eapply done_cons; [vm_compute; reflexivity|apply done_nil]]. }
  destruct E' as (q' & D'). exists out, q, q'. split; [exact T_Project.ex_project_ok|]. split; [exact CN|]. split; [exact V|]. split; [exact loud_blind|]. split; [exact E|]. split; [exact U|].
  split; [exact D|]. split; [exact D'|]. split; [exact T|]. apply (C97_project _ _ _ _ _ _ _ T_Project.ex_project_ok CN V loud_blind E U D D').
Qed.
