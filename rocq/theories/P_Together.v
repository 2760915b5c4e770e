(** Lemmas about edits made together or one after the other: C73. *)
From Coq Require Import ZArith List Bool Lia Sorted Permutation.
From Verif Require Import Base M_Duration M_Scalar M_Bar M_Note M_Store M_Models M_Project.
From Verif Require Import S_Project S_Score S_Effect P_Base P_Store P_Query P_Replenish P_Edit P_History P_Effect.
Import ListNotations.
Open Scope Z_scope.

(** ** Replenishing *)

Lemma replenish_intro p ne r n : project_ok p -> notes_valid p -> note_max_end_tick p = Ret ne -> rhythm_at p (last_tick p) = Ret r ->
  content_end p ne <= last_tick p + Z.of_nat n * rhythm_tick_len r ->
  (n = O \/ (0 < rhythm_tick_len r /\ last_tick p + (Z.of_nat n - 1) * rhythm_tick_len r < content_end p ne /\
             last_tick p + Z.of_nat n * rhythm_tick_len r <= u32_max)) ->
  let more := even_bars (last_tick p) (rhythm_tick_len r) n in
  replenish_bars p = Ret (pj_set_bars p (pj_bars p ++ map bar_entry more), more).
Proof.
  intros O V En Er H1 H2 more. pose proof (ok_bars p O) as Hb.
  pose proof (content_end_spec p ne O V (note_max_end_spec p ne (ok_notes p O) V En)) as (C1 & C2 & C3).
  pose proof (last_tick_range p Hb) as U. unfold u32 in *.
  destruct (replenish_exact p O V) as (r' & Er' & HH & HP). rewrite Er in Er'. apply ret_inj in Er'. subst r'.
  destruct (replenish_bars p) as [[p' mo]| |] eqn:E.
  - destruct (replenish_ret p p' mo Hb E) as (ne' & r' & n' & En' & Er' & -> & -> & H1' & H2').
    rewrite En in En'. apply ret_inj in En'. subst ne'. rewrite Er in Er'. apply ret_inj in Er'. subst r'.
    assert (n' = n) as -> by (destruct H2 as [->|(H2 & H3 & _)], H2' as [->|(H2' & H3' & _)]; nia).
    reflexivity.
  - exfalso. destruct (proj1 HP eq_refl) as (t & T & [Q|(Q1 & Q2 & Q3)]); apply C2 in T; [lia|].
    specialize (Q3 (Z.of_nat n) ltac:(lia) ltac:(lia)). destruct H2 as [->|H2]; lia.
  - exfalso. destruct (proj1 HH eq_refl) as (Q1 & (t & T & Q2) & _). apply C2 in T. rewrite Q1 in H1. lia.
Qed.

(** ** Adding *)

Definition add_in (m : models) (p : project) : project := exchange models_empty m p.

Lemma add_in_both m m' p : add_in (m_both m m') p = add_in m' (add_in m p).
Proof.
  unfold add_in, exchange, m_both. cbn [m_notes m_bars m_tempos m_dumpers m_softs pj_notes pj_bars pj_tempos pj_dumpers pj_softs pj_rhythm pj_key pj_grid models_empty map].
  unfold remove_keys, b_bulk_remove. cbn [fold_left]. rewrite !map_app, !add_all_app. unfold b_bulk_add. rewrite fold_left_app. reflexivity.
Qed.

Lemma runs_add m p : runs models_empty m true p =
  let! (p2, more) := replenish_bars (add_in m p) in
  Ret (Some (p2, ModelChanged (with_bars m (m_bars m ++ more)) (recorded models_empty m p))).
Proof. reflexivity. Qed.

Lemma add_keeps {V} (tick : V -> Z) l s k v : srt V s -> In (k, v) s -> exists w, In (k, w) (add_all (map (fun v => (tick v, v)) l) s).
Proof.
  intros S I. destruct (in_dec Z.eq_dec k (map tick l)) as [J|J].
  - apply add_all_key; auto. rewrite map_map. cbn. exact J.
  - exists v. apply (add_all_written tick [] l s S). right. cbn. tauto.
Qed.

Lemma add_ends m p t : project_ok p -> ends_at p t -> ends_at (add_in m p) t.
Proof.
  intros O E. destruct E as [k n l I L|k v I|k v I|k v I].
  - apply (ends_note _ k n l); [|exact L]. cbn. unfold b_bulk_remove. cbn.
    apply (Permutation_in (l := map note_entry (m_notes m) ++ pj_notes p)).
    + symmetry. apply b_bulk_add_perm.
    + apply in_app_iff. right. exact I.
  - destruct (add_keeps tp_tick (m_tempos m) _ k v (keyed_srt _ _ (ok_tempos _ O)) I) as [w W]. apply (ends_tempo _ k w). exact W.
  - destruct (add_keeps cc_tick (m_dumpers m) _ k v (keyed_srt _ _ (ok_dumpers _ O)) I) as [w W]. apply (ends_dumper _ k w). exact W.
  - destruct (add_keeps cc_tick (m_softs m) _ k v (keyed_srt _ _ (ok_softs _ O)) I) as [w W]. apply (ends_soft _ k w). exact W.
Qed.

Lemma add_valid m p : notes_valid p -> Forall note_valid (m_notes m) -> notes_valid (add_in m p).
Proof.
  intros V F k n I. cbn in I. unfold b_bulk_remove in I. cbn in I.
  apply (Permutation_in _ (b_bulk_add_perm note (map note_entry (m_notes m)) (pj_notes p))) in I.
  apply in_app_iff in I. destruct I as [I|I]; [|exact (V _ _ I)].
  apply in_map_iff in I. destruct I as (n' & E & I). inversion E; subst. rewrite Forall_forall in F. auto.
Qed.

Lemma add_bars m p s : m_bars m = [] -> add_in m (pj_set_bars p s) = pj_set_bars (add_in m p) s.
Proof. intros E. unfold add_in, exchange, pj_set_bars. cbn. rewrite E. reflexivity. Qed.
Lemma add_no_bars m p : m_bars m = [] -> pj_bars (add_in m p) = pj_bars p.
Proof. intros E. unfold add_in, exchange. cbn. rewrite E. reflexivity. Qed.

Lemma max_end_bars p s : note_max_end_tick (pj_set_bars p s) = note_max_end_tick p.
Proof. reflexivity. Qed.
Lemma content_end_bars p s ne : content_end (pj_set_bars p s) ne = content_end p ne.
Proof. reflexivity. Qed.

(** Replenishing, adding (no bars) and replenishing again is adding and replenishing. *)
Lemma replenish_between m y : project_ok y -> notes_valid y -> models_typed m -> m_bars m = [] -> Forall note_valid (m_notes m) ->
  forall z', (exists more, replenish_bars (add_in m y) = Ret (z', more)) <->
    (exists y' more1 more2, replenish_bars y = Ret (y', more1) /\ replenish_bars (add_in m y') = Ret (z', more2)).
Proof.
  intros O V T NB NV z'. set (w := add_in m y).
  assert (Ow : project_ok w) by (apply exchange_ok; auto). assert (Vw : notes_valid w) by (apply add_valid; auto).
  assert (LT : last_tick w = last_tick y) by (unfold last_tick, w; rewrite add_no_bars by exact NB; reflexivity).
  assert (RH : forall t, rhythm_at w t = rhythm_at y t).
  { intros t. unfold rhythm_at. unfold w. rewrite add_no_bars by exact NB. reflexivity. }
  (* what is known once [y] is replenished *)
  assert (Z : forall y' more1, replenish_bars y = Ret (y', more1) ->
     exists r n1 e1, rhythm_at y (last_tick y) = Ret r /\ more1 = even_bars (last_tick y) (rhythm_tick_len r) n1 /\
       y' = pj_set_bars y (pj_bars y ++ map bar_entry more1) /\ end_of (ends_at y) e1 /\
       e1 <= last_tick y + Z.of_nat n1 * rhythm_tick_len r /\
       (n1 = 0%nat \/ (0 < rhythm_tick_len r /\ last_tick y + (Z.of_nat n1 - 1) * rhythm_tick_len r < e1)) /\
       let z := add_in m y' in
       project_ok z /\ notes_valid z /\ z = pj_set_bars w (pj_bars y ++ map bar_entry more1) /\
       last_tick z = last_tick y + Z.of_nat n1 * rhythm_tick_len r /\ rhythm_at z (last_tick z) = Ret r).
  { intros y' more1 E. pose proof (replenish_project_ok _ _ _ O E) as Oy'.
    destruct (replenish_ret y y' more1 (ok_bars _ O) E) as (ne & r & n1 & En & Er & -> & -> & H1 & H2).
    exists r, n1, (content_end y ne). split; [exact Er|]. split; [reflexivity|]. split; [reflexivity|].
    split; [exact (content_end_spec y ne O V (note_max_end_spec y ne (ok_notes _ O) V En))|]. split; [exact H1|]. split; [tauto|].
    cbv zeta. set (more1 := even_bars (last_tick y) (rhythm_tick_len r) n1) in *. rewrite add_bars by exact NB. fold w.
    set (z := pj_set_bars w (pj_bars y ++ map bar_entry more1)).
    assert (Oz : project_ok z).
    { unfold z, w. rewrite <- add_bars by exact NB. apply exchange_ok; auto. }
    assert (Xy : extended w z).
    { split; [reflexivity|]. exists r, n1. rewrite RH, LT. split; [exact Er|]. unfold z, more1. cbn [pj_set_bars pj_bars].
      unfold w. rewrite add_no_bars by exact NB. reflexivity. }
    assert (LZ : last_tick z = last_tick y + Z.of_nat n1 * rhythm_tick_len r).
    { rewrite <- LT. apply (extended_last w z r n1 Ow); [rewrite RH, LT; exact Er|]. rewrite LT. unfold z, more1. cbn [pj_set_bars pj_bars].
      unfold w. rewrite add_no_bars by exact NB. reflexivity. }
    split; [exact Oz|]. split; [exact Vw|]. split; [reflexivity|]. split; [exact LZ|].
    rewrite (extended_rhythm w z _ Ow Oz Xy), rhythm_beyond; [rewrite RH, LT; exact Er|exact Ow|].
    rewrite LZ, LT. pose proof (rhythm_tick_len_nonneg r). nia. }
  assert (AP : forall r n1 n2, even_bars (last_tick y) (rhythm_tick_len r) (n1 + n2) =
     even_bars (last_tick y) (rhythm_tick_len r) n1 ++ even_bars (last_tick y + Z.of_nat n1 * rhythm_tick_len r) (rhythm_tick_len r) n2).
  { intros r n1 n2. apply even_bars_app. }
  assert (EM : forall e1 e, end_of (ends_at y) e1 -> end_of (ends_at w) e -> e1 <= e).
  { intros e1 e (U1 & _ & [->|E1]) (U & M & _); [apply U|]. apply M, add_ends; auto. }
  split.
  - intros (more & E).
    destruct (replenish_ret w z' more (ok_bars _ Ow) E) as (ne & r & n & En & Er & -> & -> & H1 & H2).
    rewrite LT in *. rewrite RH in Er.
    pose proof (content_end_spec w ne Ow Vw (note_max_end_spec w ne (ok_notes _ Ow) Vw En)) as CW.
    pose proof (rhythm_tick_len_nonneg r) as LN. pose proof (last_tick_range y (ok_bars _ O)) as UL. unfold u32 in UL.
    assert (RY : exists y' more1, replenish_bars y = Ret (y', more1)).
    { destruct (replenish_exact y O V) as (r' & Er' & HH & HP). rewrite Er in Er'. apply ret_inj in Er'. subst r'.
      destruct CW as (U & M & _). unfold u32 in U. destruct (replenish_bars y) as [[y' more1]| |]; [eauto| |]; exfalso.
      - destruct (proj1 HP eq_refl) as (t & ET & Q). pose proof (M t (add_ends m y t O ET)) as Q0.
        destruct Q as [Q|(Q1 & Q2 & Q3)]; [lia|]. specialize (Q3 (Z.of_nat n) ltac:(lia) ltac:(lia)). destruct H2 as [->|H2]; lia.
      - destruct (proj1 HH eq_refl) as (Q1 & (t & ET & Q2) & _). pose proof (M t (add_ends m y t O ET)) as Q0. rewrite Q1 in H1. lia. }
    destruct RY as (y' & more1 & RY). exists y', more1.
    destruct (Z y' more1 RY) as (r' & n1 & e1 & Er' & -> & Ey' & C1 & G1 & G2 & Oz & Vz & Ez & LZ & RZ).
    rewrite Er in Er'. apply ret_inj in Er'. subst r'. pose proof (EM _ _ C1 CW) as LE.
    assert (N : (n1 <= n)%nat) by (destruct G2 as [->|(G2 & G3)]; [lia|]; destruct H2 as [->|H2]; nia).
    exists (even_bars (last_tick (add_in m y')) (rhythm_tick_len r) (n - n1)). split; [exact RY|].
    assert (EN : note_max_end_tick (add_in m y') = Ret ne) by (rewrite Ez; exact En).
    assert (EC : content_end (add_in m y') ne = content_end w ne) by (rewrite Ez; reflexivity).
    rewrite (replenish_intro (add_in m y') ne r (n - n1) Oz Vz EN RZ).
    + f_equal. f_equal. rewrite LZ. rewrite Ez at 1 2. unfold w. cbn [pj_set_bars pj_bars add_in exchange]. unfold pj_set_bars.
      cbn [pj_bars pj_rhythm pj_key pj_grid pj_notes pj_tempos pj_dumpers pj_softs add_in exchange].
      f_equal. rewrite <- app_assoc, <- map_app, <- AP. replace (n1 + (n - n1))%nat with n by lia.
      rewrite NB. reflexivity.
    + rewrite EC, LZ. nia.
    + rewrite EC, LZ. destruct (Nat.eq_dec n n1) as [Q|Q]; [left; lia|right].
      destruct H2 as [->|(H2 & H3 & H4)]; [lia|]. split; [exact H2|]. split; nia.
  - intros (y' & more1 & more2 & RY & RZ').
    destruct (Z y' more1 RY) as (r & n1 & e1 & Er & -> & Ey' & C1 & G1 & G2 & Oz & Vz & Ez & LZ & RZ).
    destruct (replenish_ret _ z' more2 (ok_bars _ Oz) RZ') as (ne & r' & n2 & En & Er' & -> & -> & H1 & H2).
    rewrite RZ in Er'. apply ret_inj in Er'. subst r'.
    assert (EN : note_max_end_tick w = Ret ne) by (rewrite Ez in En; exact En).
    assert (EC : content_end (add_in m y') ne = content_end w ne) by (rewrite Ez; reflexivity).
    pose proof (content_end_spec w ne Ow Vw (note_max_end_spec w ne (ok_notes _ Ow) Vw EN)) as CW.
    pose proof (EM _ _ C1 CW) as LE. rewrite EC, LZ in *. pose proof (rhythm_tick_len_nonneg r) as LN.
    pose proof (last_tick_range _ (ok_bars _ Oz)) as UZ. unfold u32 in UZ. rewrite LZ in UZ.
    exists (even_bars (last_tick w) (rhythm_tick_len r) (n1 + n2)).
    rewrite (replenish_intro w ne r (n1 + n2) Ow Vw EN).
    + f_equal. f_equal. rewrite Ez. unfold w. cbn [pj_set_bars pj_bars add_in exchange]. unfold pj_set_bars.
      cbn [pj_bars pj_rhythm pj_key pj_grid pj_notes pj_tempos pj_dumpers pj_softs add_in exchange].
      f_equal. fold w. rewrite LT, AP, map_app, app_assoc. rewrite NB. reflexivity.
    + rewrite RH, LT. exact Er.
    + rewrite LT. nia.
    + rewrite LT. destruct n1 as [|n1]; [destruct n2 as [|n2]; [left; reflexivity|]|]; right.
      * destruct H2 as [H2|(H2 & H3 & H4)]; [discriminate|]. split; [exact H2|]. split; nia.
      * destruct G2 as [G2|(G2 & G3)]; [discriminate|]. split; [exact G2|].
        destruct H2 as [->|(H2 & H3 & H4)]; split; nia.
Qed.
