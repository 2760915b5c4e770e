(** Property theorems about the buttons for the selected notes: C101. *)
From Coq Require Import ZArith List Bool Lia Sorted Permutation.
From Verif Require Import Base M_Pitch M_Duration M_Percent M_Scalar M_Bar M_Note M_Store M_Tuple M_Models M_Project.
From Verif Require Import S_Pitch S_Percent S_Note S_Project S_Score S_Effect S_Safe S_Move S_Anew S_Press P_Base P_Store P_Query P_Replenish P_Edit P_History P_Effect.
From Verif Require Import T_Move.
From Verif Require T_Pitch T_Note T_Values T_Project.
Import ListNotations.
Open Scope Z_scope.

Lemma set_pitch_back n p : set_pitch (set_pitch n p) (n_pitch n) = n.
Proof. destruct n; reflexivity. Qed.
Lemma makes_back b n m : apt b n -> makes b n m -> makes (opposite b) m n.
Proof.
  intros (V & VP & F) M. destruct b as [| |k|d]; cbn in *.
  - unfold note_up_score_offset in M. destruct (pitch_up (n_pitch n)) as [r| |] eqn:E; cbn in M; try discriminate. destruct r as [q|e]; [|discriminate]. cbn in M. injection M as <-.
    unfold note_down_score_offset. cbn [n_pitch set_pitch]. rewrite (T_Pitch.C02_up_down _ _ VP E). cbn. rewrite set_pitch_back. reflexivity.
  - unfold note_down_score_offset in M. destruct (pitch_down (n_pitch n)) as [r| |] eqn:E; cbn in M; try discriminate. destruct r as [q|e]; [|discriminate]. cbn in M. injection M as <-.
    unfold note_up_score_offset. cbn [n_pitch set_pitch]. rewrite (T_Pitch.C02_down_up _ _ VP E). cbn. rewrite set_pitch_back. reflexivity.
  - apply (T_Note.C55_dots_back n k m); auto. apply V.
  - apply (T_Values.C16_note_shift_back n d m); auto. apply V.
Qed.
Lemma makes_one b n m m' : makes b n m -> makes b n m' -> m = m'.
Proof. destruct b; cbn; congruence. Qed.

(** What a button did to the selected notes its opposite can always take back, and it gives the very same notes. *)
Theorem C101_taken_back : forall b l l', Forall (apt b) l -> Forall2 (makes b) l l' ->
  Forall2 (makes (opposite b)) l' l /\ forall l'', Forall2 (makes (opposite b)) l' l'' -> l'' = l.
Proof.
  intros b l l' F M. assert (B : Forall2 (makes (opposite b)) l' l).
  { induction M as [|n m l l' X M IH]; [constructor|]. inversion F; subst. constructor; [apply makes_back; assumption|auto]. }
  split; [exact B|]. clear F M. intros l'' N. revert l'' N. induction B as [|n m k k' X B IH]; intros l'' N; inversion N; subst; [reflexivity|]. f_equal; [eapply makes_one; eassumption|auto].
Qed.
Print Assumptions C101_taken_back.

Lemma notes_from l l' : length l = length l' -> changes_from (notes_to l l') = mkModels l [] [] [] [].
Proof. intros E. unfold changes_from, notes_to. cbn. rewrite fst_combine by exact E. reflexivity. Qed.
Lemma notes_into l l' : length l = length l' -> changes_to (notes_to l l') = mkModels l' [] [] [] [].
Proof. intros E. unfold changes_to, notes_to. cbn. rewrite snd_combine by exact E. reflexivity. Qed.
Lemma only_typed l : models_typed (mkModels l [] [] [] []).
Proof. constructor; constructor. Qed.
Lemma only_distinct l : all_distinct (mkModels l [] [] [] []).
Proof. constructor; constructor. Qed.
Lemma only_free p l l' : all_free p (mkModels l [] [] [] []) (mkModels l' [] [] [] []).
Proof. constructor; intros v []. Qed.
Lemma only_present p l : contains_notes p l -> all_present p (mkModels l [] [] [] []).
Proof. intros C. constructor; [exact C| | | |]; intros v []. Qed.
Lemma f2_len {A B} (R : A -> B -> Prop) l l' : Forall2 R l l' -> length l = length l'.
Proof. induction 1; cbn; congruence. Qed.

(** A button pressed for notes of the project and then its opposite: the project is as it was, but for blank bars behind. *)
Theorem C101_opposite : forall p b l l' l'' q, project_ok p -> contains_notes p l -> Forall (apt b) l ->
  Forall2 (makes b) l l' -> Forall2 (makes (opposite b)) l' l'' ->
  edits_done p [EChange (notes_to l l'); EChange (notes_to l' l'')] q -> with_blanks p q.
Proof.
  intros p b l l' l'' q O C F M N D. rewrite (proj2 (C101_taken_back b l l' F M) l'' N) in *. pose proof (f2_len _ _ _ M) as L.
  assert (T : forall x y, length x = length y -> edit_typed (EChange (notes_to x y))).
  { intros x y E. cbn [edit_typed]. rewrite notes_from, notes_into by exact E. split; apply only_typed. }
  apply (C88_back p (notes_to l l') [notes_to l' l]); auto.
  - rewrite notes_from by exact L. apply only_present, C.
  - cbn. rewrite (notes_into l l'), (notes_from l' l) by congruence. auto.
  - constructor; [split; [apply T, L|rewrite notes_into by exact L; apply only_distinct]|]. constructor; [|constructor]. split; [apply T; congruence|rewrite notes_into by congruence; apply only_distinct].
  - constructor; [|constructor]. rewrite notes_from, notes_into by exact L. apply only_free.
  - cbn [last]. rewrite notes_into, notes_from by congruence. reflexivity.
Qed.
Print Assumptions C101_opposite.

(** Four presses of the tie button do the same. *)
Theorem C101_ties : forall p l q, project_ok p -> contains_notes p l -> let t := map note_toggle_tie in
  edits_done p [EChange (notes_to l (t l)); EChange (notes_to (t l) (t (t l))); EChange (notes_to (t (t l)) (t (t (t l)))); EChange (notes_to (t (t (t l))) (t (t (t (t l)))))] q ->
  with_blanks p q.
Proof.
  intros p l q O C t D. assert (R : t (t (t (t l))) = l).
  { unfold t. rewrite !map_map. rewrite <- (map_id l) at 2. apply map_ext. intros n. apply (T_Note.C55_tie_round n false false). }
  assert (L : forall x, length x = length (t x)) by (intros x; unfold t; rewrite map_length; reflexivity).
  assert (T : forall x, edit_typed (EChange (notes_to x (t x))) /\ all_distinct (changes_to (notes_to x (t x)))).
  { intros x. cbn [edit_typed]. rewrite notes_from, notes_into by apply L. split; [split; apply only_typed|apply only_distinct]. }
  apply (C88_back p (notes_to l (t l)) [notes_to (t l) (t (t l)); notes_to (t (t l)) (t (t (t l))); notes_to (t (t (t l))) (t (t (t (t l))))]); auto.
  - rewrite notes_from by apply L. apply only_present, C.
  - cbn. rewrite !notes_into, !notes_from by apply L. auto.
  - cbn [removelast]. repeat (apply Forall_cons; [rewrite notes_from, notes_into by apply L; apply only_free|]). apply Forall_nil.
  - cbn [last]. rewrite notes_into by apply L. rewrite notes_from by apply L. rewrite R. reflexivity.
Qed.
Print Assumptions C101_ties.

(** Pressing a button changes the notes it is pressed for and nothing else. *)
Theorem C101_notes_only : forall p b l l' q, project_ok p -> contains_notes p l -> Forall2 (makes b) l l' ->
  edits_done p [EChange (notes_to l l')] q -> but_notes p q /\ Permutation (map snd (pj_notes q) ++ l) (map snd (pj_notes p) ++ l').
Proof.
  intros p b l l' q O C M D. pose proof (f2_len _ _ _ M) as L. inversion D as [|? ? c q1 ? ? R D1]; subst. inversion D1; subst.
  destruct (moved_one p (notes_to l l') q c O) as [OQ [X1 X2 X3 X4 X5 X6 X7]].
  - cbn [edit_typed]. rewrite notes_from, notes_into by exact L. split; apply only_typed.
  - cbn [edit_wf]. rewrite notes_from, notes_into by exact L. split; [apply only_present, C|apply only_distinct].
  - exact R.
  - rewrite notes_from, notes_into in * by exact L. cbn [m_notes m_bars m_tempos m_dumpers m_softs] in *. split; [|exact X2].
    assert (G : forall V (tick : V -> Z) s k v, then_at tick s [] [] k v <-> In (k, v) s) by (intros; unfold then_at; cbn; tauto).
    constructor; [exact X1| | | | |].
    + apply (store_eq tp_tick); [apply OQ|apply O|]. intros k v. rewrite X5. apply G.
    + apply (store_eq cc_tick); [apply OQ|apply O|]. intros k v. rewrite X6. apply G.
    + apply (store_eq cc_tick); [apply OQ|apply O|]. intros k v. rewrite X7. apply G.
    + intros k v I. left. apply X3, G, I.
    + intros k v I. destruct (X4 k v I) as [H|[B N]]; [left; apply G in H; exact H|right]. split; [exact B|]. intros J. apply in_map_iff in J as ([k' b'] & E & J). cbn in E. subst k'. apply (N b'), G, J.
Qed.
Print Assumptions C101_notes_only.

Lemma ex_note_good t s : u32 t -> valid_note (T_Project.ex_note t s) /\ valid_pitch (n_pitch (T_Project.ex_note t s)).
Proof.
  intros U. assert (Z0 : valid_trimmer trimmer_zero) by (split; [repeat constructor; vm_compute; congruence|reflexivity]).
  split; [|destruct s; repeat split; vm_compute; congruence].
  unfold valid_note, duration_valid. cbn [T_Project.ex_note n_base_tick n_base_velocity n_channel n_duration n_tick_trimmer n_velocity_trimmer n_duration_trimmer d_num d_den d_dots].
  repeat match goal with |- _ /\ _ => split end; try exact Z0; try apply or_one; try exact U; lia.
Qed.
Ltac good := split; [apply ex_note_good; unfold u32, u32_max; lia|split; [apply ex_note_good; unfold u32, u32_max; lia|cbn; try (unfold u32, u32_max; lia); try (unfold i32, i32_min, i32_max; lia); exact Logic.I]].

(** *** Accidentals *)
Lemma accidental_step f next n m : accidental f next -> f n = Ok m ->
  exists p, m = set_pitch n p /\ p_solfa p = p_solfa (n_pitch n) /\ p_octave p = p_octave (n_pitch n) /\ p_sharp_flat p = next (p_sharp_flat (n_pitch n)) /\ valid_pitch p.
Proof.
  intros H E. pose proof (T_Note.C55_accidentals n f next H) as C. cbv zeta in C. rewrite E in C. destruct C as (A & B & C & D & _).
  assert (X : exists p, m = set_pitch n p).
  { destruct H as [(-> & _)|[(-> & _)|(-> & _)]]; [unfold note_toggle_sharp in E|unfold note_toggle_flat in E|unfold note_toggle_natural in E];
      match type of E with res_map _ ?r = _ => destruct r; [|discriminate] end; cbn in E; injection E as <-; eauto. }
  destruct X as (p & ->). exists p. cbn [n_pitch set_pitch] in *. auto.
Qed.
Lemma pitch_named p q : valid_pitch p -> valid_pitch q -> p_solfa q = p_solfa p -> p_octave q = p_octave p -> p_sharp_flat q = p_sharp_flat p -> q = p.
Proof. destruct p, q. unfold valid_pitch. cbn. intros (A & B & _) (C & D & _) -> -> ->. congruence. Qed.

Lemma last_cons {A} (l : list A) : forall x d, last (x :: l) d = last l x.
Proof. induction l as [|y l IH]; intros x d; [reflexivity|]. change (last (y :: l) d = last (y :: l) x). rewrite !IH. reflexivity. Qed.
Lemma steps_back p l ls q : project_ok p -> contains_notes p l -> ls <> [] -> Forall (fun m => length m = length l) ls -> last ls l = l ->
  edits_done p (map EChange (steps l ls)) q -> with_blanks p q.
Proof.
  intros O C N L E D. destruct ls as [|m ls]; [contradiction|]. cbn [steps] in D. inversion L as [|? ? Lm L']; subst.
  assert (G : forall (x : list note) ms, Forall (fun m : list note => length m = length x) ms -> Forall (fun d => exists a b, d = notes_to a b /\ length a = length b /\ length a = length x) (steps x ms)).
  { assert (G : forall ms (x y : list note), length x = length y -> Forall (fun m => length m = length y) ms -> Forall (fun d => exists a b, d = notes_to a b /\ length a = length b /\ length a = length y) (steps x ms)).
    { induction ms as [|z ms IH]; intros x y X F; cbn; constructor; inversion F; subst; [exists x, z; split; [reflexivity|split; congruence]|]. apply IH; auto. }
    intros x ms F. apply G; auto. }
  assert (CT : forall ms c (x : list note), changes_to c = mkModels x [] [] [] [] -> Forall (fun m => length m = length x) ms -> continues c (steps x ms)).
  { induction ms as [|z ms IH]; intros c x X F; cbn [steps continues]; [exact Logic.I|]. inversion F as [|? ? Z1 F']; subst.
    split; [rewrite notes_from by congruence; congruence|]. apply IH; [apply notes_into; congruence|]. eapply Forall_impl; [|exact F']. cbn. intros; congruence. }
  assert (LT : forall ms c (x : list note), changes_to c = mkModels x [] [] [] [] -> Forall (fun m => length m = length x) ms -> changes_to (last (steps x ms) c) = mkModels (last ms x) [] [] [] []).
  { induction ms as [|z ms IH]; intros c x X F; [exact X|]. inversion F as [|? ? Z1 F']; subst. assert (Fz : Forall (fun m => length m = length z) ms) by (eapply Forall_impl; [|exact F']; cbn; intros; congruence).
    assert (XZ : length x = length z) by congruence. cbn [steps]. rewrite !last_cons. exact (IH (notes_to x z) z (notes_into x z XZ) Fz). }
  assert (Fm : Forall (fun x => length x = length m) ls) by (eapply Forall_impl; [|exact L']; cbn; intros; congruence).
  assert (LL : length l = length m) by congruence.
  apply (C88_back p (notes_to l m) (steps m ls)); auto.
  - rewrite notes_from by exact LL. apply only_present, C.
  - apply CT; [apply notes_into, LL|exact Fm].
  - constructor.
    + cbn [edit_typed]. rewrite notes_from, notes_into by exact LL. split; [split; apply only_typed|apply only_distinct].
    + eapply Forall_impl; [|apply G; exact Fm]. cbn beta. intros d (a & b & -> & X & _). cbn [edit_typed]. rewrite notes_from, notes_into by exact X. split; [split; apply only_typed|apply only_distinct].
  - assert (A : Forall (fun d => all_free p (changes_from (notes_to l m)) (changes_to d)) (notes_to l m :: steps m ls)).
    { constructor; [rewrite notes_from, notes_into by exact LL; apply only_free|]. eapply Forall_impl; [|apply G; exact Fm]. cbn beta. intros d (a & b & -> & X & _). rewrite notes_from by exact LL. rewrite notes_into by exact X. apply only_free. }
    apply Forall_forall. intros d I. rewrite Forall_forall in A. apply A. revert I. generalize (notes_to l m :: steps m ls). clear. induction l as [|x [|y l] IH]; [intros []|intros []|]. intros [->|I]; [left; reflexivity|right; apply IH, I].
  - rewrite (LT ls (notes_to l m) m (notes_into l m LL) Fm), notes_from by exact LL. f_equal. rewrite last_cons in E. exact E.
Qed.

(** Sharp pressed three times, flat three times or natural twice, where the accidental is one of those the button goes through: the same notes
    again, and the project as it was but for blank bars. *)
Theorem C101_accidentals : forall p f next l ls q, accidental f next -> project_ok p -> contains_notes p l -> ls <> [] ->
  Forall (fun n => valid_pitch (n_pitch n) /\ Nat.iter (length ls) next (p_sharp_flat (n_pitch n)) = p_sharp_flat (n_pitch n)) l ->
  (forall i a b, nth_error (l :: ls) i = Some a -> nth_error ls i = Some b -> Forall2 (fun n m => f n = Ok m) a b) ->
  edits_done p (map EChange (steps l ls)) q -> last ls l = l /\ with_blanks p q.
Proof.
  intros p f next l ls q H O C N V ST D.
  set (R := fun k n m => exists r, m = set_pitch n r /\ p_solfa r = p_solfa (n_pitch n) /\ p_octave r = p_octave (n_pitch n) /\ p_sharp_flat r = Nat.iter k next (p_sharp_flat (n_pitch n)) /\ valid_pitch r).
  assert (G : forall i a, nth_error (l :: ls) i = Some a -> Forall2 (R i) l a).
  { induction i as [|i IH]; intros a E.
    - cbn in E. injection E as <-. clear - V. induction l as [|n l IH]; constructor; inversion V as [|? ? [X _] V']; subst; [|auto]. exists (n_pitch n). destruct n. cbn. auto.
    - cbn [nth_error] in E. destruct (nth_error (l :: ls) i) as [b|] eqn:B.
      + specialize (ST i b a B E). specialize (IH b eq_refl). clear - IH ST H. revert a ST. induction IH as [|n m l b X IH IH2]; intros a ST; inversion ST as [|? m' ? ? Y ST']; subst; constructor; [|auto].
        destruct X as (r & -> & A1 & A2 & A3 & A4). destruct (accidental_step f next _ _ H Y) as (r' & -> & B1 & B2 & B3 & B4). exists r'. cbn [n_pitch set_pitch] in *. split; [reflexivity|].
        split; [congruence|]. split; [congruence|]. split; [|exact B4]. cbn. rewrite B3, A3. reflexivity.
      + exfalso. apply nth_error_None in B. assert (nth_error ls i <> None) by congruence. apply nth_error_Some in H0. cbn in B. lia. }
  assert (LS : nth_error (l :: ls) (length ls) = Some (last ls l)).
  { clear - ls. revert l. induction ls as [|x ls IH]; intros l; [reflexivity|]. cbn [length nth_error]. rewrite IH, last_cons. reflexivity. }
  assert (E : last ls l = l).
  { specialize (G _ _ LS). clear - G V. revert V G. generalize (last ls l) as b, (length ls) as k. intros b k V G. revert V. induction G as [|n m l b X G IH]; intros V; [reflexivity|]. inversion V as [|? ? [V1 V2] V']; subst. f_equal; [|auto].
    destruct X as (r & -> & A1 & A2 & A3 & A4). rewrite V2 in A3. rewrite (pitch_named (n_pitch n) r); auto. destruct n; reflexivity. }
  split; [exact E|]. apply (steps_back p l ls q O C N); auto. apply Forall_forall. intros m I. apply In_nth_error in I as (i & I). symmetry. apply (f2_len (R (S i))). apply (G (S i) m). exact I.
Qed.
Print Assumptions C101_accidentals.

(** Sharp and flat are no opposites: a flat pressed after a sharp gives a flat note. *)
Theorem C101_accidentals_refuted : ~ forall n m n', valid_note n -> valid_pitch (n_pitch n) -> note_toggle_sharp n = Ok m -> note_toggle_flat m = Ok n' -> n' = n.
Proof.
  intros H. assert (X : exists m n', note_toggle_sharp (T_Project.ex_note 0 SE) = Ok m /\ note_toggle_flat m = Ok n' /\ p_sharp_flat (n_pitch n') = Flat).
  { do 2 eexists. split; [vm_compute; reflexivity|]. split; vm_compute; reflexivity. }
  destruct X as (m & n' & A & B & C). assert (E : n' = T_Project.ex_note 0 SE); [|subst n'; discriminate].
  apply (H (T_Project.ex_note 0 SE) m n'); auto; apply ex_note_good; unfold u32, u32_max; lia.
Qed.
Print Assumptions C101_accidentals_refuted.

(** Nor does trimming the start of a note there and back give the same note where a part of the trimmer is full: it starts where it did, but
    the trimmer is made up otherwise. *)
Theorem C101_trim_refuted : exists n m n', valid_note n /\ note_with_tick_added n 50 true = Ret (Ok m) /\ note_with_tick_added m (-50) true = Ret (Ok n') /\ n' <> n /\ note_start_tick n' = note_start_tick n.
Proof.
  exists (T_Values.demo_note 100 (trimmer_new 32767 0 0 0) trimmer_zero). do 2 eexists. split.
  { assert (Z0 : valid_trimmer trimmer_zero) by (split; [repeat constructor; vm_compute; congruence|reflexivity]).
    unfold valid_note, duration_valid. cbn [T_Values.demo_note n_base_tick n_base_velocity n_channel n_duration n_tick_trimmer n_velocity_trimmer n_duration_trimmer].
    repeat match goal with |- _ /\ _ => split end; try exact Z0; try apply or_one; try (unfold u32, u32_max; lia); try (vm_compute; repeat split; congruence). split; [repeat constructor; vm_compute; congruence|reflexivity]. }
  split; [vm_compute; reflexivity|]. split; [vm_compute; reflexivity|]. split; [discriminate|vm_compute; reflexivity].
Qed.
Print Assumptions C101_trim_refuted.

(** The chord of the example score a step up and down again. *)
Definition chord : list note := [T_Project.ex_note 480 SE; T_Project.ex_note 480 SG].
Definition chord_up : list note := [T_Project.ex_note 480 SF; T_Project.ex_note 480 SA].
Lemma chord_there : contains_notes T_Project.ex_project chord.
Proof.
  exists [T_Project.ex_note 0 SC; T_Project.ex_note 1600 SA]. change (map snd (pj_notes T_Project.ex_project)) with ([T_Project.ex_note 0 SC] ++ chord ++ [T_Project.ex_note 1600 SA]).
  etransitivity; [apply Permutation_app_comm|]. rewrite <- app_assoc. apply Permutation_app_head, perm_swap.
Qed.
Example C101_opposite_case : let p := T_Project.ex_project in exists q, project_ok p /\ contains_notes p chord /\ Forall (apt Up) chord /\ Forall2 (makes Up) chord chord_up /\
  Forall2 (makes (opposite Up)) chord_up chord /\ edits_done p [EChange (notes_to chord chord_up); EChange (notes_to chord_up chord)] q /\ with_blanks p q.
Proof.
  intros p. assert (E : exists q, edits_done p [EChange (notes_to chord chord_up); EChange (notes_to chord_up chord)] q).
  { eexists. eapply done_cons; [vm_compute; reflexivity|]. eapply done_cons; [vm_compute; reflexivity|apply done_nil]. }
  destruct E as (q & D). exists q. split; [exact T_Project.ex_project_ok|]. split; [exact chord_there|].
  assert (F : Forall (apt Up) chord) by (repeat (apply Forall_cons; [good|]); apply Forall_nil).
  assert (M : Forall2 (makes Up) chord chord_up) by (repeat (apply Forall2_cons; [vm_compute; reflexivity|]); apply Forall2_nil).
  split; [exact F|]. split; [exact M|]. pose proof (proj1 (C101_taken_back _ _ _ F M)) as B. split; [exact B|]. split; [exact D|].
  exact (C101_opposite p Up chord chord_up chord q T_Project.ex_project_ok chord_there F M B D).
Qed.
Example C101_notes_only_case : let p := T_Project.ex_project in exists q, project_ok p /\ contains_notes p chord /\ Forall2 (makes Up) chord chord_up /\
  edits_done p [EChange (notes_to chord chord_up)] q /\ Permutation (map snd (pj_notes q)) [T_Project.ex_note 0 SC; T_Project.ex_note 480 SF; T_Project.ex_note 480 SA; T_Project.ex_note 1600 SA].
Proof.
  intros p. eexists. split; [exact T_Project.ex_project_ok|]. split; [exact chord_there|].
  split; [repeat (apply Forall2_cons; [vm_compute; reflexivity|]); apply Forall2_nil|]. split; [eapply done_cons; [vm_compute; reflexivity|apply done_nil]|].
  vm_compute. apply Permutation_refl || (apply perm_skip; apply perm_swap).
Qed.
Example C101_ties_case : let p := T_Project.ex_project in let t := map note_toggle_tie in exists q, contains_notes p chord /\ t chord <> chord /\ t (t chord) <> chord /\
  edits_done p [EChange (notes_to chord (t chord)); EChange (notes_to (t chord) (t (t chord))); EChange (notes_to (t (t chord)) (t (t (t chord)))); EChange (notes_to (t (t (t chord))) (t (t (t (t chord)))))] q.
Proof.
  intros p t. eexists. split; [exact chord_there|]. split; [discriminate|]. split; [discriminate|]. repeat (eapply done_cons; [vm_compute; reflexivity|]). apply done_nil.
Qed.
Example C101_dots_case : let n := T_Project.ex_note 480 SE in apt (Dots 2) n /\ apt (Later (-480)) n /\ (exists m, makes (Dots 2) n m /\ makes (opposite (Dots 2)) m n) /\ makes (Later (-480)) n (T_Project.ex_note 0 SE).
Proof.
  assert (A : apt (Dots 2) (T_Project.ex_note 480 SE)) by good.
  split; [exact A|]. split; [good|]. split; [|vm_compute; reflexivity].
  assert (M : exists m, makes (Dots 2) (T_Project.ex_note 480 SE) m) by (eexists; vm_compute; reflexivity). destruct M as (m & M). exists m. split; [exact M|]. exact (makes_back _ _ _ A M).
Qed.
Example C101_accidentals_case : let p := T_Project.ex_project in exists l1 l2 q, accidental note_toggle_sharp sharp_cycle /\ contains_notes p chord /\
  Forall (fun n => valid_pitch (n_pitch n) /\ Nat.iter 3 sharp_cycle (p_sharp_flat (n_pitch n)) = p_sharp_flat (n_pitch n)) chord /\
  map (fun n => p_sharp_flat (n_pitch n)) l1 = [Sharp; Sharp] /\ map (fun n => p_sharp_flat (n_pitch n)) l2 = [DoubleSharp; DoubleSharp] /\
  Forall2 (fun n m => note_toggle_sharp n = Ok m) chord l1 /\ Forall2 (fun n m => note_toggle_sharp n = Ok m) l1 l2 /\ Forall2 (fun n m => note_toggle_sharp n = Ok m) l2 chord /\
  edits_done p (map EChange (steps chord [l1; l2; chord])) q /\ with_blanks p q.
Proof.
  intros p. assert (A : accidental note_toggle_sharp sharp_cycle) by (left; auto).
  assert (X : exists l1 l2, map (fun n => p_sharp_flat (n_pitch n)) l1 = [Sharp; Sharp] /\ map (fun n => p_sharp_flat (n_pitch n)) l2 = [DoubleSharp; DoubleSharp] /\
    Forall2 (fun n m => note_toggle_sharp n = Ok m) chord l1 /\ Forall2 (fun n m => note_toggle_sharp n = Ok m) l1 l2 /\ Forall2 (fun n m => note_toggle_sharp n = Ok m) l2 chord /\
    exists q, edits_done p (map EChange (steps chord [l1; l2; chord])) q).
  { set (f := fun n => match note_toggle_sharp n with Ok m => m | Err _ => n end). exists (map f chord), (map f (map f chord)). split; [vm_compute; reflexivity|]. split; [vm_compute; reflexivity|].
    split; [repeat (apply Forall2_cons; [vm_compute; reflexivity|]); apply Forall2_nil|]. split; [repeat (apply Forall2_cons; [vm_compute; reflexivity|]); apply Forall2_nil|].
    split; [repeat (apply Forall2_cons; [vm_compute; reflexivity|]); apply Forall2_nil|]. eexists. cbn [steps map]. repeat (eapply done_cons; [vm_compute; reflexivity|]). apply done_nil. }
  destruct X as (l1 & l2 & E1 & E2 & F1 & F2 & F3 & q & D). exists l1, l2, q.
  assert (V : Forall (fun n => valid_pitch (n_pitch n) /\ Nat.iter 3 sharp_cycle (p_sharp_flat (n_pitch n)) = p_sharp_flat (n_pitch n)) chord).
  { repeat (apply Forall_cons; [split; [apply ex_note_good; unfold u32, u32_max; lia|vm_compute; reflexivity]|]). apply Forall_nil. }
  repeat (split; [assumption || exact chord_there|]). 
  apply (C101_accidentals p note_toggle_sharp sharp_cycle chord [l1; l2; chord] q A T_Project.ex_project_ok chord_there); [discriminate|exact V| |exact D].
  intros [|[|[|i]]] a b I J; cbn in I, J; try (injection I as <-; injection J as <-; assumption). destruct i; discriminate.
Qed.
