(** Property theorems C20 (repeat marks), C21 (undo buffer), C48 (interning). *)
From Coq Require Import ZArith List Bool Permutation.
From Verif Require Import Base M_Bar M_Undo S_Note S_Undo P_Marks P_Undo.
Import ListNotations.
Open Scope Z_scope.

(** * C20 *)

(** Whatever marks are added and removed, no two marks on a bar contradict each other. *)
Theorem C20_no_contradiction : forall os a b,
  let s := fold_left mark_step os ms_empty in
  ms_contains s a = true -> ms_contains s b = true -> contradict a b = false.
Proof. intros os. exact (marks_history os). Qed.
Print Assumptions C20_no_contradiction.

(** A mark is accepted exactly if none of the marks it dislikes is there; then it
    alone is added; otherwise the error names exactly the disliked marks. *)
Theorem C20_try_add : forall s m,
  (exists s', try_add s m = Ok s' /\
     (forall x, ms_contains s x = true -> refused_by m x = false) /\
     (forall x, ms_contains s' x = ms_contains s x || mark_eqb m x)) \/
  (exists d, try_add s m = Err d /\
     (forall x, ms_contains d x = ms_contains s x && refused_by m x) /\
     exists x, ms_contains s x = true /\ refused_by m x = true).
Proof. exact try_add_spec. Qed.
Print Assumptions C20_try_add.

Theorem C20_remove : forall s m x, ms_contains (ms_remove s m) x = ms_contains s x && negb (mark_eqb m x).
Proof. exact remove_contains. Qed.
Print Assumptions C20_remove.

Theorem C20_remove_regions : forall s x, ms_contains (remove_regions s) x = ms_contains s x && negb (is_var x).
Proof. exact remove_regions_contains. Qed.
Print Assumptions C20_remove_regions.

(** The variation number of a bar is the one variation mark it carries. *)
Theorem C20_region_index : forall os v,
  let s := fold_left mark_step os ms_empty in
  region_index s = Some v <-> ms_contains s (var_to_mark v) = true.
Proof. intros os. exact (region_index_spec _ (marks_history os)). Qed.
Print Assumptions C20_region_index.

(** The length is the number of marks in the set. *)
Theorem C20_len : forall s l, NoDup l -> (forall m, In m l <-> ms_contains s m = true) ->
  ms_len s = Z.of_nat (length l).
Proof.
  intros s l N H. unfold ms_len. f_equal. apply Permutation.Permutation_length.
  apply Permutation.NoDup_Permutation; [|exact N|].
  - apply NoDup_filter. repeat constructor; cbn; intuition discriminate.
  - intro m. rewrite filter_In, H. split; [tauto|]. intro C. split; [destruct m; cbn; tauto|exact C].
Qed.
Print Assumptions C20_len.

Example C20_len_case : let s := ms_of [Start; Fine; Var3] in let l := [Fine; Var3; Start] in
  NoDup l /\ (forall m, In m l <-> ms_contains s m = true) /\ ms_len s = 3.
Proof. split; [repeat constructor; cbn; intuition discriminate|]. split; [|reflexivity].
  intros []; vm_compute; intuition congruence. Qed.

(** Two edited sets are equal exactly if they have the same marks. *)
Theorem C20_equal : forall os os',
  let s := fold_left mark_step os ms_empty in
  let s' := fold_left mark_step os' ms_empty in
  s = s' <-> forall m, ms_contains s m = ms_contains s' m.
Proof.
  intros os os' s s'. split; [intros -> m; reflexivity|].
  assert (E : 0 <= ms_empty < 2 ^ 11) by (split; [discriminate|reflexivity]).
  apply marks_same; apply marks_small; exact E.
Qed.
Print Assumptions C20_equal.

(** The next and the previous variation, and the mark of a variation. *)
Theorem C20_variations : forall v w,
  (var_next v = Some w <-> var_value w = var_value v + 1) /\
  (var_prev v = Some w <-> var_value w = var_value v - 1) /\
  (var_next v = None <-> v = VI4) /\ (var_prev v = None <-> v = VI1) /\
  (var_to_mark v = var_to_mark w -> v = w) /\ is_var (var_to_mark v) = true.
Proof. intros [] []; cbn; repeat split; intro; congruence. Qed.
Print Assumptions C20_variations.

(** Whether two marks may be together depends on the order of adding them. *)
Theorem C20_order_refuted : exists a b s s' d,
  try_add ms_empty a = Ok s /\ try_add s b = Ok s' /\
  (exists t, try_add ms_empty b = Ok t /\ try_add t a = Err d).
Proof.
  exists Dc, Ds. do 3 eexists. split; [vm_compute; reflexivity|]. split; [vm_compute; reflexivity|].
  eexists. split; vm_compute; reflexivity.
Qed.
Print Assumptions C20_order_refuted.

Example C20_example :
  let s := fold_left mark_step [MAdd Start; MAdd Dc; MAdd End; MAdd Var1; MRemove Start; MRemove End; MAdd Var2; MAdd Fine] ms_empty in
  filter (ms_contains s) all_marks = [Fine; Var2] /\ region_index s = Some VI2 /\ ms_len s = 2.
Proof. split; [|split]; vm_compute; reflexivity. Qed.

(** * C21 *)

(** For every capacity and every history the buffer shows exactly what two
    stacks limited to max(capacity,1) entries would show, and never panics. *)
Theorem C21_undo_buffer : forall (U : Type) (cap : nat) (os : list (uop U)),
  exists s xs a, us_run (us_new U cap) os = Ret (s, xs) /\ st_run (st_new (Nat.max cap 1)) os = (a, xs).
Proof. exact us_new_refines. Qed.
Print Assumptions C21_undo_buffer.

(** With capacity 0 one entry is nevertheless kept. *)
Theorem C21_capacity_zero_refuted : exists s xs, us_run (us_new nat 0) [UAdd 7%nat] = Ret (s, xs) /\ us_len s = 1%nat.
Proof. do 2 eexists. split; reflexivity. Qed.
Print Assumptions C21_capacity_zero_refuted.

Example C21_example : exists s,
  us_run (us_new nat 2) [UAdd 1; UAdd 2; UAdd 3; UUndo; UUndo; UUndo; URedo; UAdd 4; URedo]%nat =
  Ret (s, [(None, 1, true, false); (None, 2, true, false); (None, 2, true, false);
           (Some 3, 2, true, true); (Some 2, 2, false, true); (None, 2, false, true);
           (Some 2, 2, true, true); (None, 2, true, false); (None, 2, true, false)]%nat).
Proof. eexists. reflexivity. Qed.

(** * C48 *)

(** Each answer is the first of all calls' objects that equals the argument. *)
Theorem C48_first_equal : forall (T : Type) (T_eqb : T -> T -> bool), equivalence T_eqb ->
  forall rs i r, nth_error rs i = Some r ->
  nth_error (fw_run T_eqb fw_new rs) i = find (fun q => same T_eqb q r) rs.
Proof. exact fw_first. Qed.
Print Assumptions C48_first_equal.

Example C48_first_equal_case : equivalence (fun a b => Z.eqb (a mod 10) (b mod 10)) /\
  fw_run (fun a b => Z.eqb (a mod 10) (b mod 10)) fw_new [mkRef 1 15; mkRef 2 6; mkRef 3 25; mkRef 4 26] =
  [mkRef 1 15; mkRef 2 6; mkRef 1 15; mkRef 2 6].
Proof. split; [|reflexivity]. repeat split.
  - intro x. apply Z.eqb_refl.
  - intros x y H. apply Z.eqb_eq in H. apply Z.eqb_eq. congruence.
  - intros x y z H K. apply Z.eqb_eq in H, K. apply Z.eqb_eq. congruence. Qed.

Theorem C48_canonical : forall (T : Type) (T_eqb : T -> T -> bool), equivalence T_eqb ->
  forall rs i j r s x y,
  nth_error rs i = Some r -> nth_error rs j = Some s ->
  nth_error (fw_run T_eqb fw_new rs) i = Some x -> nth_error (fw_run T_eqb fw_new rs) j = Some y ->
  T_eqb (ref_val x) (ref_val r) = true /\ In x rs /\
  (T_eqb (ref_val r) (ref_val s) = true -> x = y) /\
  (T_eqb (ref_val r) (ref_val s) = false -> T_eqb (ref_val x) (ref_val y) = false).
Proof. exact fw_canonical. Qed.
Print Assumptions C48_canonical.

Theorem C48_stable : forall (T : Type) (T_eqb : T -> T -> bool) rs rs',
  firstn (length rs) (fw_run T_eqb fw_new (rs ++ rs')) = fw_run T_eqb fw_new rs.
Proof. exact fw_run_app. Qed.
Print Assumptions C48_stable.

Example C48_example :
  fw_run Z.eqb fw_new [mkRef 100 5; mkRef 108 6; mkRef 116 5] = [mkRef 100 5; mkRef 108 6; mkRef 100 5].
Proof. reflexivity. Qed.
