(** Property theorems about chunks and start positions: C40, C41. *)
From Coq Require Import ZArith List Bool Lia.
From Verif Require Import Base M_Duration M_Scalar M_Bar M_Store M_Repeat S_Note S_Repeat P_Base P_Note P_Chunk.
Import ListNotations.
Open Scope Z_scope.

(** * C40 *)

Theorem C40_same_performance : forall l, Forall good_chunk l -> performance (optimize l) = performance l.
Proof. intros [|c l] F; [reflexivity|]. apply optimize_from_perf. exact F. Qed.
Print Assumptions C40_same_performance.

Theorem C40_none_joins : forall l, none_joins (optimize l).
Proof. intros l. apply no_joint_iff, optimize_joint. Qed.
Print Assumptions C40_none_joins.

(** Chunks that do not join are left alone; so optimising twice is optimising once. *)
Theorem C40_fixed : forall l, optimize l = l <-> none_joins l.
Proof.
  intros l. split.
  - intros <-. apply C40_none_joins.
  - intros H. apply no_joint_id, no_joint_iff, H.
Qed.
Print Assumptions C40_fixed.

Theorem C40_idempotent : forall l, optimize (optimize l) = optimize l.
Proof. intros l. apply C40_fixed, C40_none_joins. Qed.
Print Assumptions C40_idempotent.

Theorem C40_good : forall l, Forall good_chunk l -> Forall good_chunk (optimize l).
Proof. exact optimize_good. Qed.
Print Assumptions C40_good.

(** The chunks of C40_case are such chunks; one of them is empty. *)
Example C40_good_case : Forall good_chunk [mkChunk 0 10; mkChunk 10 20; mkChunk 0 20; mkChunk 20 20; mkChunk 20 25].
Proof. repeat constructor; unfold good_chunk; cbn; lia. Qed.

Example C40_case :
  optimize [mkChunk 0 10; mkChunk 10 20; mkChunk 0 20; mkChunk 20 20; mkChunk 20 25] = [mkChunk 0 20; mkChunk 0 25].
Proof. reflexivity. Qed.

(** * C41 *)

(** The table can be made whenever all that is played before the last, open chunk
    can be counted. *)
Theorem C41_table : forall a c, Forall in_time (a ++ [c]) -> Forall (fun d => ck_end d <> u32_max) a -> ck_end c = u32_max ->
  Z.of_nat (length (performance a)) <= u32_max -> exists r, by_accum_tick (a ++ [c]) = Ret r.
Proof. exact table_made. Qed.
Print Assumptions C41_table.

Example C41_table_case : let a := [mkChunk 0 1920; mkChunk 0 1920] in let c := mkChunk 1920 u32_max in
  Forall in_time (a ++ [c]) /\ Forall (fun d => ck_end d <> u32_max) a /\ ck_end c = u32_max /\
  Z.of_nat (length (performance a)) = 3840.
Proof.
  cbv zeta. split; [repeat constructor; unfold in_time, u32_max; cbn; lia|]. split; [repeat constructor; cbn; unfold u32_max; lia|].
  split; [reflexivity|]. vm_compute. reflexivity.
Qed.

(** Exactly: it panics if and only if what the chunks before the end of time play
    together cannot be counted. *)
Theorem C41_table_panics : forall l, Forall in_time l ->
  (by_accum_tick l = Panic <->
     u32_max < Z.of_nat (length (performance (filter (fun c => negb (ck_end c =? u32_max)) l)))) /\
  (by_accum_tick l = Panic \/ exists r, by_accum_tick l = Ret r).
Proof.
  intros l F. pose proof (accum_loop_exact l 0 [] F ltac:(unfold u32_max; lia)) as H. cbv zeta in H. cbn [Z.add] in H. fold (by_accum_tick l) in H.
  match goal with H : if ?b then _ else _ |- _ => destruct b eqn:E end.
  - destruct H as [r H]. rewrite H. split; [split; [discriminate|lia]|eauto].
  - rewrite H. split; [split; [lia|auto]|auto].
Qed.
Print Assumptions C41_table_panics.

(** Three times four billion ticks cannot be counted. *)
Example C41_table_panics_case : let l := [mkChunk 0 4000000000; mkChunk 0 4000000000; mkChunk 0 u32_max] in
  Forall in_time l /\ by_accum_tick l = Panic.
Proof. split; [repeat constructor; unfold in_time, u32_max; cbn; lia|]. vm_compute. reflexivity. Qed.

(** What is returned in every case: if the tick is played at least n times, the
    section that plays it for the n-th time decides.  Its position plus the
    section's start must not exceed u32: else the call panics. *)
Theorem C41_exact : forall l r tick iter,
  Forall in_time l -> open_only_last l -> by_accum_tick l = Ret r -> 0 <= tick ->
  let n := Z.max 1 (Z.min 5 iter) in
  (n <= times tick (performance l) ->
     exists a c b pos, l = a ++ c :: b /\ ck_start c <= tick < ck_end c /\ times tick (performance a) + 1 = n /\
       nth_time tick n (performance l) pos /\ pos = Z.of_nat (length (performance a)) + (tick - ck_start c) /\
       to_accum_tick (play_start_new tick iter) r = if pos + ck_start c <=? u32_max then Ret (Ok pos) else Panic) /\
  (times tick (performance l) < n -> to_accum_tick (play_start_new tick iter) r = Ret (Err (CannotFind n (times tick (performance l))))).
Proof.
  intros l r tick iter F O E T n. replace n with (play_iter_new iter).
  - destruct (start_exact l r tick iter F O E T) as [H1 H2]. split; [|exact H2]. intros L. destruct (H1 L) as [a [c [b [El [K [Tm [N A]]]]]]].
    exists a, c, b. eexists. repeat match goal with |- _ /\ _ => split end; eauto; lia.
  - unfold n, play_iter_new, max_iter. destruct (Z.ltb_spec iter 1); cbn; [lia|]. destruct (Z.ltb_spec 5 iter); lia.
Qed.
Print Assumptions C41_exact.

(** The position where the tick is played for the n-th time, if it is. *)
Theorem C41_found : forall l r tick iter,
  Forall in_time l -> open_only_last l -> by_accum_tick l = Ret r -> 0 <= tick ->
  Z.of_nat (length (performance (removelast l))) + tick <= u32_max ->
  forall pos, to_accum_tick (play_start_new tick iter) r = Ret (Ok pos) <->
              nth_time tick (Z.max 1 (Z.min 5 iter)) (performance l) pos.
Proof.
  intros l r tick iter F O E T B pos. replace (Z.max 1 (Z.min 5 iter)) with (play_iter_new iter).
  - apply (start_found l r tick iter F O E T B).
  - unfold play_iter_new, max_iter. destruct (Z.ltb_spec iter 1); cbn; [lia|]. destruct (Z.ltb_spec 5 iter); lia.
Qed.
Print Assumptions C41_found.

(** The tick and the chunks of C41_case below. *)
Example C41_found_case : Z.of_nat (length (performance (removelast [mkChunk 0 1920; mkChunk 0 1920; mkChunk 1920 u32_max]))) + 960 <= u32_max.
Proof. vm_compute. discriminate. Qed.

(** Otherwise the error says how often it is played. *)
Theorem C41_not_found : forall l r tick iter,
  Forall in_time l -> open_only_last l -> by_accum_tick l = Ret r -> 0 <= tick ->
  let n := Z.max 1 (Z.min 5 iter) in times tick (performance l) < n ->
  to_accum_tick (play_start_new tick iter) r = Ret (Err (CannotFind n (times tick (performance l)))).
Proof.
  intros l r tick iter F O E T n. replace n with (play_iter_new iter).
  - apply (start_exact l r tick iter F O E T).
  - unfold n, play_iter_new, max_iter. destruct (Z.ltb_spec iter 1); cbn; [lia|]. destruct (Z.ltb_spec 5 iter); lia.
Qed.
Print Assumptions C41_not_found.

(** One of the two is the case. *)
Theorem C41_either : forall tick n l, 1 <= n -> times tick l < n \/ exists pos, nth_time tick n l pos.
Proof.
  intros tick n l N. destruct (Z.lt_ge_cases (times tick l) n); [auto|]. right. apply nth_time_exists. lia.
Qed.
Print Assumptions C41_either.

(** The position is computed as [accum + tick - start]; the sum may overflow
    although the position does not (the hypothesis of C41_found is needed). *)
Theorem C41_overflow_refuted : exists l r tick,
  Forall in_time l /\ open_only_last l /\ by_accum_tick l = Ret r /\
  nth_time tick 1 (performance l) tick /\ 0 <= tick <= u32_max /\
  to_accum_tick (play_start_new tick 1) r = Panic.
Proof.
  exists [mkChunk 0 3000000000; mkChunk 3000000000 u32_max], [(0, mkChunk 0 3000000000); (3000000000, mkChunk 3000000000 u32_max)], 3000000000.
  split; [|split; [|split; [|split; [|split]]]].
  - repeat (apply Forall_cons; [unfold in_time, u32_max; cbn; lia|]); apply Forall_nil.
  - apply ends_last_iff. cbn. unfold u32_max. split; [lia|exact I].
  - vm_compute. reflexivity.
  - exists (from_to 0 3000000000), (from_to 3000000001 u32_max). rewrite !perf_cons. cbn [ck_start ck_end].
    change (performance []) with (@nil Z). rewrite app_nil_r, (from_to_cons 3000000000) by (unfold u32_max; lia).
    rewrite from_to_length, times_zero; [split; [reflexivity|lia]| |lia]. rewrite from_to_In. lia.
  - unfold u32_max. lia.
  - vm_compute. reflexivity.
Qed.
Print Assumptions C41_overflow_refuted.

(** A section of two bars played twice, then the rest. *)
Example C41_case :
  let l := [mkChunk 0 1920; mkChunk 0 1920; mkChunk 1920 u32_max] in
  exists r, by_accum_tick l = Ret r /\ Forall in_time l /\ open_only_last l /\
    to_accum_tick (play_start_new 960 2) r = Ret (Ok 2880) /\
    to_accum_tick (play_start_new 960 3) r = Ret (Err (CannotFind 3 2)) /\
    to_accum_tick (play_start_new 2000 1) r = Ret (Ok 3920).
Proof.
  eexists. split; [vm_compute; reflexivity|]. split; [repeat (apply Forall_cons; [unfold in_time, u32_max; cbn; lia|]); apply Forall_nil|]. split.
  - apply ends_last_iff. cbn. unfold u32_max. repeat split; lia.
  - repeat split; vm_compute; reflexivity.
Qed.
