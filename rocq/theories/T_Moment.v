(** Property theorems about the table of chunks read by moments, and about the chunks
    that are left after joining: C86. *)
From Coq Require Import ZArith List Bool Lia Sorted.
From Verif Require Import Base M_Duration M_Scalar M_Bar M_Store M_Repeat S_Note S_Repeat S_Moment P_Base P_Chunk P_Machine P_Order P_Jump P_Panic T_Repeat T_Chunk.
From Verif Require T_Reading.
Import ListNotations.
Open Scope Z_scope.

(** ** The table *)
Fixpoint stacked (o : Z) (l : list chunk) : list (Z * chunk) :=
  match l with [] => [] | c :: l' => (o, c) :: stacked (o + (ck_end c - ck_start c)) l' end.
Lemma stacked_snd l : forall o, map snd (stacked o l) = l.
Proof. induction l as [|c l IH]; intros o; cbn [stacked map snd]; [reflexivity|]. rewrite IH. reflexivity. Qed.
Lemma stacked_split l : forall o a k c b, Forall in_time l -> stacked o l = a ++ (k, c) :: b -> k = o + Z.of_nat (length (performance (map snd a))).
Proof.
  induction l as [|d l IH]; intros o a k c b F E; [destruct a; discriminate|]. apply Forall_cons_iff in F as [G F]. unfold in_time in G. cbn [stacked] in E. destruct a as [|x a].
  - cbn [app] in E. injection E as <- <- _. cbn. lia.
  - cbn [app] in E. injection E as <- E. apply IH in E; [|exact F]. cbn [map snd]. rewrite perf_cons, app_length, Nat2Z.inj_add, from_to_length by lia. lia.
Qed.
Lemma stacked_sorted a c : forall o, Forall in_time a -> Forall (fun d => sounds d = true) a ->
  StronglySorted Z.lt (map fst (stacked o (a ++ [c]))) /\ Forall (fun k => o <= k) (map fst (stacked o (a ++ [c]))).
Proof.
  induction a as [|d a IH]; intros o F S; cbn [app stacked map fst].
  - split; [constructor; constructor|constructor; [lia|constructor]].
  - apply Forall_cons_iff in F as [G F]. apply Forall_cons_iff in S as [H S]. unfold sounds in H. destruct (IH (o + (ck_end d - ck_start d)) F S) as [A B].
    split; [constructor; [exact A|]|constructor; [lia|]]; (eapply Forall_impl; [|exact B]); cbn; intros; lia.
Qed.

Lemma loop_stacked l c : forall o buf base r, 0 <= o -> Forall in_time (l ++ [c]) -> Forall (fun d => ck_end d <> u32_max) l ->
  (forall x, In x (map fst base) -> x < o) -> (buf = base \/ exists d, buf = base ++ [(o, d)]) ->
  accum_loop o buf (l ++ [c]) = Ret r -> r = base ++ stacked o (filter sounds l ++ [c]).
Proof.
  induction l as [|d l IH]; intros o buf base r O F N B HB E.
  - cbn [app filter stacked] in *. cbn [accum_loop] in E.
    assert (A : fst (s_add o c buf) = base ++ [(o, c)]) by (destruct HB as [->|[d ->]]; [apply s_add_last|apply s_add_replace]; auto).
    rewrite A in E. destruct (ck_end c =? u32_max); [apply ret_inj in E; congruence|].
    destruct (ck_len c) as [n| |]; try discriminate. cbn [bind] in E. destruct (chk_u32 (o + n)); try discriminate. cbn [bind] in E. apply ret_inj in E. congruence.
  - cbn [app] in *. apply Forall_cons_iff in F as [G F]. apply Forall_cons_iff in N as [ND N]. unfold in_time in G.
    assert (A : fst (s_add o d buf) = base ++ [(o, d)]) by (destruct HB as [->|[x ->]]; [apply s_add_last|apply s_add_replace]; auto).
    cbn [accum_loop] in E. rewrite A in E. replace (ck_end d =? u32_max) with false in E by lia.
    unfold ck_len in E. destruct (chk_u32 (ck_end d - ck_start d)) as [n| |] eqn:E1; try discriminate. cbn [bind] in E.
    destruct (chk_u32 (o + n)) as [o'| |] eqn:E2; try discriminate. cbn [bind] in E.
    apply chk_inv in E1. destruct E1 as [-> _]. apply chk_inv in E2. destruct E2 as [-> _].
    cbn [filter]. unfold sounds at 1. destruct (Z.ltb_spec (ck_start d) (ck_end d)) as [L|L].
    + rewrite (IH (o + (ck_end d - ck_start d)) (base ++ [(o, d)]) (base ++ [(o, d)]) r); auto; [|lia|].
      * cbn [app stacked]. rewrite <- app_assoc. reflexivity.
      * intros x X. rewrite map_app, in_app_iff in X. destruct X as [X|[<-|[]]]; [apply B in X; lia|cbn; lia].
    + replace (o + (ck_end d - ck_start d)) with o in E by lia. apply (IH o (base ++ [(o, d)]) base r); eauto.
Qed.

Lemma table_stacked l c r : Forall in_time (l ++ [c]) -> open_only_last (l ++ [c]) -> by_accum_tick (l ++ [c]) = Ret r ->
  r = stacked 0 (filter sounds l ++ [c]).
Proof.
  intros F O E. assert (N : Forall (fun d => ck_end d <> u32_max) l).
  { apply Forall_forall. intros d D U. apply in_split in D as (a & b & ->). pose proof (O a d (b ++ [c])) as X. rewrite <- app_assoc in X. specialize (X eq_refl U). destruct b; discriminate. }
  apply (loop_stacked l c 0 [] [] r); auto; [lia|]. intros x [].
Qed.

Lemma filter_perf l : Forall good_chunk l -> performance (filter sounds l) = performance l.
Proof.
  induction 1 as [|c l G F IH]; [reflexivity|]. unfold good_chunk in G. cbn [filter]. unfold sounds at 1. destruct (Z.ltb_spec (ck_start c) (ck_end c)); rewrite !perf_cons, ?IH; [reflexivity|].
  rewrite from_to_nil by lia. reflexivity.
Qed.
Lemma last_or (l : list chunk) : l = [] \/ exists a c, l = a ++ [c].
Proof. destruct l as [|x l]; [auto|]. right. destruct (@exists_last _ (x :: l)) as [a [c E]]; [discriminate|]. eauto. Qed.

Lemma in_time_good l : Forall in_time l -> Forall good_chunk l.
Proof. apply Forall_impl. unfold in_time, good_chunk. lia. Qed.

(** The table has one entry for each chunk that plays something, in their order, and
    one for the last chunk. *)
Theorem C86_entries : forall l c r, Forall in_time (l ++ [c]) -> open_only_last (l ++ [c]) -> by_accum_tick (l ++ [c]) = Ret r ->
  map snd r = filter sounds l ++ [c].
Proof. intros l c r F O E. rewrite (table_stacked l c r F O E). apply stacked_snd. Qed.
Print Assumptions C86_entries.

(** Each entry stands at the moment its chunk begins to be played; no two entries
    stand at the same moment. *)
Theorem C86_table : forall l r, Forall in_time l -> open_only_last l -> by_accum_tick l = Ret r ->
  performance (map snd r) = performance l /\ StronglySorted Z.lt (map fst r) /\
  forall a k c b, r = a ++ (k, c) :: b -> k = Z.of_nat (length (performance (map snd a))).
Proof.
  intros l r F O E. destruct (last_or l) as [->|(a & c & ->)].
  - cbn in E. apply ret_inj in E. subst r. split; [reflexivity|]. split; [constructor|]. intros [|] k c b X; discriminate.
  - rewrite (table_stacked a c r F O E). apply Forall_app in F as [Fa Fc].
    assert (G : Forall in_time (filter sounds a)) by (apply Forall_forall; intros x X; apply filter_In in X as [X _]; rewrite Forall_forall in Fa; auto).
    assert (S : Forall (fun d => sounds d = true) (filter sounds a)) by (apply Forall_forall; intros x X; apply filter_In in X; tauto).
    split; [rewrite stacked_snd, !perf_app, filter_perf by (apply in_time_good; exact Fa); reflexivity|]. split; [apply (stacked_sorted _ c 0 G S)|].
    intros p k d b X. apply stacked_split in X; [lia|]. apply Forall_app; auto.
Qed.
Print Assumptions C86_table.

(** ** Moments *)
Lemma heard_nth l p t : heard_at l p t <-> 0 <= p /\ nth_error l (Z.to_nat p) = Some t.
Proof.
  split.
  - intros (a & b & -> & ->). split; [lia|]. rewrite Nat2Z.id, nth_error_app2, Nat.sub_diag by lia. reflexivity.
  - intros [P N]. apply nth_error_split in N as (a & b & -> & L). exists a, b. split; [reflexivity|lia].
Qed.
Lemma heard_fun l p t u : heard_at l p t -> heard_at l p u -> t = u.
Proof. rewrite !heard_nth. intros [_ A] [_ B]. congruence. Qed.
Lemma heard_bound l p t : heard_at l p t -> 0 <= p < Z.of_nat (length l).
Proof. intros (a & b & -> & ->). rewrite app_length. cbn [length]. lia. Qed.
Lemma heard_app a b p t : heard_at (a ++ b) p t <-> heard_at a p t \/ heard_at b (p - Z.of_nat (length a)) t.
Proof.
  rewrite !heard_nth. destruct (Z.lt_ge_cases p (Z.of_nat (length a))) as [L|L].
  - split.
    + intros [P N]. left. split; [exact P|]. rewrite nth_error_app1 in N by lia. exact N.
    + intros [[P N]|[P _]]; [|lia]. split; [exact P|]. rewrite nth_error_app1 by lia. exact N.
  - split.
    + intros [P N]. right. split; [lia|]. rewrite nth_error_app2 in N by lia. rewrite <- N. f_equal. lia.
    + intros [[P N]|[P N]].
      * assert (X : nth_error a (Z.to_nat p) <> None) by congruence. apply nth_error_Some in X. lia.
      * split; [lia|]. rewrite nth_error_app2 by lia. rewrite <- N. f_equal. lia.
Qed.
Lemma heard_from_to a b p t : heard_at (from_to a b) p t <-> 0 <= p /\ t = a + p /\ t < b.
Proof.
  rewrite heard_nth. destruct (Z.lt_ge_cases (a + p) b) as [L|L].
  - split; intros [P N]; (split; [exact P|]).
    + rewrite <- (from_to_app a (a + p) b), (from_to_cons (a + p)) in N by lia. pose proof (from_to_length a (a + p) ltac:(lia)) as LN.
      rewrite nth_error_app2 in N by lia. replace (Z.to_nat p - length (from_to a (a + p)))%nat with 0%nat in N by lia. cbn in N. injection N as <-. lia.
    + rewrite <- (from_to_app a (a + p) b), (from_to_cons (a + p)) by lia. pose proof (from_to_length a (a + p) ltac:(lia)) as LN.
      rewrite nth_error_app2 by lia. replace (Z.to_nat p - length (from_to a (a + p)))%nat with 0%nat by lia. cbn. f_equal. lia.
  - split; intros [P N]; [exfalso|lia]. assert (X : nth_error (from_to a b) (Z.to_nat p) <> None) by congruence. apply nth_error_Some in X.
    destruct (Z.le_gt_cases a b); [pose proof (from_to_length a b); lia|]. rewrite from_to_nil in X by lia. cbn in X. lia.
Qed.

Lemma heard_split cs : forall p t, Forall in_time cs -> heard_at (performance cs) p t ->
  exists a c b, cs = a ++ c :: b /\ t = ck_start c + (p - Z.of_nat (length (performance a))) /\ t < ck_end c /\ ck_start c <= t.
Proof.
  induction cs as [|c cs IH]; intros p t F H; [destruct H as ([|] & b & X & _); discriminate|]. apply Forall_cons_iff in F as [G F]. unfold in_time in G.
  rewrite perf_cons in H. apply heard_app in H as [H|H].
  - apply heard_from_to in H as (P & T & L). exists [], c, cs. split; [reflexivity|]. cbn. lia.
  - apply IH in H as (a & d & b & -> & T & L & L2); [|exact F]. exists (c :: a), d, b. split; [reflexivity|]. rewrite perf_cons, app_length, Nat2Z.inj_add.
    rewrite from_to_length in * by lia. lia.
Qed.

(** At every moment of the performance the entry in force tells the tick that is
    played: the first tick of its chunk and as many more as have passed since its
    own moment. *)
Theorem C86_moment : forall l r p t, Forall in_time l -> open_only_last l -> by_accum_tick l = Ret r ->
  heard_at (performance l) p t <-> exists k c, in_force r p k c /\ t = ck_start c + (p - k) /\ t < ck_end c.
Proof.
  intros l r p t F O E. destruct (C86_table l r F O E) as (P & S & K). rewrite <- P.
  assert (G : Forall in_time (map snd r)).
  { destruct (last_or l) as [->|(a & c & ->)]; [cbn in E; apply ret_inj in E; subst r; constructor|]. rewrite (C86_entries a c r F O E).
    apply Forall_app in F as [Fa Fc]. apply Forall_app. split; [|exact Fc]. apply Forall_forall. intros x X. apply filter_In in X as [X _]. rewrite Forall_forall in Fa. auto. }
  split.
  - intros H. apply heard_split in H as (a & c & b & M & T & L & L2); [|exact G].
    apply map_eq_app in M as (r1 & r2 & Er & <- & M). destruct r2 as [|[k d] r3]; [discriminate|]. cbn [map snd] in M. injection M as Ed <-. subst d.
    pose proof (K _ _ _ _ Er) as Ek. exists k, c. split; [|rewrite Ek; auto]. exists r1, r3. split; [exact Er|]. split; [lia|].
    apply Forall_forall. intros [k' d] I. apply in_split in I as (x & y & ->). cbn [fst].
    pose proof (K (r1 ++ (k, c) :: x) k' d y) as Ek'. rewrite <- app_assoc in Ek'. cbn [app] in Ek'. specialize (Ek' Er).
    rewrite map_app, perf_app in Ek'. cbn [map snd] in Ek'. rewrite perf_cons, !app_length, !Nat2Z.inj_add, from_to_length in Ek' by lia. lia.
  - intros (k & c & (a & b & Er & KP & _) & T & L). pose proof (K _ _ _ _ Er) as Ek. rewrite Er, map_app, perf_app. cbn [map snd]. rewrite perf_cons.
    apply heard_app. right. apply heard_app. left. apply heard_from_to. lia.
Qed.
Print Assumptions C86_moment.

(** So a start position is the moment at which the table shows the tick that was
    asked for. *)
Theorem C86_round : forall l r tick iter pos, Forall in_time l -> open_only_last l -> by_accum_tick l = Ret r -> 0 <= tick ->
  to_accum_tick (play_start_new tick iter) r = Ret (Ok pos) ->
  exists k c, in_force r pos k c /\ tick = ck_start c + (pos - k) /\ tick < ck_end c.
Proof.
  intros l r tick iter pos F O E T H. apply (C86_moment l r pos tick F O E).
  destruct (C41_exact l r tick iter F O E T) as [A B]. destruct (Z.lt_ge_cases (times tick (performance l)) (Z.max 1 (Z.min 5 iter))) as [L|L].
  - rewrite (B L) in H. discriminate.
  - destruct (A ltac:(lia)) as (a & c & b & q & _ & _ & _ & (x & y & X & Q & _) & _ & W). rewrite W in H. destruct (q + ck_start c <=? u32_max); [|discriminate].
    injection H as <-. exists x, y. auto.
Qed.
Print Assumptions C86_round.

(** ** Joining *)
Lemma run_end a b c (P Q : list Z) : a < b -> b < c -> (forall x R, P = x :: R -> x <> b) -> from_to a b ++ P <> from_to a c ++ Q.
Proof.
  intros L M N E. rewrite <- (from_to_app a b c), <- app_assoc in E by lia. apply app_inv_head in E. rewrite (from_to_cons b) in E by lia. exact (N _ _ E eq_refl).
Qed.
Lemma next_start c d l x R : sounds d = true -> no_joint (c :: d :: l) -> performance (d :: l) = x :: R -> x <> ck_end c.
Proof.
  unfold sounds. intros S [N _] E. rewrite perf_cons, from_to_cons in E by lia. injection E as <- _. lia.
Qed.
Lemma sounds_nil l : Forall (fun c => sounds c = true) l -> performance l = [] -> l = [].
Proof. intros F E. destruct F as [|c l S F]; [reflexivity|]. unfold sounds in S. rewrite perf_cons, from_to_cons in E by lia. discriminate. Qed.

Lemma runs_only l : forall m, Forall (fun c => sounds c = true) l -> Forall (fun c => sounds c = true) m -> no_joint l -> no_joint m ->
  performance l = performance m -> l = m.
Proof.
  induction l as [|c l IH]; intros m F G N M E.
  - symmetry. apply sounds_nil; auto.
  - destruct m as [|d m]; [apply (sounds_nil _ F) in E; discriminate|].
    apply Forall_cons_iff in F as [S F]. apply Forall_cons_iff in G as [S' G]. pose proof E as E0. rewrite !perf_cons in E. pose proof S as SC. pose proof S' as SD. unfold sounds in SC, SD.
    assert (A : ck_start c = ck_start d).
    { rewrite (from_to_cons (ck_start c)), (from_to_cons (ck_start d)) in E by lia. injection E as X _. exact X. }
    assert (X : forall c l x R, Forall (fun c => sounds c = true) l -> no_joint (c :: l) -> performance l = x :: R -> x <> ck_end c).
    { intros c0 [|e0 l0] x R F0 N0 P0; [discriminate|]. apply Forall_cons_iff in F0 as [S0 _]. exact (next_start _ _ _ _ _ S0 N0 P0). }
    assert (B : ck_end c = ck_end d).
    { destruct (Z.lt_trichotomy (ck_end c) (ck_end d)) as [L|[L|L]]; [|exact L|]; exfalso.
      - rewrite A in E. apply (run_end (ck_start d) (ck_end c) (ck_end d)) in E; [auto|lia|lia|]. intros x R P. exact (X _ _ _ _ F N P).
      - rewrite A in E. symmetry in E. apply (run_end (ck_start d) (ck_end d) (ck_end c)) in E; [auto|lia|lia|]. intros x R P. exact (X _ _ _ _ G M P). }
    destruct c as [c1 c2], d as [d1 d2]. cbn [ck_start ck_end] in *. subst d1 d2. apply app_inv_head in E. f_equal.
    apply IH; auto; eapply no_joint_tl; eassumption.
Qed.
Lemma optimize_sounds l : Forall (fun c => sounds c = true) l -> Forall (fun c => sounds c = true) (optimize l).
Proof.
  destruct l as [|c l]; [auto|]. cbn [optimize]. revert c. induction l as [|d l IH]; intros c F; cbn [optimize_from]; [exact F|].
  apply Forall_cons_iff in F as [A F]. apply Forall_cons_iff in F as [B F]. destruct (Z.eqb_spec (ck_end c) (ck_start d)) as [J|J].
  - apply IH. constructor; [|exact F]. unfold sounds in *. cbn. lia.
  - constructor; [exact A|]. apply IH. constructor; auto.
Qed.
Lemma sounds_good l : Forall (fun c => sounds c = true) l -> Forall good_chunk l.
Proof. apply Forall_impl. unfold sounds, good_chunk. intros; lia. Qed.
Lemma optimize_length l : (length (optimize l) <= length l)%nat.
Proof.
  destruct l as [|c l]; [auto|]. cbn [optimize]. revert c. induction l as [|d l IH]; intros c; cbn [optimize_from length]; [auto|].
  destruct (ck_end c =? ck_start d); cbn [length]; [specialize (IH (mkChunk (ck_start c) (ck_end d)))|specialize (IH d)]; cbn [length] in IH; lia.
Qed.

(** Chunks that all play something are joined to the same chunks exactly if they play
    the same. *)
Theorem C86_only : forall l m, Forall (fun c => sounds c = true) l -> Forall (fun c => sounds c = true) m ->
  (optimize l = optimize m <-> performance l = performance m).
Proof.
  intros l m F G. split; intros E.
  - rewrite <- (C40_same_performance l), <- (C40_same_performance m), E by (apply sounds_good; assumption). reflexivity.
  - apply runs_only; try (apply optimize_sounds; assumption); try apply optimize_joint.
    rewrite !C40_same_performance by (apply sounds_good; assumption). exact E.
Qed.
Print Assumptions C86_only.

(** No chunks at all that play the same are fewer. *)
Theorem C86_fewest : forall l m, Forall (fun c => sounds c = true) l -> Forall good_chunk m -> performance m = performance l ->
  (length (optimize l) <= length m)%nat.
Proof.
  intros l m F G E. assert (S : Forall (fun c => sounds c = true) (filter sounds m)) by (apply Forall_forall; intros x X; apply filter_In in X; tauto).
  rewrite (proj2 (C86_only l (filter sounds m) F S)) by (rewrite filter_perf by exact G; congruence).
  eapply Nat.le_trans; [apply optimize_length|]. clear. induction m as [|c m IH]; cbn [filter length]; [auto|]. destruct (sounds c); cbn [length]; lia.
Qed.
Print Assumptions C86_fewest.

(** ** Starting in joined chunks *)
Definition shut (c : chunk) : bool := negb (ck_end c =? u32_max).
Lemma joined_shut l : forall c, Forall in_time (c :: l) -> ends_last (c :: l) ->
  Z.of_nat (length (performance (filter shut (optimize_from c l)))) <= Z.of_nat (length (performance (filter shut (c :: l)))) /\
  Z.of_nat (length (performance (removelast (optimize_from c l)))) <= Z.of_nat (length (performance (removelast (c :: l)))) /\
  Forall in_time (optimize_from c l) /\ ends_last (optimize_from c l).
Proof.
  induction l as [|d l IH]; intros c F O; cbn [optimize_from]; [split; [lia|split; [lia|auto]]|].
  apply Forall_cons_iff in F as [A F]. pose proof F as F0. apply Forall_cons_iff in F as [B F]. destruct O as [O1 O2]. unfold in_time in A, B.
  change (removelast (c :: d :: l)) with (c :: removelast (d :: l)). change (filter shut (c :: d :: l)) with (if shut c then c :: filter shut (d :: l) else filter shut (d :: l)).
  assert (SC : shut c = true) by (unfold shut; replace (ck_end c =? u32_max) with false by lia; reflexivity). rewrite SC.
  destruct (Z.eqb_spec (ck_end c) (ck_start d)) as [J|J].
  - destruct (IH (mkChunk (ck_start c) (ck_end d))) as (I1 & I2 & I3 & I4).
    { constructor; [unfold in_time; cbn; lia|exact F]. }
    { destruct l as [|e l]; [exact Logic.I|exact O2]. }
    split; [|split; [|split; assumption]].
    + eapply Z.le_trans; [exact I1|]. cbn [filter]. change (shut (mkChunk (ck_start c) (ck_end d))) with (shut d). destruct (shut d); rewrite !perf_cons, !app_length, !Nat2Z.inj_add; [|lia].
      cbn [ck_start ck_end]. rewrite !from_to_length by lia. lia.
    + eapply Z.le_trans; [exact I2|]. destruct l as [|e l].
      * cbn. lia.
      * change (removelast (mkChunk (ck_start c) (ck_end d) :: e :: l)) with (mkChunk (ck_start c) (ck_end d) :: removelast (e :: l)).
        change (removelast (d :: e :: l)) with (d :: removelast (e :: l)). rewrite !perf_cons, !app_length, !Nat2Z.inj_add. cbn [ck_start ck_end]. rewrite !from_to_length by lia. lia.
  - destruct (IH d F0 O2) as (I1 & I2 & I3 & I4). destruct (optimize_from_head l d) as (x & y & E & _).
    split; [|split; [|split]].
    + change (filter shut (c :: optimize_from d l)) with (if shut c then c :: filter shut (optimize_from d l) else filter shut (optimize_from d l)). rewrite SC, !perf_cons, !app_length. lia.
    + rewrite E in *. change (removelast (c :: x :: y)) with (c :: removelast (x :: y)). rewrite !perf_cons, !app_length. lia.
    + constructor; [unfold in_time; lia|exact I3].
    + rewrite E in *. split; [exact O1|exact I4].
Qed.

(** The table of the joined chunks can be made if that of the chunks can, and every
    start position in it is the same. *)
Theorem C86_joined : forall l r, Forall in_time l -> open_only_last l -> by_accum_tick l = Ret r ->
  exists r', by_accum_tick (optimize l) = Ret r' /\
    forall tick iter, 0 <= tick -> Z.of_nat (length (performance (removelast l))) + tick <= u32_max ->
      to_accum_tick (play_start_new tick iter) r' = to_accum_tick (play_start_new tick iter) r.
Proof.
  intros l r F O E. destruct l as [|c l]; [exists r; auto|].
  pose proof O as O'. apply ends_last_iff in O'. destruct (joined_shut l c F O') as (J1 & J2 & J3 & J4). apply ends_last_iff in J4.
  change (optimize_from c l) with (optimize (c :: l)) in *.
  destruct (C41_table_panics _ J3) as [P [X|[r' R']]]; [exfalso|].
  - apply P in X. destruct (C41_table_panics _ F) as [Q _]. assert (Y : by_accum_tick (c :: l) = Panic); [|congruence]. apply Q. unfold shut in J1. lia.
  - exists r'. split; [exact R'|]. intros tick iter T B. pose proof (C40_same_performance (c :: l) (in_time_good _ F)) as SP.
    destruct (C41_either tick (Z.max 1 (Z.min 5 iter)) (performance (c :: l)) ltac:(lia)) as [L|[pos H]].
    + rewrite (C41_not_found _ _ tick iter F O E T L). pose proof L as L'. rewrite <- SP in L'. rewrite (C41_not_found _ _ tick iter J3 J4 R' T L'), SP. reflexivity.
    + rewrite (proj2 (C41_found _ _ tick iter F O E T B pos) H). apply (C41_found _ _ tick iter J3 J4 R' T); [lia|]. rewrite SP. exact H.
Qed.
Print Assumptions C86_joined.

(** ** Scores *)
Lemma plain_sounds x s lo e : x = (s, snd (fst x), e) -> 0 <= s < lo -> lo <= e -> starts_in lo e (snd (fst x)) ->
  Forall (fun c => sounds c = true) (plain_chunks (region_of x)).
Proof.
  destruct x as [[s' sec] e']. cbn [fst snd]. intros X. inversion X; subst. intros S L SI. unfold sounds.
  destruct sec as [l|l|c vs]; cbn [region_of plain_chunks range_chunk fst snd].
  - constructor; auto. cbn. lia.
  - constructor; [cbn; lia|]. constructor; auto. cbn. lia.
  - destruct SI as [S0 [S1 S2]]. pose proof (spans_in _ _ _ S1 S2) as SP. unfold variation_full.
    assert (H0 : lo <= hd e (starts_of vs) <= e). { destruct (starts_of vs); [congruence|]. inversion S2; subst. cbn. lia. }
    induction SP as [|p l P SP IH]; [constructor|]. cbn [flat_map]. constructor; [cbn; lia|]. constructor; [cbn; lia|]. exact IH.
Qed.
Lemma plain_all_sound l : forall s lo, 0 <= s < lo -> chain s lo l -> Forall (fun c => sounds c = true) (flat_map plain_chunks (map region_of l)).
Proof.
  induction l as [|[[a sec] e] l IH]; intros s lo S C; [constructor|]. destruct C as [-> [SL [LE [SI [_ C]]]]]. cbn [map flat_map]. apply Forall_app.
  split; [apply (plain_sounds (s, sec, e) s lo e); auto; lia|]. apply (IH e (e + 1)); auto. lia.
Qed.
Lemma first_sounds d l : forall s lo cs, 0 <= s < lo -> chain s lo l -> omapM (render_chunks (DcDsIter0 d)) (map region_of l) = Ret cs ->
  Forall (fun c => sounds c = true) (concat cs).
Proof.
  induction l as [|[[a sec] e] l IH]; intros s lo cs S C E; [inv E; constructor|]. cbn [map] in E. apply omapM_cons in E. destruct E as [x [y [E1 [E2 ->]]]].
  destruct C as [-> [SL [LE [SI [_ C]]]]]. cbn [concat]. apply Forall_app. split; [|apply (IH e (e + 1)); auto; lia].
  destruct sec as [z|z|z vs]; cbn [region_of render_chunks] in E1.
  - inv E1. destruct (Z.leb_spec e d); [constructor; [unfold sounds; cbn; lia|constructor]|]. destruct ((s <? d) && (d <? e)) eqn:Q; [|constructor].
    constructor; [unfold sounds; cbn; lia|constructor].
  - destruct (Z.leb_spec e d); [inv E1; repeat (constructor; [unfold sounds; cbn; lia|]); constructor|]. destruct ((e <? d) && (d <? e)); inv E1. constructor.
  - cbn [fst] in E1. destruct (d <=? s); [inv E1; constructor|]. pose proof SI as [N _]. rewrite spans_last in E1 by auto. cbn [bind snd] in E1. destruct (Z.ltb_spec d e); [discriminate|]. inv E1.
    apply (plain_sounds (s, Varied z vs, e) s lo e); auto; lia.
Qed.
Lemma sounds_top l : chain 0 0 l -> l <> [] -> Forall (fun c => sounds c = true) (flat_map plain_chunks (map region_of l)) -> chain 0 1 l.
Proof.
  intros C NE S. destruct l as [|[[a sec] e] l]; [congruence|]. cbn [map flat_map] in S. apply Forall_app in S as [S _].
  destruct C as [-> [_ [LE [SI C]]]]. cbn [chain]. split; [reflexivity|]. split; [lia|]. destruct sec as [z|z|z vs]; cbn [region_of plain_chunks range_chunk fst snd] in S.
  - apply Forall_cons_iff in S as [S _]. unfold sounds in S. cbn in S. split; [lia|auto].
  - apply Forall_cons_iff in S as [S _]. unfold sounds in S. cbn in S. split; [lia|auto].
  - destruct SI as [N [SS F]]. destruct (starts_of vs) as [|t ts] eqn:ST; [congruence|]. cbn [spans hd] in S. unfold variation_full in S. cbn [flat_map app] in S.
    apply Forall_cons_iff in S as [S _]. unfold sounds, range_chunk in S. cbn in S. inversion SS as [|? ? S1 S2]; subst. inversion F as [|? ? F1 F2]; subst. cbn in F1.
    split; [lia|]. split; [|exact C]. unfold starts_in. rewrite ST. split; [discriminate|]. split; [exact SS|]. constructor; [lia|].
    rewrite Forall_forall in *. intros q Q. specialize (S2 q Q). specialize (F2 q Q). cbn in *. lia.
Qed.

(** The chunks of a score all play something exactly if no bar at tick 0 has a repeat
    sign or belongs to an ending. *)
Theorem C86_sounding : forall r bars c w cs, tune bars -> Forall compatible bars ->
  render_region r bars = Ret (Ok (c, w)) -> to_chunks c = Ret cs ->
  (Forall (fun k => sounds k = true) cs <-> top_clear bars).
Proof.
  intros r bars c w cs T F R TC. destruct (render_sound r bars c w T F R) as [C [l [gr [W [LB [_ [-> B]]]]]]]. subst bars. pose proof (layout_chain l W T) as CH.
  assert (NE : timed_layout l <> []) by (unfold timed_layout; apply timed_ne).
  destruct gr as [g|].
  - destruct (jump_built r _ g w T C B) as [s [J [_ [CO IS]]]]. pose proof (segno_range _ _ _ _ T J) as SR.
    assert (CB : match pair_of (marked Coda (layout_bars l)) with Some (_, q) => 0 <= q | None => True end).
    { destruct (marked Coda (layout_bars l)) as [|p [|q [|]]] eqn:MC; cbn [pair_of]; auto. apply (marked_range Coda (layout_bars l) q T). rewrite MC. cbn. auto. }
    destruct (set_iv s _ _ _ ltac:(lia) CB IS) as [lo K]. unfold to_chunks in TC. cbn [cp_global cp_regions] in TC.
    destruct (omapM (render_chunks (DcDsIter0 (ds_dc_tick (gr_ds_dc g)))) (map region_of (timed_layout l))) as [c1| |] eqn:E1; try discriminate. cbn [bind] in TC.
    destruct (omapM (render_chunks (DcDsIter1 g)) (map region_of (timed_layout l))) as [c2| |] eqn:E2; try discriminate. cbn [bind] in TC. inv TC.
    pose proof (second_top _ _ _ CH NE E2) as CH1. split; [intros _; apply chain_top; auto|intros _].
    destruct (second_chunks g lo (timed_layout l) K 0 1 ltac:(lia) ltac:(lia) CH1) as [c2' [E2' [_ [F2 _]]]]. rewrite E2 in E2'. inv E2'.
    apply Forall_app. split; [apply (first_sounds _ _ 0 1 c1 ltac:(lia) CH1 E1)|]. eapply Forall_impl; [|exact F2]. unfold sounds. cbn. intros; lia.
  - pose proof (chunks_plain _ _ TC) as X. inv X. split; intros H.
    + apply chain_top; auto. apply sounds_top; auto.
    + apply (plain_all_sound _ 0 1); [lia|]. apply top_chain; auto.
Qed.
Print Assumptions C86_sounding.

(** Whatever marks the bars of a score have, the table of its chunks tells at every
    moment what is heard. *)
Theorem C86_score : forall r bars c w cs table, tune bars -> render_region r bars = Ret (Ok (c, w)) -> to_chunks c = Ret cs ->
  by_accum_tick cs = Ret table -> forall p t,
  heard_at (performance cs) p t <-> exists k d, in_force table p k d /\ t = ck_start d + (p - k) /\ t < ck_end d.
Proof.
  intros r bars c w cs table T R TC TB p t. destruct (T_Reading.C69_played r bars c w cs T R TC) as (I & O & _). apply (C86_moment cs table p t I O TB).
Qed.
Print Assumptions C86_score.

(** Two such scores are heard alike exactly if their joined chunks are the same. *)
Theorem C86_alike : forall r bars c w cs r' bars' c' w' cs',
  tune bars -> Forall compatible bars -> top_clear bars -> render_region r bars = Ret (Ok (c, w)) -> to_chunks c = Ret cs ->
  tune bars' -> Forall compatible bars' -> top_clear bars' -> render_region r' bars' = Ret (Ok (c', w')) -> to_chunks c' = Ret cs' ->
  (optimize cs = optimize cs' <-> performance cs = performance cs').
Proof.
  intros r bars c w cs r' bars' c' w' cs' T F TP R TC T' F' TP' R' TC'.
  apply C86_only; [apply (C86_sounding r bars c w cs T F R TC)|apply (C86_sounding r' bars' c' w' cs' T' F' R' TC')]; assumption.
Qed.
Print Assumptions C86_alike.

(** With an ending on the bar at tick 0 the empty chunk in front of the second ending
    keeps the chunks around it apart, although they are played without a break. *)
Theorem C86_top_refuted : exists r bars c w cs, tune bars /\ Forall compatible bars /\
  render_region r bars = Ret (Ok (c, w)) /\ to_chunks c = Ret cs /\
  exists m, performance m = performance (optimize cs) /\ (length m < length (optimize cs))%nat.
Proof.
  exists four_four, [bar_at 0 [Var1]; bar_at 960 [Var2]; bar_at 1920 []].
  eexists. eexists. exists [mkChunk 0 0; mkChunk 0 960; mkChunk 0 0; mkChunk 960 1920; mkChunk 1920 u32_max].
  split; [tune_tac|]. split; [compat_tac|]. split; [vm_compute; reflexivity|]. split; [vm_compute; reflexivity|].
  exists [mkChunk 0 u32_max]. split; [|vm_compute; lia].
  change (optimize _) with [mkChunk 0 960; mkChunk 0 0; mkChunk 960 u32_max]. rewrite !perf_cons. cbn [ck_start ck_end]. change (performance []) with (@nil Z).
  rewrite (from_to_nil 0 0) by lia. rewrite !app_nil_r. cbn [app]. rewrite from_to_app by (unfold u32_max; lia). reflexivity.
Qed.
Print Assumptions C86_top_refuted.

(** Two bars played twice, then the rest: at the moment 2880 the second bar is heard
    for the second time. *)
Example C86_moment_case :
  let l := [mkChunk 0 1920; mkChunk 0 1920; mkChunk 1920 u32_max] in
  exists r, by_accum_tick l = Ret r /\ Forall in_time l /\ open_only_last l /\
    in_force r 2880 1920 (mkChunk 0 1920) /\ heard_at (performance l) 2880 960 /\
    to_accum_tick (play_start_new 960 2) r = Ret (Ok 2880).
Proof.
  destruct C41_case as (r & E & F & O & S & _). exists r. split; [exact E|]. split; [exact F|]. split; [exact O|].
  assert (I : in_force r 2880 1920 (mkChunk 0 1920)).
  { vm_compute in E. injection E as <-. exists [(0, mkChunk 0 1920)], [(3840, mkChunk 1920 u32_max)]. split; [vm_compute; reflexivity|]. split; [lia|]. constructor; [cbn; lia|constructor]. }
  split; [exact I|]. split; [|exact S]. apply (C86_moment _ r 2880 960 F O E). exists 1920, (mkChunk 0 1920). split; [exact I|]. cbn. lia.
Qed.

(** A chunk that plays nothing has no entry. *)
Example C86_entries_case : by_accum_tick ([mkChunk 0 960; mkChunk 960 960; mkChunk 480 960] ++ [mkChunk 960 u32_max]) =
  Ret [(0, mkChunk 0 960); (960, mkChunk 480 960); (1440, mkChunk 960 u32_max)].
Proof. vm_compute. reflexivity. Qed.

(** The chunks of a score with a repeat play something, and can be joined. *)
Example C86_sounding_case : exists c cs, let bars := [bar_at 960 [Start]; bar_at 1920 []; bar_at 2880 [End]] in
  tune bars /\ Forall compatible bars /\ top_clear bars /\ render_region four_four bars = Ret (Ok (c, [])) /\ to_chunks c = Ret cs /\
  Forall (fun k => sounds k = true) cs /\ optimize cs = [mkChunk 0 2880; mkChunk 960 u32_max] /\ (length (optimize cs) < length cs)%nat.
Proof.
  eexists. exists [mkChunk 0 960; mkChunk 960 2880; mkChunk 960 2880; mkChunk 2880 u32_max].
  split; [tune_tac|]. split; [compat_tac|]. split; [unfold top_clear; repeat (constructor; [intros X; vm_compute in X; discriminate|]); constructor|].
  split; [vm_compute; reflexivity|]. split; [vm_compute; reflexivity|].
  split; [repeat (constructor; [reflexivity|]); constructor|]. split; [reflexivity|]. vm_compute. lia.
Qed.

(** Joined and unjoined chunks give the same start. *)
Example C86_joined_case : exists r r', let l := [mkChunk 0 960; mkChunk 960 2880; mkChunk 960 2880; mkChunk 2880 u32_max] in
  by_accum_tick l = Ret r /\ by_accum_tick (optimize l) = Ret r' /\ r <> r' /\
  to_accum_tick (play_start_new 1000 2) r = Ret (Ok 2920) /\ to_accum_tick (play_start_new 1000 2) r' = Ret (Ok 2920) /\
  Z.of_nat (length (performance (removelast l))) + 1000 <= u32_max.
Proof.
  eexists. eexists. cbv zeta. split; [vm_compute; reflexivity|]. split; [vm_compute; reflexivity|]. split; [discriminate|]. split; [vm_compute; reflexivity|]. split; [vm_compute; reflexivity|].
  cbn [removelast]. rewrite !perf_cons, !app_length, !Nat2Z.inj_add. cbn [ck_start ck_end]. rewrite !from_to_length by lia. change (performance []) with (@nil Z). cbn [length]. unfold u32_max. lia.
Qed.
