(** Lemmas about the set of ticks of the last pass (C57). *)
From Coq Require Import ZArith List Bool Lia Sorted.
From Verif Require Import Base M_Duration M_Scalar M_Bar M_Store M_Repeat S_Note S_Repeat P_Base P_Chunk P_Machine P_Errors P_Order P_Jump.
Import ListNotations.
Open Scope Z_scope.

Lemma in_iv_covers t l : in_iv t l <-> covers l t.
Proof.
  unfold in_iv, covers. rewrite Exists_exists. split.
  - intros [[a b] [I H]]. exists a, b. auto.
  - intros (a & b & I & H). exists (a, b). auto.
Qed.

Lemma union_sections l : forall s lo u, 0 <= s -> s < lo -> chain s lo l -> iv_ok 0 u ->
  exists v, ofold (fun u r => let! s := iter1_interval_set r in Ret (iset_union u s)) u (map region_of l) = Ret v /\ iv_ok 0 v /\
    forall t, in_iv t v <-> in_iv t u \/ (s <= t < u32_max /\ left_out l t = false).
Proof.
  induction l as [|[[a sec] e] l IH]; intros s lo u S SL C K.
  - cbn in C. subst s. exists u. split; [reflexivity|]. split; [exact K|]. intros t. split; [auto|]. intros [H|[H _]]; [exact H|lia].
  - destruct C as [-> [_ [LE [SI [_ C]]]]]. destruct (iter1_set s lo sec e S SL LE SI) as [is [E [KI M]]].
    assert (U : iv_ok 0 (iset_union u is) /\ forall t, in_iv t (iset_union u is) <-> in_iv t u \/ in_iv t is).
    { unfold iset_union. destruct (normal_spec (u ++ is)) as [A B].
      - apply Forall_app. split; [eapply Forall_impl; [|exact (ok_bounds _ _ K)]|eapply Forall_impl; [|exact (ok_bounds _ _ KI)]]; cbn; lia.
      - split.
        + apply A. apply Forall_app. split; [eapply Forall_impl; [|exact (ok_bounds _ _ K)]|eapply Forall_impl; [|exact (ok_bounds _ _ KI)]]; cbn; lia.
        + intros t. rewrite B, in_iv_app. tauto. }
    destruct U as [U1 U2]. destruct (IH e (e + 1) (iset_union u is) ltac:(lia) ltac:(lia) C U1) as [v [EV [KV MV]]].
    exists v. split; [|split; [exact KV|]].
    + cbn [map ofold]. rewrite E. cbn [bind]. exact EV.
    + intros t. rewrite MV, U2, M, left_out_cons, orb_false_iff.
      assert (O1 : e <= t -> out (s, sec, e) t = false).
      { intros H. destruct sec as [?|?|c vs]; try reflexivity. cbn [out]. destruct SI as [N [_ F]]. rewrite Forall_forall in F.
        assert (L : In (last (starts_of vs) e) (starts_of vs)) by (destruct (exists_last N) as [x [y ->]]; rewrite last_last, in_app_iff; cbn; auto).
        specialize (F _ L). cbn in F. lia. }
      assert (O2 : t < e -> left_out l t = false).
      { clear - C. revert C. generalize (e + 1). revert e. induction l as [|[[a sec] e'] l IH]; intros e lo C H; [reflexivity|].
        destruct C as [-> [SL [LE [SI [_ C]]]]]. rewrite left_out_cons, (IH e' (e' + 1) C) by lia. rewrite orb_false_r.
        destruct sec as [?|?|c vs]; try reflexivity. cbn [out]. destruct SI as [N [_ F]]. destruct (starts_of vs); [congruence|]. inversion F; subst. cbn [hd]. lia. }
      destruct (Z.lt_ge_cases t e).
      * rewrite O2 by auto. split; [intros [[X|X]|X]; [tauto|right; repeat split; tauto || lia|lia]|intros [X|[X [Y _]]]; [tauto|left; right; repeat split; tauto || lia]].
      * rewrite O1 by auto. split; [intros [[X|X]|X]; [tauto|lia|right; repeat split; tauto || lia]|intros [X|[X [_ Y]]]; [tauto|right; repeat split; tauto || lia]].
Qed.

Lemma second_In l s fine codas t : (forall f, fine = Some f -> f <= u32_max) -> 0 <= s ->
  In t (second_pass l s fine codas) <->
  (s <= t < match fine with Some f => f | None => u32_max end /\ S_Repeat.between codas t = false) /\ 0 <= t < u32_max /\ left_out (timed_layout l) t = false.
Proof.
  intros FB S. unfold second_pass. rewrite filter_In, from_to_In, !andb_true_iff, !negb_true_iff.
  destruct fine as [f|]; [specialize (FB _ eq_refl)|]; rewrite ?Z.leb_le, ?Z.ltb_lt; intuition lia.
Qed.

Lemma last_pass_jump r l d s : let bars := layout_bars l in
  well_laid l -> tune bars -> counts_ok bars -> segno_ok bars (timed_layout l) -> top_clear bars ->
  small_first bars -> jump (actual_top (full_bar r bars)) bars d s -> codas_ok s bars ->
  exists c v, render_region r bars = Ret (Ok (c, warnings_of bars)) /\ compound_interval_set c = Ret v /\
    forall t, covers v t <-> In t (second_pass l s (hd_error (marked Fine bars)) (pair_of (marked Coda bars))).
Proof.
  intros bars W T C S TC F2 J CO. destruct (build_jump r bars d s T C F2 J CO) as [g [B [GD [S0 [IS [K M]]]]]].
  destruct (loop_layout r l W T C S) as [st [regs [s' [R [CL E]]]]]. fold bars in R.
  destruct (union_sections (timed_layout l) 0 1 [] ltac:(lia) ltac:(lia) (top_chain l W T TC) I) as [v [EV [KV MV]]].
  destruct (inter_spec _ 0 _ s KV K) as [_ IN].
  exists (mkCompound (Some g) (map region_of (timed_layout l))), (iset_inter v (gr_iter1 g)). split; [|split].
  - unfold render_region. rewrite R. cbn [bind]. unfold rr_finish. rewrite B. cbn [bind]. destruct st; cbn in CL; inv CL; rewrite E; reflexivity.
  - unfold compound_interval_set. cbn [cp_global cp_regions]. rewrite EV. reflexivity.
  - intros t. rewrite <- in_iv_covers, IN, MV, M, second_In; [|intros f H; apply fine_range in H; auto; lia|exact S0].
    unfold in_iv at 1. rewrite Exists_nil. tauto.
Qed.

Lemma last_pass_plain r l : let bars := layout_bars l in
  well_laid l -> tune bars -> counts_ok bars -> segno_ok bars (timed_layout l) -> top_clear bars -> marked Dc bars = [] -> marked Ds bars = [] ->
  exists c v, render_region r bars = Ret (Ok (c, [])) /\ compound_interval_set c = Ret v /\
    forall t, covers v t <-> In t (second_pass l 0 None None).
Proof.
  intros bars W T C S TC A B.
  destruct (union_sections (timed_layout l) 0 1 [] ltac:(lia) ltac:(lia) (top_chain l W T TC) I) as [v [EV [KV MV]]].
  exists (mkCompound None (map region_of (timed_layout l))), v. split; [apply render_plain_layout; auto|]. split.
  - unfold compound_interval_set. cbn [cp_global cp_regions]. rewrite EV. reflexivity.
  - intros t. rewrite <- in_iv_covers, MV, second_In; [|discriminate|lia]. unfold in_iv. rewrite Exists_nil. cbn. intuition lia.
Qed.
