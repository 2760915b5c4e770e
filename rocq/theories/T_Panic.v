(** Property theorems: exactly when rendering succeeds or panics, and what is played
    then (C43, C45, C46, C57). *)
From Coq Require Import ZArith List Bool Lia Sorted.
From Verif Require Import Base M_Duration M_Scalar M_Bar M_Store M_Repeat S_Note S_Repeat S_Panic P_Base P_Chunk P_Machine P_Order P_Jump P_Last P_Panic T_Repeat.
Import ListNotations.
Open Scope Z_scope.

(** * C46 *)

(** Rendering panics exactly if a variation mark other than the fourth comes directly
    after the fourth variation, or, all repeats being right, D.C. has to find the top
    of a score with an immensely long first bar, or the first coda is not after the
    target of the jump, or the second is at Fine; and it always comes to an end. *)
Theorem C46_exact : forall r bars, tune bars -> Forall compatible bars ->
  (render_region r bars = Panic <->
   restarted r bars \/
   laid_out bars /\ exists d s, jump (actual_top (full_bar r bars)) bars d s /\ (long_first d bars \/ bad_codas s bars)) /\
  render_region r bars <> Hang.
Proof. intros r bars T F. split; [apply render_panics; auto|apply render_no_hang]. Qed.
Print Assumptions C46_exact.

(** Listing the chunks of what was rendered panics exactly if there is a jump and a
    repeat or variation mark at the very top, or a jump mark before the first
    variation of a repeat whose start is not written; otherwise they are listed. *)
Theorem C46_chunks_exact : forall r bars c w, tune bars -> Forall compatible bars -> render_region r bars = Ret (Ok (c, w)) ->
  ((exists cs, to_chunks c = Ret cs) <-> forall d s, jump (actual_top (full_bar r bars)) bars d s -> top_clear bars /\ varied_clear bars) /\
  (to_chunks c = Panic <-> ~ exists cs, to_chunks c = Ret cs).
Proof. intros r bars c w T F R. split; [eapply chunks_return|eapply chunks_panic]; eauto. Qed.
Print Assumptions C46_chunks_exact.

(** Each way to panic, and a score that is rendered although a jump mark is in a
    repeat whose start is not written. *)
Example C46_exact_cases :
  restarted four_four [bar_at 960 [Var1]; bar_at 1920 [Var2]; bar_at 2880 [Var3]; bar_at 3840 [Var4]; bar_at 4800 [Var1]; bar_at 5760 []] /\
  (let bars := [bar_at 2200000000 []; bar_at 2200000960 [Dc]] in
   laid_out bars /\ jump (actual_top (full_bar four_four bars)) bars 2200000960 2200000000 /\ long_first 2200000960 bars) /\
  (let bars := [bar_at 480 [Coda]; bar_at 960 [Segno]; bar_at 1920 [Coda]; bar_at 2880 [Ds]] in
   laid_out bars /\ jump (actual_top (full_bar four_four bars)) bars 2880 960 /\ bad_codas 960 bars) /\
  (let bars := [bar_at 960 [Coda]; bar_at 1920 [Fine; Coda]; bar_at 2880 [Dc]] in
   laid_out bars /\ jump (actual_top (full_bar four_four bars)) bars 2880 0 /\ bad_codas 0 bars).
Proof.
  assert (LO : forall bars, forallb (fun b => negb (has b Start || has b End || has b Var1 || has b Var2 || has b Var3 || has b Var4)) bars = true -> counts_ok bars -> laid_out bars).
  { intros bars H C. split; [exact C|]. exists (Plain bars, []). rewrite forallb_forall in H.
    assert (NV : Forall no_var bars). { apply Forall_forall. intros b B m M. specialize (H b B). destruct m; try discriminate; destruct (has b Start), (has b End), (has b Var1), (has b Var2), (has b Var3), (has b Var4); try discriminate; reflexivity. }
    assert (NR : Forall no_repeat bars). { apply Forall_forall. intros b B. specialize (H b B). split; destruct (has b Start), (has b End), (has b Var1), (has b Var2), (has b Var3), (has b Var4); try discriminate; reflexivity. }
    split; [|split].
    - split; [cbn; auto|reflexivity].
    - unfold layout_bars. cbn. apply app_nil_r.
    - intros s c vs e t [X|[]]. discriminate. }
  assert (CO : forall bars, ((length (marked Segno bars) <=? 1) && (length (marked Fine bars) <=? 1) && (length (marked Coda bars) <=? 2) && (length (marked Dc bars) + length (marked Ds bars) <=? 1))%nat = true -> counts_ok bars).
  { intros bars H. rewrite !andb_true_iff, !Nat.leb_le in H. unfold counts_ok. tauto. }
  split; [|split; [|split]].
  - exists [bar_at 960 [Var1]; bar_at 1920 [Var2]; bar_at 2880 [Var3]], (bar_at 3840 [Var4]), (bar_at 4800 [Var1]), [bar_at 5760 []], 3840.
    split; [reflexivity|]. split; [vm_compute; reflexivity|]. split; [reflexivity|]. split; [left; reflexivity|]. apply CO. vm_compute. reflexivity.
  - split; [apply LO; [vm_compute; reflexivity|apply CO; vm_compute; reflexivity]|]. split.
    + apply (jump_dc _ _ _ _ 2200000000); vm_compute; reflexivity.
    + split; [vm_compute; reflexivity|]. split; [discriminate|]. split; [vm_compute; reflexivity|]. exists 2200000000. split; [vm_compute; reflexivity|unfold u32_max; lia].
  - split; [apply LO; [vm_compute; reflexivity|apply CO; vm_compute; reflexivity]|]. split.
    + apply jump_ds; vm_compute; congruence.
    + exists 480, 1920. split; [vm_compute; reflexivity|]. split; [intros f H; vm_compute in H; discriminate|left; lia].
  - split; [apply LO; [vm_compute; reflexivity|apply CO; vm_compute; reflexivity]|]. split.
    + apply (jump_dc _ _ _ _ 960); vm_compute; reflexivity.
    + exists 960, 1920. split; [vm_compute; reflexivity|]. split; [intros f H; vm_compute in H; injection H as <-; lia|right; vm_compute; reflexivity].
Qed.

(** * C45 *)

(** Exactly what is accepted, whatever the length of the first bar. *)
Theorem C45_accepted_exact : forall r bars, tune bars -> Forall compatible bars ->
  ((exists c w, render_region r bars = Ret (Ok (c, w))) <->
   laid_out bars /\
   ((marked Dc bars = [] \/ first_bar_len bars = None) /\ marked Ds bars = [] \/
    exists d s, jump (actual_top (full_bar r bars)) bars d s /\ ~ long_first d bars /\ codas_ok s bars)).
Proof. exact accepted_exact. Qed.
Print Assumptions C45_accepted_exact.

(** * C43 *)

(** Whatever is rendered and listed is played as documented, except that a jump mark
    in a first repeat whose start is not written loses the whole first pass. *)
Theorem C43_exact : forall r bars c w cs, tune bars -> Forall compatible bars ->
  render_region r bars = Ret (Ok (c, w)) -> to_chunks c = Ret cs ->
  exists l, well_laid l /\ layout_bars l = bars /\
    ((marked Dc bars = [] \/ first_bar_len bars = None) /\ marked Ds bars = [] /\ w = [] /\ performance cs = play l \/
     exists d s, jump (actual_top (full_bar r bars)) bars d s /\ codas_ok s bars /\ w = warnings_of bars /\
       let second := second_pass l s (hd_error (marked Fine bars)) (pair_of (marked Coda bars)) in
       ((is_repeated (fst l) = true -> Forall no_jump (section_bars (fst l))) /\ performance cs = until d (play l) ++ second \/
        is_repeated (fst l) = true /\ ~ Forall no_jump (section_bars (fst l)) /\ performance cs = second)).
Proof. exact performed_exact. Qed.
Print Assumptions C43_exact.

(** The last case is there. *)
Example C43_exact_case : exists bars c, tune bars /\ Forall compatible bars /\
  render_region four_four bars = Ret (Ok (c, [])) /\ to_chunks c = Ret [mkChunk 0 1920; mkChunk 1920 u32_max] /\
  exists inner rest, well_laid (Repeated inner, rest) /\ layout_bars (Repeated inner, rest) = bars /\ ~ Forall no_jump inner.
Proof.
  eexists [bar_at 960 [Dc]; bar_at 1920 [End]], _. split; [tune_tac|]. split; [compat_tac|].
  split; [vm_compute; reflexivity|]. split; [vm_compute; reflexivity|]. exists [bar_at 960 [Dc]], [(bar_at 1920 [End], Plain [])]. split; [|split; [reflexivity|]].
  - split; cbn [fst snd inside follows boundary]; repeat split; try discriminate; try each ltac:(marks); try marks.
  - intros X. inversion X as [|? ? [Y _] _]. vm_compute in Y. discriminate.
Qed.

(** * C57 *)

Lemma ofold_union l : forall u v, ofold (fun u r => let! s := iter1_interval_set r in Ret (iset_union u s)) u l = Ret v ->
  Forall (fun r => exists s, iter1_interval_set r = Ret s) l.
Proof.
  induction l as [|r l IH]; intros u v E; [constructor|]. cbn [ofold] in E.
  destruct (iter1_interval_set r) as [s| |] eqn:S; try discriminate. cbn [bind] in E. constructor; eauto.
Qed.
Lemma union_hang l : forall u, never_hangs (ofold (fun u r => let! s := iter1_interval_set r in Ret (iset_union u s)) u l).
Proof.
  induction l as [|r l IH]; intros u; [discriminate|]. cbn [ofold]. apply bind_hang; [|intros x; apply IH].
  apply bind_hang; [apply iter1_hang|]. intros s. discriminate.
Qed.

Lemma chain_up l : chain 0 0 l -> l <> [] -> Forall (fun r => exists s, iter1_interval_set r = Ret s) (map region_of l) -> chain 0 1 l.
Proof.
  intros C NE E. destruct l as [|[[a sec] e] l]; [congruence|]. cbn [map] in E. inversion E as [|? ? [is X] _]; subst.
  destruct C as [-> [_ [LE [SI C]]]]. cbn [chain]. split; [reflexivity|]. split; [lia|].
  destruct sec as [z|z|z vs]; cbn [region_of iter1_interval_set] in X.
  - apply range_inv in X. split; [lia|auto].
  - apply range_inv in X. split; [lia|auto].
  - destruct SI as [N [SS F]]. destruct (range_interval_set (0, hd e (starts_of vs))) eqn:R; try discriminate. apply range_inv in R.
    destruct (starts_of vs) as [|t ts] eqn:ST; [congruence|]. cbn [hd] in R. inversion SS as [|? ? S1 S2]; subst. inversion F as [|? ? F1 F2]; subst. cbn in F1.
    split; [lia|]. split; [|exact C]. unfold starts_in. rewrite ST. split; [discriminate|]. split; [exact SS|]. constructor; [lia|].
    rewrite Forall_forall in *. intros q Q. specialize (S2 q Q). specialize (F2 q Q). cbn in *. lia.
Qed.

(** What the region of a rendered score reports for the last time through, in every
    case: it panics exactly if a repeat or variation mark is at the very top, and
    otherwise lists the ticks of the last pass. *)
Theorem C57_exact : forall r bars c w, tune bars -> Forall compatible bars -> render_region r bars = Ret (Ok (c, w)) ->
  (compound_interval_set c = Panic <-> ~ top_clear bars) /\
  (top_clear bars -> exists v l, compound_interval_set c = Ret v /\ well_laid l /\ layout_bars l = bars /\
    ((marked Dc bars = [] \/ first_bar_len bars = None) /\ marked Ds bars = [] /\ (forall t, covers v t <-> In t (second_pass l 0 None None)) \/
     exists d s, jump (actual_top (full_bar r bars)) bars d s /\
       forall t, covers v t <-> In t (second_pass l s (hd_error (marked Fine bars)) (pair_of (marked Coda bars))))).
Proof.
  intros r bars c w T F R. destruct (render_sound r bars c w T F R) as [C [l [gr [W [LB [_ [-> B]]]]]]].
  assert (CH : chain 0 0 (timed_layout l)) by (apply layout_chain; auto; rewrite LB; exact T).
  assert (YES : top_clear bars -> exists v l', compound_interval_set (mkCompound gr (map region_of (timed_layout l))) = Ret v /\ well_laid l' /\ layout_bars l' = bars /\
    ((marked Dc bars = [] \/ first_bar_len bars = None) /\ marked Ds bars = [] /\ (forall t, covers v t <-> In t (second_pass l' 0 None None)) \/
     exists d s, jump (actual_top (full_bar r bars)) bars d s /\
       forall t, covers v t <-> In t (second_pass l' s (hd_error (marked Fine bars)) (pair_of (marked Coda bars))))).
  { intros TC. rewrite <- LB in TC. destruct (union_sections (timed_layout l) 0 1 [] ltac:(lia) ltac:(lia) (top_chain l W (eq_rect_r tune T LB) TC) I) as [v [EV [KV MV]]].
    unfold compound_interval_set. cbn [cp_global cp_regions]. rewrite EV. cbn [bind]. destruct gr as [g|].
    - destruct (jump_built r bars g w T C B) as [s [J [_ [CO IS]]]]. pose proof (segno_range _ _ _ _ T J) as SR.
      destruct (jump_set_ok bars s T C SR CO) as [is [E [K M]]]. rewrite IS in E. injection E as <-.
      destruct (inter_spec _ 0 _ s KV K) as [_ IN]. exists (iset_inter v (gr_iter1 g)), l. split; [reflexivity|]. split; [exact W|]. split; [exact LB|].
      right. exists (ds_dc_tick (gr_ds_dc g)), s. split; [exact J|].
      intros t. rewrite <- in_iv_covers, IN, MV, M, second_In; [|intros f H; apply fine_range in H; auto; lia|lia].
      unfold in_iv at 1. rewrite Exists_nil. tauto.
    - exists v, l. split; [reflexivity|]. split; [exact W|]. split; [exact LB|]. left.
      assert (NJ : (marked Dc bars = [] \/ first_bar_len bars = None) /\ marked Ds bars = []).
      { pose proof (build_cases r _ T C (build_no_overflow _ _ _ T C B)) as BC. rewrite B in BC. unfold jump_of in BC.
        destruct (marked Dc bars) as [|d dl]; [destruct (marked Ds bars) as [|d dl]|].
        + auto.
        + destruct BC as [[e X]|[[X1 [X2 X3]]|[s [J X]]]]; try discriminate. destruct (to_interval_set s _ _); discriminate.
        + destruct BC as [[e X]|[[X1 [X2 X3]]|[s [J X]]]]; try discriminate; [auto|]. destruct (to_interval_set s _ _); discriminate. }
      destruct NJ as [N1 N2]. split; [exact N1|]. split; [exact N2|].
      intros t. rewrite <- in_iv_covers, MV, second_In; [|discriminate|lia]. unfold in_iv. rewrite Exists_nil. cbn. intuition lia. }
  split; [|exact YES]. split.
  - intros P TC. destruct (YES TC) as [v [l' [X _]]]. congruence.
  - intros N. unfold compound_interval_set. cbn [cp_global cp_regions].
    match goal with |- bind ?m _ = _ => destruct m as [v| |] eqn:E end; cbn [bind]; [|reflexivity|destruct (union_hang _ _ E)].
    destruct N. rewrite <- LB. apply chain_top; [exact W|rewrite LB; exact T|]. apply (chain_up _ CH (timed_ne _ _ _)). eapply ofold_union; eauto.
Qed.
Print Assumptions C57_exact.

(** A repeat sign at the very top. *)
Example C57_exact_case : let bars := [bar_at 0 [Start]; bar_at 960 [End]] in exists c, tune bars /\ Forall compatible bars /\
  render_region four_four bars = Ret (Ok (c, [])) /\ compound_interval_set c = Panic /\ to_chunks c = Ret [mkChunk 0 0; mkChunk 0 960; mkChunk 0 960; mkChunk 960 u32_max].
Proof.
  cbv zeta. eexists. split; [tune_tac|]. split; [compat_tac|]. split; [vm_compute; reflexivity|]. split; vm_compute; reflexivity.
Qed.
