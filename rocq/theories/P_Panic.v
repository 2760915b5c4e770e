(** Exactly when rendering panics. *)
From Coq Require Import Sorted.
From Verif Require Import Base P_Base M_Duration M_Scalar M_Bar M_Repeat S_Note S_Repeat S_Panic P_Marks P_Chunk P_Machine P_Order P_Errors P_Jump.
Import ListNotations.
Open Scope Z_scope.

(** ** The loop *)
Lemma var_last pre s l : st_wf (SVariation s l) -> known pre (SVariation s l) -> exists a x, pre = a ++ [x] /\ carries (Z.of_nat (length l)) x.
Proof.
  intros W [p [vs [-> [_ [N S]]]]]. pose proof (starts_len _ _ N) as SL. rewrite S in SL. cbn in W.
  assert (NE : vs <> []) by (intros ->; cbn in SL; lia). destruct (exists_last NE) as [a [v ->]].
  apply numbered_app in N. rewrite app_length in SL. cbn [length] in SL. destruct N as [_ [V0 [C _]]].
  destruct (exists_last V0) as [v' [x ->]]. exists (p ++ concat a ++ v'), x. rewrite concat_app. cbn [concat]. rewrite app_nil_r, !app_assoc. split; [reflexivity|].
  apply Forall_app in C. destruct C as [_ C]. inversion C as [|? ? C1 _]. replace (Z.of_nat (length l)) with (1 + Z.of_nat (length a)) by lia. exact C1.
Qed.

Lemma step_panic sg b st : st_wf st -> rr_step sg b st = Panic -> exists s l v, st = SVariation s l /\ length l = 4%nat /\ region_index (b_marks b) = Some v /\ v <> VI4.
Proof.
  intros W E. assert (N : ~ (forall v, length (starts st) = 4%nat -> region_index (b_marks b) = Some v -> v = VI4)).
  { intros H. destruct (step_ret sg b st W H) as [x X]. congruence. }
  destruct st as [|s|s|s l]; try (exfalso; apply N; intros v L; discriminate L).
  destruct (Nat.eq_dec (length l) 4) as [L|L]; [|exfalso; apply N; intros v L'; cbn in L'; congruence].
  destruct (region_index (b_marks b)) as [v|]; [|exfalso; apply N; intros v _ X; discriminate].
  exists s, l, v. repeat split; auto. intros ->. apply N. intros v _ X. congruence.
Qed.
Lemma panic_step sg b s l v : length l = 4%nat -> compatible b -> region_index (b_marks b) = Some v -> v <> VI4 -> rr_step sg b (SVariation s l) = Panic.
Proof.
  intros L CB RI NV. destruct (index_no_repeat b v CB RI) as [[_ NE] [ND NS]]. rewrite step_variation by (auto; lia). rewrite RI, ND, NS, L. cbn [orb].
  destruct v; try congruence; reflexivity.
Qed.

Lemma loop_app a : forall b g st regs, rr_loop g st regs (a ++ b) =
  let! x := rr_loop g st regs a in match x with Ok (g', st', regs') => rr_loop g' st' regs' b | Err e => Ret (Err e) end.
Proof.
  induction a as [|x a IH]; intros b g st regs; cbn [app rr_loop]; [reflexivity|].
  destruct (on_bar x g) as [g'|e]; [|reflexivity]. destruct (rr_step (gb_segno g') x st) as [[[st' new]|e]| |]; cbn [bind]; auto.
Qed.

Lemma loop_panic r post : forall pre st regs, tune (pre ++ post) -> Forall compatible post -> counts_ok pre -> st_wf st -> known pre st ->
  rr_loop (builder_of r pre) st regs post = Panic ->
  exists q b q' s l regs' v, post = q ++ b :: q' /\ rr_loop (builder_of r pre) st regs q = Ret (Ok (builder_of r (pre ++ q), SVariation s l, regs')) /\
    length l = 4%nat /\ known (pre ++ q) (SVariation s l) /\ counts_ok (pre ++ q ++ [b]) /\ region_index (b_marks b) = Some v /\ v <> VI4.
Proof.
  induction post as [|b post IH]; intros pre st regs T F C W K E; [discriminate|]. cbn [rr_loop] in E.
  inversion F as [|? ? CB F']; subst.
  assert (T1 : tune (pre ++ [b])) by (apply (tune_app_l _ post); rewrite <- app_assoc; exact T).
  pose proof (on_bar_run r pre b T1 C) as O. destruct (on_bar b (builder_of r pre)) as [g'|e'] eqn:OB; [|discriminate].
  destruct O as [C' ->]. destruct (rr_step (gb_segno (builder_of r (pre ++ [b]))) b st) as [[[st1 new]|e]| |] eqn:ES; cbn [bind] in E; try discriminate.
  - replace (pre ++ b :: post) with ((pre ++ [b]) ++ post) in * by (rewrite <- app_assoc; reflexivity).
    destruct (IH (pre ++ [b]) st1 (regs ++ new) T F' C' ltac:(eapply step_wf; eauto) ltac:(eapply known_step; eauto) E)
      as [q [x [q' [s [l [regs' [v [-> [R [L [K' [CC [RI NV]]]]]]]]]]]]].
    exists (b :: q), x, q', s, l, regs', v. split; [reflexivity|]. cbn [rr_loop]. rewrite OB, ES. cbn [bind]. rewrite R.
    replace (pre ++ b :: q) with ((pre ++ [b]) ++ q) by (rewrite <- app_assoc; reflexivity).
    replace (pre ++ (b :: q) ++ [x]) with ((pre ++ [b]) ++ q ++ [x]) by (rewrite <- app_assoc; reflexivity). auto 10.
  - destruct (step_panic _ _ _ W ES) as [s [l [v [-> [L [RI NV]]]]]]. exists [], b, post, s, l, regs, v. cbn [rr_loop app]. rewrite app_nil_r. auto 10.
Qed.

(** The loop does not say that a variation is not closed. *)
Lemma not_closed_is r pre t : tune pre -> Forall compatible pre -> render_region r pre = Ret (Err (VariationNotClosed t)) ->
  exists s l regs, rr_loop (builder_of r []) SIdle [] pre = Ret (Ok (builder_of r pre, SVariation s l, regs)) /\ st_wf (SVariation s l) /\ known pre (SVariation s l) /\ counts_ok pre.
Proof.
  intros T F E. unfold render_region in E. rewrite <- builder_nil in E. destruct (rr_loop (builder_of r []) SIdle [] pre) as [[[[g st] regs]|e]| |] eqn:R; try discriminate; cbn [bind] in E.
  - destruct (loop_known r pre [] SIdle [] g st regs T F counts_nil Logic.I (Forall_nil _) R) as [W [K [-> C]]]. cbn [app] in *.
    assert (NB : forall x, gb_build (builder_of r pre) = Ret (Err x) -> x <> VariationNotClosed t).
    { intros x B ->. unfold gb_build in B. destruct (gb_ds_dc (builder_of r pre)) as [[d len|d]|]; [| |discriminate].
      - destruct (gb_first_bar_len _); [|discriminate]. match type of B with bind ?m _ = _ => destruct m as [[? ?]| |]; try discriminate end. cbn [bind] in B.
        destruct (gb_coda _) as [[?|? ?]|].
        + match type of B with bind ?m _ = _ => destruct m; discriminate end.
        + unfold check_coda_pos in B. destruct (gb_fine _); [destruct (_ <? _)|]; cbn [and_then] in B; try discriminate; match type of B with bind ?m _ = _ => destruct m; discriminate end.
        + match type of B with bind ?m _ = _ => destruct m; discriminate end.
      - destruct (gb_segno _); [|discriminate].
        destruct (gb_coda _) as [[?|? ?]|].
        + discriminate.
        + unfold check_coda_pos in B. destruct (gb_fine _); [destruct (_ <? _)|]; cbn [and_then] in B; try discriminate; match type of B with bind ?m _ = _ => destruct m; discriminate end.
        + match type of B with bind ?m _ = _ => destruct m; discriminate end. }
    unfold rr_finish in E. destruct st as [|s|s|s l].
    + destruct (gb_build (builder_of r pre)) as [[[gr w]|x]| |] eqn:B; try discriminate; cbn [bind] in E; inv E. exfalso. eapply NB; eauto.
    + destruct (gb_build (builder_of r pre)) as [[[gr w]|x]| |] eqn:B; try discriminate; cbn [bind] in E; inv E. exfalso. eapply NB; eauto.
    + discriminate.
    + exists s, l, regs. auto.
  - exfalso. inv E. clear F. revert R. assert (CN : counts_ok []) by apply counts_nil. change pre with ([] ++ pre) in T. revert T CN.
    generalize (@nil region). generalize SIdle. generalize (@nil bar). induction pre as [|b pre IH]; intros p st regs T C R; [discriminate|]. cbn [rr_loop] in R.
    assert (T1 : tune (p ++ [b])) by (apply (tune_app_l _ pre); rewrite <- app_assoc; exact T).
    pose proof (on_bar_run r p b T1 C) as O. destruct (on_bar b (builder_of r p)) as [g'|e'] eqn:OB.
    + destruct O as [C' ->]. destruct (rr_step (gb_segno (builder_of r (p ++ [b]))) b st) as [[[st1 new]|e]| |] eqn:ES; cbn [bind] in R; try discriminate.
      * eapply (IH (p ++ [b])); eauto. rewrite <- app_assoc. exact T.
      * inv R. clear - ES. destruct st as [|s|s|s l]; unfold rr_step in ES.
        -- destruct (has b Start && has b End), (has b End), (has b Start); try discriminate; destruct (region_index (b_marks b)) as [[]|]; discriminate.
        -- destruct (has b End), (has b Start); discriminate.
        -- destruct (has b Start && has b End), (has b End), (has b Start), (has b Dc || has b Ds); try discriminate; destruct (region_index (b_marks b)) as [[]|]; discriminate.
        -- destruct (has b End); [discriminate|]. destruct (region_index (b_marks b)) as [v|].
           ++ destruct (has b Dc || has b Ds); [discriminate|]. destruct (_ =? _); [discriminate|]. destruct (chk_u8 _); try discriminate. cbn [bind] in ES. destruct (_ =? _); [discriminate|].
              destruct (unwrap_opt _); discriminate.
           ++ destruct (index l 0); try discriminate. cbn [bind] in ES. destruct (unwrap_opt _); try discriminate. cbn [bind] in ES.
              match type of ES with (if ?c then _ else _) = _ => destruct c end; [discriminate|]. destruct (create_variation s l (b_tick b)); discriminate.
    + inv R. destruct (on_bar_fails _ _ _ OB).
Qed.

Lemma index_early b v : region_index (b_marks b) = Some v -> v <> VI4 -> has b Var1 = true \/ has b Var2 = true \/ has b Var3 = true.
Proof. intros RI N. apply index_has in RI. destruct v; cbn [var_to_mark] in RI; auto; congruence. Qed.
Lemma early_index b : compatible b -> has b Var1 = true \/ has b Var2 = true \/ has b Var3 = true -> exists v, region_index (b_marks b) = Some v /\ v <> VI4.
Proof.
  intros C H. destruct (region_index (b_marks b)) as [v|] eqn:RI.
  - exists v. split; [reflexivity|]. intros ->. apply index_has in RI. cbn [var_to_mark] in RI. destruct H as [H|[H|H]]; [specialize (C Var1 Var4 eq_refl H RI)|specialize (C Var2 Var4 eq_refl H RI)|specialize (C Var3 Var4 eq_refl H RI)]; discriminate.
  - apply index_none in RI. destruct H as [H|[H|H]]; rewrite RI in H; try discriminate; reflexivity.
Qed.

Lemma loop_panics r bars : tune bars -> Forall compatible bars -> (rr_loop (gb_new r) SIdle [] bars = Panic <-> restarted r bars).
Proof.
  intros T F. rewrite <- builder_nil. split.
  - intros E. destruct (loop_panic r bars [] SIdle [] T F counts_nil Logic.I (Forall_nil _) E) as [q [b [q' [s [l [regs' [v [-> [R [L [K [C [RI NV]]]]]]]]]]]]].
    cbn [app] in *. destruct (var_last q s l ltac:(cbn; lia) K) as [a [x [-> X]]].
    exists a, x, b, q', (last l 0). rewrite <- app_assoc in *. split; [reflexivity|]. split; [|split; [|split]].
    + unfold render_region. rewrite <- builder_nil, R. cbn [bind rr_finish]. rewrite (last_nth l 0) by (destruct l; discriminate). reflexivity.
    + rewrite (X Var4 eq_refl), L. reflexivity.
    + eapply index_early; eauto.
    + exact C.
  - intros [a [x [y [c [t [-> [R [X [Y C]]]]]]]]]. replace (a ++ x :: y :: c) with ((a ++ [x]) ++ y :: c) in * by (rewrite <- app_assoc; reflexivity).
    apply Forall_app in F. destruct F as [F1 F2]. inversion F2 as [|? ? CB _]; subst.
    destruct (not_closed_is r _ t (tune_app_l _ _ T) F1 R) as [s [l [regs [L [W [K CC]]]]]]. rewrite loop_app. rewrite L. cbn [bind rr_loop].
    assert (T1 : tune ((a ++ [x]) ++ [y])) by (apply (tune_app_l _ c); rewrite <- app_assoc; exact T).
    pose proof (on_bar_run r (a ++ [x]) y T1 CC) as O. destruct (on_bar y (builder_of r (a ++ [x]))) as [g|e].
    + destruct O as [_ ->]. destruct (early_index y CB Y) as [v [RI NV]]. rewrite (panic_step _ y s l v); auto.
      destruct (var_last _ _ _ W K) as [a' [x' [E X']]]. apply app_inj_tail in E. destruct E as [_ <-]. rewrite (X' Var4 eq_refl) in X. cbn [mark_bit] in X. lia.
    + destruct O as [O _]. destruct O. rewrite <- app_assoc. exact C.
Qed.

(** ** Building *)
Lemma chk_cases z : chk_u32 z = Ret z /\ 0 <= z <= u32_max \/ chk_u32 z = Panic /\ ~ 0 <= z <= u32_max.
Proof. unfold chk_u32, chk, in_range. destruct ((0 <=? z) && (z <=? u32_max)) eqn:E; [left|right]; (split; [reflexivity|]); lia. Qed.

Lemma set_panics bars s : tune bars -> counts_ok bars -> 0 <= s < u32_max -> (forall a b f, marked Coda bars = [a; b] -> marked Fine bars = [f] -> b <= f) ->
  (to_interval_set s (hd_error (marked Fine bars)) (pair_of (marked Coda bars)) = Panic <-> bad_codas s bars).
Proof.
  intros T C SR CF. split.
  - intros E. assert (N : ~ codas_ok s bars). { intros K. destruct (jump_set_ok bars s T C SR K) as [is [X _]]. congruence. }
    destruct (marked Coda bars) as [|a [|b [|c l]]] eqn:MC.
    1,2: exfalso; apply N; intros a' b' X; congruence.
    2: exfalso; destruct C as [_ [_ [C _]]]; rewrite MC in C; cbn in C; lia.
    exists a, b. split; [exact MC|]. split; [intros f; apply (CF a b f eq_refl)|]. destruct (Z.le_gt_cases a s) as [|H]; [auto|right].
    pose proof (marked_range Coda bars b T ltac:(rewrite MC; cbn; auto)) as BR.
    destruct (marked Fine bars) as [|f [|f' fl]] eqn:MF.
    + exfalso. apply N. intros a' b' X. rewrite MC in X. inv X. rewrite MF. lia.
    + specialize (CF a b f eq_refl eq_refl). destruct (Z.eq_dec b f) as [->|]; [reflexivity|]. exfalso. apply N. intros a' b' X. rewrite MC in X. inv X. rewrite MF. lia.
    + exfalso. destruct C as [_ [C _]]. rewrite MF in C. cbn in C. lia.
  - intros [a [b [MC [_ H]]]]. assert (N : ~ codas_ok s bars).
    { intros K. destruct (K a b MC) as [X Y]. destruct H as [H|H]; [lia|]. rewrite H in Y. lia. }
    destruct (to_interval_set s (hd_error (marked Fine bars)) (pair_of (marked Coda bars))) as [is| |] eqn:E; [|reflexivity|exfalso].
    + exfalso. apply N. apply (set_codas bars s is T); auto. lia.
    + rewrite MC in E. cbn [pair_of to_interval_set] in E. destruct (chk_cases (a - 1)) as [[Q _]|[Q _]]; rewrite Q in E; [|discriminate]. cbn [bind] in E.
      match type of E with bind (chk_u32 ?z) _ = _ => destruct (chk_cases z) as [[Q' _]|[Q' _]]; rewrite Q' in E; [|discriminate] end. cbn [bind] in E.
      unfold iset_of in E. destruct (forallb _ _); discriminate.
Qed.

Lemma long_dec bars : (exists d, long_first d bars) \/ ~ (exists d, long_first d bars).
Proof.
  unfold long_first. destruct (marked Dc bars) as [|d [|]]; try (right; intros [x [X _]]; discriminate).
  destruct (Z.eq_dec d 0) as [->|ND]; [right; intros [x [X [Y _]]]; inv X; congruence|].
  destruct (marked Segno bars); [|right; intros [x [_ [_ [X _]]]]; discriminate].
  destruct (first_bar_len bars) as [f|]; [|right; intros [x [_ [_ [_ [f [X _]]]]]]; discriminate].
  destruct (Z.lt_ge_cases u32_max (2 * f)).
  - left. exists d. repeat split; auto. eauto.
  - right. intros [x [_ [_ [_ [f' [X Y]]]]]]. inv X. lia.
Qed.

Lemma no_build_error r bars d s e : tune bars -> counts_ok bars -> jump (actual_top (full_bar r bars)) bars d s ->
  (forall a b f, marked Coda bars = [a; b] -> marked Fine bars = [f] -> b <= f) -> gb_build (builder_of r bars) <> Ret (Err e).
Proof.
  intros T C J CF B. destruct (jump_of_jump _ _ _ _ J) as [j [JE JD]].
  unfold gb_build, builder_of in B. cbn [gb_ds_dc gb_fine gb_segno gb_coda gb_first_bar_len gb_top_rhythm] in B. rewrite JE in B.
  pose proof (coda_pair bars (proj1 (proj2 (proj2 C))) T) as CP.
  assert (CK : forall a b, marked Coda bars = [a; b] -> check_coda_pos a b (hd_error (marked Fine bars)) = Ok tt) by (intros a b MC; apply coda_check; auto; intros f MF; eauto).
  unfold jump_of in JE. destruct J as [A0 B0 C0 D0|A0 B0 C0 D0|f A0 B0 C0 D0 E0]; rewrite A0, ?B0 in JE; apply (f_equal (fun o => match o with Some x => x | None => j end)) in JE; subst j; rewrite C0 in B; cbn [hd_error] in B.
  - destruct (coda_of (marked Coda bars)) as [[t|a b]|].
    + rewrite CP in D0. cbn in D0. congruence.
    + rewrite (CK a b (proj1 CP)) in B. cbn [and_then] in B. cbv beta iota in B. match type of B with bind ?m _ = _ => destruct m; discriminate end.
    + cbv beta iota in B. match type of B with bind ?m _ = _ => destruct m; discriminate end.
  - destruct (first_bar_len bars) as [first|]; [|discriminate]. cbn [bind] in B. destruct (coda_of (marked Coda bars)) as [[t|a b]|].
    + cbv beta iota in B. match type of B with bind ?m _ = _ => destruct m; discriminate end.
    + rewrite (CK a b (proj1 CP)) in B. cbn [and_then] in B. cbv beta iota in B. match type of B with bind ?m _ = _ => destruct m; discriminate end.
    + cbv beta iota in B. match type of B with bind ?m _ = _ => destruct m; discriminate end.
  - rewrite D0 in B. match type of B with bind ?m _ = _ => destruct m as [[sx w]| |]; try discriminate end. cbn [bind] in B. destruct (coda_of (marked Coda bars)) as [[t|a b]|].
    + cbv beta iota in B. match type of B with bind ?m _ = _ => destruct m; discriminate end.
    + rewrite (CK a b (proj1 CP)) in B. cbn [and_then] in B. cbv beta iota in B. match type of B with bind ?m _ = _ => destruct m; discriminate end.
    + cbv beta iota in B. match type of B with bind ?m _ = _ => destruct m; discriminate end.
Qed.

Lemma build_panics r bars : tune bars -> counts_ok bars ->
  (gb_build (builder_of r bars) = Panic <-> exists d s, jump (actual_top (full_bar r bars)) bars d s /\ (long_first d bars \/ bad_codas s bars)).
Proof.
  intros T C. destruct (long_dec bars) as [[d LF]|NL].
  - assert (P : gb_build (builder_of r bars) = Panic).
    { destruct LF as [MD [ND [MG [f [FL LF]]]]]. unfold gb_build, builder_of. cbn [gb_ds_dc gb_fine gb_segno gb_coda gb_first_bar_len gb_top_rhythm].
      unfold jump_of. rewrite MD, FL, MG. cbn [hd_error]. replace (d =? 0) with false by lia. cbv zeta.
      destruct (chk_cases (f + f)) as [[_ Q]|[Q _]]; [lia|]. rewrite Q. reflexivity. }
    rewrite P. split; [|reflexivity]. intros _. pose proof LF as [MD [ND [MG [f [FL _]]]]]. exists d, (actual_top (full_bar r bars) f d). split; [|auto].
    apply (jump_dc _ _ _ _ f); auto. destruct C as [_ [_ [_ C]]]. rewrite MD in C. cbn in C. destruct (marked Ds bars); [reflexivity|cbn in C; lia].
  - assert (DEC : (exists a b f, marked Coda bars = [a; b] /\ marked Fine bars = [f] /\ f < b) \/
      forall a b f, marked Coda bars = [a; b] -> marked Fine bars = [f] -> b <= f).
    { destruct (marked Coda bars) as [|a [|b [|c l]]]; try (right; intros; discriminate).
      destruct (marked Fine bars) as [|f [|]]; try (right; intros; discriminate). destruct (Z.lt_ge_cases f b).
      - left. exists a, b, f. auto.
      - right. intros a' b' f' X Y. inv X. inv Y. lia. }
    destruct DEC as [[a [b [f [MC [MF L]]]]]|CF].
    + split.
      * intros E. exfalso. unfold gb_build, builder_of in E. cbn [gb_ds_dc gb_fine gb_segno gb_coda gb_first_bar_len gb_top_rhythm] in E. rewrite MC, MF in *. cbn [hd_error] in E.
        change (coda_of [a; b]) with (Some (CodaTwo a b)) in E. unfold check_coda_pos in E. replace (f <? b) with true in E by lia. cbn [and_then] in E.
        destruct (jump_of bars) as [[d len|d]|] eqn:JE; [|destruct (hd_error (marked Segno bars)); discriminate|discriminate].
        destruct (first_bar_len bars) as [first|] eqn:FL; [|discriminate]. destruct (marked Segno bars) as [|sg sl] eqn:MG; cbn [hd_error] in E; [|discriminate].
        pose proof (first_range _ _ T FL) as FR.
        unfold jump_of in JE. destruct (marked Dc bars) as [|x xl] eqn:MD; [destruct (marked Ds bars); discriminate|]. rewrite FL in JE. inv JE.
        assert (XL : xl = []) by (destruct C as [_ [_ [_ C]]]; rewrite MD in C; destruct xl; [reflexivity|cbn in C; lia]). subst xl.
        cbv zeta in E. match type of E with bind (bind (chk_u32 ?z) _) _ = _ => destruct (chk_cases z) as [[Q _]|[_ Q]] end.
        -- rewrite Q in E. discriminate.
        -- apply NL. exists d. split; [exact MD|]. destruct (Z.eqb_spec d 0) as [->|ND]; [lia|]. split; [exact ND|]. split; [exact MG|]. exists first. split; [exact FL|lia].
      * intros [d [s [_ [LF|[a' [b' [MC' [X _]]]]]]]]; exfalso; [eauto|]. rewrite MC in MC'. inv MC'. specialize (X f MF). lia.
    + pose proof (build_cases r bars T C) as B.
      assert (NO : no_overflow bars).
      { intros _. split; [|intros a b f _; apply CF]. intros d MD ND MG f FL. destruct (Z.le_gt_cases (2 * f) u32_max) as [|H]; [assumption|]. destruct NL. exists d. repeat split; auto. exists f. split; [exact FL|lia]. }
      specialize (B NO). split.
      * intros E. destruct (jump_of bars) as [j|]; [|congruence]. destruct B as [[e B]|[[_ [_ B]]|[s [J B]]]]; try congruence.
        exists (ds_dc_tick j), s. split; [exact J|]. right. apply (set_panics bars s T C (segno_range _ _ _ _ T J) CF). rewrite E in B.
        destruct (to_interval_set s _ _); [discriminate|reflexivity|discriminate].
      * intros [d [s [J [LF|BC]]]]; [destruct NL; eauto|]. apply (set_panics bars s T C (segno_range _ _ _ _ T J) CF) in BC.
        destruct (jump_of_jump _ _ _ _ J) as [j [JE JD]]. rewrite JE in B. destruct B as [[e B]|[[B1 [B2 B3]]|[s' [J' B]]]].
        -- exfalso. eapply no_build_error; eauto.
        -- destruct J; congruence.
        -- destruct (jump_det _ _ _ _ _ _ J J') as [_ <-]. rewrite BC in B. exact B.
Qed.

Lemma render_panics r bars : tune bars -> Forall compatible bars ->
  (render_region r bars = Panic <->
   restarted r bars \/ laid_out bars /\ exists d s, jump (actual_top (full_bar r bars)) bars d s /\ (long_first d bars \/ bad_codas s bars)).
Proof.
  intros T F. split.
  - intros E. unfold render_region in E. destruct (rr_loop (gb_new r) SIdle [] bars) as [[[[g st] regs]|e]| |] eqn:R; try discriminate; cbn [bind] in E.
    + right. assert (X : exists s, closing st = Some s /\ gb_build g = Panic).
      { unfold rr_finish in E. destruct st as [|s|s|s l].
        - exists 0. split; [reflexivity|]. destruct (gb_build g); [discriminate|reflexivity|discriminate].
        - exists s. split; [reflexivity|]. destruct (gb_build g); [discriminate|reflexivity|discriminate].
        - discriminate.
        - rewrite <- builder_nil in R. destruct (loop_known r bars [] SIdle [] g _ regs T F counts_nil Logic.I (Forall_nil _) R) as [W _]. cbn in W.
          rewrite (last_nth l 0) in E by (destruct l; [cbn in W; lia|discriminate]). discriminate. }
      destruct X as [s [CL B]]. destruct (loop_sound r bars g st regs s T F R CL) as [-> [C [l [W [LB [S _]]]]]].
      split; [split; [exact C|exists l; auto]|]. apply (build_panics r bars T C). exact B.
    + left. apply loop_panics; auto.
  - intros [RS|[[C [l [W [<- S]]]] B]].
    + apply (loop_panics r bars T F) in RS. unfold render_region. rewrite RS. reflexivity.
    + apply (build_panics r _ T C) in B. destruct (loop_layout r l W T C S) as [st [regs [s [R [CL E]]]]]. unfold render_region. rewrite R. cbn [bind].
      unfold rr_finish. rewrite B. destruct st; cbn in CL; inv CL; reflexivity.
Qed.


(** ** Chunks *)
Definition varied_free (d : Z) (l : list (Z * section * Z)) : Prop := forall s c vs e, In (s, Varied c vs, e) l -> ~ s < d < e.

Lemma first_ret d l : forall s lo, chain s lo l -> varied_free d l -> exists cs, omapM (render_chunks (DcDsIter0 d)) (map region_of l) = Ret cs.
Proof.
  induction l as [|[[a sec] e] l IH]; intros s lo C V; [exists []; reflexivity|]. destruct C as [-> [_ [LE [SI [_ C]]]]].
  destruct (IH e (e + 1) C) as [cs E]; [intros s' c vs e' X; apply (V s' c vs e'); cbn; auto|]. cbn [map omapM]. rewrite E.
  destruct sec as [x|x|c vs]; cbn [region_of render_chunks fst].
  - eexists. reflexivity.
  - destruct (Z.leb_spec e d); [eexists; reflexivity|]. replace ((e <? d) && (d <? e)) with false by lia. eexists. reflexivity.
  - specialize (V s c vs e (or_introl eq_refl)). destruct (Z.leb_spec d s); [eexists; reflexivity|]. destruct SI as [N _]. rewrite spans_last by auto. cbn [bind snd].
    replace (d <? e) with false by lia. eexists. reflexivity.
Qed.
Lemma first_ret_inv d l : forall s lo cs, chain s lo l -> omapM (render_chunks (DcDsIter0 d)) (map region_of l) = Ret cs -> varied_free d l.
Proof.
  induction l as [|[[a sec] e] l IH]; intros s lo cs C E; [intros s' c vs e' []|]. destruct C as [-> [_ [LE [SI [_ C]]]]].
  cbn [map] in E. apply omapM_cons in E. destruct E as [x [y [E1 [E2 _]]]]. intros s' c vs e' [X|X]; [|apply (IH _ _ _ C E2 s' c vs e' X)]. inv X.
  cbn [region_of render_chunks fst] in E1. destruct (Z.leb_spec d s'); [lia|]. destruct SI as [N _]. rewrite spans_last in E1 by auto. cbn [bind snd] in E1. destruct (Z.ltb_spec d e'); [discriminate|lia].
Qed.

(** The first bar with a mark of repeats or variations. *)
Lemma first_marked p : forall p' x x' q q', p ++ x :: q = p' ++ x' :: q' -> idle p -> idle p' -> marked_bar x -> marked_bar x' -> p = p' /\ x = x' /\ q = q'.
Proof.
  induction p as [|a p IH]; intros [|a' p'] x x' q q' E I I' M M'; cbn [app] in E; inv E; auto.
  - inversion I' as [|? ? I1 _]; subst. destruct M. exact I1.
  - inversion I as [|? ? I1 _]; subst. destruct M'. exact I1.
  - inversion I; subst. inversion I'; subst. destruct (IH p' x x' q q') as [-> [-> ->]]; auto.
Qed.

Lemma idle_join l : Forall no_repeat l -> Forall no_var l -> idle l.
Proof. intros A B. apply Forall_forall. intros b H. rewrite Forall_forall in A, B. auto. Qed.
Lemma var1_marked x : has x Var1 = true -> marked_bar x.
Proof. intros H [_ N]. rewrite (N Var1 eq_refl) in H. discriminate. Qed.
Lemma no_jump_vars vs : forall k, numbered k vs -> Forall no_jump (concat vs).
Proof. induction vs as [|v vs IH]; intros k N; [constructor|]. destruct N as [_ [_ [_ [J N]]]]. cbn [concat]. apply Forall_app. split; [exact J|eapply IH; eauto]. Qed.
Lemma first_carries k v vs : numbered k (v :: vs) -> exists x v', v = x :: v' /\ carries k x.
Proof. intros [N [C _]]. destruct v as [|x v']; [congruence|]. inversion C; subst. eauto. Qed.

Lemma varied_free_iff l d : well_laid l -> tune (layout_bars l) ->
  (exists j, In j (layout_bars l) /\ b_tick j = d /\ ~ no_jump j) -> (forall j, In j (layout_bars l) -> ~ no_jump j -> b_tick j = d) ->
  (varied_free d (timed_layout l) <-> varied_clear (layout_bars l)).
Proof.
  intros W T [j [JI [JD JN]]] U. pose proof W as [I F]. destruct l as [sec rest]. unfold layout_bars, timed_layout in *. cbn [fst snd] in *. split.
  - intros V pre y mid x post E NJ ND ID. destruct (has x Var1) eqn:X1; [|reflexivity]. exfalso.
    pose proof (var1_marked x X1) as MX. replace (pre ++ y :: mid ++ x :: post) with ((pre ++ y :: mid) ++ x :: post) in E by (rewrite <- app_assoc; reflexivity).
    assert (YD : b_tick y = d). { apply U; auto. rewrite E. rewrite !in_app_iff. cbn. auto. }
    destruct sec as [z|z|z vs]; cbn [section_bars inside] in *.
    + destruct I as [I1 I2]. specialize (I2 eq_refl). destruct rest as [|[b c] rest]; cbn [follows rest_bars flat_map fst snd] in *.
      * rewrite app_nil_r in E. assert (Q : In x z) by (rewrite E, in_app_iff; cbn; auto). rewrite Forall_forall in I2. rewrite (I2 x Q Var1 eq_refl) in X1. discriminate.
      * destruct F as [[HE [HS [NV HP]]] _]. apply first_marked in E; auto; [|apply idle_join; auto|].
        -- destruct E as [_ [<- _]]. rewrite (NV Var1 eq_refl) in X1. discriminate.
        -- intros [[NS _] _]. rewrite NS in HS. rewrite HP in HS by reflexivity. discriminate.
    + destruct I as [I1 [I2 _]]. destruct rest as [|[b c] rest]; cbn [follows rest_bars flat_map fst snd] in *; [discriminate|].
      destruct F as [[HE [HS [NV HP]]] _]. apply first_marked in E; auto; [|apply idle_join; auto|].
      * destruct E as [_ [<- _]]. rewrite (NV Var1 eq_refl) in X1. discriminate.
      * intros [[_ NE] _]. rewrite NE in HE. discriminate.
    + destruct I as [I1 [I2 [_ [N [NV LV]]]]]. destruct vs as [|v vs]; [congruence|]. destruct (first_carries _ _ _ N) as [x1 [v' [-> CX]]].
      assert (X1' : has x1 Var1 = true) by (rewrite (CX Var1 eq_refl); reflexivity).
      destruct (first_marked z (pre ++ y :: mid) x1 x (v' ++ concat vs ++ rest_bars rest) post) as [EP [EX _]]; auto; [|apply idle_join; auto|apply var1_marked; auto|].
      { rewrite <- E. cbn [concat app]. rewrite <- !app_assoc. cbn [app]. rewrite <- ?app_assoc. reflexivity. }
      subst z x1. destruct rest as [|[b c] rest]; [discriminate|]. cbn [timed] in V.
      apply (V 0 (pre ++ y :: mid) ((x :: v') :: vs) (b_tick b)); [left; reflexivity|].
      cbn [rest_bars flat_map fst snd] in *. split.
      * pose proof (tune_tick _ y T) as TY. rewrite !in_app_iff in TY. specialize (TY ltac:(cbn; auto)). lia.
      * rewrite <- YD. apply (tune_lt _ _ y b T); [rewrite !in_app_iff; cbn; auto|cbn; auto].
  - intros VC s cm vs e IN DD. destruct rest as [|[b c] rest].
    + cbn [timed follows] in *. destruct IN as [IN|[]]. inv IN. discriminate.
    + cbn [timed follows rest_bars flat_map fst snd app] in *. fold (rest_bars rest) in *. destruct F as [B [IC F]]. destruct IN as [IN|IN].
      * inv IN. cbn [section_bars inside] in *. destruct I as [I1 [I2 [_ [N [NV LV]]]]].
        assert (JB : In j cm).
        { rewrite !in_app_iff in JI. destruct JI as [[JI|JI]|JI]; [exact JI| |].
          - pose proof (no_jump_vars _ _ N) as NJ. rewrite Forall_forall in NJ. destruct JN. auto.
          - exfalso. destruct JI as [JB|JI]; [subst; lia|]. apply tune_app_r in T. pose proof (tune_lt [b] _ b j T (or_introl eq_refl) JI). lia. }
        apply in_split in JB. destruct JB as [p [m ->]]. destruct vs as [|v vs]; [congruence|]. destruct (first_carries _ _ _ N) as [x1 [v' [-> CX]]].
        specialize (VC p j m x1 (v' ++ concat vs ++ b :: section_bars c ++ rest_bars rest)). rewrite (CX Var1 eq_refl) in VC. discriminate VC; auto.
        -- cbn [concat app]. rewrite <- !app_assoc. cbn [app]. rewrite <- ?app_assoc. cbn [app]. rewrite <- ?app_assoc. reflexivity.
        -- lia.
        -- apply idle_join; auto.
      * assert (T2 : tune (section_bars c ++ rest_bars rest)). { apply tune_app_r in T. apply (tune_app_r [b]) in T. exact T. }
        assert (G : b_tick b <= s).
        { assert (TB : b_tick b < u32_max) by (apply (tune_tick _ b T); rewrite in_app_iff; cbn; auto).
          apply (chain_ge _ (b_tick b) (b_tick b) s (Varied cm vs) e) in IN; [exact IN|]. apply (timed_chain rest false); auto; try lia.
          apply Forall_forall. intros y Y _. apply tune_app_r in T. pose proof (tune_lt [b] _ b y T (or_introl eq_refl) Y). lia. }
        rewrite in_app_iff in JI. destruct JI as [X|[->|X]].
        -- pose proof (tune_lt _ _ j b T X (or_introl eq_refl)). lia.
        -- lia.
        -- assert (NJ' : is_plain c = false -> Forall no_jump (section_bars c)).
           { intros PL. destruct c as [l|l|cm' vs']; try discriminate; cbn [inside section_bars] in *; [tauto|].
             destruct IC as [_ [_ [J [N _]]]]. apply Forall_app. split; [auto|]. eapply no_jump_vars; eauto. }
           pose proof (inside_plain rest c false (b_tick b) d F IC NJ' T2 ltac:(exists j; auto) s (Varied cm vs) e IN DD). discriminate.
Qed.

Lemma chain_top l : well_laid l -> tune (layout_bars l) -> chain 0 1 (timed_layout l) -> top_clear (layout_bars l).
Proof.
  intros [I F] T C. destruct l as [sec rest]. unfold layout_bars, timed_layout in *. cbn [fst snd] in *. apply Forall_forall. intros b B Z0.
  rewrite in_app_iff in B. destruct B as [B|B].
  - destruct sec as [z|z|z vs]; cbn [section_bars inside] in *.
    + destruct I as [I1 I2]. specialize (I2 eq_refl). rewrite Forall_forall in *. auto.
    + destruct I as [I1 [I2 _]]. rewrite Forall_forall in *. auto.
    + destruct I as [I1 [I2 [_ [N [NV LV]]]]]. rewrite in_app_iff in B. destruct B as [B|B]; [rewrite Forall_forall in *; auto|]. exfalso.
      assert (S : starts_in 1 (match rest with [] => u32_max | (x, _) :: _ => b_tick x end) (Varied z vs)) by (destruct rest as [|[x c] rest]; apply C).
      destruct S as [_ [_ S]]. destruct vs as [|v vs]; [congruence|]. destruct (first_carries _ _ _ N) as [x1 [v' [-> _]]]. cbn [starts_of flat_map app] in S. inversion S as [|? ? S1 _]; subst. cbn [concat app] in B.
      destruct B as [->|B]; [lia|].
      assert (T2 : tune ([x1] ++ (v' ++ concat vs))). { rewrite <- app_assoc in T. apply tune_app_r in T. cbn [concat] in T. apply tune_app_l in T. exact T. }
      pose proof (tune_lt [x1] _ x1 b T2 (or_introl eq_refl) B). lia.
  - exfalso. destruct rest as [|[x c] rest]; [destruct B|]. cbn [rest_bars flat_map fst snd] in *. cbn [timed chain] in C. destruct C as [_ [_ [LE _]]].
    destruct B as [->|B]; [lia|]. apply tune_app_r in T. pose proof (tune_lt [x] _ x b T (or_introl eq_refl) B). lia.
Qed.

Lemma jump_unique top bars d s j : jump top bars d s -> In j bars -> ~ no_jump j -> b_tick j = d.
Proof.
  intros J JI JN. assert (X : In (b_tick j) (marked Dc bars) \/ In (b_tick j) (marked Ds bars)).
  { unfold no_jump in JN. destruct (has j Dc) eqn:A; [left; apply marked_In; eauto|]. destruct (has j Ds) eqn:B; [right; apply marked_In; eauto|]. destruct JN. auto. }
  destruct J as [A B C D|A B C D|f A B C D _]; rewrite A, B in X; cbn in X; tauto || (destruct X as [X|X]; destruct X; tauto || auto).
Qed.

Definition never_hangs {A} (o : outcome A) : Prop := o <> Hang.
Lemma bind_hang {A B} (o : outcome A) (k : A -> outcome B) : never_hangs o -> (forall x, never_hangs (k x)) -> never_hangs (bind o k).
Proof. intros H K. destruct o; cbn; [apply K|discriminate|destruct H; reflexivity]. Qed.
Lemma omapM_hang {A B} (f : A -> outcome B) l : (forall x, never_hangs (f x)) -> never_hangs (omapM f l).
Proof. intros H. induction l as [|x l IH]; [discriminate|]. cbn [omapM]. apply bind_hang; auto. intros y. apply bind_hang; auto. intros z. discriminate. Qed.
Lemma chk_hang z : never_hangs (chk_u32 z).
Proof. destruct (chk_cases z) as [[H _]|[H _]]; rewrite H; discriminate. Qed.
Lemma iset_hang l : never_hangs (iset_of l).
Proof. unfold iset_of. destruct (forallb _ _); discriminate. Qed.
Lemma range_hang r : never_hangs (range_interval_set r).
Proof. apply bind_hang; [apply chk_hang|]. intros x. apply iset_hang. Qed.
Lemma iter1_hang r : never_hangs (iter1_interval_set r).
Proof.
  destruct r as [r|r|c vs]; try apply range_hang. cbn [iter1_interval_set]. apply bind_hang; [apply range_hang|]. intros a.
  apply bind_hang; [destruct vs; discriminate|]. intros v. apply bind_hang; [apply range_hang|]. discriminate.
Qed.
Lemma render_hang p r : never_hangs (render_chunks p r).
Proof.
  assert (I : forall g x, never_hangs (to_iter1_chunks g x)).
  { intros g x. apply bind_hang; [apply iter1_hang|]. intros i. apply omapM_hang. intros y. apply bind_hang; [apply chk_hang|]. discriminate. }
  destruct r as [[s e]|[s e]|c vs], p as [|d|g]; cbn [render_chunks]; try apply I; try discriminate.
  - destruct (_ <=? _); [discriminate|]. destruct (_ && _); discriminate.
  - destruct (_ <=? _); [discriminate|]. apply bind_hang; [destruct vs; discriminate|]. intros v. destruct (_ <? _); discriminate.
Qed.
Lemma chunks_hang c : never_hangs (to_chunks c).
Proof.
  unfold to_chunks. destruct (cp_global c).
  - apply bind_hang; [apply omapM_hang, render_hang|]. intros a. apply bind_hang; [apply omapM_hang, render_hang|]. discriminate.
  - apply bind_hang; [apply omapM_hang, render_hang|]. discriminate.
Qed.

Lemma chunks_return r bars c w : tune bars -> Forall compatible bars -> render_region r bars = Ret (Ok (c, w)) ->
  ((exists cs, to_chunks c = Ret cs) <-> forall d s, jump (actual_top (full_bar r bars)) bars d s -> top_clear bars /\ varied_clear bars).
Proof.
  intros T F R. destruct (render_sound r bars c w T F R) as [C [l [gr [W [LB [S [-> B]]]]]]].
  assert (CH : chain 0 0 (timed_layout l)) by (apply layout_chain; auto; rewrite LB; exact T).
  destruct gr as [g|].
  - destruct (jump_built r bars g w T C B) as [s [J [_ [CO IS]]]]. pose proof (segno_range _ _ _ _ T J) as SR.
    destruct (jump_set_ok bars s T C SR CO) as [is [E [K M]]]. rewrite IS in E. inv E.
    pose proof (varied_free_iff l (ds_dc_tick (gr_ds_dc g)) W T (jump_bar _ _ _ _ J) (fun j X Y => jump_unique _ _ _ _ _ J X Y)) as VF.
    unfold to_chunks. cbn [cp_global cp_regions]. split.
    + intros [cs TC] d' s' J'.
      destruct (omapM (render_chunks (DcDsIter0 (ds_dc_tick (gr_ds_dc g)))) (map region_of (timed_layout l))) as [c1| |] eqn:E1; try discriminate. cbn [bind] in TC.
      destruct (omapM (render_chunks (DcDsIter1 g)) (map region_of (timed_layout l))) as [c2| |] eqn:E2; try discriminate.
      split; [|apply VF, (first_ret_inv _ _ _ _ _ CH E1)]. apply chain_top; auto. apply (second_top _ _ _ CH (timed_ne _ _ _) E2).
    + intros H. destruct (H _ _ J) as [TC VC]. apply VF in VC. destruct (first_ret _ _ _ _ CH VC) as [c1 E1]. rewrite E1. cbn [bind].
      pose proof (top_chain l W T TC) as CH1. destruct (second_chunks g s (timed_layout l) K 0 1 ltac:(lia) ltac:(lia) CH1) as [c2 [E2 _]]. rewrite E2. eexists. reflexivity.
  - split; [|rewrite (chunks_plain _ _ eq_refl); eauto]. intros _ d s J. exfalso.
    pose proof (build_cases r _ T C (build_no_overflow _ _ _ T C B)) as BC. rewrite B in BC. destruct (jump_of_jump _ _ _ _ J) as [j [JE _]]. rewrite JE in BC.
    destruct BC as [[e X]|[[X1 [X2 _]]|[s' [J' X]]]]; [discriminate|destruct J; congruence|]. destruct (to_interval_set s' _ _); discriminate.
Qed.
Lemma chunks_panic r bars c w : tune bars -> Forall compatible bars -> render_region r bars = Ret (Ok (c, w)) ->
  (to_chunks c = Panic <-> ~ exists cs, to_chunks c = Ret cs).
Proof.
  intros T F R. pose proof (chunks_hang c) as H. destruct (to_chunks c) as [cs| |].
  - split; [discriminate|]. intros N. destruct N. eauto.
  - split; [|reflexivity]. intros _ [cs X]. discriminate.
  - destruct H. reflexivity.
Qed.

(** ** What is accepted, whatever the length of the first bar *)
Lemma accepted_exact r bars : tune bars -> Forall compatible bars ->
  ((exists c w, render_region r bars = Ret (Ok (c, w))) <->
   laid_out bars /\
   ((marked Dc bars = [] \/ first_bar_len bars = None) /\ marked Ds bars = [] \/
    exists d s, jump (actual_top (full_bar r bars)) bars d s /\ ~ long_first d bars /\ codas_ok s bars)).
Proof.
  intros T F. split.
  - intros [c [w R]]. destruct (render_sound r bars c w T F R) as [C [l [gr [W [LB [S [-> B]]]]]]]. split; [split; [exact C|exists l; auto]|].
    destruct gr as [g|].
    + right. destruct (jump_built r bars g w T C B) as [s [J [_ [CO _]]]]. exists (ds_dc_tick (gr_ds_dc g)), s. split; [exact J|]. split; [|exact CO].
      intros LF. assert (P : gb_build (builder_of r bars) = Panic) by (apply build_panics; eauto). congruence.
    + left. pose proof (build_cases r _ T C (build_no_overflow _ _ _ T C B)) as BC. rewrite B in BC. unfold jump_of in BC.
      destruct (marked Dc bars) as [|d dl]; [destruct (marked Ds bars) as [|d dl]|].
      * auto.
      * destruct BC as [[e X]|[[X1 [X2 X3]]|[s [J X]]]]; try discriminate. destruct (to_interval_set s _ _); discriminate.
      * destruct BC as [[e X]|[[X1 [X2 X3]]|[s [J X]]]]; try discriminate; [auto|]. destruct (to_interval_set s _ _); discriminate.
  - intros [[C [l [W [<- S]]]] J].
    assert (B : exists gr w, gb_build (builder_of r (layout_bars l)) = Ret (Ok (gr, w))).
    { destruct J as [[A B]|[d [s [J [NL CO]]]]].
      - unfold gb_build, builder_of. cbn [gb_ds_dc gb_fine gb_segno gb_coda gb_first_bar_len gb_top_rhythm]. unfold jump_of. rewrite B. destruct A as [->| ->]; [eauto|]. destruct (marked Dc (layout_bars l)); eauto.
      - assert (CF : forall a b f, marked Coda (layout_bars l) = [a; b] -> marked Fine (layout_bars l) = [f] -> b <= f).
        { intros a b f MC MF. destruct (CO a b MC) as [_ X]. rewrite MF in X. lia. }
        assert (NP : gb_build (builder_of r (layout_bars l)) <> Panic).
        { intros P. apply (build_panics r _ T C) in P. destruct P as [d' [s' [J' [X|[a [b [MC [_ X]]]]]]]].
          - destruct (jump_det _ _ _ _ _ _ J J') as [-> _]. auto.
          - destruct (jump_det _ _ _ _ _ _ J J') as [_ <-]. destruct (CO a b MC) as [Y Z]. destruct X as [X|X]; [lia|]. rewrite X in Z. lia. }
        destruct (gb_build (builder_of r (layout_bars l))) as [[[gr w]|e]| |] eqn:B.
        + eauto.
        + exfalso. eapply no_build_error; eauto.
        + congruence.
        + exfalso. assert (NO : no_overflow (layout_bars l)).
          { intros _. split; [|intros a b f _; apply CF]. intros d' MD ND MG f FL. destruct (Z.le_gt_cases (2 * f) u32_max) as [|H]; [assumption|]. exfalso.
            destruct (jump_of_jump _ _ _ _ J) as [j [JE JD]]. unfold jump_of in JE. rewrite MD in JE. inv JE. apply NL. repeat split; auto. exists f. split; [exact FL|lia]. }
          pose proof (build_cases r _ T C NO) as BC. rewrite B in BC. destruct (jump_of (layout_bars l)); [|discriminate].
          destruct BC as [[e X]|[[_ [_ X]]|[s' [J' X]]]]; try discriminate. destruct (jump_det _ _ _ _ _ _ J J') as [_ <-].
          destruct (jump_set_ok _ s T C (segno_range _ _ _ _ T J) CO) as [is [E _]]. rewrite E in X. discriminate. }
    destruct B as [gr [w B]]. destruct (loop_layout r l W T C S) as [st [regs [s' [R [CL E]]]]]. unfold render_region. rewrite R. cbn [bind].
    unfold rr_finish. rewrite B. cbn [bind]. destruct st; cbn in CL; inv CL; eauto.
Qed.

(** ** What is played, wherever the jump mark is *)
Lemma later_clear sec b c rest d : follows sec ((b, c) :: rest) -> tune (section_bars sec ++ rest_bars ((b, c) :: rest)) ->
  (exists j, In j (section_bars sec ++ rest_bars ((b, c) :: rest)) /\ b_tick j = d /\ ~ no_jump j) -> jump_clear d (timed (b_tick b) c rest).
Proof.
  intros [B [IC F]] T [j [JI [JD JN]]] s sec' e IN DD. cbn [rest_bars flat_map fst snd app] in *. fold (rest_bars rest) in *.
  assert (T2 : tune (section_bars c ++ rest_bars rest)). { apply tune_app_r in T. apply (tune_app_r [b]) in T. exact T. }
  assert (G : b_tick b <= s).
  { assert (TB : b_tick b < u32_max) by (apply (tune_tick _ b T); rewrite in_app_iff; cbn; auto).
    apply (chain_ge _ (b_tick b) (b_tick b) s sec' e) in IN; [exact IN|]. apply (timed_chain rest false); auto; try lia.
    apply Forall_forall. intros y Y _. apply tune_app_r in T. pose proof (tune_lt [b] _ b y T (or_introl eq_refl) Y). lia. }
  rewrite in_app_iff in JI. destruct JI as [X|[->|X]].
  - pose proof (tune_lt _ _ j b T X (or_introl eq_refl)). lia.
  - lia.
  - assert (NJ' : is_plain c = false -> Forall no_jump (section_bars c)).
    { intros PL. destruct c as [l|l|cm' vs']; try discriminate; cbn [inside section_bars] in *; [tauto|].
      destruct IC as [_ [_ [J [N _]]]]. apply Forall_app. split; [auto|]. eapply no_jump_vars; eauto. }
    apply (inside_plain rest c false (b_tick b) d F IC NJ' T2 ltac:(exists j; auto) s sec' e IN DD).
Qed.

Lemma clear_from l d : well_laid l -> tune (layout_bars l) -> (exists j, In j (layout_bars l) /\ b_tick j = d /\ ~ no_jump j) ->
  varied_free d (timed_layout l) -> (is_repeated (fst l) = true -> Forall no_jump (section_bars (fst l))) -> jump_clear d (timed_layout l).
Proof.
  intros [I F] T J V NR. destruct l as [sec [|[b c] rest]]; unfold layout_bars, timed_layout in *; cbn [fst snd] in *.
  - intros s sec' e [E|[]] _. inv E. exact F.
  - intros s sec' e IN DD. pose proof IN as IN0. cbn [timed] in IN. destruct IN as [IN|IN]; [|apply (later_clear sec b c rest d F T J s sec' e IN DD)].
    inv IN. destruct sec' as [z|z|z vs]; [reflexivity| |exfalso; apply (V 0 z vs _ IN0 DD)]. exfalso. specialize (NR eq_refl). cbn [section_bars] in *.
    destruct J as [j [JI [JD JN]]]. rewrite in_app_iff in JI. destruct JI as [JI|JI]; [rewrite Forall_forall in NR; auto|]. cbn [rest_bars flat_map fst snd app] in *.
    destruct JI as [->|JI]; [lia|]. apply tune_app_r in T. pose proof (tune_lt [b] _ b j T (or_introl eq_refl) JI). lia.
Qed.

Lemma lost_pass l d cs : well_laid l -> tune (layout_bars l) -> chain 0 1 (timed_layout l) -> is_repeated (fst l) = true ->
  (exists j, In j (section_bars (fst l)) /\ b_tick j = d) ->
  omapM (render_chunks (DcDsIter0 d)) (map region_of (timed_layout l)) = Ret cs -> concat cs = [].
Proof.
  intros [I F] T CH R [j [JI JD]] E. destruct l as [[z|z|z vs] [|[b c] rest]]; try discriminate. unfold timed_layout, layout_bars in *. cbn [fst snd timed map section_bars] in *.
  destruct CH as [_ [_ [_ [_ [_ CH]]]]]. assert (D : d < b_tick b). { rewrite <- JD. apply (tune_lt _ _ j b T JI). cbn. auto. }
  destruct (first_after d (timed (b_tick b) c rest) (b_tick b) (b_tick b + 1)) as [cs' [E' P]]; auto; [lia|lia|].
  apply omapM_cons in E. destruct E as [x [y [E1 [E2 ->]]]]. rewrite E2 in E'. injection E' as <-. cbn [region_of render_chunks] in E1.
  replace (b_tick b <=? d) with false in E1 by lia. replace ((b_tick b <? d) && (d <? b_tick b)) with false in E1 by lia. injection E1 as <-. exact P.
Qed.

Lemma performed_exact r bars c w cs : tune bars -> Forall compatible bars ->
  render_region r bars = Ret (Ok (c, w)) -> to_chunks c = Ret cs ->
  exists l, well_laid l /\ layout_bars l = bars /\
    ((marked Dc bars = [] \/ first_bar_len bars = None) /\ marked Ds bars = [] /\ w = [] /\ performance cs = play l \/
     exists d s, jump (actual_top (full_bar r bars)) bars d s /\ codas_ok s bars /\ w = warnings_of bars /\
       let second := second_pass l s (hd_error (marked Fine bars)) (pair_of (marked Coda bars)) in
       ((is_repeated (fst l) = true -> Forall no_jump (section_bars (fst l))) /\ performance cs = until d (play l) ++ second \/
        is_repeated (fst l) = true /\ ~ Forall no_jump (section_bars (fst l)) /\ performance cs = second)).
Proof.
  intros T F R TC. destruct (render_sound r bars c w T F R) as [C [l [gr [W [LB [_ [-> B]]]]]]]. exists l. split; [exact W|]. split; [exact LB|].
  assert (CH : chain 0 0 (timed_layout l)) by (apply layout_chain; auto; rewrite LB; exact T).
  destruct gr as [g|].
  - right. destruct (jump_built r bars g w T C B) as [s [J [WE [CO IS]]]]. pose proof (segno_range _ _ _ _ T J) as SR.
    exists (ds_dc_tick (gr_ds_dc g)), s. split; [exact J|]. split; [exact CO|]. split; [exact WE|]. cbv zeta.
    destruct (jump_set_ok bars s T C SR CO) as [is [E [K M]]]. rewrite IS in E. inv E.
    destruct (jump_bar _ _ _ _ J) as [b [BI [BD BN]]]. pose proof (tune_tick _ _ T BI) as BT.
    unfold to_chunks in TC. cbn [cp_global cp_regions] in TC.
    destruct (omapM (render_chunks (DcDsIter0 (ds_dc_tick (gr_ds_dc g)))) (map region_of (timed_layout l))) as [c1| |] eqn:E1; try discriminate. cbn [bind] in TC.
    destruct (omapM (render_chunks (DcDsIter1 g)) (map region_of (timed_layout l))) as [c2| |] eqn:E2; try discriminate. cbn [bind] in TC. inv TC.
    pose proof (second_top _ _ _ CH (timed_ne _ _ _) E2) as CH1.
    destruct (second_perf l s (hd_error (marked Fine (layout_bars l))) (pair_of (marked Coda (layout_bars l))) g (gr_iter1 g) W CH1 ltac:(lia) eq_refl K ltac:(intros f H; apply fine_range in H; auto; lia) M) as [c2' [E2' [_ [_ P2]]]].
    rewrite E2 in E2'. inv E2'. rewrite perf_app, P2.
    pose proof (first_ret_inv _ _ _ _ _ CH E1) as VF.
    assert (DEC : (is_repeated (fst l) = true -> Forall no_jump (section_bars (fst l))) \/ is_repeated (fst l) = true /\ exists j, In j (section_bars (fst l)) /\ ~ no_jump j).
    { destruct (is_repeated (fst l)); [|left; discriminate]. induction (section_bars (fst l)) as [|x q IH]; [left; auto|].
      assert (DX : no_jump x \/ ~ no_jump x) by (unfold no_jump; destruct (has x Dc), (has x Ds); auto; right; intros [? ?]; discriminate).
      destruct DX as [DX|DX]; [|right; split; auto; exists x; cbn; auto]. destruct IH as [IH|[_ [j [JI JN]]]]; [left; intros _; constructor; auto|right; split; auto; exists j; cbn; auto]. }
    destruct DEC as [NR|[NR [j [JI JN]]]].
    + left. split; [exact NR|]. f_equal.
      pose proof (clear_from l _ W T (jump_bar _ _ _ _ J) VF NR) as JC.
      destruct (first_chunks (ds_dc_tick (gr_ds_dc g)) (timed_layout l) 0 1) as [c1' [E1' [P1 F1]]]; auto; try lia; [apply timed_ne|].
      rewrite E1 in E1'. inv E1'. exact P1.
    + right. split; [exact NR|]. split; [intros X; rewrite Forall_forall in X; auto|].
      rewrite (lost_pass l _ c1 W T CH1 NR ltac:(exists j; split; [exact JI|]; apply (jump_unique _ _ _ _ _ J); auto; unfold layout_bars; rewrite in_app_iff; auto) E1). reflexivity.
  - left. pose proof (chunks_plain _ _ TC) as X. inv X. rewrite plain_perf_all.
    pose proof (build_cases r _ T C (build_no_overflow _ _ _ T C B)) as BC. rewrite B in BC. unfold jump_of in BC.
    destruct (marked Dc (layout_bars l)) as [|d dl]; [destruct (marked Ds (layout_bars l)) as [|d dl]|].
    + inv BC. auto.
    + destruct BC as [[e X]|[[X1 [X2 X3]]|[s [J X]]]]; try discriminate. destruct (to_interval_set s _ _); discriminate.
    + destruct BC as [[e X]|[[X1 [X2 X3]]|[s [J X]]]]; try discriminate; [inv X3; auto|]. destruct (to_interval_set s _ _); discriminate.
Qed.

(** Rendering always comes to an end. *)
Lemma step_hang sg b st : never_hangs (rr_step sg b st).
Proof.
  destruct st as [|s|s|s l]; cbn [rr_step].
  - destruct (has b Start && has b End), (has b End), (has b Start); try discriminate; destruct (region_index (b_marks b)) as [[]|]; discriminate.
  - destruct (has b End), (has b Start); discriminate.
  - destruct (has b Start && has b End), (has b End), (has b Start), (has b Dc || has b Ds); try discriminate; destruct (region_index (b_marks b)) as [[]|]; discriminate.
  - destruct (has b End); [discriminate|]. destruct (region_index (b_marks b)) as [v|].
    + destruct (has b Dc || has b Ds); [discriminate|]. destruct (_ =? _); [discriminate|]. apply bind_hang; [unfold chk_u8, chk; destruct (in_range _ _ _); discriminate|].
      intros x. destruct (_ =? _); [discriminate|]. apply bind_hang; [destruct (var_from_value x); discriminate|discriminate].
    + apply bind_hang; [unfold index; destruct (nth_error _ _); discriminate|]. intros x. apply bind_hang; [destruct (nth_error _ _); discriminate|]. intros y.
      match goal with |- never_hangs (if ?c then _ else _) => destruct c end; [discriminate|]. apply bind_hang; [destruct l; discriminate|discriminate].
Qed.
Lemma loop_hang bars : forall g st regs, never_hangs (rr_loop g st regs bars).
Proof.
  induction bars as [|b bars IH]; intros g st regs; cbn [rr_loop]; [discriminate|]. destruct (on_bar b g) as [g'|]; [|discriminate].
  apply bind_hang; [apply step_hang|]. intros [[st' new]|e]; [apply IH|discriminate].
Qed.
Lemma set_hang s f c : never_hangs (to_interval_set s f c).
Proof.
  unfold to_interval_set. destruct c as [[a b]|].
  - apply bind_hang; [apply chk_hang|]. intros x. apply bind_hang; [apply chk_hang|]. intros y. apply iset_hang.
  - destruct (_ <=? _); [apply iset_hang|]. apply bind_hang; [apply chk_hang|]. intros y. apply iset_hang.
Qed.
Lemma build_hang g : never_hangs (gb_build g).
Proof.
  unfold gb_build. destruct (gb_ds_dc g) as [[t len|t]|]; [| |discriminate].
  - destruct (gb_first_bar_len g); [|discriminate]. apply bind_hang.
    + destruct (gb_segno g); [discriminate|]. cbv zeta. apply bind_hang; [apply chk_hang|discriminate].
    + intros [s w]. match goal with |- never_hangs (match ?x with _ => _ end) => destruct x as [[? ?]|] end; [|discriminate]. apply bind_hang; [apply set_hang|discriminate].
  - destruct (gb_segno g); [|discriminate]. match goal with |- never_hangs (match ?x with _ => _ end) => destruct x as [?|] end; [|discriminate]. apply bind_hang; [apply set_hang|discriminate].
Qed.
Lemma render_no_hang r bars : render_region r bars <> Hang.
Proof.
  unfold render_region. apply bind_hang; [apply loop_hang|]. intros [[[g st] regs]|e]; [|discriminate].
  unfold rr_finish. destruct st as [|s|s|s l]; try discriminate; (apply bind_hang; [apply build_hang || (destruct (nth_error _ _); discriminate)|discriminate]).
Qed.
