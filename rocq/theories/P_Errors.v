(** Lemmas about the errors and panics of the machine that finds the sections. *)
From Coq Require Import Sorted Permutation.
From Verif Require Import P_Base M_Duration M_Scalar M_Bar M_Store M_Repeat S_Note S_Repeat P_Marks P_Chunk P_Machine.
Import ListNotations.
Open Scope Z_scope.
#[local] Hint Constructors Forall : core.

(** What the state says about the bars so far. *)
Definition known (pre : list bar) (st : rr_state) : Prop :=
  match st with
  | SIdle => idle pre
  | SSeq s => closed pre s
  | SRepeat s => open_repeat pre s
  | SVariation s l => exists p vs, pre = p ++ concat vs /\ (idle p \/ exists s, open_repeat p s) /\ numbered 1 vs /\ starts_of vs = l
  end.

Lemma idle_snoc pre b : idle pre -> no_repeat b -> no_var b -> idle (pre ++ [b]).
Proof. intros I R V. apply Forall_app. split; auto. Qed.

Lemma numbered_app k a b : numbered k (a ++ b) <-> numbered k a /\ numbered (k + Z.of_nat (length a)) b.
Proof.
  revert k. induction a as [|v a IH]; intros k; cbn [app numbered length].
  - replace (k + Z.of_nat 0) with k by lia. tauto.
  - rewrite IH. replace (k + 1 + Z.of_nat (length a)) with (k + Z.of_nat (S (length a))) by lia. tauto.
Qed.

Lemma numbered_grow vs b : vs <> [] -> numbered 1 vs -> carries (Z.of_nat (length vs)) b -> no_repeat b -> no_jump b ->
  exists vs', concat vs' = concat vs ++ [b] /\ numbered 1 vs' /\ starts_of vs' = starts_of vs.
Proof.
  intros NE N C R J. destruct (exists_last NE) as [a [v ->]]. rewrite app_length in C. cbn [length] in C.
  apply numbered_app in N. destruct N as [N1 [V0 [V1 [V2 [V3 _]]]]].
  exists (a ++ [v ++ [b]]). split; [rewrite !concat_app; cbn; rewrite !app_nil_r, app_assoc; reflexivity|]. split.
  - apply numbered_app. split; auto. cbn [numbered]. split; [destruct v; discriminate|].
    replace (1 + Z.of_nat (length a)) with (Z.of_nat (length a + 1)) in * by lia.
    repeat split; auto; apply Forall_app; split; auto.
  - unfold starts_of. rewrite !flat_map_app. cbn [flat_map]. destruct v; [congruence|]. reflexivity.
Qed.
Lemma numbered_next vs b : numbered 1 vs -> carries (Z.of_nat (length vs) + 1) b -> no_repeat b -> no_jump b ->
  numbered 1 (vs ++ [[b]]) /\ starts_of (vs ++ [[b]]) = starts_of vs ++ [b_tick b].
Proof.
  intros N C R J. split.
  - apply numbered_app. split; auto. cbn [numbered]. replace (1 + Z.of_nat (length vs)) with (Z.of_nat (length vs) + 1) by lia.
    repeat split; auto. discriminate.
  - unfold starts_of. rewrite flat_map_app. reflexivity.
Qed.

Lemma last_any {A} (l : list A) a b : l <> [] -> last l a = last l b.
Proof. intros N. destruct (exists_last N) as [x [y ->]]. rewrite !last_last. reflexivity. Qed.

Lemma known_open pre s l : st_wf (SVariation s l) -> known pre (SVariation s l) -> open_variation pre (Z.of_nat (length l)) (hd 0 l) (last l 0).
Proof.
  intros W [p [vs [E [P [N S]]]]]. exists p, vs. split; [exact E|]. split; [exact P|]. split; [exact N|].
  pose proof (starts_len _ _ N) as L. rewrite S in *. split; [congruence|]. destruct l as [|t l]; [cbn in W; lia|]. split; [reflexivity|].
  cbn [hd]. apply last_any. discriminate.
Qed.

Lemma known_step sg pre b st st' new : st_wf st -> compatible b -> known pre st -> rr_step sg b st = Ret (Ok (st', new)) -> known (pre ++ [b]) st'.
Proof.
  intros W C K E.
  assert (OPEN : has b Start = true -> open_repeat (pre ++ [b]) (b_tick b)).
  { intros S. exists pre, b, []. repeat split; auto. constructor. }
  assert (CLOSED : has b End = true -> has b Start = false -> closed (pre ++ [b]) (b_tick b)).
  { intros S S'. exists pre, b, []. repeat split; auto. }
  destruct st as [|s|s|s l].
  - unfold rr_step in E. destruct (has b Start) eqn:BS; destruct (has b End) eqn:BE; cbn [andb] in E; try (inv E; cbn; auto; fail).
    destruct (region_index (b_marks b)) as [v|] eqn:RI.
    + destruct v; inv E. destruct (index_no_repeat _ _ C RI) as [R J]. pose proof (index_carries _ _ C RI) as CA.
      exists pre, [[b]]. cbn. split; [reflexivity|]. split; [left; exact K|]. split; [|reflexivity]. repeat split; auto; try discriminate; constructor; auto.
    + inv E. apply index_none in RI. cbn [known] in *. apply idle_snoc; auto. split; auto.
  - unfold rr_step in E. destruct (has b End) eqn:BE; [discriminate|]. destruct (has b Start) eqn:BS; inv E; [apply OPEN; auto|].
    destruct K as [p [b0 [q [-> [T [S [Q X]]]]]]]. exists p, b0, (q ++ [b]). rewrite <- app_assoc. cbn [app]. repeat split; auto.
    apply Forall_app. split; auto. constructor; auto. split; auto.
  - unfold rr_step in E. destruct (has b Start) eqn:BS; destruct (has b End) eqn:BE; cbn [andb] in E; try (inv E; cbn; auto; fail).
    destruct (has b Dc || has b Ds) eqn:DD; [discriminate|]. destruct (region_index (b_marks b)) as [v|] eqn:RI.
    + destruct v; inv E. destruct (index_no_repeat _ _ C RI) as [R J]. pose proof (index_carries _ _ C RI) as CA.
      exists pre, [[b]]. cbn. split; [reflexivity|]. split; [right; eauto|]. split; [|reflexivity]. repeat split; auto; try discriminate; constructor; auto.
    + inv E. apply index_none in RI. destruct K as [p [b0 [q [-> [T [S Q]]]]]]. exists p, b0, (q ++ [b]). rewrite <- app_assoc. cbn [app]. repeat split; auto.
      apply idle_snoc; auto. split; auto.
  - destruct (has b End) eqn:BE; [unfold rr_step in E; rewrite BE in E; discriminate|]. pose proof (known_open _ _ _ W K) as OV. rewrite step_variation in E by auto.
    destruct (region_index (b_marks b)) as [v|] eqn:RI.
    + destruct (has b Dc || has b Ds) eqn:DD; [discriminate|]. destruct (index_no_repeat _ _ C RI) as [R J]. pose proof (index_carries _ _ C RI) as CA.
      destruct K as [p [vs [-> [P [N S]]]]]. pose proof (starts_len _ _ N) as L. rewrite S in L.
      destruct (Z.eqb_spec (var_no v) (Z.of_nat (length l))) as [K|K].
      * inv E. rewrite K, L in CA. destruct (numbered_grow vs b) as [vs' [V1 [V2 V3]]]; auto; [destruct vs; [cbn in *; lia|discriminate]|].
        exists p, vs'. rewrite V1, app_assoc. repeat split; auto.
      * destruct (Z.eqb_spec (var_no v) (Z.of_nat (length l) + 1)) as [K'|K'].
        -- inv E. rewrite K', L in CA. destruct (numbered_next vs b N CA R J) as [V1 V2].
           exists p, (vs ++ [[b]]). rewrite concat_app. cbn. rewrite app_assoc. repeat split; auto.
        -- destruct (unwrap_opt _); discriminate.
    + destruct (match sg with Some g => _ | None => _ end); [discriminate|]. inv E. apply index_none in RI. destruct (has b Start) eqn:BS; [apply OPEN; auto|].
      exists pre, b, []. repeat split; auto. right. split; auto. eauto.
Qed.

Lemma step_error sg pre b post st e : st_wf st -> known pre st ->
  (forall g, sg = Some g -> In g (marked Segno (pre ++ b :: post))) ->
  rr_step sg b st = Ret (Err e) -> error_right (pre ++ b :: post) e.
Proof.
  intros W K SG E.
  assert (JUMP : has b Dc || has b Ds = true -> ~ no_jump b).
  { intros D [A B]. rewrite A, B in D. discriminate. }
  destruct st as [|s|s|s l].
  - unfold rr_step in E. destruct (has b Start) eqn:BS; destruct (has b End) eqn:BE; cbn [andb] in E; try discriminate.
    destruct (region_index (b_marks b)) as [v|] eqn:RI; [|discriminate]. apply index_has in RI.
    destruct v; inv E; exists pre, b, post; repeat split; auto; try discriminate; left; auto.
  - unfold rr_step in E. destruct (has b End) eqn:BE; [|destruct (has b Start); discriminate]. inv E. exists pre, b, post. repeat split; auto. exists s. exact K.
  - unfold rr_step in E. destruct (has b Start) eqn:BS; destruct (has b End) eqn:BE; cbn [andb] in E; try discriminate.
    + inv E. exists pre, b, post. repeat split; auto. exists s. exact K.
    + destruct (has b Dc || has b Ds) eqn:DD; [inv E; exists pre, b, post; repeat split; auto; exists s; exact K|].
      destruct (region_index (b_marks b)) as [v|] eqn:RI; [|discriminate]. apply index_has in RI.
      destruct v; inv E; exists pre, b, post; repeat split; auto; try discriminate; left; split; auto; right; exists s; exact K.
  - pose proof (known_open _ _ _ W K) as OV.
    destruct (has b End) eqn:BE; [unfold rr_step in E; rewrite BE in E; inv E; exists pre, b, post; repeat split; eauto|].
    rewrite step_variation in E by auto. destruct (region_index (b_marks b)) as [v|] eqn:RI.
    + destruct (has b Dc || has b Ds) eqn:DD.
      { inv E. exists pre, b, post. repeat split; auto. intros NV. apply index_has in RI. rewrite NV in RI; [discriminate|]. destruct v; reflexivity. }
      destruct (Z.eqb_spec (var_no v) (Z.of_nat (length l))) as [K1|K1]; [discriminate|].
      destruct (Z.eqb_spec (var_no v) (Z.of_nat (length l) + 1)) as [K'|K']; [discriminate|].
      destruct (unwrap_opt _) as [x| |] eqn:U; try discriminate. cbn [bind] in E. inv E.
      assert (X : var_no x = Z.of_nat (length l) + 1).
      { clear - U W. cbn in W. assert (L : (length l = 1 \/ length l = 2 \/ length l = 3 \/ length l = 4)%nat) by lia.
        destruct L as [L|[L|[L|L]]]; rewrite L in *; cbn in U; inv U; reflexivity. }
      exists pre, b, post. split; [reflexivity|]. split; [reflexivity|]. split; [apply index_has in RI; exact RI|]. split; [intros ->; lia|].
      right. exists (hd 0 l), (last l 0). replace (var_no x - 1) with (Z.of_nat (length l)) by lia. split; auto.
    + destruct sg as [g|]; [|discriminate]. destruct ((hd 0 l <=? g) && (g <? last l 0)) eqn:S; [|discriminate]. inv E.
      apply index_none in RI. exists pre, b, post. split; [reflexivity|]. split; [reflexivity|]. split; [exact RI|].
      exists (Z.of_nat (length l)), (hd 0 l), (last l 0), g. split; [exact OV|]. split; [apply SG; reflexivity|lia].
Qed.

(** Errors about what has been seen stay right. *)
Lemma prefix_more m a b (l : list Z) : (exists r, marked m a = l ++ r) -> exists r, marked m (a ++ b) = l ++ r.
Proof. intros [r E]. exists (r ++ marked m b). rewrite marked_app, E, app_assoc. reflexivity. Qed.

Definition fails {A} (P : rr_error -> Prop) (x : result A rr_error) : Prop := forall e, x = Err e -> P e.
Lemma fails_then {A B} P (x : result A rr_error) (k : A -> result B rr_error) : fails P x -> (forall a, fails P (k a)) -> fails P (and_then x k).
Proof. intros X K e. destruct x as [a|e']; cbn; [apply K|]. intros E. apply X. congruence. Qed.
Lemma fails_if {A} P (c : bool) (x : result A rr_error) a : fails P x -> fails P (if c then x else Ok a).
Proof. intros X. destruct c; [exact X|discriminate]. Qed.
Definition count_error (e : rr_error) : Prop :=
  match e with DuplicatedSegno _ _ | DuplicatedFine _ _ | MoreThanTwoCodas _ _ _ | DuplicatedDsDc _ _ => True | _ => False end.
Lemma on_bar_fails b g e : on_bar b g = Err e -> count_error e.
Proof.
  revert e. unfold on_bar. change (fails count_error (on_bar b g)). unfold on_bar.
  apply fails_then; [apply fails_if; intros e; unfold adding_ds_dc; destruct (gb_ds_dc _); intros E; inv E; exact I|]. intros g1.
  apply fails_then; [apply fails_if; intros e; unfold adding_ds_dc; destruct (gb_ds_dc _); intros E; inv E; exact I|]. intros g2.
  apply fails_then; [apply fails_if; intros e; unfold adding_fine; destruct (gb_fine _); intros E; inv E; exact I|]. intros g3.
  apply fails_then; [apply fails_if; intros e; unfold adding_segno; destruct (gb_segno _); intros E; inv E; exact I|]. intros g4.
  apply fails_if; intros e; unfold adding_coda; destruct (gb_coda _) as [[]|]; intros E; inv E; exact I.
Qed.

Lemma on_bar_error r pre b post e : tune (pre ++ [b]) -> counts_ok pre -> on_bar b (builder_of r pre) = Err e ->
  error_right (pre ++ b :: post) e.
Proof.
  intros T C E. pose proof (on_bar_run r pre b T C) as O. rewrite E in O. destruct O as [_ R].
  replace (pre ++ b :: post) with ((pre ++ [b]) ++ post) by (rewrite <- app_assoc; reflexivity).
  assert (K : match e with DuplicatedSegno _ _ | DuplicatedFine _ _ | MoreThanTwoCodas _ _ _ | DuplicatedDsDc _ _ => True | _ => False end).
  { apply (on_bar_fails _ _ _ E). }
  destruct e; try destruct K; cbn [error_right] in *.
  - destruct (prefix_more Segno (pre ++ [b]) post [t1; t2]) as [l L]; [destruct R as [l L]; exists l; exact L|]. exists l. exact L.
  - rewrite !(marked_app _ (pre ++ [b]) post), !in_app_iff. tauto.
  - destruct (prefix_more Fine (pre ++ [b]) post [t1; t2]) as [l L]; [destruct R as [l L]; exists l; exact L|]. exists l. exact L.
  - destruct (prefix_more Coda (pre ++ [b]) post [t1; t2; t3]) as [l L]; [destruct R as [l L]; exists l; exact L|]. exists l. exact L.
Qed.

Lemma loop_error r post : forall pre st regs e, tune (pre ++ post) -> Forall compatible post -> counts_ok pre -> st_wf st -> known pre st ->
  rr_loop (builder_of r pre) st regs post = Ret (Err e) -> error_right (pre ++ post) e.
Proof.
  induction post as [|b post IH]; intros pre st regs e T F C W K E; cbn [rr_loop] in E; [discriminate|].
  inversion F as [|? ? CB F']; subst.
  assert (T1 : tune (pre ++ [b])) by (apply (tune_app_l _ post); rewrite <- app_assoc; exact T).
  pose proof (on_bar_run r pre b T1 C) as O. destruct (on_bar b (builder_of r pre)) as [g|e'] eqn:OB.
  - destruct O as [C' ->]. destruct (rr_step (gb_segno (builder_of r (pre ++ [b]))) b st) as [[[st' new]|e']| |] eqn:ES; try discriminate; cbn [bind] in E.
    + replace (pre ++ b :: post) with ((pre ++ [b]) ++ post) in * by (rewrite <- app_assoc; reflexivity).
      eapply IH; [exact T|exact F'|exact C'| | |exact E]; [eapply step_wf; eauto|eapply known_step; eauto].
    + inv E. eapply step_error; eauto. cbn [gb_segno builder_of]. intros g G. destruct (marked Segno (pre ++ [b])) as [|x l] eqn:M; [discriminate|]. cbn in G. inv G.
      replace (pre ++ b :: post) with ((pre ++ [b]) ++ post) by (rewrite <- app_assoc; reflexivity). rewrite marked_app, M. cbn. auto.
  - inv E. eapply on_bar_error; eauto.
Qed.

Lemma loop_known r post : forall pre st regs g st' regs', tune (pre ++ post) -> Forall compatible post -> counts_ok pre -> st_wf st -> known pre st ->
  rr_loop (builder_of r pre) st regs post = Ret (Ok (g, st', regs')) -> st_wf st' /\ known (pre ++ post) st' /\ g = builder_of r (pre ++ post) /\ counts_ok (pre ++ post).
Proof.
  induction post as [|b post IH]; intros pre st regs g st' regs' T F C W K E; cbn [rr_loop] in E; [inv E; rewrite app_nil_r; auto|].
  inversion F as [|? ? CB F']; subst.
  assert (T1 : tune (pre ++ [b])) by (apply (tune_app_l _ post); rewrite <- app_assoc; exact T).
  pose proof (on_bar_run r pre b T1 C) as O. destruct (on_bar b (builder_of r pre)) as [g'|e'] eqn:OB; [|discriminate].
  destruct O as [C' ->]. destruct (rr_step (gb_segno (builder_of r (pre ++ [b]))) b st) as [[[st1 new]|e']| |] eqn:ES; try discriminate; cbn [bind] in E.
  replace (pre ++ b :: post) with ((pre ++ [b]) ++ post) in * by (rewrite <- app_assoc; reflexivity).
  eapply IH; [exact T|exact F'|exact C'| | |exact E]; [eapply step_wf; eauto|eapply known_step; eauto].
Qed.

Lemma build_error r bars e : counts_ok bars -> gb_build (builder_of r bars) = Ret (Err e) -> error_right bars e.
Proof.
  intros [C1 [C2 [C3 C4]]] E. unfold gb_build, builder_of in E. cbn [gb_ds_dc gb_fine gb_segno gb_coda gb_first_bar_len gb_top_rhythm] in E.
  unfold jump_of in E. unfold dcds in *.
  assert (CA : forall from to (u : unit) x, coda_of (marked Coda bars) = Some (CodaTwo from to) -> check_coda_pos from to (hd_error (marked Fine bars)) = Err x -> error_right bars x).
  { intros from to _ x CE CP. unfold check_coda_pos in CP. destruct (marked Fine bars) as [|f [|f' l]] eqn:MF; cbn in CP, C2; try discriminate; [|lia].
    destruct (Z.ltb_spec f to); [|discriminate]. inv CP. cbn [error_right]. destruct (marked Coda bars) as [|a [|b [|c l]]]; cbn in CE, C3; try discriminate; [|lia]. inv CE. auto. }
  destruct (marked Dc bars) as [|d dl] eqn:MD.
  - destruct (marked Ds bars) as [|d dl] eqn:MS; [discriminate|]. cbn in C4. destruct dl; [|cbn in C4; lia].
    destruct (marked Segno bars) as [|g gl] eqn:MG; cbn [hd_error] in E.
    + inv E. cbn. auto.
    + destruct (coda_of (marked Coda bars)) as [[t|from to]|] eqn:CO.
      * inv E. cbn. destruct (marked Coda bars) as [|a [|b l]]; try discriminate. inv CO. eauto.
      * destruct (check_coda_pos from to (hd_error (marked Fine bars))) as [[]|x] eqn:CP; cbn [and_then] in E.
        -- destruct (to_interval_set g _ _); discriminate.
        -- inv E. eapply CA; eauto. exact tt.
      * destruct (to_interval_set g _ _); discriminate.
  - cbn in C4. destruct (first_bar_len bars) as [fl|]; [|discriminate].
    destruct (match hd_error (marked Segno bars) with Some _ => _ | None => _ end) as [[sg w]| |]; try discriminate. cbn [bind] in E.
    destruct (coda_of (marked Coda bars)) as [[t|from to]|] eqn:CO.
    + destruct (to_interval_set sg _ _); discriminate.
    + destruct (check_coda_pos from to (hd_error (marked Fine bars))) as [[]|x] eqn:CP; cbn [and_then] in E.
      * destruct (to_interval_set sg _ _); discriminate.
      * inv E. eapply CA; eauto. exact tt.
    + destruct (to_interval_set sg _ _); discriminate.
Qed.

Lemma render_error r bars e : tune bars -> Forall compatible bars -> render_region r bars = Ret (Err e) -> error_right bars e.
Proof.
  intros T F E. unfold render_region in E. rewrite <- builder_nil in E.
  destruct (rr_loop (builder_of r []) SIdle [] bars) as [[[[g st] regs]|x]| |] eqn:L; try discriminate; cbn [bind] in E.
  - destruct (loop_known r bars [] SIdle [] g st regs T F counts_nil I (Forall_nil _) L) as [W [K [-> C]]]. cbn [app] in *.
    unfold rr_finish in E. destruct st as [|s|s|s l].
    + destruct (gb_build (builder_of r bars)) as [[[gr w]|x]| |] eqn:B; try discriminate; cbn [bind] in E; inv E. eapply build_error; eauto.
    + destruct (gb_build (builder_of r bars)) as [[[gr w]|x]| |] eqn:B; try discriminate; cbn [bind] in E; inv E. eapply build_error; eauto.
    + inv E. exact K.
    + pose proof (known_open _ _ _ W K) as OV. rewrite (last_nth l 0) in E by (destruct l; [cbn in W; lia|discriminate]). cbn in E. inv E. cbn. eauto.
  - inv E. apply (loop_error r bars [] SIdle [] e T F counts_nil I (Forall_nil _) L).
Qed.

(** ** Panics *)
Lemma step_ret sg b st : st_wf st -> (forall v, length (starts st) = 4%nat -> region_index (b_marks b) = Some v -> v = VI4) ->
  exists x, rr_step sg b st = Ret x.
Proof.
  intros W H. destruct st as [|s|s|s l].
  - unfold rr_step. destruct (has b Start && has b End); [eauto|]. destruct (has b End); [eauto|]. destruct (has b Start); [eauto|]. destruct (region_index (b_marks b)) as [[]|]; eauto.
  - unfold rr_step. destruct (has b End); [eauto|]. destruct (has b Start); eauto.
  - unfold rr_step. destruct (has b Start && has b End); [eauto|]. destruct (has b End); [eauto|]. destruct (has b Start); [eauto|].
    destruct (has b Dc || has b Ds); [eauto|]. destruct (region_index (b_marks b)) as [[]|]; eauto.
  - destruct (has b End) eqn:BE; [unfold rr_step; rewrite BE; eauto|]. rewrite step_variation by auto. cbn [starts] in H.
    destruct (region_index (b_marks b)) as [v|].
    + destruct (has b Dc || has b Ds); [eauto|]. destruct (Z.eqb_spec (var_no v) (Z.of_nat (length l))) as [K1|K1]; [eauto|].
      destruct (Z.eqb_spec (var_no v) (Z.of_nat (length l) + 1)) as [K'|K']; [eauto|]. cbn in W.
      assert (L : (length l = 1 \/ length l = 2 \/ length l = 3 \/ length l = 4)%nat) by lia.
      destruct L as [L|[L|[L|L]]]; rewrite L in *; cbn; eauto. exfalso. apply K1. rewrite (H v eq_refl eq_refl). reflexivity.
    + destruct (match sg with Some g => _ | None => _ end); eauto.
Qed.

Lemma fourth pre s l : known pre (SVariation s l) -> length l = 4%nat -> exists a x, pre = a ++ [x] /\ has x Var4 = true.
Proof.
  intros [p [vs [-> [_ [N S]]]]] L. pose proof (starts_len _ _ N) as SL. rewrite S, L in SL.
  assert (NE : vs <> []) by (destruct vs; [discriminate|discriminate]). destruct (exists_last NE) as [a [v ->]].
  apply numbered_app in N. rewrite app_length in SL. cbn [length] in SL. destruct N as [_ [V0 [C _]]].
  destruct (exists_last V0) as [v' [x ->]]. exists (p ++ concat a ++ v'), x. rewrite concat_app. cbn [concat]. rewrite app_nil_r, !app_assoc. split; [reflexivity|].
  apply Forall_app in C. destruct C as [_ C]. inversion C as [|? ? C1 _]; subst. rewrite (C1 Var4 eq_refl). apply Z.eqb_eq. cbn [mark_bit]. lia.
Qed.

Lemma loop_ret r post : forall pre st regs, tune (pre ++ post) -> Forall compatible post -> no_restart (pre ++ post) -> counts_ok pre -> st_wf st -> known pre st ->
  exists x, rr_loop (builder_of r pre) st regs post = Ret x.
Proof.
  induction post as [|b post IH]; intros pre st regs T F NR C W K; cbn [rr_loop]; [eauto|].
  inversion F as [|? ? CB F']; subst.
  assert (T1 : tune (pre ++ [b])) by (apply (tune_app_l _ post); rewrite <- app_assoc; exact T).
  pose proof (on_bar_run r pre b T1 C) as O. destruct (on_bar b (builder_of r pre)) as [g'|e'] eqn:OB; [|eauto].
  destruct O as [C' ->].
  destruct (step_ret (gb_segno (builder_of r (pre ++ [b]))) b st W) as [x X].
  { intros v L RI. destruct st as [|s|s|s l]; try discriminate. destruct (fourth pre s l K L) as [a [y [-> Y]]].
    rewrite <- app_assoc in NR. destruct (NR a y b post eq_refl Y) as [N1 [N2 N3]]. apply index_has in RI. destruct v; cbn [var_to_mark] in RI; congruence. }
  rewrite X. cbn [bind]. destruct x as [[st1 new]|e]; [|eauto].
  replace (pre ++ b :: post) with ((pre ++ [b]) ++ post) in * by (rewrite <- app_assoc; reflexivity).
  apply IH; auto; [eapply step_wf; eauto|eapply known_step; eauto].
Qed.

Lemma render_returns r bars : tune bars -> Forall compatible bars -> no_restart bars -> marked Dc bars = [] -> marked Ds bars = [] ->
  exists x, render_region r bars = Ret x.
Proof.
  intros T F NR A B. unfold render_region. rewrite <- builder_nil.
  destruct (loop_ret r bars [] SIdle [] T F NR counts_nil I (Forall_nil _)) as [x L]. rewrite L. cbn [bind].
  destruct x as [[[g st] regs]|e]; [|eauto].
  destruct (loop_known r bars [] SIdle [] g st regs T F counts_nil I (Forall_nil _) L) as [W [K [-> C]]]. cbn [app] in *.
  unfold rr_finish, gb_build. cbn [gb_ds_dc builder_of]. unfold jump_of. rewrite A, B. cbn [bind]. destruct st as [|s|s|s l]; eauto.
  rewrite (last_nth l 0) by (destruct l; [cbn in W; lia|discriminate]). cbn. eauto.
Qed.
