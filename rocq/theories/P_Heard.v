(** Lemmas about what is heard before a bar line is reached. *)
From Coq Require Import ZArith List Bool Lia Sorted.
From Verif Require Import Base M_Scalar M_Bar M_Repeat S_Repeat P_Base P_Chunk P_Jump P_Lines P_Machine P_Errors P_Panic P_Order.
Import ListNotations.
Open Scope Z_scope.

(** Everything of the region is before [x]. *)
Definition rbefore (x : Z) (r : region) : Prop :=
  match r with
  | RSeq (s, e) | RRepeat (s, e) => s <= x /\ e <= x
  | RVar (s, e) vs => s <= x /\ e <= x /\ Forall (fun v => snd v <= x) vs
  end.
Definition sbefore (x : Z) (st : rr_state) : Prop :=
  match st with
  | SIdle => 0 <= x
  | SSeq s | SRepeat s => 0 <= s <= x
  | SVariation s l => 0 <= s <= x /\ l <> [] /\ Forall (fun t => t <= x) l
  end.
Lemma ranges_before x l : forall t e, e <= x -> Forall (fun t => t <= x) l -> Forall (fun v => snd v <= x) (variation_ranges t l e).
Proof. induction l as [|a l IH]; intros t e E F; cbn; constructor; auto; inversion F; subst; auto. Qed.

Lemma step_before sg b st st' new x : sbefore x st -> x <= b_tick b -> rr_step sg b st = Ret (Ok (st', new)) ->
  sbefore (b_tick b) st' /\ Forall (rbefore (b_tick b)) new.
Proof.
  intros S L E. destruct st as [|s|s|s l]; cbn [rr_step sbefore] in *.
  - destruct (has b Start && has b End); [inv E; cbn; repeat constructor; lia|].
    destruct (has b End); [inv E; cbn; repeat constructor; lia|].
    destruct (has b Start); [inv E; cbn; repeat constructor; lia|].
    destruct (region_index (b_marks b)) as [i|]; [|inv E; cbn; repeat constructor; lia].
    destruct i; inv E. cbn. split; [|constructor]. split; [lia|]. split; [discriminate|]. repeat constructor. lia.
  - destruct (has b End); [discriminate|]. destruct (has b Start); inv E; cbn; repeat constructor; lia.
  - destruct (has b Start && has b End); [inv E; cbn; repeat constructor; lia|].
    destruct (has b End); [inv E; cbn; repeat constructor; lia|].
    destruct (has b Start); [discriminate|]. destruct (_ || _); [discriminate|].
    destruct (region_index (b_marks b)) as [i|]; [|inv E; cbn; repeat constructor; lia].
    destruct i; inv E. cbn. split; [|constructor]. split; [lia|]. split; [discriminate|]. repeat constructor. lia.
  - destruct S as (S1 & S2 & S3).
    assert (F : Forall (fun t => t <= b_tick b) l) by (eapply Forall_impl; [|exact S3]; cbn; intros; lia).
    destruct (has b End); [discriminate|]. destruct (region_index (b_marks b)) as [i|].
    + destruct (_ || _); [discriminate|]. destruct (_ =? _).
      * inv E. cbn. split; [|constructor]. split; [lia|]. auto.
      * apply bind_ret in E as (nx & _ & E). destruct (_ =? _).
        -- inv E. cbn. split; [|constructor]. split; [lia|]. split; [destruct l; discriminate|]. apply Forall_app. split; [exact F|]. repeat constructor. lia.
        -- apply bind_ret in E as (? & _ & E). discriminate.
    + apply bind_ret in E as (f & _ & E). apply bind_ret in E as (fi & _ & E).
      destruct (match sg with Some _ => _ | None => _ end); [discriminate|].
      apply bind_ret in E as (r & R & E). apply ret_inj in E. inv E. split.
      * destruct (has b Start); cbn; lia.
      * destruct l as [|t l]; [congruence|]. cbn in R. apply ret_inj in R. subst r. constructor; [|constructor].
        inversion F; subst. cbn. split; [lia|]. split; [lia|]. apply ranges_before; [lia|assumption].
Qed.

Lemma rbefore_mono x y r : x <= y -> rbefore x r -> rbefore y r.
Proof.
  intros L. destruct r as [[s e]|[s e]|[s e] vs]; cbn; intros H; try lia. destruct H as (A & B & C). split; [lia|]. split; [lia|].
  eapply Forall_impl; [|exact C]. cbn. intros; lia.
Qed.

Lemma loop_before bars : forall g st regs x g' st' regs', sbefore x st -> Forall (rbefore x) regs ->
  StronglySorted Z.lt (map b_tick bars) -> Forall (fun b => x <= b_tick b) bars ->
  rr_loop g st regs bars = Ret (Ok (g', st', regs')) ->
  sbefore (last (map b_tick bars) x) st' /\ Forall (rbefore (last (map b_tick bars) x)) regs'.
Proof.
  induction bars as [|b bars IH]; intros g st regs x g' st' regs' S R SS F E; cbn [rr_loop] in E.
  - apply ret_inj in E. injection E as _ <- <-. auto.
  - destruct (on_bar b g) as [g1|]; [|discriminate]. apply bind_ret in E as ([[st1 new]|] & E1 & E2); [|discriminate].
    inversion F; subst. inversion SS as [|? ? SS1 SS2]; subst.
    destruct (step_before _ b st st1 new x S ltac:(assumption) E1) as [A B].
    destruct (IH g1 st1 (regs ++ new) (b_tick b) g' st' regs') as [C D]; auto.
    + apply Forall_app. split; [|exact B]. eapply Forall_impl; [|exact R]. intros r. apply rbefore_mono. assumption.
    + rewrite Forall_forall in SS2. apply Forall_forall. intros y I. specialize (SS2 (b_tick y) (in_map b_tick _ _ I)). lia.
    + cbn [map]. replace (last (b_tick b :: map b_tick bars) x) with (last (map b_tick bars) (b_tick b)); [auto|].
      clear. destruct bars as [|y l]; [reflexivity|]. cbn [map]. generalize (b_tick y) (map b_tick l). intros z m. cbn [last].
      revert z. induction m as [|w m IH]; intros z; [reflexivity|]. cbn. apply IH.
Qed.

(** The region that is open after the bar at [x]. *)
Definition opens (st : rr_state) (x : Z) (r : region) : Prop :=
  match st with
  | SIdle => exists e, x < e /\ (r = RSeq (0, e) \/ r = RRepeat (0, e) \/ exists v vs, r = RVar (0, e) (v :: vs))
  | SSeq s => exists e, x < e /\ r = RSeq (s, e)
  | SRepeat s => exists e, x < e /\ (r = RRepeat (s, e) \/ exists v vs, r = RVar (s, e) (v :: vs))
  | SVariation s l =>
      match l with
      | [] => False
      | t :: l' => exists more e, x < e /\ Forall (fun y => x < y) more /\ r = RVar (s, t) (variation_ranges t (l' ++ more) e)
      end
  end.
(** A repeat that is open has no jump inside; one that was not opened ends with the first mark. *)
Definition jumps_outside (st : rr_state) (r : region) (bars : list bar) : Prop :=
  forall s e, r = RRepeat (s, e) ->
    match st with
    | SRepeat _ => Forall (fun b => no_jump b \/ e <= b_tick b) bars
    | SIdle => exists mid z post, bars = mid ++ z :: post /\ idle mid /\ has z End = true /\ b_tick z = e
    | _ => True
    end.

Lemma loop_opens bars : forall g st regs x c w g' st' regs', sbefore x st -> x < u32_max ->
  StronglySorted Z.lt (map b_tick bars) -> Forall (fun b => x < b_tick b) bars -> Forall (fun b => b_tick b < u32_max) bars ->
  rr_loop g st regs bars = Ret (Ok (g', st', regs')) -> rr_finish g' st' regs' = Ret (Ok (c, w)) ->
  exists r rest, cp_regions c = regs ++ r :: rest /\ opens st x r /\ jumps_outside st r bars.
Proof.
  induction bars as [|b bars IH]; intros g st regs x c w g' st' regs' S M SS F B E FI; cbn [rr_loop] in E.
  - apply ret_inj in E. injection E as <- <- <-. unfold rr_finish in FI.
    assert (G : forall s, (let! r := gb_build g in Ret match r with Ok (gr, w0) => Ok (mkCompound gr (regs ++ [RSeq (s, u32_max)]), w0) | Err e => Err e end) = Ret (Ok (c, w)) ->
      cp_regions c = regs ++ [RSeq (s, u32_max)]).
    { intros s H. apply bind_ret in H as ([[gr w0]|e] & _ & H); inv H. reflexivity. }
    destruct st as [|s|s|s l]; try discriminate.
    + eexists. exists []. split; [apply (G _ FI)|]. split; [exists u32_max; auto|]. intros ? ? X. discriminate.
    + eexists. exists []. split; [apply (G _ FI)|]. split; [exists u32_max; auto|]. intros ? ? X. discriminate.
    + apply bind_ret in FI as (? & _ & FI). discriminate.
  - destruct (on_bar b g) as [g1|]; [|discriminate]. apply bind_ret in E as ([[st1 new]|] & E1 & E2); [|discriminate].
    inversion F as [|? ? F1 F2]; subst. inversion B as [|? ? B1 B2]; subst. inversion SS as [|? ? SS1 SS2]; subst.
    assert (SORT : Forall (fun y => b_tick b < b_tick y) bars).
    { rewrite Forall_forall in SS2. apply Forall_forall. intros y I. exact (SS2 (b_tick y) (in_map b_tick _ _ I)). }
    assert (REST : forall r, new = [r] -> opens st x r -> jumps_outside st r (b :: bars) ->
      exists r' rest, cp_regions c = regs ++ r' :: rest /\ opens st x r' /\ jumps_outside st r' (b :: bars)).
    { intros r N O J. subst new.
      assert (P : exists rest, cp_regions c = (regs ++ [r]) ++ rest).
      { clear - E2 FI. revert E2. generalize (regs ++ [r]) as l. intros l E2. 
        assert (H : forall bars g st l g' st' regs', rr_loop g st l bars = Ret (Ok (g', st', regs')) -> exists m, regs' = l ++ m).
        { clear. induction bars as [|b bars IH]; intros g st l g' st' regs' E; cbn [rr_loop] in E.
          - apply ret_inj in E. injection E as _ _ <-. exists []. rewrite app_nil_r. reflexivity.
          - destruct (on_bar b g) as [g1|]; [|discriminate]. apply bind_ret in E as ([[st1 new]|] & E1 & E2); [|discriminate].
            destruct (IH _ _ _ _ _ _ E2) as (m & ->). exists (new ++ m). apply app_assoc_reverse. }
        destruct (H _ _ _ _ _ _ _ E2) as (m & ->). unfold rr_finish in FI.
        destruct st' as [|s|s|s k]; try discriminate; [| |apply bind_ret in FI as (? & _ & FI); discriminate];
          (apply bind_ret in FI as ([[gr w0]|e] & _ & FI); inv FI; cbn [cp_regions]; eexists; rewrite <- app_assoc; reflexivity). }
      destruct P as (rest & P). exists r, rest. split; [rewrite P, <- app_assoc; reflexivity|]. auto. }
    assert (GO : forall st2, st1 = st2 -> new = [] -> sbefore x st2 -> 
      exists r rest, cp_regions c = regs ++ r :: rest /\ opens st2 x r /\ jumps_outside st2 r bars).
    { intros st2 <- -> S2. destruct (IH g1 st1 (regs ++ []) x c w g' st' regs' S2 M SS1 F2 B2 E2 FI) as (r & rest & A1 & A2 & A3).
      rewrite app_nil_r in A1. eauto. }
    assert (GO1 : forall st2, st1 = st2 -> new = [] -> sbefore (b_tick b) st2 ->
      exists r rest, cp_regions c = regs ++ r :: rest /\ opens st2 (b_tick b) r /\ jumps_outside st2 r bars).
    { intros st2 <- -> S2. destruct (IH g1 st1 (regs ++ []) (b_tick b) c w g' st' regs' S2 B1 SS1 SORT B2 E2 FI) as (r & rest & A1 & A2 & A3).
      rewrite app_nil_r in A1. eauto. }
    assert (LATER : forall e, e = b_tick b -> Forall (fun y => no_jump y \/ e <= b_tick y) bars).
    { intros e ->. eapply Forall_impl; [|exact SORT]. cbn. intros; right; lia. }
    destruct st as [|s|s|s l]; cbn [rr_step] in E1; cbn [sbefore] in S.
    + destruct (has b Start && has b End) eqn:HSE.
      { apply andb_true_iff in HSE. inv E1. eapply REST; [reflexivity|exists (b_tick b); auto|]. intros s e X. inv X. exists [], b, bars. repeat split; [constructor|apply HSE]. }
      destruct (has b End) eqn:HE.
      { inv E1. eapply REST; [reflexivity|exists (b_tick b); auto|]. intros s e X. inv X. exists [], b, bars. repeat split; [constructor|exact HE]. }
      destruct (has b Start) eqn:HS; [inv E1; eapply REST; [reflexivity|exists (b_tick b); auto|intros ? ? X; discriminate]|].
      destruct (region_index (b_marks b)) as [i|] eqn:RI.
      * destruct i; inv E1. destruct (GO1 _ eq_refl eq_refl) as (r & rest & A1 & A2 & A3); [cbn; split; [lia|]; split; [discriminate|repeat constructor; lia]|].
        exists r, rest. split; [exact A1|]. cbn in A2. destruct A2 as (more & e & _ & _ & ->). split; [|intros ? ? X; discriminate].
        destruct more as [|z more]; cbn [app variation_ranges]; exists (b_tick b); (split; [exact F1|]); eauto.
      * inv E1. destruct (GO _ eq_refl eq_refl S) as (r & rest & A1 & A2 & A3). exists r, rest. split; [exact A1|]. split; [exact A2|].
        intros s e X. destruct (A3 s e X) as (mid & z & post & -> & I & Z1 & Z2). exists (b :: mid), z, post. repeat split; auto. constructor; [|exact I].
        split; [split; assumption|]. apply index_none. exact RI.
    + destruct (has b End); [discriminate|]. destruct (has b Start).
      * inv E1. eapply REST; [reflexivity|exists (b_tick b); auto|intros ? ? X; discriminate].
      * inv E1. destruct (GO _ eq_refl eq_refl S) as (r & rest & A1 & A2 & A3). exists r, rest. split; [exact A1|]. split; [exact A2|]. intros ? ? X; exact Logic.I.
    + assert (CL : forall s0, jumps_outside (SRepeat s) (RRepeat (s0, b_tick b)) (b :: bars)).
      { intros s0 ? e X. inv X. constructor; [right; lia|]. apply LATER. reflexivity. }
      destruct (has b Start && has b End); [inv E1; eapply REST; [reflexivity|exists (b_tick b); auto|apply CL]|].
      destruct (has b End); [inv E1; eapply REST; [reflexivity|exists (b_tick b); auto|apply CL]|].
      destruct (has b Start); [discriminate|]. destruct (has b Dc || has b Ds) eqn:JU; [discriminate|]. apply orb_false_iff in JU.
      destruct (region_index (b_marks b)) as [i|].
      * destruct i; inv E1. destruct (GO1 _ eq_refl eq_refl) as (r & rest & A1 & A2 & A3); [cbn; split; [lia|]; split; [discriminate|repeat constructor; lia]|].
        exists r, rest. split; [exact A1|]. cbn in A2. destruct A2 as (more & e & _ & _ & ->). split; [|intros ? ? X; discriminate].
        destruct more as [|z more]; cbn [app variation_ranges]; exists (b_tick b); (split; [exact F1|]); eauto.
      * inv E1. destruct (GO _ eq_refl eq_refl S) as (r & rest & A1 & A2 & A3). exists r, rest. split; [exact A1|]. split; [exact A2|].
        intros s2 e X2. constructor; [left; exact JU|]. exact (A3 s2 e X2).
    + destruct S as (S1 & S2 & S3). destruct l as [|t l]; [congruence|].
      assert (F3 : Forall (fun t => t <= b_tick b) (t :: l)) by (eapply Forall_impl; [|exact S3]; cbn; intros; lia).
      destruct (has b End); [discriminate|]. destruct (region_index (b_marks b)) as [i|].
      * destruct (_ || _); [discriminate|]. destruct (_ =? _).
        -- inv E1. destruct (GO _ eq_refl eq_refl (conj S1 (conj S2 S3))) as (r & rest & A1 & A2 & A3). exists r, rest. split; [exact A1|]. split; [exact A2|]. intros ? ? X; exact Logic.I.
        -- apply bind_ret in E1 as (nx & _ & E1). destruct (_ =? _).
           ++ inv E1. destruct (GO1 _ eq_refl eq_refl) as (r & rest & A1 & A2 & A3).
              { cbn. split; [lia|]. split; [discriminate|]. inversion F3; subst. constructor; [assumption|]. apply Forall_app. split; [assumption|]. repeat constructor. lia. }
              exists r, rest. split; [exact A1|]. cbn in A2. destruct A2 as (more & e & L1 & L2 & ->). split; [|intros ? ? X; discriminate].
              exists (b_tick b :: more), e. split; [lia|]. split; [constructor; [lia|]; eapply Forall_impl; [|exact L2]; cbn; intros; lia|].
              rewrite <- app_assoc. reflexivity.
           ++ apply bind_ret in E1 as (? & _ & E1). discriminate.
      * apply bind_ret in E1 as (f & _ & E1). apply bind_ret in E1 as (fi & _ & E1).
        destruct (match gb_segno g1 with Some _ => _ | None => _ end); [discriminate|].
        apply bind_ret in E1 as (r & R & E1). apply ret_inj in E1. inv E1. cbn in R. apply ret_inj in R. subst r.
        eapply REST; [reflexivity| |intros ? ? X; discriminate]. exists [], (b_tick b). split; [exact F1|]. split; [constructor|]. rewrite app_nil_r. reflexivity.
Qed.

(** What is heard of the open region before [x]. *)
Definition head_of (st : rr_state) (x : Z) : list Z :=
  match st with
  | SIdle => from_to 0 x
  | SSeq s | SRepeat s => from_to s x
  | SVariation s [] => []
  | SVariation s (t :: l) => flat_map (fun v => from_to s t ++ from_to (fst v) (snd v)) (variation_ranges t l x)
  end.

Definition plays (r : region) : list Z :=
  match r with
  | RSeq (s, e) => from_to s e
  | RRepeat (s, e) => from_to s e ++ from_to s e
  | RVar (s, t) vs => flat_map (fun p => from_to s t ++ from_to (fst p) (snd p)) vs
  end.
(** The first pass, up to a jump behind [x]. *)
Definition first_pass (x : Z) (p : phase) : Prop := match p with NonDcDs => True | DcDsIter0 d => x < d | DcDsIter1 _ => False end.

Lemma plays_before x r : rbefore x r -> ~ In x (plays r).
Proof.
  destruct r as [[s e]|[s e]|[s t] vs]; cbn.
  - rewrite from_to_In. lia.
  - rewrite in_app_iff, from_to_In. lia.
  - intros (A & B & C). rewrite in_flat_map. intros ([a b] & I & J). rewrite Forall_forall in C. specialize (C _ I). cbn in *.
    rewrite in_app_iff, !from_to_In in J. lia.
Qed.
Lemma render_before x p r l : first_pass x p -> rbefore x r -> render_chunks p r = Ret l -> performance l = plays r.
Proof.
  intros FP B E. destruct r as [[s e]|[s e]|[s t] vs], p as [|d|]; cbn in FP, B |- *; try tauto; cbn [render_chunks] in E.
  - inv E. cbn. rewrite app_nil_r. reflexivity.
  - destruct (Z.leb_spec e d); [|lia]. inv E. cbn. rewrite app_nil_r. reflexivity.
  - inv E. cbn. rewrite app_nil_r. reflexivity.
  - destruct (Z.leb_spec e d); [|lia]. inv E. cbn. rewrite app_nil_r. reflexivity.
  - inv E. apply full_perf.
  - cbn [fst] in E. destruct (Z.leb_spec d s); [lia|]. apply bind_ret in E as (v & _ & E). destruct (d <? snd v); [discriminate|]. inv E. apply full_perf.
Qed.
Lemma until_full x s e : s <= x < e -> until x (from_to s e) = from_to s x.
Proof. intros H. rewrite <- (app_nil_r (from_to s e)). apply until_in. exact H. Qed.

Lemma until_ranges x s t1 : t1 <= x -> forall l t more e, t <= x -> Forall (fun y => y <= x) l -> Forall (fun y => x < y) more -> x < e ->
  until x (flat_map (fun v => from_to s t1 ++ from_to (fst v) (snd v)) (variation_ranges t (l ++ more) e)) =
    flat_map (fun v => from_to s t1 ++ from_to (fst v) (snd v)) (variation_ranges t l x) /\
  In x (flat_map (fun v => from_to s t1 ++ from_to (fst v) (snd v)) (variation_ranges t (l ++ more) e)).
Proof.
  intros L1. induction l as [|y l IH]; intros t more e T F M E.
  - cbn [app variation_ranges flat_map fst snd]. rewrite app_nil_r.
    assert (H : exists z r, variation_ranges t more e = (t, z) :: r /\ x < z).
    { destruct more as [|z more]; [exists e, []; auto|]. inversion M; subst. cbn. eauto. }
    destruct H as (z & r & -> & Z1). cbn [flat_map fst snd]. split.
    + rewrite <- app_assoc, until_app by (rewrite from_to_In; lia). f_equal. apply until_in. lia.
    + rewrite !in_app_iff, !from_to_In. left. right. lia.
  - inversion F as [|? ? F1 F2]; subst. cbn [app variation_ranges flat_map fst snd].
    destruct (IH y more e F1 F2 M E) as [A B]. split.
    + rewrite until_app; [f_equal; exact A|]. rewrite in_app_iff, !from_to_In. lia.
    + rewrite in_app_iff. right. exact B.
Qed.

Lemma render_open x st p r l : first_pass x p -> sbefore x st -> opens st x r -> render_chunks p r = Ret l ->
  (forall d s e, p = DcDsIter0 d -> r = RRepeat (s, e) -> e <= d) ->
  until x (performance l) = head_of st x /\ In x (performance l).
Proof.
  intros FP SB O E J.
  assert (SEQ : forall s e, 0 <= s <= x -> x < e -> r = RSeq (s, e) -> until x (performance l) = from_to s x /\ In x (performance l)).
  { intros s e S1 X ->. destruct p as [|d|]; cbn in FP; try tauto; cbn [render_chunks] in E.
    - inv E. cbn [performance flat_map range_chunk ck_start ck_end fst snd]. rewrite app_nil_r. split; [apply until_full; lia|apply from_to_In; lia].
    - assert (H : exists z, l = [mkChunk s z] /\ x < z).
      { destruct (Z.leb_spec e d); [inv E; eauto|]. destruct (Z.ltb_spec s d); [|lia]. destruct (Z.ltb_spec d e); [|lia]. inv E. eauto. }
      destruct H as (z & -> & Z1). cbn [performance flat_map ck_start ck_end]. rewrite app_nil_r. split; [apply until_full; lia|apply from_to_In; lia]. }
  assert (REP : forall s e, 0 <= s <= x -> x < e -> r = RRepeat (s, e) -> until x (performance l) = from_to s x /\ In x (performance l)).
  { intros s e S1 X ->. assert (H : l = [mkChunk s e; mkChunk s e]).
    { destruct p as [|d|]; cbn in FP; try tauto; cbn [render_chunks] in E; [inv E; reflexivity|].
      pose proof (J d s e eq_refl eq_refl). destruct (Z.leb_spec e d); [|lia]. inv E. reflexivity. }
    subst l. cbn [performance flat_map ck_start ck_end]. split; [apply until_in; lia|rewrite in_app_iff, from_to_In; lia]. }
  assert (VAR : forall s t vs, 0 <= s <= x -> r = RVar (s, t) vs -> performance l = flat_map (fun v => from_to s t ++ from_to (fst v) (snd v)) vs).
  { intros s t vs S1 ->. destruct p as [|d|]; cbn in FP; try tauto; cbn [render_chunks fst] in E.
    - inv E. apply full_perf.
    - destruct (Z.leb_spec d s); [lia|]. apply bind_ret in E as (v & V & E). destruct (d <? snd v); [discriminate|]. inv E. apply full_perf. }
  destruct st as [|s|s|s [|t k]]; cbn [opens sbefore head_of] in *; try tauto.
  - destruct O as (e & X & [O|[O|(v & vs & O)]]).
    + apply (SEQ 0 e); auto. lia.
    + apply (REP 0 e); auto. lia.
    + rewrite (VAR 0 e (v :: vs) ltac:(lia) O). cbn [flat_map]. split; [rewrite <- !app_assoc; apply until_in; lia|]. rewrite !in_app_iff, !from_to_In. left. left. lia.
  - destruct O as (e & X & O). apply (SEQ s e); auto.
  - destruct O as (e & X & [O|(v & vs & O)]).
    + apply (REP s e); auto.
    + rewrite (VAR s e (v :: vs) ltac:(lia) O). cbn [flat_map]. split; [rewrite <- !app_assoc; apply until_in; lia|]. rewrite !in_app_iff, !from_to_In. left. left. lia.
  - destruct O as (more & e & X & MO & O). destruct SB as (S1 & _ & S3). inversion S3; subst.
    rewrite (VAR s t _ S1 eq_refl). apply until_ranges; auto.
Qed.

(** ** Where the jump is *)
Lemma on_bar_jump b g g' : on_bar b g = Ok g' ->
  gb_ds_dc g' = gb_ds_dc g \/ ~ no_jump b /\ exists j, gb_ds_dc g' = Some j /\ ds_dc_tick j = b_tick b.
Proof.
  unfold on_bar, no_jump. assert (L : gb_ds_dc (on_bar_length b g) = gb_ds_dc g).
  { unfold on_bar_length. destruct (gb_first_bar_len g); [reflexivity|]. destruct (b_tick b =? 0); [|reflexivity]. destruct (b_rhythm b); reflexivity. }
  rewrite <- L. generalize (on_bar_length b g). clear. intros g E.
  assert (K : forall h h', and_then (if has b Fine then adding_fine (b_tick b) h else Ok h) (fun g =>
    and_then (if has b Segno then adding_segno (b_tick b) g else Ok g) (fun g => if has b Coda then adding_coda (b_tick b) g else Ok g)) = Ok h' -> gb_ds_dc h' = gb_ds_dc h).
  { clear. intros h h' E. unfold and_then, adding_fine, adding_segno, adding_coda in E.
    repeat match type of E with
    | context [match ?x with _ => _ end] => match x with context [match _ with _ => _ end] => fail 1 | _ => destruct x eqn:?; cbn in E end
    end; try discriminate; inv E; cbn in *; try congruence; reflexivity. }
  unfold and_then at 1 2 in E. unfold adding_ds_dc in E.
  destruct (has b Dc) eqn:D, (has b Ds) eqn:S; destruct (gb_ds_dc g) as [p|] eqn:G; cbn [gb_ds_dc] in E; try discriminate;
    apply K in E; cbn [gb_ds_dc] in E.
  all: try (left; congruence).
  all: right; split; [intros [? ?]; congruence|eexists; split; [exact E|reflexivity]].
Qed.
Lemma loop_jump bars : forall g st regs g' st' regs', rr_loop g st regs bars = Ret (Ok (g', st', regs')) ->
  gb_ds_dc g' = gb_ds_dc g \/ exists y j, In y bars /\ ~ no_jump y /\ gb_ds_dc g' = Some j /\ ds_dc_tick j = b_tick y.
Proof.
  induction bars as [|b bars IH]; intros g st regs g' st' regs' E; cbn [rr_loop] in E.
  - apply ret_inj in E. injection E as <- _ _. auto.
  - destruct (on_bar b g) as [g1|] eqn:O; [|discriminate]. apply bind_ret in E as ([[st1 new]|] & E1 & E2); [|discriminate].
    destruct (IH _ _ _ _ _ _ E2) as [A|(y & j & A & B & C & D)].
    + destruct (on_bar_jump _ _ _ O) as [Q|(N & j & Q & T)]; [left; congruence|]. right. exists b, j. split; [left; reflexivity|]. split; [exact N|]. split; [congruence|exact T].
    + right. exists y, j. split; [right; exact A|]. auto.
Qed.
Lemma build_ds_dc g gr w : gb_build g = Ret (Ok (Some gr, w)) -> gb_ds_dc g = Some (gr_ds_dc gr).
Proof.
  unfold gb_build. intros E. destruct (gb_ds_dc g) as [[t len|t]|]; [| |discriminate].
  - destruct (gb_first_bar_len g); [|discriminate]. apply bind_ret in E as ([s w0] & _ & E).
    destruct (match gb_coda g with None => _ | Some _ => _ end) as [[cd w1]|e]; [|discriminate].
    apply bind_ret in E as (x & _ & E). inv E. reflexivity.
  - destruct (gb_segno g); [|discriminate].
    destruct (match gb_coda g with None => _ | Some _ => _ end) as [cd|e]; [|discriminate].
    apply bind_ret in E as (x & _ & E). inv E. reflexivity.
Qed.

Lemma step_idle sg b st new : rr_step sg b st = Ret (Ok (SIdle, new)) -> st = SIdle /\ no_repeat b /\ no_var b.
Proof.
  unfold no_repeat. destruct st as [|s|s|s l]; cbn [rr_step]; intros E.
  - destruct (has b Start && has b End); [discriminate|]. destruct (has b End); [discriminate|]. destruct (has b Start); [discriminate|].
    destruct (region_index (b_marks b)) as [[]|] eqn:RI; try discriminate. apply index_none in RI. auto.
  - destruct (has b End); [discriminate|]. destruct (has b Start); discriminate.
  - destruct (has b Start && has b End); [discriminate|]. destruct (has b End); [discriminate|]. destruct (has b Start); [discriminate|].
    destruct (has b Dc || has b Ds); [discriminate|]. destruct (region_index (b_marks b)) as [[]|]; discriminate.
  - destruct (has b End); [discriminate|]. destruct (region_index (b_marks b)) as [i|].
    + destruct (_ || _); [discriminate|]. destruct (_ =? _); [discriminate|]. apply bind_ret in E as (nx & _ & E). destruct (_ =? _); [discriminate|].
      apply bind_ret in E as (? & _ & E). discriminate.
    + apply bind_ret in E as (f & _ & E). apply bind_ret in E as (fi & _ & E).
      destruct (match sg with Some _ => _ | None => _ end); [discriminate|].
      apply bind_ret in E as (r & R & E). destruct (has b Start); discriminate.
Qed.
Lemma loop_idle bars : forall g st regs g' regs', rr_loop g st regs bars = Ret (Ok (g', SIdle, regs')) -> st = SIdle /\ idle bars.
Proof.
  induction bars as [|b bars IH]; intros g st regs g' regs' E; cbn [rr_loop] in E.
  - apply ret_inj in E. injection E as _ -> _. split; [reflexivity|constructor].
  - destruct (on_bar b g) as [g1|]; [|discriminate]. apply bind_ret in E as ([[st1 new]|] & E1 & E2); [|discriminate].
    destruct (IH _ _ _ _ _ E2) as [-> I]. apply step_idle in E1 as (-> & E1). split; [reflexivity|]. constructor; assumption.
Qed.

Lemma mapM_before x p regs r rest : forall ls, first_pass x p -> Forall (rbefore x) regs ->
  omapM (render_chunks p) (regs ++ r :: rest) = Ret ls -> exists m l more,
  ls = m ++ l :: more /\ render_chunks p r = Ret l /\ performance (concat m) = flat_map plays regs.
Proof.
  induction regs as [|q regs IH]; intros ls FP B E; cbn [app omapM] in E; apply bind_ret in E as (l & E1 & E); apply bind_ret in E as (more & E2 & E); apply ret_inj in E; subst ls.
  - exists [], l, more. auto.
  - inversion B; subst. destruct (IH _ FP ltac:(assumption) E2) as (m & l' & more' & -> & R & P). exists (l :: m), l', more'. split; [reflexivity|]. split; [exact R|].
    cbn [concat flat_map]. unfold performance in *. rewrite flat_map_app, P. f_equal. apply (render_before x p); auto.
Qed.

Lemma sorted_split a : forall b, StronglySorted Z.lt (a ++ b) -> StronglySorted Z.lt a /\ StronglySorted Z.lt b /\ forall x y, In x a -> In y b -> x < y.
Proof.
  induction a as [|x a IH]; intros b S; cbn [app] in S.
  - split; [constructor|]. split; [exact S|]. intros ? ? [].
  - inversion S as [|? ? S1 S2]; subst. destruct (IH b S1) as (A & B & C). apply Forall_app in S2 as [S2 S3]. split; [constructor; assumption|]. split; [exact B|].
    intros u v [<-|I] V; [|auto]. rewrite Forall_forall in S3. auto.
Qed.
Lemma until_prefix x a : forall b, In x a -> until x (a ++ b) = until x a.
Proof.
  induction a as [|y a IH]; intros b I; [destruct I|]. cbn [app until]. destruct (Z.eqb_spec y x); [reflexivity|]. f_equal. apply IH. destruct I; [contradiction|assumption].
Qed.

Lemma heard_prefix r a b c k w cs g st regs : tune (a ++ b :: c) -> Forall no_jump (a ++ [b]) -> implicit_clear (a ++ b :: c) ->
  rr_loop (gb_new r) SIdle [] (a ++ [b]) = Ret (Ok (g, st, regs)) ->
  render_region r (a ++ b :: c) = Ret (Ok (k, w)) -> to_chunks k = Ret cs ->
  until (b_tick b) (performance cs) = flat_map plays regs ++ head_of st (b_tick b) /\ In (b_tick b) (performance cs).
Proof.
  intros T NJ IC L R TC. set (x := b_tick b). change (a ++ b :: c) with (a ++ [b] ++ c) in *. rewrite app_assoc in *.
  destruct T as [SS FB]. assert (SA := SS). rewrite map_app in SA. apply sorted_split in SA as (SA & SC & SAC).
  assert (LAST : forall z, last (map b_tick (a ++ [b])) z = x) by (intros z; rewrite map_app; apply last_last).
  assert (BX : Forall (fun y => x < b_tick y) c).
  { apply Forall_forall. intros y I. apply SAC; [|apply in_map; exact I]. rewrite map_app, in_app_iff. right. left. reflexivity. }
  apply Forall_app in FB as (FA & FC). 
  assert (X : 0 <= x < u32_max) by (rewrite Forall_forall in FA; apply FA; rewrite in_app_iff; right; left; reflexivity).
  destruct (loop_before (a ++ [b]) (gb_new r) SIdle [] 0 g st regs) as [SB RB]; auto; [cbn; lia|eapply Forall_impl; [|exact FA]; cbn; intros; lia|]. rewrite LAST in SB, RB.
  unfold render_region in R. rewrite loop_app, L in R. cbn [bind] in R. apply bind_ret in R as ([[[g' st'] regs']|e] & R1 & R2); [|discriminate].
  destruct (loop_opens c g st regs x k w g' st' regs') as (r0 & rest & C & O & J); auto; [lia|eapply Forall_impl; [|exact FC]; cbn; intros; lia|].
  destruct (finish_closing _ _ _ _ R2) as (s & gr & w' & _ & GB & K). injection K as -> ->.
  assert (JUMP : forall gg, gr = Some gg -> exists y, In y c /\ ~ no_jump y /\ ds_dc_tick (gr_ds_dc gg) = b_tick y).
  { intros gg ->. apply build_ds_dc in GB. destruct (loop_jump _ _ _ _ _ _ _ L) as [Q|(y & j & I & N & _)].
    - destruct (loop_jump _ _ _ _ _ _ _ R1) as [Q'|(y & j & I & N & Q' & T)].
      + rewrite Q' in GB. rewrite Q in GB. discriminate.
      + exists y. split; [exact I|]. split; [exact N|]. congruence.
    - exfalso. apply N. rewrite Forall_forall in NJ. auto. }
  assert (FIN : forall p ls rest', first_pass x p -> (forall d s e, p = DcDsIter0 d -> r0 = RRepeat (s, e) -> e <= d) ->
    omapM (render_chunks p) (regs ++ r0 :: rest) = Ret ls ->
    until x (performance (concat ls ++ rest')) = flat_map plays regs ++ head_of st x /\ In x (performance (concat ls ++ rest'))).
  { intros p ls rest' FP JJ E. destruct (mapM_before x p regs r0 rest ls FP RB E) as (m & l & more & -> & RC & P).
    destruct (render_open x st p r0 l FP SB O RC JJ) as [U I].
    rewrite concat_app. cbn [concat]. unfold performance in *. rewrite !flat_map_app, P. rewrite <- !app_assoc.
    assert (N : ~ In x (flat_map plays regs)).
    { rewrite in_flat_map. intros (q & Q & Y). rewrite Forall_forall in RB. exact (plays_before x q (RB q Q) Y). }
    split.
    - rewrite until_app by exact N. f_equal. rewrite <- U. apply until_prefix. exact I.
    - rewrite !in_app_iff. auto. }
  unfold to_chunks in TC. cbn [cp_global cp_regions] in *. destruct gr as [gg|].
  - apply bind_ret in TC as (l1 & T1 & TC). apply bind_ret in TC as (l2 & T2 & TC). apply ret_inj in TC. subst cs. rewrite C in T1.
    destruct (JUMP gg eq_refl) as (y & IY & NY & TY). apply (FIN (DcDsIter0 (ds_dc_tick (gr_ds_dc gg))) l1 (concat l2)); [| |exact T1].
    + cbn. rewrite TY. rewrite Forall_forall in BX. auto.
    + intros d s1 e D RE. injection D as <-. rewrite TY. specialize (J s1 e RE). destruct st as [|s2|s2|s2 l].
      * destruct J as (mid & z & post & -> & I & ZE & ZT). destruct (Z.le_gt_cases e (b_tick y)) as [|GT]; [assumption|exfalso].
        rewrite !in_app_iff in IY. assert (IM : In y mid).
        { destruct IY as [IY|IY]; [exact IY|]. exfalso. rewrite map_app in SC. apply sorted_split in SC as (_ & SZ & _). cbn in IY. destruct IY as [<-|IY]; [lia|].
          inversion SZ as [|? ? _ SZ2]; subst. rewrite Forall_forall in SZ2. specialize (SZ2 (b_tick y) (in_map _ _ _ IY)). lia. }
        apply in_split in IM as (m1 & m2 & ->). apply loop_idle in L as [_ IDL].
        destruct (IC ((a ++ [b]) ++ m1) y m2 z post) as [_ HE]; [rewrite <- !app_assoc; reflexivity|exact NY| | |congruence].
        -- rewrite <- app_assoc. apply Forall_app. split; [exact IDL|exact I].
        -- intros [[_ NE] _]. congruence.
      * cbn in O. destruct O as (e' & _ & O). congruence.
      * rewrite Forall_forall in J. destruct (J y IY); [contradiction|assumption].
      * cbn in O. destruct l as [|t l]; [tauto|]. destruct O as (more & e' & _ & _ & O). congruence.
  - apply bind_ret in TC as (l1 & T1 & TC). apply ret_inj in TC. subst cs. rewrite C in T1. rewrite <- (app_nil_r (concat l1)).
    apply (FIN NonDcDs l1 []); [exact Logic.I| |exact T1]. intros; discriminate.
Qed.
