(** Lemmas about what is played. *)
From Coq Require Import Sorted Permutation.
From Verif Require Import P_Base M_Duration M_Scalar M_Bar M_Store M_Repeat S_Note S_Repeat P_Marks P_Chunk P_Machine P_Errors.
Import ListNotations.
Open Scope Z_scope.
#[local] Hint Constructors Forall : core.

(** ** Sections follow each other in time *)
Definition starts_in (lo e : Z) (sec : section) : Prop :=
  match sec with
  | Varied _ vs => starts_of vs <> [] /\ StronglySorted Z.lt (starts_of vs) /\ Forall (fun t => lo <= t < e) (starts_of vs)
  | _ => True
  end.
Fixpoint chain (s lo : Z) (l : list (Z * section * Z)) : Prop :=
  match l with
  | [] => s = u32_max
  | (a, sec, e) :: l' =>
      a = s /\ s <= lo /\ lo <= e <= u32_max /\ starts_in lo e sec /\ match l' with [] => is_plain sec = true | _ => e < u32_max end /\ chain e (e + 1) l'
  end.

Definition marked_bar (b : bar) : Prop := ~ (no_repeat b /\ no_var b).

Lemma numbered_starts k vs t : numbered k vs -> In t (starts_of vs) -> exists b, In b (concat vs) /\ b_tick b = t /\ exists k, 1 <= k /\ carries k b \/ True.
Proof.
  intros _ H. unfold starts_of in H. apply in_flat_map in H. destruct H as [v [V H]]. destruct v as [|b v]; [destruct H|]. destruct H as [<-|[]].
  exists b. split; [|split; [reflexivity|exists 0; auto]]. apply in_concat. exists (b :: v). cbn. auto.
Qed.
Lemma starts_marked vs : forall k, numbered k vs -> 1 <= k -> k + Z.of_nat (length vs) <= 5 ->
  forall t, In t (starts_of vs) -> exists b, In b (concat vs) /\ b_tick b = t /\ marked_bar b.
Proof.
  induction vs as [|v vs IH]; intros k N K L t H; [destruct H|]. destruct N as [NE [C [_ [_ N]]]]. cbn [starts_of flat_map] in H. cbn [length] in L.
  destruct v as [|b v]; [congruence|]. destruct H as [<-|H].
  - exists b. cbn. split; [auto|]. split; [reflexivity|]. intros [_ NV]. inversion C as [|? ? C1 _]; subst.
    destruct (var_no_exists k) as [i I]; [lia|]. rewrite <- I in C1. apply carries_index in C1. apply index_none in NV. congruence.
  - destruct (IH (k + 1) N) with (t := t) as [b' [B1 [B2 B3]]]; [lia|lia|exact H|]. exists b'. cbn [concat]. rewrite in_app_iff. auto.
Qed.
Lemma starts_sorted vs : forall k, numbered k vs -> StronglySorted Z.lt (map b_tick (concat vs)) -> StronglySorted Z.lt (starts_of vs).
Proof.
  induction vs as [|v vs IH]; intros k N S; [constructor|]. destruct N as [NE [_ [_ [_ N]]]]. destruct v as [|b v]; [congruence|].
  cbn [concat starts_of flat_map app map] in *. inversion S as [|? ? S1 F]; subst. constructor.
  - eapply IH; eauto. rewrite map_app in S1. clear - S1. induction (map b_tick v); auto. inversion S1; auto.
  - apply Forall_forall. intros t H. destruct (numbered_starts (k + 1) vs t N H) as [b' [B1 [<- _]]].
    rewrite Forall_forall in F. apply F. rewrite map_app, in_app_iff. right. apply in_map. exact B1.
Qed.

Lemma tune_sorted a : tune a -> StronglySorted Z.lt (map b_tick a).
Proof. intros [S _]. exact S. Qed.

Lemma timed_chain rest : forall first s lo sec, s <= lo -> lo <= u32_max -> tune (section_bars sec ++ rest_bars rest) ->
  Forall (fun b => marked_bar b -> lo <= b_tick b) (section_bars sec ++ rest_bars rest) ->
  inside first sec -> follows sec rest -> chain s lo (timed s sec rest).
Proof.
  induction rest as [|[b c] rest IH]; intros first s lo sec SL LU T M I F.
  - cbn [follows] in F. destruct sec; try discriminate. cbn. split; [reflexivity|]. split; [lia|]. split; [lia|]. split; [exact Logic.I|]. split; reflexivity.
  - destruct F as [B [IC F]]. cbn [timed chain]. cbn [rest_bars flat_map fst snd] in T, M.
    assert (TB : 0 <= b_tick b < u32_max). { apply (tune_tick _ b T). rewrite in_app_iff. cbn. auto. }
    assert (T2 : tune (section_bars c ++ rest_bars rest)). { apply tune_app_r in T. apply (tune_app_r [b]) in T. exact T. }
    apply Forall_app in M. destruct M as [M1 M2]. inversion M2 as [|? ? Mb M3]; subst.
    assert (LATER : Forall (fun x => b_tick b + 1 <= b_tick x) (section_bars c ++ rest_bars rest)).
    { apply Forall_forall. intros x X. apply tune_app_r in T. pose proof (tune_lt [b] (section_bars c ++ rest_bars rest) b x T (or_introl eq_refl) X). lia. }
    assert (SI : starts_in lo (b_tick b) sec /\ lo <= b_tick b).
    { destruct B as [BE [BS [NV PP]]]. destruct sec as [l|l|cm vs]; cbn [starts_in].
      - split; [exact Logic.I|]. apply Mb. intros [[X1 X2] _]. cbn in PP. rewrite (PP eq_refl) in BS. cbn [negb] in BS. congruence.
      - split; [exact Logic.I|]. apply Mb. intros [[X1 X2] _]. cbn [is_repeated] in BE. congruence.
      - destruct I as [_ [_ [_ [N [NE L]]]]]. cbn [section_bars] in T, M1.
        assert (S0 : starts_of vs <> []) by (intros X; apply (starts_nil _ _ N) in X; contradiction).
        assert (FA : Forall (fun t => lo <= t < b_tick b) (starts_of vs)).
        { apply Forall_forall. intros t H. destruct (starts_marked vs 1 N ltac:(lia) ltac:(lia) t H) as [x [X1 [<- X3]]].
          rewrite Forall_forall in M1. split; [apply M1; auto; rewrite in_app_iff; auto|].
          apply (tune_lt _ _ x b T); [rewrite in_app_iff; auto|cbn; auto]. }
        split.
        + split; [exact S0|]. split; [|exact FA]. eapply starts_sorted; [exact N|]. apply tune_app_l, tune_app_r, tune_sorted in T. exact T.
        + destruct (starts_of vs) as [|t l]; [congruence|]. inversion FA; subst. lia. }
    destruct SI as [SI LB]. split; [reflexivity|]. split; [lia|]. split; [lia|]. split; [exact SI|]. split; [destruct rest as [|[? ?] ?]; cbn; lia|].
    apply (IH false); auto; try lia. eapply Forall_impl; [|exact LATER]. cbn. auto.
Qed.

(** ** Without jumps *)
Lemma full_perf s t vs : performance (variation_full (s, t) vs) = flat_map (fun p => from_to s t ++ from_to (fst p) (snd p)) vs.
Proof.
  unfold variation_full. induction vs as [|v vs IH]; [reflexivity|]. cbn [flat_map app]. rewrite !perf_cons, IH. cbn [range_chunk ck_start ck_end fst snd]. rewrite app_assoc. reflexivity.
Qed.

Definition plain_chunks (r : region) : list chunk :=
  match r with
  | RSeq r => [range_chunk r]
  | RRepeat r => [range_chunk r; range_chunk r]
  | RVar c vs => variation_full c vs
  end.
Lemma render_plain r : render_chunks NonDcDs r = Ret (plain_chunks r).
Proof. destruct r as [[]|[]|]; reflexivity. Qed.
Lemma chunks_plain l w : to_chunks (mkCompound None l) = w -> w = Ret (flat_map plain_chunks l).
Proof.
  intros <-. unfold to_chunks. cbn [cp_global cp_regions].
  assert (E : omapM (render_chunks NonDcDs) l = Ret (map plain_chunks l)).
  { induction l as [|r l IH]; [reflexivity|]. cbn [omapM map]. rewrite render_plain. cbn [bind]. rewrite IH. reflexivity. }
  rewrite E. cbn [bind]. rewrite flat_map_concat_map. reflexivity.
Qed.
Lemma plain_perf x : performance (plain_chunks (region_of x)) = play_section x.
Proof.
  destruct x as [[s sec] e]. destruct sec as [l|l|c vs]; cbn [region_of plain_chunks play_section].
  - rewrite perf_cons. cbn. rewrite app_nil_r. reflexivity.
  - rewrite !perf_cons. cbn. rewrite app_nil_r. reflexivity.
  - apply full_perf.
Qed.
Lemma plain_perf_all l : performance (flat_map plain_chunks (map region_of l)) = flat_map play_section l.
Proof. induction l as [|x l IH]; [reflexivity|]. cbn [map flat_map]. rewrite perf_app, plain_perf, IH. reflexivity. Qed.

Lemma spans_in l : forall lo e, StronglySorted Z.lt l -> Forall (fun t => lo <= t < e) l ->
  Forall (fun p => lo <= fst p /\ fst p < snd p <= e) (spans l e).
Proof.
  induction l as [|a l IH]; intros lo e S F; cbn [spans]; [constructor|]. inversion S as [|? ? S1 S2]; subst. inversion F as [|? ? F1 F2]; subst.
  constructor; [|apply IH; auto]. cbn [fst snd]. destruct l as [|b l]; cbn [hd]; [lia|]. inversion S2; subst. inversion F2; subst. lia.
Qed.

Lemma plain_in_time x s lo e : x = (s, snd (fst x), e) -> 0 <= s <= lo -> lo <= e -> starts_in lo e (snd (fst x)) ->
  Forall (fun c => in_time c /\ ck_end c <= e) (plain_chunks (region_of x)).
Proof.
  destruct x as [[s' sec] e']. cbn [fst snd]. intros X. inversion X; subst. intros S L SI. unfold in_time.
  destruct sec as [l|l|c vs]; cbn [region_of plain_chunks range_chunk fst snd].
  - constructor; auto. cbn. lia.
  - constructor; [cbn; lia|]. constructor; auto. cbn. lia.
  - destruct SI as [S0 [S1 S2]]. pose proof (spans_in _ _ _ S1 S2) as SP. unfold variation_full.
    assert (H0 : lo <= hd e (starts_of vs) <= e). { destruct (starts_of vs); [congruence|]. inversion S2; subst. cbn. lia. }
    induction SP as [|p l P SP IH]; [constructor|]. cbn [flat_map]. constructor; [cbn; lia|]. constructor; [cbn; lia|]. exact IH.
Qed.

Lemma plain_ends_last l : forall s lo, 0 <= s -> chain s lo l ->
  Forall in_time (flat_map plain_chunks (map region_of l)) /\ ends_last (flat_map plain_chunks (map region_of l)).
Proof.
  induction l as [|[[a sec] e] l IH]; intros s lo S0 C; [split; constructor|].
  destruct C as [-> [SL [LE [SI [NL C]]]]]. cbn [map flat_map].
  pose proof (plain_in_time (s, sec, e) s lo e eq_refl ltac:(lia) ltac:(lia) SI) as P.
  destruct (IH e (e + 1) ltac:(lia) C) as [IH1 IH2].
  split; [apply Forall_app; split; [|exact IH1]; eapply Forall_impl; [|exact P]; cbn; tauto|].
  destruct l as [|y l].
  - cbn [map flat_map]. rewrite app_nil_r. destruct sec; try discriminate. exact I.
  - apply ends_last_app; [|eapply Forall_impl; [|exact P]; cbn; lia|exact IH2].
    destruct y as [[a' sec'] e']. destruct C as [_ [_ [_ [SI' _]]]]. cbn [map flat_map]. destruct sec' as [?|?|c' vs']; try discriminate.
    destruct SI' as [N _]. cbn [region_of plain_chunks]. destruct (starts_of vs'); [congruence|discriminate].
Qed.

Lemma last_open l : forall s lo, chain s lo l -> l <> [] -> exists a, flat_map plain_chunks (map region_of l) = a ++ [mkChunk (fst (fst (last l (0, Plain [], 0)))) u32_max].
Proof.
  induction l as [|[[a sec] e] l IH]; intros s lo C N; [congruence|]. destruct C as [-> [SL [LE [SI [NL C]]]]]. destruct l as [|y l].
  - destruct sec; try discriminate. cbn in C. subst e. exists []. reflexivity.
  - destruct (IH e (e + 1) C ltac:(discriminate)) as [z Z]. exists (plain_chunks (region_of (s, sec, e)) ++ z).
    change (flat_map plain_chunks (map region_of ((s, sec, e) :: y :: l))) with (plain_chunks (region_of (s, sec, e)) ++ flat_map plain_chunks (map region_of (y :: l))).
    rewrite Z, <- app_assoc. reflexivity.
Qed.

(** ** Rendering a score in the documented form *)
Lemma segno_forms bars l : (length (marked Segno bars) <= 1)%nat ->
  segno_ok bars l <-> Forall (segno_free (hd_error (marked Segno bars))) (map region_of l).
Proof.
  intros L. assert (LA : forall vs e, last (starts_of vs) e = last (starts_of vs) 0 \/ starts_of vs = []).
  { intros vs e. destruct (starts_of vs) eqn:E; [auto|]. left. apply last_any. discriminate. }
  unfold segno_ok. rewrite Forall_map, Forall_forall. split.
  - intros H x X. destruct x as [[s sec] e]. destruct sec as [?|?|c vs]; cbn [region_of segno_free]; auto.
    destruct (marked Segno bars) as [|g gl] eqn:M; cbn [hd_error]; [exact I|]. rewrite spans_fst.
    specialize (H s c vs e g X (or_introl eq_refl)). destruct (LA vs e) as [Q|Q].
    + rewrite Q in H. destruct (starts_of vs); [cbn in *; lia|exact H].
    + rewrite Q. cbn. lia.
  - intros H s c vs e t X T. specialize (H _ X). cbn [region_of segno_free] in H.
    destruct (marked Segno bars) as [|g [|g' gl]] eqn:M; cbn [hd_error] in H; [destruct T| |cbn in L; lia]. destruct T as [<-|[]].
    rewrite spans_fst in H. destruct (LA vs e) as [Q|Q].
    + rewrite Q. destruct (starts_of vs); [cbn in *; lia|exact H].
    + rewrite Q. cbn. lia.
Qed.

Lemma loop_layout r l : well_laid l -> tune (layout_bars l) -> counts_ok (layout_bars l) -> segno_ok (layout_bars l) (timed_layout l) ->
  exists st regs s, rr_loop (gb_new r) SIdle [] (layout_bars l) = Ret (Ok (builder_of r (layout_bars l), st, regs)) /\
    closing st = Some s /\ regs ++ [RSeq (s, u32_max)] = map region_of (timed_layout l).
Proof.
  intros [I F] T C S. rewrite <- builder_nil.
  rewrite (loop_ok r (layout_bars l) [] SIdle []); [|exact T|exact C|exact Logic.I|intros x []]. cbn [app].
  destruct (run_layout (hd_error (marked Segno (layout_bars l))) (snd l) true 0 (fst l)) as [st [new [s [R [CL E]]]]]; auto.
  - apply segno_forms in S; [exact S|apply C].
  - cbn [enter] in R. unfold layout_bars in *. rewrite R. cbn [bind]. exists st, new, s. auto.
Qed.

Lemma loop_sound r bars g st regs s : tune bars -> Forall compatible bars ->
  rr_loop (gb_new r) SIdle [] bars = Ret (Ok (g, st, regs)) -> closing st = Some s ->
  g = builder_of r bars /\ counts_ok bars /\
  exists l, well_laid l /\ layout_bars l = bars /\ segno_ok bars (timed_layout l) /\ regs ++ [RSeq (s, u32_max)] = map region_of (timed_layout l).
Proof.
  intros T F E CL. rewrite <- builder_nil in E.
  pose proof (loop_counts r bars [] SIdle [] _ T counts_nil E) as C. cbn [app] in C.
  rewrite (loop_ok r bars [] SIdle []) in E; [|exact T|exact C|exact I|intros x []]. cbn [app] in E.
  destruct (st_run (hd_error (marked Segno bars)) SIdle bars) as [[[st' new]|e]| |] eqn:R; try discriminate. cbn [bind] in E. inv E.
  split; [reflexivity|]. split; [exact C|]. pose proof (sound _ bars SIdle st regs s I F R CL) as X. cbn [completes] in X.
  destruct X as [sec [rest [B [I1 [F1 X]]]]]. exists (sec, rest). split; [split; auto|]. split; [symmetry; exact B|]. split; [|exact X].
  apply segno_forms; [apply C|]. unfold timed_layout. cbn [fst snd]. rewrite <- X. apply Forall_app. split; [eapply run_segno; [|exact R]; exact I|].
  constructor; [exact I|constructor].
Qed.

Lemma no_jump_marks bars : marked Dc bars = [] -> marked Ds bars = [] -> jump_of bars = None.
Proof. intros A B. unfold jump_of. rewrite A, B. reflexivity. Qed.

Lemma render_finish r bars st regs s : closing st = Some s -> marked Dc bars = [] -> marked Ds bars = [] ->
  rr_finish (builder_of r bars) st regs = Ret (Ok (mkCompound None (regs ++ [RSeq (s, u32_max)]), [])).
Proof.
  intros CL A B. unfold rr_finish, gb_build. cbn [gb_ds_dc builder_of]. rewrite no_jump_marks by auto. destruct st; cbn in CL; inv CL; reflexivity.
Qed.

Lemma render_plain_layout r l : well_laid l -> tune (layout_bars l) -> counts_ok (layout_bars l) -> segno_ok (layout_bars l) (timed_layout l) ->
  marked Dc (layout_bars l) = [] -> marked Ds (layout_bars l) = [] ->
  render_region r (layout_bars l) = Ret (Ok (mkCompound None (map region_of (timed_layout l)), [])).
Proof.
  intros W T C S A B. destruct (loop_layout r l W T C S) as [st [regs [s [R [CL E]]]]]. unfold render_region. rewrite R. cbn [bind].
  rewrite (render_finish r _ st regs s CL A B), E. reflexivity.
Qed.

Lemma layout_chain l : well_laid l -> tune (layout_bars l) -> chain 0 0 (timed_layout l).
Proof.
  intros [I F] T. apply (timed_chain (snd l) true 0 0 (fst l)); auto; try (unfold u32_max; lia).
  apply Forall_forall. intros b B _. apply (tune_tick _ _ T B).
Qed.

Lemma timed_ne s sec rest : timed s sec rest <> [].
Proof. destruct rest as [|[] ]; discriminate. Qed.
