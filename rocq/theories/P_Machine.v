(** Lemmas about the machine that finds the sections, and about the builder that
    collects the marks of the whole score. *)
From Coq Require Import Sorted Permutation.
From Verif Require Import P_Base M_Duration M_Scalar M_Bar M_Store M_Repeat S_Note S_Repeat P_Marks P_Chunk.
Import ListNotations.
Open Scope Z_scope.

(** ** Variation marks of a bar *)
Lemma index_none b : region_index (b_marks b) = None <-> no_var b.
Proof.
  unfold no_var, region_index. change ms_contains with (fun s m => ms_contains s m). cbv beta. fold (has b Var1). fold (has b Var2). fold (has b Var3). fold (has b Var4). split.
  - intros E m M. destruct (has b Var1) eqn:A; [discriminate|]. destruct (has b Var2) eqn:B; [discriminate|].
    destruct (has b Var3) eqn:C; [discriminate|]. destruct (has b Var4) eqn:D; [discriminate|]. destruct m; try discriminate; auto.
  - intros H. rewrite !H by reflexivity. reflexivity.
Qed.
Lemma index_has b v : region_index (b_marks b) = Some v -> has b (var_to_mark v) = true.
Proof.
  unfold region_index, has. intros E. destruct (ms_contains (b_marks b) Var1) eqn:A; [inv E; exact A|].
  destruct (ms_contains (b_marks b) Var2) eqn:B; [inv E; exact B|]. destruct (ms_contains (b_marks b) Var3) eqn:C; [inv E; exact C|].
  destruct (ms_contains (b_marks b) Var4) eqn:D; inv E. exact D.
Qed.
Lemma index_carries b v : compatible b -> region_index (b_marks b) = Some v -> carries (var_no v) b.
Proof.
  intros C E m M. apply index_has in E. destruct (has b m) eqn:H.
  - specialize (C (var_to_mark v) m ltac:(destruct v; reflexivity) E H). destruct v, m; try discriminate; reflexivity.
  - destruct v, m; try discriminate; try reflexivity; cbn [var_to_mark] in E; congruence.
Qed.
Lemma carries_index b v : carries (var_no v) b -> region_index (b_marks b) = Some v.
Proof.
  intros C. unfold region_index. pose proof (C Var1 eq_refl) as A1. pose proof (C Var2 eq_refl) as A2. pose proof (C Var3 eq_refl) as A3. pose proof (C Var4 eq_refl) as A4.
  unfold has in *. rewrite A1, A2, A3, A4. destruct v; reflexivity.
Qed.
Lemma var_no_exists k : 1 <= k <= 4 -> exists v, var_no v = k.
Proof. intros H. assert (C : k = 1 \/ k = 2 \/ k = 3 \/ k = 4) by lia. destruct C as [C|[C|[C|C]]]; subst k; [exists VI1|exists VI2|exists VI3|exists VI4]; reflexivity. Qed.
Lemma index_no_repeat b v : compatible b -> region_index (b_marks b) = Some v -> no_repeat b /\ no_jump b.
Proof.
  intros C E. apply index_has in E. unfold no_repeat, no_jump.
  destruct (has b Start) eqn:A; [specialize (C (var_to_mark v) _ ltac:(destruct v; reflexivity) E A); destruct v; discriminate|].
  destruct (has b End) eqn:B; [specialize (C (var_to_mark v) _ ltac:(destruct v; reflexivity) E B); destruct v; discriminate|].
  destruct (has b Dc) eqn:D; [specialize (C (var_to_mark v) _ ltac:(destruct v; reflexivity) E D); destruct v; discriminate|].
  destruct (has b Ds) eqn:F; [specialize (C (var_to_mark v) _ ltac:(destruct v; reflexivity) E F); destruct v; discriminate|]. auto.
Qed.

(** ** The machine alone, with the Segno of the whole score *)
Fixpoint st_run (sg : option Z) (st : rr_state) (bars : list bar) : outcome (result (rr_state * list region) rr_error) :=
  match bars with
  | [] => Ret (Ok (st, []))
  | b :: bars' =>
      let! r := rr_step sg b st in
      match r with
      | Err e => Ret (Err e)
      | Ok (st', new) =>
          let! r' := st_run sg st' bars' in
          Ret (match r' with Ok (st'', new') => Ok (st'', new ++ new') | Err e => Err e end)
      end
  end.

Lemma st_run_app sg a : forall b st, st_run sg st (a ++ b) =
  let! r := st_run sg st a in
  match r with
  | Err e => Ret (Err e)
  | Ok (st', new) => let! r' := st_run sg st' b in Ret (match r' with Ok (st'', new') => Ok (st'', new ++ new') | Err e => Err e end)
  end.
Proof.
  induction a as [|x a IH]; intros b st; cbn [app st_run bind].
  - destruct (st_run sg st b) as [[[s n]|e]| |]; reflexivity.
  - destruct (rr_step sg x st) as [[[s n]|e]| |]; cbn [bind]; auto. rewrite IH.
    destruct (st_run sg s a) as [[[s' n']|e]| |]; cbn [bind]; auto.
    destruct (st_run sg s' b) as [[[s'' n'']|e]| |]; cbn [bind]; auto. rewrite app_assoc. reflexivity.
Qed.

Definition st_wf (st : rr_state) : Prop := match st with SVariation _ l => (1 <= length l <= 4)%nat | _ => True end.
Definition starts (st : rr_state) : list Z := match st with SVariation _ l => l | _ => [] end.

Lemma last_nth {A} (l : list A) d : l <> [] -> nth_error l (length l - 1) = Some (last l d).
Proof.
  intros N. destruct (exists_last N) as [a [x ->]]. rewrite last_last, app_length. cbn [length].
  rewrite nth_error_app2 by lia. replace (length a + 1 - 1 - length a)%nat with 0%nat by lia. reflexivity.
Qed.
Lemma index_hd {A} (l : list A) d : l <> [] -> index l 0 = Ret (hd d l).
Proof. intros N. destruct l; [congruence|]. reflexivity. Qed.

Lemma var_value_no v : var_value v = var_no v.
Proof. reflexivity. Qed.
Lemma as_u8_small n : (n <= 4)%nat -> as_u8 (Z.of_nat n) = Z.of_nat n.
Proof. intros H. unfold as_u8. destruct n as [|[|[|[|[|n]]]]]; try reflexivity. lia. Qed.

(** The step in a variation, without the machine integers. *)
Lemma step_variation sg b s l : (1 <= length l <= 4)%nat -> has b End = false ->
  rr_step sg b (SVariation s l) =
  match region_index (b_marks b) with
  | Some v =>
      if has b Dc || has b Ds then Ret (Err (DcDsWhileVariation (b_tick b)))
      else if var_no v =? Z.of_nat (length l) then Ret (Ok (SVariation s l, []))
      else if var_no v =? Z.of_nat (length l) + 1 then Ret (Ok (SVariation s (l ++ [b_tick b]), []))
      else let! x := unwrap_opt (var_from_value (Z.of_nat (length l) + 1)) in Ret (Err (InvalidRegionIndex (b_tick b) v x))
  | None =>
      if match sg with Some g => (hd 0 l <=? g) && (g <? last l 0) | None => false end
      then Ret (Err (SegnoWhileVariation (b_tick b)))
      else Ret (Ok (if has b Start then SRepeat (b_tick b) else SSeq (b_tick b),
                    [RVar (s, hd 0 l) (variation_ranges (hd 0 l) (tl l) (b_tick b))]))
  end.
Proof.
  intros L E. unfold rr_step. rewrite E. destruct (region_index (b_marks b)) as [v|].
  - destruct (has b Dc || has b Ds); [reflexivity|]. rewrite as_u8_small by lia. rewrite var_value_no.
    destruct (var_no v =? Z.of_nat (length l)); [reflexivity|]. unfold chk_u8. rewrite chk_ret by (unfold u8_max; lia). reflexivity.
  - assert (N : l <> []) by (destruct l; [cbn in L; lia|discriminate]).
    rewrite (index_hd l 0 N), (last_nth l 0 N). cbn [unwrap_opt bind].
    destruct (match sg with Some g => _ | None => _ end); [reflexivity|]. destruct l as [|t l]; [congruence|]. reflexivity.
Qed.

Lemma step_wf sg b st st' new : st_wf st -> rr_step sg b st = Ret (Ok (st', new)) -> st_wf st'.
Proof.
  intros W E. destruct st as [|s|s|s l].
  - unfold rr_step in E. destruct (has b Start && has b End); [inv E; exact I|]. destruct (has b End); [inv E; exact I|]. destruct (has b Start); [inv E; exact I|].
    destruct (region_index (b_marks b)) as [[]|]; inv E; cbn; auto; lia.
  - unfold rr_step in E. destruct (has b End); [inv E|]. destruct (has b Start); inv E; exact I.
  - unfold rr_step in E. destruct (has b Start && has b End); [inv E; exact I|]. destruct (has b End); [inv E; exact I|]. destruct (has b Start); [inv E|].
    destruct (has b Dc || has b Ds); [inv E|]. destruct (region_index (b_marks b)) as [[]|]; inv E; cbn; auto; lia.
  - destruct (has b End) eqn:X; [unfold rr_step in E; rewrite X in E; discriminate|]. rewrite step_variation in E by auto.
    destruct (region_index (b_marks b)) as [v|].
    + destruct (has b Dc || has b Ds); [discriminate|]. destruct (Z.eqb_spec (var_no v) (Z.of_nat (length l))); [inv E; exact W|].
      destruct (Z.eqb_spec (var_no v) (Z.of_nat (length l) + 1)).
      * inv E. cbn in *. rewrite app_length. cbn. destruct v; cbn in *; lia.
      * destruct (unwrap_opt (var_from_value (Z.of_nat (length l) + 1))); discriminate.
    + destruct (match sg with Some g => _ | None => _ end); [discriminate|]. inv E. destruct (has b Start); exact I.
Qed.

(** A Segno that comes later changes nothing. *)
Lemma step_later sg b st : st_wf st -> (forall x, In x (starts st) -> x <= sg) -> rr_step (Some sg) b st = rr_step None b st.
Proof.
  intros W H. destruct st as [|s|s|s l]; try reflexivity. destruct (has b End) eqn:X; [unfold rr_step; rewrite X; reflexivity|].
  rewrite !step_variation by auto. destruct (region_index (b_marks b)); [reflexivity|].
  replace ((hd 0 l <=? sg) && (sg <? last l 0)) with false; [reflexivity|]. symmetry. apply andb_false_iff. right. apply Z.ltb_ge. apply H.
  cbn in *. assert (l <> []) as N by (destruct l; [cbn in W; lia|discriminate]). destruct (exists_last N) as [a [x ->]]. rewrite last_last, in_app_iff. cbn. auto.
Qed.
Lemma step_starts sg b st st' new x : rr_step sg b st = Ret (Ok (st', new)) -> In x (starts st') -> In x (starts st) \/ x = b_tick b.
Proof.
  intros E. destruct st as [|s|s|s l]; unfold rr_step in E.
  - destruct (has b Start && has b End); [inv E; intros []|]. destruct (has b End); [inv E; intros []|]. destruct (has b Start); [inv E; intros []|].
    destruct (region_index (b_marks b)) as [[]|]; inv E; cbn; tauto || (intros [<-|[]]; auto).
  - destruct (has b End); [inv E|]. destruct (has b Start); inv E; intros [].
  - destruct (has b Start && has b End); [inv E; intros []|]. destruct (has b End); [inv E; intros []|]. destruct (has b Start); [inv E|].
    destruct (has b Dc || has b Ds); [inv E|]. destruct (region_index (b_marks b)) as [[]|]; inv E; cbn; tauto || (intros [<-|[]]; auto).
  - destruct (has b End); [inv E|]. destruct (region_index (b_marks b)) as [v|].
    + destruct (has b Dc || has b Ds); [discriminate|]. destruct (var_value v =? _); [inv E; auto|].
      destruct (chk_u8 _) as [n| |]; try discriminate. cbn [bind] in E. destruct (var_value v =? n).
      * inv E. cbn [starts]. rewrite in_app_iff. cbn. intros [H|[<-|[]]]; auto.
      * destruct (unwrap_opt _); discriminate.
    + destruct (index l 0) as [f| |]; try discriminate. destruct (unwrap_opt _) as [f'| |]; try discriminate. cbn [bind] in E.
      destruct (match sg with Some g => _ | None => _ end); [discriminate|]. destruct (create_variation s l (b_tick b)); try discriminate. cbn [bind] in E.
      inv E. destruct (has b Start); intros [].
Qed.

(** ** The builder *)
Definition coda_of (l : list Z) : option coda :=
  match l with [] => None | [a] => Some (CodaOne a) | a :: b :: _ => Some (CodaTwo a b) end.
Definition jump_of (bars : list bar) : option ds_dc :=
  match marked Dc bars, marked Ds bars with
  | t :: _, _ => Some (JDc t (if t =? 0 then 0 else match first_bar_len bars with Some l => l | None => 0 end))
  | [], t :: _ => Some (JDs t)
  | [], [] => None
  end.
Definition builder_of (r : rhythm) (bars : list bar) : gr_builder :=
  mkGB (jump_of bars) (hd_error (marked Fine bars)) (hd_error (marked Segno bars)) (coda_of (marked Coda bars))
       (first_bar_len bars) (top_rhythm r bars).

Lemma marked_app m a b : marked m (a ++ b) = marked m a ++ marked m b.
Proof. unfold marked. rewrite filter_app, map_app. reflexivity. Qed.
Lemma marked_one m b : marked m [b] = if has b m then [b_tick b] else [].
Proof. unfold marked. cbn [filter]. destruct (has b m); reflexivity. Qed.
Lemma marked_In m t bars : In t (marked m bars) <-> exists b, In b bars /\ has b m = true /\ b_tick b = t.
Proof.
  unfold marked. rewrite in_map_iff. split.
  - intros [b [<- H]]. apply filter_In in H. exists b. tauto.
  - intros [b [A [B <-]]]. exists b. rewrite filter_In. auto.
Qed.

Lemma hd_app {A} (a b : list A) : hd_error (a ++ b) = match hd_error a with Some x => Some x | None => hd_error b end.
Proof. destruct a; reflexivity. Qed.
Lemma first_bar_app a b : first_bar_len (a ++ b) = match first_bar_len a with Some x => Some x | None => first_bar_len b end.
Proof. unfold first_bar_len. rewrite map_app, filter_app, hd_app. reflexivity. Qed.
Lemma first_bar_some bars t : In t (map b_tick bars) -> t <> 0 -> first_bar_len bars <> None.
Proof.
  intros H N. unfold first_bar_len. intros X. destruct (filter (fun t => negb (t =? 0)) (map b_tick bars)) eqn:E; [|discriminate].
  assert (In t []) as []. rewrite <- E. apply filter_In. split; auto. lia.
Qed.
Lemma tune_app_l a b : tune (a ++ b) -> tune a.
Proof.
  intros [S F]. rewrite map_app in S. apply Forall_app in F. split; [|tauto].
  induction (map b_tick a) as [|x l IH]; constructor; inversion S; subst; auto. rewrite Forall_app in H2. tauto.
Qed.
Lemma tune_app_r a b : tune (a ++ b) -> tune b.
Proof.
  intros [S F]. rewrite map_app in S. apply Forall_app in F. split; [|tauto].
  induction (map b_tick a) as [|x l IH]; auto. inversion S; subst; auto.
Qed.
Lemma tune_lt a b x y : tune (a ++ b) -> In x a -> In y b -> b_tick x < b_tick y.
Proof.
  intros [S _] X Y. rewrite map_app in S. apply (in_map b_tick) in X. apply (in_map b_tick) in Y.
  induction (map b_tick a) as [|z l IH]; [destruct X|]. inversion S; subst. destruct X as [->|X]; [|auto].
  rewrite Forall_app in H2. destruct H2 as [_ H2]. rewrite Forall_forall in H2. auto.
Qed.
Lemma tune_tick a b : tune a -> In b a -> 0 <= b_tick b < u32_max.
Proof. intros [_ F] H. rewrite Forall_forall in F. auto. Qed.

Lemma length_on_bar r pre b : tune (pre ++ [b]) ->
  on_bar_length b (builder_of r pre) =
  mkGB (jump_of pre) (hd_error (marked Fine pre)) (hd_error (marked Segno pre)) (coda_of (marked Coda pre))
       (first_bar_len (pre ++ [b])) (top_rhythm r (pre ++ [b])).
Proof.
  intros T. unfold on_bar_length, builder_of. cbn [gb_first_bar_len gb_ds_dc gb_fine gb_segno gb_coda gb_top_rhythm].
  rewrite first_bar_app. destruct (first_bar_len pre) as [x|] eqn:E.
  - destruct pre as [|p pre]; [discriminate|]. reflexivity.
  - unfold first_bar_len. cbn [map filter]. destruct (Z.eqb_spec (b_tick b) 0) as [Z0|NZ]; cbn [negb hd_error].
    + destruct pre as [|p pre].
      * cbn [app top_rhythm]. rewrite Z0, Z.eqb_refl. destruct (b_rhythm b); reflexivity.
      * exfalso. pose proof (tune_lt (p :: pre) [b] p b T (or_introl eq_refl) (or_introl eq_refl)).
        pose proof (tune_tick _ p T (or_introl eq_refl)). lia.
    + destruct pre as [|p pre]; [|reflexivity]. cbn [app top_rhythm]. replace (b_tick b =? 0) with false by lia. reflexivity.
Qed.

Lemma jump_len pre b t : In t (marked Dc pre) ->
  (if t =? 0 then 0 else match first_bar_len (pre ++ [b]) with Some l => l | None => 0 end) =
  (if t =? 0 then 0 else match first_bar_len pre with Some l => l | None => 0 end).
Proof.
  intros H. destruct (Z.eqb_spec t 0); [reflexivity|]. rewrite first_bar_app. destruct (first_bar_len pre) eqn:E; [reflexivity|].
  exfalso. eapply first_bar_some; [|exact n|exact E]. apply marked_In in H. destruct H as [x [A [_ <-]]]. apply in_map. exact A.
Qed.

(** What a bar that may still come does to the builder. *)
Definition dcds (bars : list bar) : nat := (length (marked Dc bars) + length (marked Ds bars))%nat.


Definition bld (r : rhythm) (bars : list bar) j f s c : gr_builder := mkGB j f s c (first_bar_len bars) (top_rhythm r bars).

Lemma stage_jump r pre b f s c : tune (pre ++ [b]) -> (dcds pre <= 1)%nat ->
  match and_then (if has b Dc
                  then adding_ds_dc (JDc (b_tick b) (match first_bar_len (pre ++ [b]) with Some l => l | None => 0 end)) (bld r (pre ++ [b]) (jump_of pre) f s c)
                  else Ok (bld r (pre ++ [b]) (jump_of pre) f s c))
        (fun g => if has b Ds then adding_ds_dc (JDs (b_tick b)) g else Ok g) with
  | Ok g => (dcds (pre ++ [b]) <= 1)%nat /\ g = bld r (pre ++ [b]) (jump_of (pre ++ [b])) f s c
  | Err e => ~ (dcds (pre ++ [b]) <= 1)%nat /\ error_right (pre ++ [b]) e
  end.
Proof.
  intros T D. unfold dcds in *. rewrite !marked_app, !marked_one, !app_length.
  assert (L0 : match first_bar_len (pre ++ [b]) with Some l => l | None => 0 end =
               if b_tick b =? 0 then 0 else match first_bar_len (pre ++ [b]) with Some l => l | None => 0 end).
  { destruct (Z.eqb_spec (b_tick b) 0) as [Z0|]; [|reflexivity]. destruct pre as [|p pre].
    - unfold first_bar_len. cbn. rewrite Z0. reflexivity.
    - exfalso. pose proof (tune_lt (p :: pre) [b] p b T (or_introl eq_refl) (or_introl eq_refl)).
      pose proof (tune_tick _ p T (or_introl eq_refl)). lia. }
  rewrite L0. clear L0.
  assert (R : forall t, In t (marked Dc pre) \/ In t (marked Ds pre) -> (has b Dc = true \/ has b Ds = true) ->
     error_right (pre ++ [b]) (DuplicatedDsDc t (b_tick b))).
  { intros t H H'. cbn [error_right]. rewrite !marked_app, !marked_one, !in_app_iff. split; [tauto|]. split.
    - destruct H' as [->| ->]; cbn; auto.
    - left. rewrite !marked_In in H. destruct H as [[x [X [_ <-]]]|[x [X [_ <-]]]]; apply (tune_lt pre [b]); cbn; auto. }
  unfold jump_of at 1. unfold jump_of. rewrite !marked_app, !marked_one.
  destruct (marked Dc pre) as [|d dl] eqn:ED.
  - destruct (marked Ds pre) as [|d dl] eqn:EF.
    + destruct (has b Dc) eqn:B1; destruct (has b Ds) eqn:B2; cbn [and_then adding_ds_dc bld gb_ds_dc ds_dc_tick app length].
      * split; [lia|]. cbn [error_right]. rewrite !marked_app, !marked_one, B1, B2, ED, EF. cbn. tauto.
      * split; [lia|reflexivity].
      * split; [lia|reflexivity].
      * split; [lia|reflexivity].
    + cbn in D. destruct (has b Dc) eqn:B1; cbn [and_then adding_ds_dc bld gb_ds_dc ds_dc_tick].
      * split; [cbn; lia|]. apply R; cbn; auto.
      * destruct (has b Ds) eqn:B2; cbn [and_then adding_ds_dc bld gb_ds_dc ds_dc_tick].
        -- split; [cbn; lia|]. apply R; cbn; auto.
        -- split; [cbn; lia|]. reflexivity.
  - assert (JL : jump_of (pre ++ [b]) = Some (JDc d (if d =? 0 then 0 else match first_bar_len pre with Some l => l | None => 0 end))).
    { unfold jump_of. rewrite marked_app, ED. cbn [app]. rewrite jump_len; [reflexivity|]. rewrite ED. cbn; auto. }
    cbn in D. assert (marked Ds pre = []) as EF by (destruct (marked Ds pre); [reflexivity|cbn in D; lia]).
    destruct (has b Dc) eqn:B1; cbn [and_then adding_ds_dc bld gb_ds_dc ds_dc_tick].
    + split; [cbn; lia|]. apply R; cbn; auto.
    + destruct (has b Ds) eqn:B2; cbn [and_then adding_ds_dc bld gb_ds_dc ds_dc_tick].
      * split; [cbn; lia|]. apply R; cbn; auto.
      * split; [rewrite EF in *; cbn; lia|]. cbn [app]. rewrite jump_len; [reflexivity|]. rewrite ED. cbn; auto.
Qed.

Lemma on_bar_run r pre b : tune (pre ++ [b]) -> counts_ok pre ->
  match on_bar b (builder_of r pre) with
  | Ok g => counts_ok (pre ++ [b]) /\ g = builder_of r (pre ++ [b])
  | Err e => ~ counts_ok (pre ++ [b]) /\ error_right (pre ++ [b]) e
  end.
Proof.
  intros T C. unfold on_bar. rewrite length_on_bar by auto. destruct C as [C1 [C2 [C3 C4]]].
  pose proof (stage_jump r pre b (hd_error (marked Fine pre)) (hd_error (marked Segno pre)) (coda_of (marked Coda pre)) T C4) as J.
  cbn [gb_first_bar_len]. fold (bld r (pre ++ [b]) (jump_of pre) (hd_error (marked Fine pre)) (hd_error (marked Segno pre)) (coda_of (marked Coda pre))).
  destruct (if has b Dc then _ else _) as [g1|e1]; cbn [and_then] in *.
  2:{ destruct J as [J1 J2]. split; [|exact J2]. intros [_ [_ [_ X]]]. contradiction. }
  destruct (if has b Ds then _ else _) as [g2|e2]; cbn [and_then] in *.
  2:{ destruct J as [J1 J2]. split; [|exact J2]. intros [_ [_ [_ X]]]. contradiction. }
  destruct J as [J1 ->]. unfold counts_ok, builder_of, bld, dcds in *.
  rewrite !(marked_app Fine), !(marked_app Segno), !(marked_app Coda), !(marked_one Fine), !(marked_one Segno), !(marked_one Coda).
  assert (RF : forall a l, marked Fine pre = a :: l -> has b Fine = true -> error_right (pre ++ [b]) (DuplicatedFine a (b_tick b))).
  { intros a l E B. cbn. exists []. rewrite marked_app, marked_one, E, B. rewrite E in C2. destruct l; [reflexivity|cbn in C2; lia]. }
  assert (RS : forall a l, marked Segno pre = a :: l -> has b Segno = true -> error_right (pre ++ [b]) (DuplicatedSegno a (b_tick b))).
  { intros a l E B. cbn. exists []. rewrite marked_app, marked_one, E, B. rewrite E in C1. destruct l; [reflexivity|cbn in C1; lia]. }
  assert (RC : forall x y l, marked Coda pre = x :: y :: l -> has b Coda = true -> error_right (pre ++ [b]) (MoreThanTwoCodas x y (b_tick b))).
  { intros x y l E B. cbn. exists []. rewrite marked_app, marked_one, E, B. rewrite E in C3. destruct l; [reflexivity|cbn in C3; lia]. }
  destruct (has b Fine) eqn:BF.
  - unfold adding_fine. cbn [gb_fine]. destruct (marked Fine pre) as [|a l] eqn:EF; cbn [hd_error and_then].
    2:{ split; [|eapply RF; eauto]. intros [_ [X _]]. rewrite app_length in X. cbn in X. lia. }
    cbn [gb_ds_dc gb_segno gb_coda gb_first_bar_len gb_top_rhythm app hd_error]. destruct (has b Segno) eqn:BS.
    + unfold adding_segno. cbn [gb_segno]. destruct (marked Segno pre) as [|a l] eqn:ES; cbn [hd_error and_then].
      2:{ split; [|eapply RS; eauto]. intros [X _]. rewrite app_length in X. cbn in X. lia. }
      cbn [gb_ds_dc gb_fine gb_coda gb_first_bar_len gb_top_rhythm app hd_error]. destruct (has b Coda) eqn:BC.
      * unfold adding_coda. cbn [gb_coda]. destruct (marked Coda pre) as [|a [|a' l]] eqn:EC; cbn [coda_of].
        -- split; [cbn; repeat split; lia|reflexivity].
        -- split; [cbn; repeat split; lia|reflexivity].
        -- split; [|eapply RC; eauto]. intros [_ [_ [X _]]]. rewrite app_length in X. cbn in X. lia.
      * rewrite app_nil_r. split; [cbn; repeat split; lia|reflexivity].
    + cbn [and_then]. rewrite app_nil_r. cbn [gb_ds_dc gb_fine gb_coda gb_first_bar_len gb_top_rhythm app hd_error]. destruct (has b Coda) eqn:BC.
      * unfold adding_coda. cbn [gb_coda]. destruct (marked Coda pre) as [|a [|a' l]] eqn:EC; cbn [coda_of].
        -- split; [cbn; repeat split; lia|reflexivity].
        -- split; [cbn; repeat split; lia|reflexivity].
        -- split; [|eapply RC; eauto]. intros [_ [_ [X _]]]. rewrite app_length in X. cbn in X. lia.
      * rewrite app_nil_r. split; [cbn; repeat split; lia|reflexivity].
  - cbn [and_then]. rewrite app_nil_r. cbn [gb_ds_dc gb_segno gb_coda gb_first_bar_len gb_top_rhythm app hd_error]. destruct (has b Segno) eqn:BS.
    + unfold adding_segno. cbn [gb_segno]. destruct (marked Segno pre) as [|a l] eqn:ES; cbn [hd_error and_then].
      2:{ split; [|eapply RS; eauto]. intros [X _]. rewrite app_length in X. cbn in X. lia. }
      cbn [gb_ds_dc gb_fine gb_coda gb_first_bar_len gb_top_rhythm app hd_error]. destruct (has b Coda) eqn:BC.
      * unfold adding_coda. cbn [gb_coda]. destruct (marked Coda pre) as [|a [|a' l]] eqn:EC; cbn [coda_of].
        -- split; [cbn; repeat split; lia|reflexivity].
        -- split; [cbn; repeat split; lia|reflexivity].
        -- split; [|eapply RC; eauto]. intros [_ [_ [X _]]]. rewrite app_length in X. cbn in X. lia.
      * rewrite app_nil_r. split; [cbn; repeat split; lia|reflexivity].
    + cbn [and_then]. rewrite app_nil_r. cbn [gb_ds_dc gb_fine gb_coda gb_first_bar_len gb_top_rhythm app hd_error]. destruct (has b Coda) eqn:BC.
      * unfold adding_coda. cbn [gb_coda]. destruct (marked Coda pre) as [|a [|a' l]] eqn:EC; cbn [coda_of].
        -- split; [cbn; repeat split; lia|reflexivity].
        -- split; [cbn; repeat split; lia|reflexivity].
        -- split; [|eapply RC; eauto]. intros [_ [_ [X _]]]. rewrite app_length in X. cbn in X. lia.
      * rewrite app_nil_r. split; [cbn; repeat split; lia|reflexivity].
Qed.

(** ** The loop is the builder and the machine side by side *)
Lemma counts_app_l a b : counts_ok (a ++ b) -> counts_ok a.
Proof. unfold counts_ok. rewrite !marked_app, !app_length. lia. Qed.

Lemma loop_ok r post : forall pre st regs, tune (pre ++ post) -> counts_ok (pre ++ post) -> st_wf st ->
  (forall x, In x (starts st) -> exists b, In b pre /\ b_tick b = x) ->
  rr_loop (builder_of r pre) st regs post =
  let! x := st_run (hd_error (marked Segno (pre ++ post))) st post in
  Ret (match x with Ok (st', new) => Ok (builder_of r (pre ++ post), st', regs ++ new) | Err e => Err e end).
Proof.
  induction post as [|b post IH]; intros pre st regs T C W H; cbn [rr_loop st_run bind].
  - rewrite !app_nil_r. reflexivity.
  - replace (pre ++ b :: post) with ((pre ++ [b]) ++ post) in * by (rewrite <- app_assoc; reflexivity).
    pose proof (on_bar_run r pre b (tune_app_l _ _ T) (counts_app_l _ _ (counts_app_l _ _ C))) as O.
    destruct (on_bar b (builder_of r pre)) as [g|e]; [|destruct O as [O _]; destruct O; apply (counts_app_l _ _ C)].
    destruct O as [C' ->].
    assert (S : rr_step (gb_segno (builder_of r (pre ++ [b]))) b st = rr_step (hd_error (marked Segno ((pre ++ [b]) ++ post))) b st).
    { cbn [gb_segno builder_of]. rewrite (marked_app Segno (pre ++ [b]) post), hd_app.
      destruct (hd_error (marked Segno (pre ++ [b]))) as [sg|]; [reflexivity|].
      destruct (hd_error (marked Segno post)) as [sg|] eqn:E; [|reflexivity]. symmetry. apply step_later; auto.
      intros x X. destruct (H x X) as [y [Y <-]]. destruct (marked Segno post) as [|z l] eqn:M; [discriminate|]. cbn in E. inv E.
      assert (Z1 : In sg (marked Segno post)) by (rewrite M; cbn; auto). apply marked_In in Z1. destruct Z1 as [w [W1 [_ <-]]].
      apply Z.lt_le_incl. eapply tune_lt; [exact T| |exact W1]. apply in_app_iff. auto. }
    rewrite S. clear S. destruct (rr_step (hd_error (marked Segno ((pre ++ [b]) ++ post))) b st) as [[[st' new]|e]| |] eqn:E; cbn [bind]; auto.
    rewrite IH; auto.
    + destruct (st_run (hd_error (marked Segno ((pre ++ [b]) ++ post))) st' post) as [[[st'' new']|e]| |]; cbn [bind]; auto. rewrite app_assoc. reflexivity.
    + eapply step_wf; eauto.
    + intros x X. destruct (step_starts _ _ _ _ _ x E X) as [Y| ->].
      * destruct (H x Y) as [y [Y1 Y2]]. exists y. rewrite in_app_iff. auto.
      * exists b. rewrite in_app_iff. cbn. auto.
Qed.

Lemma loop_counts r post : forall pre st regs x, tune (pre ++ post) -> counts_ok pre ->
  rr_loop (builder_of r pre) st regs post = Ret (Ok x) -> counts_ok (pre ++ post).
Proof.
  induction post as [|b post IH]; intros pre st regs x T C E; cbn [rr_loop] in E.
  - rewrite app_nil_r. exact C.
  - replace (pre ++ b :: post) with ((pre ++ [b]) ++ post) in * by (rewrite <- app_assoc; reflexivity).
    pose proof (on_bar_run r pre b (tune_app_l _ _ T) C) as O.
    destruct (on_bar b (builder_of r pre)) as [g|e]; [|discriminate]. destruct O as [C' ->].
    destruct (rr_step _ b st) as [[[st' new]|e]| |]; try discriminate. cbn [bind] in E. eapply IH; eauto.
Qed.

Lemma counts_nil : counts_ok [].
Proof. unfold counts_ok. cbn. lia. Qed.
Lemma builder_nil r : builder_of r [] = gb_new r.
Proof. reflexivity. Qed.

(** ** Sections become regions *)
Definition region_of (x : Z * section * Z) : region :=
  let '(s, sec, e) := x in
  match sec with
  | Plain _ => RSeq (s, e)
  | Repeated _ => RRepeat (s, e)
  | Varied _ vs => RVar (s, hd e (starts_of vs)) (spans (starts_of vs) e)
  end.

Lemma ranges_spans e l : forall t, variation_ranges t l e = spans (t :: l) e.
Proof. induction l as [|u l IH]; intros t; cbn; [reflexivity|]. rewrite IH. reflexivity. Qed.

Definition segno_free (sg : option Z) (r : region) : Prop :=
  match r, sg with
  | RVar _ vs, Some g => ~ (hd 0 (map fst vs) <= g < last (map fst vs) 0)
  | _, _ => True
  end.

Definition closing (st : rr_state) : option Z := match st with SIdle => Some 0 | SSeq s => Some s | _ => None end.

Lemma follows_ext a a' r : is_plain a = is_plain a' -> is_repeated a = is_repeated a' -> follows a r -> follows a' r.
Proof. intros P R. destruct r as [|[b c] r]; cbn [follows]; [congruence|]. unfold boundary. rewrite P, R. auto. Qed.

Definition completes (st : rr_state) (bars : list bar) (regs : list region) : Prop :=
  match st with
  | SIdle => exists sec rest, bars = section_bars sec ++ rest_bars rest /\ inside true sec /\ follows sec rest /\
               regs = map region_of (timed 0 sec rest)
  | SSeq s => exists inner rest, bars = inner ++ rest_bars rest /\ Forall no_repeat inner /\ follows (Plain inner) rest /\
               regs = map region_of (timed s (Plain inner) rest)
  | SRepeat s => exists sec rest, is_plain sec = false /\ bars = section_bars sec ++ rest_bars rest /\ inside false sec /\ follows sec rest /\
               regs = map region_of (timed s sec rest)
  | SVariation s l => let k := Z.of_nat (length l) in
      exists v vs b c rest, bars = v ++ concat vs ++ b :: section_bars c ++ rest_bars rest /\
        Forall (carries k) v /\ Forall no_repeat v /\ Forall no_jump v /\ numbered (k + 1) vs /\ k + Z.of_nat (length vs) <= 4 /\
        no_var b /\ has b End = false /\ has b Start = negb (is_plain c) /\ inside false c /\ follows c rest /\
        regs = RVar (s, hd 0 l) (spans (l ++ starts_of vs) (b_tick b)) :: map region_of (timed (b_tick b) c rest)
  end.

Lemma compat_start b : compatible b -> has b Start = true -> no_var b.
Proof. intros C S m M. destruct (has b m) eqn:E; [|reflexivity]. specialize (C _ _ M E S). destruct m; discriminate. Qed.
Lemma compat_end b : compatible b -> has b End = true -> no_var b.
Proof. intros C S m M. destruct (has b m) eqn:E; [|reflexivity]. specialize (C _ _ M E S). destruct m; discriminate. Qed.

Lemma or_false a b : a || b = false -> a = false /\ b = false.
Proof. apply orb_false_iff. Qed.

Lemma timed_ext s a a' r : (forall e, region_of (s, a, e) = region_of (s, a', e)) ->
  map region_of (timed s a r) = map region_of (timed s a' r).
Proof. intros H. destruct r as [|[b c] r]; cbn [timed map]; rewrite H; reflexivity. Qed.

(** Bars in front of a section belong to it. *)
Definition extend (b : bar) (s : section) : section :=
  match s with Plain l => Plain (b :: l) | Repeated l => Repeated (b :: l) | Varied c vs => Varied (b :: c) vs end.
Lemma extend_bars b s : section_bars (extend b s) = b :: section_bars s.
Proof. destruct s; reflexivity. Qed.
Lemma extend_region b s x e : region_of (x, extend b s, e) = region_of (x, s, e).
Proof. destruct s; reflexivity. Qed.
Lemma extend_inside f b s : no_repeat b -> no_var b -> (f = false -> no_jump b) -> inside f s -> inside f (extend b s).
Proof.
  intros R V J. destruct s; cbn [inside extend].
  - intros [A B]. split; [constructor; auto|]. intros F. constructor; auto.
  - intros [A [B C]]. split; [constructor; auto|]. split; [constructor; auto|]. intros F. constructor; auto.
  - intros [A [B [C D]]]. split; [constructor; auto|]. split; [constructor; auto|]. split; [|exact D]. intros F. constructor; auto.
Qed.

#[local] Hint Constructors Forall : core.
Lemma sound sg : forall bars st st' new s', st_wf st -> Forall compatible bars ->
  st_run sg st bars = Ret (Ok (st', new)) -> closing st' = Some s' ->
  completes st bars (new ++ [RSeq (s', u32_max)]).
Proof.
  induction bars as [|b bars IH]; intros st st' new s' W F E CL.
  - cbn in E. inv E. destruct st'; cbn in CL; inv CL.
    + exists (Plain []), []. cbn. repeat split; auto.
    + exists [], []. cbn. repeat split; auto.
  - inversion F as [|? ? CB F']; subst. cbn [st_run] in E.
    destruct (rr_step sg b st) as [[[st1 new1]|e]| |] eqn:ES; try discriminate. cbn [bind] in E.
    destruct (st_run sg st1 bars) as [[[st2 new2]|e]| |] eqn:ER; try discriminate. cbn [bind] in E. inv E.
    pose proof (step_wf _ _ _ _ _ W ES) as W1. specialize (IH st1 st' new2 s' W1 F' ER CL). rewrite <- app_assoc.
    generalize dependent (new2 ++ [RSeq (s', u32_max)]). intros regs IH. clear ER new2.
    (* a section that is closed by this bar, then what comes *)
    assert (CLOSE : forall st0 s0 sec r1, st1 = (if has b Start then SRepeat (b_tick b) else SSeq (b_tick b)) -> no_var b ->
       has b End = is_repeated sec -> (is_plain sec = true -> has b Start = true) ->
       r1 = region_of (s0, sec, b_tick b) -> new1 = [r1] -> st0 = st1 ->
       exists c rest, bars = section_bars c ++ rest_bars rest /\ boundary sec b c /\ inside false c /\ follows c rest /\
         new1 ++ regs = map region_of (timed s0 sec ((b, c) :: rest))).
    { intros st0 s0 sec r1 -> NV EN PL -> -> _. destruct (has b Start) eqn:BS.
      - destruct IH as [c [rest [P [-> [IN [FO ->]]]]]]. exists c, rest. unfold boundary. rewrite P, BS. repeat split; auto.
      - destruct IH as [inner [rest [-> [IN [FO ->]]]]]. exists (Plain inner), rest. unfold boundary. rewrite BS. cbn [section_bars is_plain negb].
        repeat split; auto; try (intros X; apply PL in X; discriminate). discriminate. }
    Ltac FIN sec c rest := match goal with b : bar |- _ => exists sec, ((b, c) :: rest) end;
      repeat (split; [solve [reflexivity | cbn; repeat split; auto]|]); split; [split; auto|reflexivity].
    destruct st as [|s|s|s l].
    + unfold rr_step in ES. destruct (has b Start) eqn:BS; destruct (has b End) eqn:BE; cbn [andb] in ES.
      * inv ES. destruct (CLOSE (SRepeat (b_tick b)) 0 (Repeated []) (RRepeat (0, b_tick b)) eq_refl) as [c [rest [-> [BO [IN [FO ->]]]]]]; auto; [apply compat_end; auto|].
        FIN (Repeated []) c rest.
      * inv ES. destruct (CLOSE (SRepeat (b_tick b)) 0 (Plain []) (RSeq (0, b_tick b)) eq_refl) as [c [rest [-> [BO [IN [FO ->]]]]]]; auto; [apply compat_start; auto|].
        FIN (Plain []) c rest.
      * inv ES. destruct (CLOSE (SSeq (b_tick b)) 0 (Repeated []) (RRepeat (0, b_tick b)) eq_refl) as [c [rest [-> [BO [IN [FO ->]]]]]]; auto; [apply compat_end; auto|].
        FIN (Repeated []) c rest.
      * destruct (region_index (b_marks b)) as [v|] eqn:RI.
        -- destruct v; inv ES. destruct IH as [v [vs [b' [c [rest [-> [V1 [V2 [V3 [V4 [V5 [V6 [V7 [V8 [V9 [V10 ->]]]]]]]]]]]]]]]].
           pose proof (index_carries _ _ CB RI) as CA. destruct (index_no_repeat _ _ CB RI) as [NR NJ].
           exists (Varied [] ((b :: v) :: vs)), ((b', c) :: rest). cbn [section_bars concat rest_bars flat_map fst snd app inside numbered follows timed map region_of starts_of hd spans].
           rewrite <- !app_assoc. split; [reflexivity|]. split; [|split; [|reflexivity]].
           ++ cbn [length] in *. split; [constructor|]. split; [constructor|]. split; [constructor|].
              split; [|split; [discriminate|lia]]. split; [discriminate|]. split; [constructor; auto|]. split; [constructor; auto|]. split; [constructor; auto|]. exact V4.
           ++ unfold boundary. cbn [is_repeated is_plain]. repeat split; auto. discriminate.
        -- inv ES. destruct IH as [sec [rest [-> [IN [FO ->]]]]]. apply index_none in RI. exists (extend b sec), rest.
           rewrite extend_bars. split; [reflexivity|]. split; [apply extend_inside; auto; [split; auto|discriminate]|].
           split; [eapply follows_ext; [| |exact FO]; destruct sec; reflexivity|]. cbn [app]. apply timed_ext. intros e. rewrite extend_region. reflexivity.
    + unfold rr_step in ES. destruct (has b End) eqn:BE; [discriminate|]. destruct (has b Start) eqn:BS.
      * inv ES. destruct (CLOSE (SRepeat (b_tick b)) s (Plain []) (RSeq (s, b_tick b)) eq_refl) as [c [rest [-> [BO [IN [FO ->]]]]]]; auto; [apply compat_start; auto|].
        exists [], ((b, c) :: rest). split; [reflexivity|]. split; [constructor|]. split; [split; auto|reflexivity].
      * inv ES. destruct IH as [inner [rest [-> [IN [FO ->]]]]]. exists (b :: inner), rest. split; [reflexivity|]. split; [constructor; auto; split; auto|].
        split; [eapply follows_ext; [| |exact FO]; reflexivity|]. cbn [app]. apply timed_ext. reflexivity.
    + unfold rr_step in ES. destruct (has b Start) eqn:BS; destruct (has b End) eqn:BE; cbn [andb] in ES.
      * inv ES. destruct (CLOSE (SRepeat (b_tick b)) s (Repeated []) (RRepeat (s, b_tick b)) eq_refl) as [c [rest [-> [BO [IN [FO ->]]]]]]; auto; [apply compat_end; auto|].
        FIN (Repeated []) c rest.
      * discriminate.
      * inv ES. destruct (CLOSE (SSeq (b_tick b)) s (Repeated []) (RRepeat (s, b_tick b)) eq_refl) as [c [rest [-> [BO [IN [FO ->]]]]]]; auto; [apply compat_end; auto|].
        FIN (Repeated []) c rest.
      * destruct (has b Dc || has b Ds) eqn:DD; [discriminate|]. apply or_false in DD. destruct (region_index (b_marks b)) as [v|] eqn:RI.
        -- destruct v; inv ES. destruct IH as [v [vs [b' [c [rest [-> [V1 [V2 [V3 [V4 [V5 [V6 [V7 [V8 [V9 [V10 ->]]]]]]]]]]]]]]]].
           pose proof (index_carries _ _ CB RI) as CA. destruct (index_no_repeat _ _ CB RI) as [NR NJ].
           exists (Varied [] ((b :: v) :: vs)), ((b', c) :: rest). cbn [section_bars concat rest_bars flat_map fst snd app inside numbered follows timed map region_of starts_of hd spans is_plain].
           rewrite <- !app_assoc. split; [reflexivity|]. split; [reflexivity|]. split; [|split; [|reflexivity]].
           ++ cbn [length] in *. split; [constructor|]. split; [constructor|]. split; [constructor|].
              split; [|split; [discriminate|lia]]. split; [discriminate|]. split; [constructor; auto|]. split; [constructor; auto|]. split; [constructor; auto|]. exact V4.
           ++ unfold boundary. cbn [is_repeated is_plain]. repeat split; auto. discriminate.
        -- inv ES. destruct IH as [sec [rest [P [-> [IN [FO ->]]]]]]. apply index_none in RI. exists (extend b sec), rest.
           rewrite extend_bars. split; [destruct sec; auto|]. split; [reflexivity|]. split; [apply extend_inside; auto; split; auto|].
           split; [eapply follows_ext; [| |exact FO]; destruct sec; reflexivity|]. cbn [app]. apply timed_ext. intros e. rewrite extend_region. reflexivity.
    + destruct (has b End) eqn:BE; [unfold rr_step in ES; rewrite BE in ES; discriminate|]. rewrite step_variation in ES by auto.
      destruct (region_index (b_marks b)) as [w|] eqn:RI.
      * destruct (has b Dc || has b Ds) eqn:DD; [discriminate|]. pose proof (index_carries _ _ CB RI) as CA. destruct (index_no_repeat _ _ CB RI) as [NR NJ].
        destruct (Z.eqb_spec (var_no w) (Z.of_nat (length l))) as [K|K].
        -- inv ES. destruct IH as [v [vs [b' [c [rest [-> [V1 [V2 [V3 [V4 [V5 [V6 [V7 [V8 [V9 [V10 ->]]]]]]]]]]]]]]]].
           exists (b :: v), vs, b', c, rest. rewrite <- K in *. repeat split; auto.
        -- destruct (Z.eqb_spec (var_no w) (Z.of_nat (length l) + 1)) as [K'|K'].
           ++ inv ES. destruct IH as [v [vs [b' [c [rest [-> [V1 [V2 [V3 [V4 [V5 [V6 [V7 [V8 [V9 [V10 ->]]]]]]]]]]]]]]]].
              rewrite app_length in *. cbn [length] in *. replace (Z.of_nat (length l + 1)) with (Z.of_nat (length l) + 1) in * by lia. rewrite <- K' in *.
              exists [], ((b :: v) :: vs), b', c, rest. cbn [app concat numbered starts_of flat_map length]. rewrite <- !app_assoc.
              rewrite <- K'. split; [reflexivity|]. do 3 (split; [constructor|]). split.
              { split; [discriminate|]. split; [constructor; auto|]. split; [constructor; auto|]. split; [constructor; auto|]. exact V4. }
              split; [cbn [length]; lia|]. do 5 (split; [assumption|]). destruct l as [|l0 l]; [cbn in W; lia|]. reflexivity.
           ++ destruct (unwrap_opt _); discriminate.
      * destruct (match sg with Some g => _ | None => _ end); [discriminate|]. inv ES. apply index_none in RI.
        destruct l as [|l0 l]; [cbn in W; lia|]. cbn [hd tl] in *. rewrite ranges_spans.
        exists [], []. destruct (has b Start) eqn:BS.
        -- destruct IH as [c [rest [P [-> [IN [FO ->]]]]]]. exists b, c, rest. cbn [app concat numbered starts_of flat_map length]. rewrite app_nil_r. cbn in W.
           cbn [length]. repeat (split; [solve [constructor | auto | lia | rewrite BS, P; reflexivity]|]). reflexivity.
        -- destruct IH as [inner [rest [-> [IN [FO ->]]]]]. exists b, (Plain inner), rest. cbn [app concat numbered starts_of flat_map length section_bars]. rewrite app_nil_r. cbn in W.
           cbn [length]. repeat (split; [solve [constructor | auto | lia | rewrite BS; reflexivity | split; [auto|discriminate]]|]). reflexivity.
Qed.

Lemma spans_fst e l : map fst (spans l e) = l.
Proof. induction l as [|a l IH]; cbn; congruence. Qed.

Lemma step_segno sg b st st' new : st_wf st -> rr_step sg b st = Ret (Ok (st', new)) -> Forall (segno_free sg) new.
Proof.
  intros W E. destruct st as [|s|s|s l].
  - unfold rr_step in E. destruct (has b Start && has b End); [inv E; repeat constructor|]. destruct (has b End); [inv E; repeat constructor|]. destruct (has b Start); [inv E; repeat constructor|].
    destruct (region_index (b_marks b)) as [[]|]; inv E; repeat constructor.
  - unfold rr_step in E. destruct (has b End); [inv E|]. destruct (has b Start); inv E; repeat constructor.
  - unfold rr_step in E. destruct (has b Start && has b End); [inv E; repeat constructor|]. destruct (has b End); [inv E; repeat constructor|]. destruct (has b Start); [inv E|].
    destruct (has b Dc || has b Ds); [inv E|]. destruct (region_index (b_marks b)) as [[]|]; inv E; repeat constructor.
  - destruct (has b End) eqn:X; [unfold rr_step in E; rewrite X in E; discriminate|]. rewrite step_variation in E by auto.
    destruct (region_index (b_marks b)) as [v|].
    + destruct (has b Dc || has b Ds); [discriminate|]. destruct (Z.eqb_spec (var_no v) (Z.of_nat (length l))); [inv E; constructor|].
      destruct (Z.eqb_spec (var_no v) (Z.of_nat (length l) + 1)); [inv E; constructor|].
      destruct (unwrap_opt _); discriminate.
    + destruct l as [|t l]; [cbn in W; lia|]. cbn [hd tl] in E. rewrite ranges_spans in E.
      pose proof (spans_fst (b_tick b) (t :: l)) as SP. generalize dependent (spans (t :: l) (b_tick b)). intros sp E SP.
      destruct sg as [g|]; [|inv E; repeat constructor].
      destruct ((t <=? g) && (g <? last (t :: l) 0)) eqn:K; [discriminate|]. inv E. constructor; [|constructor].
      unfold segno_free. rewrite SP. cbn [hd]. lia.
Qed.
Lemma run_segno sg bars : forall st st' new, st_wf st -> st_run sg st bars = Ret (Ok (st', new)) -> Forall (segno_free sg) new.
Proof.
  induction bars as [|b bars IH]; intros st st' new W E; cbn [st_run] in E; [inv E; constructor|].
  destruct (rr_step sg b st) as [[[st1 new1]|e]| |] eqn:ES; try discriminate. cbn [bind] in E.
  destruct (st_run sg st1 bars) as [[[st2 new2]|e]| |] eqn:ER; try discriminate. cbn [bind] in E. inv E.
  apply Forall_app. split; [eapply step_segno; eauto|]. eapply IH; [|eauto]. eapply step_wf; eauto.
Qed.

(** ** A score in the documented form is accepted *)
Lemma run_idle sg l : Forall no_repeat l -> Forall no_var l -> st_run sg SIdle l = Ret (Ok (SIdle, [])).
Proof.
  induction l as [|b l IH]; intros R V; [reflexivity|]. inversion R as [|? ? [R1 R2] R']; subst. inversion V as [|? ? V1 V']; subst.
  cbn [st_run rr_step]. rewrite R1, R2. cbn [andb]. apply index_none in V1. rewrite V1. cbn [bind]. rewrite IH by auto. reflexivity.
Qed.
Lemma run_seq sg s l : Forall no_repeat l -> st_run sg (SSeq s) l = Ret (Ok (SSeq s, [])).
Proof.
  induction l as [|b l IH]; intros R; [reflexivity|]. inversion R as [|? ? [R1 R2] R']; subst.
  cbn [st_run rr_step]. rewrite R1, R2. cbn [bind]. rewrite IH by auto. reflexivity.
Qed.
Lemma run_repeat sg s l : Forall no_repeat l -> Forall no_var l -> Forall no_jump l -> st_run sg (SRepeat s) l = Ret (Ok (SRepeat s, [])).
Proof.
  induction l as [|b l IH]; intros R V J; [reflexivity|]. inversion R as [|? ? [R1 R2] R']; subst. inversion V as [|? ? V1 V']; subst. inversion J as [|? ? [J1 J2] J']; subst.
  cbn [st_run rr_step]. rewrite R1, R2, J1, J2. cbn [andb orb]. apply index_none in V1. rewrite V1. cbn [bind]. rewrite IH by auto. reflexivity.
Qed.
Lemma run_same sg s l v : (1 <= length l <= 4)%nat -> Forall (carries (Z.of_nat (length l))) v -> Forall no_repeat v -> Forall no_jump v ->
  st_run sg (SVariation s l) v = Ret (Ok (SVariation s l, [])).
Proof.
  intros L. induction v as [|b v IH]; intros C R J; [reflexivity|]. inversion R as [|? ? [R1 R2] R']; subst. inversion C as [|? ? C1 C']; subst. inversion J as [|? ? [J1 J2] J']; subst.
  cbn [st_run]. rewrite step_variation by auto. destruct (var_no_exists (Z.of_nat (length l))) as [k K]; [lia|]. rewrite <- K in C1.
  rewrite (carries_index _ _ C1), J1, J2, K, Z.eqb_refl. cbn [orb bind]. rewrite IH by auto. reflexivity.
Qed.
Lemma run_vars sg s vs : forall l, (1 <= length l)%nat -> (length l + length vs <= 4)%nat -> numbered (Z.of_nat (length l) + 1) vs ->
  st_run sg (SVariation s l) (concat vs) = Ret (Ok (SVariation s (l ++ starts_of vs), [])).
Proof.
  induction vs as [|v vs IH]; intros l L1 L2 N; cbn [concat starts_of flat_map]; [rewrite app_nil_r; reflexivity|].
  destruct N as [N0 [C [R [J N]]]]. destruct v as [|b v]; [congruence|]. cbn [length] in L2.
  inversion R as [|? ? [R1 R2] R']; subst. inversion C as [|? ? C1 C']; subst. inversion J as [|? ? [J1 J2] J']; subst.
  cbn [app st_run]. rewrite step_variation by (auto; lia). destruct (var_no_exists (Z.of_nat (length l) + 1)) as [k K]; [lia|]. rewrite <- K in C1.
  rewrite (carries_index _ _ C1), J1, J2, K. cbn [orb]. replace (Z.of_nat (length l) + 1 =? Z.of_nat (length l)) with false by lia. rewrite Z.eqb_refl. cbn [bind].
  assert (LL : Z.of_nat (length (l ++ [b_tick b])) = Z.of_nat (length l) + 1) by (rewrite app_length; cbn; lia).
  rewrite st_run_app, run_same; [|rewrite app_length; cbn; lia|rewrite LL; auto|auto|auto]. cbn [bind].
  rewrite IH; [|rewrite app_length; cbn; lia|rewrite app_length; cbn; lia|rewrite LL; exact N]. cbn [bind app]. rewrite <- app_assoc. reflexivity.
Qed.

(** The state inside a section, and after all of its bars. *)
Definition enter (first : bool) (s : Z) (sec : section) : rr_state :=
  if first then SIdle else if is_plain sec then SSeq s else SRepeat s.
Definition leave (first : bool) (s : Z) (sec : section) : rr_state :=
  match sec with Varied _ vs => SVariation s (starts_of vs) | _ => enter first s sec end.

Lemma run_section sg first s sec : (first = true -> s = 0) -> inside first sec ->
  st_run sg (enter first s sec) (section_bars sec) = Ret (Ok (leave first s sec, [])).
Proof.
  intros F0 I. destruct sec as [l|l|c vs]; cbn [inside section_bars] in *.
  - destruct I as [R V]. destruct first; cbn [enter leave is_plain]; [apply run_idle; auto|apply run_seq; auto].
  - destruct I as [R [V J]]. destruct first; cbn [enter leave is_plain]; [apply run_idle; auto|apply run_repeat; auto].
  - destruct I as [R [V [J [N [NE L]]]]]. rewrite st_run_app.
    assert (X : st_run sg (enter first s (Varied c vs)) c = Ret (Ok (enter first s (Varied c vs), []))).
    { destruct first; cbn [enter is_plain]; [apply run_idle; auto|apply run_repeat; auto]. }
    rewrite X. cbn [bind]. clear X. destruct vs as [|v vs]; [congruence|]. destruct N as [N0 [C [R' [J' N]]]]. destruct v as [|b v]; [congruence|].
    inversion R' as [|? ? [R1 R2] R'']; subst. inversion C as [|? ? C1 C']; subst. inversion J' as [|? ? [J1 J2] J'']; subst.
    assert (S : rr_step sg b (enter first s (Varied c ((b :: v) :: vs))) = Ret (Ok (SVariation s [b_tick b], []))).
    { change 1 with (var_no VI1) in C1. destruct first; cbn [enter is_plain rr_step]; rewrite R1, R2, (carries_index _ _ C1); cbn [andb]; [rewrite F0 by reflexivity; reflexivity|].
      rewrite J1, J2. reflexivity. }
    cbn [concat app st_run leave starts_of flat_map]. rewrite S. cbn [bind]. cbn [length] in L.
    rewrite st_run_app, run_same; [|cbn; lia|exact C'|auto|auto]. cbn [bind]. rewrite run_vars; [reflexivity|cbn; lia|cbn [length]; lia|exact N].
Qed.

Lemma starts_len k vs : numbered k vs -> length (starts_of vs) = length vs.
Proof.
  revert k. induction vs as [|v vs IH]; intros k N; [reflexivity|]. destruct N as [N0 [_ [_ [_ N]]]]. cbn [starts_of flat_map].
  destruct v as [|b v]; [congruence|]. cbn [app length]. f_equal. eapply IH; eauto.
Qed.
Lemma starts_nil k vs : numbered k vs -> starts_of vs = [] -> vs = [].
Proof. intros N E. apply starts_len in N. rewrite E in N. destruct vs; [reflexivity|discriminate]. Qed.

Lemma step_boundary sg first s sec b c : (first = true -> s = 0) -> inside first sec -> boundary sec b c ->
  segno_free sg (region_of (s, sec, b_tick b)) ->
  rr_step sg b (leave first s sec) = Ret (Ok (enter false (b_tick b) c, [region_of (s, sec, b_tick b)])).
Proof.
  intros F0 I [BE [BS [NV PP]]] SF. destruct sec as [l|l|cm vs]; cbn [leave is_plain is_repeated] in *.
  - specialize (PP eq_refl). rewrite PP in BS. cbn [negb] in BS.
    destruct first; cbn [enter is_plain rr_step region_of]; rewrite BS, BE, PP; cbn [andb]; [rewrite F0 by reflexivity|]; reflexivity.
  - destruct first; cbn [enter is_plain rr_step region_of]; rewrite BS, BE; destruct (is_plain c); cbn [negb andb]; try rewrite F0 by reflexivity; reflexivity.
  - destruct I as [_ [_ [_ [N [NE L]]]]]. pose proof (starts_len _ _ N) as SL. rewrite step_variation; [|destruct vs; [congruence|cbn [length] in *; lia]|exact BE].
    apply index_none in NV. rewrite NV. cbn [region_of segno_free] in *. rewrite spans_fst in SF.
    destruct (starts_of vs) as [|t l] eqn:ST; [destruct vs; [congruence|cbn in SL; lia]|]. cbn [hd tl] in *.
    replace (match sg with Some g => (t <=? g) && (g <? last (t :: l) 0) | None => false end) with false.
    + rewrite ranges_spans. unfold enter. rewrite BS. destruct (is_plain c); reflexivity.
    + destruct sg; [|reflexivity]. lia.
Qed.

Lemma run_layout sg rest : forall first s sec, (first = true -> s = 0) -> inside first sec -> follows sec rest ->
  Forall (segno_free sg) (map region_of (timed s sec rest)) ->
  exists st' new s', st_run sg (enter first s sec) (section_bars sec ++ rest_bars rest) = Ret (Ok (st', new)) /\
    closing st' = Some s' /\ new ++ [RSeq (s', u32_max)] = map region_of (timed s sec rest).
Proof.
  induction rest as [|[b c] rest IH]; intros first s sec F0 I F SF.
  - cbn [follows] in F. destruct sec; try discriminate. cbn [rest_bars flat_map]. rewrite app_nil_r, run_section by auto.
    eexists _, [], s. split; [reflexivity|]. cbn [leave enter is_plain closing timed map region_of app]. destruct first; [rewrite F0 by reflexivity|]; auto.
  - destruct F as [B [IC F]]. cbn [timed map] in SF. inversion SF as [|? ? SF1 SF2]; subst.
    cbn [rest_bars flat_map fst snd]. rewrite st_run_app, run_section by auto. cbn [bind app st_run]. rewrite (step_boundary sg first s sec b c) by auto. cbn [bind].
    destruct (IH false (b_tick b) c) as [st' [new [s' [R [CL E]]]]]; auto; [discriminate|]. unfold rest_bars in R. rewrite R. cbn [bind].
    exists st', (region_of (s, sec, b_tick b) :: new), s'. split; [reflexivity|]. split; [exact CL|]. cbn [timed map app]. rewrite <- E. reflexivity.
Qed.
