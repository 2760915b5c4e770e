(** Property theorems about projects that differ in blank bars only: C93. *)
From Coq Require Import ZArith List Bool Lia Sorted Permutation.
From Verif Require Import Base M_Pitch M_Duration M_Percent M_Scalar M_Bar M_Note M_Store M_Tuple M_Models M_Project M_Repeat.
From Verif Require Import S_Project S_Score S_Repeat S_Lines S_Effect S_Safe S_Move S_Order S_Blank P_Base P_Store P_Query P_Replenish P_Edit P_History P_Effect P_Lines.
From Verif Require Import T_Move.
From Verif Require T_Project T_Safe T_Order T_Repeat.
Import ListNotations.
Open Scope Z_scope.

Lemma apart_sym p q : apart_from_blanks p q -> apart_from_blanks q p.
Proof. intros [(A1 & A1' & A1'') A2 A3 A4 A5 A6 A7]. constructor; auto. symmetry. exact A2. Qed.

(** ** In force *)
Lemma apart_setting {A} (f : bar -> option A) p q : (forall b, blank b -> f b = None) -> apart_from_blanks p q ->
  forall k a, In (k, a) (setting f (pj_bars p)) <-> In (k, a) (setting f (pj_bars q)).
Proof.
  intros F H k a. rewrite !setting_in. destruct H as [_ _ _ _ _ H6 H7]. split; intros (b & I & E).
  - destruct (H6 k b I) as [J|[J _]]; [eauto|]. rewrite (F b J) in E. discriminate.
  - destruct (H7 k b I) as [J|[J _]]; [eauto|]. rewrite (F b J) in E. discriminate.
Qed.
Lemma latest_same {V} (s s' : list (Z * V)) t o : (forall k v, In (k, v) s <-> In (k, v) s') -> latest s t o -> latest s' t o.
Proof.
  intros H. destruct o as [v|]; cbn.
  - intros (k & I & L & M). exists k. split; [apply H, I|]. split; [exact L|]. intros k' v' J. apply (M k' v'), H, J.
  - intros N k v I. apply (N k v), H, I.
Qed.

(** The same time signatures, keys, tempos and pedals are in force everywhere. *)
Theorem C93_in_force : forall p q t, project_ok p -> project_ok q -> apart_from_blanks p q ->
  rhythm_at p t = rhythm_at q t /\ key_at p t = key_at q t /\ tempo_at p t = tempo_at q t /\ dumper_at p t = dumper_at q t /\ soft_at p t = soft_at q t.
Proof.
  intros p q t O O' A. pose proof A as [(A1 & A1' & A1'') A2 A3 A4 A5 A6 A7].
  split; [|split; [|split; [|split]]].
  - destruct (rhythm_at_spec p t (ok_bars _ O)) as (o & L & E). rewrite E, <- A1. symmetry. apply rhythm_latest; [apply ok_bars, O'|].
    eapply latest_same; [|exact L]. apply apart_setting; [|exact A]. intros b (B & _). exact B.
  - destruct (key_at_spec p t (ok_bars _ O)) as (o & L & E). rewrite E, <- A1'. symmetry. apply key_latest; [apply ok_bars, O'|].
    eapply latest_same; [|exact L]. apply apart_setting; [|exact A]. intros b (_ & B & _). exact B.
  - unfold tempo_at. rewrite A3. reflexivity.
  - unfold dumper_at. rewrite A4. reflexivity.
  - unfold soft_at. rewrite A5. reflexivity.
Qed.
Print Assumptions C93_in_force.

(** ** Heard *)
Lemma ticks_none b : blank b -> unmarked b.
Proof. intros (_ & _ & M) m. unfold has. rewrite M. destruct m; reflexivity. Qed.

Lemma drop_lines r (keep : bar -> bool) l2 : forall l1,
  (forall a b c, l1 = a ++ b :: c -> keep b = false -> unmarked b /\ (match rev a with [] => True | x :: _ => no_var x end) /\
     (marked Dc (l1 ++ l2) = [] \/ exists x, In x a /\ b_tick x <> 0)) ->
  render_region r (l1 ++ l2) = render_region r (filter keep l1 ++ l2).
Proof.
  intros l1. revert l2. induction l1 as [|b a IH] using rev_ind; intros l2 H; [reflexivity|].
  rewrite filter_app, <- !app_assoc. cbn [filter app]. destruct (keep b) eqn:K.
  - cbn [app]. apply (IH (b :: l2)). intros a' b' c' E K'. destruct (H a' b' (c' ++ [b])) as (H1 & H2 & H3); [rewrite E, <- app_assoc; reflexivity|exact K'|].
    split; [exact H1|]. split; [exact H2|]. rewrite <- app_assoc in H3. exact H3.
  - destruct (H a b [] eq_refl K) as (H1 & H2 & H3). cbn [app]. rewrite render_cut.
    + apply (IH l2). intros a' b' c' E K'. destruct (H a' b' (c' ++ [b])) as (G1 & G2 & G3); [rewrite E, <- app_assoc; reflexivity|exact K'|].
      split; [exact G1|]. split; [exact G2|]. destruct G3 as [G3|G3]; [left|right; exact G3]. revert G3. unfold marked. rewrite <- app_assoc, !filter_app. cbn [filter app].
      rewrite (H1 Dc). auto.
    + unfold cuts. destruct (rev a) as [|x a'] eqn:E; [exact H1|]. left. auto.
    + destruct H3 as [H3|H3]; [left|right; exact H3]. revert H3. unfold marked. rewrite <- app_assoc, !filter_app. cbn [filter app].
      rewrite (H1 Dc). auto.
Qed.

Definition also (q : project) (kb : Z * bar) : bool := if in_dec Z.eq_dec (fst kb) (map fst (pj_bars q)) then true else false.
Lemma keyed_filter {V} (tick : V -> Z) (f : Z * V -> bool) s : keyed tick s -> keyed tick (filter f s).
Proof.
  intros [S K]. split.
  - clear K. induction S as [|x s S IH F]; cbn; [constructor|]. destruct (f x); [|exact IH]. constructor; [exact IH|]. apply Forall_forall.
    intros y I. apply filter_In in I as [I _]. rewrite Forall_forall in F. auto.
  - intros k v I. apply filter_In in I as [I _]. auto.
Qed.
Lemma filter_snd {A B} (f : B -> bool) (g : A * B -> bool) (l : list (A * B)) : (forall x, In x l -> g x = f (snd x)) -> filter f (map snd l) = map snd (filter g l).
Proof.
  induction l as [|x l IH]; intros H; [reflexivity|]. cbn [map filter]. rewrite <- (H x) by now left. destruct (g x); cbn [map]; rewrite IH by (intros y I; apply H; now right); reflexivity.
Qed.
Lemma both_bars p q : project_ok p -> project_ok q -> apart_from_blanks p q -> filter (also q) (pj_bars p) = filter (also p) (pj_bars q).
Proof.
  intros O O' [_ _ _ _ _ A6 A7]. apply (store_eq b_tick); try (apply keyed_filter, ok_bars; assumption).
  intros k b. rewrite !filter_In. unfold also. cbn [fst]. split; intros [I J].
  - destruct (in_dec Z.eq_dec k (map fst (pj_bars q))) as [Q|]; [|discriminate]. destruct (A6 k b I) as [X|[_ X]]; [|tauto].
    split; [exact X|]. destruct in_dec as [_|N]; [reflexivity|]. exfalso. apply N. apply (in_map fst) in I. exact I.
  - destruct (in_dec Z.eq_dec k (map fst (pj_bars p))) as [Q|]; [|discriminate]. destruct (A7 k b I) as [X|[_ X]]; [|tauto].
    split; [exact X|]. destruct in_dec as [_|N]; [reflexivity|]. exfalso. apply N. apply (in_map fst) in I. exact I.
Qed.
Lemma in_score p b : project_ok p -> (In b (score p) <-> In (b_tick b, b) (pj_bars p)).
Proof.
  intros O. unfold score. rewrite in_map_iff. split.
  - intros ([k b'] & <- & I). cbn [snd]. destruct (ok_bars _ O) as [_ K]. destruct (K k b' I) as [-> _]. exact I.
  - intros I. exists (b_tick b, b). auto.
Qed.

Lemma heard_common p q : project_ok p -> project_ok q -> apart_from_blanks p q -> (forall b, only_in p q b -> passed_over p b) ->
  render_project p = render_region (pj_rhythm p) (map snd (filter (also q) (pj_bars p))).
Proof.
  intros O O' A H. unfold render_project, score. set (keep := fun b => if in_dec Z.eq_dec (b_tick b) (map fst (pj_bars q)) then true else false).
  rewrite <- (filter_snd keep).
  2:{ intros [k b] I. unfold also, keep. cbn [fst snd]. destruct (ok_bars _ O) as [_ K]. destruct (K k b I) as [-> _]. reflexivity. }
  fold (score p). rewrite <- (app_nil_r (score p)) at 1. rewrite <- (app_nil_r (filter keep (score p))). apply drop_lines.
  intros a b c E K. assert (I : In b (score p)) by (rewrite E; apply in_app_iff; right; left; reflexivity).
  assert (N : ~ In (b_tick b) (map fst (pj_bars q))) by (unfold keep in K; destruct in_dec; [discriminate|assumption]).
  assert (NQ : ~ In b (score q)). { rewrite (in_score q b O'). intros J. apply N. apply (in_map fst) in J. exact J. }
  destruct (ap_there _ _ A (b_tick b) b) as [J|[BL _]]; [apply (in_score p b O), I|exfalso; apply NQ, (in_score q b O'), J|].
  split; [apply ticks_none, BL|]. destruct (H b (conj I NQ)) as [H1 H2].
  assert (S : StronglySorted (fun x y => b_tick x < b_tick y) (score p)).
  { unfold score. destruct (ok_bars _ O) as [S K']. clear - S K'. induction S as [|[k x] s S IH F]; cbn; [constructor|]. constructor; [apply IH; intros; apply K'; now right|].
    apply Forall_forall. intros y J. apply in_map_iff in J as ([k' y'] & <- & J). rewrite Forall_forall in F. specialize (F _ J). cbn [fst snd] in *.
    destruct (K' k x (or_introl eq_refl)) as [<- _], (K' k' y' (or_intror J)) as [<- _]. exact F. }
  assert (L : forall y, In y a -> b_tick y < b_tick b).
  { intros y J. rewrite E in S. clear - S J. induction a as [|z a IH]; [destruct J|]. cbn in S. inversion S as [|? ? S1 S2]; subst. destruct J as [->|J]; [|auto].
    rewrite Forall_forall in S2. apply S2, in_app_iff. right. left. reflexivity. }
  assert (G : forall y, In y (score p) -> b_tick y < b_tick b -> In y a).
  { intros y J T. rewrite E in J. apply in_app_iff in J as [J|[->|J]]; [exact J|lia|]. exfalso. rewrite E in S. clear - S J T.
    induction a as [|z a IH]; cbn in S; inversion S as [|? ? S1 S2]; subst; [|auto]. rewrite Forall_forall in S2. specialize (S2 y J). lia. }
  split.
  - destruct (rev a) as [|x a'] eqn:R; [exact Logic.I|]. assert (RA : a = rev a' ++ [x]) by (rewrite <- (rev_involutive a), R; reflexivity).
    assert (Ix : In x a) by (rewrite RA; apply in_app_iff; right; left; reflexivity).
    apply H1; [rewrite E; apply in_app_iff; auto|apply L, Ix|]. intros y Iy Ty. apply G in Iy; [|exact Ty]. rewrite RA in Iy. apply in_app_iff in Iy as [Iy|[->|[]]]; [|lia].
    rewrite E, RA in S. clear - S Iy. induction (rev a') as [|z l IH]; [destruct Iy|]. cbn in S. inversion S as [|? ? S1 S2]; subst. destruct Iy as [->|Iy]; [|auto].
    rewrite Forall_forall in S2. specialize (S2 x). assert (b_tick y < b_tick x); [|lia]. apply S2. rewrite <- app_assoc, in_app_iff. right. left. reflexivity.
  - rewrite app_nil_r. destruct H2 as [H2|(x & Ix & T)]; [left; exact H2|]. right. exists x. split; [apply G; [exact Ix|lia]|lia].
Qed.

(** And the same is played, with the same warnings or the same error, unless a blank bar follows a bar in an ending of a repeat or
    lies inside the first bar of a score with D.C. *)
Theorem C93_heard : forall p q, project_ok p -> project_ok q -> apart_from_blanks p q ->
  (forall b, only_in p q b -> passed_over p b) -> (forall b, only_in q p b -> passed_over q b) -> render_project p = render_project q.
Proof.
  intros p q O O' A H H'. rewrite (heard_common p q O O' A H), (heard_common q p O' O (apart_sym _ _ A) H').
  rewrite (both_bars p q O O' A). destruct (ap_settings _ _ A) as (-> & _). reflexivity.
Qed.
Print Assumptions C93_heard.

(** ** Places *)
Lemma filter_to {V} t (s : list (Z * V)) : srt V s -> forall i k b, nth_error s i = Some (k, b) -> k <= t ->
  (forall k' b', nth_error s (S i) = Some (k', b') -> t < k') -> filter (fun x => fst x <=? t) s = firstn (S i) s.
Proof.
  induction s as [|[k0 b0] s IH]; intros S i k b N L M; [destruct i; discriminate|]. apply srt_cons in S as [S G]. cbn [fst] in G.
  destruct i as [|i]; cbn [nth_error] in N.
  - injection N as -> ->. cbn [filter fst]. rewrite (proj2 (Z.leb_le _ _) L). cbn [firstn]. f_equal.
    destruct s as [|[k1 b1] s]; [reflexivity|]. cbn [nth_error] in M. specialize (M k1 b1 eq_refl). apply srt_cons in S as [_ S]. cbn [fst] in S.
    assert (X : forall x, In x ((k1, b1) :: s) -> (fst x <=? t) = false).
    { intros [k' b'] [E|J]; cbn; apply Z.leb_gt; [injection E as <- <-; exact M|]. apply S in J. lia. }
    revert X. generalize ((k1, b1) :: s). clear. induction l as [|x l IH]; intros X; [reflexivity|]. cbn [filter]. rewrite (X x) by now left. apply IH. intros; apply X; now right.
  - assert (K : k0 <= t). { apply nth_error_In in N. apply G in N. lia. }
    cbn [filter fst]. rewrite (proj2 (Z.leb_le _ _) K). change (firstn (Datatypes.S (Datatypes.S i)) ((k0, b0) :: s)) with ((k0, b0) :: firstn (Datatypes.S i) s). f_equal. eapply IH; eauto.
Qed.
Lemma filter_none {V} t (s : list (Z * V)) : (forall k b, In (k, b) s -> t < k) -> filter (fun x => fst x <=? t) s = [].
Proof.
  intros H. induction s as [|[k b] s IH]; [reflexivity|]. cbn [filter fst]. rewrite (proj2 (Z.leb_gt _ _)); [apply IH; intros k' b' I; apply (H k' b'); right; exact I|]. apply (H k b). left. reflexivity.
Qed.

(** A place before the first blank bar that only one of them has is shown in the same way. *)
Theorem C93_location : forall p q t, project_ok p -> project_ok q -> apart_from_blanks p q -> u32 t ->
  (forall b, only_in p q b -> t < b_tick b) -> (forall b, only_in q p b -> t < b_tick b) -> tick_to_location p t = tick_to_location q t.
Proof.
  intros p q t O O' A U H H'.
  assert (E : filter (fun x => fst x <=? t) (pj_bars p) = filter (fun x => fst x <=? t) (pj_bars q)).
  { apply (store_eq b_tick); try (apply keyed_filter, ok_bars; assumption). intros k b. rewrite !filter_In. cbn [fst].
    assert (X : forall p q, project_ok p -> project_ok q -> apart_from_blanks p q -> (forall b, only_in p q b -> t < b_tick b) -> In (k, b) (pj_bars p) -> (k <=? t) = true -> In (k, b) (pj_bars q)).
    { clear. intros p q O O' A H I L. destruct (ap_there _ _ A k b I) as [J|[_ J]]; [exact J|]. exfalso. apply Z.leb_le in L.
      destruct (ok_bars _ O) as [_ K]. destruct (K k b I) as [-> _].
      assert (t < b_tick b); [|lia]. apply H. split; [apply (in_score p b O), I|]. rewrite (in_score q b O'). intros J'. apply J. apply (in_map fst) in J'. exact J'. }
    split; intros [I L]; (split; [|exact L]); [apply (X p q)|apply (X q p)]; auto using apart_sym. }
  destruct (tick_to_location_spec p t (ok_bars _ O) U) as (l & L & _). destruct (tick_to_location_spec q t (ok_bars _ O') U) as (l' & L' & _). rewrite L, L'. f_equal.
  destruct (T_Project.C24_meaning p t l O U L) as [(B & F & N)|(i & k & b & B & N & K & F & M)];
  destruct (T_Project.C24_meaning q t l' O' U L') as [(B' & F' & N')|(i' & k' & b' & B' & N1' & K' & F' & M')].
  - destruct l, l'. cbn in *. congruence.
  - rewrite (filter_none t (pj_bars p) N) in E. rewrite (filter_to t (pj_bars q) (keyed_srt _ _ (ok_bars _ O')) i' k' b' N1' K' M') in E.
    destruct (pj_bars q); [destruct i'; discriminate|discriminate].
  - rewrite (filter_none t (pj_bars q) N') in E. rewrite (filter_to t (pj_bars p) (keyed_srt _ _ (ok_bars _ O)) i k b N K M) in E.
    destruct (pj_bars p); [destruct i; discriminate|discriminate].
  - rewrite (filter_to t (pj_bars p) (keyed_srt _ _ (ok_bars _ O)) i k b N K M), (filter_to t (pj_bars q) (keyed_srt _ _ (ok_bars _ O')) i' k' b' N1' K' M') in E.
    assert (LI : (i < length (pj_bars p))%nat) by (apply nth_error_Some; congruence). assert (LI' : (i' < length (pj_bars q))%nat) by (apply nth_error_Some; congruence).
    assert (i = i') as <-. { apply (f_equal (@length _)) in E. rewrite !firstn_length in E. lia. }
    assert (NE : nth_error (firstn (S i) (pj_bars p)) i = nth_error (firstn (S i) (pj_bars q)) i) by (rewrite E; reflexivity).
    assert (NF : forall s : list (Z * bar), nth_error (firstn (S i) s) i = nth_error s i).
    { clear. induction i as [|i IH]; intros [|x s]; auto. exact (IH s). }
    rewrite !NF, N, N1' in NE. destruct l, l'. cbn in *. congruence.
Qed.
Print Assumptions C93_location.

(** ** What follows for edits *)
Lemma blanks_apart p q : with_blanks p q -> apart_from_blanks p q.
Proof. intros [A1 A2 A3 A4 A5 A6 A7]. constructor; auto. Qed.

(** In whatever order edits of different elements are made (C92), and after moving elements there and back (C88), the same is in
    force everywhere. *)
Theorem C93_edits : forall p es es' out into q q' t, project_ok p -> Forall edit_typed es -> all_take es out into ->
  all_present p out -> all_distinct into -> ForallOrdPairs apart es -> Permutation es es' ->
  edits_done p es q -> edits_done p es' q' ->
  rhythm_at q t = rhythm_at q' t /\ key_at q t = key_at q' t /\ tempo_at q t = tempo_at q' t /\ dumper_at q t = dumper_at q' t /\ soft_at q t = soft_at q' t.
Proof.
  intros p es es' out into q q' t O T K P D F X R R'. apply C93_in_force.
  - apply (T_Order.edits_all p es out into q O T K P D F R).
  - destruct (T_Order.takes_any es es' X out into K) as (out' & into' & K' & A & B).
    apply (T_Order.edits_all p es' out' into' q' O); auto.
    + eapply Permutation_Forall; eassumption.
    + eapply T_Order.am_present; eassumption.
    + eapply T_Order.am_distinct; eassumption.
    + eapply T_Order.pairs_any; eassumption.
  - eapply T_Order.C92_any_order; eassumption.
Qed.
Print Assumptions C93_edits.

Theorem C93_there_and_back : forall p c q t, project_ok p -> all_present p (changes_from c) -> edit_typed (EChange c) ->
  all_distinct (changes_from c) -> all_distinct (changes_to c) -> all_free p (changes_from c) (changes_to c) ->
  edits_done p [EChange c; EChange (back c)] q -> (forall b, only_in q p b -> passed_over q b) ->
  render_project q = render_project p /\
  rhythm_at q t = rhythm_at p t /\ key_at q t = key_at p t /\ tempo_at q t = tempo_at p t /\ dumper_at q t = dumper_at p t /\ soft_at q t = soft_at p t.
Proof.
  intros p c q t O P T D D' F R H. pose proof (C88_there_and_back p c q O P T D D' F R) as W. pose proof (apart_sym _ _ (blanks_apart p q W)) as A.
  assert (OQ : project_ok q).
  { inversion R as [|? ? k q1 ? ? R1 R2]; subst. inversion R2 as [|? ? k2 q2 ? ? R3 R4]; subst. inversion R4; subst.
    assert (T' : edit_typed (EChange (back c))) by (cbn [edit_typed] in *; rewrite back_from, back_to; tauto).
    apply (edit_ok _ _ _ _ (proj1 (edit_ok _ _ _ _ O T R1)) T' R3). }
  split; [|apply C93_in_force; assumption]. apply C93_heard; auto. intros b [I N]. exfalso. apply N. apply (in_score q b OQ), (wb_bars _ _ W), (in_score p b O), I.
Qed.
Print Assumptions C93_there_and_back.

(** A blank bar among the bars of an ending, and one inside the first bar of a score with D.C., do change what is played. *)
Definition plain_project (bars : list bar) : project := mkProject T_Repeat.four_four 0 60 [] (map bar_entry bars) [] [] [].
Ltac keyed_tac := split; [repeat constructor; cbn; lia|cbn; intros k v I; repeat destruct I as [I|I]; try (injection I as <- <-; split; [reflexivity|unfold u32, u32_max; lia]); destruct I].
Lemma with_one a b c : project_ok (plain_project (a ++ c)) -> project_ok (plain_project (a ++ b :: c)) -> blank b -> ~ In (b_tick b) (map b_tick (a ++ c)) ->
  apart_from_blanks (plain_project (a ++ c)) (plain_project (a ++ b :: c)).
Proof.
  intros O O' B N. constructor; auto.
  - intros k x I. left. cbn [plain_project pj_bars] in *. apply in_map_iff in I as (y & E & I). apply in_map_iff. exists y. split; [exact E|].
    apply in_app_iff in I. apply in_app_iff. cbn. tauto.
  - intros k x I. cbn [plain_project pj_bars] in *. apply in_map_iff in I as (y & E & I). apply in_app_iff in I as [I|[<-|I]].
    + left. apply in_map_iff. exists y. rewrite in_app_iff. auto.
    + right. injection E as <- <-. split; [exact B|]. rewrite map_map. exact N.
    + left. apply in_map_iff. exists y. rewrite in_app_iff. auto.
Qed.
Theorem C93_ending_refuted : exists p q, project_ok p /\ project_ok q /\ apart_from_blanks p q /\ render_project p <> render_project q.
Proof.
  pose (l1 := [T_Repeat.bar_at 960 [Start]; T_Repeat.bar_at 1920 [Var1]]). pose (l2 := [T_Repeat.bar_at 2880 [Var2]; T_Repeat.bar_at 3840 []]).
  exists (plain_project (l1 ++ l2)), (plain_project (l1 ++ T_Repeat.bar_at 2400 [] :: l2)).
  assert (O : project_ok (plain_project (l1 ++ l2))) by (constructor; keyed_tac).
  assert (O' : project_ok (plain_project (l1 ++ T_Repeat.bar_at 2400 [] :: l2))) by (constructor; keyed_tac).
  split; [exact O|]. split; [exact O'|]. split.
  - apply with_one; [exact O|exact O'|repeat split|]. cbn. intuition; discriminate.
  - intros E. vm_compute in E. discriminate.
Qed.
Print Assumptions C93_ending_refuted.
Theorem C93_upbeat_refuted : exists p q, project_ok p /\ project_ok q /\ apart_from_blanks p q /\ Forall no_var (score p) /\ render_project p <> render_project q.
Proof.
  pose (l2 := [T_Repeat.bar_at 960 []; T_Repeat.bar_at 1920 [Fine]; T_Repeat.bar_at 2880 [Dc]]).
  exists (plain_project ([] ++ l2)), (plain_project ([] ++ T_Repeat.bar_at 240 [] :: l2)).
  assert (O : project_ok (plain_project ([] ++ l2))) by (constructor; keyed_tac).
  assert (O' : project_ok (plain_project ([] ++ T_Repeat.bar_at 240 [] :: l2))) by (constructor; keyed_tac).
  split; [exact O|]. split; [exact O'|]. split; [|split].
  - apply with_one; [exact O|exact O'|repeat split|]. cbn. intuition; discriminate.
  - repeat constructor; intros m; destruct m; intros V; try discriminate V; reflexivity.
  - intros E. vm_compute in E. discriminate.
Qed.
Print Assumptions C93_upbeat_refuted.

(** The edits of [C92_case] in two orders, with different blank bars behind, and a move there and back. *)
Example C93_case : exists q q', edits_done T_Project.ex_project T_Order.mixed q /\ edits_done T_Project.ex_project (rev T_Order.mixed) q' /\
  (exists b, only_in q q' b) /\ (exists b, only_in q' q b) /\
  (forall b, only_in q q' b -> passed_over q b /\ 960 < b_tick b) /\ (forall b, only_in q' q b -> passed_over q' b /\ 960 < b_tick b).
Proof.
  eexists. eexists. split; [repeat (eapply done_cons; [vm_compute; reflexivity|]); apply done_nil|].
  split; [cbn [rev app T_Order.mixed]; repeat (eapply done_cons; [vm_compute; reflexivity|]); apply done_nil|].
  assert (NV : forall t, no_var (mkBar t None None 0)) by (intros t m V; destruct m; reflexivity).
  split. { exists (mkBar 2640 None None 0). split; cbn; intuition; discriminate. }
  split. { exists (mkBar 2880 None None 0). split; cbn; intuition; discriminate. }
  split; intros b [I N]; cbn in I, N; (split; [split; [|left; reflexivity]|]).
  1,3: intros x J _ _; cbn in J; repeat destruct J as [<-|J]; try destruct J; apply NV.
  all: repeat destruct I as [<-|I]; try destruct I; cbn; try lia; exfalso; apply N; tauto.
Qed.
