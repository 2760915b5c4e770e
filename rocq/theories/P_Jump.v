(** Lemmas about sets of ticks and about what D.C. and D.S. play. *)
From Coq Require Import Sorted Permutation.
From Verif Require Import P_Base M_Duration M_Scalar M_Bar M_Store M_Repeat S_Note S_Repeat P_Marks P_Chunk P_Machine P_Errors P_Order.
Import ListNotations.
Open Scope Z_scope.
#[local] Hint Constructors Forall : core.

(** ** Interval sets *)
Fixpoint iv_ok (lo : Z) (l : iset) : Prop :=
  match l with [] => True | (a, b) :: l' => lo <= a <= b /\ iv_ok (b + 1) l' end.
Definition in_iv (t : Z) (l : iset) : Prop := Exists (fun i => fst i <= t <= snd i) l.

Lemma iv_ok_le lo lo' l : lo' <= lo -> iv_ok lo l -> iv_ok lo' l.
Proof. destruct l as [|[a b] l]; cbn; [auto|]. intros H [H1 H2]. split; [lia|auto]. Qed.
Lemma in_iv_lo lo l t : iv_ok lo l -> in_iv t l -> lo <= t.
Proof.
  revert lo. induction l as [|[a b] l IH]; intros lo K I; inversion I; subst; cbn in *; [lia|]. destruct K as [K1 K2]. specialize (IH _ K2 H0). lia.
Qed.
Lemma iv_ok_app lo m a b : iv_ok lo a -> Forall (fun i => snd i <= m) a -> lo <= m + 1 -> iv_ok (m + 1) b -> iv_ok lo (a ++ b).
Proof.
  revert lo. induction a as [|[x y] a IH]; intros lo K F L B; cbn in *; [eapply iv_ok_le; eauto|].
  inversion F; subst. cbn in *. destruct K as [K1 K2]. split; auto. apply IH; auto. lia.
Qed.
Lemma in_iv_app t a b : in_iv t (a ++ b) <-> in_iv t a \/ in_iv t b.
Proof. apply Exists_app. Qed.

Definition fst_sorted (l : iset) : Prop := StronglySorted (fun i j => fst i <= fst j) l.

Lemma insert_In i l x : In x (iv_insert i l) <-> x = i \/ In x l.
Proof.
  induction l as [|j l IH]; cbn; [intuition|]. destruct (fst i <=? fst j); cbn; [intuition|]. rewrite IH. intuition.
Qed.
Lemma insert_sorted i l : fst_sorted l -> fst_sorted (iv_insert i l).
Proof.
  induction 1 as [|j l S IH F]; cbn; [repeat constructor|]. destruct (Z.leb_spec (fst i) (fst j)).
  - constructor; [constructor; auto|]. constructor; auto. eapply Forall_impl; [|exact F]. cbn. lia.
  - constructor; auto. apply Forall_forall. intros x X. apply insert_In in X. destruct X as [->|X]; [lia|]. rewrite Forall_forall in F. auto.
Qed.
Lemma sort_In l x : In x (iv_sort l) <-> In x l.
Proof. induction l as [|i l IH]; cbn; [tauto|]. rewrite insert_In, IH. intuition. Qed.
Lemma sort_sorted l : fst_sorted (iv_sort l).
Proof. induction l as [|i l IH]; cbn; [constructor|]. apply insert_sorted. exact IH. Qed.

Lemma join_spec l : forall cur, fst cur <= snd cur -> Forall (fun i => fst i <= snd i) l -> fst_sorted (cur :: l) ->
  iv_ok (fst cur) (iv_join cur l) /\ forall t, in_iv t (iv_join cur l) <-> in_iv t (cur :: l).
Proof.
  induction l as [|[lo hi] l IH]; intros [a b] C F S; cbn [iv_join fst snd] in *.
  - split; [cbn; lia|tauto].
  - inversion F as [|? ? F1 F2]; subst. cbn [fst snd] in *. inversion S as [|? ? S1 S2]; subst. inversion S2 as [|? ? S3 S4]; subst. inversion S1 as [|? ? S5 S6]; subst. cbn [fst snd] in *.
    destruct (Z.leb_spec lo (b + 1)).
    + destruct (IH (a, Z.max b hi)) as [K M]; [cbn [fst snd]; lia|exact F2|constructor; auto|].
      split; [exact K|]. intros t. rewrite M. unfold in_iv. rewrite !Exists_cons. cbn [fst snd].
      split; [intros [X|X]; [|auto]|intros [X|[X|X]]; [left; lia|left; lia|auto]].
      destruct (Z.le_gt_cases t b); [left; lia|]. right. left. lia.
    + destruct (IH (lo, hi)) as [K M]; [cbn [fst snd]; lia|exact F2|constructor; auto|]. cbn [fst snd] in K. split.
      * cbn [iv_ok]. split; [lia|]. eapply iv_ok_le; [|exact K]. lia.
      * intros t. specialize (M t). unfold in_iv in *. rewrite Exists_cons, M, !Exists_cons. tauto.
Qed.
Lemma normal_spec l : Forall (fun i => fst i <= snd i) l ->
  (forall lo, Forall (fun i => lo <= fst i) l -> iv_ok lo (iv_normal l)) /\ forall t, in_iv t (iv_normal l) <-> in_iv t l.
Proof.
  intros F. unfold iv_normal.
  assert (M : forall t, in_iv t (iv_sort l) <-> in_iv t l).
  { intros t. unfold in_iv. rewrite !Exists_exists. split; intros [x [X Y]]; exists x; rewrite sort_In in *; auto. }
  assert (F' : Forall (fun i => fst i <= snd i) (iv_sort l)).
  { rewrite Forall_forall in *. intros x X. apply F. apply sort_In. exact X. }
  pose proof (sort_sorted l) as S. destruct (iv_sort l) as [|i l'] eqn:E.
  - split; [intros; exact I|]. intros t. rewrite <- M. tauto.
  - inversion F'; subst. destruct (join_spec l' i H1 H2 S) as [K J]. split.
    + intros lo L. eapply iv_ok_le; [|exact K]. rewrite Forall_forall in L. apply L. apply sort_In. rewrite E. cbn. auto.
    + intros t. rewrite J. apply M.
Qed.

Definition iv_in (lo hi : Z) (l : iset) : Prop := iv_ok lo l /\ Forall (fun i => snd i <= hi) l.

Lemma ok_bounds lo l : iv_ok lo l -> Forall (fun i => lo <= fst i <= snd i) l.
Proof.
  revert lo. induction l as [|[a b] l IH]; intros lo K; cbn in *; [constructor|]. destruct K as [K1 K2]. constructor; [cbn; lia|].
  eapply Forall_impl; [|apply (IH _ K2)]. cbn. lia.
Qed.
Lemma in_iv_hi hi l t : Forall (fun i => snd i <= hi) l -> in_iv t l -> t <= hi.
Proof. intros F I. unfold in_iv in I. rewrite Exists_exists in I. destruct I as [i [I1 I2]]. rewrite Forall_forall in F. specialize (F _ I1). cbn in *. lia. Qed.

Definition clip (i : Z * Z) (b : iset) : iset :=
  flat_map (fun j => let lo := Z.max (fst i) (fst j) in let hi := Z.min (snd i) (snd j) in if lo <=? hi then [(lo, hi)] else []) b.
Lemma clip_spec i b : forall lo, iv_ok lo b -> iv_ok (Z.max (fst i) lo) (clip i b) /\ Forall (fun j => snd j <= snd i) (clip i b) /\
  forall t, in_iv t (clip i b) <-> fst i <= t <= snd i /\ in_iv t b.
Proof.
  induction b as [|[x y] b IH]; intros lo K; cbn [clip flat_map].
  - repeat split; auto; intros; try (inversion H; fail); destruct H as [_ H]; inversion H.
  - cbn in K. destruct K as [K1 K2]. destruct (IH _ K2) as [A [B C]]. unfold clip in *. cbn [fst snd].
    destruct (Z.leb_spec (Z.max (fst i) x) (Z.min (snd i) y)) as [L|L]; cbn [app].
    + split; [|split].
      * cbn. split; [lia|]. destruct (Z.le_gt_cases (snd i) y) as [Y|Y].
        -- (* nothing more of i *)
           assert (E : forall b lo, iv_ok lo b -> snd i < lo -> flat_map (fun j => if Z.max (fst i) (fst j) <=? Z.min (snd i) (snd j) then [(Z.max (fst i) (fst j), Z.min (snd i) (snd j))] else []) b = []).
           { clear. induction b as [|[x y] b IH]; intros lo K L; [reflexivity|]. cbn in K. destruct K as [K1 K2]. cbn [flat_map fst snd].
             replace (Z.max (fst i) x <=? Z.min (snd i) y) with false by lia. cbn. eapply IH; eauto. lia. }
           cbn zeta. rewrite (E b (y + 1)); [exact I|exact K2|lia].
        -- eapply iv_ok_le; [|exact A]. lia.
      * constructor; [cbn; lia|exact B].
      * intros t. unfold in_iv in *. rewrite !Exists_cons. cbn [fst snd]. rewrite C.
        split; [intros [X|X]; [split; [lia|left; lia]|tauto]|]. intros [X [Y|Y]]; [left; lia|tauto].
    + split; [eapply iv_ok_le; [|exact A]; lia|]. split; [exact B|]. intros t. unfold in_iv in *. rewrite C, Exists_cons. cbn [fst snd].
      split; [tauto|]. intros [X [Y|Y]]; [lia|tauto].
Qed.
Lemma inter_spec a : forall lo b lo', iv_ok lo a -> iv_ok lo' b -> iv_ok (Z.max lo lo') (iset_inter a b) /\
  forall t, in_iv t (iset_inter a b) <-> in_iv t a /\ in_iv t b.
Proof.
  induction a as [|[x y] a IH]; intros lo b lo' K B.
  - split; [exact I|]. intros t. unfold in_iv. cbn [iset_inter flat_map]. rewrite !Exists_nil. tauto.
  - cbn in K. destruct K as [K1 K2]. destruct (clip_spec (x, y) b lo' B) as [C1 [C2 C3]]. cbn [fst snd] in *.
    destruct (IH _ b lo' K2 B) as [I1 I2]. change (iset_inter ((x, y) :: a) b) with (clip (x, y) b ++ iset_inter a b). split.
    + destruct (Z.le_gt_cases (Z.max lo lo') (y + 1)).
      * apply (iv_ok_app _ y); auto; [eapply iv_ok_le; [|exact C1]; lia|]. eapply iv_ok_le; [|exact I1]. lia.
      * assert (E : clip (x, y) b = []).
        { destruct (clip (x, y) b) as [|[p q] r]; [reflexivity|]. exfalso. cbn in C1. inversion C2; subst. cbn in *. lia. }
        rewrite E. cbn [app]. eapply iv_ok_le; [|exact I1]. lia.
    + intros t. rewrite in_iv_app, C3, I2. unfold in_iv. rewrite Exists_cons. cbn [fst snd]. tauto.
Qed.

(** ** Chunks of a set *)
Definition set_chunks (l : iset) : list chunk := map (fun i => mkChunk (fst i) (snd i + 1)) l.
Lemma set_chunks_In l t : In t (performance (set_chunks l)) <-> in_iv t l.
Proof.
  unfold performance, set_chunks, in_iv. rewrite in_flat_map, Exists_exists. split.
  - intros [c [C T]]. apply in_map_iff in C. destruct C as [i [<- I]]. cbn in T. apply from_to_In in T. exists i. split; auto. lia.
  - intros [i [I T]]. exists (mkChunk (fst i) (snd i + 1)). split; [apply in_map_iff; eauto|]. cbn. apply from_to_In. lia.
Qed.
Lemma sorted_app a b : StronglySorted Z.lt a -> StronglySorted Z.lt b -> (forall x y, In x a -> In y b -> x < y) -> StronglySorted Z.lt (a ++ b).
Proof.
  intros A B H. induction A as [|x a A IH F]; [exact B|]. cbn. constructor.
  - apply IH. intros; apply H; cbn; auto.
  - apply Forall_app. split; auto. apply Forall_forall. intros y Y. apply H; cbn; auto.
Qed.
Lemma set_chunks_sorted l : forall lo, iv_ok lo l -> StronglySorted Z.lt (performance (set_chunks l)).
Proof.
  induction l as [|[a b] l IH]; intros lo K; [constructor|]. cbn in K. destruct K as [K1 K2]. cbn [set_chunks map fst snd]. rewrite perf_cons.
  apply sorted_app; [apply from_to_sorted|eapply IH; eauto|]. intros x y X Y. cbn in X. apply from_to_In in X.
  apply (set_chunks_In l) in Y. apply (in_iv_lo _ _ _ K2) in Y. lia.
Qed.
Lemma set_chunks_made hi l : Forall (fun i => 0 <= fst i <= snd i) l -> Forall (fun i => snd i < u32_max) l -> hi = u32_max ->
  omapM (fun sec => let! e := chk_u32 (snd sec + 1) in Ret (mkChunk (fst sec) e)) l = Ret (set_chunks l).
Proof.
  intros F G _. induction F as [|i l H F IH]; [reflexivity|]. inversion G; subst. cbn [omapM set_chunks map]. unfold chk_u32 at 1. rewrite chk_ret by lia. cbn [bind].
  rewrite IH by auto. reflexivity.
Qed.

Lemma sorted_same a : forall b, StronglySorted Z.lt a -> StronglySorted Z.lt b -> (forall t, In t a <-> In t b) -> a = b.
Proof.
  induction a as [|x a IH]; intros b A B H.
  - destruct b as [|y b]; [reflexivity|]. destruct (H y) as [_ X]. destruct X; cbn; auto.
  - destruct b as [|y b]; [destruct (H x) as [X _]; destruct X; cbn; auto|].
    inversion A as [|? ? A1 A2]; subst. inversion B as [|? ? B1 B2]; subst. rewrite Forall_forall in A2, B2.
    assert (x = y).
    { destruct (proj1 (H x) (or_introl eq_refl)) as [E|E]; [auto|]. destruct (proj2 (H y) (or_introl eq_refl)) as [E'|E']; [auto|].
      specialize (A2 _ E'). specialize (B2 _ E). lia. }
    subst y. f_equal. apply IH; auto. intros t. split; intros T.
    + destruct (proj1 (H t) (or_intror T)) as [<-|X]; [specialize (A2 _ T); lia|exact X].
    + destruct (proj2 (H t) (or_intror T)) as [<-|X]; [specialize (B2 _ T); lia|exact X].
Qed.
Lemma filter_sorted f l : StronglySorted Z.lt l -> StronglySorted Z.lt (filter f l).
Proof.
  induction 1 as [|x l S IH F]; cbn; [constructor|]. destruct (f x); auto. constructor; auto.
  apply Forall_forall. intros y Y. apply filter_In in Y. rewrite Forall_forall in F. apply F. tauto.
Qed.

(** ** The second pass over one section *)
Definition out (x : Z * section * Z) (t : Z) : bool :=
  let '(s, sec, e) := x in
  match sec with
  | Varied _ vs => (hd e (starts_of vs) <=? t) && (t <? last (starts_of vs) e)
  | _ => false
  end.
Lemma left_out_cons x l t : left_out (x :: l) t = out x t || left_out l t.
Proof. destruct x as [[s sec] e]. reflexivity. Qed.

Lemma single_set s e : 0 <= s < e -> e <= u32_max -> range_interval_set (s, e) = Ret [(s, e - 1)].
Proof.
  intros H U. unfold range_interval_set. cbn [fst snd]. unfold chk_u32. rewrite chk_ret by lia. cbn [bind]. unfold iset_of. cbn [forallb fst snd].
  replace (s <=? e - 1) with true by lia. reflexivity.
Qed.
Lemma spans_last_d e l : forall a d, last (spans (a :: l) e) d = (last (a :: l) e, e).
Proof. induction l as [|b l IH]; intros a d; [reflexivity|]. specialize (IH b d). cbn [spans hd] in *. exact IH. Qed.
Lemma last_cons {A} (v : A) vs : last vs v = last (v :: vs) v.
Proof. destruct vs; reflexivity. Qed.
Lemma spans_last l e : l <> [] -> last_variation (spans l e) = Ret (last l e, e).
Proof.
  destruct l as [|a l]; [congruence|]. intros _. change (spans (a :: l) e) with ((a, hd e l) :: spans l e). cbn [last_variation]. rewrite last_cons.
  change ((a, hd e l) :: spans l e) with (spans (a :: l) e). rewrite spans_last_d. reflexivity.
Qed.

Lemma iter1_set s lo sec e : 0 <= s -> s < lo -> lo <= e <= u32_max -> starts_in lo e sec ->
  exists is, iter1_interval_set (region_of (s, sec, e)) = Ret is /\ iv_ok s is /\
    forall t, in_iv t is <-> s <= t < e /\ out (s, sec, e) t = false.
Proof.
  intros S SL LE SI. destruct sec as [l|l|c vs]; cbn [region_of iter1_interval_set out].
  - rewrite single_set by lia. eexists. split; [reflexivity|]. split; [cbn; lia|]. intros t. unfold in_iv. rewrite Exists_cons, Exists_nil. cbn. lia.
  - rewrite single_set by lia. eexists. split; [reflexivity|]. split; [cbn; lia|]. intros t. unfold in_iv. rewrite Exists_cons, Exists_nil. cbn. lia.
  - destruct SI as [N [SS F]]. rewrite Forall_forall in F.
    assert (H : In (hd e (starts_of vs)) (starts_of vs)) by (destruct (starts_of vs); [congruence|cbn; auto]).
    assert (L : In (last (starts_of vs) e) (starts_of vs)) by (destruct (exists_last N) as [a [x ->]]; rewrite last_last, in_app_iff; cbn; auto).
    assert (HL : hd e (starts_of vs) <= last (starts_of vs) e).
    { clear - N SS. destruct (starts_of vs) as [|a r]; [congruence|]. cbn [hd]. inversion SS; subst. destruct r as [|b r]; [cbn; lia|].
      assert (In (last (a :: b :: r) e) (b :: r)). { change (last (a :: b :: r) e) with (last (b :: r) e). destruct (@exists_last _ (b :: r)) as [x [y ->]]; [discriminate|]. rewrite last_last, in_app_iff. cbn. auto. }
      rewrite Forall_forall in H2. specialize (H2 _ H). lia. }
    pose proof (F _ H). pose proof (F _ L). rewrite single_set by lia. cbn [bind]. rewrite spans_last by auto. cbn [bind]. rewrite single_set by lia. cbn [bind].
    eexists. split; [reflexivity|]. unfold iset_union. cbn [app].
    destruct (normal_spec [(s, hd e (starts_of vs) - 1); (last (starts_of vs) e, e - 1)]) as [K M].
    { constructor; [cbn; lia|]. constructor; [cbn; lia|constructor]. }
    split; [apply K; constructor; [cbn; lia|]; constructor; [cbn; lia|constructor]|].
    intros t. rewrite M. unfold in_iv. rewrite !Exists_cons, Exists_nil. cbn. lia.
Qed.

Lemma iter1_chunks g s lo sec e lo' : 0 <= s -> s < lo -> lo <= e <= u32_max -> starts_in lo e sec -> iv_ok lo' (gr_iter1 g) ->
  exists cs, to_iter1_chunks g (region_of (s, sec, e)) = Ret cs /\ StronglySorted Z.lt (performance cs) /\
    Forall (fun c => s <= ck_start c /\ ck_start c < ck_end c <= e) cs /\
    forall t, In t (performance cs) <-> in_iv t (gr_iter1 g) /\ s <= t < e /\ out (s, sec, e) t = false.
Proof.
  intros S SL LE SI G. destruct (iter1_set s lo sec e S SL LE SI) as [is [E [K M]]].
  destruct (inter_spec _ lo' _ s G K) as [I1 I2]. unfold to_iter1_chunks. rewrite E. cbn [bind].
  pose proof (ok_bounds _ _ I1) as B.
  assert (U : Forall (fun i => snd i < e) (iset_inter (gr_iter1 g) is)).
  { rewrite Forall_forall in *. intros i X. specialize (B _ X). destruct (I2 (snd i)) as [Y _].
    destruct Y as [_ Y]; [unfold in_iv; rewrite Exists_exists; exists i; split; auto; lia|]. apply M in Y. lia. }
  rewrite (set_chunks_made u32_max); [|eapply Forall_impl; [|exact B]; cbn; lia|eapply Forall_impl; [|exact U]; cbn; lia|reflexivity].
  eexists. split; [reflexivity|]. split; [eapply set_chunks_sorted; eauto|]. split.
  - unfold set_chunks. apply Forall_map. rewrite Forall_forall in *. intros i X. cbn. specialize (B _ X). specialize (U _ X). cbn in *. lia.
  - intros t. rewrite set_chunks_In, I2, M. tauto.
Qed.

(** The second pass over all sections. *)
Lemma second_chunks g lo' l : iv_ok lo' (gr_iter1 g) -> forall s lo, 0 <= s -> s < lo -> chain s lo l ->
  exists cs, omapM (render_chunks (DcDsIter1 g)) (map region_of l) = Ret cs /\ StronglySorted Z.lt (performance (concat cs)) /\
    Forall (fun c => s <= ck_start c /\ ck_start c < ck_end c <= u32_max) (concat cs) /\
    forall t, In t (performance (concat cs)) <-> in_iv t (gr_iter1 g) /\ s <= t < u32_max /\ left_out l t = false.
Proof.
  intros G. induction l as [|[[a sec] e] l IH]; intros s lo S SL C.
  - cbn in C. subst s. exists []. cbn. split; [reflexivity|]. split; [constructor|]. split; [constructor|]. intros t. lia.
  - destruct C as [-> [_ [LE [SI [_ C]]]]]. destruct (iter1_chunks g s lo sec e lo' S SL LE SI G) as [c1 [E1 [S1 [F1 M1]]]].
    destruct (IH e (e + 1) ltac:(lia) ltac:(lia) C) as [cs [E2 [S2 [F2 M2]]]]. exists (c1 :: cs).
    split; [|split; [|split]].
    + cbn [map omapM]. replace (render_chunks (DcDsIter1 g) (region_of (s, sec, e))) with (to_iter1_chunks g (region_of (s, sec, e))) by (destruct sec; reflexivity).
      rewrite E1. cbn [bind]. rewrite E2. reflexivity.
    + cbn [concat]. rewrite perf_app. apply sorted_app; auto. intros x y X Y. apply M1 in X. apply M2 in Y. lia.
    + cbn [concat]. apply Forall_app. split; [eapply Forall_impl; [|exact F1]; cbn; lia|eapply Forall_impl; [|exact F2]; cbn; lia].
    + intros t. cbn [concat]. rewrite perf_app, in_app_iff, M1, M2, left_out_cons, orb_false_iff.
      assert (O1 : e <= t -> out (s, sec, e) t = false).
      { intros H. destruct sec as [?|?|c vs]; try reflexivity. cbn [out]. destruct SI as [N [_ F]]. rewrite Forall_forall in F.
        assert (L : In (last (starts_of vs) e) (starts_of vs)) by (destruct (exists_last N) as [x [y ->]]; rewrite last_last, in_app_iff; cbn; auto).
        specialize (F _ L). cbn in F. lia. }
      assert (O2 : t < e -> left_out l t = false).
      { clear - C. revert C. generalize (e + 1). revert e. induction l as [|[[a sec] e'] l IH]; intros e lo C H; [reflexivity|].
        destruct C as [-> [SL [LE [SI [_ C]]]]]. rewrite left_out_cons, (IH e' (e' + 1) C) by lia. rewrite orb_false_r.
        destruct sec as [?|?|c vs]; try reflexivity. cbn [out]. destruct SI as [N [_ F]]. destruct (starts_of vs); [congruence|]. inversion F; subst. cbn [hd]. lia. }
      assert (UB : e <= u32_max) by lia. destruct (Z.lt_ge_cases t e).
      * rewrite O2 by auto. split; [intros [X|X]; [|lia]|intros [X [Y [Z _]]]; left]; repeat split; tauto || lia.
      * rewrite O1 by auto. split; [intros [X|X]; [lia|]|intros [X [Y [_ Z]]]; right]; repeat split; tauto || lia.
Qed.

(** What a jump takes from the whole score. *)
Lemma jump_set segno fine codas : 0 <= segno < u32_max ->
  (forall f, fine = Some f -> 0 <= f <= u32_max) ->
  match codas with
  | Some (from, to) => segno < from /\ from < to /\ to < match fine with Some f => f | None => u32_max end
  | None => True
  end ->
  exists is, to_interval_set segno fine codas = Ret is /\ iv_ok segno is /\
    forall t, in_iv t is <-> segno <= t < match fine with Some f => f | None => u32_max end /\ between codas t = false.
Proof.
  intros S F C. unfold to_interval_set. set (en := match fine with Some f => f | None => u32_max end) in *.
  assert (EN : 0 <= en <= u32_max). { unfold en. destruct fine; [apply F; reflexivity|unfold u32_max; lia]. } clearbody en.
  destruct codas as [[from to]|].
  - destruct C as [C1 [C2 C3]]. unfold chk_u32. rewrite !chk_ret by lia. cbn [bind]. unfold iset_of. cbn [forallb fst snd].
    replace (segno <=? from - 1) with true by lia. replace (to <=? en - 1) with true by lia. cbn [andb].
    destruct (normal_spec [(segno, from - 1); (to, en - 1)]) as [K M].
    { constructor; [cbn; lia|]. constructor; [cbn; lia|constructor]. }
    eexists. split; [reflexivity|]. split; [apply K; constructor; [cbn; lia|]; constructor; [cbn; lia|constructor]|].
    intros t. rewrite M. unfold in_iv. rewrite !Exists_cons, Exists_nil. cbn. lia.
  - destruct (Z.leb_spec en segno).
    + eexists. split; [reflexivity|]. split; [exact I|]. intros t. unfold in_iv. change (iv_normal []) with (@nil (Z * Z)). rewrite Exists_nil. cbn. lia.
    + unfold chk_u32. rewrite chk_ret by lia. cbn [bind]. unfold iset_of. cbn [forallb fst snd]. replace (segno <=? en - 1) with true by lia.
      eexists. split; [reflexivity|]. change (iv_normal [(segno, en - 1)]) with [(segno, en - 1)]. split; [cbn; lia|]. intros t. unfold in_iv. rewrite Exists_cons, Exists_nil. cbn. lia.
Qed.

Lemma second_perf l segno fine codas g is : well_laid l -> chain 0 1 (timed_layout l) -> 0 <= segno ->
  gr_iter1 g = is -> iv_ok segno is ->
  (forall f, fine = Some f -> f <= u32_max) ->
  (forall t, in_iv t is <-> segno <= t < match fine with Some f => f | None => u32_max end /\ between codas t = false) ->
  exists cs, omapM (render_chunks (DcDsIter1 g)) (map region_of (timed_layout l)) = Ret cs /\
    Forall (fun c => 0 <= ck_start c /\ ck_start c < ck_end c <= u32_max) (concat cs) /\
    StronglySorted Z.lt (performance (concat cs)) /\
    performance (concat cs) = second_pass l segno fine codas.
Proof.
  intros W C S G K FB M. subst is. destruct (second_chunks g segno (timed_layout l) K 0 1 ltac:(lia) ltac:(lia) C) as [cs [E [SS [F H]]]].
  exists cs. split; [exact E|]. split; [eapply Forall_impl; [|exact F]; cbn; lia|]. split; [exact SS|]. apply sorted_same; auto.
  - apply filter_sorted, from_to_sorted.
  - intros t. rewrite H. unfold second_pass. rewrite filter_In, from_to_In, !andb_true_iff, !negb_true_iff, M.
    destruct fine as [f|]; [specialize (FB _ eq_refl)|]; rewrite ?Z.leb_le, ?Z.ltb_lt; intuition lia.
Qed.

(** ** The first pass *)
Lemma until_app d a b : ~ In d a -> until d (a ++ b) = a ++ until d b.
Proof.
  induction a as [|x a IH]; intros N; [reflexivity|]. cbn [app until]. destruct (Z.eqb_spec x d) as [->|]; [destruct N; cbn; auto|].
  f_equal. apply IH. intros H. apply N. cbn. auto.
Qed.
Lemma until_in d s e r : s <= d < e -> until d (from_to s e ++ r) = from_to s d.
Proof.
  intros H. rewrite <- (from_to_app s d e), <- app_assoc by lia. rewrite until_app by (rewrite from_to_In; lia).
  rewrite (from_to_cons d e) by lia. cbn [app until]. rewrite Z.eqb_refl, app_nil_r. reflexivity.
Qed.

Lemma play_in s lo sec e t : s < lo -> lo <= e -> starts_in lo e sec -> In t (play_section (s, sec, e)) -> s <= t < e.
Proof.
  intros SL LE SI. destruct sec as [l|l|c vs]; cbn [play_section].
  - rewrite from_to_In. auto.
  - rewrite in_app_iff, from_to_In. tauto.
  - destruct SI as [N [SS F]]. pose proof (spans_in _ _ _ SS F) as SP. rewrite in_flat_map. intros [p [P T]]. rewrite Forall_forall in SP. specialize (SP _ P).
    rewrite in_app_iff, !from_to_In in T. destruct (starts_of vs); [congruence|]. inversion F; subst. cbn [hd] in T. lia.
Qed.
Lemma play_first l s lo : s < lo -> chain s lo l -> l <> [] -> exists r, flat_map play_section l = s :: r.
Proof.
  intros SL C N. destruct l as [|[[a sec] e] l]; [congruence|]. destruct C as [-> [_ [LE [SI _]]]]. cbn [flat_map].
  destruct sec as [x|x|c vs]; cbn [play_section].
  - rewrite from_to_cons by lia. eexists. reflexivity.
  - rewrite from_to_cons by lia. eexists. reflexivity.
  - destruct SI as [N0 [SS F]]. destruct (starts_of vs) as [|t r]; [congruence|]. inversion F; subst. cbn [hd spans flat_map]. rewrite (from_to_cons s t) by lia. eexists. reflexivity.
Qed.

Definition jump_clear (d : Z) (l : list (Z * section * Z)) : Prop := forall s sec e, In (s, sec, e) l -> s < d < e -> is_plain sec = true.

Lemma first_after d l : forall s lo, s < lo -> d <= s -> chain s lo l ->
  exists cs, omapM (render_chunks (DcDsIter0 d)) (map region_of l) = Ret cs /\ concat cs = [].
Proof.
  induction l as [|[[a sec] e] l IH]; intros s lo SL D C; [exists []; auto|]. destruct C as [-> [_ [LE [SI [_ C]]]]].
  destruct (IH e (e + 1) ltac:(lia) ltac:(lia) C) as [cs [E P]]. exists ([] :: cs). split; [|exact P]. cbn [map omapM].
  assert (R : render_chunks (DcDsIter0 d) (region_of (s, sec, e)) = Ret []).
  { destruct sec as [x|x|c vs]; cbn [region_of render_chunks fst].
    - replace (e <=? d) with false by lia. replace ((s <? d) && (d <? e)) with false by lia. reflexivity.
    - replace (e <=? d) with false by lia. replace ((e <? d) && (d <? e)) with false by lia. reflexivity.
    - replace (d <=? s) with true by lia. reflexivity. }
  rewrite R. cbn [bind]. rewrite E. reflexivity.
Qed.

Lemma first_chunks d l : forall s lo, 0 <= s -> s < lo -> s <= d < u32_max -> chain s lo l -> l <> [] -> jump_clear d l ->
  exists cs, omapM (render_chunks (DcDsIter0 d)) (map region_of l) = Ret cs /\
    performance (concat cs) = until d (flat_map play_section l) /\ Forall (fun c => in_time c /\ ck_end c <= d) (concat cs).
Proof.
  induction l as [|[[a sec] e] l IH]; intros s lo S0 SL D C NE J; [congruence|].
  destruct (Z.eq_dec d s) as [->|NS].
  - destruct (first_after s _ s lo SL ltac:(lia) C) as [cs [E P]]. exists cs. split; [exact E|]. rewrite P. split; [|constructor].
    destruct (play_first _ s lo SL C NE) as [r R]. rewrite R. cbn. rewrite Z.eqb_refl. reflexivity.
  - pose proof C as CC. destruct C as [-> [_ [LE [SI [_ C]]]]]. cbn [flat_map].
    destruct (Z.le_gt_cases e d) as [ED|ED].
    + assert (NL : l <> []). { intros ->. cbn in C. lia. }
      destruct (IH e (e + 1) ltac:(lia) ltac:(lia) ltac:(lia) C NL) as [cs [E [P F]]].
      { intros s' sec' e' X. apply J. cbn. auto. }
      exists (plain_chunks (region_of (s, sec, e)) :: cs). split; [|split].
      * cbn [map omapM].
        assert (R : render_chunks (DcDsIter0 d) (region_of (s, sec, e)) = Ret (plain_chunks (region_of (s, sec, e)))).
        { destruct sec as [x|x|c vs]; cbn [region_of render_chunks plain_chunks fst].
          - replace (e <=? d) with true by lia. reflexivity.
          - replace (e <=? d) with true by lia. reflexivity.
          - replace (d <=? s) with false by lia. destruct SI as [N _]. rewrite spans_last by auto. cbn [bind snd]. replace (d <? e) with false by lia. reflexivity. }
        rewrite R. cbn [bind]. rewrite E. reflexivity.
      * cbn [concat]. rewrite perf_app, plain_perf, P, until_app; [reflexivity|]. intros X. apply (play_in s lo sec e d) in X; auto; lia.
      * cbn [concat]. apply Forall_app. split; [|exact F].
        pose proof (plain_in_time (s, sec, e) s lo e eq_refl ltac:(lia) ltac:(lia) SI) as PT. eapply Forall_impl; [|exact PT]. cbn. intros c [X Y]. split; auto. lia.
    + assert (PL : is_plain sec = true) by (apply (J s sec e); cbn; auto; lia). destruct sec as [x|x|c vs]; try discriminate.
      destruct (first_after d l e (e + 1) ltac:(lia) ltac:(lia) C) as [cs [E P]]. exists ([mkChunk s d] :: cs). split; [|split].
      * cbn [map omapM region_of render_chunks]. replace (e <=? d) with false by lia. replace ((s <? d) && (d <? e)) with true by lia. cbn [bind]. rewrite E. reflexivity.
      * cbn [concat]. rewrite P, app_nil_r, perf_cons. cbn [ck_start ck_end play_section]. change (performance []) with (@nil Z). rewrite app_nil_r.
        rewrite until_in by lia. reflexivity.
      * cbn [concat]. rewrite P, app_nil_r. constructor; [|constructor]. unfold in_time. cbn. lia.
Qed.

(** A jump mark is not inside a repeated section. *)
Lemma chain_ge l : forall s lo s' sec' e', chain s lo l -> In (s', sec', e') l -> s <= s'.
Proof.
  induction l as [|[[a sec] e] l IH]; intros s lo s' sec' e' C H; [destruct H|]. destruct C as [-> [SL [LE [_ [_ C]]]]].
  destruct H as [H|H]; [inversion H; lia|]. specialize (IH _ _ _ _ _ C H). lia.
Qed.
Lemma inside_plain rest : forall sec first s d, follows sec rest -> inside first sec ->
  (is_plain sec = false -> Forall no_jump (section_bars sec)) ->
  tune (section_bars sec ++ rest_bars rest) ->
  (exists b, In b (section_bars sec ++ rest_bars rest) /\ b_tick b = d /\ ~ no_jump b) -> jump_clear d (timed s sec rest).
Proof.
  induction rest as [|[b c] rest IH]; intros sec first s d F I NJ T [x [X [XD XJ]]]; cbn [follows] in F.
  - intros s' sec' e' [E|[]] _. inversion E; subst. exact F.
  - destruct F as [B [IC F]]. intros s' sec' e' [E|E] DD.
    + inversion E; subst. destruct (is_plain sec') eqn:PL; [reflexivity|]. exfalso. apply in_app_iff in X. destruct X as [X|X].
      * specialize (NJ eq_refl). rewrite Forall_forall in NJ. apply XJ, NJ, X.
      * cbn [rest_bars flat_map fst snd] in *. destruct X as [->|X]; [lia|]. apply tune_app_r in T.
        pose proof (tune_lt [b] _ b x T (or_introl eq_refl) X). lia.
    + cbn [rest_bars flat_map fst snd] in *. fold (rest_bars rest) in *.
      assert (T2 : tune (section_bars c ++ rest_bars rest)). { apply tune_app_r in T. apply (tune_app_r [b]) in T. exact T. }
      assert (G : b_tick b <= s').
      { assert (TB : b_tick b < u32_max) by (apply (tune_tick _ b T); rewrite in_app_iff; cbn; auto).
        apply (chain_ge _ (b_tick b) (b_tick b) s' sec' e') in E; [exact E|]. apply (timed_chain rest false); auto; try lia.
        apply Forall_forall. intros y Y _. apply tune_app_r in T. pose proof (tune_lt [b] _ b y T (or_introl eq_refl) Y). lia. }
      rewrite in_app_iff in X. destruct X as [X|[->|X]].
      * pose proof (tune_lt _ _ x b T X (or_introl eq_refl)). lia.
      * lia.
      * assert (NJ' : is_plain c = false -> Forall no_jump (section_bars c)).
        { intros PL. destruct c as [l|l|cm vs]; try discriminate; cbn [inside section_bars] in *; [tauto|].
          destruct IC as [_ [_ [J [N _]]]]. apply Forall_app. split; [auto|]. clear - N. revert N. generalize 1. induction vs as [|v vs IHv]; intros k N; [constructor|].
          destruct N as [_ [_ [_ [J N]]]]. cbn [concat]. apply Forall_app. split; [exact J|eapply IHv; eauto]. }
        apply (IH c false (b_tick b) d F IC NJ' T2 ltac:(exists x; auto) s' sec' e' E DD).
Qed.

(** ** The whole performance *)
Lemma top_chain l : well_laid l -> tune (layout_bars l) -> Forall (fun b => b_tick b = 0 -> no_repeat b /\ no_var b) (layout_bars l) -> chain 0 1 (timed_layout l).
Proof.
  intros [I F] T M. apply (timed_chain (snd l) true 0 1 (fst l)); auto; try (unfold u32_max; lia).
  rewrite Forall_forall in *. intros b B MB. specialize (M b B). pose proof (tune_tick _ _ T B). unfold marked_bar in MB.
  destruct (Z.eq_dec (b_tick b) 0) as [Z0|]; [|lia]. exfalso. auto.
Qed.

Lemma sorted_open_last l : Forall (fun c => 0 <= ck_start c /\ ck_start c < ck_end c <= u32_max) l -> StronglySorted Z.lt (performance l) -> ends_last l.
Proof.
  intros F S. apply ends_last_iff. intros a c b E U. destruct b as [|d b]; [reflexivity|]. exfalso. subst l.
  apply Forall_app in F. destruct F as [_ F]. inversion F as [|? ? F1 F2]; subst. inversion F2 as [|? ? F3 _]; subst.
  rewrite perf_app, !perf_cons in S. assert (X : StronglySorted Z.lt (from_to (ck_start c) (ck_end c) ++ from_to (ck_start d) (ck_end d) ++ performance b)).
  { clear - S. induction (performance a); auto. inversion S; auto. }
  rewrite (from_to_cons (ck_start d)) in X by lia.
  assert (Y : In (u32_max - 1) (from_to (ck_start c) (ck_end c))) by (apply from_to_In; lia).
  clear - X Y F3. induction (from_to (ck_start c) (ck_end c)) as [|z l IH]; [destruct Y|]. inversion X; subst. destruct Y as [->|Y]; [|auto].
  rewrite Forall_forall in H2. specialize (H2 (ck_start d)). rewrite in_app_iff in H2. cbn in H2. specialize (H2 (or_intror (or_introl eq_refl))). cbn in F3. unfold u32_max in *. lia.
Qed.

Lemma jump_performance l g d segno fine codas : well_laid l -> tune (layout_bars l) ->
  Forall (fun b => b_tick b = 0 -> no_repeat b /\ no_var b) (layout_bars l) ->
  (is_plain (fst l) = false -> Forall no_jump (section_bars (fst l))) ->
  (exists b, In b (layout_bars l) /\ b_tick b = d /\ ~ no_jump b) ->
  ds_dc_tick (gr_ds_dc g) = d -> 0 <= segno ->
  to_interval_set segno fine codas = Ret (gr_iter1 g) -> iv_ok segno (gr_iter1 g) ->
  (forall f, fine = Some f -> f <= u32_max) ->
  (forall t, in_iv t (gr_iter1 g) <-> segno <= t < match fine with Some f => f | None => u32_max end /\ between codas t = false) ->
  exists cs, to_chunks (mkCompound (Some g) (map region_of (timed_layout l))) = Ret cs /\
    performance cs = until d (play l) ++ second_pass l segno fine codas /\
    Forall in_time cs /\ open_only_last cs.
Proof.
  intros W T M NJ [b [B [BD BJ]]] GD S E K FB IV. pose proof (top_chain l W T M) as C. pose proof W as [I F].
  pose proof (tune_tick _ _ T B) as BT.
  assert (JC : jump_clear d (timed_layout l)) by (apply (inside_plain (snd l) (fst l) true); auto; exists b; auto).
  destruct (first_chunks d (timed_layout l) 0 1) as [c1 [E1 [P1 F1]]]; auto; [lia|lia|lia|apply timed_ne|].
  destruct (second_perf l segno fine codas g (gr_iter1 g) W C S eq_refl K FB IV) as [c2 [E2 [F2 [S2 P2]]]].
  exists (concat c1 ++ concat c2). split; [|split; [|split]].
  - unfold to_chunks. cbn [cp_global cp_regions]. rewrite GD, E1. cbn [bind]. rewrite E2. reflexivity.
  - rewrite perf_app, P1, P2. reflexivity.
  - apply Forall_app. split; [eapply Forall_impl; [|exact F1]; cbn; tauto|]. eapply Forall_impl; [|exact F2]. unfold in_time. cbn. lia.
  - apply ends_last_iff. pose proof (sorted_open_last _ F2 S2) as L2. destruct (concat c2) as [|x r] eqn:C2.
    + rewrite app_nil_r. clear - F1 BT BD. induction F1 as [|c r [_ H] F1 IH]; [exact Logic.I|]. destruct r; [exact Logic.I|]. split; [lia|exact IH].
    + apply ends_last_app; [discriminate| |exact L2]. eapply Forall_impl; [|exact F1]. cbn. lia.
Qed.

(** ** Building *)
Lemma coda_pair bars : (length (marked Coda bars) <= 2)%nat -> tune bars ->
  match coda_of (marked Coda bars) with
  | None => marked Coda bars = []
  | Some (CodaOne t) => marked Coda bars = [t]
  | Some (CodaTwo a b) => marked Coda bars = [a; b] /\ a < b
  end.
Proof.
  intros L T. assert (S : StronglySorted Z.lt (marked Coda bars)).
  { unfold marked. destruct T as [T _]. clear L. induction bars as [|x l IH]; cbn [filter map]; [constructor|]. inversion T as [|? ? T1 T2]; subst. destruct (has x Coda); [|auto].
    cbn [map]. constructor; auto. apply Forall_forall. intros y Y. rewrite Forall_forall in T2. apply T2. apply in_map_iff in Y. destruct Y as [z [<- Z]]. apply in_map. apply filter_In in Z. tauto. }
  destruct (marked Coda bars) as [|a [|b [|c l]]]; cbn in *; auto; [|lia]. inversion S; subst. inversion H2; subst. auto.
Qed.
Lemma marked_range m bars t : tune bars -> In t (marked m bars) -> 0 <= t < u32_max.
Proof. intros T H. apply marked_In in H. destruct H as [b [B [_ <-]]]. apply (tune_tick _ _ T B). Qed.
Lemma first_range bars f : tune bars -> first_bar_len bars = Some f -> 0 < f < u32_max.
Proof.
  intros T H. unfold first_bar_len in H. destruct (filter (fun t => negb (t =? 0)) (map b_tick bars)) as [|x l] eqn:E; [discriminate|]. inv H.
  assert (X : In f (filter (fun t => negb (t =? 0)) (map b_tick bars))) by (rewrite E; cbn; auto). apply filter_In in X. destruct X as [X Y].
  apply in_map_iff in X. destruct X as [b [<- B]]. pose proof (tune_tick _ _ T B). lia.
Qed.


(** What is known of the jump that was built. *)
Definition built (r : rhythm) (bars : list bar) (g : global_repeat) (w : list rr_warning) (d s : Z) : Prop :=
  jump (actual_top (full_bar r bars)) bars d s /\ ds_dc_tick (gr_ds_dc g) = d /\ 0 <= s < u32_max /\ w = warnings_of bars /\
  to_interval_set s (hd_error (marked Fine bars)) (pair_of (marked Coda bars)) = Ret (gr_iter1 g).

Lemma fine_range bars f : tune bars -> hd_error (marked Fine bars) = Some f -> 0 <= f < u32_max.
Proof. intros T H. apply (marked_range Fine bars f T). destruct (marked Fine bars); inv H. cbn. auto. Qed.

Lemma segno_range bars d s r : tune bars -> jump (actual_top (full_bar r bars)) bars d s -> 0 <= s < u32_max.
Proof.
  intros T [A B C D|A B C D|f A B C D ->].
  - apply (marked_range Segno bars); auto. rewrite C. cbn. auto.
  - apply (marked_range Segno bars); auto. rewrite C. cbn. auto.
  - pose proof (first_range _ _ T D). unfold actual_top. destruct (_ || _); unfold u32_max in *; lia.
Qed.

Lemma jump_set_ok bars s : tune bars -> counts_ok bars -> 0 <= s < u32_max -> codas_ok s bars ->
  exists is, to_interval_set s (hd_error (marked Fine bars)) (pair_of (marked Coda bars)) = Ret is /\ iv_ok s is /\
    forall t, in_iv t is <-> s <= t < match hd_error (marked Fine bars) with Some f => f | None => u32_max end /\ between (pair_of (marked Coda bars)) t = false.
Proof.
  intros T [_ [_ [C3 _]]] SR CO. apply jump_set; auto; [intros f H; apply fine_range in H; auto; lia|].
  pose proof (coda_pair bars C3 T) as CP. destruct (marked Coda bars) as [|a [|b [|c l]]] eqn:MC; cbn [pair_of]; auto. cbn in CP. destruct (CO a b MC) as [X Y].
  split; [lia|]. split; [lia|]. destruct (marked Fine bars); exact Y.
Qed.

(** The set is made only if the codas are where they should be. *)
Lemma set_codas bars s is : tune bars -> 0 <= s ->
  to_interval_set s (hd_error (marked Fine bars)) (pair_of (marked Coda bars)) = Ret is -> codas_ok s bars.
Proof.
  intros T S E a b MC. rewrite MC in E. cbn [pair_of to_interval_set] in E.
  assert (X : forall e, (let! a0 := chk_u32 (a - 1) in let! b0 := chk_u32 (e - 1) in iset_of [(s, a0); (b, b0)]) = Ret is -> s < a /\ b < e).
  { clear E. intros e E. unfold chk_u32 in E. destruct (chk 0 u32_max (a - 1)) as [x| |] eqn:C1; try discriminate. apply chk_inv in C1. destruct C1 as [-> _]. cbn [bind] in E.
    destruct (chk 0 u32_max (e - 1)) as [x| |] eqn:C2; try discriminate. apply chk_inv in C2. destruct C2 as [-> _]. cbn [bind] in E.
    unfold iset_of in E. cbn [forallb fst snd] in E. destruct ((s <=? a - 1) && ((b <=? e - 1) && true)) eqn:Q; [|discriminate]. lia. }
  destruct (marked Fine bars) as [|f l]; cbn [hd_error] in E; apply X, E.
Qed.

Lemma coda_check bars a b : counts_ok bars -> marked Coda bars = [a; b] -> (forall f, marked Fine bars = [f] -> b <= f) ->
  check_coda_pos a b (hd_error (marked Fine bars)) = Ok tt.
Proof.
  intros [_ [C2 _]] MC H. unfold check_coda_pos. destruct (marked Fine bars) as [|f [|f' l]]; cbn [hd_error] in *; [reflexivity| |cbn in C2; lia].
  specialize (H f eq_refl). replace (f <? b) with false by lia. reflexivity.
Qed.

(** What building does if nothing overflows and the codas are not after Fine. *)
Definition no_overflow (bars : list bar) : Prop :=
  jump_of bars <> None ->
  (forall d, marked Dc bars = [d] -> d <> 0 -> marked Segno bars = [] -> small_first bars) /\
  (forall a b f, first_bar_len bars <> None \/ marked Ds bars <> [] -> marked Coda bars = [a; b] -> marked Fine bars = [f] -> b <= f).
Lemma build_cases r bars : tune bars -> counts_ok bars -> no_overflow bars ->
  match jump_of bars with
  | None => gb_build (builder_of r bars) = Ret (Ok (None, []))
  | Some j =>
      (exists e, gb_build (builder_of r bars) = Ret (Err e)) \/
      (first_bar_len bars = None /\ marked Ds bars = [] /\ gb_build (builder_of r bars) = Ret (Ok (None, []))) \/
      exists s, jump (actual_top (full_bar r bars)) bars (ds_dc_tick j) s /\
        gb_build (builder_of r bars) =
          (let! is := to_interval_set s (hd_error (marked Fine bars)) (pair_of (marked Coda bars)) in
           Ret (Ok (Some (mkGR j (hd_error (marked Fine bars)) s (pair_of (marked Coda bars)) is), warnings_of bars)))
  end.
Proof.
  intros T C NO. unfold no_overflow in NO. pose proof (coda_pair bars (proj1 (proj2 (proj2 C))) T) as CP. pose proof C as [C1 [_ [_ C4]]].
  unfold gb_build, builder_of. cbn [gb_ds_dc gb_fine gb_segno gb_coda gb_first_bar_len gb_top_rhythm].
  unfold jump_of, warnings_of in *. destruct (marked Dc bars) as [|d [|d' dl]] eqn:MD; cbn [length] in C4; [| |lia].
  - destruct (marked Ds bars) as [|d [|d' dl]] eqn:MS; cbn [length] in C4; [reflexivity| |lia].
    destruct NO as [_ CF]; [discriminate|].
    destruct (marked Segno bars) as [|s [|s' sl]] eqn:MG; cbn [length hd_error] in *; [left; eexists; reflexivity| |lia].
    destruct (coda_of (marked Coda bars)) as [[t|a b]|] eqn:CE.
    + left. eexists. reflexivity.
    + right. right. exists s. destruct CP as [CP _]. rewrite (coda_check bars a b C CP (fun f => CF a b f ltac:(right; discriminate) CP)). cbn [and_then]. rewrite CP. cbn [pair_of ds_dc_tick].
      split; [|reflexivity]. apply jump_ds; auto. rewrite CP. cbn. lia.
    + right. right. exists s. rewrite CP. cbn [pair_of ds_dc_tick]. split; [|reflexivity]. apply jump_ds; auto. rewrite CP. cbn. lia.
  - assert (MS : marked Ds bars = []) by (destruct (marked Ds bars); [reflexivity|cbn in C4; lia]).
    destruct NO as [SF CF]; [discriminate|].
    destruct (first_bar_len bars) as [first|] eqn:FL; [|right; left; auto]. right. right.
    pose proof (first_range _ _ T FL) as FR.
    set (len := if d =? 0 then 0 else first).
    assert (ST : exists s, jump (actual_top (full_bar r bars)) bars d s /\
      match hd_error (marked Segno bars) with
      | Some s => Ret (s, [SegnoAndDcFound s d])
      | None => let full := rhythm_tick_len (top_rhythm r bars) in let! sum := chk_u32 (len + first) in
          Ret (if sum =? full then 0 else if (len =? full) && (first =? full) then 0 else first, @nil rr_warning)
      end = Ret (s, match marked Segno bars with s :: _ => [SegnoAndDcFound s d] | [] => [] end)).
    { destruct (marked Segno bars) as [|s [|s' sl]] eqn:MG; cbn [length hd_error] in *; [|exists s|lia].
      - exists (actual_top (full_bar r bars) first d). split; [apply (jump_dc _ _ _ _ first); auto|]. cbv zeta.
        unfold chk_u32. rewrite chk_ret by (unfold len; destruct (Z.eqb_spec d 0) as [D0|D0]; [lia|specialize (SF d eq_refl D0 eq_refl _ FL); lia]). cbn [bind]. do 2 f_equal. unfold actual_top, full_bar, len.
        destruct (d =? 0); cbn [negb]; rewrite ?andb_false_r, ?andb_true_r, ?orb_false_r.
        + replace (0 + first) with first by lia. destruct (first =? rhythm_tick_len (top_rhythm r bars)); cbn; rewrite ?andb_false_r; reflexivity.
        + replace (first + first) with (2 * first) by lia. destruct (2 * first =? _), (first =? _); reflexivity.
      - split; [|reflexivity]. apply jump_dc_segno; auto. congruence. }
    destruct ST as [s [J E]]. cbv zeta in E. rewrite E. cbn [bind]. exists s. cbn [ds_dc_tick]. split; [exact J|].
    destruct (coda_of (marked Coda bars)) as [[t|a b]|] eqn:CE.
    + rewrite CP. cbn [pair_of]. reflexivity.
    + destruct CP as [CP _]. rewrite (coda_check bars a b C CP (fun f => CF a b f ltac:(left; discriminate) CP)). cbn [and_then]. rewrite CP. cbn [pair_of]. rewrite app_nil_r. reflexivity.
    + rewrite CP. cbn [pair_of]. rewrite app_nil_r. reflexivity.
Qed.

Lemma check_inv a b f u : check_coda_pos a b (Some f) = Ok u -> b <= f.
Proof. unfold check_coda_pos. destruct (Z.ltb_spec f b); [discriminate|auto]. Qed.
Lemma build_no_overflow r bars x : tune bars -> counts_ok bars -> gb_build (builder_of r bars) = Ret (Ok x) -> no_overflow bars.
Proof.
  intros T C E JN. pose proof C as [C1 [_ [_ C4]]].
  unfold gb_build, builder_of in E. cbn [gb_ds_dc gb_fine gb_segno gb_coda gb_first_bar_len gb_top_rhythm] in E.
  unfold jump_of in *. destruct (marked Dc bars) as [|d [|d' dl]] eqn:MD; cbn [length] in C4; [| |lia].
  - split; [intros d H; congruence|]. intros a b f _ MC MF. rewrite MC, MF in *. cbn [hd_error] in E. change (coda_of [a; b]) with (Some (CodaTwo a b)) in E.
    destruct (marked Ds bars) as [|d dl]; [congruence|]. destruct (hd_error (marked Segno bars)) as [s|]; [|discriminate].
    destruct (check_coda_pos a b (Some f)) eqn:K; [|discriminate]. eapply check_inv; eauto.
  - split.
    + intros d0 HD ND MG f FL. inv HD. rewrite MG, FL in E. cbn [hd_error] in E. pose proof (first_range _ _ T FL). replace (d0 =? 0) with false in E by lia.
      unfold chk_u32 in E at 1. destruct (chk 0 u32_max (f + f)) eqn:K; try discriminate. apply chk_inv in K. lia.
    + intros a b f HF MC MF. assert (MS : marked Ds bars = []) by (destruct (marked Ds bars); [reflexivity|cbn in C4; lia]).
      destruct HF as [HF|HF]; [|congruence]. destruct (first_bar_len bars) as [first|]; [|congruence]. rewrite MC, MF in E. change (coda_of [a; b]) with (Some (CodaTwo a b)) in E.
      match type of E with bind ?m _ = _ => destruct m as [[s w]| |]; try discriminate end. cbn [bind hd_error] in E.
      destruct (check_coda_pos a b (Some f)) eqn:K; [|discriminate]. eapply check_inv; eauto.
Qed.

Lemma jump_bar top bars d s : jump top bars d s -> exists b, In b bars /\ b_tick b = d /\ ~ no_jump b.
Proof.
  intros [A B C D|A B C D|f A B C D _].
  - assert (X : In d (marked Ds bars)) by (rewrite B; cbn; auto). apply marked_In in X. destruct X as [b [X [Y Z]]]. exists b. split; auto. split; auto. intros [_ N]. congruence.
  - assert (X : In d (marked Dc bars)) by (rewrite A; cbn; auto). apply marked_In in X. destruct X as [b [X [Y Z]]]. exists b. split; auto. split; auto. intros [N _]. congruence.
  - assert (X : In d (marked Dc bars)) by (rewrite A; cbn; auto). apply marked_In in X. destruct X as [b [X [Y Z]]]. exists b. split; auto. split; auto. intros [N _]. congruence.
Qed.
Lemma jump_of_jump top bars d s : jump top bars d s -> exists j, jump_of bars = Some j /\ ds_dc_tick j = d.
Proof. intros [A B C D|A B C D|f A B C D _]; unfold jump_of; rewrite A, ?B; eexists; split; reflexivity. Qed.
Lemma jump_det top bars d s d' s' : jump top bars d s -> jump top bars d' s' -> d = d' /\ s = s'.
Proof.
  intros [A B C D|A B C D|f A B C D E] [A' B' C' D'|A' B' C' D'|f' A' B' C' D' E']; try congruence; try (split; congruence).
Qed.

(** With the marks in place the jump is built. *)
Lemma build_jump_any r bars d s : tune bars -> counts_ok bars -> (marked Dc bars <> [] -> marked Segno bars = [] -> d <> 0 -> small_first bars) ->
  jump (actual_top (full_bar r bars)) bars d s -> codas_ok s bars ->
  exists g, gb_build (builder_of r bars) = Ret (Ok (Some g, warnings_of bars)) /\ ds_dc_tick (gr_ds_dc g) = d /\ 0 <= s /\
    to_interval_set s (hd_error (marked Fine bars)) (pair_of (marked Coda bars)) = Ret (gr_iter1 g) /\ iv_ok s (gr_iter1 g) /\
    forall t, in_iv t (gr_iter1 g) <-> s <= t < match hd_error (marked Fine bars) with Some f => f | None => u32_max end /\ between (pair_of (marked Coda bars)) t = false.
Proof.
  intros T C SF J CO. pose proof (segno_range _ _ _ _ T J) as SR. destruct (jump_set_ok bars s T C SR CO) as [is [E [K M]]].
  assert (NO : no_overflow bars).
  { intros _. split; [intros x X X0 Y; apply SF; [congruence|exact Y|]; destruct J; congruence|]. intros a b f _ MC MF. destruct (CO a b MC) as [_ X]. rewrite MF in X. lia. }
  pose proof (build_cases r bars T C NO) as B. destruct (jump_of_jump _ _ _ _ J) as [j [JE JD]]. rewrite JE in B.
  destruct B as [[e B]|[[B1 [B2 B3]]|[s' [J' B]]]].
  - exfalso. unfold gb_build, builder_of in B. cbn [gb_ds_dc gb_fine gb_segno gb_coda gb_first_bar_len gb_top_rhythm] in B. rewrite JE in B.
    pose proof (coda_pair bars (proj1 (proj2 (proj2 C))) T) as CP.
    assert (CK : forall a b, marked Coda bars = [a; b] -> check_coda_pos a b (hd_error (marked Fine bars)) = Ok tt).
    { intros a b MC. apply coda_check; auto. intros f MF. destruct (CO a b MC) as [_ X]. rewrite MF in X. lia. }
    unfold jump_of in JE. destruct J as [A0 B0 C0 D0|A0 B0 C0 D0|f A0 B0 C0 D0 E0]; rewrite A0, ?B0 in JE; apply (f_equal (fun o => match o with Some x => x | None => j end)) in JE; subst j; rewrite C0 in B; cbn [hd_error] in B.
    + destruct (coda_of (marked Coda bars)) as [[t|a b]|].
      * rewrite CP in D0. cbn in D0. congruence.
      * rewrite (CK a b (proj1 CP)) in B. cbn [and_then] in B. cbv beta iota in B. match type of B with bind ?m _ = _ => destruct m; discriminate end.
      * cbv beta iota in B. match type of B with bind ?m _ = _ => destruct m; discriminate end.
    + destruct (first_bar_len bars) as [first|]; [|discriminate]. cbn [bind] in B. destruct (coda_of (marked Coda bars)) as [[t|a b]|].
      * cbv beta iota in B. match type of B with bind ?m _ = _ => destruct m; discriminate end.
      * rewrite (CK a b (proj1 CP)) in B. cbn [and_then] in B. cbv beta iota in B. match type of B with bind ?m _ = _ => destruct m; discriminate end.
      * cbv beta iota in B. match type of B with bind ?m _ = _ => destruct m; discriminate end.
    + rewrite D0 in B. match type of B with bind ?m _ = _ => destruct m as [[sx w]| |]; try discriminate end. cbn [bind] in B. destruct (coda_of (marked Coda bars)) as [[t|a b]|].
      * cbv beta iota in B. match type of B with bind ?m _ = _ => destruct m; discriminate end.
      * rewrite (CK a b (proj1 CP)) in B. cbn [and_then] in B. cbv beta iota in B. match type of B with bind ?m _ = _ => destruct m; discriminate end.
      * cbv beta iota in B. match type of B with bind ?m _ = _ => destruct m; discriminate end.
  - exfalso. destruct J; congruence.
  - destruct (jump_det _ _ _ _ _ _ J J') as [_ <-]. rewrite E in B. cbn [bind] in B. eexists. split; [exact B|]. cbn [gr_ds_dc gr_iter1]. repeat split; auto; try lia; apply M; auto.
Qed.
Lemma build_jump r bars d s : tune bars -> counts_ok bars -> small_first bars ->
  jump (actual_top (full_bar r bars)) bars d s -> codas_ok s bars ->
  exists g, gb_build (builder_of r bars) = Ret (Ok (Some g, warnings_of bars)) /\ ds_dc_tick (gr_ds_dc g) = d /\ 0 <= s /\
    to_interval_set s (hd_error (marked Fine bars)) (pair_of (marked Coda bars)) = Ret (gr_iter1 g) /\ iv_ok s (gr_iter1 g) /\
    forall t, in_iv t (gr_iter1 g) <-> s <= t < match hd_error (marked Fine bars) with Some f => f | None => u32_max end /\ between (pair_of (marked Coda bars)) t = false.
Proof. intros T C SF. apply build_jump_any; auto. Qed.

Lemma render_jump r l d s : let bars := layout_bars l in
  well_laid l -> tune bars -> counts_ok bars -> segno_ok bars (timed_layout l) -> top_clear bars -> jump_outside l ->
  small_first bars -> jump (actual_top (full_bar r bars)) bars d s -> codas_ok s bars ->
  exists c cs, render_region r bars = Ret (Ok (c, warnings_of bars)) /\ to_chunks c = Ret cs /\
    performance cs = until d (play l) ++ second_pass l s (hd_error (marked Fine bars)) (pair_of (marked Coda bars)) /\
    Forall in_time cs /\ open_only_last cs.
Proof.
  intros bars W T C S TC JO F2 J CO. destruct (build_jump r bars d s T C F2 J CO) as [g [B [GD [S0 [IS [K M]]]]]].
  destruct (loop_layout r l W T C S) as [st [regs [s' [R [CL E]]]]]. fold bars in R.
  destruct (jump_performance l g d s (hd_error (marked Fine bars)) (pair_of (marked Coda bars))) as [cs [TCS [P [IT OL]]]]; auto.
  - apply (jump_bar _ _ _ _ J).
  - intros f H. apply fine_range in H; auto. lia.
  - exists (mkCompound (Some g) (map region_of (timed_layout l))), cs. split; [|auto].
    unfold render_region. rewrite R. cbn [bind]. unfold rr_finish. rewrite B. cbn [bind]. destruct st; cbn in CL; inv CL; rewrite E; reflexivity.
Qed.

(** ** From a success *)
Lemma finish_closing g st regs x : rr_finish g st regs = Ret (Ok x) -> exists s gr w, closing st = Some s /\ gb_build g = Ret (Ok (gr, w)) /\ x = (mkCompound gr (regs ++ [RSeq (s, u32_max)]), w).
Proof.
  intros E. destruct st as [|s|s|s l]; cbn in E.
  - destruct (gb_build g) as [[[gr w]|]| |]; try discriminate. cbn in E. inv E. exists 0, gr, w. auto.
  - destruct (gb_build g) as [[[gr w]|]| |]; try discriminate. cbn in E. inv E. exists s, gr, w. auto.
  - discriminate.
  - destruct (unwrap_opt _); discriminate.
Qed.

(** What a successful rendering is. *)
Lemma render_sound r bars c w : tune bars -> Forall compatible bars -> render_region r bars = Ret (Ok (c, w)) ->
  counts_ok bars /\ exists l gr, well_laid l /\ layout_bars l = bars /\ segno_ok bars (timed_layout l) /\
    c = mkCompound gr (map region_of (timed_layout l)) /\ gb_build (builder_of r bars) = Ret (Ok (gr, w)).
Proof.
  intros T F E. unfold render_region in E. destruct (rr_loop (gb_new r) SIdle [] bars) as [[[[g st] regs]|]| |] eqn:R; try discriminate. cbn [bind] in E.
  apply finish_closing in E. destruct E as [s [gr [w' [CL [B X]]]]]. inv X.
  destruct (loop_sound r bars g st regs s T F R CL) as [-> [C [l [W [LB [S RE]]]]]]. split; [exact C|]. exists l, gr. rewrite RE. auto.
Qed.

Lemma set_iv s fine codas is : 0 <= s -> match codas with Some (a, b) => 0 <= b | None => True end -> to_interval_set s fine codas = Ret is -> exists lo, iv_ok lo is.
Proof.
  intros S C E. unfold to_interval_set in E.
  assert (X : forall l, iset_of l = Ret is -> Forall (fun i => 0 <= fst i) l -> exists lo, iv_ok lo is).
  { clear E. intros l E F. unfold iset_of in E. destruct (forallb (fun i => fst i <=? snd i) l) eqn:Q; [|discriminate]. inv E.
    exists 0. apply normal_spec; auto. rewrite forallb_forall in Q. apply Forall_forall. intros i I. specialize (Q i I). lia. }
  destruct codas as [[a b]|].
  - destruct (chk_u32 (a - 1)) eqn:K; try discriminate. cbn [bind] in E. match type of E with bind ?m _ = _ => destruct m eqn:K2; try discriminate end. cbn [bind] in E.
    apply (X _ E). constructor; [cbn; lia|]. constructor; [cbn; lia|constructor].
  - destruct (_ <=? s); [apply (X _ E); constructor|]. match type of E with bind ?m _ = _ => destruct m eqn:K2; try discriminate end. cbn [bind] in E.
    apply (X _ E). constructor; [cbn; lia|constructor].
Qed.

Lemma jump_built r bars g w : tune bars -> counts_ok bars -> gb_build (builder_of r bars) = Ret (Ok (Some g, w)) ->
  exists s, jump (actual_top (full_bar r bars)) bars (ds_dc_tick (gr_ds_dc g)) s /\ w = warnings_of bars /\ codas_ok s bars /\
    to_interval_set s (hd_error (marked Fine bars)) (pair_of (marked Coda bars)) = Ret (gr_iter1 g).
Proof.
  intros T C B. pose proof (build_cases r bars T C (build_no_overflow _ _ _ T C B)) as BC. rewrite B in BC.
  destruct (jump_of bars) as [j|]; [|discriminate]. destruct BC as [[e X]|[[_ [_ X]]|[s [J X]]]]; try discriminate.
  destruct (to_interval_set s _ _) as [is| |] eqn:E; try discriminate. cbn [bind] in X. inv X. exists s. cbn [gr_ds_dc gr_iter1].
  split; [exact J|]. split; [reflexivity|]. split; [|exact E]. apply (set_codas _ _ _ T) in E; auto. apply (segno_range _ _ _ _ T J).
Qed.

Lemma omapM_cons {A B} (f : A -> outcome B) x l r : omapM f (x :: l) = Ret r -> exists a b, f x = Ret a /\ omapM f l = Ret b /\ r = a :: b.
Proof. cbn [omapM]. destruct (f x) as [a| |]; try discriminate. cbn [bind]. destruct (omapM f l) as [b| |]; try discriminate. intros E. inv E. eauto. Qed.

Lemma range_inv s e is : range_interval_set (s, e) = Ret is -> s < e.
Proof.
  unfold range_interval_set. cbn [fst snd]. unfold chk_u32. destruct (chk 0 u32_max (e - 1)) as [x| |] eqn:K; try discriminate. cbn [bind]. apply chk_inv in K. destruct K as [-> _].
  unfold iset_of. cbn [forallb fst snd]. destruct (Z.leb_spec s (e - 1)); [lia|discriminate].
Qed.

Lemma second_top g l cs : chain 0 0 l -> l <> [] -> omapM (render_chunks (DcDsIter1 g)) (map region_of l) = Ret cs -> chain 0 1 l.
Proof.
  intros C NE E. destruct l as [|[[a sec] e] l]; [congruence|]. cbn [map] in E. apply omapM_cons in E. destruct E as [x [y [E _]]].
  destruct C as [-> [_ [LE [SI C]]]]. cbn [chain]. split; [reflexivity|]. split; [lia|].
  assert (X : exists is, iter1_interval_set (region_of (0, sec, e)) = Ret is).
  { destruct sec; cbn [region_of render_chunks] in E; unfold to_iter1_chunks in E; cbn [region_of];
      (match type of E with bind ?m _ = _ => destruct m as [is| |]; try discriminate end); eauto. }
  destruct X as [is X]. destruct sec as [z|z|z vs]; cbn [region_of iter1_interval_set] in X.
  - apply range_inv in X. split; [lia|auto].
  - apply range_inv in X. split; [lia|auto].
  - destruct SI as [N [SS F]]. destruct (range_interval_set (0, hd e (starts_of vs))) eqn:R; try discriminate. apply range_inv in R.
    destruct (starts_of vs) as [|t ts] eqn:ST; [congruence|]. cbn [hd] in R. inversion SS as [|? ? S1 S2]; subst. inversion F as [|? ? F1 F2]; subst. cbn in F1.
    split; [lia|]. split; [|exact C]. unfold starts_in. rewrite ST. split; [discriminate|]. split; [exact SS|]. constructor; [lia|].
    rewrite Forall_forall in *. intros q Q. specialize (S2 q Q). specialize (F2 q Q). cbn in *. lia.
Qed.

(** The first pass, whatever it is, ends before the mark. *)
Lemma first_any d l : forall s lo cs, 0 <= s -> chain s lo l -> omapM (render_chunks (DcDsIter0 d)) (map region_of l) = Ret cs ->
  Forall (fun c => in_time c /\ ck_end c <= d) (concat cs).
Proof.
  induction l as [|[[a sec] e] l IH]; intros s lo cs S C E; [inv E; constructor|]. cbn [map] in E. apply omapM_cons in E. destruct E as [x [y [E1 [E2 ->]]]].
  destruct C as [-> [SL [LE [SI [_ C]]]]]. cbn [concat]. apply Forall_app. split; [|apply (IH e (e + 1)); auto; lia].
  destruct sec as [z|z|z vs]; cbn [region_of render_chunks] in E1.
  - inv E1. destruct (Z.leb_spec e d); [constructor; [unfold in_time; cbn; lia|constructor]|]. destruct ((s <? d) && (d <? e)) eqn:Q; [|constructor].
    constructor; [unfold in_time; cbn; lia|constructor].
  - destruct (Z.leb_spec e d); [inv E1; repeat (constructor; [unfold in_time; cbn; lia|]); constructor|]. destruct ((e <? d) && (d <? e)); inv E1. constructor.
  - cbn [fst] in E1. destruct (d <=? s); [inv E1; constructor|]. pose proof SI as [N _]. rewrite spans_last in E1 by auto. cbn [bind snd] in E1. destruct (Z.ltb_spec d e); [discriminate|]. inv E1.
    pose proof (plain_in_time (s, Varied z vs, e) s lo e eq_refl ltac:(lia) ltac:(lia) SI) as PT. eapply Forall_impl; [|exact PT]. cbn. intros c [X Y]. split; auto. lia.
Qed.

(** Whatever is rendered is well-formed. *)
Lemma chunks_formed r bars c w cs : tune bars -> Forall compatible bars -> render_region r bars = Ret (Ok (c, w)) -> to_chunks c = Ret cs ->
  Forall in_time cs /\ open_only_last cs.
Proof.
  intros T F R TC. destruct (render_sound r bars c w T F R) as [C [l [gr [W [LB [_ [-> B]]]]]]]. rewrite <- LB in T. pose proof (layout_chain l W T) as CH.
  destruct gr as [g|].
  - rewrite LB in T. destruct (jump_built r bars g w T C B) as [s [J [_ [CO IS]]]]. pose proof (segno_range _ _ _ _ T J) as SR.
    assert (CB : match pair_of (marked Coda bars) with Some (_, q) => 0 <= q | None => True end).
    { destruct (marked Coda bars) as [|p [|q [|]]] eqn:MC; cbn [pair_of]; auto. apply (marked_range Coda bars q T). rewrite MC. cbn. auto. }
    destruct (set_iv s _ _ _ ltac:(lia) CB IS) as [lo K].
    destruct (jump_bar _ _ _ _ J) as [b [BI [BD _]]]. pose proof (tune_tick _ _ T BI) as BT.
    unfold to_chunks in TC. cbn [cp_global cp_regions] in TC.
    destruct (omapM (render_chunks (DcDsIter0 (ds_dc_tick (gr_ds_dc g)))) (map region_of (timed_layout l))) as [c1| |] eqn:E1; try discriminate. cbn [bind] in TC.
    destruct (omapM (render_chunks (DcDsIter1 g)) (map region_of (timed_layout l))) as [c2| |] eqn:E2; try discriminate. cbn [bind] in TC. inv TC.
    pose proof (first_any _ _ 0 0 c1 ltac:(lia) CH E1) as F1. pose proof (second_top _ _ _ CH (timed_ne _ _ _) E2) as CH1.
    destruct (second_chunks g lo (timed_layout l) K 0 1 ltac:(lia) ltac:(lia) CH1) as [c2' [E2' [S2 [F2 _]]]]. rewrite E2 in E2'. inv E2'. split.
    + apply Forall_app. split; [eapply Forall_impl; [|exact F1]; cbn; tauto|]. eapply Forall_impl; [|exact F2]. unfold in_time. cbn. lia.
    + apply ends_last_iff. pose proof (sorted_open_last _ F2 S2) as L2. destruct (concat c2') as [|x q] eqn:C2.
      * rewrite app_nil_r. clear - F1 BT BD. induction F1 as [|c q [_ H] F1 IH]; [exact Logic.I|]. destruct q; [exact Logic.I|]. split; [lia|exact IH].
      * apply ends_last_app; [discriminate| |exact L2]. eapply Forall_impl; [|exact F1]. cbn. lia.
  - symmetry in TC. apply eq_sym in TC. pose proof (chunks_plain _ _ TC) as X. inv X. destruct (plain_ends_last _ 0 0 ltac:(lia) CH) as [X Y]. split; [exact X|]. apply ends_last_iff. exact Y.
Qed.

(** A mark not before the end of an implicit repeat. *)
Lemma clear_outside l : well_laid l -> implicit_clear (layout_bars l) -> jump_outside l.
Proof.
  intros [I F] IC PL. apply Forall_forall. intros j JI.
  assert (DEC : no_jump j \/ ~ no_jump j). { unfold no_jump. destruct (has j Dc), (has j Ds); auto; right; intros [? ?]; discriminate. }
  destruct DEC as [|NJ]; [assumption|exfalso]. destruct l as [sec rest]. unfold layout_bars in IC. cbn [fst snd] in *.
  destruct sec as [z|z|z vs]; [discriminate| |]; cbn [section_bars inside] in *.
  - destruct I as [I1 [I2 _]]. destruct rest as [|[b c] rest]; [discriminate|]. cbn [follows] in F. destruct F as [[HE _] _]. cbn [is_repeated] in HE.
    apply in_split in JI. destruct JI as [p [m ->]].
    destruct (IC p j m b (section_bars c ++ rest_bars rest)) as [_ X]; auto.
    + cbn [rest_bars flat_map fst snd]. rewrite <- app_assoc. reflexivity.
    + unfold idle. apply Forall_forall. intros x X. rewrite Forall_forall in I1, I2. auto.
    + intros [[_ N] _]. congruence.
    + congruence.
  - destruct I as [I1 [I2 [_ [N [NV LV]]]]].
    apply in_app_iff in JI. destruct JI as [JI|JI].
    + apply in_split in JI. destruct JI as [p [m ->]]. destruct vs as [|v vs]; [congruence|]. destruct N as [VN [VC [VR _]]]. destruct v as [|x v]; [congruence|].
      inversion VC as [|? ? V1 _]; subst. inversion VR as [|? ? V2 _]; subst.
      destruct (IC p j m x (v ++ concat vs ++ rest_bars rest)) as [X _]; auto.
      * cbn [concat]. rewrite <- !app_assoc. cbn [app]; rewrite <- ?app_assoc; reflexivity.
      * unfold idle. apply Forall_forall. intros q Q. rewrite Forall_forall in I1, I2. auto.
      * intros [_ NV1]. specialize (V1 Var1 eq_refl). specialize (NV1 Var1 eq_refl). rewrite NV1 in V1. discriminate.
      * destruct V2. congruence.
    + clear - N JI NJ. revert N. generalize 1. induction vs as [|v vs IH]; intros k N; [destruct JI|]. destruct N as [_ [_ [_ [J N]]]]. cbn [concat] in JI. apply in_app_iff in JI.
      destruct JI as [JI|JI]; [|eapply IH; eauto]. rewrite Forall_forall in J. auto.
Qed.

(** Whatever is rendered plays in the documented order. *)
Lemma performed_segno r bars c w cs : tune bars -> Forall compatible bars -> implicit_clear bars ->
  render_region r bars = Ret (Ok (c, w)) -> to_chunks c = Ret cs ->
  exists l, well_laid l /\ layout_bars l = bars /\ segno_ok bars (timed_layout l) /\
    ((marked Dc bars = [] \/ first_bar_len bars = None) /\ marked Ds bars = [] /\ w = [] /\ performance cs = play l \/
     exists d s, jump (actual_top (full_bar r bars)) bars d s /\ codas_ok s bars /\ w = warnings_of bars /\
       performance cs = until d (play l) ++ second_pass l s (hd_error (marked Fine bars)) (pair_of (marked Coda bars))).
Proof.
  intros T F IC R TC. destruct (render_sound r bars c w T F R) as [C [l [gr [W [LB [SO [-> B]]]]]]]. exists l. split; [exact W|]. split; [exact LB|]. split; [exact SO|].
  assert (CH : chain 0 0 (timed_layout l)) by (apply layout_chain; auto; rewrite LB; exact T).
  destruct gr as [g|].
  - right. destruct (jump_built r bars g w T C B) as [s [J [WE [CO IS]]]]. pose proof (segno_range _ _ _ _ T J) as SR.
    exists (ds_dc_tick (gr_ds_dc g)), s. split; [exact J|]. split; [exact CO|]. split; [exact WE|].
    destruct (jump_set_ok bars s T C SR CO) as [is [E [K M]]]. rewrite IS in E. inv E.
    destruct (jump_bar _ _ _ _ J) as [b [BI [BD BN]]]. pose proof (tune_tick _ _ T BI) as BT.
    unfold to_chunks in TC. cbn [cp_global cp_regions] in TC.
    destruct (omapM (render_chunks (DcDsIter0 (ds_dc_tick (gr_ds_dc g)))) (map region_of (timed_layout l))) as [c1| |] eqn:E1; try discriminate. cbn [bind] in TC.
    destruct (omapM (render_chunks (DcDsIter1 g)) (map region_of (timed_layout l))) as [c2| |] eqn:E2; try discriminate. cbn [bind] in TC. inv TC.
    pose proof (second_top _ _ _ CH (timed_ne _ _ _) E2) as CH1.
    assert (JC : jump_clear (ds_dc_tick (gr_ds_dc g)) (timed_layout l)).
    { destruct W as [I1 F1]. apply (inside_plain (snd l) (fst l) true); auto; [apply clear_outside; auto; split; auto|exists b; auto]. }
    destruct (first_chunks (ds_dc_tick (gr_ds_dc g)) (timed_layout l) 0 1) as [c1' [E1' [P1 F1]]]; auto; try lia; [apply timed_ne|].
    rewrite E1 in E1'. inv E1'.
    destruct (second_perf l s (hd_error (marked Fine (layout_bars l))) (pair_of (marked Coda (layout_bars l))) g (gr_iter1 g) W CH1 ltac:(lia) eq_refl K ltac:(intros f H; apply fine_range in H; auto; lia) M) as [c2' [E2' [_ [_ P2]]]].
    rewrite E2 in E2'. inv E2'. rewrite perf_app, P1, P2. reflexivity.
  - left. pose proof (chunks_plain _ _ TC) as X. inv X. rewrite plain_perf_all.
    pose proof (build_cases r _ T C (build_no_overflow _ _ _ T C B)) as BC. rewrite B in BC. unfold jump_of in BC.
    destruct (marked Dc (layout_bars l)) as [|d dl]; [destruct (marked Ds (layout_bars l)) as [|d dl]|].
    + inv BC. auto.
    + destruct BC as [[e X]|[[X1 [X2 X3]]|[s [J X]]]]; try discriminate. destruct (to_interval_set s _ _); discriminate.
    + destruct BC as [[e X]|[[X1 [X2 X3]]|[s [J X]]]]; try discriminate; [inv X3; auto|]. destruct (to_interval_set s _ _); discriminate.
Qed.
Lemma performed r bars c w cs : tune bars -> Forall compatible bars -> implicit_clear bars ->
  render_region r bars = Ret (Ok (c, w)) -> to_chunks c = Ret cs ->
  exists l, well_laid l /\ layout_bars l = bars /\
    ((marked Dc bars = [] \/ first_bar_len bars = None) /\ marked Ds bars = [] /\ w = [] /\ performance cs = play l \/
     exists d s, jump (actual_top (full_bar r bars)) bars d s /\ codas_ok s bars /\ w = warnings_of bars /\
       performance cs = until d (play l) ++ second_pass l s (hd_error (marked Fine bars)) (pair_of (marked Coda bars))).
Proof.
  intros T F IC R TC. destruct (performed_segno r bars c w cs T F IC R TC) as (l & W & LB & _ & H). exists l. auto.
Qed.

(** ** Returning *)
Lemma build_returns r bars : tune bars -> counts_ok bars -> small_first bars -> codas_clear (actual_top (full_bar r bars)) bars ->
  exists x, gb_build (builder_of r bars) = Ret x.
Proof.
  intros T C SF CC. pose proof (coda_pair bars (proj1 (proj2 (proj2 C))) T) as CP. pose proof C as [C1 [C2 [_ C4]]].
  assert (DEC : (exists a b f, marked Coda bars = [a; b] /\ marked Fine bars = [f] /\ f < b) \/
    forall a b f, marked Coda bars = [a; b] -> marked Fine bars = [f] -> b <= f).
  { destruct (marked Coda bars) as [|a [|b [|c l]]]; try (right; intros; discriminate).
    destruct (marked Fine bars) as [|f [|]]; try (right; intros; discriminate). destruct (Z.lt_ge_cases f b).
    - left. exists a, b, f. auto.
    - right. intros a' b' f' X Y. inv X. inv Y. lia. }
  destruct DEC as [[a [b [f [MC [MF L]]]]]|CF].
  - unfold gb_build, builder_of. cbn [gb_ds_dc gb_fine gb_segno gb_coda gb_first_bar_len gb_top_rhythm]. rewrite MC, MF in *. cbn [hd_error].
    change (coda_of [a; b]) with (Some (CodaTwo a b)). unfold check_coda_pos. replace (f <? b) with true by lia. cbn [and_then].
    destruct (jump_of bars) as [[d len|d]|] eqn:JE; [|destruct (hd_error (marked Segno bars)); eauto|eauto].
    destruct (first_bar_len bars) as [first|] eqn:FL; [|eauto]. destruct (hd_error (marked Segno bars)); [cbn [bind]; eauto|].
    assert (LE : len = 0 \/ len = first). { unfold jump_of in JE. destruct (marked Dc bars) as [|x l]; [destruct (marked Ds bars); discriminate|]. rewrite FL in JE. inv JE. destruct (d =? 0); auto. }
    pose proof (first_range _ _ T FL). specialize (SF _ FL). unfold chk_u32. rewrite chk_ret by lia. cbn [bind]. eauto.
  - pose proof (build_cases r bars T C ltac:(intros _; split; [auto|intros a b f _; apply CF])) as B. destruct (jump_of bars) as [j|]; [|eauto].
    destruct B as [[e B]|[[_ [_ B]]|[s [J B]]]]; [eauto|eauto|]. rewrite B. destruct (jump_set_ok bars s T C (segno_range _ _ _ _ T J)) as [is [E _]].
    + intros a b MC. destruct (CC a b _ s MC J) as [X Y]. split; [exact X|]. destruct (marked Fine bars) as [|f [|]] eqn:MF; cbn in C2; try lia.
      * apply (marked_range Coda bars b T). rewrite MC. cbn. auto.
      * specialize (CF a b f MC eq_refl). destruct (Z.eq_dec b f) as [->|]; [destruct Y; cbn; auto|lia].
    + rewrite E. cbn. eauto.
Qed.

Lemma rendering_returns r bars : tune bars -> Forall compatible bars -> no_restart bars -> small_first bars ->
  codas_clear (actual_top (full_bar r bars)) bars -> top_clear bars -> implicit_clear bars ->
  exists x, render_region r bars = Ret x /\ forall c w, x = Ok (c, w) -> exists cs, to_chunks c = Ret cs.
Proof.
  intros T F NR SF CC TC IC.
  assert (R : exists x, render_region r bars = Ret x).
  { unfold render_region. rewrite <- builder_nil. destruct (loop_ret r bars [] SIdle [] T F NR counts_nil Logic.I (Forall_nil _)) as [x L]. rewrite L. cbn [bind].
    destruct x as [[[g st] regs]|e]; [|eauto].
    destruct (loop_known r bars [] SIdle [] g st regs T F counts_nil Logic.I (Forall_nil _) L) as [W [K [-> C]]]. cbn [app] in *.
    destruct (build_returns r bars T C SF CC) as [y Y]. unfold rr_finish. rewrite Y. cbn [bind]. destruct st as [|s|s|s l]; eauto.
    rewrite (last_nth l 0) by (destruct l; [cbn in W; lia|discriminate]). cbn. eauto. }
  destruct R as [x R]. exists x. split; [exact R|]. intros c w ->. destruct (render_sound r bars c w T F R) as [C [l [gr [W [LB [_ [-> B]]]]]]].
  destruct gr as [g|].
  - destruct (jump_built r bars g w T C B) as [s [J [WE [CO IS]]]]. pose proof (segno_range _ _ _ _ T J) as SR.
    destruct (jump_set_ok bars s T C SR CO) as [is [E [K M]]]. rewrite IS in E. inv E.
    destruct (jump_performance l g (ds_dc_tick (gr_ds_dc g)) s (hd_error (marked Fine (layout_bars l))) (pair_of (marked Coda (layout_bars l)))) as [cs [X _]]; auto.
    + apply clear_outside; auto.
    + apply (jump_bar _ _ _ _ J).
    + lia.
    + intros f H. apply fine_range in H; auto. lia.
    + eauto.
  - rewrite (chunks_plain _ _ eq_refl). eauto.
Qed.

(** ** What is accepted *)
Lemma accepted r bars : tune bars -> Forall compatible bars -> small_first bars ->
  ((exists c w, render_region r bars = Ret (Ok (c, w))) <->
   counts_ok bars /\ (exists l, well_laid l /\ layout_bars l = bars /\ segno_ok bars (timed_layout l)) /\
   ((marked Dc bars = [] \/ first_bar_len bars = None) /\ marked Ds bars = [] \/
    exists d s, jump (actual_top (full_bar r bars)) bars d s /\ codas_ok s bars)).
Proof.
  intros T F SF. split.
  - intros [c [w R]]. destruct (render_sound r bars c w T F R) as [C [l [gr [W [LB [S [-> B]]]]]]]. split; [exact C|]. split; [exists l; auto|].
    destruct gr as [g|].
    + right. destruct (jump_built r bars g w T C B) as [s [J [_ [CO _]]]]. eauto.
    + left. pose proof (build_cases r _ T C (build_no_overflow _ _ _ T C B)) as BC. rewrite B in BC. unfold jump_of in BC.
      destruct (marked Dc bars) as [|d dl]; [destruct (marked Ds bars) as [|d dl]|].
      * auto.
      * destruct BC as [[e X]|[[X1 [X2 X3]]|[s [J X]]]]; try discriminate. destruct (to_interval_set s _ _); discriminate.
      * destruct BC as [[e X]|[[X1 [X2 X3]]|[s [J X]]]]; try discriminate; [auto|]. destruct (to_interval_set s _ _); discriminate.
  - intros [C [[l [W [<- S]]] J]].
    assert (B : exists gr w, gb_build (builder_of r (layout_bars l)) = Ret (Ok (gr, w))).
    { destruct J as [[A B]|[d [s [J CO]]]].
      - unfold gb_build, builder_of. cbn [gb_ds_dc gb_fine gb_segno gb_coda gb_first_bar_len gb_top_rhythm]. unfold jump_of. rewrite B. destruct A as [->| ->]; [eauto|]. destruct (marked Dc (layout_bars l)); eauto.
      - destruct (build_jump r _ d s T C SF J CO) as [g [B _]]. eauto. }
    destruct B as [gr [w B]]. destruct (loop_layout r l W T C S) as [st [regs [s' [R [CL E]]]]]. unfold render_region. rewrite R. cbn [bind].
    unfold rr_finish. rewrite B. cbn [bind]. destruct st; cbn in CL; inv CL; eauto.
Qed.
