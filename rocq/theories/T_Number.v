(** Property theorems about the numbers of bars when bar lines are put in and taken out: C79. *)
From Coq Require Import ZArith List Bool Lia Sorted.
From Verif Require Import Base M_Pitch M_Duration M_Percent M_Scalar M_Bar M_Note M_Store M_Tuple M_Models M_Project M_Repeat.
From Verif Require Import S_Project S_Repeat S_Score S_Number P_Base P_Store P_Query P_Edit.
From Verif Require T_Project T_Lines.
Import ListNotations.
Open Scope Z_scope.

Lemma filter_none {A} (f : A -> bool) l : (forall x, In x l -> f x = false) -> filter f l = [].
Proof. induction l as [|x l IH]; intros H; cbn; [reflexivity|]. rewrite (H x) by (left; reflexivity). apply IH. intros y I. apply H. right. exact I. Qed.
Lemma filter_all {A} (f : A -> bool) l : (forall x, In x l -> f x = true) -> filter f l = l.
Proof. induction l as [|x l IH]; intros H; cbn; [reflexivity|]. rewrite (H x) by (left; reflexivity). f_equal. apply IH. intros y I. apply H. right. exact I. Qed.
Lemma max_app (l : list Z) : forall m z, (forall y, In y l -> y <= z) -> 0 <= z -> fold_right Z.max 0 (l ++ z :: m) = Z.max z (fold_right Z.max 0 m).
Proof.
  induction l as [|x l IH]; intros m z H Z0; [reflexivity|]. cbn [app fold_right]. rewrite IH; [|intros; apply H; right; assumption|exact Z0].
  specialize (H x (or_introl eq_refl)). lia.
Qed.

Lemma keyed_split t s : srt bar s -> (forall k b, In (k, b) s -> k = b_tick b) -> exists s1 s2,
  s = s1 ++ s2 /\ (forall x, In x (map snd s1) -> b_tick x <= t) /\ (forall x, In x (map snd s2) -> t < b_tick x).
Proof.
  induction s as [|[k b] s IH]; intros S K; [exists [], []; repeat split; intros ? []|].
  apply srt_cons in S as [S1 S2]. destruct (Z.le_gt_cases k t) as [L|L].
  - destruct IH as (s1 & s2 & -> & A & B); [exact S1|intros; apply K; right; assumption|]. exists ((k, b) :: s1), s2. split; [reflexivity|]. split; [|exact B].
    intros x [<-|I]; [cbn; rewrite <- (K k b) by (left; reflexivity); exact L|auto].
  - exists [], ((k, b) :: s). split; [reflexivity|]. split; [intros ? []|]. intros x [<-|I]; [cbn; rewrite <- (K k b) by (left; reflexivity); lia|].
    apply in_map_iff in I as ([k' b'] & <- & I). pose proof (S2 _ _ I). cbn in *. rewrite <- (K k' b') by (right; exact I). lia.
Qed.

(** The location that is shown for a tick: the bar number is the number of bar lines at or before the
    tick, the offset the distance from the last of them. *)
Theorem C79_shown : forall p t, project_ok p -> u32 t ->
  tick_to_location p t = Ret (mkLoc (lines_at t (score p)) (t - last_line t (score p))).
Proof.
  intros p t O U. pose proof (ok_bars p O) as K. destruct (tick_to_location_spec p t K U) as (l & E & _). rewrite E. f_equal.
  assert (KE : forall k b, In (k, b) (pj_bars p) -> k = b_tick b /\ u32 (b_tick b)) by (intros k v I; destruct (proj2 K k v I) as [-> ?]; auto).
  pose proof (keyed_srt _ _ K) as SR. destruct l as [n o]. pose proof (T_Project.C24_meaning p t _ O U E) as M. cbn [loc_bar loc_offset] in M.
  unfold lines_at, last_line, score. destruct M as [(-> & -> & A)|(i & k & b & -> & N & L & -> & NX)].
  - rewrite filter_none; [cbn; f_equal; lia|]. intros x I. apply in_map_iff in I as ([k b] & <- & I). pose proof (A _ _ I). destruct (KE _ _ I) as [-> _]. cbn. apply Z.leb_gt. lia.
  - apply nth_error_split in N as (s1 & s2 & EQ & LEN). rewrite EQ in *. rewrite map_app, filter_app. cbn [map snd filter].
    assert (KB : k = b_tick b /\ u32 (b_tick b)) by (apply KE, in_app_iff; right; left; reflexivity). destruct KB as [-> UB].
    assert (B1 : forall x, In x (map snd s1) -> b_tick x < b_tick b).
    { intros x I. apply in_map_iff in I as ([k' b'] & <- & I). cbn [snd]. assert (Q : k' = b_tick b') by (apply KE, in_app_iff; left; exact I). subst k'.
      clear - SR I. induction s1 as [|[q w] s1 IH]; [destruct I|]. cbn [app] in SR. apply srt_cons in SR as [S1 S2]. destruct I as [I|I]; [|auto].
      inv I. apply (S2 (b_tick b) b). apply in_app_iff. right. left. reflexivity. }
    assert (B2 : forall x, In x (map snd s2) -> t < b_tick x).
    { intros x I. apply in_map_iff in I as ([k' b'] & <- & I). cbn [snd].
      assert (Q : k' = b_tick b') by (apply KE, in_app_iff; right; right; exact I). subst k'.
      destruct s2 as [|[q w] s2]; [destruct I|]. assert (t < q).
      { apply (NX q w). rewrite <- LEN. rewrite nth_error_app2 by lia. replace (S (length s1) - length s1)%nat with 1%nat by lia. reflexivity. }
      destruct I as [I|I]; [inv I; assumption|]. 
      assert (S' : srt bar ((q, w) :: s2)). { clear - SR. induction s1 as [|a s1 IH]; cbn [app] in SR; apply srt_cons in SR as [S1 _]; auto. }
      apply srt_cons in S' as [_ S2]. apply S2 in I. cbn in I. lia. }
    rewrite (filter_all _ (map snd s1)) by (intros x I; apply Z.leb_le; specialize (B1 x I); lia).
    rewrite (proj2 (Z.leb_le _ _) L). rewrite filter_none by (intros x I; apply Z.leb_gt; auto).
    f_equal; [rewrite app_length, map_length; cbn; lia|].
    rewrite map_app. cbn [map]. rewrite max_app; [cbn; unfold u32 in UB; lia| |unfold u32 in UB; lia].
    intros y I. apply in_map_iff in I as (x & <- & I). specialize (B1 x I). lia.
Qed.
Print Assumptions C79_shown.

Lemma line_app t l1 l2 : last_line t (l1 ++ l2) = Z.max (last_line t l1) (last_line t l2).
Proof.
  unfold last_line. rewrite filter_app, map_app. induction (map b_tick (filter (fun b => b_tick b <=? t) l1)) as [|x l IH]; cbn [app fold_right].
  - assert (0 <= fold_right Z.max 0 (map b_tick (filter (fun b => b_tick b <=? t) l2))); [|lia].
    induction (map b_tick (filter (fun b => b_tick b <=? t) l2)); cbn; lia.
  - rewrite IH. lia.
Qed.

(** With one more line: nothing changes before it; from it on the bar numbers are one higher; the offsets
    count from the new line as far as it is the last one. *)
Theorem C79_renumbered : forall b p p' t l, project_ok p -> project_ok p' -> one_more b p p' -> u32 t ->
  tick_to_location p t = Ret l ->
  (t < b_tick b -> tick_to_location p' t = Ret l) /\
  (b_tick b <= t -> tick_to_location p' t = Ret (mkLoc (loc_bar l + 1) (Z.min (loc_offset l) (t - b_tick b)))).
Proof.
  intros b p p' t l O O' (_ & l1 & l2 & E1 & E2) U E. rewrite (C79_shown p t O U) in E. apply ret_inj in E. subst l. rewrite (C79_shown p' t O' U).
  cbn [loc_bar loc_offset]. rewrite E1, E2, !line_app. unfold lines_at. change (b :: l2) with ([b] ++ l2). rewrite line_app, !filter_app, !app_length.
  assert (P : 0 <= b_tick b).
  { assert (I : In b (score p')) by (rewrite E2; apply in_app_iff; right; left; reflexivity). apply in_map_iff in I as ([k x] & Q & I). cbn in Q. subst x.
    destruct (proj2 (ok_bars p' O') _ _ I) as [-> V]. unfold u32 in V. lia. }
  assert (Q : last_line t [b] = if b_tick b <=? t then b_tick b else 0) by (unfold last_line; cbn; destruct (b_tick b <=? t); cbn; lia).
  rewrite Q. cbn [filter]. assert (0 <= last_line t l1 /\ 0 <= last_line t l2) as [P1 P2].
  { unfold last_line. split; [induction (map b_tick (filter (fun b => b_tick b <=? t) l1))|induction (map b_tick (filter (fun b => b_tick b <=? t) l2))]; cbn; lia. }
  split; intros L.
  - rewrite (proj2 (Z.leb_gt _ _) L). cbn [length]. f_equal. f_equal; lia.
  - rewrite (proj2 (Z.leb_le _ _) L). cbn [length]. f_equal. f_equal; lia.
Qed.
Print Assumptions C79_renumbered.

Lemma ok_ticks p : project_ok p -> forall k b, In (k, b) (pj_bars p) -> k = b_tick b.
Proof. intros O k b I. exact (proj1 (proj2 (ok_bars p O) k b I)). Qed.

(** Putting a line in at a tick that has none, and taking one out, alone or with other elements. *)
Theorem C79_edits : forall p b p' c, project_ok p ->
  (~ In (b_tick b) (map b_tick (score p)) -> edit_run (EAddBar b) p = Ret (Some (p', c)) -> one_more b p p') /\
  (forall m, m_bars m = [b] -> In b (score p) -> edit_run (EBulkRemove m) p = Ret (Some (p', c)) -> one_more b p' p).
Proof.
  intros p b p' c O. pose proof (ok_ticks p O) as K. pose proof (keyed_srt _ _ (ok_bars p O)) as S. unfold one_more, score. split.
  - intros N E. cbn [edit_run] in E. unfold add_bar in E.
    destruct (T_Lines.add_split (b_tick b) b (pj_bars p) S) as (s1 & s2 & E1 & E2 & _).
    { intros w J. apply N. apply in_map_iff. exists w. rewrite <- (K _ _ J). split; auto. apply (in_map snd) in J. exact J. }
    destruct (s_add (b_tick b) b (pj_bars p)) as [s o]. cbn [fst] in E2. subst s. apply ret_inj in E. inv E. split; [reflexivity|].
    exists (map snd s1), (map snd s2). cbn [pj_set_bars pj_bars]. rewrite E1, !map_app. auto.
  - intros m M I E. cbn [edit_run] in E. unfold bulk_remove, by_cmd in E. apply ret_inj in E. inv E.
    assert (J : In (b_tick b, b) (pj_bars p)).
    { apply in_map_iff in I as ([k y] & Q & J). cbn in Q. subst y. rewrite <- (K _ _ J). exact J. }
    destruct (T_Lines.remove_split (b_tick b) b (pj_bars p) S J) as (s1 & s2 & E1 & E2 & _).
    cbn [cmd_redo exchange pj_rhythm pj_bars m_bars models_empty map add_all fold_left]. rewrite M. split; [reflexivity|].
    unfold remove_keys. cbn [map fold_left]. rewrite E2, E1. exists (map snd s1), (map snd s2). rewrite !map_app. auto.
Qed.
Print Assumptions C79_edits.

(** The ticks that typed locations stand for: up to the new line they stay; each bar behind it is found
    under the next number.  Behind the last bar, where the bars are counted on, it is so too if the new
    line is not the last one and sets no rhythm. *)
Theorem C79_typed : forall b p p' l, project_ok p -> project_ok p' -> one_more b p p' ->
  Z.of_nat (length (score p')) <= u32_max -> 0 <= loc_bar l < u32_max ->
  let next := mkLoc (loc_bar l + 1) (loc_offset l) in
  (loc_bar l <= lines_at (b_tick b) (score p) -> location_to_tick p' l = location_to_tick p l) /\
  (lines_at (b_tick b) (score p) < loc_bar l <= Z.of_nat (length (score p)) -> location_to_tick p' next = location_to_tick p l) /\
  (Z.of_nat (length (score p)) < loc_bar l -> lines_at (b_tick b) (score p) < Z.of_nat (length (score p)) -> b_rhythm b = None ->
     location_to_tick p' next = location_to_tick p l).
Proof.
  intros b p p' l O O' (RH & l1 & l2 & E1 & E2) N B next. unfold next. clear next.
  pose proof (ok_ticks p O) as K. pose proof (ok_ticks p' O') as K'. pose proof (keyed_srt _ _ (ok_bars p O)) as S. pose proof (keyed_srt _ _ (ok_bars p' O')) as S'.
  assert (SC : forall q, project_ok q -> pj_bars q = map (fun b => (b_tick b, b)) (score q)).
  { intros q Oq. pose proof (ok_ticks q Oq) as Q. unfold score. rewrite map_map. rewrite <- (map_id (pj_bars q)) at 1. apply map_ext_in. intros [k x] I. cbn. rewrite <- (Q _ _ I). reflexivity. }
  set (f := fun b : bar => (b_tick b, b)) in *.
  assert (P1 : pj_bars p = map f l1 ++ map f l2) by (rewrite (SC p O), E1; apply map_app).
  assert (P2 : pj_bars p' = map f l1 ++ f b :: map f l2) by (rewrite (SC p' O'), E2; apply map_app).
  assert (B1 : forall x, In x l1 -> b_tick x < b_tick b).
  { intros x I. rewrite P2 in S'. apply (in_map f) in I. clear - S' I. induction (map f l1) as [|y s IH]; [destruct I|]. cbn [app] in S'. apply srt_cons in S' as [S1 S2].
    destruct I as [->|I]; [|auto]. apply (S2 (b_tick b) b). apply in_app_iff. right. left. reflexivity. }
  assert (B2 : forall x, In x l2 -> b_tick b < b_tick x).
  { intros x I. rewrite P2 in S'. apply (in_map f) in I. clear - S' I. induction (map f l1) as [|y s IH]; cbn [app] in S'; apply srt_cons in S' as [S1 S2]; [|auto]. exact (S2 _ _ I). }
  assert (LN : lines_at (b_tick b) (score p) = Z.of_nat (length l1)).
  { unfold lines_at. rewrite E1, filter_app, filter_all, filter_none, app_nil_r; [reflexivity|intros x I; apply Z.leb_gt; auto|intros x I; apply Z.leb_le; specialize (B1 x I); lia]. }
  rewrite LN. rewrite E1, E2 in *. rewrite app_length in *. cbn [length] in N. clear LN E1 E2 SC K K'.
  assert (LE : length (pj_bars p) = (length l1 + length l2)%nat) by (rewrite P1, app_length, !map_length; reflexivity).
  assert (LE' : length (pj_bars p') = (length l1 + Datatypes.S (length l2))%nat) by (rewrite P2, app_length; cbn; rewrite !map_length; reflexivity).
  split; [|split].
  - intros L. unfold location_to_tick. destruct (Z.eqb_spec (loc_bar l) 0); [reflexivity|]. destruct (Z.ltb_spec u32_max (loc_bar l)); [lia|]. rewrite LE, LE'.
    destruct (Z.leb_spec (loc_bar l) (Z.of_nat (length l1 + length l2))); [|lia]. destruct (Z.leb_spec (loc_bar l) (Z.of_nat (length l1 + Datatypes.S (length l2)))); [|lia].
    unfold s_index. rewrite P1, P2, !nth_error_app1 by (rewrite map_length; lia). reflexivity.
  - intros L. unfold location_to_tick. cbn [loc_bar loc_offset]. destruct (Z.eqb_spec (loc_bar l) 0); [lia|]. destruct (Z.eqb_spec (loc_bar l + 1) 0); [lia|].
    destruct (Z.ltb_spec u32_max (loc_bar l)); [lia|]. destruct (Z.ltb_spec u32_max (loc_bar l + 1)); [lia|]. rewrite LE, LE'.
    destruct (Z.leb_spec (loc_bar l) (Z.of_nat (length l1 + length l2))); [|lia]. destruct (Z.leb_spec (loc_bar l + 1) (Z.of_nat (length l1 + Datatypes.S (length l2)))); [|lia].
    unfold s_index. rewrite P1, P2, !nth_error_app2 by (rewrite map_length; lia). rewrite map_length.
    replace (Z.to_nat (loc_bar l + 1 - 1) - length l1)%nat with (Datatypes.S (Z.to_nat (loc_bar l - 1) - length l1)) by lia. reflexivity.
  - intros L1 L2 R. unfold location_to_tick. cbn [loc_bar loc_offset]. destruct (Z.eqb_spec (loc_bar l) 0); [lia|]. destruct (Z.eqb_spec (loc_bar l + 1) 0); [lia|].
    destruct (Z.ltb_spec u32_max (loc_bar l)); [lia|]. destruct (Z.ltb_spec u32_max (loc_bar l + 1)); [lia|]. rewrite LE, LE'.
    destruct (Z.leb_spec (loc_bar l) (Z.of_nat (length l1 + length l2))); [lia|]. destruct (Z.leb_spec (loc_bar l + 1) (Z.of_nat (length l1 + Datatypes.S (length l2)))); [lia|].
    destruct (@exists_last _ l2) as (m & z & ->); [intros ->; cbn in L2; lia|].
    assert (LB : last_bar p = Some (length (pj_bars p) - 1, z)%nat /\ last_bar p' = Some (length (pj_bars p') - 1, z)%nat).
    { unfold last_bar. assert (PL : forall q, s_peek_last (q ++ [f z]) = Some (f z)) by (intros [|y q]; [reflexivity|]; cbn [s_peek_last app]; rewrite last_last; reflexivity).
      split; [rewrite P1 at 1|rewrite P2 at 1]; rewrite map_app; cbn [map]; [rewrite app_assoc, PL|rewrite app_comm_cons, app_assoc, PL]; reflexivity. }
    destruct LB as [-> ->]. 
    assert (RA : forall t, rhythm_at p' t = rhythm_at p t).
    { intros t. destruct (rhythm_at_spec p t (ok_bars p O)) as (o & LA & EA). destruct (rhythm_at_spec p' t (ok_bars p' O')) as (o' & LA' & EA').
      assert (SE : setting b_rhythm (pj_bars p') = setting b_rhythm (pj_bars p)).
      { rewrite P1, P2. unfold setting. rewrite !flat_map_app. cbn [flat_map snd f]. rewrite R. reflexivity. }
      rewrite SE in LA'. rewrite (latest_unique _ _ _ _ (setting_srt _ _ S) LA' LA) in EA'. rewrite EA, EA', RH. reflexivity. }
    rewrite RA. destruct (rhythm_at p (b_tick z)) as [r| |]; cbn [bind]; [|reflexivity..].
    replace (loc_bar l + 1 - Z.of_nat (length (pj_bars p') - 1)) with (loc_bar l - Z.of_nat (length (pj_bars p) - 1)) by lia. reflexivity.
Qed.
Print Assumptions C79_typed.

(** A bar put in place of another one renumbers nothing. *)
Theorem C79_replaced : forall p b p' c t, project_ok p -> u32 (b_tick b) -> u32 t -> In (b_tick b) (map b_tick (score p)) ->
  edit_run (EAddBar b) p = Ret (Some (p', c)) ->
  tick_to_location p' t = tick_to_location p t.
Proof.
  intros p b p' c t O U UT I E. destruct (edit_ok (EAddBar b) p p' c O) as [O' _]; [exact U|exact E|].
  rewrite (C79_shown p t O UT), (C79_shown p' t O' UT).
  assert (Q : map b_tick (score p') = map b_tick (score p)).
  { pose proof (ok_ticks p O) as K. pose proof (keyed_srt _ _ (ok_bars p O)) as S. cbn [edit_run] in E. unfold add_bar, score in *.
    destruct (s_add (b_tick b) b (pj_bars p)) as [s o] eqn:A. apply ret_inj in E. inv E. cbn [pj_set_bars pj_bars].
    replace s with (fst (s_add (b_tick b) b (pj_bars p))) by (rewrite A; reflexivity). clear A O O' U UT. revert I K S.
    induction (pj_bars p) as [|[k x] l IH]; intros I K S; [destruct I|]. cbn [s_add]. cbn [map snd] in I.
    assert (KX : k = b_tick x) by (apply K; left; reflexivity). apply srt_cons in S as [S1 S2].
    destruct (Z.eqb_spec (b_tick b) k) as [Q|NQ]; [cbn; f_equal; lia|].
    destruct I as [I|I]; [lia|]. destruct (Z.ltb_spec (b_tick b) k) as [L|L].
    - exfalso. rewrite map_map in I. apply in_map_iff in I as ([k' y] & Q & I). pose proof (S2 _ _ I). cbn in *.
      assert (k' = b_tick y) by (apply K; right; exact I). lia.
    - specialize (IH I ltac:(intros; apply K; right; assumption) S1). destruct (s_add (b_tick b) b l) as [s' o']. cbn [fst map snd] in *. f_equal. exact IH. }
  unfold lines_at, last_line. f_equal.
  assert (F : forall l l', map b_tick l = map b_tick l' -> map b_tick (filter (fun b => b_tick b <=? t) l) = map b_tick (filter (fun b => b_tick b <=? t) l')).
  { clear. induction l as [|x l IH]; intros [|y l'] H; try discriminate; [reflexivity|]. injection H as H1 H2. cbn [filter]. rewrite H1.
    destruct (b_tick y <=? t); cbn [map]; rewrite (IH l' H2); congruence. }
  specialize (F _ _ Q). rewrite F. f_equal. rewrite <- (map_length b_tick), F, map_length. reflexivity.
Qed.
Print Assumptions C79_replaced.

Import T_Project.
(** A line without signatures put into the first bar of the project of the examples, and the third bar behind its
    last line. *)
Example C79_case : exists p' c, edit_run (EAddBar (mkBar 480 None None 0)) ex_project = Ret (Some (p', c)) /\
  project_ok ex_project /\ project_ok p' /\ one_more (mkBar 480 None None 0) ex_project p' /\
  (exists p'' c', edit_run (EBulkRemove (mkModels [] [mkBar 480 None None 0] [] [] [])) p' = Ret (Some (p'', c')) /\ one_more (mkBar 480 None None 0) p'' p') /\
  tick_to_location ex_project 500 = Ret (mkLoc 0 500) /\ tick_to_location p' 500 = Ret (mkLoc 1 20) /\
  tick_to_location ex_project 1000 = Ret (mkLoc 1 40) /\ tick_to_location p' 1000 = Ret (mkLoc 2 40) /\
  location_to_tick ex_project (mkLoc 4 7) = Ret (Ok 3367) /\ location_to_tick p' (mkLoc 5 7) = Ret (Ok 3367).
Proof.
  eexists. eexists. split; [vm_compute; reflexivity|]. split; [exact ex_project_ok|].
  assert (N : ~ In 480 (map b_tick (score ex_project))) by (cbn; lia).
  split; [|split; [|split]].
  - eapply (edit_ok (EAddBar (mkBar 480 None None 0)) ex_project); [exact ex_project_ok|cbn; unfold u32, u32_max; lia|vm_compute; reflexivity].
  - eapply (C79_edits ex_project (mkBar 480 None None 0)); [exact ex_project_ok|exact N|vm_compute; reflexivity].
  - eexists. eexists. split; [vm_compute; reflexivity|]. split; [reflexivity|]. exists [], [mkBar 960 None None 0; mkBar 1920 (Some (mkRhythm 3 D4)) (Some 2) 0]. split; reflexivity.
  - repeat split; vm_compute; reflexivity.
Qed.

(** Behind the last bar it is not so if the new line sets a rhythm, or is the last one. *)
Theorem C79_counted_on_refuted : exists p b b' p1 p2 l, project_ok p /\ one_more b p p1 /\ one_more b' p p2 /\
  lines_at (b_tick b) (score p) < Z.of_nat (length (score p)) /\ b_rhythm b' = None /\ Z.of_nat (length (score p)) < loc_bar l /\
  location_to_tick p l = Ret (Ok 2880) /\
  location_to_tick p1 (mkLoc (loc_bar l + 1) (loc_offset l)) = Ret (Ok 2640) /\
  location_to_tick p2 (mkLoc (loc_bar l + 1) (loc_offset l)) = Ret (Ok 2960).
Proof.
  pose (bars := fun l => mkProject rhythm_default 0 60 [] (map (fun b => (b_tick b, b)) l) [] [] []).
  exists (bars [mkBar 960 None None 0; mkBar 1920 None None 0]), (mkBar 480 (Some (mkRhythm 3 D4)) None 0), (mkBar 2000 None None 0).
  exists (bars [mkBar 480 (Some (mkRhythm 3 D4)) None 0; mkBar 960 None None 0; mkBar 1920 None None 0]), (bars [mkBar 960 None None 0; mkBar 1920 None None 0; mkBar 2000 None None 0]), (mkLoc 3 0).
  split. { constructor; (split; [repeat constructor; cbn; lia|in_list]). all: split; [reflexivity|unfold u32, u32_max; cbn; lia]. }
  split. { split; [reflexivity|]. exists [], [mkBar 960 None None 0; mkBar 1920 None None 0]. split; reflexivity. }
  split. { split; [reflexivity|]. exists [mkBar 960 None None 0; mkBar 1920 None None 0], []. split; reflexivity. }
  repeat split; vm_compute; reflexivity.
Qed.
Print Assumptions C79_counted_on_refuted.
