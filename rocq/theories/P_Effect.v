(** Lemmas about where edits take effect: C71, C72. *)
From Coq Require Import ZArith List Bool Lia Sorted.
From Verif Require Import Base M_Duration M_Scalar M_Bar M_Note M_Store M_Models M_Project.
From Verif Require Import S_Project S_Score S_Effect P_Base P_Store P_Query P_Replenish P_Edit P_History.
Import ListNotations.
Open Scope Z_scope.

(** ** Locations *)

Lemma location_small p l : keyed b_tick (pj_bars p) -> valid_rhythms p ->
  1 <= loc_bar l <= u32_max -> 0 <= loc_offset l ->
  exists r, rhythm_at p (last_tick p) = Ret r /\
    let t := bar_start p (rhythm_tick_len r) (loc_bar l) + loc_offset l in
    location_to_tick p l = if usize_max <? t then Panic else Ret (fits t).
Proof.
  intros H A Hb Ho. destruct (rhythm_at_all _ p (last_tick p) H A) as [r [Er Hr]].
  exists r. split; auto. pose proof (rhythm_tick_len_range r ltac:(lia)) as R1.
  pose proof (rhythm_tick_len_pos r Hr) as R2.
  assert (R3 : 15 <= rhythm_tick_len (pj_rhythm p) <= 122400).
  { destruct A as [A _]. split; [apply rhythm_tick_len_pos; auto|apply rhythm_tick_len_range; lia]. }
  unfold location_to_tick, bar_start, fits, usize_max, u32_max in *. cbv zeta.
  destruct (Z.eqb_spec (loc_bar l) 0) as [E0|E0]; [lia|].
  destruct (last_bar_spec p H) as [LB LT].
  destruct (Z.ltb_spec 4294967295 (loc_bar l)) as [L1|L1]; [lia|].
  destruct (Z.leb_spec (loc_bar l) (Z.of_nat (length (pj_bars p)))) as [L2|L2].
  + destruct (nth_error (pj_bars p) (Z.to_nat (loc_bar l - 1))) as [[k b]|] eqn:En.
    2:{ apply nth_error_None in En. lia. }
    unfold s_index. rewrite En. cbn [unwrap_opt bind fst]. unfold chk_usize, usize_max.
    destruct (proj2 H _ _ (nth_error_In _ _ En)) as [_ U]. unfold u32, u32_max in U.
    destruct (Z.ltb_spec 18446744073709551615 (k + loc_offset l)); [rewrite chk_panic by lia; reflexivity|].
    rewrite chk_ret by lia. cbn [bind]. auto.
  + destruct (nth_error (pj_bars p) (Z.to_nat (loc_bar l - 1))) as [[k b]|] eqn:En.
    { assert (Z.to_nat (loc_bar l - 1) < length (pj_bars p))%nat by (apply nth_error_Some; congruence). lia. }
    rewrite LB. unfold last_tick in Er. unfold chk_usize, usize_max.
    destruct (pj_bars p) as [|x s] eqn:Ep.
    * rewrite chk_ret by nia. cbn [bind].
      destruct (Z.ltb_spec 18446744073709551615 (loc_bar l * rhythm_tick_len (pj_rhythm p) + loc_offset l));
        [rewrite chk_panic by lia; reflexivity|].
      rewrite chk_ret by nia. cbn [bind]. auto.
    * rewrite LT, Er. cbn [bind]. cbn [length] in *.
      pose proof (last_In bar x s) as Il.
      assert (U : u32 (fst (last s x))).
      { destruct (last s x) as [k b]. apply (proj2 H) in Il. tauto. }
      unfold u32, u32_max in U.
      rewrite chk_ret by lia. cbn [bind]. rewrite chk_ret by lia. cbn [bind].
      replace (loc_bar l - Z.of_nat (length s) - 1) with (loc_bar l - Z.of_nat (S (length s))) by lia.
      set (m := loc_bar l - Z.of_nat (S (length s))) in *.
      assert (M : 0 <= m * rhythm_tick_len r <= 4294967295 * 122400) by nia.
      set (a := m * rhythm_tick_len r) in *.
      rewrite chk_ret by lia. cbn [bind].
      destruct (Z.ltb_spec 18446744073709551615 (fst (last s x) + a + loc_offset l)) as [V|V].
      { destruct (Z.ltb_spec 18446744073709551615 (a + loc_offset l)); [rewrite chk_panic by lia; reflexivity|].
        rewrite chk_ret by lia. cbn [bind]. rewrite chk_panic by lia. reflexivity. }
      rewrite chk_ret by lia. cbn [bind]. rewrite chk_ret by lia. cbn [bind].
      replace (a + loc_offset l + fst (last s x)) with (fst (last s x) + a + loc_offset l) by lia. auto.
Qed.

(** ** Values in force, read off the stores *)

Lemma latest_ext {V} (s s' : list (Z * V)) x o : (forall k v, In (k, v) s' <-> In (k, v) s) -> latest s x o -> latest s' x o.
Proof.
  intros E. destruct o as [v|]; cbn.
  - intros (k & I & L & M). exists k. split; [apply E; exact I|]. split; [exact L|]. intros k' v' I'. apply M with v', E, I'.
  - intros H k v I. apply H with v, E, I.
Qed.

Lemma latest_local {V} (s s' : list (Z * V)) M x o :
  (forall k v, ~ In k M -> (In (k, v) s' <-> In (k, v) s)) -> shielded M s x -> latest s x o -> latest s' x o.
Proof.
  intros E SH. destruct o as [v|]; cbn.
  - intros (k & I & L & Mx).
    assert (N : ~ In k M).
    { intros J. destruct (SH k J) as [J'|(k' & a & I' & _ & B)]; [lia|]. specialize (Mx k' a I' ltac:(lia)). lia. }
    exists k. split; [apply E; auto|]. split; [exact L|]. intros k' v' I' L'.
    destruct (in_dec Z.eq_dec k' M) as [J|J].
    + destruct (SH k' J) as [J'|(k2 & a & I2 & _ & B)]; [lia|]. specialize (Mx k2 a I2 ltac:(lia)). lia.
    + apply Mx with v'; auto. apply E; auto.
  - intros H k v I. destruct (in_dec Z.eq_dec k M) as [J|J].
    + destruct (SH k J) as [J'|(k' & a & I' & _ & B)]; [exact J'|]. specialize (H k' a I'). lia.
    + apply H with v, E; auto.
Qed.

Lemma tempo_latest p x o : keyed tp_tick (pj_tempos p) -> latest (pj_tempos p) x o ->
  tempo_at p x = Ret (match o with Some v => tp_value v | None => 120 end).
Proof.
  intros K L. destruct (tempo_at_spec p x K) as [o' [L' E]]. rewrite (latest_unique _ _ _ _ (keyed_srt _ _ K) L L'). exact E.
Qed.
Lemma ctrl_latest s x o : keyed cc_tick s -> latest s x o ->
  ctrl_chg_at x s = Ret (match o with Some v => cc_velocity v | None => 0 end).
Proof.
  intros K L. destruct (ctrl_at_spec s x K) as [o' [L' E]]. rewrite (latest_unique _ _ _ _ (keyed_srt _ _ K) L L'). exact E.
Qed.
Lemma rhythm_latest p x o : keyed b_tick (pj_bars p) -> latest (setting b_rhythm (pj_bars p)) x o ->
  rhythm_at p x = Ret (match o with Some v => v | None => pj_rhythm p end).
Proof.
  intros K L. destruct (rhythm_at_spec p x K) as [o' [L' E]].
  rewrite (latest_unique _ _ _ _ (setting_srt _ _ (keyed_srt _ _ K)) L L'). exact E.
Qed.
Lemma key_latest p x o : keyed b_tick (pj_bars p) -> latest (setting b_key (pj_bars p)) x o ->
  key_at p x = Ret (match o with Some v => v | None => pj_key p end).
Proof.
  intros K L. destruct (key_at_spec p x K) as [o' [L' E]].
  rewrite (latest_unique _ _ _ _ (setting_srt _ _ (keyed_srt _ _ K)) L L'). exact E.
Qed.

(** ** Bars appended evenly *)

(** [p'] has the bars of [p], and blank bars going on with the length in force at the end. *)
Definition extended (p p' : project) : Prop :=
  pj_rhythm p' = pj_rhythm p /\ exists r n, rhythm_at p (last_tick p) = Ret r /\
    pj_bars p' = pj_bars p ++ map bar_entry (even_bars (last_tick p) (rhythm_tick_len r) n).

Lemma setting_even {A} (f : bar -> option A) from len n : (forall t, f (mkBar t None None 0) = None) ->
  setting f (map bar_entry (even_bars from len n)) = [].
Proof.
  intros N. revert from. induction n as [|n IH]; intros from; [reflexivity|]. cbn. rewrite N. apply IH.
Qed.
Lemma setting_app {A} (f : bar -> option A) s s' : setting f (s ++ s') = setting f s ++ setting f s'.
Proof. apply flat_map_app. Qed.

Lemma extended_rhythm p p' x : project_ok p -> project_ok p' -> extended p p' -> rhythm_at p' x = rhythm_at p x.
Proof.
  intros O O' (R & r & n & _ & B). destruct (rhythm_at_spec p x (ok_bars _ O)) as [o [L E]].
  rewrite E. rewrite <- R. apply rhythm_latest; [apply ok_bars; auto|].
  rewrite B, setting_app, setting_even, app_nil_r by reflexivity. exact L.
Qed.
Lemma extended_key p p' x : project_ok p -> project_ok p' -> extended p p' -> pj_key p' = pj_key p -> key_at p' x = key_at p x.
Proof.
  intros O O' (_ & r & n & _ & B) R. destruct (key_at_spec p x (ok_bars _ O)) as [o [L E]].
  rewrite E. rewrite <- R. apply key_latest; [apply ok_bars; auto|].
  rewrite B, setting_app, setting_even, app_nil_r by reflexivity. exact L.
Qed.

Lemma rhythm_beyond p x : project_ok p -> last_tick p <= x -> rhythm_at p x = rhythm_at p (last_tick p).
Proof.
  intros O L. destruct (rhythm_at_spec p (last_tick p) (ok_bars _ O)) as [o [Lo E]]. rewrite E.
  apply rhythm_latest; [apply ok_bars; auto|]. destruct o as [v|]; cbn in *.
  - destruct Lo as (k & I & B & M). exists k. split; [exact I|]. split; [lia|]. intros k' v' I' _. apply M with v'; auto.
    apply setting_in in I'. destruct I' as (b & J & _). exact (last_tick_max _ (ok_bars _ O) _ _ J).
  - intros k v I. specialize (Lo k v I). apply setting_in in I. destruct I as (b & J & _).
    apply (last_tick_max _ (ok_bars _ O)) in J. lia.
Qed.

Lemma extended_valid p p' : extended p p' -> valid_rhythms p -> valid_rhythms p'.
Proof.
  intros (R & r & n & _ & B) [V1 V2]. split; [rewrite R; exact V1|]. intros k b r' I E. rewrite B in I.
  apply in_app_iff in I. destruct I as [I|I]; [exact (V2 k b r' I E)|]. apply in_map_iff in I. destruct I as (b' & Eb & I).
  inversion Eb; subst. exfalso. clear Eb.
  assert (G : forall n from len c, In c (even_bars from len n) -> b_rhythm c = None).
  { clear. induction n as [|n IH]; cbn; intros from len c I; [contradiction|]. destruct I as [<-|I]; [reflexivity|]. eapply IH; eauto. }
  apply G in I. congruence.
Qed.

Lemma even_nth from len n i : (i < n)%nat -> nth_error (map bar_entry (even_bars from len n)) i =
  Some (bar_entry (mkBar (from + (Z.of_nat i + 1) * len) None None 0)).
Proof.
  revert from n. induction i as [|i IH]; intros from n L; (destruct n as [|n]; [lia|]); cbn [even_bars map nth_error].
  - do 3 f_equal. lia.
  - rewrite IH by lia. do 3 f_equal. lia.
Qed.

Lemma extended_last p p' r n : project_ok p -> rhythm_at p (last_tick p) = Ret r ->
  pj_bars p' = pj_bars p ++ map bar_entry (even_bars (last_tick p) (rhythm_tick_len r) n) ->
  last_tick p' = last_tick p + Z.of_nat n * rhythm_tick_len r.
Proof.
  intros O R B. destruct n as [|n].
  - cbn in B. rewrite app_nil_r in B. unfold last_tick. rewrite B. lia.
  - rewrite even_bars_snoc, map_app, app_assoc in B. cbn [map bar_entry] in B.
    assert (G : forall s (y : Z * bar), match s ++ [y] with [] => 0 | x :: s' => fst (last s' x) end = fst y).
    { intros s y. destruct s as [|x s]; [reflexivity|]. cbn [app]. rewrite last_last. reflexivity. }
    unfold last_tick at 1. rewrite B, G. cbn. lia.
Qed.

Lemma rhythm_no_bars p x : pj_bars p = [] -> rhythm_at p x = Ret (pj_rhythm p).
Proof. intros E. unfold rhythm_at. rewrite E. reflexivity. Qed.

Lemma extended_start p p' r b : project_ok p -> extended p p' -> rhythm_at p (last_tick p) = Ret r -> 1 <= b ->
  bar_start p' (rhythm_tick_len r) b = bar_start p (rhythm_tick_len r) b.
Proof.
  intros O (ER & r' & n & R' & B) R L. rewrite R in R'. apply ret_inj in R'. subst r'.
  pose proof (extended_last p p' r n O R B) as LT.
  assert (LP : length (pj_bars p') = (length (pj_bars p) + n)%nat) by (rewrite B, app_length, map_length, even_bars_length; reflexivity).
  unfold bar_start. destruct (Z.eqb_spec b 0); [lia|].
  destruct (nth_error (pj_bars p) (Z.to_nat (b - 1))) as [[k v]|] eqn:E.
  { rewrite B, nth_error_app1, E by (apply nth_error_Some; congruence). reflexivity. }
  apply nth_error_None in E.
  assert (BASE : match pj_bars p with [] => b * rhythm_tick_len (pj_rhythm p)
     | x :: s => fst (last s x) + (b - Z.of_nat (length (pj_bars p))) * rhythm_tick_len r end =
     last_tick p + (b - Z.of_nat (length (pj_bars p))) * rhythm_tick_len r).
  { unfold last_tick. destruct (pj_bars p) eqn:EP; [|reflexivity]. rewrite rhythm_no_bars in R by exact EP.
    apply ret_inj in R. subst r. cbn. lia. }
  rewrite BASE. destruct (nth_error (pj_bars p') (Z.to_nat (b - 1))) as [[k v]|] eqn:E'.
  - assert (NL : (Z.to_nat (b - 1) < length (pj_bars p'))%nat) by (apply nth_error_Some; congruence).
    rewrite B, nth_error_app2, even_nth in E' by lia. cbn in E'. inversion E'. f_equal. f_equal. lia.
  - apply nth_error_None in E'. destruct (pj_bars p') as [|x s] eqn:EP.
    + cbn in LP. assert (pj_bars p = []) as Z0 by (destruct (pj_bars p); [reflexivity|cbn in LP; lia]).
      rewrite ER, Z0. unfold last_tick. rewrite Z0. rewrite rhythm_no_bars in R by exact Z0. apply ret_inj in R. subst r. cbn. lia.
    + assert (fst (last s x) = last_tick p') as -> by (unfold last_tick; rewrite EP; reflexivity). rewrite LT, LP. lia.
Qed.

Lemma extended_location p p' l : project_ok p -> project_ok p' -> valid_rhythms p -> extended p p' ->
  0 <= loc_bar l -> 0 <= loc_offset l -> location_to_tick p' l = location_to_tick p l.
Proof.
  intros O O' V X B F.
  destruct (Z.eq_dec (loc_bar l) 0) as [Z0|Z0]; [unfold location_to_tick; rewrite Z0; reflexivity|].
  destruct (Z.le_gt_cases (loc_bar l) u32_max) as [S|S].
  2:{ unfold location_to_tick. destruct (Z.eqb_spec (loc_bar l) 0); [lia|].
      destruct (Z.ltb_spec u32_max (loc_bar l)); [reflexivity|lia]. }
  destruct (location_small p l (ok_bars _ O) V ltac:(lia) F) as (r & E & ->).
  destruct (location_small p' l (ok_bars _ O') (extended_valid p p' X V) ltac:(lia) F) as (r' & E' & ->).
  assert (r' = r) as ->.
  { rewrite (extended_rhythm p p' _ O O' X) in E'. rewrite rhythm_beyond in E'; auto.
    - rewrite E in E'. apply ret_inj in E'. auto.
    - destruct X as (_ & r0 & n & R0 & Bs). rewrite (extended_last p p' r0 n O R0 Bs).
      pose proof (rhythm_tick_len_nonneg r0). nia. }
  rewrite (extended_start p p' r (loc_bar l) O X E ltac:(lia)). reflexivity.
Qed.

Lemma leaves_extended e p p' c : project_ok p -> edit_typed e -> leaves_bars e -> edit_run e p = Ret (Some (p', c)) ->
  extended p p' /\ ((forall k, e <> ESetKey k) -> pj_key p' = pj_key p).
Proof.
  intros O T Lv E.
  assert (ID : forall q, pj_rhythm q = pj_rhythm p -> pj_bars q = pj_bars p -> extended p q).
  { intros q Q1 Q2. split; [exact Q1|]. destruct (rhythm_at_spec p (last_tick p) (ok_bars _ O)) as (o & _ & Eo).
    eexists. exists 0%nat. split; [exact Eo|]. cbn. rewrite app_nil_r. exact Q2. }
  apply edit_cases in E.
  destruct E as [(r & -> & -> & ->)|[(k & -> & -> & ->)|[(g & -> & -> & ->)|(F & X & M & E)]]]; [destruct Lv| | |].
  { split; [apply ID; reflexivity|]. intros N. exfalso. apply (N k). reflexivity. }
  { split; [apply ID; reflexivity|reflexivity]. }
  destruct (moves_typed e F X M T) as [_ TX]. pose proof (exchange_ok F X p O TX) as O1.
  assert (NB : m_bars F = [] /\ m_bars X = []).
  { destruct M; cbn in *; auto; try contradiction. rewrite Lv. auto. }
  assert (EB : pj_bars (exchange F X p) = pj_bars p).
  { unfold exchange. cbn [pj_bars]. rewrite (proj1 NB), (proj2 NB). reflexivity. }
  unfold runs in E. apply bind_ret in E. destruct E as [[p2 more] [E1 E2]]. apply ret_inj in E2.
  apply (f_equal (fun o => match o with Some x => fst x | None => p2 end)) in E2. cbn in E2. subst p'.
  destruct (may_append e).
  - destruct (replenish_ret _ _ _ (ok_bars _ O1) E1) as (ne & r & n & _ & R & -> & -> & _ & _).
    split; [|reflexivity]. split; [reflexivity|]. exists r, n. cbn [pj_set_bars pj_bars]. rewrite EB.
    assert (LT : last_tick (exchange F X p) = last_tick p) by (unfold last_tick; rewrite EB; reflexivity).
    rewrite LT in *. split; [|reflexivity]. rewrite <- R. unfold rhythm_at. rewrite EB. reflexivity.
  - apply ret_inj in E1. inv E1. split; [|reflexivity]. apply ID; [reflexivity|exact EB].
Qed.

(** ** Where edits are heard *)

Lemma written_else {V} (tick : V -> Z) s gone put s' k v : written_over tick s gone put s' ->
  ~ In k (gone ++ map tick put) -> (In (k, v) s' <-> In (k, v) s).
Proof.
  intros W N. rewrite in_app_iff in N. rewrite (W k v). split.
  - intros [(E & a & b & -> & _)|(_ & _ & I)]; [|exact I]. exfalso. apply N. right. rewrite map_app, in_app_iff. right. left. exact E.
  - intros I. right. tauto.
Qed.

Lemma written_latest {V} (tick : V -> Z) s gone put s' v x : written_over tick s gone put s' ->
  last_with tick put (tick v) v -> tick v <= x -> clear_between gone s (tick v) x ->
  (forall w, In w put -> ~ tick v < tick w <= x) -> latest s' x (Some v).
Proof.
  intros W L LE C N. cbn. exists (tick v). split; [apply W; left; exact L|]. split; [exact LE|].
  intros k' v' I LE'. apply W in I. destruct (Z.le_gt_cases k' (tick v)) as [Q|Q]; [exact Q|exfalso].
  destruct I as [(E & a & b & -> & _)|(_ & NG & I)].
  - apply (N v'); [apply in_app_iff; right; left; reflexivity|]. lia.
  - apply NG. apply (C k' v' I). lia.
Qed.

Lemma written_gone {V} (tick : V -> Z) s gone put s' k : written_over tick s gone put s' ->
  In k gone -> ~ In k (map tick put) -> forall v, ~ In (k, v) s'.
Proof.
  intros W G N v I. apply W in I. destruct I as [(E & a & b & -> & _)|(_ & NG & _)]; [|auto].
  apply N. rewrite map_app, in_app_iff. right. left. exact E.
Qed.

Lemma bars_else {A} (f : bar -> option A) p out into more s' k a : project_ok p -> models_typed into ->
  written_over b_tick (pj_bars p) (map b_tick (m_bars out)) (m_bars into ++ more) s' ->
  Forall (fun b => f b = None) more ->
  Forall (fun b => forall k v, In (k, v) (pj_bars (exchange out into p)) -> k < b_tick b) more ->
  ~ In k (ticks_of b_tick m_bars out into) -> (In (k, a) (setting f s') <-> In (k, a) (setting f (pj_bars p))).
Proof.
  intros O TA W Z1 Z2 N. unfold ticks_of in N. rewrite in_app_iff in N. rewrite !setting_in. rewrite Forall_forall in Z1, Z2.
  split; intros (b & I & E); exists b; (split; [|exact E]).
  - apply W in I. destruct I as [(Ek & l & l' & El & _)|(_ & _ & I)]; [exfalso|exact I].
    assert (In b (m_bars into ++ more)) as J by (rewrite El, in_app_iff; right; left; reflexivity).
    apply in_app_iff in J. destruct J as [J|J].
    + apply N. right. subst k. apply in_map. exact J.
    + apply Z1 in J. congruence.
  - apply W. right. split; [|split; [tauto|exact I]]. rewrite map_app, in_app_iff. intros [J|J]; [tauto|].
    apply in_map_iff in J. destruct J as (b' & Eb & J). pose proof (Z2 b' J k b) as Q. enough (k < b_tick b') by lia. apply Q.
    unfold exchange. cbn [pj_bars].
    pose proof (add_all_written b_tick (map b_tick (m_bars out)) (m_bars into) (pj_bars p) (keyed_srt _ _ (ok_bars _ O)) k b) as G.
    apply G. right. tauto.
Qed.

Lemma bars_latest {A} (f : bar -> option A) p out into more s' b a x : project_ok p -> models_typed into ->
  written_over b_tick (pj_bars p) (map b_tick (m_bars out)) (m_bars into ++ more) s' ->
  Forall (fun b => f b = None) more ->
  Forall (fun b => forall k v, In (k, v) (pj_bars (exchange out into p)) -> k < b_tick b) more ->
  last_with b_tick (m_bars into) (b_tick b) b -> f b = Some a -> b_tick b <= x ->
  clear_between (ticks_of b_tick m_bars out into) (setting f (pj_bars p)) (b_tick b) x ->
  (forall w, In w (m_bars into) -> b_tick b < b_tick w <= x -> f w = None) -> latest (setting f s') x (Some a).
Proof.
  intros O TA W Z1 Z2 L E LE C N. cbn. exists (b_tick b). rewrite setting_in. split.
  { exists b. split; [|exact E]. apply W. left. destruct L as (_ & l1 & l2 & El & NL). split; [reflexivity|].
    exists l1, (l2 ++ more). split; [rewrite El, <- app_assoc; reflexivity|]. rewrite map_app, in_app_iff. intros [J|J]; [auto|].
    apply in_map_iff in J. destruct J as (b' & Eb & J). rewrite Forall_forall in Z2.
    destruct (add_all_key (map bar_entry (m_bars into)) (remove_keys (map b_tick (m_bars out)) (pj_bars p)) (b_tick b)) as [v V].
    - apply remove_keys_sorted, (keyed_srt _ _ (ok_bars _ O)).
    - rewrite map_map. cbn [bar_entry fst]. apply in_map. rewrite El, in_app_iff. right. left. reflexivity.
    - pose proof (Z2 b' J _ v V). lia. }
  split; [exact LE|]. intros k' a' I LE'. apply setting_in in I. destruct I as (b' & I & Eb).
  destruct (Z.le_gt_cases k' (b_tick b)) as [Q|Q]; [exact Q|exfalso]. apply W in I. rewrite Forall_forall in Z1.
  destruct I as [(Ek & l1 & l2 & El & _)|(NP & NG & I)].
  - assert (In b' (m_bars into ++ more)) as J by (rewrite El, in_app_iff; right; left; reflexivity).
    apply in_app_iff in J. destruct J as [J|J]; [rewrite (N b' J) in Eb by lia|rewrite (Z1 b' J) in Eb]; discriminate.
  - assert (In (k', a') (setting f (pj_bars p))) as J by (apply setting_in; eauto).
    specialize (C k' a' J ltac:(lia)). clear J. rename C into J. unfold ticks_of in J. rewrite in_app_iff in J. rewrite map_app, in_app_iff in NP. tauto.
Qed.

Lemma bars_gone {A} (f : bar -> option A) s gone into more s' k : written_over b_tick s gone (into ++ more) s' ->
  Forall (fun b => f b = None) more -> In k gone -> ~ In k (map b_tick into) -> forall a, ~ In (k, a) (setting f s').
Proof.
  intros W Z G N a I. apply setting_in in I. destruct I as (b & I & E). apply W in I. rewrite Forall_forall in Z.
  destruct I as [(Ek & l1 & l2 & El & _)|(_ & NG & _)]; [|auto].
  assert (In b (into ++ more)) as J by (rewrite El, in_app_iff; right; left; reflexivity).
  apply in_app_iff in J. destruct J as [J|J]; [apply N; subst k; apply in_map; exact J|]. rewrite (Z b J) in E. discriminate.
Qed.

Lemma latest_from_start {V} (s : list (Z * V)) x : (forall k v, In (k, v) s -> 0 <= k) -> (forall v, ~ In (0, v) s) ->
  clear_between [] s 0 x -> latest s x None.
Proof.
  intros P G C k v I. pose proof (P _ _ I). destruct (Z.eq_dec k 0) as [->|K]; [destruct (G _ I)|].
  destruct (Z.le_gt_cases k x) as [Q|Q]; [destruct (C k v I); lia|exact Q].
Qed.

Lemma latest_gap {V} (s : list (Z * V)) k x o : (forall v, ~ In (k, v) s) -> k <= x -> clear_between [] s k x ->
  latest s (k - 1) o -> latest s x o.
Proof.
  intros G L C.
  assert (Q : forall k' v, In (k', v) s -> k' <= x -> k' <= k - 1).
  { intros k' v I LE. destruct (Z.eq_dec k' k) as [->|N]; [destruct (G _ I)|].
    destruct (Z.le_gt_cases k' (k - 1)) as [Q|Q]; [exact Q|]. destruct (C k' v I). lia. }
  destruct o as [v|]; cbn.
  - intros (k0 & I & LE & M). exists k0. split; [exact I|]. split; [lia|]. intros k' v' I' LE'. apply M with v'; eauto.
  - intros H k' v I. destruct (Z.le_gt_cases k' x) as [LE|LE]; [|exact LE]. pose proof (Q _ _ I LE). specialize (H _ _ I). lia.
Qed.

Lemma latest_exists {A} (f : bar -> option A) p x o : keyed b_tick (pj_bars p) -> latest (setting f (pj_bars p)) x o ->
  existsb (fun b => (b_tick b <=? x) && (match f b with Some _ => true | None => false end)) (score p) =
  match o with Some _ => true | None => false end.
Proof.
  intros K L. destruct o as [v|]; cbn in L.
  - destruct L as (k & I & LE & _). apply setting_in in I. destruct I as (b & I & E). apply existsb_exists. exists b.
    split; [exact (in_map snd _ _ I)|]. rewrite E. destruct (proj2 K _ _ I) as [<- _]. rewrite andb_true_r. apply Z.leb_le. exact LE.
  - apply not_true_is_false. intros H. apply existsb_exists in H. destruct H as (b & I & H). apply andb_true_iff in H. destruct H as [H1 H2].
    apply Z.leb_le in H1. destruct (f b) as [a|] eqn:E; [|discriminate]. unfold score in I. apply in_map_iff in I.
    destruct I as ([k b'] & Eb & I). cbn in Eb. subst b'. destruct (proj2 K _ _ I) as [Ek _].
    assert (x < k) by (apply (L k a); apply setting_in; eauto). lia.
Qed.
