(** Property theorems about the notes of a tuplet: C90. *)
From Coq Require Import ZArith List Bool Lia Sorted Permutation.
From Verif Require Import Base M_Pitch M_Duration M_Percent M_Scalar M_Bar M_Note M_Store M_Tuple M_Models M_Project S_Percent S_Note S_Project S_Tuple S_Effect S_Triplet
  P_Base P_Store P_Note P_Tuple P_Replenish P_Edit P_History T_Tuple.
From Verif Require T_Project T_Together.
Import ListNotations.
Open Scope Z_scope.

Definition single (n : note) : tuple_elem := mkTE (n_base_tick n) [n] (plain (n_duration n)).

(** Without chords every element is one note. *)
Lemma all_single : forall es, Forall elem_ok es -> NoDup (map n_base_tick (flat_map te_notes es)) -> es = map single (flat_map te_notes es).
Proof.
  induction 1 as [|e es (A & B & (m & M1 & M2) & _) F IH]; cbn [flat_map map]; intros N; [reflexivity|].
  rewrite map_app in N. destruct e as [t ns d]. cbn [te_notes te_tick te_min] in *.
  destruct ns as [|a [|b ns]]; [congruence| |].
  - cbn [app map]. inversion B; subst. destruct M1 as [->|[]]. unfold single at 1. f_equal. apply IH. cbn in N. inversion N; auto.
  - exfalso. inversion B as [|? ? B1 B2]; subst. inversion B2 as [|? ? B3 _]; subst. cbn in N. inversion N as [|? ? N1 _]; subst. apply N1. left. congruence.
Qed.

Lemma sums_alike : forall es es' a, map te_min es = map te_min es' -> ofold sum_step a es = ofold sum_step a es'.
Proof.
  induction es as [|e es IH]; intros [|e' es'] a H; try discriminate; [reflexivity|]. cbn [map] in H. injection H as H1 H2.
  cbn [ofold]. destruct a as [t u]. assert (Q : sum_step (t, u) e = sum_step (t, u) e') by (unfold sum_step; rewrite H1; reflexivity).
  rewrite Q. destruct (sum_step (t, u) e'); cbn [bind]; auto.
Qed.

Lemma essence_dur a b : essence a = essence b -> d_num (n_duration a) = d_num (n_duration b) /\ d_dots (n_duration a) = d_dots (n_duration b).
Proof. destruct a, b. unfold essence, replaced_by. cbn. intros H. injection H. auto. Qed.

Lemma via_essence {A} (f : note -> A) l l' : (forall x, f x = f (essence x)) -> map essence l = map essence l' -> map f l = map f l'.
Proof. intros F E. rewrite (map_ext f (fun x => f (essence x)) F l), (map_ext f (fun x => f (essence x)) F l'), <- !(map_map essence f), E. reflexivity. Qed.

Lemma tuple_notes_alike : forall l l' start total unit den u, map essence l = map essence l' ->
  tuple_notes start total unit den u l = tuple_notes start total unit den u l'.
Proof.
  induction l as [|a l IH]; intros [|b l'] start total unit den u H; try discriminate; [reflexivity|]. cbn [map] in H.
  assert (H1 : essence a = essence b) by congruence. assert (H2 : map essence l = map essence l') by congruence. clear H. cbn [tuple_notes]. destruct (essence_dur a b H1) as [D1 D2].
  assert (W : with_denominator (n_duration a) den = with_denominator (n_duration b) den) by (unfold with_denominator; rewrite D1, D2; reflexivity).
  rewrite W. assert (S : forall t, set_duration (set_base_tick a t) (with_denominator (n_duration b) den) = set_duration (set_base_tick b t) (with_denominator (n_duration b) den)).
  { intros t. clear - H1. destruct a, b. unfold essence, replaced_by in H1. unfold set_duration, set_base_tick. cbn in *. injection H1. intros. subst. reflexivity. }
  destruct (chk_u32 (total * u)); cbn [bind]; auto. destruct (chk_u32 (start + _)); cbn [bind]; auto. destruct (numerator_unit _); cbn [bind]; auto.
  destruct (chk_u32 (u + _)); cbn [bind]; auto. rewrite (IH l') by exact H2. rewrite S. reflexivity.
Qed.

Lemma tuple_notes_essence : forall l start total unit den u out, tuple_notes start total unit den u l = Ret out -> map essence out = map essence l.
Proof.
  induction l as [|a l IH]; intros start total unit den u out H; cbn [tuple_notes] in H; [inversion H; reflexivity|].
  apply bind_ret in H as (m & _ & H). apply bind_ret in H as (t & _ & H). cbv zeta in H. apply bind_ret in H as (k & _ & H). apply bind_ret in H as (u' & _ & H).
  apply bind_ret in H as (rest & E & H). inversion H; subst. cbn [map]. f_equal. exact (IH _ _ _ _ _ _ E).
Qed.

Lemma gcd_same g g' l l' : (forall u, In u l <-> In u l') -> is_gcd g l -> is_gcd g' l' -> g = g'.
Proof.
  intros S (A & B & C) (A' & B' & C'). apply Z.divide_antisym_nonneg; try lia.
  - apply C'. intros u I. apply B, S, I.
  - apply C. intros u I. apply B', S, I.
Qed.

Lemma sorted_stays : forall l, StronglySorted (fun a b => n_base_tick a <= n_base_tick b) l -> sort_notes l = l.
Proof.
  induction 1 as [|a l S IH F]; [reflexivity|]. cbn [sort_notes fold_right]. change (fold_right insert_by_tick [] l) with (sort_notes l). rewrite IH.
  destruct l as [|b l]; [reflexivity|]. cbn [insert_by_tick]. inversion F; subst. destruct (Z.leb_spec (n_base_tick a) (n_base_tick b)); [reflexivity|lia].
Qed.

Lemma nodup_perm {A} (l l' : list A) : Permutation l l' -> NoDup l -> NoDup l'.
Proof. apply Permutation_NoDup. Qed.

(** Making a tuplet of notes that do not start together, step by step. *)
Lemma tuplize_single : forall notes, notes <> [] -> valid_notes notes -> NoDup (map n_base_tick notes) ->
  exists n0 r g, sort_notes notes = n0 :: r /\ valid_notes (n0 :: r) /\ is_gcd g (map (fun n => units (n_duration n)) (n0 :: r)) /\
    tuplize notes =
      (let! (total_tick, total_unit) := ofold sum_step (0, 0) (map single (n0 :: r)) in
       let den := total_unit / g in
       if den <? 2 then Ret notes
       else
         let! total := chk_u32 (total_tick / den * 2) in
         let! den := unwrap_opt (denominator_from_value (as_u8 den)) in
         tuple_notes (n_base_tick n0) total total_unit den 0 (n0 :: r)).
Proof.
  intros notes NE V ND. destruct (tuplize_unfold notes NE V) as (n0 & r & es & g & S & V' & SS & FM & EO & ST & G & U).
  exists n0, r, g. split; [exact S|]. split; [exact V'|]. split; [exact G|]. rewrite U.
  assert (E : es = map single (n0 :: r)).
  { rewrite <- FM. apply all_single; [eapply Forall_impl; [|exact EO]; intros e [A _]; exact A|]. rewrite FM, <- S.
    apply (nodup_perm (map n_base_tick notes)); [apply Permutation_map, sort_perm|exact ND]. }
  rewrite <- E. reflexivity.
Qed.

(** * C90 *)

(** Pressing the button again changes nothing: the notes of a tuplet, if no two of them start together, are made into just this tuplet. *)
Theorem C90_again : forall notes out, valid_notes notes -> NoDup (map n_base_tick notes) -> tuplize notes = Ret out ->
  NoDup (map n_base_tick out) -> tuplize out = Ret out.
Proof.
  intros notes out V ND E NO. destruct notes as [|n notes]; [cbn in E; inversion E; reflexivity|].
  assert (NE : n :: notes <> []) by discriminate. destruct (tuplize_single _ NE V ND) as (n0 & r & g & S & V' & G & U). pose proof E as E0. rewrite U in E.
  apply bind_ret in E as ((tt & tu) & E1 & E). cbv zeta in E. destruct (Z.ltb_spec (tu / g) 2) as [L|L]; [inversion E; subst; exact E0|].
  apply bind_ret in E as (total & E2 & E). apply bind_ret in E as (den & E3 & E).
  pose proof (tuple_notes_essence _ _ _ _ _ _ _ E) as ES. destruct (tuplize_keeps _ _ NE V E0) as (_ & SO & _).
  assert (LO : length out = length (n0 :: r)) by (rewrite <- (map_length essence out), ES, map_length; reflexivity).
  destruct out as [|m0 q]; [discriminate LO|].
  assert (VO : valid_notes (m0 :: q)).
  { destruct (tuple_notes_inv _ _ _ _ _ V' _ _ E) as [_ Nth]. apply Forall_forall. intros x I. apply In_nth_error in I as (i & I).
    assert (Li : (i < length (n0 :: r))%nat) by (rewrite <- LO; apply nth_error_Some; congruence).
    destruct (nth_error (n0 :: r) i) as [y|] eqn:Y; [|apply nth_error_None in Y; lia]. rewrite (Nth i y Y) in I. injection I as <-.
    apply nth_error_In in Y. apply (proj1 (Forall_forall _ _) V') in Y. destruct Y as [_ Y]. unfold replaced_by. cbn [n_duration].
    apply unwrap_den in E3 as [<- D]. unfold as_u8 in *. split; cbn; [|exact Y]. pose proof (Z.mod_pos_bound (tu / g) 256). lia. }
  destruct (tuplize_single (m0 :: q)) as (m0' & q' & g' & S' & V'' & G' & U'); auto; [discriminate|].
  rewrite (sorted_stays _ SO) in S'. injection S' as <- <-. rewrite U'.
  assert (M : map (fun x => units (n_duration x)) (m0 :: q) = map (fun x => units (n_duration x)) (n0 :: r)).
  { apply via_essence; [reflexivity|exact ES]. }
  assert (g' = g) by (apply (gcd_same _ _ _ _ (fun u => iff_refl _)) with (2 := G); rewrite <- M; exact G'). subst g'.
  rewrite (sums_alike (map single (m0 :: q)) (map single (n0 :: r))).
  2:{ rewrite !map_map. apply via_essence; [reflexivity|exact ES]. }
  rewrite E1. cbn [bind]. cbv zeta. destruct (Z.ltb_spec (tu / g) 2); [lia|]. rewrite E2. cbn [bind]. rewrite E3. cbn [bind].
  assert (H0 : n_base_tick m0 = n_base_tick n0).
  { destruct (tuple_notes_inv _ _ _ _ _ V' _ _ E) as [_ Nth]. specialize (Nth 0%nat n0 eq_refl). cbn in Nth. injection Nth as ->. cbn.
    unfold sum. cbn. rewrite Z.mul_0_r. rewrite Z.div_0_l; [lia|]. intros ->. rewrite Z.div_0_l in L; [lia|]. destruct G; lia. }
  rewrite H0, (tuple_notes_alike (m0 :: q) (n0 :: r)); auto.
Qed.
Print Assumptions C90_again.

Lemma whole_value n : duration_valid (n_duration n) -> down_to_64th n ->
  exists v, 1 <= v /\ units (n_duration n) = 4 * v /\ len_of (d_num (n_duration n)) (d_dots (n_duration n)) = 15 * v.
Proof.
  unfold down_to_64th. intros [_ K] H. destruct (n_duration n) as [m x k]. cbn [d_num d_dots] in *. unfold units, len_of, plain_length. cbn [d_num d_dots].
  destruct m; cbn [halvings] in *; apply dots_cases in K as [-> | [-> | [-> | [-> | [-> | [-> | [-> | ->]]]]]]]; try lia;
    match goal with |- exists v, _ /\ ?u = _ /\ _ => let w := eval vm_compute in (u / 4) in exists w end; vm_compute; repeat split; congruence.
Qed.

Lemma singles_ok l : valid_notes l -> Forall eok (map single l).
Proof.
  intros V. apply Forall_map. eapply Forall_impl; [|exact V]. intros n H. split; [exact (elem_single n H)|]. cbn. repeat constructor; apply H.
Qed.

Lemma is_least n0 r notes s : Permutation notes (n0 :: r) -> StronglySorted (fun a b => n_base_tick a <= n_base_tick b) (n0 :: r) ->
  least (map n_base_tick notes) s -> n_base_tick n0 = s.
Proof.
  intros P SS [I L]. assert (A : s <= n_base_tick n0) by (apply L, in_map, (Permutation_in _ (Permutation_sym P)); left; reflexivity).
  apply in_map_iff in I as (m & <- & I). apply (Permutation_in _ P) in I. destruct I as [->|I]; [reflexivity|].
  inversion SS as [|? ? _ F]; subst. rewrite Forall_forall in F. specialize (F m I). lia.
Qed.

(** The floors of the places and of the lengths. *)
Lemma floors a b q : 0 < q -> a / q + b / q <= (a + b) / q <= a / q + b / q + 1.
Proof.
  intros Q. pose proof (Z.div_mod a q ltac:(lia)). pose proof (Z.mod_pos_bound a q Q). pose proof (Z.div_mod b q ltac:(lia)). pose proof (Z.mod_pos_bound b q Q).
  split; [apply Z.div_le_lower_bound; nia|]. apply Z.lt_succ_r. apply Z.div_lt_upper_bound; nia.
Qed.

Lemma lasts_of d l : duration_valid d -> l = 2 * len_of (d_num d) (d_dots d) / d_den d -> lasts d l.
Proof. intros V ->. destruct (tick_length_lasts d V) as (t & E & L). rewrite tick_length_closed in E by exact V. apply ret_inj in E. rewrite E. exact L. Qed.

Lemma sum_scaled {A} (f h : A -> Z) c l : Forall (fun x => f x = c * h x) l -> sum (map f l) = c * sum (map h l).
Proof. induction 1; unfold sum in *; cbn [map fold_right]; lia. Qed.

(** The notes of a tuplet follow one another: none lasts into the next, none leaves more than one tick open, and the group lasts twice the value
    that its notes have in common (a 256th note is 15/4 ticks). *)
Theorem C90_in_turn : forall notes out s g, (2 <= length notes)%nat -> valid_notes notes -> NoDup (map n_base_tick notes) -> Forall down_to_64th notes ->
  least (map n_base_tick notes) s -> is_gcd g (map (fun n => units (n_duration n)) notes) -> units_of notes / g <= 255 ->
  tuplize notes = Ret out -> in_turn out (s + 15 * g / 2).
Proof.
  intros notes out s g LN V ND D64 LS G Q255 E. assert (NE : notes <> []) by (intros ->; cbn in LN; lia).
  destruct (tuplize_single _ NE V ND) as (n0 & r & g' & SN & V' & G' & U). pose proof (sort_perm notes) as P. pose proof (sort_sorted notes) as SS. rewrite SN in P, SS.
  assert (g' = g). { refine (gcd_same _ _ _ _ _ G' G). intros u. split; apply Permutation_in, Permutation_map; [apply Permutation_sym|]; exact P. } subst g'.
  assert (D' : Forall down_to_64th (n0 :: r)) by (apply (Permutation_Forall P); exact D64).
  assert (UN : units_of notes = units_of (n0 :: r)).
  { unfold units_of, sum. set (f := fun n => units (n_duration n)). clearbody f. clear - P. induction P; cbn [map fold_right]; lia. }
  rewrite UN in Q255. apply is_least with (1 := P) (2 := SS) in LS. subst s.
  assert (LL : (2 <= length (n0 :: r))%nat) by (rewrite <- (Permutation_length P); exact LN).
  set (l := n0 :: r) in *.
  (* values in 64ths *)
  set (v := fun n => units (n_duration n) / 4).
  assert (VV : Forall (fun n => 1 <= v n /\ units (n_duration n) = 4 * v n /\ len_of (d_num (n_duration n)) (d_dots (n_duration n)) = 15 * v n) l).
  { apply Forall_forall. intros n I. destruct (whole_value n (proj1 (Forall_forall _ _) V' n I) (proj1 (Forall_forall _ _) D' n I)) as (w & W1 & W2 & W3). assert (v n = w) as -> by (unfold v; rewrite W2, Z.mul_comm; apply Z.div_mul; lia). auto. }
  clearbody v.
  assert (SU : forall l', (forall n, In n l' -> In n l) -> sum (map (fun n => units (n_duration n)) l') = 4 * sum (map v l')).
  { intros l' I. apply sum_scaled. rewrite Forall_forall in *. intros n J. apply VV, I, J. }
  assert (ST : sum (map (fun n => len_of (d_num (n_duration n)) (d_dots (n_duration n))) l) = 15 * sum (map v l)).
  { apply sum_scaled. eapply Forall_impl; [|exact VV]. cbv beta. tauto. }
  destruct G as (G1 & G2 & G3). destruct (G3 4) as [h Hh].
  { intros u I. apply in_map_iff in I as (n & <- & I). apply (Permutation_in _ P) in I. rewrite Forall_forall in VV. destruct (VV n I) as (_ & -> & _). exists (v n). lia. }
  assert (HP : 0 < h) by lia. subst g.
  rewrite U in E. apply bind_ret in E as ((tt & tu) & E1 & E). apply sums_inv in E1 as [-> ->]; [|apply singles_ok, V']. cbv zeta in E.
  unfold tick_sum, unit_sum in E. rewrite !map_map, !Z.add_0_l in E. unfold single, chord_of in E. cbn [te_min snd plain d_num d_dots] in E.
  change (map (fun x : note => units (plain (n_duration x))) l) with (map (fun x => units (n_duration x)) l) in E.
  unfold units_of in Q255. rewrite ST in E. rewrite SU in E, Q255 by auto. set (W := sum (map v l)) in *.
  destruct (G' ) as (_ & G2' & _).
  assert (DV : (h * 4 | 4 * W)).
  { unfold W. rewrite <- (SU l) by auto. clear - G2'. clearbody l. induction l as [|a l' IH]; unfold sum; cbn; [exists 0; lia|]. apply Z.divide_add_r; [apply G2'; left; reflexivity|].
    apply IH. intros u I. apply G2'. right. exact I. }
  destruct DV as [q Hq]. assert (WQ : W = h * q) by lia. assert (QE : 4 * W / (h * 4) = q) by (rewrite Hq; apply Z.div_mul; lia). rewrite QE in *.
  assert (HV : forall n, In n l -> h <= v n).
  { intros n I. rewrite Forall_forall in VV. destruct (VV n I) as (A & B & _). assert (h * 4 <= units (n_duration n)); [|lia]. apply Z.divide_pos_le; [lia|]. apply G2'.
    apply in_map_iff. eauto. }
  assert (Q2 : 2 <= q).
  { assert (h * Z.of_nat (length l) <= W); [|assert (h * 2 <= h * q); nia]. unfold W. clear - HV. clearbody l. induction l as [|a l' IH]; [cbn; lia|].
    specialize (IH (fun n I => HV n (or_intror I))). specialize (HV a (or_introl eq_refl)). unfold sum in *. cbn [map fold_right length]. lia. }
  destruct (Z.ltb_spec q 2); [lia|]. apply bind_ret in E as (total & E2 & E). apply chk_inv in E2 as [-> _].
  assert (T : 15 * W / q * 2 = 30 * h) by (rewrite WQ; replace (15 * (h * q)) with (15 * h * q) by lia; rewrite Z.div_mul; lia). rewrite T in E.
  apply bind_ret in E as (den & E3 & E). apply unwrap_den in E3 as [<- _]. unfold as_u8 in E. rewrite Z.mod_small in E by lia.
  destruct (tuple_notes_inv _ _ _ _ _ V' _ _ E) as [Len Nth].
  assert (PL : forall i n, nth_error l i = Some n -> nth_error out i = Some (replaced_by n (n_base_tick n0 + 30 * sum (map v (firstn i l)) / q) q)).
  { intros i n I. rewrite (Nth i n I). do 3 f_equal. rewrite Z.add_0_l. rewrite SU by (intros x J; rewrite <- (firstn_skipn i l); apply in_app_iff; auto).
    rewrite WQ. replace (30 * h * (4 * sum (map v (firstn i l)))) with (30 * sum (map v (firstn i l)) * (4 * h)) by lia.
    replace (4 * (h * q)) with (q * (4 * h)) by lia. apply Z.div_mul_cancel_r; lia. }
  intros i a I. assert (Li : (i < length l)%nat) by (rewrite <- Len; apply nth_error_Some; congruence).
  destruct (nth_error l i) as [n|] eqn:In_; [|apply nth_error_None in In_; lia]. rewrite (PL i n In_) in I. injection I as <-.
  pose proof (nth_error_In _ _ In_) as J. rewrite Forall_forall in VV. destruct (VV n J) as (A & B & C).
  assert (Vn : duration_valid (n_duration n)) by (apply (proj1 (Forall_forall _ _) V'), J).
  exists (n_base_tick n0 + 30 * sum (map v (firstn i l)) / q + 30 * v n / q). split.
  { exists (30 * v n / q). split; [|reflexivity]. unfold replaced_by. cbn [n_duration]. apply lasts_of; [split; cbn; [lia|apply Vn]|]. cbn [d_num d_dots d_den].
    rewrite C. f_equal. lia. }
  pose proof (floors (30 * sum (map v (firstn i l))) (30 * v n) q ltac:(lia)) as F.
  replace (30 * sum (map v (firstn i l)) + 30 * v n) with (30 * sum (map v (firstn (S i) l))) in F by (rewrite (firstn_S_sum l i n In_ v); lia).
  unfold next_at. destruct (nth_error out (S i)) as [b|] eqn:Nb.
  - assert (Lj : (S i < length l)%nat) by (rewrite <- Len; apply nth_error_Some; congruence).
    destruct (nth_error l (S i)) as [m|] eqn:Im; [|apply nth_error_None in Im; lia]. rewrite (PL _ m Im) in Nb. apply (f_equal (option_map n_base_tick)) in Nb. cbn [option_map n_base_tick replaced_by] in Nb.
    assert (NB : n_base_tick b = n_base_tick n0 + 30 * sum (map v (firstn (S i) l)) / q) by congruence. rewrite NB. revert F. clear. lia.
  - apply nth_error_None in Nb. assert (FA : firstn (S i) l = l) by (apply firstn_all2; lia). rewrite FA in F. fold W in F. rewrite WQ in F. replace (30 * (h * q)) with (30 * h * q) in F by lia.
    rewrite Z.div_mul in F by lia. replace (15 * (h * 4)) with (30 * h * 2) by lia. rewrite Z.div_mul by lia. revert F. clear. lia.
Qed.
Print Assumptions C90_in_turn.

(** The same for equally long notes of any value: the group lasts twice one of them. *)
Theorem C90_equal : forall notes d len s, (2 <= length notes <= 255)%nat -> valid_notes notes -> NoDup (map n_base_tick notes) ->
  duration_valid d -> Forall (fun n => plain (n_duration n) = plain d) notes -> lasts (plain d) len ->
  least (map n_base_tick notes) s -> 0 <= s -> s + 3826 <= u32_max ->
  exists out, tuplize notes = Ret out /\ in_turn out (s + 2 * len).
Proof.
  intros notes d len s LN V ND Vd SAME LA LS S0 S1.
  assert (T0 : forall n, In n notes -> 0 <= n_base_tick n) by (intros n I; apply (in_map n_base_tick) in I; apply LS in I; lia).
  assert (T1 : forall s', least (map n_base_tick notes) s' -> s' + 3826 <= u32_max) by (intros s' [I L]; destruct LS as [J K]; specialize (L s J); lia).
  destruct (C39_even notes d len LN V ND Vd SAME LA T0 T1) as (out & l & E & LO & (P & SS & _) & Nth). exists out. split; [exact E|].
  apply plain_lasts in LA; [|exact Vd]. set (N := Z.of_nat (length notes)) in *. assert (HN : 2 <= N <= 255) by lia.
  assert (LL : length l = length notes) by (symmetry; apply Permutation_length, P).
  destruct l as [|n0 r]; [cbn in LL; lia|]. pose proof (is_least n0 r notes s P SS LS) as H0. subst s.
  intros i a I. assert (Li : (i < length (n0 :: r))%nat) by (rewrite LL, <- LO; apply nth_error_Some; congruence).
  destruct (nth_error (n0 :: r) i) as [n|] eqn:In_; [|apply nth_error_None in In_; lia]. rewrite (Nth i n n0 In_ eq_refl) in I. injection I as <-.
  pose proof (nth_error_In _ _ In_) as J. apply (Permutation_in _ (Permutation_sym P)) in J.
  assert (Vn : duration_valid (n_duration n)) by (apply (proj1 (Forall_forall _ _) V), J).
  assert (Dn : d_num (n_duration n) = d_num d /\ d_dots (n_duration n) = d_dots d).
  { rewrite Forall_forall in SAME. specialize (SAME n J). unfold plain in SAME. injection SAME. auto. } destruct Dn as [D1 D2].
  exists (n_base_tick n0 + 2 * len * Z.of_nat i / N + 2 * len / N). split.
  { exists (2 * len / N). split; [|reflexivity]. unfold replaced_by. cbn [n_duration]. apply lasts_of; [split; cbn; [lia|apply Vn]|]. cbn [d_num d_dots d_den].
    rewrite D1, D2, LA. reflexivity. }
  pose proof (floors (2 * len * Z.of_nat i) (2 * len) N ltac:(lia)) as F.
  replace (2 * len * Z.of_nat i + 2 * len) with (2 * len * Z.of_nat (S i)) in F by lia.
  unfold next_at. destruct (nth_error out (S i)) as [b|] eqn:Nb.
  - assert (Lj : (S i < length (n0 :: r))%nat) by (rewrite LL, <- LO; apply nth_error_Some; congruence).
    destruct (nth_error (n0 :: r) (S i)) as [m|] eqn:Im; [|apply nth_error_None in Im; lia]. rewrite (Nth (S i) m n0 Im eq_refl) in Nb.
    apply (f_equal (option_map n_base_tick)) in Nb. cbn [option_map n_base_tick replaced_by] in Nb.
    assert (NB : n_base_tick b = n_base_tick n0 + 2 * len * Z.of_nat (S i) / N) by congruence. rewrite NB. revert F. clear. lia.
  - apply nth_error_None in Nb. assert (SI : Z.of_nat (S i) = N) by (unfold N; lia). rewrite SI, Z.div_mul in F by lia. revert F. clear. lia.
Qed.
Print Assumptions C90_equal.

Lemma replenish_twice x q more : project_ok x -> notes_valid x -> replenish_bars x = Ret (q, more) -> project_ok q /\ notes_valid q /\ replenish_bars q = Ret (q, []).
Proof.
  intros O V E. pose proof (replenish_covered x q more O V E) as CV. destruct (replenish_ok x q more (ok_bars _ O) E) as (QE & K & _).
  assert (OQ : project_ok q) by (destruct O; subst q; constructor; auto).
  assert (VQ : notes_valid q) by (subst q; exact V).
  split; [exact OQ|]. split; [exact VQ|]. destruct (replenish_ret x q more (ok_bars _ O) E) as (ne & _ & _ & NE & _).
  assert (NQ : note_max_end_tick q = Ret ne) by (rewrite <- NE; subst q; reflexivity).
  rewrite (replenish_unfold q (ok_bars _ OQ)), NQ. cbn [bind].
  destruct (content_end_spec q ne OQ VQ (note_max_end_spec q ne (ok_notes q OQ) VQ NQ)) as (G1 & G2 & G3).
  assert (LE : content_end q ne <= last_tick q).
  { pose proof (last_tick_range q (ok_bars _ OQ)) as LR. unfold Base.u32 in LR.
    destruct G3 as [G3|G3]; [lia|]. destruct (CV _ G3) as [A|(k & b & I & A)]; [lia|]. pose proof (last_tick_max _ (ok_bars _ OQ) _ _ I). lia. }
  apply Z.leb_le in LE. rewrite LE. reflexivity.
Qed.

Lemma same_sym p q : same_project p q -> same_project q p.
Proof. intros []. constructor; auto using Permutation_sym. Qed.

(** So in a project: making the tuplet of a tuplet that was just made returns, and changes nothing. *)
Theorem C90_project : forall p notes out q, project_ok p -> notes_valid p -> contains_notes p notes -> Forall note_valid notes -> (2 <= length notes)%nat ->
  NoDup (map n_base_tick notes) -> tuplize notes = Ret out -> NoDup (map n_base_tick out) -> edits_done p [ETuplize notes] q ->
  contains_notes q out /\ exists q', edits_done q [ETuplize out] q' /\ same_project q' q.
Proof.
  intros p notes out q O V CN NV LN ND E NO D. inversion D as [|? ? c q1 ? ? R D']; subst. inversion D'; subst. clear D D'.
  assert (VN : valid_notes notes) by (eapply Forall_impl; [|exact NV]; intros n [A _]; exact A).
  assert (NE : notes <> []) by (intros ->; cbn in LN; lia).
  destruct (T_Project.C50_edit (ETuplize notes) _ _ p q c O Logic.I CN (mv_tuplize notes out E) R) as (more & X & _).
  assert (CQ : contains_notes q out).
  { destruct CN as [rest CN]. exists rest. destruct X as [_ XN _ _ _ _]. cbn [m_notes] in XN. apply (Permutation_app_inv_r notes). rewrite XN, CN.
    rewrite <- !app_assoc. rewrite (Permutation_app_comm notes). rewrite <- app_assoc. rewrite Permutation_app_swap_app. rewrite <- ?app_assoc. reflexivity. }
  split; [exact CQ|]. pose proof (C90_again notes out VN ND E NO) as A.
  destruct (tuplize_keeps notes out NE VN E) as (KE & _).
  assert (LO : (1 <? length out)%nat = true) by (apply Nat.ltb_lt; apply Permutation_length in KE; rewrite !map_length in KE; lia).
  assert (VO : Forall note_valid out).
  { assert (VD : valid_notes out).
    { destruct (C39_places notes out NE VN E) as (n0 & r & cs & g & (P & _) & _ & _ & H1 & H2). cbv zeta in *. destruct (Z_lt_le_dec (sum (map (fun c => units (snd (fst c))) cs) / g) 2) as [Y|Y].
      - rewrite (H1 Y). exact VN.
      - destruct (H2 Y) as (L2 & H3). apply Forall_forall. intros m I. apply In_nth_error in I as (i & I).
        assert (Li : (i < length (n0 :: r))%nat) by (rewrite <- (Permutation_length P), <- L2; apply nth_error_Some; congruence).
        destruct (nth_error (n0 :: r) i) as [n|] eqn:In_; [|apply nth_error_None in In_; lia]. destruct (H3 i n In_) as (H4 & H5). rewrite H4 in I. injection I as <-.
        apply nth_error_In in In_. apply (Permutation_in _ (Permutation_sym P)) in In_. destruct (proj1 (Forall_forall _ _) VN n In_) as [_ DD].
        split; cbn; [|exact DD]. pose proof (Z.mod_pos_bound (sum (map (fun c => units (snd (fst c))) cs) / g) 256). lia. }
    apply Forall_forall. intros m I. split; [exact (proj1 (Forall_forall _ _) VD m I)|]. apply (in_map essence) in I. apply (Permutation_in _ KE) in I.
    apply in_map_iff in I as (n & EN & I). assert (EN' : n_duration_trimmer m = n_duration_trimmer n) by (apply (f_equal n_duration_trimmer) in EN; symmetry; exact EN).
    rewrite EN'. apply (proj1 (Forall_forall _ _) NV n I). }
  cbn [edit_run] in R. rewrite tuplize_runs in R. assert (Q : (1 <? length notes)%nat = true) by (apply Nat.ltb_lt; lia). rewrite Q, E in R. cbn [bind] in R.
  apply runs_replenish in R as (mo & R).
  assert (TN : forall l, models_typed (mkModels l [] [] [] [])) by (intros l; repeat constructor).
  destruct (replenish_twice _ _ _ (exchange_ok _ _ _ O (TN out)) (exchange_valid _ (mkModels out [] [] [] []) _ V VO) R) as (OQ & VQ & R2).
  set (m := mkModels out [] [] [] []) in *.
  assert (SP : same_project (exchange m m q) q).
  { assert (PR : all_present q m) by (constructor; [exact CQ|intros v []..]).
    pose proof (T_Project.C28_undo (EBulkRemove m) q _ _ OQ (TN out) PR eq_refl) as UN. exact UN. }
  destruct (replenish_cong q (exchange m m q) q [] OQ (exchange_ok _ _ _ OQ (TN out)) (same_sym _ _ SP) R2) as (q' & R3 & S3).
  exists q'. split; [|exact (same_sym _ _ S3)]. econstructor; [|constructor]. cbn [edit_run]. rewrite tuplize_runs, LO, A. cbn [bind]. unfold runs. change (mkModels out [] [] [] []) with m. rewrite R3. cbn [bind]. reflexivity.
Qed.
Print Assumptions C90_project.

(** Not so for shorter values of different lengths: of a 64th and a 128th the first lasts into the second. *)
Theorem C90_short_refuted : exists notes out a b e, valid_notes notes /\ NoDup (map n_base_tick notes) /\ tuplize notes = Ret out /\ out = [a; b] /\
  map n_duration notes = [mkDur N64th 2 0; mkDur N128th 2 0] /\ note_ends a e /\ n_base_tick b < e.
Proof.
  exists [tnote 0 (mkDur N64th 2 0); tnote 15 (mkDur N128th 2 0)]. eexists. exists (tnote 0 (mkDur N64th 3 0)), (tnote 9 (mkDur N128th 3 0)), 10.
  split; [repeat constructor; cbn; lia|]. split; [cbn; repeat constructor; cbn; intuition discriminate|]. split; [vm_compute; reflexivity|].
  split; [reflexivity|]. split; [reflexivity|]. split; [|cbn; lia]. exists 10. split; [|reflexivity]. apply lasts_of; [split; cbn; lia|reflexivity].
Qed.
Print Assumptions C90_short_refuted.

(** Nor does pressing the button again change nothing where notes start together. *)
Theorem C90_chord_refuted : exists notes out out', valid_notes notes /\ tuplize notes = Ret out /\ NoDup (map n_base_tick out) /\
  tuplize out = Ret out' /\ map n_base_tick out = [0; 240; 480] /\ map n_base_tick out' = [0; 160; 320].
Proof.
  exists [tnote 0 (mkDur Quarter 2 0); tnote 0 (mkDur Quarter 2 0); tnote 240 (mkDur Quarter 2 0)]. eexists. eexists.
  split; [repeat constructor; cbn; lia|]. split; [vm_compute; reflexivity|]. split; [cbn; repeat constructor; cbn; intuition discriminate|].
  split; [vm_compute; reflexivity|]. split; reflexivity.
Qed.
Print Assumptions C90_chord_refuted.

(** A quarter and an eighth in the time of two eighths, twice; five equal 128ths. *)
Definition swing := [tnote 960 (mkDur Quarter 2 0); tnote 1200 (mkDur N8th 2 0)].
Example C90_again_case : exists out, valid_notes swing /\ NoDup (map n_base_tick swing) /\ tuplize swing = Ret out /\ NoDup (map n_base_tick out) /\
  out = [tnote 960 (mkDur Quarter 3 0); tnote 1120 (mkDur N8th 3 0)] /\ tuplize out = Ret out.
Proof.
  eexists. split; [repeat constructor; cbn; lia|]. split; [cbn; repeat constructor; cbn; intuition discriminate|]. split; [vm_compute; reflexivity|].
  split; [cbn; repeat constructor; cbn; intuition discriminate|]. split; [reflexivity|]. apply (C90_again swing);
    [repeat constructor; cbn; lia|cbn; repeat constructor; cbn; intuition discriminate|vm_compute; reflexivity|cbn; repeat constructor; cbn; intuition discriminate].
Qed.
Example C90_in_turn_case : exists out, valid_notes swing /\ Forall down_to_64th swing /\ least (map n_base_tick swing) 960 /\
  is_gcd 32 (map (fun n => units (n_duration n)) swing) /\ units_of swing / 32 = 3 /\ tuplize swing = Ret out /\ in_turn out 1200.
Proof.
  assert (G : is_gcd 32 (map (fun n => units (n_duration n)) swing)).
  { split; [lia|]. split; [intros u [<-|[<-|[]]]; [exists 2|exists 1]; reflexivity|]. intros h D. apply D. right. left. reflexivity. }
  assert (L : least (map n_base_tick swing) 960) by (split; [left; reflexivity|]; intros x [<-|[<-|[]]]; cbn; lia).
  eexists. split; [repeat constructor; cbn; lia|]. split; [repeat constructor; unfold down_to_64th; cbn; lia|]. split; [exact L|]. split; [exact G|].
  split; [reflexivity|]. split; [vm_compute; reflexivity|]. change 1200 with (960 + 15 * 32 / 2). apply (C90_in_turn swing _ 960 32); auto.
  - repeat constructor; cbn; lia.
  - cbn; repeat constructor; cbn; intuition discriminate.
  - repeat constructor; unfold down_to_64th; cbn; lia.
  - vm_compute. congruence.
Qed.
Example C90_equal_case : let l := map (fun i => tnote (Z.of_nat i * 7) (mkDur N128th 2 0)) (seq 0 5) in
  exists out, tuplize l = Ret out /\ map n_base_tick out = [0; 2; 5; 8; 11] /\ in_turn out 14.
Proof.
  destruct (C90_equal (map (fun i => tnote (Z.of_nat i * 7) (mkDur N128th 2 0)) (seq 0 5)) (mkDur N128th 2 0) 7 0) as (out & E & T).
  - cbn. lia.
  - repeat constructor; cbn; lia.
  - cbn. repeat constructor; cbn; intuition discriminate.
  - split; cbn; lia.
  - repeat constructor.
  - apply lasts_of; [split; cbn; lia|reflexivity].
  - split; [left; reflexivity|]. intros x I. cbn in I. intuition; subst; lia.
  - lia.
  - unfold u32_max. lia.
  - exists out. split; [exact E|]. split; [|exact T]. vm_compute in E. injection E as <-. reflexivity.
Qed.

(** Three notes of a project, made into a triplet and once more. *)
Example C90_project_case : let l := [T_Project.ex_note 0 SC; T_Project.ex_note 480 SE; T_Project.ex_note 1600 SA] in
  exists out q, project_ok T_Project.ex_project /\ notes_valid T_Project.ex_project /\ contains_notes T_Project.ex_project l /\ Forall note_valid l /\
    tuplize l = Ret out /\ map n_base_tick out = [0; 160; 320] /\ edits_done T_Project.ex_project [ETuplize l] q /\ map fst (pj_notes q) = [0; 160; 320; 480] /\
    exists q', edits_done q [ETuplize out] q' /\ same_project q' q.
Proof.
  intros l. assert (CN : contains_notes T_Project.ex_project l).
  { exists [T_Project.ex_note 480 SG]. cbn. apply perm_skip, perm_skip, perm_swap. }
  assert (NV : Forall note_valid l).
  { apply Forall_forall. intros n I. destruct CN as [rest CN]. assert (J : In n (l ++ rest)) by (apply in_app_iff; auto).
    apply (Permutation_in _ (Permutation_sym CN)) in J. apply in_map_iff in J as ([k m] & <- & J). exact (T_Project.ex_project_valid k m J). }
  assert (E : exists out, tuplize l = Ret out /\ map n_base_tick out = [0; 160; 320]) by (eexists; split; [vm_compute; reflexivity|reflexivity]).
  destruct E as (out & E & TO).
  assert (R : exists q, edits_done T_Project.ex_project [ETuplize l] q /\ map fst (pj_notes q) = [0; 160; 320; 480]).
  { eexists. split; [eapply done_cons; [vm_compute; reflexivity|apply done_nil]|reflexivity]. }
  destruct R as (q & R & TQ). exists out, q. split; [exact T_Project.ex_project_ok|]. split; [exact T_Project.ex_project_valid|]. split; [exact CN|]. split; [exact NV|].
  split; [exact E|]. split; [exact TO|]. split; [exact R|]. split; [exact TQ|].
  apply (C90_project T_Project.ex_project l out q); auto.
  - exact T_Project.ex_project_ok.
  - exact T_Project.ex_project_valid.
  - cbn. lia.
  - cbn. repeat constructor; cbn; intuition discriminate.
  - rewrite TO. repeat constructor; cbn; intuition discriminate.
Qed.
