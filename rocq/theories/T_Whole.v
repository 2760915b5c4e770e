(** Property theorems about moving a whole score: C100. *)
From Coq Require Import ZArith List Bool Lia Sorted Permutation.
From Verif Require Import Base M_Pitch M_Duration M_Percent M_Scalar M_Bar M_Note M_Store M_Tuple M_Models M_Project.
From Verif Require Import S_Project S_Score S_Effect S_Safe S_Move S_Lift S_Enter P_Base P_Store P_Query P_Replenish P_Edit P_History P_Effect.
From Verif Require Import T_Move T_Lift.
From Verif Require S_Tuple P_Tuple T_Tuple T_Project T_Blank T_Enter S_Stretch T_Stretch M_Repeat S_Repeat T_Repeat.
Import ListNotations.
Open Scope Z_scope.

Lemma f2_in_l {A B} (R : A -> B -> Prop) l l' a : Forall2 R l l' -> In a l -> exists b, In b l' /\ R a b.
Proof. induction 1 as [|x y l l' X F IH]; intros []; [subst; exists y; cbn; auto|]. destruct IH as (b & I & J); [assumption|]. exists b. cbn. auto. Qed.
Lemma f2_in_r {A B} (R : A -> B -> Prop) l l' b : Forall2 R l l' -> In b l' -> exists a, In a l /\ R a b.
Proof. induction 1 as [|x y l l' X F IH]; intros []; [subst; exists x; cbn; auto|]. destruct IH as (a & I & J); [assumption|]. exists a. cbn. auto. Qed.

(** All elements of a store moved. *)
Definition carried_over {V} (R : V -> V -> Prop) k (s s' : list (Z * V)) : Prop :=
  (forall i a, In (i, a) s -> exists b, R a b /\ In (i + k, b) s') /\ (forall j b, In (j, b) s' -> exists a, R a b /\ In (j - k, a) s).
Lemma store_over {V} (tick : V -> Z) (R : V -> V -> Prop) k s l' s' : keyed tick s -> (forall a b, R a b -> tick b = tick a + k) -> Forall2 R (map snd s) l' ->
  (forall j v, In (j, v) s' <-> then_at tick s (map snd s) l' j v) -> carried_over R k s s'.
Proof.
  intros [KS K] T F H. split.
  - intros i a I. destruct (f2_in_l _ _ _ _ F (in_map snd _ _ I)) as (b & J & X). exists b. split; [exact X|]. apply H. left. split; [exact J|]. rewrite (T _ _ X). destruct (K i a I) as [-> _]. reflexivity.
  - intros j b I. apply H in I as [[J ->]|(_ & N & I)].
    + destruct (f2_in_r _ _ _ _ F J) as (a & L & X). exists a. split; [exact X|]. apply in_map_iff in L as ([i a'] & E & L). cbn in E. subst a'. destruct (K i a L) as [-> _]. rewrite (T _ _ X). replace (tick a + k - k) with (tick a) by lia. exact L.
    + exfalso. apply N. destruct (K j b I) as [E _]. rewrite E. apply in_map. apply (in_map snd) in I. exact I.
Qed.
Lemma latest_over {V W} (R : V -> V -> Prop) (f : V -> W) k s s' t o : carried_over R k s s' -> (forall a b, R a b -> f b = f a) -> latest s t o ->
  exists o', latest s' (t + k) o' /\ option_map f o' = option_map f o.
Proof.
  intros [C1 C2] RF L. destruct o as [v|]; cbn in L.
  - destruct L as (i & I & Li & M). destruct (C1 i v I) as (b & X & J). exists (Some b). split; [|cbn; rewrite (RF _ _ X); reflexivity]. exists (i + k). split; [exact J|]. split; [lia|].
    intros j c J' Lj. destruct (C2 j c J') as (a & _ & I'). specialize (M _ _ I'). lia.
  - exists None. split; [|reflexivity]. intros j c J. destruct (C2 j c J) as (a & _ & I). apply L in I. lia.
Qed.

Definition shifted k (b : bar) : bar := mkBar (b_tick b + k) (b_rhythm b) (b_key b) (b_marks b).
(** What is there after the whole score was moved. *)
Record all_moved (k : Z) (p q : project) : Prop := {
  am_ok : project_ok q;
  am_settings : pj_rhythm q = pj_rhythm p /\ pj_key q = pj_key p /\ pj_grid q = pj_grid p;
  am_tempos : carried_over (S_Tuple.moved_tempo k) k (pj_tempos p) (pj_tempos q);
  am_dumpers : carried_over (S_Tuple.moved_ctrl k) k (pj_dumpers p) (pj_dumpers q);
  am_softs : carried_over (S_Tuple.moved_ctrl k) k (pj_softs p) (pj_softs q);
  am_bars : forall i b, In (i, b) (pj_bars p) -> In (i + k, shifted k b) (pj_bars q);
  am_back : forall j b, In (j, b) (pj_bars q) -> (exists a, b = shifted k a /\ In (j - k, a) (pj_bars p)) \/ blank b /\ ~ In (j - k) (map fst (pj_bars p)) }.
Lemma whole_moved p k m' q c : project_ok p -> S_Tuple.moved k (contents p) m' -> Forall (fun x => u32 (x + k)) (S_Tuple.all_ticks (contents p)) ->
  edit_run (EChange (pairs (contents p) m')) p = Ret (Some (q, c)) -> all_moved k p q /\ Permutation (map snd (pj_notes q)) (m_notes m').
Proof.
  intros O M U R. pose proof (moved_matched _ _ _ M) as MA. pose proof (moved_typed _ _ _ M U) as T'.
  destruct (moved_one p (pairs (contents p) m') q c O) as [OQ [X1 X2 X3 X4 X5 X6 X7]];
    [cbn [edit_typed]; rewrite pairs_from, pairs_to by exact MA; split; [apply T_Enter.contents_typed, O|exact T']
    |cbn [edit_wf]; rewrite pairs_from, pairs_to by exact MA; split; [apply T_Enter.contents_present, O|exact (moved_distinct _ _ _ M (T_Enter.contents_distinct p O))]|exact R|].
  rewrite pairs_from, pairs_to in * by exact MA. destruct M as (M1 & M2 & M3 & M4 & M5). cbn [contents m_notes m_bars m_tempos m_dumpers m_softs] in *.
  split.
  2:{ apply (Permutation_app_inv_l (map snd (pj_notes p))). etransitivity; [apply Permutation_app_comm|]. exact X2. }
  assert (B : forall j b, then_at b_tick (pj_bars p) (map snd (pj_bars p)) (m_bars m') j b <-> exists a, b = shifted k a /\ In (j - k, a) (pj_bars p)).
  { intros j b. destruct (ok_bars _ O) as [_ K]. split.
    - intros [[J ->]|(_ & N & I)].
      + destruct (f2_in_r _ _ _ _ M2 J) as (a & L & X). exists a. split; [exact X|]. apply in_map_iff in L as ([i a'] & E & L). cbn in E. subst a'. destruct (K i a L) as [-> _]. rewrite X. cbn. replace (b_tick a + k - k) with (b_tick a) by lia. exact L.
      + exfalso. apply N. destruct (K j b I) as [E _]. rewrite E. apply in_map. apply (in_map snd) in I. exact I.
    - intros (a & -> & I). left. destruct (f2_in_l _ _ _ _ M2 (in_map snd _ _ I)) as (b & J & X). unfold S_Tuple.moved_bar in X. cbn [snd] in X. subst b. split; [exact J|]. destruct (K _ _ I) as [E _]. cbn. lia. }
  constructor; auto.
  - apply (store_over tp_tick _ k _ (m_tempos m')); [apply O|intros a b ->; reflexivity|exact M3|exact X5].
  - apply (store_over cc_tick _ k _ (m_dumpers m')); [apply O|intros a b ->; reflexivity|exact M4|exact X6].
  - apply (store_over cc_tick _ k _ (m_softs m')); [apply O|intros a b ->; reflexivity|exact M5|exact X7].
  - intros i b I. apply X3, B. exists b. replace (i + k - k) with i by lia. auto.
  - intros j b I. apply X4 in I as [I|[Bl N]]; [left; apply B, I|]. right. split; [exact Bl|]. intros J. apply in_map_iff in J as ([i a] & E & J). cbn in E. subst i. apply (N (shifted k a)), B. eauto.
Qed.
Lemma setting_over {A} (f : bar -> option A) k p q : all_moved k p q -> (forall b, f (shifted k b) = f b) -> (forall b, blank b -> f b = None) ->
  carried_over eq k (setting f (pj_bars p)) (setting f (pj_bars q)).
Proof.
  intros [_ _ _ _ _ B1 B2] F N. split.
  - intros i a I. exists a. split; [reflexivity|]. apply setting_in in I as (b & I & E). apply setting_in. exists (shifted k b). rewrite F. auto.
  - intros j a I. exists a. split; [reflexivity|]. apply setting_in in I as (b & I & E). apply setting_in. destruct (B2 j b I) as [(b' & -> & J)|[Bl _]].
    + exists b'. rewrite F in E. auto.
    + rewrite (N b Bl) in E. discriminate.
Qed.

(** A whole score that is dragged to another tick: everything in force at a tick is in force as many ticks later (or earlier) as it was dragged. *)
Theorem C100_in_force : forall p k m' q t, project_ok p -> S_Tuple.moved k (contents p) m' -> Forall (fun x => u32 (x + k)) (S_Tuple.all_ticks (contents p)) ->
  edits_done p [EChange (pairs (contents p) m')] q ->
  rhythm_at q (t + k) = rhythm_at p t /\ key_at q (t + k) = key_at p t /\ tempo_at q (t + k) = tempo_at p t /\ dumper_at q (t + k) = dumper_at p t /\ soft_at q (t + k) = soft_at p t.
Proof.
  intros p k m' q t O M U D. inversion D as [|? ? c q1 ? ? R D1]; subst. inversion D1; subst.
  destruct (whole_moved p k m' q c O M U R) as [A _]. pose proof (am_ok _ _ _ A) as OQ. destruct (am_settings _ _ _ A) as (S1 & S2 & _).
  assert (B : forall V (R : V -> V -> Prop) (f : V -> Z) s s' o, carried_over R k s s' -> (forall a b, R a b -> f b = f a) -> latest s t o -> exists o', latest s' (t + k) o' /\ forall d, match o' with Some v => f v | None => d end = match o with Some v => f v | None => d end).
  { intros V R' f s s' o C F L. destruct (latest_over R' f k s s' t o C F L) as (o' & L' & E). exists o'. split; [exact L'|]. intros d. destruct o, o'; cbn in E; congruence. }
  repeat split.
  - destruct (rhythm_at_spec p t (ok_bars _ O)) as (o & L & ->). destruct (latest_over eq (fun x => x) k _ _ t o (setting_over b_rhythm k p q A (fun b => eq_refl) (fun b H => proj1 H))) as (o' & L' & E); [congruence|exact L|].
    rewrite (rhythm_latest q _ _ (ok_bars _ OQ) L'), S1. destruct o, o'; cbn in E; congruence.
  - destruct (key_at_spec p t (ok_bars _ O)) as (o & L & ->). destruct (latest_over eq (fun x => x) k _ _ t o (setting_over b_key k p q A (fun b => eq_refl) (fun b H => proj1 (proj2 H)))) as (o' & L' & E); [congruence|exact L|].
    rewrite (key_latest q _ _ (ok_bars _ OQ) L'), S2. destruct o, o'; cbn in E; congruence.
  - destruct (tempo_at_spec p t (ok_tempos _ O)) as (o & L & ->). destruct (B _ _ tp_value _ _ o (am_tempos _ _ _ A)) as (o' & L' & E); [intros a b ->; reflexivity|exact L|].
    rewrite (tempo_latest q _ _ (ok_tempos _ OQ) L'), E. reflexivity.
  - unfold dumper_at. destruct (ctrl_at_spec _ t (ok_dumpers _ O)) as (o & L & ->). destruct (B _ _ cc_velocity _ _ o (am_dumpers _ _ _ A)) as (o' & L' & E); [intros a b ->; reflexivity|exact L|].
    rewrite (ctrl_latest _ _ _ (ok_dumpers _ OQ) L'), E. reflexivity.
  - unfold soft_at. destruct (ctrl_at_spec _ t (ok_softs _ O)) as (o & L & ->). destruct (B _ _ cc_velocity _ _ o (am_softs _ _ _ A)) as (o' & L' & E); [intros a b ->; reflexivity|exact L|].
    rewrite (ctrl_latest _ _ _ (ok_softs _ OQ) L'), E. reflexivity.
Qed.
Print Assumptions C100_in_force.

(** *** Where a place is shown *)
Lemma srt_shift {V W} (f : V -> W) k s : srt V s -> srt W (map (fun x => (fst x + k, f (snd x))) s).
Proof.
  induction 1 as [|x s H IH F]; cbn; [constructor|]. constructor; [exact IH|]. apply Forall_forall. intros y I. apply in_map_iff in I as (z & <- & I). rewrite Forall_forall in F. specialize (F z I). cbn. lia.
Qed.
Lemma nth_firstn {A} i : forall s : list A, nth_error (firstn (S i) s) i = nth_error s i.
Proof. induction i as [|i IH]; intros [|x s]; auto. exact (IH s). Qed.

(** A place that has no new bar at or before it is in the bar of the same number, as far behind its start as before; what is before the first
    bar has grown (or shrunk) by what the score was dragged. *)
Theorem C100_location : forall p k m' q t l, project_ok p -> S_Tuple.moved k (contents p) m' -> Forall (fun x => u32 (x + k)) (S_Tuple.all_ticks (contents p)) ->
  edits_done p [EChange (pairs (contents p) m')] q -> u32 t -> u32 (t + k) ->
  (forall j b, In (j, b) (pj_bars q) -> j <= t + k -> In (j - k) (map fst (pj_bars p))) ->
  tick_to_location p t = Ret l -> tick_to_location q (t + k) = Ret (mkLoc (loc_bar l) (if loc_bar l =? 0 then loc_offset l + k else loc_offset l)).
Proof.
  intros p k m' q t l O M U D Ut Uk NB L. inversion D as [|? ? c q1 ? ? R D1]; subst. inversion D1; subst.
  destruct (whole_moved p k m' q c O M U R) as [A _]. pose proof (am_ok _ _ _ A) as OQ.
  assert (E : filter (fun x => fst x <=? t + k) (pj_bars q) = map (fun x => (fst x + k, shifted k (snd x))) (filter (fun x => fst x <=? t) (pj_bars p))).
  { assert (IFF : forall j b, In (j, b) (filter (fun x => fst x <=? t + k) (pj_bars q)) <-> In (j, b) (map (fun x => (fst x + k, shifted k (snd x))) (filter (fun x => fst x <=? t) (pj_bars p)))).
    { intros j b. rewrite filter_In, in_map_iff. cbn [fst]. rewrite Z.leb_le. split.
      - intros [I Lj]. destruct (am_back _ _ _ A j b I) as [(a & -> & J)|[_ N]]; [|exfalso; exact (N (NB j b I Lj))].
        exists (j - k, a). cbn. split; [f_equal; lia|]. apply filter_In. cbn. rewrite Z.leb_le. split; [exact J|lia].
      - intros ([i a] & X & I). cbn in X. injection X as <- <-. apply filter_In in I as [I Li]. cbn in Li. apply Z.leb_le in Li. split; [apply (am_bars _ _ _ A), I|lia]. }
    apply (store_eq b_tick); [apply T_Blank.keyed_filter, OQ| |exact IFF]. split.
    - apply (srt_shift (shifted k) k). apply (T_Blank.keyed_filter b_tick), O.
    - intros j b I. apply IFF in I. apply filter_In in I as [I _]. apply (proj2 (ok_bars _ OQ)), I. }
  destruct (tick_to_location_spec q (t + k) (ok_bars _ OQ) Uk) as (l' & L' & _). rewrite L'. f_equal.
  destruct (T_Project.C24_meaning p t l O Ut L) as [(B & F & N)|(i & x & b & B & N & K & F & MM)];
  destruct (T_Project.C24_meaning q (t + k) l' OQ Uk L') as [(B' & F' & N')|(i' & x' & b' & B' & N1' & K' & F' & MM')].
  - destruct l, l'. cbn in *. subst. reflexivity.
  - rewrite (T_Blank.filter_none t (pj_bars p) N), (T_Blank.filter_to (t + k) (pj_bars q) (keyed_srt _ _ (ok_bars _ OQ)) i' x' b' N1' K' MM') in E.
    destruct (pj_bars q); [destruct i'; discriminate|discriminate].
  - rewrite (T_Blank.filter_none (t + k) (pj_bars q) N'), (T_Blank.filter_to t (pj_bars p) (keyed_srt _ _ (ok_bars _ O)) i x b N K MM) in E.
    destruct (pj_bars p); [destruct i; discriminate|discriminate].
  - rewrite (T_Blank.filter_to t (pj_bars p) (keyed_srt _ _ (ok_bars _ O)) i x b N K MM), (T_Blank.filter_to (t + k) (pj_bars q) (keyed_srt _ _ (ok_bars _ OQ)) i' x' b' N1' K' MM') in E.
    assert (LI : (i < length (pj_bars p))%nat) by (apply nth_error_Some; congruence). assert (LI' : (i' < length (pj_bars q))%nat) by (apply nth_error_Some; congruence).
    assert (i' = i) as ->. { apply (f_equal (@length _)) in E. rewrite map_length, !firstn_length in E. lia. }
    assert (NE : nth_error (firstn (S i) (pj_bars q)) i = nth_error (map (fun x => (fst x + k, shifted k (snd x))) (firstn (S i) (pj_bars p))) i) by (rewrite E; reflexivity).
    rewrite nth_error_map, !nth_firstn, N, N1' in NE. cbn in NE. injection NE as -> _.
    destruct l, l'. cbn in *. subst. destruct (Z.eqb_spec (Z.of_nat i + 1) 0); [lia|]. f_equal. lia.
Qed.
Print Assumptions C100_location.

(** The notes are the same, as many ticks later. *)
Theorem C100_notes : forall p k m' q, project_ok p -> S_Tuple.moved k (contents p) m' -> Forall (fun x => u32 (x + k)) (S_Tuple.all_ticks (contents p)) ->
  edits_done p [EChange (pairs (contents p) m')] q ->
  exists l, Permutation (map snd (pj_notes q)) l /\ Forall2 (S_Tuple.moved_note k) (map snd (pj_notes p)) l.
Proof.
  intros p k m' q O M U D. inversion D as [|? ? c q1 ? ? R D1]; subst. inversion D1; subst.
  destruct (whole_moved p k m' q c O M U R) as [_ P]. exists (m_notes m'). split; [exact P|]. apply M.
Qed.
Print Assumptions C100_notes.

Definition later (k : Z) (p : project) : models := move_to_tick (contents p) k.

(** A score without bars gets its first bars when it is dragged: what was in bar 0 is then in another bar. *)
Definition no_bars : project := mkProject rhythm_default 0 60 [(0, T_Project.ex_note 0 SC); (1600, T_Project.ex_note 1600 SA)] [] [(0, mkTempo 0 100)] [] [].
Lemma no_bars_ok : project_ok no_bars.
Proof. constructor; (split; [repeat constructor; cbn; lia|T_Project.in_list]); first [reflexivity | split; [reflexivity|unfold u32, u32_max; cbn; lia]]. Qed.
Lemma later_moved p k : Forall u32 (S_Tuple.all_ticks (contents p)) -> S_Tuple.least (S_Tuple.all_ticks (contents p)) 0 -> u32 k ->
  Forall (fun x => u32 (x + k)) (S_Tuple.all_ticks (contents p)) -> S_Tuple.moved k (contents p) (later k p).
Proof.
  intros U L K F. replace k with (k - 0) at 1 by lia. apply P_Tuple.move_spec; auto. intros x I. rewrite Forall_forall in F. specialize (F x I). unfold u32 in F. lia.
Qed.
Ltac nums := cbn; repeat (apply Forall_cons; [unfold u32, u32_max; lia|]); apply Forall_nil.
Ltac from_0 := split; [cbn; auto|intros x I; cbn in I; decompose [or] I; subst; lia || contradiction].

Theorem C100_location_refuted : ~ forall p k m' q t l, project_ok p -> S_Tuple.moved k (contents p) m' -> Forall (fun x => u32 (x + k)) (S_Tuple.all_ticks (contents p)) ->
  edits_done p [EChange (pairs (contents p) m')] q -> u32 t -> u32 (t + k) -> tick_to_location p t = Ret l ->
  tick_to_location q (t + k) = Ret (mkLoc (loc_bar l) (if loc_bar l =? 0 then loc_offset l + k else loc_offset l)).
Proof.
  intros H. assert (E : exists q, edits_done no_bars [EChange (pairs (contents no_bars) (later 480 no_bars))] q /\ tick_to_location q 2080 = Ret (mkLoc 2 160)).
  { eexists. split; [eapply done_cons; [vm_compute; reflexivity|apply done_nil]|vm_compute; reflexivity]. }
  destruct E as (q & D & L). assert (F : Forall (fun x => u32 (x + 480)) (S_Tuple.all_ticks (contents no_bars))) by nums.
  assert (M : S_Tuple.moved 480 (contents no_bars) (later 480 no_bars)) by (apply later_moved; [nums|from_0|unfold u32, u32_max; lia|exact F]).
  assert (U : u32 1600) by (unfold u32, u32_max; lia). assert (U' : u32 (1600 + 480)) by (unfold u32, u32_max; lia). assert (L0 : tick_to_location no_bars 1600 = Ret (mkLoc 0 1600)) by (vm_compute; reflexivity).
  specialize (H no_bars 480 (later 480 no_bars) q 1600 (mkLoc 0 1600) no_bars_ok M F D U U' L0). change (1600 + 480) with 2080 in H. rewrite L in H. discriminate.
Qed.
Print Assumptions C100_location_refuted.

(** The example score dragged half a bar to the right. *)
Example C100_case : let p := T_Project.ex_project in let m' := later 480 p in exists q, project_ok p /\ S_Tuple.moved 480 (contents p) m' /\
  Forall (fun x => u32 (x + 480)) (S_Tuple.all_ticks (contents p)) /\ edits_done p [EChange (pairs (contents p) m')] q /\
  map fst (pj_notes q) = [480; 960; 960; 2080] /\ map fst (pj_bars q) = [1440; 2400] /\
  (forall j b, In (j, b) (pj_bars q) -> j <= 2000 + 480 -> In (j - 480) (map fst (pj_bars p))) /\
  rhythm_at p 2000 = Ret (mkRhythm 3 D4) /\ rhythm_at q 2480 = Ret (mkRhythm 3 D4) /\ key_at q 2480 = Ret 2 /\ tempo_at q 1439 = tempo_at p 959 /\ tempo_at p 959 = Ret 100 /\ dumper_at q 1000 = Ret 127 /\
  tick_to_location p 2000 = Ret (mkLoc 2 80) /\ tick_to_location q 2480 = Ret (mkLoc 2 80) /\ tick_to_location p 100 = Ret (mkLoc 0 100) /\ tick_to_location q 580 = Ret (mkLoc 0 580).
Proof.
  intros p m'. assert (E : exists q, edits_done p [EChange (pairs (contents p) m')] q /\ map fst (pj_notes q) = [480; 960; 960; 2080] /\ map fst (pj_bars q) = [1440; 2400] /\
    rhythm_at q 2480 = Ret (mkRhythm 3 D4) /\ key_at q 2480 = Ret 2 /\ tempo_at q 1439 = Ret 100 /\ dumper_at q 1000 = Ret 127 /\ tick_to_location q 2480 = Ret (mkLoc 2 80) /\ tick_to_location q 580 = Ret (mkLoc 0 580)).
  { eexists. split; [eapply done_cons; [vm_compute; reflexivity|apply done_nil]|]. repeat (split; [vm_compute; reflexivity|]). vm_compute; reflexivity. }
  destruct E as (q & D & N & B & R & K & T & DU & L1 & L2). exists q.
  assert (F : Forall (fun x => u32 (x + 480)) (S_Tuple.all_ticks (contents p))) by nums.
  split; [exact T_Project.ex_project_ok|]. split; [apply later_moved; [nums|from_0|unfold u32, u32_max; lia|exact F]|]. split; [exact F|]. split; [exact D|]. split; [exact N|]. split; [exact B|].
  split; [intros j b I _; apply (in_map fst) in I; rewrite B in I; cbn in I; destruct I as [<-|[<-|[]]]; cbn; auto|].
  split; [vm_compute; reflexivity|]. split; [exact R|]. split; [exact K|]. split; [rewrite T; vm_compute; reflexivity|]. split; [vm_compute; reflexivity|]. split; [exact DU|]. split; [vm_compute; reflexivity|].
  split; [exact L1|]. split; [vm_compute; reflexivity|exact L2].
Qed.

(** *** What is played *)

(** The beginning and the end of time stay where they are, the bar lines of the score move by [k]. *)
Definition line_moved (k : Z) (p : project) (t t' : Z) : Prop :=
  t = 0 /\ t' = 0 \/ t = u32_max /\ t' = u32_max \/ (exists b, In b (score p) /\ t = b_tick b) /\ t' = t + k.

(** If no bar was added, the score is accepted or refused alike, and what is played goes from the same bar lines to the same bar lines. (A
    bar line at the very beginning, and a D.C. without a segno, which looks at the length of the upbeat, are left out.) *)
Theorem C100_heard : forall p k m' q, project_ok p -> S_Tuple.moved k (contents p) m' -> Forall (fun x => u32 (x + k)) (S_Tuple.all_ticks (contents p)) ->
  edits_done p [EChange (pairs (contents p) m')] q ->
  (forall j b, In (j, b) (pj_bars q) -> In (j - k) (map fst (pj_bars p))) ->
  (forall b, In b (score p) -> 0 < b_tick b < u32_max /\ 0 < b_tick b + k < u32_max) ->
  S_Repeat.marked Dc (score p) = [] \/ S_Repeat.marked Segno (score p) <> [] ->
  S_Stretch.moved_rendering (line_moved k p) (render_project p) (render_project q) /\
  (forall c w c' w', render_project p = Ret (Ok (c, w)) -> render_project q = Ret (Ok (c', w')) ->
     S_Stretch.moved_chunks (line_moved k p) (M_Repeat.to_chunks c) (M_Repeat.to_chunks c')).
Proof.
  intros p k m' q O M U D NB IN DC. inversion D as [|? ? c q1 ? ? R D1]; subst. inversion D1; subst.
  destruct (whole_moved p k m' q c O M U R) as [A _]. pose proof (am_ok _ _ _ A) as OQ.
  assert (E : pj_bars q = map (fun x => (fst x + k, shifted k (snd x))) (pj_bars p)).
  { assert (IFF : forall j b, In (j, b) (pj_bars q) <-> In (j, b) (map (fun x => (fst x + k, shifted k (snd x))) (pj_bars p))).
    { intros j b. rewrite in_map_iff. split.
      - intros I. destruct (am_back _ _ _ A j b I) as [(a & -> & J)|[_ N]]; [|exfalso; exact (N (NB j b I))]. exists (j - k, a). cbn. split; [f_equal; lia|exact J].
      - intros ([i a] & X & I). cbn in X. injection X as <- <-. apply (am_bars _ _ _ A), I. }
    apply (store_eq b_tick); [apply OQ| |exact IFF]. split; [apply (srt_shift (shifted k) k), (ok_bars _ O)|]. intros j b I. apply IFF in I. apply (proj2 (ok_bars _ OQ)), I. }
  assert (SQ : score q = map (shifted k) (score p)) by (unfold score; rewrite E, !map_map; reflexivity).
  assert (ST : S_Stretch.stretch (line_moved k p)).
  { assert (UM : 0 < u32_max) by reflexivity. constructor.
    - intros a a' b b' [[-> ->]|[[-> ->]|[(x & I & ->) ->]]] [[-> ->]|[[-> ->]|[(y & J & ->) ->]]]; try (specialize (IN x I) as IX); try (specialize (IN y J) as IY); lia.
    - intros a a' [[-> ->]|[[-> ->]|[(x & I & ->) ->]]]; try (specialize (IN x I) as IX); lia.
    - left. auto.
    - right. left. auto. }
  assert (F : Forall2 (S_Stretch.moved_bar (line_moved k p)) (score p) (score q)).
  { rewrite SQ. assert (G : forall l, (forall b, In b l -> In b (score p)) -> Forall2 (S_Stretch.moved_bar (line_moved k p)) l (map (shifted k) l)).
    { induction l as [|b l IH]; intros H; cbn; constructor; [|apply IH; intros; apply H; right; auto].
      split; [right; right; split; [exists b; split; [apply H; left; auto|reflexivity]|reflexivity]|]. split; reflexivity. }
    apply G. auto. }
  unfold render_project. destruct (am_settings _ _ _ A) as (-> & _).
  destruct (T_Stretch.C75_stretch (line_moved k p) (pj_rhythm p) (score p) (score q) ST F) as [X Y]; [tauto|].
  split; [exact X|]. intros c0 w c' w' E1 E2. apply (Y c0 w c' w' E1 E2).
Qed.
Print Assumptions C100_heard.

(** A score with a repeat, dragged half a bar to the right. *)
Definition repeated : project := mkProject rhythm_default 0 60 [(0, T_Project.ex_note 0 SC)] [(960, T_Repeat.bar_at 960 [Start]); (1920, T_Repeat.bar_at 1920 [End])] [] [] [].
Lemma repeated_ok : project_ok repeated.
Proof. constructor; (split; [repeat constructor; cbn; lia|T_Project.in_list]); first [reflexivity | split; [reflexivity|unfold u32, u32_max; cbn; lia]]. Qed.
Example C100_heard_case : let p := repeated in let m' := later 480 p in exists q c c' w w', project_ok p /\ S_Tuple.moved 480 (contents p) m' /\
  Forall (fun x => u32 (x + 480)) (S_Tuple.all_ticks (contents p)) /\ edits_done p [EChange (pairs (contents p) m')] q /\
  (forall j b, In (j, b) (pj_bars q) -> In (j - 480) (map fst (pj_bars p))) /\
  (forall b, In b (score p) -> 0 < b_tick b < u32_max /\ 0 < b_tick b + 480 < u32_max) /\ S_Repeat.marked Dc (score p) = [] /\
  render_project p = Ret (Ok (c, w)) /\ M_Repeat.to_chunks c = Ret [M_Repeat.mkChunk 0 960; M_Repeat.mkChunk 960 1920; M_Repeat.mkChunk 960 1920; M_Repeat.mkChunk 1920 u32_max] /\
  render_project q = Ret (Ok (c', w')) /\ M_Repeat.to_chunks c' = Ret [M_Repeat.mkChunk 0 1440; M_Repeat.mkChunk 1440 2400; M_Repeat.mkChunk 1440 2400; M_Repeat.mkChunk 2400 u32_max].
Proof.
  intros p m'. assert (F : Forall (fun x => u32 (x + 480)) (S_Tuple.all_ticks (contents p))) by nums.
  do 5 eexists. split; [exact repeated_ok|]. split; [apply later_moved; [nums|from_0|unfold u32, u32_max; lia|exact F]|]. split; [exact F|].
  split; [eapply done_cons; [vm_compute; reflexivity|apply done_nil]|].
  split; [intros j b I; apply (in_map fst) in I; cbn in I; destruct I as [<-|[<-|[]]]; cbn; auto|].
  split; [intros b I; cbn in I; destruct I as [<-|[<-|[]]]; cbn; unfold u32_max; lia|]. split; [vm_compute; reflexivity|].
  split; [vm_compute; reflexivity|]. split; [vm_compute; reflexivity|]. split; [vm_compute; reflexivity|]. vm_compute; reflexivity.
Qed.
