(** Property theorems about writing one more ending behind the endings of a repeat: C87. *)
From Coq Require Import ZArith List Bool Lia Sorted.
From Verif Require Import Base M_Duration M_Scalar M_Bar M_Repeat S_Note S_Repeat S_Twice S_Ending S_Further P_Base P_Chunk P_Machine P_Errors P_Order P_Jump P_Last P_Panic.
From Verif Require Import T_Twice T_Ending.
From Verif Require P_Heard T_Repeat T_Times.
Import ListNotations.
Open Scope Z_scope.

#[local] Hint Resolve all_same same_refl : core.
Lemma further_same k a t f b s sec rest sec' rest' : further k a t f b s sec rest sec' rest' ->
  Forall2 same_bar (section_bars sec ++ rest_bars rest) (section_bars sec' ++ rest_bars rest').
Proof.
  induction 1 as [c us w y y' n n' z q rest V _ SY SN|c us w y y' n n' z c2 rest V _ SY SN|s sec x c rest c' rest' _ IH];
    unfold rest_bars in *; cbn [section_bars flat_map fst snd]; rewrite ?(concat_app (us ++ [w])); cbn [concat]; rewrite ?app_nil_r, <- ?app_assoc, <- ?app_comm_cons, <- ?app_assoc, <- ?app_comm_cons.
  - apply Forall2_app; auto. apply Forall2_app; auto. cbn [app]. constructor; [apply (var_same k); auto|].
    apply Forall2_app; [apply (vars_same k); auto|]. auto.
  - apply Forall2_app; auto. apply Forall2_app; auto. cbn [app]. constructor; [apply (var_same k); auto|].
    apply Forall2_app; [apply (vars_same k); auto|]. auto.
  - apply Forall2_app; auto.
Qed.

(** ** The new score has the documented form *)
Lemma numbered_snoc vs : forall k v, numbered k (vs ++ [v]) <-> numbered k vs /\ numbered (k + Z.of_nat (length vs)) [v].
Proof.
  induction vs as [|u vs IH]; intros k v; cbn [app length].
  - cbn [numbered]. rewrite Z.add_0_r. tauto.
  - cbn [numbered]. rewrite IH. replace (k + 1 + Z.of_nat (length vs)) with (k + Z.of_nat (S (length vs))) by lia. cbn [numbered]. tauto.
Qed.
Lemma further_form k c us w y y' n n' first : is_var k = true -> mark_bit k = 8 + Z.of_nat (length us) -> signed k y y' -> Forall2 (signed k) n n' ->
  Forall no_jump (y :: n) -> Forall no_var (y :: n) -> Forall no_repeat (y :: n) ->
  inside first (Varied c (us ++ [w])) -> inside first (Varied c ((us ++ [w]) ++ [y' :: n'])).
Proof.
  intros K MK SY SN NJ NV NR (A & B & C & D & E & G). cbn [inside]. split; [exact A|]. split; [exact B|]. split; [exact C|].
  assert (L : Z.of_nat (length (us ++ [w])) = Z.of_nat (length us) + 1) by (rewrite app_length; cbn [length]; lia).
  assert (K4 : mark_bit k <= 10) by (destruct k; try discriminate; cbn; lia).
  split; [|split; [destruct us; discriminate|rewrite app_length, Nat2Z.inj_add, L; cbn [length]; lia]].
  apply numbered_snoc. split; [exact D|]. rewrite L. cbn [numbered]. split; [discriminate|].
  assert (SS : Forall2 (signed k) (y :: n) (y' :: n')) by (constructor; auto).
  split; [apply (all_signed no_var _ (signed k) (y :: n)); auto; intros; apply (var_carries k _ b b'); auto; lia|].
  split; [apply (all_signed no_repeat _ (signed k) (y :: n)); auto; intros; apply (var_no_repeat k b b'); auto|].
  split; [|exact I]. apply (all_signed no_jump _ (signed k) (y :: n)); auto; intros; apply (var_no_jump k b b'); auto.
Qed.
Lemma further_laid k a t f b s sec rest sec' rest' : further k a t f b s sec rest sec' rest' -> forall first,
  inside first sec -> follows sec rest -> inside first sec' /\ follows sec' rest'.
Proof.
  induction 1 as [c us w y y' n n' z q rest V MK SY SN _ _ _ NJ _ NN NZ|c us w y y' n n' z c2 rest V MK SY SN _ _ _ NJ _ NN|s sec x c rest c' rest' R IH]; intros first IN F.
  - destruct F as [(B1 & B2 & B3 & B4) [[NR _] F]]. apply Forall_app in NR as [RN RZ]. apply Forall_cons_iff in RZ as [RZ RQ]. split.
    + apply (further_form k c us w y y' n n'); auto. constructor; [split; [exact B2|exact B1]|exact RN].
    + cbn [follows]. split; [|split; [split; [exact RQ|discriminate]|apply (follows_plain (Plain (n ++ z :: q))); auto]].
      destruct RZ as [Z1 Z2]. split; [exact Z2|]. split; [exact Z1|]. split; [exact NZ|discriminate].
  - destruct F as [(B1 & B2 & B3 & B4) [[RN _] F]]. split; [apply (further_form k c us w y y' n n'); auto; constructor; [split; [exact B2|exact B1]|exact RN]|].
    destruct F as [(Z1 & Z2 & Z3 & _) F]. cbn [follows]. split; [|exact F]. split; [exact Z1|]. split; [exact Z2|]. split; [exact Z3|discriminate].
  - split; [exact IN|]. destruct F as [B [IC F]]. destruct (IH false IC F) as [IC' F']. split; [|auto].
    assert (PL : is_plain c' = is_plain c) by (destruct R; reflexivity). destruct B as (B1 & B2 & B3 & B4). unfold boundary. rewrite PL. auto.
Qed.

(** ** The sections with variations *)
Lemma starts_snoc vs v : starts_of (vs ++ [v]) = starts_of vs ++ match hd_error (map b_tick v) with Some t => [t] | None => [] end.
Proof. unfold starts_of. rewrite flat_map_app. cbn [flat_map]. rewrite app_nil_r. destruct v; reflexivity. Qed.
Lemma further_starts k us w y y' n' t f b : signed k y y' -> b_tick y = b -> hd_error (starts_of (us ++ [w])) = Some t -> hd_error (map b_tick w) = Some f ->
  exists l, starts_of (us ++ [w]) = l ++ [f] /\ hd f l = t /\ starts_of ((us ++ [w]) ++ [y' :: n']) = (l ++ [f]) ++ [b].
Proof.
  intros (TY & _) <- HT HF. exists (starts_of us). rewrite (starts_snoc (us ++ [w])), (starts_snoc us w) in *. rewrite HF in *. cbn [map hd_error]. rewrite TY.
  split; [reflexivity|]. split; [|reflexivity]. destruct (starts_of us); cbn in HT |- *; congruence.
Qed.
Lemma spans_snoc l : forall b e, spans (l ++ [b]) e = spans l b ++ [(b, e)].
Proof. induction l as [|a l IH]; intros b e; [reflexivity|]. cbn [app spans]. rewrite IH. destruct l; reflexivity. Qed.
Lemma sorted_snoc l b lo e : StronglySorted Z.lt (l ++ [b]) -> Forall (fun t => lo <= t < e) (l ++ [b]) ->
  StronglySorted Z.lt l /\ Forall (fun t => lo <= t < b) l /\ lo <= b < e.
Proof.
  intros S F. apply Forall_app in F as [F1 F2]. inversion F2 as [|? ? F3 _]; subst. split; [|split; [|exact F3]].
  - clear - S. induction l as [|a l IH]; [constructor|]. cbn [app] in S. inversion S as [|? ? S1 S2]; subst. constructor; [auto|]. apply Forall_app in S2. tauto.
  - clear F3 F2. induction l as [|a l IH]; [constructor|]. cbn [app] in S. inversion S as [|? ? S1 S2]; subst. inversion F1; subst. constructor; [|auto].
    apply Forall_app in S2 as [_ S2]. inversion S2; subst. lia.
Qed.
Lemma last_snoc (l : list Z) b d : last (l ++ [b]) d = b.
Proof. apply last_last. Qed.
Lemma hd_snoc l (f d : Z) : hd d (l ++ [f]) = hd f l.
Proof. destruct l; reflexivity. Qed.
Lemma hd_within l f lo : Forall (fun t => lo <= t < f) l -> lo <= f -> lo <= hd f l <= f.
Proof. intros [|t l' H _] L; cbn; lia. Qed.

(** What is known of the endings in the new score. *)
Lemma further_endings k us w y y' n' t f b lo e : signed k y y' -> b_tick y = b -> hd_error (starts_of (us ++ [w])) = Some t -> hd_error (map b_tick w) = Some f ->
  forall c, starts_in lo e (Varied c ((us ++ [w]) ++ [y' :: n'])) ->
  exists l, starts_of (us ++ [w]) = l ++ [f] /\ starts_of ((us ++ [w]) ++ [y' :: n']) = (l ++ [f]) ++ [b] /\ hd f l = t /\
    starts_in lo b (Varied c (us ++ [w])) /\ lo <= t <= f /\ f < b < e.
Proof.
  intros SY HB HT HF c SI. destruct (further_starts k us w y y' n' t f b SY HB HT HF) as (l & E1 & E2 & E3). exists l. split; [exact E1|]. split; [exact E3|]. split; [exact E2|].
  cbn [starts_in] in SI. rewrite E3 in SI. destruct SI as (_ & S & F). destruct (sorted_snoc _ _ _ _ S F) as (S1 & F1 & L1). destruct (sorted_snoc _ _ _ _ S1 F1) as (S2 & F2 & L2).
  pose proof (hd_within l f lo F2 ltac:(lia)) as H. rewrite E2 in H. split; [|lia]. cbn [starts_in]. rewrite E1. split; [destruct l; discriminate|]. auto.
Qed.

Lemma further_left k a t f b s sec rest sec' rest' i : further k a t f b s sec rest sec' rest' -> forall lo, chain s lo (timed s sec' rest') ->
  left_out (timed s sec' rest') i = left_out (timed s sec rest) i || ((f <=? i) && (i <? b)).
Proof.
  induction 1 as [c us w y y' n n' z q rest V MK SY SN HT HF HB|c us w y y' n n' z c2 rest V MK SY SN HT HF HB|s sec x0 c0 rest c' rest' R IH]; intros lo C; cbn [timed] in C |- *.
  - cbn [chain] in C. destruct C as (_ & _ & _ & SI & _).
    destruct (further_endings k us w y y' n' t f b lo _ SY HB HT HF c SI) as (l & E1 & E3 & E2 & _ & L1 & L2).
    destruct (plain_end (b_tick y) (n ++ z :: q) rest) as (e & more & E & _). destruct (plain_end (b_tick z) q rest) as (e2 & more2 & E' & _).
    assert (EE : more2 = more) by (destruct rest as [|[w0 cw] rest]; cbn [timed] in E, E'; inversion E; inversion E'; congruence). subst more2.
    rewrite E, E'. unfold left_out. cbn [existsb]. rewrite E1, E3, !last_snoc, !hd_snoc, E2. cbn [orb].
    match goal with |- _ || ?m = _ => destruct m end; [rewrite !orb_true_r; reflexivity|]. rewrite !orb_false_r.
    destruct (Z.leb_spec t i), (Z.ltb_spec i b), (Z.ltb_spec i f), (Z.leb_spec f i); cbn; try reflexivity; lia.
  - cbn [chain] in C. destruct C as (_ & _ & _ & SI & _).
    destruct (further_endings k us w y y' n' t f b lo _ SY HB HT HF c SI) as (l & E1 & E3 & E2 & _ & L1 & L2).
    unfold left_out. cbn [existsb]. rewrite E1, E3, !last_snoc, !hd_snoc, E2. cbn [orb].
    match goal with |- _ || ?m = _ => destruct m end; [rewrite !orb_true_r; reflexivity|]. rewrite !orb_false_r.
    destruct (Z.leb_spec t i), (Z.ltb_spec i b), (Z.ltb_spec i f), (Z.leb_spec f i); cbn; try reflexivity; lia.
  - cbn [chain] in C. destruct C as (_ & _ & _ & _ & _ & C). specialize (IH _ C). unfold left_out in *. cbn [existsb]. rewrite IH. apply orb_assoc.
Qed.

Lemma further_varied k a t f b s sec rest sec' rest' : further k a t f b s sec rest sec' rest' -> forall lo, chain s lo (timed s sec' rest') ->
  (exists c vs e, In (a, Varied c vs, e) (timed s sec' rest') /\ a <= t /\ t <= f /\ f < b < e) /\
  forall x c vs e, In (x, Varied c vs, e) (timed s sec' rest') -> In (x, Varied c vs, e) (timed s sec rest) \/
    exists vs0 e0, In (x, Varied c vs0, e0) (timed s sec rest) /\ hd e (starts_of vs) = hd e0 (starts_of vs0) /\ last (starts_of vs0) e0 = f /\ last (starts_of vs) e = b.
Proof.
  induction 1 as [c us w y y' n n' z q rest V MK SY SN HT HF HB|c us w y y' n n' z c2 rest V MK SY SN HT HF HB|s sec x0 c0 rest c' rest' R IH]; intros lo C; cbn [timed] in C |- *.
  - cbn [chain] in C. destruct C as (_ & SL & _ & SI & _).
    destruct (further_endings k us w y y' n' t f b lo _ SY HB HT HF c SI) as (l & E1 & E3 & E2 & _ & L1 & L2). split.
    + exists c, ((us ++ [w]) ++ [y' :: n']), (b_tick z). split; [left; reflexivity|lia].
    + intros x cc vs e [I|I].
      * inversion I; subst. right. exists (us ++ [w]), (b_tick y). split; [left; reflexivity|]. rewrite E1, E3, !last_snoc, !hd_snoc. auto.
      * left. right. destruct rest as [|[w0 cw] rest]; cbn [timed In] in *; intuition congruence.
  - cbn [chain] in C. destruct C as (_ & SL & _ & SI & _).
    destruct (further_endings k us w y y' n' t f b lo _ SY HB HT HF c SI) as (l & E1 & E3 & E2 & _ & L1 & L2). split.
    + exists c, ((us ++ [w]) ++ [y' :: n']), (b_tick z). split; [left; reflexivity|lia].
    + intros x cc vs e [I|I].
      * inversion I; subst. right. exists (us ++ [w]), (b_tick y). split; [left; reflexivity|]. rewrite E1, E3, !last_snoc, !hd_snoc. auto.
      * left. right. right. exact I.
  - cbn [chain] in C. destruct C as (_ & _ & _ & _ & _ & C). destruct (IH _ C) as [(c1 & vs1 & e1 & I1 & L) H]. split.
    + exists c1, vs1, e1. split; [right; exact I1|exact L].
    + intros x c vs e [I|I]; [left; left; exact I|]. destruct (H x c vs e I) as [G|(vs0 & e0 & G & G')]; [left; right; exact G|]. right. exists vs0, e0. split; [right; exact G|exact G'].
Qed.

(** ** What is played *)
Definition again_from (s a t b : Z) (P Q : list Z) : Prop :=
  exists A B, P = A ++ b :: B /\ Q = A ++ from_to a t ++ b :: B /\ (forall i, In i A <-> s <= i < b) /\ s <= a <= t /\ t < b.

Lemma further_section c us w y' n' a b z l f t : starts_of (us ++ [w]) = l ++ [f] -> starts_of ((us ++ [w]) ++ [y' :: n']) = (l ++ [f]) ++ [b] -> hd f l = t ->
  play_section (a, Varied c ((us ++ [w]) ++ [y' :: n']), z) = play_section (a, Varied c (us ++ [w]), b) ++ from_to a t ++ from_to b z.
Proof.
  intros E1 E3 E2. cbn [play_section]. rewrite E1, E3. rewrite !hd_snoc, E2, spans_snoc, flat_map_app. cbn [flat_map fst snd]. rewrite app_nil_r. reflexivity.
Qed.
Lemma further_played k a t f b s sec rest sec' rest' : further k a t f b s sec rest sec' rest' -> forall lo, chain s lo (timed s sec' rest') ->
  again_from s a t b (flat_map play_section (timed s sec rest)) (flat_map play_section (timed s sec' rest')).
Proof.
  induction 1 as [c us w y y' n n' z q rest V MK SY SN HT HF HB|c us w y y' n n' z c2 rest V MK SY SN HT HF HB|s sec x0 c0 rest c' rest' R IH]; intros lo C; cbn [timed] in C |- *.
  - rewrite HB. destruct (plain_end b (n ++ z :: q) rest) as (e & more & E & _). destruct (plain_end (b_tick z) q rest) as (e2 & more2 & E2 & _).
    assert (EE : e2 = e /\ more2 = more) by (destruct rest as [|[w0 cw] rest]; cbn [timed] in E, E2; inversion E; inversion E2; auto). destruct EE as [-> ->].
    rewrite E2 in C |- *. rewrite E. cbn [chain] in C. destruct C as (_ & C1 & C2 & SI & _ & _ & C4 & C5 & _).
    destruct (further_endings k us w y y' n' t f b lo _ SY HB HT HF c SI) as (l & F1 & F3 & F2 & SI' & L1 & L2).
    cbn [flat_map]. rewrite (further_section c us w y' n' a b (b_tick z) l f t F1 F3 F2).
    exists (play_section (a, Varied c (us ++ [w]), b)), (from_to (b + 1) e ++ flat_map play_section more). split; [|split; [|split]].
    + change (play_section (b, Plain (n ++ z :: q), e)) with (from_to b e). rewrite (from_to_cons b e) by lia. reflexivity.
    + change (play_section (b_tick z, Plain q, e)) with (from_to (b_tick z) e). rewrite <- !app_assoc. f_equal. f_equal. rewrite app_assoc, from_to_app by lia. rewrite (from_to_cons b e) by lia. reflexivity.
    + intros i. apply (section_in a lo); auto; lia.
    + lia.
  - cbn [chain] in C. destruct C as (_ & C1 & C2 & SI & _ & _). rewrite HB.
    destruct (further_endings k us w y y' n' t f b lo _ SY HB HT HF c SI) as (l & F1 & F3 & F2 & SI' & L1 & L2).
    cbn [flat_map]. rewrite (further_section c us w y' n' a b (b_tick z) l f t F1 F3 F2).
    exists (play_section (a, Varied c (us ++ [w]), b)), (from_to (b + 1) (b_tick z) ++ flat_map play_section (timed (b_tick z) c2 rest)). split; [|split; [|split]].
    + change (play_section (b, Plain n, b_tick z)) with (from_to b (b_tick z)). rewrite (from_to_cons b (b_tick z)) by lia. reflexivity.
    + rewrite <- !app_assoc. rewrite (from_to_cons b (b_tick z)) by lia. reflexivity.
    + intros i. apply (section_in a lo); auto; lia.
    + lia.
  - cbn [chain] in C. destruct C as (_ & C1 & C2 & SI & _ & C). destruct (IH (b_tick x0 + 1) C) as (A & B & E1 & E2 & G & L).
    exists (play_section (s, sec, b_tick x0) ++ A), B. cbn [flat_map]. rewrite E1, E2, !app_assoc. split; [reflexivity|]. split; [reflexivity|]. split; [|lia].
    intros i. rewrite in_app_iff, G, (section_in s lo) by (auto; lia). lia.
Qed.

(** ** Where things are *)
Lemma further_split k a t f b s sec rest sec' rest' : further k a t f b s sec rest sec' rest' -> exists pre v y post,
  section_bars sec ++ rest_bars rest = pre ++ v ++ y :: post /\ hd_error (map b_tick v) = Some f /\ b_tick y = b /\ Forall no_goal v /\ no_jump y.
Proof.
  induction 1 as [c us w y y' n n' z q rest V MK SY SN HT HF HB NJ NG|c us w y y' n n' z c2 rest V MK SY SN HT HF HB NJ NG|s sec x0 c0 rest c' rest' R IH]; unfold rest_bars in *; cbn [section_bars flat_map fst snd] in *.
  - exists (c ++ concat us), w, y, ((n ++ z :: q) ++ rest_bars rest). rewrite concat_app. cbn [concat]. rewrite app_nil_r, <- !app_assoc. inversion NJ; subst. split; [rewrite <- ?app_comm_cons, <- ?app_assoc; reflexivity|auto].
  - exists (c ++ concat us), w, y, (n ++ rest_bars ((z, c2) :: rest)). rewrite concat_app. cbn [concat]. rewrite app_nil_r, <- !app_assoc. inversion NJ; subst. split; [rewrite <- ?app_comm_cons, <- ?app_assoc; reflexivity|auto].
  - destruct IH as (pre & v & y & post & E & H). exists (section_bars sec ++ x0 :: pre), v, y, post. split; [|exact H].
    rewrite <- app_comm_cons, E, <- app_assoc. reflexivity.
Qed.
Lemma further_goal k a t f b s sec rest sec' rest' : further k a t f b s sec rest sec' rest' ->
  StronglySorted Z.lt (map b_tick (section_bars sec ++ rest_bars rest)) ->
  forall i, In i (marked Segno (section_bars sec ++ rest_bars rest)) -> ~ (f <= i < b).
Proof.
  intros H S i I. destruct (further_split _ _ _ _ _ _ _ _ _ _ H) as (pre & v & y & post & E & HT & HB & NG & _). rewrite E in *.
  unfold marked in I. apply in_map_iff in I as (g & GT & I). apply filter_In in I as [I G].
  destruct v as [|v0 v]; [discriminate|]. cbn in HT. inversion HT; subst.
  apply in_app_iff in I as [I|I]; [|apply in_app_iff in I as [I|I]].
  - cbn [app] in S. destruct (sorted_parts _ _ _ S) as [P _]. apply P in I. lia.
  - rewrite Forall_forall in NG. apply NG in I. unfold no_goal in I. congruence.
  - rewrite app_assoc in S. destruct (sorted_parts _ _ _ S) as [_ P]. destruct I as [<-|I]; [lia|]. apply P in I. lia.
Qed.
Lemma further_segno k a t f b l l' : further k a t f b 0 (fst l) (snd l) (fst l') (snd l') -> chain 0 0 (timed_layout l') -> tune (layout_bars l) ->
  segno_ok (layout_bars l) (timed_layout l) -> segno_ok (layout_bars l') (timed_layout l').
Proof.
  intros H C T S x c vs e i I M. destruct (further_varied _ _ _ _ _ _ _ _ _ _ H 0 C) as [_ V].
  rewrite (same_marked (layout_bars l) (layout_bars l') Segno (further_same _ _ _ _ _ _ _ _ _ _ H)) in M by (cbn; auto).
  apply V in I as [I|(vs0 & e0 & I & H1 & H2 & H3)]; [exact (S x c vs e i I M)|].
  pose proof (S x c vs0 e0 i I M) as N. rewrite H1, H3. rewrite H2 in N. pose proof (further_goal _ _ _ _ _ _ _ _ _ _ H (proj1 T) i M). lia.
Qed.

Lemma again_until a t b P Q d : again_before a t b P Q -> 0 <= a <= t -> t < b -> b < d -> again_before a t b (until d P) (until d Q).
Proof.
  intros (A & B & -> & -> & G) L L2 D. exists A, (until d B).
  assert (NA : ~ In d A) by (rewrite G; lia). assert (N1 : ~ In d (from_to a t)) by (rewrite from_to_In; lia).
  rewrite !until_app by auto. cbn [until]. replace (b =? d) with false by lia. auto.
Qed.
Lemma again_earlier a t b P Q d : again_before a t b P Q -> 0 <= d < b -> until d P = until d Q.
Proof. intros (A & B & -> & -> & G) D. assert (I : In d A) by (apply G; lia). rewrite !P_Heard.until_prefix by exact I. reflexivity. Qed.

(** * C87 *)

(** One more ending in a score without D.C. and D.S.: in front of it the passage before the endings is heard once more, all else is
    as it was. *)
Theorem C87_further : forall r k l l' a t f b, let bars := layout_bars l in
  well_laid l -> tune bars -> counts_ok bars -> segno_ok bars (timed_layout l) -> marked Dc bars = [] -> marked Ds bars = [] ->
  further k a t f b 0 (fst l) (snd l) (fst l') (snd l') ->
  exists c cs c' cs', render_region r bars = Ret (Ok (c, [])) /\ to_chunks c = Ret cs /\
    render_region r (layout_bars l') = Ret (Ok (c', [])) /\ to_chunks c' = Ret cs' /\
    again_before a t b (performance cs) (performance cs').
Proof.
  intros r k l l' a t f b bars W T C S A B H. pose proof (further_same _ _ _ _ _ _ _ _ _ _ H) as SB. fold (layout_bars l) (layout_bars l') in SB.
  assert (W' : well_laid l') by (destruct W as [I F]; exact (further_laid _ _ _ _ _ _ _ _ _ _ H true I F)).
  pose proof (same_tune _ _ SB T) as T'. pose proof (layout_chain l' W' T') as CH.
  destruct (T_Repeat.C42_plays r l W T C S A B) as (c & cs & R & K & P).
  destruct (T_Repeat.C42_plays r l' W' T' (same_counts _ _ SB C)) as (c' & cs' & R' & K' & P').
  - apply (further_segno k a t f b l l' H CH T S).
  - rewrite (same_marked _ _ Dc SB) by (cbn; auto 10). exact A.
  - rewrite (same_marked _ _ Ds SB) by (cbn; auto 10). exact B.
  - exists c, cs, c', cs'. split; [exact R|]. split; [exact K|]. split; [exact R'|]. split; [exact K'|]. rewrite P, P'.
    destruct (further_played _ _ _ _ _ _ _ _ _ _ H 0 CH) as (X & Y & E1 & E2 & G & _). exists X, Y. auto.
Qed.
Print Assumptions C87_further.

(** With a jump at [d]: this holds for the first pass if the jump is behind the new ending, and if it is before the repeat the first
    pass does not change.  The last pass now leaves out what was the last ending. *)
Theorem C87_jump : forall r k l l' a t f b d s, let bars := layout_bars l in
  well_laid l -> tune bars -> counts_ok bars -> segno_ok bars (timed_layout l) -> top_clear bars -> top_clear (layout_bars l') -> jump_outside l ->
  small_first bars -> jump (actual_top (full_bar r bars)) bars d s -> codas_ok s bars ->
  further k a t f b 0 (fst l) (snd l) (fst l') (snd l') ->
  exists c cs c' cs' first first' second, render_region r bars = Ret (Ok (c, warnings_of bars)) /\ to_chunks c = Ret cs /\
    render_region r (layout_bars l') = Ret (Ok (c', warnings_of bars)) /\ to_chunks c' = Ret cs' /\
    performance cs = first ++ second /\ performance cs' = first' ++ filter (fun i => negb ((f <=? i) && (i <? b))) second /\
    StronglySorted Z.lt second /\
    (b < d /\ again_before a t b first first' \/ d <= a /\ first = first').
Proof.
  intros r k l l' a t f b d s bars W T C S TC TC' JO SF J CO H. pose proof (further_same _ _ _ _ _ _ _ _ _ _ H) as SB. fold (layout_bars l) (layout_bars l') in SB.
  assert (W' : well_laid l') by (destruct W as [I F]; exact (further_laid _ _ _ _ _ _ _ _ _ _ H true I F)).
  pose proof (same_tune _ _ SB T) as T'. pose proof (layout_chain l' W' T') as CH.
  assert (JO' : jump_outside l').
  { unfold jump_outside in *. destruct l as [sec rest], l' as [sec' rest']. cbn [fst snd] in *.
    destruct H as [c us w y y' n n' z q rest V MK SY SN _ _ _ NJ|c us w y y' n n' z c2 rest V MK SY SN _ _ _ NJ|]; auto; intros _; specialize (JO eq_refl); cbn [section_bars] in *;
      apply Forall_app in JO as [J1 J2]; apply Forall_app; (split; [exact J1|]); rewrite concat_app; apply Forall_app; (split; [exact J2|]);
      cbn [concat]; rewrite app_nil_r; apply (all_signed no_jump _ (signed k) (y :: n)); auto; intros; apply (var_no_jump k b0 b'); auto. }
  destruct (T_Repeat.C43_plays r l d s W T C S TC JO SF J CO) as (c & cs & R & K & P).
  assert (FB : full_bar r (layout_bars l') = full_bar r bars) by (unfold full_bar; rewrite (same_top _ _ r SB); reflexivity).
  destruct (T_Repeat.C43_plays r l' d s W' T' (same_counts _ _ SB C)) as (c' & cs' & R' & K' & P'); auto.
  - apply (further_segno k a t f b l l' H CH T S).
  - intros g. rewrite (same_first _ _ SB). apply SF.
  - rewrite FB. apply (same_jump _ _ _ _ _ SB J).
  - apply (same_codas _ _ _ SB CO).
  - exists c, cs, c', cs', (until d (play l)), (until d (play l')), (second_pass l s (hd_error (marked Fine bars)) (pair_of (marked Coda bars))).
    rewrite (same_warnings _ _ SB) in R'. rewrite !(same_marked _ _ _ SB) in P' by (cbn; auto 10).
    split; [exact R|]. split; [exact K|]. split; [exact R'|]. split; [exact K'|]. split; [exact P|]. split.
    { rewrite P'. f_equal. unfold second_pass. rewrite filter_twice. apply filter_ext. intros i.
      unfold timed_layout. rewrite (further_left _ _ _ _ _ _ _ _ _ _ i H 0 CH). rewrite negb_orb, andb_assoc. reflexivity. }
    split; [apply (T_Repeat.C43_second l s)|].
    destruct (further_played _ _ _ _ _ _ _ _ _ _ H 0 CH) as (X & Y & E1 & E2 & G & L1 & L2).
    assert (OL : again_before a t b (play l) (play l')) by (exists X, Y; auto).
    destruct (jump_bar _ _ _ _ (same_jump _ _ _ _ _ SB J)) as [j [BI [BD BN]]]. pose proof (tune_tick _ _ T' BI) as BT.
    assert (DO : b < d \/ d <= a).
    { destruct (Z.lt_ge_cases b d); [auto|]. destruct (Z.le_gt_cases d a); [auto|]. exfalso.
      assert (JC : jump_clear d (timed_layout l')).
      { destruct W' as [I1 F1]. apply (inside_plain (snd l') (fst l') true); auto. exists j. auto. }
      destruct (further_varied _ _ _ _ _ _ _ _ _ _ H 0 CH) as [(c0 & vs0 & e0 & NW & L) _].
      specialize (JC _ _ _ NW ltac:(lia)). discriminate. }
    destruct DO; [left|right]; (split; [assumption|]).
    + apply again_until; auto; lia.
    + apply (again_earlier a t b); auto; lia.
Qed.
Print Assumptions C87_jump.

(** ** The same for the bars *)
Lemma split_by (P : bar -> Prop) a : forall b c d, a ++ b = c ++ d -> Forall P a -> Forall P c -> Forall (fun x => ~ P x) b -> Forall (fun x => ~ P x) d -> a = c /\ b = d.
Proof.
  induction a as [|x a IH]; intros b [|x' c] d E A C B D; cbn [app] in E.
  - auto.
  - subst b. inversion C; subst. inversion B; subst. contradiction.
  - subst d. inversion A; subst. inversion D; subst. contradiction.
  - inversion E; subst. inversion A; subst. inversion C; subst. destruct (IH b c d) as [-> ->]; auto.
Qed.
Lemma early_split (P : bar -> Prop) V p y r : Forall (fun x => ~ P x) V -> P y -> forall c, c ++ V = p ++ y :: r -> exists r', c = p ++ y :: r'.
Proof.
  intros NV PY. induction p as [|x p IH]; intros [|x' c] E; cbn [app] in E.
  - subst V. inversion NV. contradiction.
  - inversion E; subst. exists c. reflexivity.
  - exfalso. subst V. rewrite Forall_forall in NV. apply (NV y); auto. right. apply in_elt.
  - inversion E; subst. destruct (IH c H1) as [r' ->]. exists r'. reflexivity.
Qed.
Lemma carries_var k b : carries k b -> 1 <= k <= 4 -> ~ no_var b.
Proof.
  intros H K N. assert (exists m, is_var m = true /\ mark_bit m = 6 + k) as (m & V & B).
  { destruct (Z.eq_dec k 1); [exists Var1; split; [reflexivity|subst; reflexivity]|]. destruct (Z.eq_dec k 2); [exists Var2; split; [reflexivity|subst; reflexivity]|].
    destruct (Z.eq_dec k 3); [exists Var3; split; [reflexivity|subst; reflexivity]|]. exists Var4. split; [reflexivity|]. assert (k = 4) as -> by lia. reflexivity. }
  specialize (H m V). rewrite (N m V), B, Z.eqb_refl in H. discriminate.
Qed.
Lemma numbered_vars vs : forall k, numbered k vs -> 1 <= k -> k + Z.of_nat (length vs) <= 5 -> Forall (fun b => ~ no_var b) (concat vs).
Proof.
  induction vs as [|v vs IH]; intros k N K L; cbn [concat]; [constructor|]. destruct N as (_ & C & _ & _ & N). cbn [length] in L. apply Forall_app. split.
  - eapply Forall_impl; [|exact C]. intros b H. apply (carries_var k b H). lia.
  - apply (IH (k + 1)); auto; lia.
Qed.
Lemma numbered_without vs j : forall k, is_var j = true -> numbered k vs -> 6 + k + Z.of_nat (length vs) <= mark_bit j -> Forall (fun b => has b j = false) (concat vs).
Proof.
  induction vs as [|v vs IH]; intros k V N L; cbn [concat]; [constructor|]. destruct N as (_ & C & _ & _ & N). cbn [length] in L. apply Forall_app. split.
  - eapply Forall_impl; [|exact C]. intros b H. rewrite (H j V). lia.
  - apply (IH (k + 1)); auto; lia.
Qed.
(** The last of the endings is the bars with its mark. *)
Lemma last_ending vs u w j : numbered 1 vs -> vs <> [] -> is_var j = true -> concat vs = u ++ w -> w <> [] ->
  Forall (fun b => has b j = true) w -> Forall (fun b => has b j = false) u ->
  exists us, vs = us ++ [w] /\ concat us = u /\ mark_bit j = 7 + Z.of_nat (length us).
Proof.
  intros N NE V E NW W U. destruct (exists_last NE) as (us & w0 & ->). apply numbered_snoc in N as [N1 (N2 & N3 & _)].
  rewrite concat_app in E. cbn [concat] in E. rewrite app_nil_r in E.
  destruct (exists_last NW) as (w1 & x & EW). destruct (exists_last N2) as (w2 & x2 & EW2).
  assert (EX : x = x2). { rewrite EW, EW2, !app_assoc in E. apply app_inj_tail in E. destruct E. auto. }
  assert (MK : mark_bit j = 7 + Z.of_nat (length us)).
  { rewrite EW in W. apply Forall_app in W as [_ W]. inversion W as [|? ? W1 _]; subst. apply Forall_app in N3 as [_ N3]. inversion N3 as [|? ? N4 _]; subst.
    rewrite (N4 j V) in W1. lia. }
  destruct (split_by (fun b => has b j = false) (concat us) w0 u w E) as [E1 E2]; auto.
  - apply (numbered_without us j 1); auto. lia.
  - eapply Forall_impl; [|exact N3]. intros b H. rewrite (H j V). lia.
  - eapply Forall_impl; [|exact W]. intros b H. cbn beta in H. congruence.
  - exists us. rewrite E2. auto.
Qed.
Lemma first_start vs k : numbered k vs -> hd_error (starts_of vs) = hd_error (map b_tick (concat vs)).
Proof. destruct vs as [|[|b v] vs]; intros N; [reflexivity| |reflexivity]. destruct N as (N & _). congruence. Qed.

Section Find.
  Context (k j : mark) (m u w : list bar) (y y' : bar) (n n' : list bar) (z : bar) (q : list bar) (t f : Z).
  Hypothesis JV : is_var j = true.
  Hypothesis KV : is_var k = true.
  Hypothesis KJ : mark_bit k = mark_bit j + 1.
  Hypothesis SY : signed k y y'.
  Hypothesis SN : Forall2 (signed k) n n'.
  Hypothesis HT : hd_error (map b_tick (u ++ w)) = Some t.
  Hypothesis HF : hd_error (map b_tick w) = Some f.
  Hypothesis NJ : Forall no_jump (y :: n).
  Hypothesis NG : Forall no_goal w.
  Hypothesis BM : Forall bare m.
  Hypothesis VU : Forall (fun b => no_repeat b /\ ~ no_var b) (u ++ w).
  Hypothesis WJ : Forall (fun b => has b j = true) w.
  Hypothesis UJ : Forall (fun b => has b j = false) u.
  Hypothesis BN : Forall bare (y :: n).
  Hypothesis ZV : no_var z.

  Lemma find_endings sec rest first s : inside first sec -> follows sec rest -> (first = true \/ is_plain sec = false) ->
    section_bars sec ++ rest_bars rest = m ++ u ++ w ++ y :: n ++ z :: q ->
    exists sec' rest', further k s t f (b_tick y) s sec rest sec' rest' /\ section_bars sec' ++ rest_bars rest' = m ++ u ++ w ++ y' :: n' ++ z :: q.
  Proof.
    intros IN F FP E. rewrite (app_assoc u), (app_assoc m) in E.
    assert (NW : w <> []) by (intros ->; discriminate).
    assert (BY : bare y /\ Forall bare n) by (inversion BN; auto). destruct BY as [BY BNN].
    assert (NM : Forall no_var m) by (eapply Forall_impl; [|exact BM]; intros ? []; auto).
    assert (XW : exists b, In b w /\ ~ no_var b).
    { destruct w as [|b w0] eqn:EW; [congruence|]. exists b. split; [left; reflexivity|]. apply Forall_app in VU as [_ V]. inversion V; tauto. }
    assert (NO : Forall no_var (m ++ u ++ w) -> False).
    { intros H. destruct XW as (b & I & N). apply N. rewrite Forall_forall in H. apply H. rewrite !in_app_iff. auto. }
    assert (NS : forall b, In b (m ++ u ++ w) -> no_repeat b).
    { intros b I. apply in_app_iff in I as [I|I]; [rewrite Forall_forall in BM; destruct (BM b I); auto|rewrite Forall_forall in VU; destruct (VU b I); auto]. }
    assert (LONG : forall l r0, section_bars sec = (m ++ u ++ w) ++ r0 -> section_bars sec = l -> Forall no_var l -> False).
    { intros l r0 E1 E2 H. rewrite <- E2, E1 in H. apply Forall_app in H as [H _]. auto. }
    destruct rest as [|[b c] rest].
    { cbn [follows] in F. destruct sec as [l|l|cm vs]; try discriminate. destruct FP as [->|FP]; [|discriminate]. exfalso.
      cbn [rest_bars flat_map section_bars] in E. rewrite app_nil_r in E. destruct IN as [_ IN]. apply (LONG l (y :: n ++ z :: q)); auto. }
    destruct F as [(B1 & B2 & B3 & B4) [IC F]]. unfold rest_bars in E. cbn [flat_map fst snd] in E. fold (rest_bars rest) in E. rewrite <- app_comm_cons in E.
    assert (SG : exists vs, sec = Varied m vs /\ concat vs = u ++ w /\ b = y /\ section_bars c ++ rest_bars rest = n ++ z :: q).
    { destruct (split_three _ _ _ _ _ _ E) as [(r0 & E1 & _)|[(E1 & E2 & E3)|(r0 & E1 & _)]].
      - exfalso. destruct sec as [l|l|cm vs].
        + destruct FP as [->|FP]; [|discriminate]. destruct IN as [_ IN]. apply (LONG l (y :: r0)); auto.
        + destruct IN as (_ & IN & _). apply (LONG l (y :: r0)); auto.
        + destruct IN as (_ & NC & _ & NU & NE & LE). pose proof (numbered_vars vs 1 NU ltac:(lia) ltac:(lia)) as SV. cbn [section_bars] in E1.
          destruct (early_split no_var (concat vs) (m ++ u ++ w) y r0 SV (proj2 BY) cm E1) as [r1 E2]. rewrite E2 in NC. apply Forall_app in NC. tauto.
      - subst b. destruct sec as [l|l|cm vs].
        + exfalso. destruct FP as [->|FP]; [|discriminate]. destruct IN as [_ IN]. apply (LONG l []); auto. rewrite app_nil_r. auto.
        + exfalso. destruct IN as (_ & IN & _). apply (LONG l []); auto. rewrite app_nil_r. auto.
        + destruct IN as (_ & NC & _ & NU & NE & LE). pose proof (numbered_vars vs 1 NU ltac:(lia) ltac:(lia)) as SV. cbn [section_bars] in E1.
          destruct (split_by no_var cm (concat vs) m (u ++ w) E1) as [-> EV]; auto. { eapply Forall_impl; [|exact VU]. tauto. }
          exists vs. auto.
      - exfalso. assert (IB : In b (m ++ u ++ w)) by (rewrite E1; apply in_elt). pose proof (NS b IB) as [NB1 NB2].
        destruct sec as [l|l|cm vs].
        + specialize (B4 eq_refl). rewrite B4 in B2. cbn [negb] in B2. congruence.
        + cbn [is_repeated] in B1. congruence.
        + destruct IN as (_ & NC & _ & NU & NE & LE). destruct (varied_first 1 vs NU NE) as (z0 & w0 & EC & _).
          pose proof (numbered_vars vs 1 NU ltac:(lia) ltac:(lia)) as SV. cbn [section_bars] in E1. rewrite EC in *. inversion SV as [|? ? SV1 _]; subst.
          assert (VV : Forall (fun x => ~ no_var x) (u ++ w)) by (eapply Forall_impl; [|exact VU]; tauto).
          destruct (early_split no_var (u ++ w) (cm ++ z0 :: w0) b r0 VV B3 m E1) as [r1 E2]. rewrite E2 in NM. apply Forall_app in NM as [NM _].
          apply Forall_app in NM as [_ NM]. inversion NM; contradiction. }
    destruct SG as (vs & -> & EV & -> & E3). assert (PC : is_plain c = true) by (destruct BY as [[BY _] _]; rewrite BY in B2; destruct (is_plain c); [reflexivity|discriminate]).
    destruct c as [l| |]; try discriminate. cbn [section_bars] in E3. destruct IN as (_ & NC & _ & NU & NE & LE).
    destruct (last_ending vs u w j NU NE JV EV NW WJ UJ) as (us & -> & EU & MK).
    assert (MK2 : mark_bit k = 8 + Z.of_nat (length us)) by lia.
    assert (HT2 : hd_error (starts_of (us ++ [w])) = Some t) by (rewrite (first_start _ 1 NU), EV; exact HT).
    assert (NN : Forall no_var n) by (eapply Forall_impl; [|exact BNN]; intros ? []; auto).
    assert (IN1 : forall q1, l = n ++ z :: q1 -> q = q1 ++ rest_bars rest -> exists sec' rest',
      further k s t f (b_tick y) s (Varied m (us ++ [w])) ((y, Plain l) :: rest) sec' rest' /\ section_bars sec' ++ rest_bars rest' = m ++ u ++ w ++ y' :: n' ++ z :: q).
    { intros q1 -> ->. exists (Varied m ((us ++ [w]) ++ [y' :: n'])), ((z, Plain q1) :: rest). split; [apply further_inside; auto|].
      unfold rest_bars. cbn [section_bars flat_map fst snd]. rewrite concat_app, EV. cbn [concat]. rewrite ?app_nil_r, <- ?app_assoc, <- ?app_comm_cons, <- ?app_assoc. reflexivity. }
    destruct rest as [|[b3 c3] rest].
    - cbn [rest_bars flat_map] in *. rewrite app_nil_r in E3. apply (IN1 q); auto. rewrite app_nil_r. reflexivity.
    - destruct F as [(Z1 & Z2 & Z3 & Z4) F]. unfold rest_bars in E3. cbn [flat_map fst snd] in E3. fold (rest_bars rest) in E3. rewrite <- app_comm_cons in E3.
      destruct (split_three _ _ _ _ _ _ E3) as [(r0 & E4 & E5)|[(E4 & E5 & E6)|(r0 & E4 & _)]].
      + apply (IN1 r0); auto.
      + subst l b3. exists (Varied m ((us ++ [w]) ++ [y' :: n'])), ((z, c3) :: rest). split; [apply further_at; auto|].
        unfold rest_bars. cbn [section_bars flat_map fst snd]. rewrite concat_app, EV. cbn [concat]. rewrite <- E6. rewrite ?app_nil_r, <- ?app_assoc, <- ?app_comm_cons, <- ?app_assoc. reflexivity.
      + exfalso. rewrite E4 in BNN. apply Forall_app in BNN as [_ BB]. apply Forall_cons_iff in BB as [BB _]. specialize (Z4 eq_refl). rewrite Z4 in Z2. apply (start_sign b3 Z2 BB).
  Qed.

  Lemma find_further rest : forall sec first s p x, inside first sec -> follows sec rest -> has x Start = true ->
    section_bars sec ++ rest_bars rest = p ++ x :: m ++ u ++ w ++ y :: n ++ z :: q ->
    exists sec' rest', further k (b_tick x) t f (b_tick y) s sec rest sec' rest' /\ section_bars sec' ++ rest_bars rest' = p ++ x :: m ++ u ++ w ++ y' :: n' ++ z :: q.
  Proof.
    induction rest as [|[b c] rest IH]; intros sec first s p x IN F XS E; pose proof (inner_no_repeat _ _ IN) as NR; rewrite Forall_forall in NR.
    - cbn [rest_bars flat_map] in E. rewrite app_nil_r in E. exfalso. destruct (NR x) as [N _]; [rewrite E; apply in_elt|congruence].
    - destruct F as [B [IC F]]. unfold rest_bars in E. cbn [flat_map fst snd] in E. fold (rest_bars rest) in E. rewrite <- app_comm_cons in E.
      destruct (split_three _ _ _ _ _ _ E) as [(r0 & E1 & _)|[(E1 & E2 & E3)|(r0 & E1 & E2)]].
      + exfalso. destruct (NR x) as [N _]; [rewrite E1; apply in_elt|congruence].
      + subst p b. assert (PC : is_plain c = false) by (destruct B as (_ & B2 & _); rewrite XS in B2; destruct (is_plain c); [discriminate|reflexivity]).
        destruct (find_endings c rest false (b_tick x) IC F (or_intror PC) E3) as (c' & rest' & H & E').
        exists sec, ((x, c') :: rest'). split; [apply further_later; exact H|]. unfold rest_bars. cbn [flat_map fst snd]. fold (rest_bars rest').
        rewrite <- ?app_comm_cons, E'. reflexivity.
      + subst p. destruct (IH c false (b_tick b) r0 x IC F XS E2) as (c' & rest' & H & E').
        exists sec, ((b, c') :: rest'). split; [apply further_later; exact H|]. unfold rest_bars. cbn [flat_map fst snd]. fold (rest_bars rest').
        rewrite <- ?app_comm_cons, E', <- ?app_assoc, <- ?app_comm_cons. reflexivity.
  Qed.
End Find.

Lemma ending_bars bars u w j p q : Forall compatible bars -> bars = p ++ (u ++ w) ++ q -> is_var j = true ->
  Forall (fun b => ~ no_var b) u -> Forall (fun b => has b j = true) w -> Forall (fun b => no_repeat b /\ ~ no_var b) (u ++ w).
Proof.
  intros F -> V U W. apply Forall_app in F as [_ F]. apply Forall_app in F as [F _].
  assert (X : Forall (fun b => ~ no_var b) (u ++ w)).
  { apply Forall_app. split; [exact U|]. eapply Forall_impl; [|exact W]. intros b H N. cbn beta in H. rewrite (N j V) in H. discriminate. }
  rewrite Forall_forall in *. intros b I. split; [|auto]. specialize (F b I). specialize (X b I).
  assert (N : forall g, g = Start \/ g = End -> has b g = false).
  { intros g G. destruct (has b g) eqn:HG; [|reflexivity]. exfalso. apply X. intros x VX. destruct (has b x) eqn:HX; [|reflexivity]. exfalso.
    specialize (F x g VX HX HG). destruct x; try discriminate; destruct G as [->| ->]; discriminate. }
  split; apply N; auto.
Qed.

(** The endings of a repeat in an accepted score without D.C. and D.S., from its Start sign on: the bars [u] and then the bars [w], the
    last ending.  If the bars behind them, up to a bar without a variation mark, are marked as the next ending, the
    score is accepted, and the passage before the endings is heard once more in front of what is now the last. *)
Theorem C87_signs : forall r k j p x m u w y y' n n' z q t c wa, let bars := p ++ x :: m ++ u ++ w ++ y :: n ++ z :: q in
  tune bars -> Forall compatible bars -> marked Dc bars = [] -> marked Ds bars = [] -> render_region r bars = Ret (Ok (c, wa)) ->
  has x Start = true -> idle m -> idle (y :: n) -> is_var j = true -> is_var k = true -> mark_bit k = mark_bit j + 1 ->
  Forall (fun b => ~ no_var b /\ has b j = false) u -> Forall (fun b => has b j = true) w -> w <> [] ->
  no_var z -> Forall no_goal w -> hd_error (map b_tick (u ++ w)) = Some t -> signed k y y' -> Forall2 (signed k) n n' ->
  exists cs c' cs', to_chunks c = Ret cs /\ render_region r (p ++ x :: m ++ u ++ w ++ y' :: n' ++ z :: q) = Ret (Ok (c', [])) /\ to_chunks c' = Ret cs' /\
    again_before (b_tick x) t (b_tick y) (performance cs) (performance cs').
Proof.
  intros r k j p x m u w y y' n n' z q t c wa bars T F A B R XS BM BN JV KV KJ U WJ NW ZV NG HT SY SN.
  destruct (render_sound r bars c wa T F R) as (C & l & gr & W & LB & S & _).
  assert (VU : Forall (fun b => no_repeat b /\ ~ no_var b) (u ++ w)).
  { apply (ending_bars bars u w j (p ++ x :: m) (y :: n ++ z :: q)); auto; [unfold bars; rewrite <- ?app_assoc, <- ?app_comm_cons, <- ?app_assoc; reflexivity|]. eapply Forall_impl; [|exact U]. intros b []. assumption. }
  assert (UJ : Forall (fun b => has b j = false) u) by (eapply Forall_impl; [|exact U]; intros b []; assumption).
  assert (HF : exists f, hd_error (map b_tick w) = Some f) by (destruct w; [congruence|eexists; reflexivity]). destruct HF as [f HF].
  assert (NJ : Forall no_jump (y :: n)).
  { pose proof (no_marks bars A B) as J. unfold bars in J. apply Forall_app in J as [_ J]. apply Forall_cons_iff in J as [_ J]. do 3 apply Forall_app in J as [_ J].
    change (y :: n ++ z :: q) with ((y :: n) ++ z :: q) in J. apply Forall_app in J. tauto. }
  destruct W as [IN FO]. destruct l as [sec rest]. cbn [fst snd] in *.
  destruct (find_further k j m u w y y' n n' z q t f JV KV KJ SY SN HT HF NJ NG BM VU WJ UJ BN ZV rest sec true 0 p x IN FO XS LB) as (sec' & rest' & H & LB').
  rewrite <- LB in T, C, S, A, B.
  destruct (C87_further r k (sec, rest) (sec', rest') _ _ _ _ (conj IN FO) T C S A B H) as (c0 & cs & c' & cs' & R0 & K & R' & K' & P).
  rewrite LB in R0. rewrite R in R0. inversion R0; subst c0. exists cs, c', cs'. unfold layout_bars in R'. cbn [fst snd] in R'. rewrite LB' in R'. auto.
Qed.
Print Assumptions C87_signs.

(** The same for a repeat from the beginning, whose start is not written. *)
Theorem C87_top : forall r k j m u w y y' n n' z q t c wa, let bars := m ++ u ++ w ++ y :: n ++ z :: q in
  tune bars -> Forall compatible bars -> marked Dc bars = [] -> marked Ds bars = [] -> render_region r bars = Ret (Ok (c, wa)) ->
  idle m -> idle (y :: n) -> is_var j = true -> is_var k = true -> mark_bit k = mark_bit j + 1 ->
  Forall (fun b => ~ no_var b /\ has b j = false) u -> Forall (fun b => has b j = true) w -> w <> [] ->
  no_var z -> Forall no_goal w -> hd_error (map b_tick (u ++ w)) = Some t -> signed k y y' -> Forall2 (signed k) n n' ->
  exists cs c' cs', to_chunks c = Ret cs /\ render_region r (m ++ u ++ w ++ y' :: n' ++ z :: q) = Ret (Ok (c', [])) /\ to_chunks c' = Ret cs' /\
    again_before 0 t (b_tick y) (performance cs) (performance cs').
Proof.
  intros r k j m u w y y' n n' z q t c wa bars T F A B R BM BN JV KV KJ U WJ NW ZV NG HT SY SN.
  destruct (render_sound r bars c wa T F R) as (C & l & gr & W & LB & S & _).
  assert (VU : Forall (fun b => no_repeat b /\ ~ no_var b) (u ++ w)).
  { apply (ending_bars bars u w j m (y :: n ++ z :: q)); auto; [unfold bars; rewrite <- ?app_assoc, <- ?app_comm_cons, <- ?app_assoc; reflexivity|]. eapply Forall_impl; [|exact U]. intros b []. assumption. }
  assert (UJ : Forall (fun b => has b j = false) u) by (eapply Forall_impl; [|exact U]; intros b []; assumption).
  assert (HF : exists f, hd_error (map b_tick w) = Some f) by (destruct w; [congruence|eexists; reflexivity]). destruct HF as [f HF].
  assert (NJ : Forall no_jump (y :: n)).
  { pose proof (no_marks bars A B) as J. unfold bars in J. do 3 apply Forall_app in J as [_ J].
    change (y :: n ++ z :: q) with ((y :: n) ++ z :: q) in J. apply Forall_app in J. tauto. }
  destruct W as [IN FO]. destruct l as [sec rest]. cbn [fst snd] in *.
  destruct (find_endings k j m u w y y' n n' z q t f JV KV KJ SY SN HT HF NJ NG BM VU WJ UJ BN ZV sec rest true 0 IN FO (or_introl eq_refl) LB) as (sec' & rest' & H & LB').
  rewrite <- LB in T, C, S, A, B.
  destruct (C87_further r k (sec, rest) (sec', rest') _ _ _ _ (conj IN FO) T C S A B H) as (c0 & cs & c' & cs' & R0 & K & R' & K' & P).
  rewrite LB in R0. rewrite R in R0. inversion R0; subst c0. exists cs, c', cs'. unfold layout_bars in R'. cbn [fst snd] in R'. rewrite LB' in R'. auto.
Qed.
Print Assumptions C87_top.

(** With a jump at [d]; what was the last ending starts at [f]. *)
Theorem C87_signs_jump : forall r k j p x m u w y y' n n' z q t f c wa cs d s, let bars := p ++ x :: m ++ u ++ w ++ y :: n ++ z :: q in
  tune bars -> Forall compatible bars -> implicit_clear bars -> small_first bars -> render_region r bars = Ret (Ok (c, wa)) -> to_chunks c = Ret cs ->
  jump (actual_top (full_bar r bars)) bars d s ->
  has x Start = true -> idle m -> idle (y :: n) -> Forall no_jump (y :: n) -> is_var j = true -> is_var k = true -> mark_bit k = mark_bit j + 1 ->
  Forall (fun b => ~ no_var b /\ has b j = false) u -> Forall (fun b => has b j = true) w -> hd_error (map b_tick w) = Some f ->
  no_var z -> Forall no_goal w -> hd_error (map b_tick (u ++ w)) = Some t -> signed k y y' -> Forall2 (signed k) n n' ->
  exists c' cs' first first' second, render_region r (p ++ x :: m ++ u ++ w ++ y' :: n' ++ z :: q) = Ret (Ok (c', wa)) /\ to_chunks c' = Ret cs' /\
    performance cs = first ++ second /\ performance cs' = first' ++ filter (fun i => negb ((f <=? i) && (i <? b_tick y))) second /\
    StronglySorted Z.lt second /\
    (b_tick y < d /\ again_before (b_tick x) t (b_tick y) first first' \/ d <= b_tick x /\ first = first').
Proof.
  intros r k j p x m u w y y' n n' z q t f c wa cs d s bars T F IC SF R TC J XS BM BN NJ JV KV KJ U WJ HF ZV NG HT SY SN.
  destruct (render_sound r bars c wa T F R) as (C & l & gr & W & LB & S & -> & B).
  destruct (proj1 (chunks_return r bars _ wa T F R) (ex_intro _ cs TC) d s J) as [TCL _].
  assert (VU : Forall (fun b => no_repeat b /\ ~ no_var b) (u ++ w)).
  { apply (ending_bars bars u w j (p ++ x :: m) (y :: n ++ z :: q)); auto; [unfold bars; rewrite <- ?app_assoc, <- ?app_comm_cons, <- ?app_assoc; reflexivity|]. eapply Forall_impl; [|exact U]. intros b []. assumption. }
  assert (UJ : Forall (fun b => has b j = false) u) by (eapply Forall_impl; [|exact U]; intros b []; assumption).
  assert (CO : codas_ok s bars).
  { destruct (performed r bars _ wa cs T F IC R TC) as (l1 & _ & _ & [(N1 & N2 & _)|(d1 & s1 & J1 & CO & _)]).
    - exfalso. inversion J as [E1 E2|E1 E2 E3 E4|g E1 E2 E3 E4]; destruct N1; congruence.
    - destruct (jump_det _ _ _ _ _ _ J J1) as [_ <-]. exact CO. }
  assert (JO : jump_outside l) by (apply clear_outside; [exact W|rewrite LB; exact IC]).
  pose proof W as [IN FO]. destruct l as [sec rest]. cbn [fst snd] in *.
  destruct (find_further k j m u w y y' n n' z q t f JV KV KJ SY SN HT HF NJ NG BM VU WJ UJ BN ZV rest sec true 0 p x IN FO XS LB) as (sec' & rest' & H & LB').
  assert (TCL' : top_clear (p ++ x :: m ++ u ++ w ++ y' :: n' ++ z :: q)).
  { pose proof (same_tune _ _ (further_same _ _ _ _ _ _ _ _ _ _ H)) as T'. unfold layout_bars in LB. cbn [fst snd] in LB. rewrite LB, LB' in T'. specialize (T' T).
    destruct (sorted_parts p x _ (proj1 T')) as [_ AF].
    assert (X0 : 0 <= b_tick x) by (apply (tune_tick bars x T), in_elt).
    unfold top_clear, bars in *. apply Forall_app in TCL as [T1 T2]. apply Forall_cons_iff in T2 as [T2 _]. apply Forall_app. split; [exact T1|].
    constructor; [exact T2|]. apply Forall_forall. intros g G E. apply AF in G. lia. }
  assert (LB2 : layout_bars (sec', rest') = p ++ x :: m ++ u ++ w ++ y' :: n' ++ z :: q) by exact LB'.
  rewrite <- LB2 in TCL'. rewrite <- LB in T, C, S, TCL, SF, J, CO.
  destruct (C87_jump r k (sec, rest) (sec', rest') _ _ _ _ d s W T C S TCL TCL' JO SF J CO H) as (c0 & cs0 & c' & cs' & g & g' & h & R0 & K & R' & K' & P & P' & SS & D).
  rewrite LB in R0. rewrite R in R0. inversion R0; subst c0 wa. rewrite TC in K. inversion K; subst cs0. rewrite LB2 in R'.
  exists c', cs', g, g', h. rewrite LB in *. auto 10.
Qed.
Print Assumptions C87_signs_jump.

Import T_Repeat.
(** A repeat from 960 with two endings, from 2880 and from 3840 on; the bars from 4800 up to 6720 become a third. *)
Definition one_p : list bar := [bar_at 480 [Segno]].
Definition one_m : list bar := [bar_at 1920 []].
Definition one_q : list bar := [bar_at 7680 [Ds]].
Lemma one_clear : implicit_clear (one_p ++ bar_at 960 [Start] :: one_m ++ [bar_at 2880 [Var1]] ++ [bar_at 3840 [Var2]] ++ bar_at 4800 [] :: [bar_at 5760 []] ++ bar_at 6720 [] :: one_q).
Proof.
  intros pre j mid x post E NJ I NX.
  destruct pre as [|z1 [|z2 pre]]; cbn [app one_p] in E; inversion E; subst; clear E.
  - exfalso. apply NJ. split; reflexivity.
  - exfalso. apply NJ. split; reflexivity.
  - exfalso. unfold idle in I. inversion I as [|? ? _ I2]; subst. inversion I2 as [|? ? [[N _] _] _]; subst. discriminate.
Qed.
Ltac mark_tac := split; [intros N; first [specialize (N Var1 eq_refl)|idtac]; vm_compute in N; discriminate|reflexivity].
Example C87_case :
  let x := bar_at 960 [Start] in let u := [bar_at 2880 [Var1]] in let w := [bar_at 3840 [Var2]] in let y := bar_at 4800 [] in let n := [bar_at 5760 []] in let z := bar_at 6720 [] in
  let y' := bar_at 4800 [Var3] in let n' := [bar_at 5760 [Var3]] in
  let bars := one_p ++ x :: one_m ++ u ++ w ++ y :: n ++ z :: one_q in
  tune bars /\ Forall compatible bars /\ implicit_clear bars /\ small_first bars /\ jump (actual_top (full_bar four_four bars)) bars 7680 480 /\
  has x Start = true /\ idle one_m /\ idle (y :: n) /\ Forall no_jump (y :: n) /\ mark_bit Var3 = mark_bit Var2 + 1 /\
  Forall (fun b => ~ no_var b /\ has b Var2 = false) u /\ Forall (fun b => has b Var2 = true) w /\ hd_error (map b_tick w) = Some 3840 /\
  no_var z /\ Forall no_goal w /\ hd_error (map b_tick (u ++ w)) = Some 2880 /\ signed Var3 y y' /\ Forall2 (signed Var3) n n' /\
  (exists c, render_region four_four bars = Ret (Ok (c, [])) /\
    to_chunks c = Ret [mkChunk 0 960; mkChunk 960 2880; mkChunk 2880 3840; mkChunk 960 2880; mkChunk 3840 4800; mkChunk 4800 7680;
      mkChunk 480 960; mkChunk 960 2880; mkChunk 3840 4800; mkChunk 4800 u32_max]) /\
  exists c', render_region four_four (one_p ++ x :: one_m ++ u ++ w ++ y' :: n' ++ z :: one_q) = Ret (Ok (c', [])) /\
    to_chunks c' = Ret [mkChunk 0 960; mkChunk 960 2880; mkChunk 2880 3840; mkChunk 960 2880; mkChunk 3840 4800; mkChunk 960 2880; mkChunk 4800 6720; mkChunk 6720 7680;
      mkChunk 480 960; mkChunk 960 2880; mkChunk 4800 6720; mkChunk 6720 u32_max].
Proof.
  cbv zeta. split; [tune_tac|]. split; [compat_tac|]. split; [exact one_clear|]. split; [intros f H; vm_compute in H; inv H; unfold u32_max; lia|].
  split; [apply jump_ds; try reflexivity; vm_compute; lia|]. split; [reflexivity|]. split; [bare_tac|]. split; [bare_tac|]. split; [repeat constructor|]. split; [reflexivity|].
  split; [constructor; [mark_tac|constructor]|]. split; [repeat constructor|]. split; [reflexivity|].
  split; [intros k K; destruct k; try discriminate; reflexivity|]. split; [repeat constructor|]. split; [reflexivity|].
  split; [second_tac|]. split; [constructor; [second_tac|constructor]|]. split.
  - eexists. split; [vm_compute; reflexivity|]. vm_compute. reflexivity.
  - eexists. split; [vm_compute; reflexivity|]. vm_compute. reflexivity.
Qed.

(** Without a jump; from the beginning, and the third ending lasts up to the start of another repeat. *)
Example C87_plain_case :
  let m := [bar_at 960 []] in let u := [bar_at 1920 [Var1]] in let w := [bar_at 2880 [Fine; Var2]] in let y := bar_at 3840 [] in let z := bar_at 4800 [Start] in let q := [bar_at 5760 [End]] in
  let y' := bar_at 3840 [Var3] in
  let bars := m ++ u ++ w ++ y :: [] ++ z :: q in let longer := [bar_at 240 []] ++ bar_at 480 [Start] :: bars in
  tune bars /\ Forall compatible bars /\ marked Dc bars = [] /\ marked Ds bars = [] /\
  tune longer /\ Forall compatible longer /\ marked Dc longer = [] /\ marked Ds longer = [] /\
  idle m /\ idle (y :: []) /\ mark_bit Var3 = mark_bit Var2 + 1 /\
  Forall (fun b => ~ no_var b /\ has b Var2 = false) u /\ Forall (fun b => has b Var2 = true) w /\ no_var z /\ Forall no_goal w /\
  hd_error (map b_tick (u ++ w)) = Some 1920 /\ signed Var3 y y' /\
  (exists c, render_region four_four bars = Ret (Ok (c, []))) /\ (exists c, render_region four_four longer = Ret (Ok (c, []))) /\
  (exists c', render_region four_four (m ++ u ++ w ++ y' :: [] ++ z :: q) = Ret (Ok (c', [])) /\
    to_chunks c' = Ret [mkChunk 0 1920; mkChunk 1920 2880; mkChunk 0 1920; mkChunk 2880 3840; mkChunk 0 1920; mkChunk 3840 4800; mkChunk 4800 5760; mkChunk 4800 5760; mkChunk 5760 u32_max]) /\
  (exists c', render_region four_four ([bar_at 240 []] ++ bar_at 480 [Start] :: m ++ u ++ w ++ y' :: [] ++ z :: q) = Ret (Ok (c', [])) /\
    to_chunks c' = Ret [mkChunk 0 480; mkChunk 480 1920; mkChunk 1920 2880; mkChunk 480 1920; mkChunk 2880 3840; mkChunk 480 1920; mkChunk 3840 4800; mkChunk 4800 5760; mkChunk 4800 5760; mkChunk 5760 u32_max]).
Proof.
  cbv zeta. split; [tune_tac|]. split; [compat_tac|]. split; [reflexivity|]. split; [reflexivity|].
  split; [tune_tac|]. split; [compat_tac|]. split; [reflexivity|]. split; [reflexivity|]. split; [bare_tac|]. split; [bare_tac|]. split; [reflexivity|].
  split; [constructor; [mark_tac|constructor]|]. split; [repeat constructor|].
  split; [intros k K; destruct k; try discriminate; reflexivity|]. split; [repeat constructor|]. split; [reflexivity|]. split; [second_tac|].
  split; [eexists; vm_compute; reflexivity|]. split; [eexists; vm_compute; reflexivity|].
  split; (eexists; split; [vm_compute; reflexivity|vm_compute; reflexivity]).
Qed.

(** A Segno in what was the last ending is refused once there is another; and the next ending needs the next number. *)
Theorem C87_segno_refuted :
  (exists c, render_region four_four [bar_at 960 [Start]; bar_at 1920 [Var1]; bar_at 2880 [Segno; Var2]; bar_at 3840 []; bar_at 4800 []] = Ret (Ok (c, []))) /\
  render_region four_four [bar_at 960 [Start]; bar_at 1920 [Var1]; bar_at 2880 [Segno; Var2]; bar_at 3840 [Var3]; bar_at 4800 []] = Ret (Err (SegnoWhileVariation 4800)) /\
  (exists c, render_region four_four [bar_at 960 [Start]; bar_at 1920 [Var1]; bar_at 2880 [Var2]; bar_at 3840 []; bar_at 4800 []] = Ret (Ok (c, []))) /\
  exists e, render_region four_four [bar_at 960 [Start]; bar_at 1920 [Var1]; bar_at 2880 [Var2]; bar_at 3840 [Var4]; bar_at 4800 []] = Ret (Err e).
Proof. split; [eexists; vm_compute; reflexivity|]. split; [vm_compute; reflexivity|]. split; eexists; vm_compute; reflexivity. Qed.
Print Assumptions C87_segno_refuted.
