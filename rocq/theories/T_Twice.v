(** Property theorems about putting repeat signs around a passage: C82. *)
From Coq Require Import ZArith List Bool Lia Sorted.
From Verif Require Import Base M_Duration M_Scalar M_Bar M_Repeat S_Note S_Repeat S_Twice P_Base P_Chunk P_Machine P_Errors P_Order P_Jump P_Last P_Panic.
From Verif Require Import M_Store M_Models M_Project S_Project S_Score P_Store P_Query P_Edit.
From Verif Require P_Heard T_Repeat T_Times T_Project T_Score.
Import ListNotations.
Open Scope Z_scope.

(** ** The bars keep everything but the signs *)
Definition same_bar (b b' : bar) : Prop :=
  b_tick b' = b_tick b /\ b_rhythm b' = b_rhythm b /\ forall k, In k [Segno; Fine; Coda; Dc; Ds] -> has b' k = has b k.
Lemma same_refl b : same_bar b b.
Proof. repeat split. Qed.
Lemma signed_same m b b' : m = Start \/ m = End -> signed m b b' -> same_bar b b'.
Proof.
  intros M (T & R & H). split; [exact T|]. split; [exact R|]. intros k K. rewrite H.
  destruct M as [->| ->]; cbn in K; repeat (destruct K as [<-|K]; [apply orb_false_r|]); destruct K.
Qed.
Lemma all_same l : Forall2 same_bar l l.
Proof. induction l; constructor; auto using same_refl. Qed.
#[local] Hint Resolve all_same same_refl : core.

Lemma rest_same a b sec rest sec' rest' : rest_signed a b sec rest sec' rest' ->
  Forall2 same_bar (section_bars sec ++ rest_bars rest) (section_bars sec' ++ rest_bars rest').
Proof.
  induction 1 as [p x x' m y y' q rest SX SY|sec x x' m y y' q rest SX SY|sec x c rest c' rest' _ IH];
    unfold rest_bars in *; cbn [section_bars flat_map fst snd].
  - rewrite <- !app_assoc. apply Forall2_app; auto. cbn [app]. constructor; [apply (signed_same Start); auto|].
    rewrite <- !app_assoc. apply Forall2_app; auto. cbn [app]. constructor; [apply (signed_same End); auto|]. auto.
  - apply Forall2_app; auto. cbn [app]. constructor; [apply (signed_same Start); auto|].
    rewrite <- !app_assoc. apply Forall2_app; auto. cbn [app]. constructor; [apply (signed_same End); auto|]. auto.
  - apply Forall2_app; auto. cbn [app]. constructor; auto.
Qed.
Lemma layout_same a b l l' : layout_signed a b l l' -> Forall2 same_bar (layout_bars l) (layout_bars l').
Proof.
  intros [m y y' q rest SY|sec rest sec' rest' H]; unfold layout_bars; cbn [fst snd]; [|eapply rest_same; eauto].
  unfold rest_bars. cbn [section_bars flat_map fst snd]. rewrite <- !app_assoc. apply Forall2_app; auto. cbn [app].
  constructor; [apply (signed_same End); auto|]. auto.
Qed.

Lemma same_ticks l l' : Forall2 same_bar l l' -> map b_tick l' = map b_tick l.
Proof. induction 1 as [|x x' l l' (E & _) _ IH]; [reflexivity|]. cbn [map]. rewrite E, IH. reflexivity. Qed.
Lemma same_marked l l' k : Forall2 same_bar l l' -> In k [Segno; Fine; Coda; Dc; Ds] -> marked k l' = marked k l.
Proof.
  intros H K. unfold marked. induction H as [|x x' l l' (E & _ & F) _ IH]; [reflexivity|]. cbn [filter map].
  rewrite (F k K). destruct (has x k); cbn [map]; rewrite ?E, IH; auto.
Qed.
Lemma same_tune l l' : Forall2 same_bar l l' -> tune l -> tune l'.
Proof.
  intros H [S F]. pose proof (same_ticks l l' H) as T. split; [rewrite T; exact S|].
  assert (E : Forall (fun t => 0 <= t < u32_max) (map b_tick l)) by (apply Forall_map; exact F).
  rewrite <- T in E. apply Forall_map in E. exact E.
Qed.
Lemma same_counts l l' : Forall2 same_bar l l' -> counts_ok l -> counts_ok l'.
Proof. intros H. unfold counts_ok. rewrite !(same_marked l l') by (auto; cbn; auto 10). auto. Qed.
Lemma same_top l l' r : Forall2 same_bar l l' -> top_rhythm r l' = top_rhythm r l.
Proof. intros [|x x' l0 l0' (E & R & F) _]; [reflexivity|]. cbn. rewrite E, R. reflexivity. Qed.
Lemma same_first l l' : Forall2 same_bar l l' -> first_bar_len l' = first_bar_len l.
Proof. intros H. unfold first_bar_len. rewrite (same_ticks l l' H). reflexivity. Qed.
Lemma same_jump l l' top d s : Forall2 same_bar l l' -> jump top l d s -> jump top l' d s.
Proof.
  intros H [A B C D|A B C D|f A B C D E].
  - apply jump_ds; rewrite ?(same_marked l l') by (auto; cbn; auto 10); auto.
  - apply jump_dc_segno; rewrite ?(same_marked l l'), ?(same_first l l') by (auto; cbn; auto 10); auto.
  - apply (jump_dc _ _ _ _ f); rewrite ?(same_marked l l'), ?(same_first l l') by (auto; cbn; auto 10); auto.
Qed.
Lemma same_codas l l' s : Forall2 same_bar l l' -> codas_ok s l -> codas_ok s l'.
Proof. intros H. unfold codas_ok. rewrite !(same_marked l l') by (auto; cbn; auto 10). auto. Qed.
Lemma same_warnings l l' : Forall2 same_bar l l' -> warnings_of l' = warnings_of l.
Proof. intros H. unfold warnings_of. rewrite !(same_marked l l') by (auto; cbn; auto 10). reflexivity. Qed.

(** ** The new score has the documented form *)
Lemma signed_start x x' : signed Start x x' -> has x' Start = true /\ has x' End = has x End /\ (no_var x -> no_var x').
Proof.
  intros (_ & _ & H). split; [rewrite H; cbn; apply orb_true_r|]. split; [rewrite H; cbn; apply orb_false_r|].
  intros N m M. rewrite H, (N m M). destruct m; try discriminate; reflexivity.
Qed.
Lemma signed_end x x' : signed End x x' -> has x' End = true /\ has x' Start = has x Start /\ (no_var x -> no_var x').
Proof.
  intros (_ & _ & H). split; [rewrite H; cbn; apply orb_true_r|]. split; [rewrite H; cbn; apply orb_false_r|].
  intros N m M. rewrite H, (N m M). destruct m; try discriminate; reflexivity.
Qed.
Lemma follows_plain a a' rest : is_plain a = true -> is_plain a' = true -> follows a rest -> follows a' rest.
Proof.
  intros P P' F. destruct rest as [|[b c] rest]; [exact P'|]. destruct F as [(B1 & B2 & B3 & B4) [I F]]. split; [|auto].
  destruct a, a'; try discriminate. split; [exact B1|]. split; [exact B2|]. split; [exact B3|]. exact B4.
Qed.
Lemma follows_new m y y' q rest l : has y Start = false -> signed End y y' -> no_var y -> Forall no_repeat q ->
  follows (Plain l) rest -> follows (Repeated m) ((y', Plain q) :: rest).
Proof.
  intros NS SY NV NQ F. destruct (signed_end y y' SY) as (E1 & E2 & E3). cbn [follows]. split.
  - split; [rewrite E1; reflexivity|]. split; [rewrite E2, NS; reflexivity|]. split; [auto|discriminate].
  - split; [split; [exact NQ|discriminate]|]. apply (follows_plain (Plain l)); auto.
Qed.
Lemma untouched_both m : Forall untouched m -> Forall no_var m /\ Forall no_jump m.
Proof. intros H. split; eapply Forall_impl; [|exact H| |exact H]; intros b [? ?]; auto. Qed.

Lemma rest_laid a b sec rest sec' rest' : rest_signed a b sec rest sec' rest' -> forall first,
  inside first sec -> follows sec rest -> inside first sec' /\ follows sec' rest'.
Proof.
  induction 1 as [p x x' m y y' q rest SX SY _ _ NX NY U|sec x x' m y y' q rest SX SY _ _ NY U|sec x c rest c' rest' R IH]; intros first I F.
  - destruct I as [NR NV]. apply Forall_app in NR as [NP NR]. apply Forall_cons_iff in NR as [RX NR]. apply Forall_app in NR as [NM NR].
    apply Forall_cons_iff in NR as [RY NQ]. destruct (untouched_both m U) as [U1 U2]. split.
    + split; [exact NP|]. intros E. specialize (NV E). apply Forall_app in NV. tauto.
    + destruct (signed_start x x' SX) as (E1 & E2 & E3). cbn [follows]. split; [|split].
      * split; [rewrite E2; apply RX|]. split; [rewrite E1; reflexivity|]. split; auto.
      * split; [exact NM|]. split; auto.
      * apply (follows_new m y y' q rest (p ++ x :: m ++ y :: q)); auto. apply RY.
  - split; [exact I|]. destruct F as [(B1 & B2 & B3 & B4) [[NR NV] F]]. apply Forall_app in NR as [NM NR].
    apply Forall_cons_iff in NR as [RY NQ]. destruct (untouched_both m U) as [U1 U2].
    destruct (signed_start x x' SX) as (E1 & E2 & E3). cbn [follows]. split; [|split].
    + split; [rewrite E2; exact B1|]. split; [rewrite E1; reflexivity|]. split; auto.
    + split; [exact NM|]. split; auto.
    + apply (follows_new m y y' q rest (m ++ y :: q)); auto. apply RY.
  - split; [exact I|]. destruct F as [B [IC F]]. destruct (IH false IC F) as [IC' F']. split; [|auto].
    assert (PL : is_plain c' = is_plain c) by (destruct R; reflexivity). destruct B as (B1 & B2 & B3 & B4).
    unfold boundary. rewrite PL. auto.
Qed.
Lemma layout_laid a b l l' : layout_signed a b l l' -> well_laid l -> well_laid l'.
Proof.
  intros [m y y' q rest SY _ _ J|sec rest sec' rest' H] [I F]; cbn [fst snd] in *; [|exact (rest_laid _ _ _ _ _ _ H true I F)].
  destruct I as [NR NV]. specialize (NV eq_refl). apply Forall_app in NR as [NM NR]. apply Forall_cons_iff in NR as [RY NQ].
  apply Forall_app in NV as [VM NV]. apply Forall_cons_iff in NV as [VY _]. split; cbn [fst snd].
  - split; [exact NM|]. split; [exact VM|discriminate].
  - apply (follows_new m y y' q rest (m ++ y :: q)); auto. apply RY.
Qed.

(** ** The sections with variations are the same *)
Lemma rest_varied a b sec rest sec' rest' : rest_signed a b sec rest sec' rest' -> forall s x c vs e,
  In (x, Varied c vs, e) (timed s sec' rest') <-> In (x, Varied c vs, e) (timed s sec rest).
Proof.
  induction 1 as [p x0 x' m y y' q rest SX SY|sec x0 x' m y y' q rest SX SY|sec x0 c0 rest c' rest' R IH]; intros s x c vs e.
  - destruct SX as [_ _]. destruct rest as [|[z cz] rest]; cbn [timed In]; intuition congruence.
  - destruct SX as (T & _). destruct rest as [|[z cz] rest]; cbn [timed In]; rewrite T; intuition congruence.
  - cbn [timed In]. rewrite IH. reflexivity.
Qed.
Lemma layout_varied a b l l' x c vs e : layout_signed a b l l' ->
  In (x, Varied c vs, e) (timed_layout l') <-> In (x, Varied c vs, e) (timed_layout l).
Proof.
  intros [m y y' q rest SY|sec rest sec' rest' H]; unfold timed_layout; cbn [fst snd]; [|apply (rest_varied _ _ _ _ _ _ H)].
  destruct rest as [|[z cz] rest]; cbn [timed In]; intuition congruence.
Qed.
Lemma layout_left a b l l' t : layout_signed a b l l' -> left_out (timed_layout l') t = left_out (timed_layout l) t.
Proof.
  intros H. unfold left_out. apply eq_true_iff_eq. rewrite !existsb_exists.
  split; intros [[[x sec] e] [I E]]; destruct sec as [?|?|c vs]; try discriminate; exists (x, Varied c vs, e); split; auto;
    apply (layout_varied a b l l' x c vs e H); exact I.
Qed.
Lemma layout_second a b l l' s f k : layout_signed a b l l' -> second_pass l' s f k = second_pass l s f k.
Proof. intros H. unfold second_pass. apply filter_ext. intros t. rewrite (layout_left a b l l' t H). reflexivity. Qed.

(** ** What is played *)
Lemma plain_end s l rest : exists e more, timed s (Plain l) rest = (s, Plain l, e) :: more /\ forall l', timed s (Plain l') rest = (s, Plain l', e) :: more.
Proof. destruct rest as [|[b c] rest]; cbn [timed]; eauto. Qed.

Lemma section_in s lo sec e t : s <= lo -> lo <= e -> starts_in lo e sec -> (In t (play_section (s, sec, e)) <-> s <= t < e).
Proof.
  intros SL LE SI. pose proof (T_Times.times_section s lo sec e t SL LE SI) as H. split.
  - intros I. destruct (Z.leb_spec s t), (Z.ltb_spec t e); cbn [andb] in H; try lia;
      apply in_split in I as (u & v & E); rewrite E, times_app, times_cons, Z.eqb_refl in H;
      pose proof (times_nonneg t u); pose proof (times_nonneg t v); lia.
  - intros B. replace (s <=? t) with true in H by lia. replace (t <? e) with true in H by lia. cbn [andb] in H.
    destruct (in_dec Z.eq_dec t (play_section (s, sec, e))) as [I|N]; [exact I|]. rewrite times_zero in H by exact N.
    destruct sec as [?|?|c vs]; cbn [T_Times.in_section] in H; try lia. destruct SI as [NE _].
    destruct (starts_of vs); [congruence|]. destruct (t <? hd e (z :: l)); cbn [length] in H; lia.
Qed.

Definition more_from (s a b : Z) (P Q : list Z) : Prop :=
  exists A B, P = A ++ from_to a b ++ B /\ Q = A ++ from_to a b ++ from_to a b ++ B /\ (forall t, In t A <-> s <= t < a) /\ s <= a < b.

Lemma rest_played a b sec rest sec' rest' : rest_signed a b sec rest sec' rest' -> forall s lo, chain s lo (timed s sec' rest') ->
  more_from s a b (flat_map play_section (timed s sec rest)) (flat_map play_section (timed s sec' rest')).
Proof.
  induction 1 as [p x x' m y y' q rest SX SY <- <- _ _ _|sec x x' m y y' q rest SX SY <- <- _ _|sec x c rest c' rest' R IH]; intros s lo C;
    cbn [timed] in C |- *.
  - destruct (plain_end s (p ++ x :: m ++ y :: q) rest) as (e & more & E & _).
    destruct (plain_end (b_tick y') q rest) as (e2 & more2 & E2 & _).
    assert (EE : e2 = e /\ more2 = more) by (destruct rest as [|[z cz] rest]; cbn [timed] in E, E2; inversion E; inversion E2; auto). destruct EE as [-> ->].
    destruct SX as (TX & _), SY as (TY & _). rewrite E2 in C |- *. rewrite E. rewrite TX, TY in *.
    cbn [chain] in C. destruct C as (_ & C1 & C2 & _ & _ & _ & C3 & C4 & _ & _ & _ & C5 & C6 & _).
    exists (from_to s (b_tick x)), (from_to (b_tick y) e ++ flat_map play_section more). cbn [flat_map play_section]. split; [|split; [|split]].
    + rewrite <- (from_to_app s (b_tick x) e), <- (from_to_app (b_tick x) (b_tick y) e) by lia. rewrite <- !app_assoc. reflexivity.
    + rewrite <- !app_assoc. reflexivity.
    + intros t. apply from_to_In.
    + lia.
  - destruct (plain_end (b_tick x) (m ++ y :: q) rest) as (e & more & E & _).
    destruct (plain_end (b_tick y') q rest) as (e2 & more2 & E2 & _).
    assert (EE : e2 = e /\ more2 = more) by (destruct rest as [|[z cz] rest]; cbn [timed] in E, E2; inversion E; inversion E2; auto). destruct EE as [-> ->].
    destruct SX as (TX & _), SY as (TY & _). rewrite E2 in C |- *. rewrite E. rewrite TX, TY in *.
    cbn [chain] in C. destruct C as (_ & C1 & C2 & SI & _ & _ & C3 & C4 & _ & _ & _ & C5 & C6 & _).
    exists (play_section (s, sec, b_tick x)), (from_to (b_tick y) e ++ flat_map play_section more).
    assert (G : forall t, In t (play_section (s, sec, b_tick x)) <-> s <= t < b_tick x) by (intros t; apply (section_in s lo); auto; lia).
    cbn [flat_map]. generalize dependent (play_section (s, sec, b_tick x)). intros A G. cbn [play_section]. split; [|split; [|split]].
    + rewrite <- (from_to_app (b_tick x) (b_tick y) e) by lia. rewrite <- !app_assoc. reflexivity.
    + rewrite <- !app_assoc. reflexivity.
    + exact G.
    + lia.
  - cbn [chain] in C. destruct C as (_ & C1 & C2 & SI & _ & C). destruct (IH (b_tick x) (b_tick x + 1) C) as (A & B & E1 & E2 & G & L).
    exists (play_section (s, sec, b_tick x) ++ A), B. cbn [flat_map]. rewrite E1, E2, !app_assoc. split; [reflexivity|]. split; [reflexivity|]. split; [|lia].
    intros t. rewrite in_app_iff, G, (section_in s lo) by (auto; lia). lia.
Qed.
Lemma layout_played a b l l' : layout_signed a b l l' -> chain 0 0 (timed_layout l') -> once_more a b (play l) (play l') /\ 0 <= a <= b /\ (a < b \/ b = 0).
Proof.
  intros [m y y' q rest SY -> <- _|sec rest sec' rest' H] C; unfold timed_layout, play in *; unfold timed_layout; cbn [fst snd timed] in *.
  - destruct (plain_end 0 (m ++ y :: q) rest) as (e & more & E & _). destruct (plain_end (b_tick y') q rest) as (e2 & more2 & E2 & _).
    assert (EE : e2 = e /\ more2 = more) by (destruct rest as [|[z cz] rest]; cbn [timed] in E, E2; inversion E; inversion E2; auto). destruct EE as [-> ->].
    destruct SY as (TY & _). rewrite E2 in C |- *. rewrite E. rewrite TY in *. cbn [chain] in C. destruct C as (_ & C1 & C2 & _ & _ & _ & C3 & C4 & _).
    split; [|lia]. exists [], (from_to (b_tick y) e ++ flat_map play_section more). cbn [flat_map play_section app]. split; [|split].
    + rewrite <- (from_to_app 0 (b_tick y) e) by lia. rewrite <- !app_assoc. reflexivity.
    + rewrite <- !app_assoc. reflexivity.
    + intros t. cbn [In]. lia.
  - destruct (rest_played _ _ _ _ _ _ H 0 0 C) as (A & B & E1 & E2 & G & L). split; [|lia]. exists A, B. auto.
Qed.

Lemma rest_new a b sec rest sec' rest' : rest_signed a b sec rest sec' rest' -> forall s, exists m, In (a, Repeated m, b) (timed s sec' rest').
Proof.
  induction 1 as [p x x' m y y' q rest SX SY <- <- _ _ _|sec x x' m y y' q rest SX SY <- <- _ _|sec x c rest c' rest' R IH]; intros s; cbn [timed].
  - destruct SX as (<- & _), SY as (<- & _). exists m. cbn. auto.
  - destruct SX as (<- & _), SY as (<- & _). exists m. cbn. auto.
  - destruct (IH (b_tick x)) as [m I]. exists m. cbn. auto.
Qed.
Lemma layout_new a b l l' : layout_signed a b l l' -> exists m, In (a, Repeated m, b) (timed_layout l').
Proof.
  intros [m y y' q rest SY -> <- _|sec rest sec' rest' H]; unfold timed_layout; cbn [fst snd]; [|apply (rest_new _ _ _ _ _ _ H)].
  cbn [timed]. destruct SY as (<- & _). exists m. cbn. auto.
Qed.
Lemma layout_outside a b l l' : layout_signed a b l l' -> jump_outside l -> jump_outside l'.
Proof.
  intros [m y y' q rest SY _ _ J|sec rest sec' rest' H] JO; unfold jump_outside in *; cbn [fst snd] in *; [auto|].
  destruct H; cbn [is_plain]; auto; discriminate.
Qed.

Lemma once_until a b P Q d : once_more a b P Q -> a < b -> b <= d -> once_more a b (until d P) (until d Q).
Proof.
  intros (A & B & -> & -> & G) L D. exists A, (until d B).
  assert (NA : ~ In d A) by (rewrite G; lia). assert (NX : ~ In d (from_to a b)) by (rewrite from_to_In; lia).
  rewrite !until_app by auto. auto.
Qed.
Lemma once_before a b P Q d : once_more a b P Q -> a < b -> 0 <= d <= a -> until d P = until d Q.
Proof.
  intros (A & B & -> & -> & G) L D. destruct (Z.eq_dec d a) as [->|N].
  - rewrite !(until_app a A) by (rewrite G; lia). rewrite !until_in by lia. reflexivity.
  - assert (I : In d A) by (apply G; lia). rewrite !P_Heard.until_prefix by exact I. reflexivity.
Qed.
Lemma once_app a b P Q R : once_more a b P Q -> once_more a b (P ++ R) (Q ++ R).
Proof. intros (A & B & -> & -> & G). exists A, (B ++ R). rewrite <- !app_assoc. auto. Qed.

(** * C82 *)

(** Repeat signs around a passage in a score without D.C. and D.S.: this passage is heard once more, directly after it is
    first heard, and all else is as it was. *)
Theorem C82_repeat : forall r l l' a b, let bars := layout_bars l in
  well_laid l -> tune bars -> counts_ok bars -> segno_ok bars (timed_layout l) -> marked Dc bars = [] -> marked Ds bars = [] ->
  layout_signed a b l l' ->
  exists c cs c' cs', render_region r bars = Ret (Ok (c, [])) /\ to_chunks c = Ret cs /\
    render_region r (layout_bars l') = Ret (Ok (c', [])) /\ to_chunks c' = Ret cs' /\
    once_more a b (performance cs) (performance cs').
Proof.
  intros r l l' a b bars W T C S A B H. pose proof (layout_same _ _ _ _ H) as SB. pose proof (layout_laid _ _ _ _ H W) as W'.
  pose proof (same_tune _ _ SB T) as T'.
  destruct (T_Repeat.C42_plays r l W T C S A B) as (c & cs & R & K & P).
  destruct (T_Repeat.C42_plays r l' W' T' (same_counts _ _ SB C)) as (c' & cs' & R' & K' & P').
  - intros s k vs e t I M. apply (layout_varied a b l l') in I; auto. rewrite (same_marked _ _ Segno SB) in M by (cbn; auto 10). exact (S s k vs e t I M).
  - rewrite (same_marked _ _ Dc SB) by (cbn; auto 10). exact A.
  - rewrite (same_marked _ _ Ds SB) by (cbn; auto 10). exact B.
  - exists c, cs, c', cs'. split; [exact R|]. split; [exact K|]. split; [exact R'|]. split; [exact K'|]. rewrite P, P'.
    apply (proj1 (layout_played a b l l' H (layout_chain l' W' T'))).
Qed.
Print Assumptions C82_repeat.

(** With a jump: if the passage ends before the jump it is heard once more in the first pass only; if it begins at the jump
    or behind it, the signs are not heard. *)
Theorem C82_jump : forall r l l' a b d s, let bars := layout_bars l in
  well_laid l -> tune bars -> counts_ok bars -> segno_ok bars (timed_layout l) -> top_clear bars -> top_clear (layout_bars l') -> jump_outside l ->
  small_first bars -> jump (actual_top (full_bar r bars)) bars d s -> codas_ok s bars ->
  layout_signed a b l l' ->
  exists c cs c' cs' first first' second, render_region r bars = Ret (Ok (c, warnings_of bars)) /\ to_chunks c = Ret cs /\
    render_region r (layout_bars l') = Ret (Ok (c', warnings_of bars)) /\ to_chunks c' = Ret cs' /\
    performance cs = first ++ second /\ performance cs' = first' ++ second /\
    StronglySorted Z.lt second /\
    (b <= d /\ once_more a b first first' \/ d <= a /\ first = first').
Proof.
  intros r l l' a b d s bars W T C S TC TC' JO SF J CO H. pose proof (layout_same _ _ _ _ H) as SB. pose proof (layout_laid _ _ _ _ H W) as W'.
  pose proof (same_tune _ _ SB T) as T'.
  destruct (T_Repeat.C43_plays r l d s W T C S TC JO SF J CO) as (c & cs & R & K & P). 
  assert (FB : full_bar r (layout_bars l') = full_bar r bars) by (unfold full_bar; rewrite (same_top _ _ r SB); reflexivity).
  destruct (T_Repeat.C43_plays r l' d s W' T' (same_counts _ _ SB C)) as (c' & cs' & R' & K' & P'); auto.
  - intros u k vs e t I M. apply (layout_varied a b l l') in I; auto. rewrite (same_marked _ _ Segno SB) in M by (cbn; auto 10). exact (S u k vs e t I M).
  - apply (layout_outside a b l); auto.
  - intros f. rewrite (same_first _ _ SB). apply SF.
  - rewrite FB. apply (same_jump _ _ _ _ _ SB J).
  - apply (same_codas _ _ _ SB CO).
  - exists c, cs, c', cs', (until d (play l)), (until d (play l')), (second_pass l s (hd_error (marked Fine bars)) (pair_of (marked Coda bars))).
    rewrite (same_warnings _ _ SB) in R'. rewrite (layout_second a b l l' _ _ _ H), !(same_marked _ _ _ SB) in P' by (cbn; auto 10).
    split; [exact R|]. split; [exact K|]. split; [exact R'|]. split; [exact K'|]. split; [exact P|]. split; [exact P'|].
    split; [apply (T_Repeat.C43_second l s)|].
    destruct (layout_played a b l l' H (layout_chain l' W' T')) as (OM & L1 & L2).
    destruct (layout_new a b l l' H) as [m NW].
    assert (CH : chain 0 1 (timed_layout l')) by (apply top_chain; auto).
    assert (LT : a < b).
    { destruct L2 as [|Z0]; [assumption|]. exfalso. destruct H as [m0 y y' q rest SY -> E0 _|sec rest sec' rest' H].
      - unfold timed_layout in CH. cbn [fst snd timed chain] in CH. destruct SY as (TY & _). lia.
      - destruct (rest_played _ _ _ _ _ _ H 0 1 CH) as (_ & _ & _ & _ & _ & L). lia. }
    destruct (jump_bar _ _ _ _ (same_jump _ _ _ _ _ SB J)) as [j [BI [BD BN]]]. pose proof (tune_tick _ _ T' BI) as BT.
    assert (DO : b <= d \/ d <= a).
    { destruct (Z.le_gt_cases b d); [auto|]. destruct (Z.le_gt_cases d a); [auto|]. exfalso.
      assert (JC : jump_clear d (timed_layout l')).
      { destruct W' as [I1 F1]. apply (inside_plain (snd l') (fst l') true); auto; [apply (layout_outside a b l); auto|]. exists j. auto. }
      specialize (JC a (Repeated m) b NW ltac:(lia)). discriminate. }
    destruct DO; [left|right]; (split; [assumption|]).
    + apply once_until; auto.
    + apply (once_before a b); auto. lia.
Qed.
Print Assumptions C82_jump.

(** ** The same for the bars *)
Lemma split_inside {A} (P : A -> Prop) (z : A) (w : list A) : ~ P z -> forall l p x m, l ++ z :: w = p ++ x :: m -> P x ->
  (exists v, l = p ++ x :: v /\ m = v ++ z :: w) \/ (exists v, p = l ++ z :: v /\ w = v ++ x :: m).
Proof.
  intros N. induction l as [|a l IH]; intros p x m E X.
  - cbn [app] in E. destruct p as [|b p]; cbn [app] in E; inversion E; subst; [contradiction|]. right. exists p. auto.
  - destruct p as [|b p]; cbn [app] in E; inversion E; subst.
    + left. exists l. auto.
    + destruct (IH _ _ _ H1 X) as [(v & -> & ->)|(v & -> & ->)]; [left|right]; exists v; auto.
Qed.
Definition bare (b : bar) : Prop := no_repeat b /\ no_var b.
Lemma split_three {A} (z : A) (w : list A) : forall l p x t, l ++ z :: w = p ++ x :: t ->
  (exists v, l = p ++ x :: v /\ t = v ++ z :: w) \/ (l = p /\ z = x /\ w = t) \/ (exists v, p = l ++ z :: v /\ w = v ++ x :: t).
Proof.
  induction l as [|a l IH]; intros p x t E.
  - cbn [app] in E. destruct p as [|b p]; cbn [app] in E; inversion E; subst; [auto|]. right. right. exists p. auto.
  - destruct p as [|b p]; cbn [app] in E; inversion E; subst.
    + left. exists l. auto.
    + destruct (IH _ _ _ H1) as [(v & -> & ->)|[(-> & -> & ->)|(v & -> & ->)]]; [left; exists v; auto|auto|right; right; exists v; auto].
Qed.
(** a passage without signs lies before a bar with one if its first bar does *)
Lemma passage_before z w v m y q : v ++ z :: w = m ++ y :: q -> ~ bare z -> Forall bare m -> bare y ->
  exists q1, v = m ++ y :: q1 /\ q = q1 ++ z :: w.
Proof.
  intros E NZ FM BY. destruct (split_inside bare z w NZ v m y q E BY) as [(u & -> & ->)|(u & -> & _)].
  - exists u. auto.
  - exfalso. apply Forall_app in FM as [_ FM]. inversion FM; subst. contradiction.
Qed.

Lemma start_sign b : has b Start = true -> ~ bare b.
Proof. intros H [[N _] _]. congruence. Qed.
Lemma end_sign b : has b End = true -> ~ bare b.
Proof. intros H [[_ N] _]. congruence. Qed.
Lemma var_sign k b : carries k b -> 1 <= k <= 4 -> ~ bare b.
Proof.
  intros H K [_ N]. assert (exists m, is_var m = true /\ mark_bit m = 6 + k) as (m & V & B).
  { destruct (Z.eq_dec k 1); [exists Var1; split; [reflexivity|subst; reflexivity]|]. destruct (Z.eq_dec k 2); [exists Var2; split; [reflexivity|subst; reflexivity]|].
    destruct (Z.eq_dec k 3); [exists Var3; split; [reflexivity|subst; reflexivity]|]. exists Var4. split; [reflexivity|]. assert (k = 4) as -> by lia. reflexivity. }
  specialize (H m V). rewrite (N m V), B, Z.eqb_refl in H. discriminate.
Qed.
Lemma numbered_signs vs : forall k, numbered k vs -> 1 <= k -> k + Z.of_nat (length vs) <= 5 -> Forall (fun b => ~ bare b) (concat vs).
Proof.
  induction vs as [|v vs IH]; intros k N K L; cbn [concat]; [constructor|]. destruct N as (_ & C & _ & _ & N). cbn [length] in L. apply Forall_app. split.
  - eapply Forall_impl; [|exact C]. intros b H. apply (var_sign k b H). lia.
  - apply (IH (k + 1)); auto; lia.
Qed.

Lemma plain_passage l rest m y q : follows (Plain l) rest -> l ++ rest_bars rest = m ++ y :: q -> Forall bare m -> bare y ->
  exists q1, l = m ++ y :: q1 /\ q = q1 ++ rest_bars rest.
Proof.
  intros F E BM BY. destruct rest as [|[b c] rest].
  - cbn [rest_bars flat_map] in *. rewrite app_nil_r in E. exists q. rewrite app_nil_r. auto.
  - destruct F as [(_ & B2 & _ & B4) _]. specialize (B4 eq_refl). rewrite B4 in B2. cbn [negb] in B2. apply start_sign in B2.
    apply (passage_before _ _ _ _ _ _ E B2 BM BY).
Qed.
Lemma both_bare l : Forall no_repeat l -> Forall no_var l -> Forall bare l.
Proof. intros A B. rewrite Forall_forall in *. intros b I. split; auto. Qed.
Lemma varied_first k vs : numbered k vs -> vs <> [] -> exists z w, concat vs = z :: w /\ has z Start = false.
Proof.
  destruct vs as [|[|z v] vs]; [congruence| |]; intros (N & _ & R & _) _; [congruence|]. inversion R as [|? ? [R1 _] _]; subst.
  exists z, (v ++ concat vs). auto.
Qed.

(** a passage without signs that is not inside a repeat *)
Lemma not_inside first sec b c rest pre p x m y q v : inside first sec -> boundary sec b c -> is_plain sec = false ->
  section_bars sec = p ++ x :: v -> v ++ b :: section_bars c ++ rest_bars rest = m ++ y :: q -> bare x -> Forall bare m -> bare y ->
  (first = true /\ pre = [] \/ exists b0 pre0, pre = pre0 ++ [b0] /\ has b0 Start = true) -> outside (pre ++ p) q -> False.
Proof.
  intros IN (B1 & _) NP E EV BX BM BY CT [O1 O2].
  assert (K : forall u z w, idle p -> q = u ++ z :: w -> idle u -> ~ bare z -> has z Start = false \/ has z End = true -> False).
  { intros u z w IP EQ IU NZ HZ. destruct CT as [(_ & ->)|(b0 & pre0 & -> & HB)].
    - destruct (O2 IP u z w EQ IU NZ) as [H1 H2]. destruct HZ; congruence.
    - apply (O1 (b_tick b0)). exists pre0, b0, p. rewrite <- app_assoc. auto. }
  destruct sec as [l|l|cm vs]; [discriminate| |]; cbn [section_bars] in E.
  - destruct IN as (NR & NV & _). pose proof (both_bare _ NR NV) as BL. cbn [is_repeated] in B1.
    destruct (passage_before _ _ _ _ _ _ EV (end_sign b B1) BM BY) as (q1 & -> & EQ). rewrite E in BL.
    apply Forall_app in BL as [BP BL]. apply Forall_cons_iff in BL as [_ BL]. apply Forall_app in BL as [_ BL]. apply Forall_cons_iff in BL as [_ BL].
    apply (K q1 b (section_bars c ++ rest_bars rest)); auto. apply end_sign; exact B1.
  - destruct IN as (NR & NV & _ & NU & NE & LE). pose proof (both_bare _ NR NV) as BL.
    pose proof (numbered_signs vs 1 NU ltac:(lia) ltac:(lia)) as SG. destruct (varied_first 1 vs NU NE) as (z & w & EC & HZ). rewrite EC in *.
    inversion SG as [|? ? NZ SW]; subst. destruct (split_inside bare z w NZ cm p x v E BX) as [(u & -> & ->)|(u & -> & ->)].
    + rewrite <- app_assoc in EV. cbn [app] in EV. destruct (passage_before _ _ _ _ _ _ EV NZ BM BY) as (q1 & -> & EQ).
      apply Forall_app in BL as [BP BL]. apply Forall_cons_iff in BL as [_ BL]. apply Forall_app in BL as [_ BL]. apply Forall_cons_iff in BL as [_ BL].
      apply (K q1 z (w ++ b :: section_bars c ++ rest_bars rest)); auto.
    + rewrite Forall_forall in SW. apply (SW x); [apply in_elt|exact BX].
Qed.

Section Find.
  Context (x x' y y' : bar) (m q : list bar).
  Hypothesis SX : signed Start x x'.
  Hypothesis SY : signed End y y'.
  Hypothesis BX : bare x.
  Hypothesis BY : bare y.
  Hypothesis BM : Forall bare m.
  Hypothesis JM : Forall no_jump m.
  Lemma m_untouched : Forall untouched m.
  Proof. apply Forall_forall. intros b I. rewrite Forall_forall in BM, JM. split; [apply BM|apply JM]; exact I. Qed.

  Lemma find_rest rest : forall sec first pre p, inside first sec -> follows sec rest ->
    section_bars sec ++ rest_bars rest = p ++ x :: m ++ y :: q ->
    (is_plain sec = false -> first = true /\ pre = [] \/ exists b0 pre0, pre = pre0 ++ [b0] /\ has b0 Start = true) ->
    outside (pre ++ p) q ->
    exists sec' rest', rest_signed (b_tick x) (b_tick y) sec rest sec' rest' /\ section_bars sec' ++ rest_bars rest' = p ++ x' :: m ++ y' :: q.
  Proof.
    pose proof m_untouched as UM.
    induction rest as [|[b c] rest IH]; intros sec first pre p IN F E CT O.
    - cbn [follows] in F. destruct sec as [l| |]; try discriminate. cbn [section_bars rest_bars flat_map] in E. rewrite app_nil_r in E. subst l.
      exists (Plain p), [(x', Repeated m); (y', Plain q)]. split; [apply signed_inside; auto; [apply BX|apply BY]|].
      cbn [section_bars rest_bars flat_map fst snd]. rewrite !app_nil_r. reflexivity.
    - pose proof F as [B [IC F']]. unfold rest_bars in E. cbn [flat_map fst snd] in E. fold (rest_bars rest) in E. rewrite <- app_comm_cons in E.
      destruct (split_three _ _ _ _ _ _ E) as [(v & E1 & E2)|[(E1 & E2 & E3)|(v & E1 & E2)]].
      + destruct (is_plain sec) eqn:PL.
        * destruct sec as [l| |]; try discriminate. cbn [section_bars] in E1. subst l. destruct B as (_ & B2 & _ & B4). specialize (B4 eq_refl).
          rewrite B4 in B2. destruct (passage_before _ _ _ _ _ _ (eq_sym E2) (start_sign b B2) BM BY) as (q1 & -> & ->).
          exists (Plain p), ((x', Repeated m) :: (y', Plain q1) :: (b, c) :: rest). split; [apply signed_inside; auto; [apply BX|apply BY]|].
          unfold rest_bars. cbn [section_bars flat_map fst snd]. rewrite <- ?app_assoc, <- ?app_comm_cons, <- ?app_assoc. reflexivity.
        * exfalso. apply (not_inside first sec b c rest pre p x m y q v); auto.
      + subst p b. assert (PC : is_plain c = true). { destruct B as (_ & B2 & _). destruct BX as [[NS _] _]. rewrite NS in B2. destruct (is_plain c); [reflexivity|discriminate]. }
        destruct c as [l| |]; try discriminate. cbn [section_bars] in E3. destruct (plain_passage l rest m y q F' E3 BM BY) as (q1 & -> & ->).
        exists sec, ((x', Repeated m) :: (y', Plain q1) :: rest). split; [apply signed_at; auto; apply BY|].
        unfold rest_bars. cbn [section_bars flat_map fst snd]. rewrite <- ?app_assoc, <- ?app_comm_cons, <- ?app_assoc. reflexivity.
      + subst p. destruct (IH c false (pre ++ section_bars sec ++ [b]) v IC F' E2) as (c' & rest' & R & ER).
        * intros NP. right. exists b, (pre ++ section_bars sec). rewrite app_assoc. split; [reflexivity|]. destruct B as (_ & B2 & _). rewrite NP in B2. exact B2.
        * rewrite <- !app_assoc. cbn [app]. exact O.
        * exists sec, ((b, c') :: rest'). split; [apply signed_later; exact R|]. unfold rest_bars. cbn [flat_map fst snd]. fold (rest_bars rest').
          rewrite <- ?app_comm_cons, ER, <- ?app_assoc, <- ?app_comm_cons. reflexivity.
  Qed.
  Lemma find_signed l p : well_laid l -> layout_bars l = p ++ x :: m ++ y :: q -> outside p q ->
    exists l', layout_signed (b_tick x) (b_tick y) l l' /\ layout_bars l' = p ++ x' :: m ++ y' :: q.
  Proof.
    intros [IN F] E O. destruct l as [sec rest]. unfold layout_bars in E. cbn [fst snd] in *.
    destruct (find_rest rest sec true [] p IN F E (fun _ => or_introl (conj eq_refl eq_refl)) O) as (sec' & rest' & R & E').
    exists (sec', rest'). split; [apply signed_rest; exact R|exact E'].
  Qed.
  Lemma find_top l : well_laid l -> layout_bars l = m ++ y :: q ->
    (forall u z v, q = u ++ z :: v -> idle u -> ~ (no_repeat z /\ no_var z) -> has z Start = true /\ has z End = false) ->
    exists l', layout_signed 0 (b_tick y) l l' /\ layout_bars l' = m ++ y' :: q.
  Proof.
    intros [IN F] E O. destruct l as [sec rest]. unfold layout_bars in E. cbn [fst snd] in *.
    assert (K : is_plain sec = true).
    { destruct (is_plain sec) eqn:PL; [reflexivity|exfalso]. destruct rest as [|[b c] rest]; [cbn in F; congruence|].
      destruct F as [B _]. unfold rest_bars in E. cbn [flat_map fst snd] in E. fold (rest_bars rest) in E. rewrite <- app_comm_cons in E.
      destruct sec as [l|l|cm vs]; [discriminate| |]; cbn [section_bars] in E.
      - destruct B as (B1 & _). cbn [is_repeated] in B1. destruct (passage_before _ _ _ _ _ _ E (end_sign b B1) BM BY) as (q1 & -> & EQ).
        destruct IN as (NR & NV & _). pose proof (both_bare _ NR NV) as BL. apply Forall_app in BL as [_ BL]. apply Forall_cons_iff in BL as [_ BL].
        destruct (O q1 b _ EQ BL (end_sign b B1)). congruence.
      - destruct IN as (NR & NV & _ & NU & NE & LE). pose proof (both_bare _ NR NV) as BL.
        pose proof (numbered_signs vs 1 NU ltac:(lia) ltac:(lia)) as SG. destruct (varied_first 1 vs NU NE) as (z & w & EC & HZ). rewrite EC in *.
        inversion SG as [|? ? NZ SW]; subst. rewrite <- app_assoc in E. cbn [app] in E. destruct (passage_before _ _ _ _ _ _ E NZ BM BY) as (q1 & -> & EQ).
        apply Forall_app in BL as [_ BL]. apply Forall_cons_iff in BL as [_ BL]. destruct (O q1 z _ EQ BL NZ). congruence. }
    destruct sec as [l| |]; try discriminate. cbn [section_bars] in E. destruct (plain_passage l rest m y q F E BM BY) as (q1 & -> & ->).
    exists (Repeated m, (y', Plain q1) :: rest). split; [apply signed_top; auto|]. unfold layout_bars, rest_bars. cbn [fst snd section_bars flat_map].
    rewrite <- ?app_assoc, <- ?app_comm_cons, <- ?app_assoc. reflexivity.
  Qed.
End Find.

Lemma no_marks bars : marked Dc bars = [] -> marked Ds bars = [] -> Forall no_jump bars.
Proof.
  intros A B. apply Forall_forall. intros b I. unfold marked in *. split; apply not_true_iff_false; intros H.
  - apply (in_nil (a := b_tick b)). rewrite <- A. apply in_map, filter_In. auto.
  - apply (in_nil (a := b_tick b)). rewrite <- B. apply in_map, filter_In. auto.
Qed.
Lemma later_tick p x m y q : StronglySorted Z.lt (map b_tick (p ++ x :: m ++ y :: q)) -> b_tick x < b_tick y.
Proof.
  induction p as [|z p IH]; cbn [app map]; intros S; inversion S as [|? ? S1 S2]; subst; [|auto].
  rewrite map_app in S2. apply Forall_app in S2 as [_ S2]. inversion S2; auto.
Qed.

(** A passage without signs that is not inside a repeat, in an accepted score without D.C. and D.S.: with the repeat signs at its
    ends the score is accepted, and the passage is heard once more. *)
Theorem C82_signs : forall r p x x' m y y' q c w, let bars := p ++ x :: m ++ y :: q in
  tune bars -> Forall compatible bars -> marked Dc bars = [] -> marked Ds bars = [] -> render_region r bars = Ret (Ok (c, w)) ->
  idle (x :: m ++ [y]) -> outside p q -> signed Start x x' -> signed End y y' ->
  exists cs c' cs', to_chunks c = Ret cs /\ render_region r (p ++ x' :: m ++ y' :: q) = Ret (Ok (c', [])) /\ to_chunks c' = Ret cs' /\
    once_more (b_tick x) (b_tick y) (performance cs) (performance cs').
Proof.
  intros r p x x' m y y' q c w bars T F A B R I O SX SY. destruct (render_sound r bars c w T F R) as (C & l & gr & W & LB & S & _).
  unfold idle in I. apply Forall_cons_iff in I as [BX I]. apply Forall_app in I as [BM BY]. apply Forall_inv in BY.
  assert (JM : Forall no_jump m).
  { pose proof (no_marks bars A B) as J. unfold bars in J. apply Forall_app in J as [_ J]. apply Forall_cons_iff in J as [_ J]. apply Forall_app in J. tauto. }
  destruct (find_signed x x' y y' m q SX SY BX BY BM JM l p W LB O) as (l' & L & LB'). rewrite <- LB in T, C, S, A, B.
  destruct (C82_repeat r l l' _ _ W T C S A B L) as (c0 & cs & c' & cs' & R0 & K & R' & K' & P). rewrite LB in R0. rewrite R in R0. inversion R0; subst c0.
  exists cs, c', cs'. rewrite LB' in R'. auto.
Qed.
Print Assumptions C82_signs.

(** The same from the beginning, where only the end is written. *)
Theorem C82_top : forall r m y y' q c w, let bars := m ++ y :: q in
  tune bars -> Forall compatible bars -> marked Dc bars = [] -> marked Ds bars = [] -> render_region r bars = Ret (Ok (c, w)) ->
  idle (m ++ [y]) -> outside [] q -> signed End y y' ->
  exists cs c' cs', to_chunks c = Ret cs /\ render_region r (m ++ y' :: q) = Ret (Ok (c', [])) /\ to_chunks c' = Ret cs' /\
    once_more 0 (b_tick y) (performance cs) (performance cs').
Proof.
  intros r m y y' q c w bars T F A B R I O SY. destruct (render_sound r bars c w T F R) as (C & l & gr & W & LB & S & _).
  unfold idle in I. apply Forall_app in I as [BM BY]. apply Forall_inv in BY.
  assert (JM : Forall no_jump m).
  { pose proof (no_marks bars A B) as J. unfold bars in J. apply Forall_app in J. tauto. }
  destruct (find_top y y' m q SY BY BM JM l W LB (proj2 O (Forall_nil _))) as (l' & L & LB'). rewrite <- LB in T, C, S, A, B.
  destruct (C82_repeat r l l' _ _ W T C S A B L) as (c0 & cs & c' & cs' & R0 & K & R' & K' & P). rewrite LB in R0. rewrite R in R0. inversion R0; subst c0.
  exists cs, c', cs'. rewrite LB' in R'. auto.
Qed.
Print Assumptions C82_top.

(** With a jump at [d]: the passage is heard once more if it ends before [d], only in the first pass; if it starts at [d] or behind,
    nothing changes.  (A sign at the very top makes listing the chunks panic, see C46; a jump inside a repeat is an error.) *)
Theorem C82_signs_jump : forall r p x x' m y y' q c w cs d s, let bars := p ++ x :: m ++ y :: q in
  tune bars -> Forall compatible bars -> implicit_clear bars -> small_first bars -> render_region r bars = Ret (Ok (c, w)) -> to_chunks c = Ret cs ->
  jump (actual_top (full_bar r bars)) bars d s ->
  idle (x :: m ++ [y]) -> Forall no_jump m -> outside p q -> signed Start x x' -> signed End y y' -> 0 < b_tick x ->
  exists c' cs', render_region r (p ++ x' :: m ++ y' :: q) = Ret (Ok (c', w)) /\ to_chunks c' = Ret cs' /\
    (b_tick y <= d /\ once_more (b_tick x) (b_tick y) (performance cs) (performance cs') \/ d <= b_tick x /\ performance cs' = performance cs).
Proof.
  intros r p x x' m y y' q c w cs d s bars T F IC SF R TC J I JM O SX SY PX.
  destruct (render_sound r bars c w T F R) as (C & l & gr & W & LB & S & -> & B).
  destruct (proj1 (chunks_return r bars _ w T F R) (ex_intro _ cs TC) d s J) as [TCL _].
  unfold idle in I. apply Forall_cons_iff in I as [BX I]. apply Forall_app in I as [BM BY]. apply Forall_inv in BY.
  destruct (find_signed x x' y y' m q SX SY BX BY BM JM l p W LB O) as (l' & L & LB').
  assert (CO : codas_ok s bars).
  { destruct (performed r bars _ w cs T F IC R TC) as (l1 & _ & _ & [(N1 & N2 & _)|(d1 & s1 & J1 & CO & _)]).
    - exfalso. inversion J as [E1 E2|E1 E2 E3 E4|f E1 E2 E3 E4]; destruct N1; congruence.
    - destruct (jump_det _ _ _ _ _ _ J J1) as [_ <-]. exact CO. }
  assert (JO : jump_outside l) by (apply clear_outside; [exact W|rewrite LB; exact IC]).
  assert (TCL' : top_clear (p ++ x' :: m ++ y' :: q)).
  { pose proof (same_ticks _ _ (layout_same _ _ _ _ L)) as ST. rewrite LB, LB' in ST.
    pose proof (later_tick p x m y q (proj1 T)) as XY.
    unfold top_clear, bars in *. apply Forall_app in TCL as [T1 T2]. apply Forall_cons_iff in T2 as [_ T2]. apply Forall_app in T2 as [T2 T3].
    apply Forall_cons_iff in T3 as [_ T3]. apply Forall_app. split; [exact T1|]. constructor; [destruct SX as (E & _); lia|].
    apply Forall_app. split; [exact T2|]. constructor; [destruct SY as (E & _); lia|exact T3]. }
  rewrite <- LB' in TCL'. rewrite <- LB in T, C, S, TCL, SF, J, CO.
  destruct (C82_jump r l l' _ _ d s W T C S TCL TCL' JO SF J CO L) as (c0 & cs0 & c' & cs' & f & f' & k & R0 & K & R' & K' & P & P' & _ & D).
  rewrite LB in R0. rewrite R in R0. inversion R0; subst c0 w. rewrite TC in K. inversion K; subst cs0. rewrite LB' in R'.
  exists c', cs'. rewrite LB in *. split; [exact R'|]. split; [exact K'|]. rewrite P, P'.
  destruct D as [[D OM]|[D ->]]; [left|right]; (split; [exact D|]); [apply once_app; exact OM|reflexivity].
Qed.
Print Assumptions C82_signs_jump.

(** ** In a project *)
Lemma add_over {V} k (v v0 : V) s1 s2 : srt V (s1 ++ (k, v0) :: s2) -> fst (s_add k v (s1 ++ (k, v0) :: s2)) = s1 ++ (k, v) :: s2.
Proof.
  induction s1 as [|[k1 v1] s1 IH]; intros S; cbn [app s_add].
  - rewrite Z.eqb_refl. reflexivity.
  - apply srt_cons in S as [S L]. cbn [fst] in L. assert (k1 < k) by (apply (L k v0), in_elt).
    replace (k =? k1) with false by lia. replace (k <? k1) with false by lia. specialize (IH S).
    destruct (s_add k v (s1 ++ (k, v0) :: s2)) as [t o]. cbn [fst] in *. subst t. reflexivity.
Qed.
(** Drawing a bar again replaces it. *)
Lemma redraw p a x x' c p' k : project_ok p -> score p = a ++ x :: c -> b_tick x' = b_tick x -> edit_run (EAddBar x') p = Ret (Some (p', k)) ->
  score p' = a ++ x' :: c /\ pj_rhythm p' = pj_rhythm p.
Proof.
  intros O E T R. destruct (ok_bars p O) as [S K]. unfold score in *. cbn [edit_run] in R. unfold add_bar in R.
  apply map_eq_app in E as (s1 & s2' & ES & E1 & E2). apply map_eq_cons in E2 as ([k0 x0] & s2 & -> & EX & E2). cbn [snd] in EX. subst x0.
  rewrite ES in *. assert (k0 = b_tick x) as -> by (destruct (K k0 x); [apply in_elt|auto]).
  pose proof (add_over (b_tick x) x' x s1 s2 S) as AO. rewrite T in R. destruct (s_add (b_tick x) x' _) as [s o]. cbn [fst] in AO. subst s.
  apply ret_inj in R. inv R. cbn [pj_set_bars pj_bars pj_rhythm]. rewrite map_app. auto.
Qed.

(** Drawing the two bar lines of a passage of a project again with the repeat signs. *)
Theorem C82_project : forall p p1 p' a x x' m y y' q k k' c w, project_ok p -> score p = a ++ x :: m ++ y :: q ->
  Forall (fun b => b_tick b <> u32_max) (score p) -> Forall compatible (score p) -> marked Dc (score p) = [] -> marked Ds (score p) = [] ->
  render_project p = Ret (Ok (c, w)) -> idle (x :: m ++ [y]) -> outside a q -> signed Start x x' -> signed End y y' ->
  edit_run (EAddBar x') p = Ret (Some (p1, k)) -> edit_run (EAddBar y') p1 = Ret (Some (p', k')) ->
  exists cs c' cs', to_chunks c = Ret cs /\ render_project p' = Ret (Ok (c', [])) /\ to_chunks c' = Ret cs' /\
    once_more (b_tick x) (b_tick y) (performance cs) (performance cs').
Proof.
  intros p p1 p' a x x' m y y' q k k' c w O E U F A B R I OU SX SY R1 R2.
  destruct (redraw p a x x' _ p1 k O E (proj1 SX) R1) as [E1 H1].
  assert (O1 : project_ok p1).
  { destruct (ok_bars p O) as [_ K]. assert (IX : In x (score p)) by (rewrite E; apply in_elt). unfold score in IX.
    apply in_map_iff in IX as ([kx x0] & EX & IX). cbn [snd] in EX. subst x0. destruct (K _ _ IX) as [EK UK].
    apply (edit_ok (EAddBar x') p p1 k O); [|exact R1]. cbn. destruct SX as (-> & _). subst kx. exact UK. }
  destruct (redraw p1 (a ++ x' :: m) y y' q p' k' O1) as [E2 H2]; [rewrite E1, <- app_assoc; reflexivity|exact (proj1 SY)|exact R2|].
  unfold render_project in *. rewrite H2, H1, E2, <- app_assoc. cbn [app]. rewrite E in *.
  apply (C82_signs (pj_rhythm p) a x x' m y y' q c w); auto. rewrite <- E.
  destruct (T_Score.score_sorted p O) as [SS SU]. split; [exact SS|]. rewrite <- E in U. rewrite Forall_forall in *. intros b J.
  specialize (SU b J). specialize (U b J). unfold Base.u32, u32_max in *. lia.
Qed.
Print Assumptions C82_project.

Import T_Repeat.
Ltac bare_tac := unfold idle; repeat (apply Forall_cons; [split; [split; reflexivity|intros k K; destruct k; try discriminate; reflexivity]|]); apply Forall_nil.
Ltac signed_tac := split; [reflexivity|]; split; [reflexivity|]; intros k; destruct k; reflexivity.

(** Two variations, plain bars after them with Fine on one, and D.S. at the end: a repeat from 4800 to 6720 is put in.  The first case
    starts where the last variation ends. *)
Definition case_p : list bar := [bar_at 960 [Segno]; bar_at 1920 [Start]; bar_at 2880 [Var1]; bar_at 3840 [Var2]].
Definition case_q : list bar := [bar_at 7680 []; bar_at 8640 [Ds]].
Lemma case_outside : outside case_p case_q.
Proof.
  split.
  - intros s (p & b & q & E & _ & H & I). unfold case_p in E.
    destruct p as [|z1 [|z2 [|z3 [|z4 p]]]]; cbn [app] in E; inversion E; subst; try discriminate.
    + apply Forall_inv_tail in I. unfold idle in I. inversion I as [|? ? [_ N] _]; subst. discriminate (N Var2 eq_refl).
    + destruct p; discriminate.
  - intros I. exfalso. unfold idle, case_p in I. inversion I as [|? ? _ I2]; subst. inversion I2 as [|? ? [[N _] _] _]; subst. discriminate.
Qed.
Example C82_case :
  let x := bar_at 4800 [] in let m := [bar_at 5760 [Fine]] in let y := bar_at 6720 [] in let bars := case_p ++ x :: m ++ y :: case_q in
  let x' := bar_at 4800 [Start] in let y' := bar_at 6720 [End] in
  tune bars /\ Forall compatible bars /\ implicit_clear bars /\ small_first bars /\
  idle (x :: m ++ [y]) /\ Forall no_jump m /\ outside case_p case_q /\ signed Start x x' /\ signed End y y' /\
  jump (actual_top (full_bar four_four bars)) bars 8640 960 /\
  (exists c, render_region four_four bars = Ret (Ok (c, [])) /\ exists cs, to_chunks c = Ret cs) /\
  exists c', render_region four_four (case_p ++ x' :: m ++ y' :: case_q) = Ret (Ok (c', [])) /\
    to_chunks c' = Ret [mkChunk 0 1920; mkChunk 1920 2880; mkChunk 2880 3840; mkChunk 1920 2880; mkChunk 3840 4800;
      mkChunk 4800 6720; mkChunk 4800 6720; mkChunk 6720 8640; mkChunk 960 1920; mkChunk 1920 2880; mkChunk 3840 4800; mkChunk 4800 5760].
Proof.
  cbv zeta. split; [tune_tac|]. split; [compat_tac|]. split.
  { intros pre j mid x post E NJ I NX.
    destruct pre as [|z1 [|z2 pre]]; cbn [app] in E; inversion E; subst; clear E.
    - exfalso. apply NJ. split; reflexivity.
    - exfalso. apply NJ. split; reflexivity.
    - exfalso. unfold idle in I. inversion I as [|? ? _ I2]; subst. inversion I2 as [|? ? [[N _] _] _]; subst. discriminate. }
  split; [intros f H; vm_compute in H; inv H; unfold u32_max; lia|].
  split; [bare_tac|]. split; [repeat constructor|]. split; [exact case_outside|]. split; [signed_tac|]. split; [signed_tac|].
  split; [apply jump_ds; try reflexivity; vm_compute; lia|]. split.
  - eexists. split; [vm_compute; reflexivity|]. eexists. vm_compute. reflexivity.
  - eexists. split; [vm_compute; reflexivity|]. vm_compute. reflexivity.
Qed.

(** Without a jump: inside the first plain section, where the last variation ends, and from the beginning. *)
Example C82_plain_case :
  let a := [bar_at 960 []] in let x := bar_at 1920 [] in let y := bar_at 2880 [Segno] in let q := [bar_at 3840 [Start]; bar_at 4800 [End]] in
  let bars := a ++ x :: [] ++ y :: q in
  tune bars /\ Forall compatible bars /\ marked Dc bars = [] /\ marked Ds bars = [] /\
  (exists c, render_region four_four bars = Ret (Ok (c, []))) /\
  idle (x :: [] ++ [y]) /\ idle ((a ++ [x]) ++ [y]) /\ outside a q /\ outside [] q /\
  signed Start x (bar_at 1920 [Start]) /\ signed End y (bar_at 2880 [Segno; End]) /\
  (exists c, render_region four_four (a ++ bar_at 1920 [Start] :: [] ++ bar_at 2880 [Segno; End] :: q) = Ret (Ok (c, [])) /\
     to_chunks c = Ret [mkChunk 0 1920; mkChunk 1920 2880; mkChunk 1920 2880; mkChunk 2880 3840; mkChunk 3840 4800; mkChunk 3840 4800; mkChunk 4800 u32_max]) /\
  (exists c, render_region four_four ((a ++ [x]) ++ bar_at 2880 [Segno; End] :: q) = Ret (Ok (c, [])) /\
     to_chunks c = Ret [mkChunk 0 2880; mkChunk 0 2880; mkChunk 2880 3840; mkChunk 3840 4800; mkChunk 3840 4800; mkChunk 4800 u32_max]).
Proof.
  cbv zeta. split; [tune_tac|]. split; [compat_tac|]. split; [reflexivity|]. split; [reflexivity|].
  split; [eexists; vm_compute; reflexivity|]. split; [bare_tac|]. split; [bare_tac|].
  assert (Q : forall u z v, [bar_at 3840 [Start]; bar_at 4800 [End]] = u ++ z :: v -> idle u -> ~ (no_repeat z /\ no_var z) -> has z Start = true /\ has z End = false).
  { intros u z v E I _. destruct u as [|z1 u]; cbn [app] in E; inversion E; subst; [split; reflexivity|].
    exfalso. unfold idle in I. inversion I as [|? ? [[N _] _] _]; subst. discriminate. }
  split; [split; [|auto]; intros s (p & b & r & E & _ & H & _); destruct p as [|? [|? ?]]; cbn [app] in E; inversion E; subst; discriminate|].
  split; [split; [|auto]; intros s (p & b & r & E & _); destruct p; discriminate|].
  split; [signed_tac|]. split; [signed_tac|]. split; (eexists; split; [vm_compute; reflexivity|vm_compute; reflexivity]).
Qed.

(** Inside a repeat the signs are refused, whether its start is written or not. *)
Theorem C82_inside_refuted :
  (exists c, render_region four_four [bar_at 960 [Start]; bar_at 1920 []; bar_at 2880 []; bar_at 3840 [End]] = Ret (Ok (c, []))) /\
  render_region four_four [bar_at 960 [Start]; bar_at 1920 [Start]; bar_at 2880 [End]; bar_at 3840 [End]] = Ret (Err (DuplicatedRepeatStart 1920)) /\
  (exists c, render_region four_four [bar_at 1920 []; bar_at 2880 []; bar_at 3840 [End]] = Ret (Ok (c, []))) /\
  render_region four_four [bar_at 1920 [Start]; bar_at 2880 [End]; bar_at 3840 [End]] = Ret (Err (OrphanRepeatEnd 3840)).
Proof. split; [eexists; vm_compute; reflexivity|]. split; [vm_compute; reflexivity|]. split; [eexists; vm_compute; reflexivity|]. vm_compute. reflexivity. Qed.
Print Assumptions C82_inside_refuted.

(** A project with that score, whose two bar lines are drawn again. *)
Definition case_bars : list bar := [bar_at 960 []; bar_at 1920 []; bar_at 2880 [Segno]; bar_at 3840 [Start]; bar_at 4800 [End]].
Definition case_project : project := mkProject rhythm_default 0 60 [] (map (fun b => (b_tick b, b)) case_bars) [] [] [].
Example C82_project_case : project_ok case_project /\
  score case_project = [bar_at 960 []] ++ bar_at 1920 [] :: [] ++ bar_at 2880 [Segno] :: [bar_at 3840 [Start]; bar_at 4800 [End]] /\
  Forall (fun b => b_tick b <> u32_max) (score case_project) /\
  exists p1 k p' k' c w, edit_run (EAddBar (bar_at 1920 [Start])) case_project = Ret (Some (p1, k)) /\
    edit_run (EAddBar (bar_at 2880 [Segno; End])) p1 = Ret (Some (p', k')) /\ render_project p' = Ret (Ok (c, w)) /\
    to_chunks c = Ret [mkChunk 0 1920; mkChunk 1920 2880; mkChunk 1920 2880; mkChunk 2880 3840; mkChunk 3840 4800; mkChunk 3840 4800; mkChunk 4800 u32_max].
Proof.
  split; [constructor; (split; [repeat constructor|T_Project.in_list]); (split; [reflexivity|unfold Base.u32, u32_max; cbn; lia])|].
  split; [reflexivity|]. split; [repeat (apply Forall_cons; [unfold u32_max; cbn; lia|]); apply Forall_nil|].
  do 6 eexists. split; [vm_compute; reflexivity|]. split; [vm_compute; reflexivity|]. split; [vm_compute; reflexivity|]. vm_compute. reflexivity.
Qed.
