(** Lemmas for C75. *)
From Coq Require Import ZArith List Bool Lia.
From Verif Require Import Base M_Duration M_Scalar M_Bar M_Repeat S_Repeat S_Stretch P_Base T_Score.
Import ListNotations.
Open Scope Z_scope.

Lemma both_bind {A B A' B'} (P : A -> A' -> Prop) (Q : B -> B' -> Prop) o o' k k' :
  both P o o' -> (forall a a', P a a' -> both Q (k a) (k' a')) -> both Q (bind o k) (bind o' k').
Proof. destruct o, o'; cbn; intros H K; try contradiction; auto. Qed.
Lemma both_weaken {A B} (P Q : A -> B -> Prop) o o' : (forall a b, P a b -> Q a b) -> both P o o' -> both Q o o'.
Proof. intros W. destruct o, o'; cbn; auto. Qed.
Lemma both_mapM {A B A' B'} (P : A -> A' -> Prop) (Q : B -> B' -> Prop) f f' l l' :
  Forall2 P l l' -> (forall a a', P a a' -> both Q (f a) (f' a')) -> both (Forall2 Q) (omapM f l) (omapM f' l').
Proof.
  intros H K. induction H as [|a a' l l' H _ IH]; cbn [omapM]; [constructor|].
  apply (both_bind Q); [auto|]. intros b b' Hb. apply (both_bind (Forall2 Q)); [exact IH|]. intros c c' Hc. constructor; auto.
Qed.
Lemma Forall2_flat {A B A' B'} (P : A -> A' -> Prop) (Q : B -> B' -> Prop) f f' l l' :
  Forall2 P l l' -> (forall a a', P a a' -> Forall2 Q (f a) (f' a')) -> Forall2 Q (flat_map f l) (flat_map f' l').
Proof. intros H K. induction H; cbn; [constructor|]. apply Forall2_app; auto. Qed.
Lemma Forall2_concat {A A'} (P : A -> A' -> Prop) l l' : Forall2 (Forall2 P) l l' -> Forall2 P (concat l) (concat l').
Proof. induction 1; cbn; [constructor|]. apply Forall2_app; auto. Qed.
Lemma Forall2_nth {A} (P : A -> A -> Prop) l l' n : Forall2 P l l' -> moved_opt P (nth_error l n) (nth_error l' n).
Proof. intros H. revert n. induction H; intros [|n]; cbn; auto. Qed.

Lemma Forall2_len {A B} (P : A -> B -> Prop) l m : Forall2 P l m -> length l = length m.
Proof. induction 1; cbn; auto. Qed.

Section Stretch.
Variable to : Z -> Z -> Prop.
Hypothesis S : stretch to.

Lemma to_lt a a' b b' : to a a' -> to b b' -> (a <? b) = (a' <? b').
Proof. intros A B. pose proof (to_order to S _ _ _ _ A B). destruct (Z.ltb_spec a b), (Z.ltb_spec a' b'); auto; lia. Qed.
Lemma to_le a a' b b' : to a a' -> to b b' -> (a <=? b) = (a' <=? b').
Proof. intros A B. pose proof (to_order to S _ _ _ _ B A). destruct (Z.leb_spec a b), (Z.leb_spec a' b'); auto; lia. Qed.
Lemma to_eq a a' b b' : to a a' -> to b b' -> (a =? b) = (a' =? b').
Proof.
  intros A B. pose proof (to_order to S _ _ _ _ B A). pose proof (to_order to S _ _ _ _ A B).
  destruct (Z.eqb_spec a b), (Z.eqb_spec a' b'); auto; lia.
Qed.
Lemma to_max a a' b b' : to a a' -> to b b' -> to (Z.max a b) (Z.max a' b').
Proof.
  intros A B. pose proof (to_order to S _ _ _ _ A B) as O. destruct (Z.max_spec a b) as [[H ->]|[H ->]].
  - rewrite Z.max_r by lia. auto.
  - rewrite Z.max_l by lia. auto.
Qed.
Lemma to_min a a' b b' : to a a' -> to b b' -> to (Z.min a b) (Z.min a' b').
Proof.
  intros A B. pose proof (to_order to S _ _ _ _ A B) as O. destruct (Z.min_spec a b) as [[H ->]|[H ->]].
  - rewrite Z.min_l by lia. auto.
  - pose proof (to_order to S _ _ _ _ B A) as O'. rewrite Z.min_r by lia. auto.
Qed.
Lemma to_zero a a' : to a a' -> (a =? 0) = (a' =? 0).
Proof. intros A. apply to_eq; [exact A|apply (to_begin to S)]. Qed.
Lemma to_fun a b c : to a b -> to a c -> b = c.
Proof. intros B C. pose proof (to_order to S _ _ _ _ B C). pose proof (to_order to S _ _ _ _ C B). lia. Qed.

(** ** Interval sets *)
Notation ivs := (Forall2 (moved_interval to)).
Lemma insert_to i j l m : moved_interval to i j -> ivs l m -> ivs (iv_insert i l) (iv_insert j m).
Proof.
  intros I H. induction H as [|a b l m H F IH]; cbn [iv_insert]; [constructor; auto|].
  rewrite (to_le (fst i) (fst j) (fst a) (fst b)) by (apply I || apply H). destruct (fst j <=? fst b); constructor; auto.
Qed.
Lemma sort_to l m : ivs l m -> ivs (iv_sort l) (iv_sort m).
Proof. unfold iv_sort. induction 1; cbn; [constructor|]. apply insert_to; auto. Qed.
Lemma join_to l m : ivs l m -> forall i j, moved_interval to i j -> ivs (iv_join i l) (iv_join j m).
Proof.
  induction 1 as [|[lo hi] [lo' hi'] l m H F IH]; intros i j I; cbn [iv_join]; [constructor; auto|].
  destruct H as [H1 H2], I as [I1 I2]. cbn [fst snd] in *.
  rewrite (to_le lo lo' (snd i + 1) (snd j + 1)) by assumption. destruct (lo' <=? snd j + 1).
  - apply IH. split; cbn [fst snd]; [exact I1|]. rewrite <- !Z.add_max_distr_r. apply to_max; auto.
  - constructor; [split; auto|]. apply IH. split; auto.
Qed.
Lemma normal_to l m : ivs l m -> ivs (iv_normal l) (iv_normal m).
Proof. intros H. apply sort_to in H. unfold iv_normal. destruct H; [constructor|]. apply join_to; auto. Qed.
Lemma iset_of_to l m : ivs l m -> both ivs (iset_of l) (iset_of m).
Proof.
  intros H. unfold iset_of.
  assert (E : forallb (fun i => fst i <=? snd i) l = forallb (fun i => fst i <=? snd i) m).
  { induction H as [|a b l m [H1 H2] F IH]; cbn; auto. f_equal; auto.
    pose proof (to_lt _ _ _ _ H1 H2). destruct (Z.leb_spec (fst a) (snd a)), (Z.leb_spec (fst b) (snd b)); auto; lia. }
  rewrite E. destruct (forallb _ m); cbn; auto. apply normal_to; auto.
Qed.
Lemma union_to a b c d : ivs a c -> ivs b d -> ivs (iset_union a b) (iset_union c d).
Proof. intros. apply normal_to, Forall2_app; auto. Qed.
Lemma inter_to a b c d : ivs a c -> ivs b d -> ivs (iset_inter a b) (iset_inter c d).
Proof.
  intros H K. unfold iset_inter. apply (Forall2_flat (moved_interval to)); [exact H|]. intros i j [I1 I2].
  apply (Forall2_flat (moved_interval to)); [exact K|]. intros k m [K1 K2]. cbv zeta.
  pose proof (to_max _ _ _ _ I1 K1) as L. pose proof (to_min _ _ _ _ I2 K2) as M. rewrite !Z.add_min_distr_r in M.
  pose proof (to_lt _ _ _ _ L M) as E.
  destruct (Z.leb_spec (Z.max (fst i) (fst k)) (Z.min (snd i) (snd k))), (Z.leb_spec (Z.max (fst j) (fst m)) (Z.min (snd j) (snd m))); try lia; constructor; [split; assumption|constructor].
Qed.

Lemma pred_to a a' : to a a' -> both (fun x y => to (x + 1) (y + 1)) (chk_u32 (a - 1)) (chk_u32 (a' - 1)).
Proof.
  intros A. destruct (to_range to S _ _ A) as [U U']. pose proof (to_zero _ _ A) as E. unfold chk_u32.
  destruct (Z.eqb_spec a 0) as [->|N], (Z.eqb_spec a' 0) as [->|N']; try discriminate; [exact Logic.I|].
  rewrite !chk_ret by lia. cbn [both]. rewrite !Z.sub_add. exact A.
Qed.
Lemma succ_to a a' : to (a + 1) (a' + 1) -> both to (chk_u32 (a + 1)) (chk_u32 (a' + 1)).
Proof. intros A. destruct (to_range to S _ _ A) as [U U']. unfold chk_u32. rewrite !chk_ret by assumption. exact A. Qed.

(** ** Regions *)
Lemma range_to r s : moved_pair to r s -> both ivs (range_interval_set r) (range_interval_set s).
Proof.
  intros [A B]. unfold range_interval_set. apply (both_bind (fun x y => to (x + 1) (y + 1))); [apply pred_to, B|].
  intros x y H. apply iset_of_to. constructor; [split; assumption|constructor].
Qed.
Lemma last_to vs ws : Forall2 (moved_pair to) vs ws -> both (moved_pair to) (last_variation vs) (last_variation ws).
Proof.
  intros H. destruct H as [|v w vs ws H F]; [exact Logic.I|]. cbn [last_variation both]. revert v w H.
  induction F as [|a b vs ws K F IH]; intros v w H; [exact H|]. cbn [last]. destruct F; [exact K|]. apply (IH v w H).
Qed.
Lemma iter1_to x y : moved_region to x y -> both ivs (iter1_interval_set x) (iter1_interval_set y).
Proof.
  destruct x, y; cbn [moved_region iter1_interval_set]; try contradiction; intros H; [apply range_to, H|apply range_to, H|].
  destruct H as [H1 H2]. apply (both_bind ivs); [apply range_to, H1|]. intros a c A.
  apply (both_bind (moved_pair to)); [apply last_to, H2|]. intros v w V.
  apply (both_bind ivs); [apply range_to, V|]. intros b d B. apply union_to; auto.
Qed.
Lemma iter1_chunks_to g h x y : moved_global to g h -> moved_region to x y ->
  both (Forall2 (moved_chunk to)) (to_iter1_chunks g x) (to_iter1_chunks h y).
Proof.
  intros (_ & _ & _ & _ & G) H. unfold to_iter1_chunks. apply (both_bind ivs); [apply iter1_to, H|]. intros a b A.
  apply (both_mapM (moved_interval to)); [apply inter_to; auto|]. intros i j [I1 I2].
  apply (both_bind to); [apply succ_to, I2|]. intros e f E. split; assumption.
Qed.
Lemma full_to c d vs ws : moved_pair to c d -> Forall2 (moved_pair to) vs ws ->
  Forall2 (moved_chunk to) (variation_full c vs) (variation_full d ws).
Proof. intros C H. apply (Forall2_flat (moved_pair to)); [exact H|]. intros v w V. repeat constructor; apply C || apply V. Qed.

Definition moved_phase (p q : phase) : Prop :=
  match p, q with
  | NonDcDs, NonDcDs => True
  | DcDsIter0 d, DcDsIter0 e => to d e
  | DcDsIter1 g, DcDsIter1 h => moved_global to g h
  | _, _ => False
  end.
Lemma render_chunks_to p q x y : moved_phase p q -> moved_region to x y ->
  both (Forall2 (moved_chunk to)) (render_chunks p x) (render_chunks q y).
Proof.
  intros P H. destruct p as [|d|g], q as [|d'|g']; try contradiction.
  - destruct x as [[s e]|[s e]|c vs], y as [[s' e']|[s' e']|c' vs']; cbn in H; try contradiction; cbn [render_chunks both].
    + repeat constructor; apply H.
    + repeat constructor; apply H.
    + apply full_to; apply H.
  - cbn in P. destruct x as [[s e]|[s e]|c vs], y as [[s' e']|[s' e']|c' vs']; cbn in H; try contradiction; cbn [render_chunks].
    + destruct H as [H1 H2]. cbn [fst snd] in *. rewrite (to_le e e' d d'), (to_lt s s' d d'), (to_lt d d' e e') by assumption.
      destruct (e' <=? d'); [|destruct ((s' <? d') && (d' <? e'))]; cbn; repeat constructor; assumption.
    + destruct H as [H1 H2]. cbn [fst snd] in *. rewrite (to_le e e' d d'), (to_lt e e' d d'), (to_lt d d' e e') by assumption.
      destruct (e' <=? d'); [|destruct ((e' <? d') && (d' <? e'))]; cbn; repeat constructor; assumption.
    + destruct H as [H1 H2]. rewrite (to_le d d' (fst c) (fst c')) by (assumption || apply H1).
      destruct (d' <=? fst c'); [constructor|]. apply (both_bind (moved_pair to)); [apply last_to, H2|]. intros v w V.
      rewrite (to_lt d d' (snd v) (snd w)) by (assumption || apply V). destruct (d' <? snd w); [exact Logic.I|]. apply full_to; auto.
  - cbn in P. pose proof (iter1_chunks_to g g' x y P H) as K. destruct x as [[? ?]|[? ?]|], y as [[? ?]|[? ?]|]; try contradiction; exact K.
Qed.

Lemma to_chunks_to c d : moved_compound to c d -> moved_chunks to (to_chunks c) (to_chunks d).
Proof.
  intros [G R]. unfold to_chunks, moved_chunks. destruct (cp_global c) as [g|], (cp_global d) as [h|]; cbn in G; try contradiction.
  - apply (both_bind (Forall2 (Forall2 (moved_chunk to)))).
    { apply (both_mapM (moved_region to)); [exact R|]. intros x y H. apply render_chunks_to; [|exact H]. cbn.
      destruct G as [G _]. destruct (gr_ds_dc g), (gr_ds_dc h); cbn in *; try contradiction; tauto. }
    intros a b A. apply (both_bind (Forall2 (Forall2 (moved_chunk to)))).
    { apply (both_mapM (moved_region to)); [exact R|]. intros x y H. apply render_chunks_to; [exact G|exact H]. }
    intros a' b' A'. apply Forall2_app; apply Forall2_concat; auto.
  - apply (both_bind (Forall2 (Forall2 (moved_chunk to)))).
    { apply (both_mapM (moved_region to)); [exact R|]. intros x y H. apply render_chunks_to; [exact Logic.I|exact H]. }
    intros a b A. apply Forall2_concat; auto.
Qed.

(** ** Jumps *)
Definition moved_builder (g h : gr_builder) : Prop :=
  moved_opt (fun x y => match x, y with
    | JDc t l, JDc u m => to t u /\ (l = 0 /\ m = 0 \/ gb_first_bar_len g = Some l /\ gb_first_bar_len h = Some m)
    | JDs t, JDs u => to t u
    | _, _ => False end) (gb_ds_dc g) (gb_ds_dc h) /\
  moved_opt to (gb_fine g) (gb_fine h) /\ moved_opt to (gb_segno g) (gb_segno h) /\
  moved_opt (fun x y => match x, y with
    | CodaOne t, CodaOne u => to t u
    | CodaTwo t t', CodaTwo u u' => to t u /\ to t' u'
    | _, _ => False end) (gb_coda g) (gb_coda h) /\
  moved_opt to (gb_first_bar_len g) (gb_first_bar_len h) /\ gb_top_rhythm g = gb_top_rhythm h.

Lemma either_then {A B E} (P : A -> A -> Prop) (Q : B -> B -> Prop) (X : E -> E -> Prop) r s k k' :
  either P X r s -> (forall a b, P a b -> either Q X (k a) (k' b)) -> either Q X (and_then r k) (and_then s k').
Proof. destruct r, s; cbn; auto; contradiction. Qed.

Ltac open_builder := intros [j f s c l r] [j' f' s' c' l' r'];
  unfold moved_builder; cbn [gb_ds_dc gb_fine gb_segno gb_coda gb_first_bar_len gb_top_rhythm];
  intros (J & F & G & C & L & R).
Ltac shut_builder := unfold either, moved_builder; cbn [gb_ds_dc gb_fine gb_segno gb_coda gb_first_bar_len gb_top_rhythm moved_opt].

Lemma adding_dc_to t t' : to t t' -> forall g h, moved_builder g h ->
  either moved_builder (moved_error to)
    (adding_ds_dc (JDc t (match gb_first_bar_len g with Some l => l | None => 0 end)) g)
    (adding_ds_dc (JDc t' (match gb_first_bar_len h with Some l => l | None => 0 end)) h).
Proof.
  intros T. open_builder. unfold adding_ds_dc. cbn [gb_ds_dc gb_fine gb_segno gb_coda gb_first_bar_len gb_top_rhythm].
  destruct j as [[a b|a]|], j' as [[a' b'|a']|]; cbn in J; try contradiction; shut_builder.
  - split; [apply J|exact T].
  - split; [apply J|exact T].
  - split; [split; [exact T|]|auto 6]. destruct l, l'; cbn in L; try contradiction; auto.
Qed.
Lemma adding_ds_to t t' : to t t' -> forall g h, moved_builder g h ->
  either moved_builder (moved_error to) (adding_ds_dc (JDs t) g) (adding_ds_dc (JDs t') h).
Proof.
  intros T. open_builder. unfold adding_ds_dc. cbn [gb_ds_dc gb_fine gb_segno gb_coda gb_first_bar_len gb_top_rhythm].
  destruct j as [[a b|a]|], j' as [[a' b'|a']|]; cbn in J; try contradiction; shut_builder.
  - split; [apply J|exact T].
  - split; [apply J|exact T].
  - auto 10.
Qed.
Lemma adding_fine_to t t' : to t t' -> forall g h, moved_builder g h ->
  either moved_builder (moved_error to) (adding_fine t g) (adding_fine t' h).
Proof.
  intros T. open_builder. unfold adding_fine. cbn [gb_ds_dc gb_fine gb_segno gb_coda gb_first_bar_len gb_top_rhythm].
  destruct f, f'; cbn in F; try contradiction; shut_builder; [split; assumption|auto 10].
Qed.
Lemma adding_segno_to t t' : to t t' -> forall g h, moved_builder g h ->
  either moved_builder (moved_error to) (adding_segno t g) (adding_segno t' h).
Proof.
  intros T. open_builder. unfold adding_segno. cbn [gb_ds_dc gb_fine gb_segno gb_coda gb_first_bar_len gb_top_rhythm].
  destruct s, s'; cbn in G; try contradiction; shut_builder; [split; assumption|auto 10].
Qed.
Lemma adding_coda_to t t' : to t t' -> forall g h, moved_builder g h ->
  either moved_builder (moved_error to) (adding_coda t g) (adding_coda t' h).
Proof.
  intros T. open_builder. unfold adding_coda. cbn [gb_ds_dc gb_fine gb_segno gb_coda gb_first_bar_len gb_top_rhythm].
  destruct c as [[c|c d]|], c' as [[c'|c' d']|]; cbn in C; try contradiction; shut_builder; cbn [moved_error]; tauto.
Qed.
Lemma length_to b b' : moved_bar to b b' -> forall g h, moved_builder g h -> moved_builder (on_bar_length b g) (on_bar_length b' h).
Proof.
  intros (T & _ & Q). open_builder. unfold on_bar_length. cbn [gb_ds_dc gb_fine gb_segno gb_coda gb_first_bar_len gb_top_rhythm].
  rewrite <- (to_zero _ _ T). destruct l, l'; cbn in L; try contradiction; [unfold moved_builder; cbn; tauto|].
  assert (J' : forall x x', moved_opt (fun x0 y => match x0, y with
    | JDc t l, JDc u m => to t u /\ (l = 0 /\ m = 0 \/ x = Some l /\ x' = Some m)
    | JDs t, JDs u => to t u
    | _, _ => False end) j j').
  { intros x x'. destruct j as [[a b0|a]|], j' as [[a' b'0|a']|]; cbn in J |- *; try contradiction; auto.
    destruct J as [J [J2|[J2 _]]]; [auto|discriminate]. }
  destruct (Z.eqb_spec (b_tick b) 0) as [E|E].
  - rewrite <- (Q E). destruct (b_rhythm b); shut_builder; auto 10.
  - shut_builder. auto 10.
Qed.
Lemma has_to b b' m : moved_bar to b b' -> has b m = has b' m.
Proof. intros (_ & M & _). unfold has. now rewrite M. Qed.
Lemma on_bar_to b b' g h : moved_bar to b b' -> moved_builder g h -> either moved_builder (moved_error to) (on_bar b g) (on_bar b' h).
Proof.
  intros B H. pose proof (length_to b b' B g h H) as K. pose proof (proj1 B) as T. unfold on_bar. rewrite !(has_to b b' _ B).
  remember (on_bar_length b g) as g1. remember (on_bar_length b' h) as h1. clear - K T S.
  apply (either_then moved_builder); [destruct (has b' Dc); [apply adding_dc_to; auto|exact K]|]. clear g1 h1 K. intros g1 h1 K.
  apply (either_then moved_builder); [destruct (has b' Ds); [apply adding_ds_to; auto|exact K]|]. clear g1 h1 K. intros g1 h1 K.
  apply (either_then moved_builder); [destruct (has b' Fine); [apply adding_fine_to; auto|exact K]|]. clear g1 h1 K. intros g1 h1 K.
  apply (either_then moved_builder); [destruct (has b' Segno); [apply adding_segno_to; auto|exact K]|]. clear g1 h1 K. intros g1 h1 K.
  destruct (has b' Coda); [apply adding_coda_to; auto|exact K].
Qed.

Lemma check_to a a' b b' f f' : to a a' -> to b b' -> moved_opt to f f' ->
  either (fun _ _ => True) (moved_error to) (check_coda_pos a b f) (check_coda_pos a' b' f').
Proof.
  intros A B F. destruct f as [f|], f' as [f'|]; cbn in F; try contradiction; cbn [check_coda_pos]; [|exact Logic.I].
  rewrite (to_lt f f' b b') by assumption. destruct (f' <? b'); cbn; auto.
Qed.
Lemma iter1_set_to a a' f f' c c' : to a a' -> moved_opt to f f' -> moved_opt (moved_pair to) c c' ->
  both ivs (to_interval_set a f c) (to_interval_set a' f' c').
Proof.
  intros A F C. unfold to_interval_set.
  assert (E : to (match f with Some f => f | None => u32_max end) (match f' with Some f => f | None => u32_max end)).
  { destruct f, f'; cbn in F; try contradiction; [exact F|apply (to_end to S)]. }
  remember (match f with Some f => f | None => u32_max end) as e. remember (match f' with Some f => f | None => u32_max end) as e'.
  destruct c as [[x y]|], c' as [[x' y']|]; cbn in C; try contradiction.
  - destruct C as [C1 C2]. cbn [fst snd] in *. apply (both_bind (fun x y => to (x + 1) (y + 1))); [apply pred_to, C1|]. intros u v U.
    apply (both_bind (fun x y => to (x + 1) (y + 1))); [apply pred_to, E|]. intros u2 v2 U2. apply iset_of_to.
    constructor; [split; assumption|]. constructor; [split; assumption|constructor].
  - rewrite (to_le e e' a a') by assumption. destruct (e' <=? a'); [apply iset_of_to; constructor|].
    apply (both_bind (fun x y => to (x + 1) (y + 1))); [apply pred_to, E|]. intros u v U. apply iset_of_to.
    constructor; [split; assumption|constructor].
Qed.

Lemma build_to g h : moved_builder g h ->
  (forall t x, gb_ds_dc g <> Some (JDc t x)) \/ gb_segno g <> None \/ gb_first_bar_len g = gb_first_bar_len h ->
  both (either (fun x y => moved_opt (moved_global to) (fst x) (fst y) /\ Forall2 (moved_warning to) (snd x) (snd y)) (moved_error to)) (gb_build g) (gb_build h).
Proof.
  revert g h. open_builder. intros Y. unfold gb_build. cbn [gb_ds_dc gb_fine gb_segno gb_coda gb_first_bar_len gb_top_rhythm].
  destruct j as [[t n|t]|], j' as [[t' n'|t']|]; cbn [moved_opt] in J; try contradiction; [| |split; [exact Logic.I|constructor]].
  - destruct J as [T N]. destruct l as [l|], l' as [l'|]; cbn in L; try contradiction; [|split; [exact Logic.I|constructor]].
    assert (NN : to n n') by (destruct N as [[-> ->]|[N1 N2]]; [apply (to_begin to S)|inversion N1; inversion N2; subst; exact L]).
    apply (both_bind (fun x y => to (fst x) (fst y) /\ Forall2 (moved_warning to) (snd x) (snd y))).
    { destruct s as [s|], s' as [s'|]; cbn in G; try contradiction; [split; [exact G|]; repeat constructor; assumption|].
      destruct Y as [Y|[Y|Y]]; [destruct (Y _ _ eq_refl)|congruence|]. inversion Y. subst l'. subst r'.
      assert (n = n') as <- by (destruct N as [[-> ->]|[N1 N2]]; congruence).
      destruct (chk_u32 (n + l)) as [sum| |]; cbn [bind both]; auto. split; [|constructor]. cbn [fst].
      destruct (sum =? rhythm_tick_len r); [apply (to_begin to S)|].
      destruct ((n =? rhythm_tick_len r) && (l =? rhythm_tick_len r)); [apply (to_begin to S)|exact L]. }
    intros [sg w] [sg' w'] [SG W]. cbn [fst snd] in *.
    assert (K : either (fun x y => moved_opt (moved_pair to) (fst x) (fst y) /\ Forall2 (moved_warning to) (snd x) (snd y)) (moved_error to)
      match c with None => Ok (None, w) | Some (CodaOne t) => Ok (None, w ++ [OrphanCodaFound t])
        | Some (CodaTwo from to) => and_then (check_coda_pos from to f) (fun _ => Ok (Some (from, to), w)) end
      match c' with None => Ok (None, w') | Some (CodaOne t) => Ok (None, w' ++ [OrphanCodaFound t])
        | Some (CodaTwo from to) => and_then (check_coda_pos from to f') (fun _ => Ok (Some (from, to), w')) end).
    { destruct c as [[c|c d]|], c' as [[c'|c' d']|]; cbn in C; try contradiction.
      - split; [exact Logic.I|]. apply Forall2_app; [exact W|]. repeat constructor. exact C.
      - destruct C as [C1 C2]. apply (either_then (fun _ _ => True)); [apply check_to; assumption|]. intros _ _ _. split; [split; assumption|exact W].
      - split; [exact Logic.I|exact W]. }
    match goal with |- both _ (match ?a with _ => _ end) (match ?b with _ => _ end) => destruct a as [[k v]|e], b as [[k' v']|e'] end; try contradiction; [|exact K].
    destruct K as [K1 K2]. cbn [fst snd] in *. apply (both_bind ivs); [apply iter1_set_to; assumption|]. intros a b A.
    split; [|exact K2]. split; [split; [exact T|exact NN]|]. cbn. auto.
  - destruct s as [s|], s' as [s'|]; cbn in G; try contradiction; [|exact J].
    assert (K : either (moved_opt (moved_pair to)) (moved_error to)
      match c with None => Ok None | Some (CodaOne t) => Err (OnlyOneCoda t)
        | Some (CodaTwo from to) => and_then (check_coda_pos from to f) (fun _ => Ok (Some (from, to))) end
      match c' with None => Ok None | Some (CodaOne t) => Err (OnlyOneCoda t)
        | Some (CodaTwo from to) => and_then (check_coda_pos from to f') (fun _ => Ok (Some (from, to))) end).
    { destruct c as [[c|c d]|], c' as [[c'|c' d']|]; cbn in C; try contradiction.
      - exact C.
      - destruct C as [C1 C2]. apply (either_then (fun _ _ => True)); [apply check_to; assumption|]. intros _ _ _. split; assumption.
      - exact Logic.I. }
    match goal with |- both _ (match ?a with _ => _ end) (match ?b with _ => _ end) => destruct a as [k|e], b as [k'|e'] end; try contradiction; [|exact K].
    cbn in K. apply (both_bind ivs); [apply iter1_set_to; assumption|]. intros a b A.
    split; [|constructor]. split; [exact J|]. cbn. auto.
Qed.

(** ** The state machine *)
Definition moved_state (x y : rr_state) : Prop :=
  match x, y with
  | SIdle, SIdle => True
  | SSeq s, SSeq t => to s t
  | SRepeat s, SRepeat t => to s t
  | SVariation s l, SVariation t m => to s t /\ Forall2 to l m
  | _, _ => False
  end.
Lemma ranges_to l m : Forall2 to l m -> forall t t' e e', to t t' -> to e e' ->
  Forall2 (moved_pair to) (variation_ranges t l e) (variation_ranges t' m e').
Proof. induction 1; intros t t' e e' T E; cbn [variation_ranges]; constructor; auto; split; assumption. Qed.

Notation moved_step := (both (either (fun x y => moved_state (fst x) (fst y) /\ Forall2 (moved_region to) (snd x) (snd y)) (moved_error to))).

Lemma step_to sg sg' b b' st st' : moved_opt to sg sg' -> moved_bar to b b' -> moved_state st st' ->
  moved_step (rr_step sg b st) (rr_step sg' b' st').
Proof.
  intros G B H. pose proof (proj1 B) as T. pose proof (to_begin to S) as Z0. unfold rr_step. rewrite !(has_to b b' _ B).
  replace (b_marks b) with (b_marks b') by (destruct B as (_ & -> & _); reflexivity).
  destruct st as [|s|s|s l], st' as [|s'|s'|s' l']; cbn in H; try contradiction.
  - destruct (has b' Start), (has b' End); cbn [andb]; [| | |destruct (region_index (b_marks b')) as [[]|]];
      cbn; repeat split; repeat constructor; assumption.
  - destruct (has b' End); [exact T|]. destruct (has b' Start); cbn; repeat split; repeat constructor; assumption.
  - destruct (has b' Start), (has b' End); cbn [andb]; [| | |destruct (has b' Dc || has b' Ds); [|destruct (region_index (b_marks b')) as [[]|]]];
      cbn; repeat split; repeat constructor; assumption.
  - destruct H as [H K]. destruct (has b' End); [exact T|]. rewrite (Forall2_len to _ _ K).
    destruct (region_index (b_marks b')) as [ri|].
    + destruct (has b' Dc || has b' Ds); [exact T|]. destruct (var_value ri =? as_u8 (Z.of_nat (length l'))).
      { cbn. repeat split; auto. }
      destruct (chk_u8 (as_u8 (Z.of_nat (length l')) + 1)) as [nx| |]; cbn [bind both]; auto.
      destruct (var_value ri =? nx).
      { cbn. repeat split; auto. apply Forall2_app; auto. }
      destruct (var_from_value nx) as [ex|]; cbn; auto.
    + pose proof (Forall2_nth to l l' (length l' - 1) K) as N.
      destruct K as [|a a' l l' A K]; [exact Logic.I|].
      change (index (a :: l) 0) with (Ret a). change (index (a' :: l') 0) with (Ret a'). cbn [bind].
      destruct (nth_error (a :: l) (length (a' :: l') - 1)) as [z|], (nth_error (a' :: l') (length (a' :: l') - 1)) as [z'|]; cbn in N; try contradiction; [|exact Logic.I].
      cbn [unwrap_opt bind].
      match goal with |- both _ (if ?x then _ else _) (if ?y then _ else _) => assert (E : x = y); [|rewrite E; destruct y; [exact T|]] end.
      { destruct sg as [g|], sg' as [g'|]; cbn in G; try contradiction; [|reflexivity]. rewrite (to_le a a' g g'), (to_lt g g' z z') by assumption. reflexivity. }
      cbn [create_variation bind both either fst snd]. split; [destruct (has b' Start); exact T|].
      constructor; [|constructor]. split; [split; assumption|]. apply ranges_to; assumption.
Qed.

Lemma loop_to bars bars' : Forall2 (moved_bar to) bars bars' -> forall g h st st' regs regs',
  moved_builder g h -> moved_state st st' -> Forall2 (moved_region to) regs regs' ->
  both (either (fun x y => moved_builder (fst (fst x)) (fst (fst y)) /\ moved_state (snd (fst x)) (snd (fst y)) /\ Forall2 (moved_region to) (snd x) (snd y)) (moved_error to))
    (rr_loop g st regs bars) (rr_loop h st' regs' bars').
Proof.
  induction 1 as [|b b' bars bars' B F IH]; intros g h st st' regs regs' G H R; cbn [rr_loop]; [cbn; auto|].
  pose proof (on_bar_to b b' g h B G) as K. destruct (on_bar b g) as [g1|e], (on_bar b' h) as [h1|e']; try contradiction; [|exact K].
  cbn in K. assert (SG : moved_opt to (gb_segno g1) (gb_segno h1)) by apply K.
  apply (both_bind (either (fun x y => moved_state (fst x) (fst y) /\ Forall2 (moved_region to) (snd x) (snd y)) (moved_error to))).
  { apply step_to; auto. }
  intros [[s1 n1]|e] [[s2 n2]|e'] Q; try contradiction; [|exact Q]. destruct Q as [Q1 Q2]. apply IH; auto. apply Forall2_app; auto.
Qed.

Lemma keep_ds_dc j g g' : adding_ds_dc j g = Ok g' -> gb_segno g' = gb_segno g.
Proof. unfold adding_ds_dc. destruct (gb_ds_dc g); intros H; inv H. reflexivity. Qed.
Lemma keep_fine t g g' : adding_fine t g = Ok g' -> gb_segno g' = gb_segno g.
Proof. unfold adding_fine. destruct (gb_fine g); intros H; inv H. reflexivity. Qed.
Lemma keep_coda t g g' : adding_coda t g = Ok g' -> gb_segno g' = gb_segno g.
Proof. unfold adding_coda. destruct (gb_coda g) as [[|]|]; intros H; inv H; reflexivity. Qed.
Lemma loop_segno bars : forall g st regs g' st' regs', rr_loop g st regs bars = Ret (Ok (g', st', regs')) ->
  gb_segno g <> None \/ marked Segno bars <> [] -> gb_segno g' <> None.
Proof.
  induction bars as [|b bars IH]; intros g st regs g' st' regs' E M; cbn [rr_loop] in E.
  - apply ret_inj in E. inv E. destruct M as [M|M]; [exact M|destruct (M eq_refl)].
  - destruct (on_bar b g) as [g1|] eqn:O; [|discriminate]. apply bind_ret in E as ([[st1 new]|e] & _ & E); [|discriminate].
    eapply IH; [exact E|]. unfold marked in M. cbn [filter] in M. destruct (has b Segno) eqn:D; [left|].
    + unfold on_bar in O. rewrite D in O.
      destruct (if has b Dc then _ else _) as [g2|]; [|discriminate]. cbn [and_then] in O.
      destruct (if has b Ds then _ else _) as [g3|]; [|discriminate]. cbn [and_then] in O.
      destruct (if has b Fine then _ else _) as [g4|]; [|discriminate]. cbn [and_then] in O.
      unfold adding_segno in O. destruct (gb_segno g4); [discriminate|]. cbn [and_then] in O.
      destruct (has b Coda); [|inv O; cbn; discriminate]. unfold adding_coda in O. cbn [gb_coda gb_segno] in O.
      destruct (gb_coda g4) as [[|]|]; inv O; cbn; discriminate.
    + destruct M as [M|M]; [left|right; exact M]. unfold on_bar in O. rewrite D in O.
      assert (M1 : gb_segno (on_bar_length b g) <> None).
      { unfold on_bar_length. destruct (gb_first_bar_len g); [exact M|]. destruct (b_tick b =? 0); [destruct (b_rhythm b)|]; exact M. }
      destruct (if has b Dc then _ else _) as [g2|] eqn:O2; [|discriminate]. cbn [and_then] in O.
      destruct (if has b Ds then _ else _) as [g3|] eqn:O3; [|discriminate]. cbn [and_then] in O.
      destruct (if has b Fine then _ else _) as [g4|] eqn:O4; [|discriminate]. cbn [and_then] in O.
      assert (E2 : gb_segno g2 = gb_segno (on_bar_length b g)) by (destruct (has b Dc); [eapply keep_ds_dc; eauto|inv O2; auto]).
      assert (E3 : gb_segno g3 = gb_segno g2) by (destruct (has b Ds); [eapply keep_ds_dc; eauto|inv O3; auto]).
      assert (E4 : gb_segno g4 = gb_segno g3) by (destruct (has b Fine); [eapply keep_fine; eauto|inv O4; auto]).
      assert (E5 : gb_segno g1 = gb_segno g4) by (destruct (has b Coda); [eapply keep_coda; eauto|inv O; auto]).
      congruence.
Qed.

Lemma render_to r bars bars' : Forall2 (moved_bar to) bars bars' ->
  marked Dc bars = [] \/ marked Segno bars <> [] \/ first_bar_len bars = first_bar_len bars' ->
  moved_rendering to (render_region r bars) (render_region r bars').
Proof.
  intros B D. unfold moved_rendering, render_region.
  assert (N : moved_builder (gb_new r) (gb_new r)) by (unfold moved_builder; cbn; auto 10).
  pose proof (loop_to bars bars' B (gb_new r) (gb_new r) SIdle SIdle [] [] N Logic.I (Forall2_nil _)) as L.
  destruct (rr_loop (gb_new r) SIdle [] bars) as [[[[g st] regs]|e]| |] eqn:E, (rr_loop (gb_new r) SIdle [] bars') as [[[[h st'] regs']|e']| |] eqn:E';
    try contradiction; cbn [bind]; auto.
  destruct L as (G & H & R). cbn [fst snd] in *.
  assert (K := build_to g h G). cbn in K.
  assert (D' : (forall t x, gb_ds_dc g <> Some (JDc t x)) \/ gb_segno g <> None \/ gb_first_bar_len g = gb_first_bar_len h).
  { destruct D as [D|[D|D]].
    - left. apply (loop_dc bars _ _ _ _ _ _ E D). discriminate.
    - right. left. apply (loop_segno bars _ _ _ _ _ _ E). right; exact D.
    - right. right. rewrite (loop_first bars _ _ _ _ _ _ E), (loop_first bars' _ _ _ _ _ _ E'). exact D. }
  specialize (K D'). unfold rr_finish.
  assert (FIN : forall s s', to s s' -> moved_rendering to
    (let! r := gb_build g in Ret (match r with Ok (gr, w) => Ok (mkCompound gr (regs ++ [RSeq (s, u32_max)]), w) | Err e => Err e end))
    (let! r := gb_build h in Ret (match r with Ok (gr, w) => Ok (mkCompound gr (regs' ++ [RSeq (s', u32_max)]), w) | Err e => Err e end))).
  { intros s s' Q. eapply both_bind; [exact K|]. intros [[x w]|e] [[x' w']|e'] P; try contradiction; [|exact P].
    destruct P as [P1 P2]. split; [|exact P2]. split; [exact P1|]. cbn. apply Forall2_app; [exact R|].
    constructor; [split; [exact Q|apply (to_end to S)]|constructor]. }
  destruct st as [|s|s|s l], st' as [|s'|s'|s' l']; cbn in H; try contradiction.
  - apply FIN, (to_begin to S).
  - apply FIN, H.
  - exact H.
  - destruct H as [_ H]. rewrite (Forall2_len to _ _ H). pose proof (Forall2_nth to l l' (length l' - 1) H) as Q.
    destruct (nth_error l _), (nth_error l' _); cbn in Q |- *; try contradiction; auto.
Qed.

Lemma set_to c d : moved_compound to c d -> both ivs (compound_interval_set c) (compound_interval_set d).
Proof.
  intros [G R]. unfold compound_interval_set. apply (both_bind ivs).
  - assert (H : forall u v, ivs u v -> both ivs (ofold (fun u r => let! s := iter1_interval_set r in Ret (iset_union u s)) u (cp_regions c))
      (ofold (fun u r => let! s := iter1_interval_set r in Ret (iset_union u s)) v (cp_regions d))); [|apply H; constructor].
    clear G. induction R as [|x y l m X F IH]; intros u v U; [exact U|]. cbn [ofold]. apply (both_bind ivs); [|exact IH].
    apply (both_bind ivs); [apply iter1_to, X|]. intros a b A. apply union_to; auto.
  - intros a b A. cbn. destruct (cp_global c), (cp_global d); cbn in G; try contradiction; [|exact A]. apply inter_to; [exact A|apply G].
Qed.
End Stretch.
