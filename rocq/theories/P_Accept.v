(** Lemmas for C70: the readers and the documents they accept. *)
From Coq Require Import ZArith List Bool Ascii String Lia.
From Verif Require Import Base M_Pitch M_Duration M_Percent M_Scalar M_Bar M_Note M_Models M_Project M_Text M_Json.
From Verif Require Import S_Pitch S_Note S_Percent S_Text S_Json S_Format S_Accept P_Base P_Pitch P_Text P_Savable.
Import ListNotations.
Open Scope Z_scope.
Open Scope list_scope.

(** [r] gives exactly what [D] says, and some answer other than an error for what
    [L] says *)
Definition reads {A : Type} (r : reader A) (D L : json -> A -> Prop) : Prop :=
  (forall j a, r j = Ret (Some a) <-> D j a) /\ (forall j a, L j a -> r j <> Ret None).

Lemma reads_exact {A} (r : reader A) D : (forall j a, r j = Ret (Some a) <-> D j a) -> reads r D D.
Proof. intros H. split; [exact H|]. intros j a X E. apply H in X. congruence. Qed.

Lemma not_none_bind {A B} (m : outcome (option A)) (k : A -> outcome (option B)) :
  m <> Ret None -> (forall a, k a <> Ret None) -> bind_opt m k <> Ret None.
Proof. intros M K. unfold bind_opt. destruct m as [[a|]| |]; cbn; auto; try discriminate. Qed.

(** ** Fields *)

Lemma text_eqb_refl s : text_eqb s s = true.
Proof. now apply text_eqb_eq. Qed.
Lemma text_eqb_neq s t : text_eqb s t = false <-> s <> t.
Proof. rewrite <- (text_eqb_eq s t). destruct (text_eqb s t); split; congruence. Qed.

Lemma field_none n l : field n l = Some None <-> ~ In n (map fst l).
Proof.
  induction l as [|[k v] l IH]; cbn [field map fst In]; [tauto|]. destruct (text_eqb k n) eqn:E.
  - apply text_eqb_eq in E. subst k. split; [destruct (field n l) as [[|]|]; discriminate|tauto].
  - apply text_eqb_neq in E. rewrite IH. tauto.
Qed.
Lemma field_some n l v : field n l = Some (Some v) <->
  exists a b, l = a ++ (n, v) :: b /\ ~ In n (map fst a) /\ ~ In n (map fst b).
Proof.
  induction l as [|[k w] l IH]; cbn [field].
  - split; [discriminate|]. intros (a & b & E & _). destruct a; discriminate.
  - destruct (text_eqb k n) eqn:E.
    + apply text_eqb_eq in E. subst k. split.
      * destruct (field n l) as [[|]|] eqn:F; try discriminate. intros X. assert (w = v) by congruence. subst w.
        exists [], l. split; [reflexivity|]. split; [intros []|]. now apply field_none.
      * intros (a & b & X & N & M). destruct a as [|[k' w'] a]; cbn [app] in X.
        -- assert (w = v /\ l = b) as [-> ->] by (split; congruence). apply field_none in M. now rewrite M.
        -- exfalso. apply N. left. cbn. congruence.
    + apply text_eqb_neq in E. rewrite IH. split.
      * intros (a & b & -> & N & M). exists ((k, w) :: a), b. split; [reflexivity|]. split; [|exact M]. cbn [map fst In]. tauto.
      * intros (a & b & X & N & M). destruct a as [|[k' w'] a]; cbn [app] in X; [exfalso; apply E; congruence|].
        exists a, b. split; [congruence|]. split; [|exact M]. cbn [map In] in N. tauto.
Qed.

Definition entry (names : list string) (x : json) (i : nat) (o : option json) : Prop :=
  match o with Some v => field_is names x i v | None => field_missing names x i end.

Lemma fields_iff names l : forall os, fields (map words names) l = Some os <->
  List.length os = List.length names /\ forall i o, nth_error os i = Some o -> entry names (JObj l) i o.
Proof.
  assert (K : forall n o, field (words n) l = Some o <-> entry [n] (JObj l) 0 o).
  { intros n [v|]; cbn [entry field_is field_missing nth_error].
    - rewrite field_some. split.
      + intros (a & b & X). exists n, a, b. auto.
      + intros (n' & a & b & N & X). injection N as <-. eauto.
    - rewrite field_none. split; [eauto|]. intros (n' & N & X). now injection N as <-. }
  assert (S : forall n ns i o, entry (n :: ns) (JObj l) (S i) o <-> entry ns (JObj l) i o) by (intros n ns i [v|]; cbn; tauto).
  assert (Z : forall n ns o, entry (n :: ns) (JObj l) 0 o <-> entry [n] (JObj l) 0 o) by (intros n ns [v|]; cbn; tauto).
  induction names as [|n ns IH]; intros os; cbn [map fields].
  - split.
    + intros X. assert (os = []) as -> by congruence. split; [reflexivity|]. intros [|i] o; discriminate.
    + intros [L _]. destruct os; [reflexivity|discriminate].
  - split.
    + destruct (field (words n) l) as [o|] eqn:F; [|discriminate]. destruct (fields (map words ns) l) as [os'|]; [|discriminate].
      intros X. assert (os = o :: os') as -> by congruence. destruct (proj1 (IH os') eq_refl) as [L E].
      split; [cbn; lia|]. intros [|i] o' N; cbn [nth_error] in N.
      * assert (o' = o) as -> by congruence. apply Z, K. exact F.
      * apply S, E, N.
    + intros [L E]. destruct os as [|o os]; [discriminate|]. pose proof (E 0%nat o eq_refl) as F. apply Z, K in F. rewrite F.
      rewrite (proj2 (IH os)); [reflexivity|]. split; [cbn in L; lia|]. intros i o' N. specialize (E (Datatypes.S i) o' N). now apply S in E.
Qed.

Lemma struct_iff n names x os : struct (map words (n :: names)) x = Some os <->
  List.length os = List.length (n :: names) /\ forall i o, nth_error os i = Some o -> entry (n :: names) x i o.
Proof.
  destruct x as [| | | | |l|l];
    try (split; [discriminate|]; intros [L E]; destruct os as [|o os]; [discriminate|]; specialize (E 0%nat o eq_refl); destruct o; contradiction).
  - unfold struct. rewrite map_length. split.
    + destruct (Nat.eqb_spec (List.length l) (List.length (n :: names))) as [L|]; [|discriminate].
      intros X. assert (os = map Some l) as -> by congruence. split; [now rewrite map_length|].
      intros i o N. rewrite nth_error_map in N. destruct (nth_error l i) as [v|] eqn:V; [|discriminate]. cbn [option_map] in N.
      assert (o = Some v) as -> by congruence. split; assumption.
    + intros [L E]. assert (os = map Some l) as ->.
      { assert (A : forall i o, nth_error os i = Some o -> nth_error (map Some l) i = Some o).
        { intros i o N. specialize (E i o N). destruct o as [v|]; [|contradiction]. destruct E as [_ E]. rewrite nth_error_map, E. reflexivity. }
        assert (Ll : List.length l = List.length os).
        { destruct os as [|o os]; [discriminate|]. specialize (E 0%nat o eq_refl). destruct o as [v|]; [|contradiction]. destruct E as [E _]. congruence. }
        clear -A Ll. revert l A Ll. induction os as [|o os IH]; intros [|v l] A Ll; try discriminate; [reflexivity|].
        cbn [map]. f_equal; [pose proof (A 0%nat o eq_refl) as X; cbn in X; congruence|].
        apply IH; [|cbn in Ll; lia]. intros i o' N. exact (A (S i) o' N). }
      rewrite map_length in L. rewrite L, Nat.eqb_refl. reflexivity.
  - cbn [struct]. apply fields_iff.
Qed.

(** ** Small values *)

Lemma doc_int lo hi j z : read_int lo hi j = Ret (Some z) <-> int_doc lo hi j z.
Proof.
  unfold read_int, int_doc. destruct j as [| |y| | | |]; try (split; [discriminate|intros [X _]; discriminate]).
  destruct (in_range lo hi y) eqn:E.
  - apply in_range_iff in E. split; [intros X; assert (z = y) by congruence; subst; auto|]. intros [X _]. assert (z = y) by congruence. now subst.
  - split; [discriminate|]. intros [X Y]. assert (z = y) by congruence. subst. apply in_range_iff in Y. congruence.
Qed.
Lemma doc_bool j b : read_bool j = Ret (Some b) <-> bool_doc j b.
Proof. unfold read_bool, bool_doc. destruct j; try (split; [discriminate|intros X; discriminate X]). split; congruence. Qed.
Lemma doc_word {A} (name word : A -> text) all j x :
  (forall a, lookup (map (fun a => (name a, a)) all) (word a) = Some a) -> (forall a, name a = word a) ->
  read_enum (map (fun a => (name a, a)) all) j = Ret (Some x) <-> word_doc word j x.
Proof.
  intros L W. unfold word_doc. split.
  - intros H. apply lookup_variant in H. now rewrite <- W.
  - intros [-> | ->]; unfold read_enum; now rewrite L.
Qed.

Lemma reads_list {A} (r : reader A) D L : reads r D L -> reads (read_vec r) (list_doc D) (list_doc L).
Proof.
  intros [E N]. split; intros j m.
  - unfold list_doc. destruct j as [| | | | |l|]; try (split; [discriminate|intros (l' & X & _); discriminate]).
    cbn [read_vec]. transitivity (Forall2 D l m).
    + revert m. induction l as [|v l IH]; intros m; cbn [read_all].
      * split; [intros X; assert (m = []) as -> by congruence; constructor|]. intros X. inversion X. reflexivity.
      * split.
        -- intros X. apply bind_opt_inv in X as (a & Xa & X). apply bind_opt_inv in X as (m' & Xm & X).
           assert (m = a :: m') as -> by congruence. constructor; [now apply E|now apply IH].
        -- intros X. inversion X as [|? ? ? ? Xa Xm]; subst. apply E in Xa. apply IH in Xm. rewrite Xa. cbn [bind_opt bind]. rewrite Xm. reflexivity.
    + split; [eauto|]. intros (l' & X & F). assert (l' = l) as -> by congruence. exact F.
  - intros (l & -> & F). cbn [read_vec]. induction F as [|v a l m Va F IH]; cbn [read_all]; [discriminate|].
    apply not_none_bind; [eapply N, Va|]. intros y. apply not_none_bind; [exact IH|discriminate].
Qed.
Lemma doc_four {A} (r : reader A) D j q : (forall j a, r j = Ret (Some a) <-> D j a) ->
  read_four r j = Ret (Some q) <-> four_doc D j q.
Proof.
  intros E. destruct q as [[[a b] c] d]. unfold four_doc, list_doc. split.
  - destruct j as [| | | | |[|x [|y [|z [|w [|? ?]]]]]|]; try discriminate. cbn [read_four]. intros X.
    repeat (apply bind_opt_inv in X as (? & ? & X)). assert (X' : (x0, x1, x2, x3) = (a, b, c, d)) by congruence. clear X.
    injection X' as -> -> -> ->. eexists. split; [reflexivity|]. repeat constructor; apply E; assumption.
  - intros (l & -> & F). inversion F as [|x ? ? ? Fx F1]; subst. inversion F1 as [|y ? ? ? Fy F2]; subst.
    inversion F2 as [|z ? ? ? Fz F3]; subst. inversion F3 as [|w ? ? ? Fw F4]; subst. inversion F4; subst.
    cbn [read_four]. apply E in Fx, Fy, Fz, Fw. rewrite Fx. cbn [bind_opt bind]. rewrite Fy. cbn [bind_opt bind]. rewrite Fz. cbn [bind_opt bind].
    rewrite Fw. reflexivity.
Qed.

(** ** Records *)

(** what was read from a field *)
Lemma got_field {A} (r : reader A) (D : json -> A -> Prop) n names x os i o a :
  (forall j a, r j = Ret (Some a) <-> D j a) ->
  struct (map words (n :: names)) x = Some os -> nth_error os i = Some o -> required r o = Ret (Some a) ->
  holds (n :: names) x i D a.
Proof.
  intros E S N R. apply required_inv in R as (v & -> & R). exists v. split; [|now apply E].
  exact (proj2 (proj1 (struct_iff _ _ _ _) S) i (Some v) N).
Qed.
Lemma got_optional {A} (r : reader A) (D : json -> A -> Prop) n names x os i o a :
  (forall j a, r j = Ret (Some a) <-> D j a) ->
  struct (map words (n :: names)) x = Some os -> nth_error os i = Some o -> optional r o = Ret (Some a) ->
  may_hold (n :: names) x i D a.
Proof.
  intros E S N R. pose proof (proj2 (proj1 (struct_iff _ _ _ _) S) i o N) as F. destruct o as [v|]; cbn [optional entry] in *.
  - unfold read_option in R.
    assert (J : v = JNull \/ v <> JNull) by (destruct v; (now left) || (right; discriminate)).
    destruct J as [->|J]; [right; split; [now left|congruence]|]. left.
    assert (R' : (let? a := r v in Ret (Some (Some a))) = Ret (Some a)) by (destruct v; (now elim J) || exact R).
    apply bind_opt_inv in R' as (b & Rb & R'). exists v, b. split; [exact F|]. split; [exact J|]. split; [now apply E|congruence].
  - right. split; [now right|congruence].
Qed.
(** the entry for a field that is held *)
Lemma held_optional {A} (r : reader A) (D : json -> A -> Prop) names x i a :
  (forall j a, r j = Ret (Some a) <-> D j a) -> may_hold names x i D a ->
  exists o, entry names x i o /\ optional r o = Ret (Some a).
Proof.
  intros E [(v & b & F & J & V & ->)|[[F|F] ->]].
  - exists (Some v). split; [exact F|]. cbn [optional]. apply E in V. unfold read_option. destruct v; try (now elim J); rewrite V; reflexivity.
  - exists (Some JNull). split; [exact F|reflexivity].
  - exists None. split; [exact F|reflexivity].
Qed.

(** the names of the model are those of the specification *)
Ltac build_struct os :=
  match goal with F : field_is (?n :: ?names) ?j _ _ |- context [struct ?ns ?j] =>
    let S := fresh "S" in
    assert (S : struct ns j = Some os)
      by (refine (proj2 (struct_iff n names j os) _); split; [reflexivity|];
          let i := fresh "i" in let o := fresh "o" in let N := fresh "N" in
          intros i o N; repeat (destruct i as [|i]; [cbn [nth_error] in N; injection N as <-; assumption|]); destruct i; discriminate N);
    rewrite S
  end.
Tactic Notation "struct_open" hyp(H) ident(S) :=
  match type of H with
  | match struct ?ns ?j with _ => _ end = _ =>
      destruct (struct ns j) as [l|] eqn:S; [|discriminate];
      repeat (destruct l as [|? l]; try discriminate)
  end.

(** ** The types *)

Lemma doc_solfa j s : read_enum solfa_names j = Ret (Some s) <-> word_doc letter j s.
Proof. apply doc_word; intros []; reflexivity. Qed.
Lemma doc_octave j o : read_enum octave_names j = Ret (Some o) <-> word_doc octave_word j o.
Proof. apply doc_word; intros []; reflexivity. Qed.
Lemma doc_accidental j a : read_enum sharp_flat_names j = Ret (Some a) <-> word_doc accidental_word j a.
Proof. apply doc_word; intros []; reflexivity. Qed.
Lemma doc_value j n : read_enum numerator_names j = Ret (Some n) <-> word_doc value_word j n.
Proof. apply doc_word; intros []; reflexivity. Qed.
Lemma doc_beat j d : read_enum rhythm_den_names j = Ret (Some d) <-> word_doc beat_word j d.
Proof. apply doc_word; intros []; reflexivity. Qed.

Lemma pitch_reads j s o a : spelled j s o a -> read_pitch j = (let! p := pitch_new s o a in Ret (Some p)).
Proof.
  intros ((v & F & V) & (w & G & W) & (u & H & U)). unfold read_pitch. build_struct [Some v; Some w; Some u]. cbn [required].
  apply doc_solfa in V. apply doc_octave in W. apply doc_accidental in U.
  rewrite V; cbn [bind_opt bind]; rewrite W; cbn [bind_opt bind]; rewrite U; reflexivity.
Qed.

Lemma reads_pitch_doc : reads read_pitch pitch_doc (fun j _ => exists s o a, spelled j s o a).
Proof.
  split.
  - intros j p. split.
    + intros R. pose proof (read_pitch_valid _ _ R) as V. unfold read_pitch in R. struct_open R S.
      apply bind_opt_inv in R as (s & Rs & R). apply bind_opt_inv in R as (oc & Ro & R). apply bind_opt_inv in R as (a & Ra & R).
      assert (N : p_solfa p = s /\ p_octave p = oc /\ p_sharp_flat p = a).
      { unfold pitch_new in R. pose proof (value_of_spec s oc a) as N. destruct (pitch_value_of s oc a) as [q|e]; [|discriminate].
        cbn in R. assert (q = p) by congruence. subst. unfold named_or_error in N. tauto. }
      destruct N as (<- & <- & <-). split; [|exact V].
      split; [|split]; (eapply got_field; [|exact S|reflexivity|eassumption]); intros; [apply doc_solfa|apply doc_octave|apply doc_accidental].
    + intros [S V]. rewrite (pitch_reads _ _ _ _ S). unfold pitch_new. rewrite value_of_ok by (destruct V as (A & _ & B); now rewrite <- A).
      cbn [bind]. now rewrite <- (valid_canon _ V).
  - intros j p (s & o & a & S). rewrite (pitch_reads _ _ _ _ S). destruct (pitch_new s o a); discriminate.
Qed.

Lemma doc_duration j d : read_duration j = Ret (Some d) <-> duration_doc j d.
Proof.
  split.
  - intros R. unfold read_duration in R. struct_open R S.
    apply bind_opt_inv in R as (n & Rn & R). apply bind_opt_inv in R as (b & Rb & R). apply bind_opt_inv in R as (k & Rk & R).
    assert (d = mkDur n (denominator_deser b) k) as -> by congruence. exists b. cbn [d_num d_dots d_den].
    split; [|split; [|split]]; try (eapply got_field; [|exact S|reflexivity|eassumption]; intros; first [apply doc_value|apply doc_int]).
    unfold denominator_deser, denominator_from_value. destruct (Z.ltb_spec b 2); lia.
  - intros (b & (v & F & V) & (w & G & W) & (u & H & U) & B). unfold read_duration. build_struct [Some v; Some w; Some u]. cbn [required].
    apply doc_value in V. apply (doc_int 0 u8_max) in W, U.
    rewrite V; cbn [bind_opt bind]; rewrite W; cbn [bind_opt bind]; rewrite U; cbn [bind_opt bind].
    do 2 f_equal. destruct d as [n b' k]. cbn [d_num d_den d_dots] in *. subst b'. f_equal.
    unfold denominator_deser, denominator_from_value. destruct (Z.ltb_spec b 2); lia.
Qed.

Lemma trimmer_reads j a b c d : four_numbers j a b c d -> read_trimmer j = (let! t := trimmer_from_array a b c d in Ret (Some t)).
Proof.
  intros (v & F & V). unfold read_trimmer. build_struct [Some v]. cbn [required].
  apply (doc_four (read_int i16_min i16_max)) in V; [|intros; apply doc_int]. now rewrite V.
Qed.
Lemma trimmer_array a b c d : sums_fit a b c d -> trimmer_from_array a b c d = Ret (mkTrim a b c d (a + b + c + d)).
Proof.
  intros (A & B & C). unfold trimmer_from_array, chk_i16. rewrite chk_ret by exact A. cbn [bind]. rewrite chk_ret by exact B. cbn [bind].
  rewrite chk_ret by exact C. reflexivity.
Qed.
Lemma trimmer_array_inv a b c d t : trimmer_from_array a b c d = Ret t -> sums_fit a b c d.
Proof.
  unfold trimmer_from_array, chk_i16, chk, sums_fit. intros H.
  destruct (in_range i16_min i16_max (a + b)) eqn:A; [|discriminate]. cbn [bind] in H.
  destruct (in_range i16_min i16_max (a + b + c)) eqn:B; [|discriminate]. cbn [bind] in H.
  destruct (in_range i16_min i16_max (a + b + c + d)) eqn:C; [|discriminate].
  apply in_range_iff in A, B, C. auto.
Qed.
Lemma reads_trimmer_doc : reads read_trimmer trimmer_doc (fun j _ => exists a b c d, four_numbers j a b c d).
Proof.
  split.
  - intros j t. split.
    + intros R. unfold read_trimmer in R. struct_open R S. apply bind_opt_inv in R as ([[[a b] c] d] & Rq & R).
      destruct (trimmer_from_array a b c d) as [t'| |] eqn:T; try discriminate. cbn [bind] in R. assert (t' = t) by congruence. subst t'.
      pose proof (trimmer_array_inv _ _ _ _ _ T) as F. rewrite (trimmer_array _ _ _ _ F) in T. assert (t = mkTrim a b c d (a + b + c + d)) as -> by congruence.
      split; [|split; [exact F|reflexivity]].
      eapply got_field; [|exact S|reflexivity|exact Rq]. intros. apply doc_four. intros. apply doc_int.
    + intros (F & G & E). rewrite (trimmer_reads _ _ _ _ _ F), (trimmer_array _ _ _ _ G). cbn [bind]. destruct t. cbn in *. now subst.
  - intros j t (a & b & c & d & F). rewrite (trimmer_reads _ _ _ _ _ F). destruct (trimmer_from_array a b c d); discriminate.
Qed.

Lemma doc_number hi (r : reader Z) : (forall j, r j = match struct value_field j with Some [v] => required (read_int 0 hi) v | _ => Ret None end) ->
  forall j z, r j = Ret (Some z) <-> number_doc hi j z.
Proof.
  intros E j z. rewrite E. split.
  - intros R. struct_open R S. eapply got_field; [|exact S|reflexivity|exact R]. intros. apply doc_int.
  - intros (v & F & V). build_struct [Some v]. now apply doc_int.
Qed.
Lemma doc_percent j z : read_percent_value j = Ret (Some z) <-> number_doc 65535 j z.
Proof. apply (doc_number u16_max). reflexivity. Qed.
Lemma doc_rate j r : read_rate j = Ret (Some r) <-> rate_doc j r.
Proof.
  split.
  - intros R. unfold read_rate in R. struct_open R S. apply bind_opt_inv in R as ([[[a b] c] d] & Rq & R).
    assert (r = rate_from_array a b c d) as -> by congruence.
    assert (Q : holds ["values"%string] j 0 (four_doc (number_doc 65535)) (a, b, c, d)).
    { eapply got_field; [|exact S|reflexivity|exact Rq]. intros. apply doc_four. apply doc_percent. }
    split; [exact Q|]. destruct Q as (v & _ & l & -> & F).
    assert (K : forall j z, number_doc 65535 j z -> u16 z) by (intros ? ? (? & _ & _ & Y); exact Y).
    inversion F as [|x ? ? ? Fx F1]; subst. inversion F1 as [|y ? ? ? Fy F2]; subst.
    inversion F2 as [|z ? ? ? Fz F3]; subst. inversion F3 as [|w ? ? ? Fw F4]; subst.
    unfold savable_rate, rate_from_array. cbn [r_v0 r_v1 r_v2 r_v3 r_sum]. eauto 10.
  - intros ((v & F & V) & (_ & _ & _ & _ & E)). unfold read_rate. build_struct [Some v]. cbn [required].
    apply (doc_four read_percent_value) in V; [|apply doc_percent]. rewrite V. cbn [bind_opt bind]. do 2 f_equal.
    unfold rate_from_array. destruct r. cbn in *. now rewrite E.
Qed.

Lemma doc_velocity j v : read_velocity_value j = Ret (Some v) <-> velocity_doc j v.
Proof.
  unfold read_velocity_value, velocity_doc, velocity_new. split.
  - intros R. apply bind_opt_inv in R as (w & Rw & R). exists w. split; [now apply doc_int|].
    assert (X : v = if 127 <? w then 127 else w) by congruence. rewrite X. destruct (Z.ltb_spec 127 w); lia.
  - intros (w & W & ->). apply (doc_int 0 u8_max) in W. rewrite W. cbn [bind_opt bind]. do 2 f_equal. destruct (Z.ltb_spec 127 w); lia.
Qed.

Ltac field_of_struct S tac := eapply got_field; [|exact S|reflexivity|eassumption]; intros; tac.

Lemma doc_rhythm j r : read_rhythm j = Ret (Some r) <-> rhythm_doc j r.
Proof.
  split.
  - intros R. unfold read_rhythm in R. struct_open R E.
    apply bind_opt_inv in R as (n & Rn & R). apply bind_opt_inv in R as (d & Rd & R).
    assert (r = mkRhythm n d) as -> by congruence. split; [field_of_struct E ltac:(apply doc_int)|field_of_struct E ltac:(apply doc_beat)].
  - intros ((v & F & V) & (w & G & W)). unfold read_rhythm. build_struct [Some v; Some w]. cbn [required].
    apply (doc_int 0 u8_max) in V. apply doc_beat in W. rewrite V. cbn [bind_opt bind]. rewrite W. cbn [bind_opt bind]. destruct r. reflexivity.
Qed.
Lemma doc_key j k : read_key j = Ret (Some k) <-> key_doc j k.
Proof. apply doc_int. Qed.

Lemma marks_mod v : 0 <= v -> Z.land v (ms_of all_marks) = v mod 2048.
Proof. intros H. change (ms_of all_marks) with (Z.ones 11). rewrite Z.land_ones by lia. reflexivity. Qed.
Lemma doc_marks j s : read_marks j = Ret (Some s) <-> exists v, number_doc 65535 j v /\ s = v mod 2048.
Proof.
  assert (K : forall v, number_doc 65535 j v -> 0 <= v) by (intros v (x & _ & _ & Y); lia).
  split.
  - intros R. unfold read_marks in R. struct_open R E. apply bind_opt_inv in R as (v & Rv & R).
    assert (N : number_doc 65535 j v) by (field_of_struct E ltac:(apply doc_int)). exists v. split; [exact N|].
    rewrite <- marks_mod by (apply K, N). congruence.
  - intros (v & N & ->). rewrite <- marks_mod by (apply K, N). destruct N as (x & F & X). unfold read_marks. build_struct [Some x]. cbn [required].
    apply (doc_int 0 u16_max) in X. rewrite X. reflexivity.
Qed.
Lemma doc_bar j b : read_bar j = Ret (Some b) <-> bar_doc j b.
Proof.
  split.
  - intros R. unfold read_bar in R. struct_open R E.
    apply bind_opt_inv in R as (t & Rt & R). apply bind_opt_inv in R as (r & Rr & R). apply bind_opt_inv in R as (k & Rk & R).
    apply bind_opt_inv in R as (m & Rm & R). assert (b = mkBar t r k m) as -> by congruence. cbn [b_tick b_rhythm b_key b_marks].
    assert (M : holds ["start_tick"; "rhythm"; "key"; "repeats"]%string j 3 (fun j s => exists v, number_doc 65535 j v /\ s = v mod 2048) m)
      by (field_of_struct E ltac:(apply doc_marks)).
    destruct M as (x & F & v & N & ->). exists v.
    split; [field_of_struct E ltac:(apply doc_int)|].
    split; [eapply got_optional; [intros; apply doc_rhythm|exact E|reflexivity|assumption]|].
    split; [eapply got_optional; [intros; apply doc_key|exact E|reflexivity|assumption]|].
    split; [|reflexivity]. exists x. auto.
  - intros (bits & (v & F & V) & R & K & (w & G & W) & M).
    apply (held_optional read_rhythm _ _ _ _ _ doc_rhythm) in R as (r & R & Rr). apply (held_optional read_key _ _ _ _ _ doc_key) in K as (k & K & Rk).
    unfold read_bar. build_struct [Some v; r; k; Some w]. cbn [required].
    apply (doc_int 0 u32_max) in V. rewrite V. cbn [bind_opt bind]. rewrite Rr. cbn [bind_opt bind]. rewrite Rk. cbn [bind_opt bind].
    rewrite (proj2 (doc_marks w (b_marks b))) by eauto. cbn [bind_opt bind]. destruct b. reflexivity.
Qed.

Lemma doc_tempo j t : read_tempo_elem j = Ret (Some t) <-> tempo_doc j t.
Proof.
  assert (K : forall v, tempo_value_deser v = Z.max 1 (Z.min 999 v)).
  { intros v. unfold tempo_value_deser, max_tempo, min_tempo. destruct (Z.ltb_spec 999 v); [lia|]. destruct (Z.ltb_spec v 1); lia. }
  split.
  - intros R. unfold read_tempo_elem in R. struct_open R E. apply bind_opt_inv in R as (n & Rn & R). apply bind_opt_inv in R as (v & Rv & R).
    assert (t = mkTempo n (tempo_value_deser v)) as -> by congruence. exists v.
    split; [|split; [|apply K]]; field_of_struct E ltac:(apply doc_int).
  - intros (x & (v & F & V) & (w & G & W) & X). unfold read_tempo_elem. build_struct [Some v; Some w]. cbn [required].
    apply (doc_int 0 u32_max) in V. apply (doc_int 0 u16_max) in W. rewrite V. cbn [bind_opt bind]. rewrite W. cbn [bind_opt bind].
    rewrite K, <- X. destruct t. reflexivity.
Qed.
Lemma doc_ctrl j c : read_ctrl j = Ret (Some c) <-> ctrl_doc j c.
Proof.
  split.
  - intros R. unfold read_ctrl in R. struct_open R E.
    apply bind_opt_inv in R as (t & Rt & R). apply bind_opt_inv in R as (v & Rv & R). apply bind_opt_inv in R as (h & Rh & R).
    assert (c = mkCtrl t v h) as -> by congruence.
    split; [field_of_struct E ltac:(apply doc_int)|]. split; [field_of_struct E ltac:(apply doc_velocity)|field_of_struct E ltac:(apply doc_int)].
  - intros ((v & F & V) & (w & G & W) & (u & H & U)). unfold read_ctrl. build_struct [Some v; Some w; Some u]. cbn [required].
    apply (doc_int 0 u32_max) in V. apply doc_velocity in W. apply (doc_int 0 u8_max) in U.
    rewrite V. cbn [bind_opt bind]. rewrite W. cbn [bind_opt bind]. unfold read_channel. rewrite U. destruct c. reflexivity.
Qed.

Lemma reads_note_doc : reads read_note note_doc note_shape.
Proof.
  destruct reads_pitch_doc as [PE PN]. destruct reads_trimmer_doc as [TE TN].
  split.
  - intros j n. split.
    + intros R. unfold read_note in R. struct_open R E.
      apply bind_opt_inv in R as (t & Rt & R). apply bind_opt_inv in R as (p & Rp & R). apply bind_opt_inv in R as (d & Rd & R).
      apply bind_opt_inv in R as (ti & Rti & R). apply bind_opt_inv in R as (td & Rtd & R). apply bind_opt_inv in R as (v & Rv & R).
      apply bind_opt_inv in R as (tt & Rtt & R). apply bind_opt_inv in R as (dt & Rdt & R). apply bind_opt_inv in R as (vt & Rvt & R).
      apply bind_opt_inv in R as (c & Rc & R).
      assert (n = mkNote t p d ti td v tt dt vt c) as -> by congruence. unfold note_doc, note_like. cbn [n_base_tick n_pitch n_duration n_tie n_tied n_base_velocity n_tick_trimmer n_duration_trimmer n_velocity_trimmer n_channel].
      split; [field_of_struct E ltac:(apply doc_int)|]. split; [field_of_struct E ltac:(apply PE)|]. split; [field_of_struct E ltac:(apply doc_duration)|].
      split; [field_of_struct E ltac:(apply doc_bool)|]. split; [field_of_struct E ltac:(apply doc_bool)|]. split; [field_of_struct E ltac:(apply doc_velocity)|].
      split; [field_of_struct E ltac:(apply TE)|]. split; [field_of_struct E ltac:(apply doc_rate)|]. split; [field_of_struct E ltac:(apply TE)|].
      field_of_struct E ltac:(apply doc_int).
    + intros ((v0 & F0 & V0) & (v1 & F1 & V1) & (v2 & F2 & V2) & (v3 & F3 & V3) & (v4 & F4 & V4) & (v5 & F5 & V5) & (v6 & F6 & V6) & (v7 & F7 & V7) & (v8 & F8 & V8) & (v9 & F9 & V9)).
      unfold read_note. unfold note_names in *. build_struct [Some v0; Some v1; Some v2; Some v3; Some v4; Some v5; Some v6; Some v7; Some v8; Some v9]. cbn [required].
      apply (doc_int 0 u32_max) in V0. apply PE in V1. apply doc_duration in V2. apply doc_bool in V3, V4. apply doc_velocity in V5.
      apply TE in V6, V8. apply doc_rate in V7. apply (doc_int 0 u8_max) in V9. unfold read_channel.
      rewrite V0. cbn [bind_opt bind]. rewrite V1. cbn [bind_opt bind]. rewrite V2. cbn [bind_opt bind]. rewrite V3. cbn [bind_opt bind].
      rewrite V4. cbn [bind_opt bind]. rewrite V5. cbn [bind_opt bind]. rewrite V6. cbn [bind_opt bind]. rewrite V7. cbn [bind_opt bind].
      rewrite V8. cbn [bind_opt bind]. rewrite V9. destruct n. reflexivity.
  - intros j n ((v0 & F0 & V0) & (v1 & F1 & V1) & (v2 & F2 & V2) & (v3 & F3 & V3) & (v4 & F4 & V4) & (v5 & F5 & V5) & (v6 & F6 & V6) & (v7 & F7 & V7) & (v8 & F8 & V8) & (v9 & F9 & V9)).
    unfold read_note. unfold note_names in *. build_struct [Some v0; Some v1; Some v2; Some v3; Some v4; Some v5; Some v6; Some v7; Some v8; Some v9]. cbn [required].
    apply (doc_int 0 u32_max) in V0. apply doc_duration in V2. apply doc_bool in V3, V4. apply doc_velocity in V5.
    apply doc_rate in V7. apply (doc_int 0 u8_max) in V9. unfold read_channel.
    assert (V1' : read_pitch v1 <> Ret None) by exact (PN v1 (n_pitch n) V1).
    assert (V6' : read_trimmer v6 <> Ret None) by exact (TN v6 (n_tick_trimmer n) V6).
    assert (V8' : read_trimmer v8 <> Ret None) by exact (TN v8 (n_velocity_trimmer n) V8).
    rewrite V0. cbn [bind_opt bind]. apply not_none_bind; [exact V1'|]. intros p.
    rewrite V2. cbn [bind_opt bind]. rewrite V3. cbn [bind_opt bind]. rewrite V4. cbn [bind_opt bind]. rewrite V5. cbn [bind_opt bind].
    apply not_none_bind; [exact V6'|]. intros tt. rewrite V7. cbn [bind_opt bind]. apply not_none_bind; [exact V8'|]. intros vt. rewrite V9. discriminate.
Qed.

Definition vec_note := reads_list _ _ _ reads_note_doc.
Definition vec_bar := reads_list _ _ _ (reads_exact _ _ doc_bar).
Definition vec_tempo := reads_list _ _ _ (reads_exact _ _ doc_tempo).
Definition vec_ctrl := reads_list _ _ _ (reads_exact _ _ doc_ctrl).

Lemma lists_read v0 v1 v2 v3 v4 m : list_doc note_doc v0 (m_notes m) -> list_doc bar_doc v1 (m_bars m) ->
  list_doc tempo_doc v2 (m_tempos m) -> list_doc ctrl_doc v3 (m_dumpers m) -> list_doc ctrl_doc v4 (m_softs m) ->
  read_models_fields (Some v0) (Some v1) (Some v2) (Some v3) (Some v4) = Ret (Some m).
Proof.
  intros V0 V1 V2 V3 V4. apply (proj1 vec_note) in V0. apply (proj1 vec_bar) in V1. apply (proj1 vec_tempo) in V2. apply (proj1 vec_ctrl) in V3, V4.
  unfold read_models_fields. cbn [required]. rewrite V0. cbn [bind_opt bind]. rewrite V1. cbn [bind_opt bind]. rewrite V2. cbn [bind_opt bind].
  rewrite V3. cbn [bind_opt bind]. rewrite V4. cbn [bind_opt bind]. destruct m. reflexivity.
Qed.
Lemma lists_shape v0 v1 v2 v3 v4 m : list_doc note_shape v0 (m_notes m) -> list_doc bar_doc v1 (m_bars m) ->
  list_doc tempo_doc v2 (m_tempos m) -> list_doc ctrl_doc v3 (m_dumpers m) -> list_doc ctrl_doc v4 (m_softs m) ->
  read_models_fields (Some v0) (Some v1) (Some v2) (Some v3) (Some v4) <> Ret None.
Proof.
  intros V0 V1 V2 V3 V4. apply (proj2 vec_note) in V0. apply (proj1 vec_bar) in V1. apply (proj1 vec_tempo) in V2. apply (proj1 vec_ctrl) in V3, V4.
  unfold read_models_fields. cbn [required]. apply not_none_bind; [exact V0|]. intros n. rewrite V1. cbn [bind_opt bind]. rewrite V2. cbn [bind_opt bind].
  rewrite V3. cbn [bind_opt bind]. rewrite V4. cbn [bind_opt bind]. discriminate.
Qed.
Lemma lists_got a b c d e n names x os i m :
  struct (map words (n :: names)) x = Some os ->
  nth_error os i = Some a -> nth_error os (i + 1) = Some b -> nth_error os (i + 2) = Some c -> nth_error os (i + 3) = Some d -> nth_error os (i + 4) = Some e ->
  read_models_fields a b c d e = Ret (Some m) -> lists_like note_doc (n :: names) i x m.
Proof.
  intros E A B C D F R. unfold read_models_fields in R.
  apply bind_opt_inv in R as (ns & Rn & R). apply bind_opt_inv in R as (bs & Rb & R). apply bind_opt_inv in R as (ts & Rt & R).
  apply bind_opt_inv in R as (ds & Rd & R). apply bind_opt_inv in R as (ss & Rs & R). assert (m = mkModels ns bs ts ds ss) as -> by congruence.
  split; [eapply got_field; [apply vec_note|exact E|exact A|exact Rn]|].
  split; [eapply got_field; [apply vec_bar|exact E|exact B|exact Rb]|].
  split; [eapply got_field; [apply vec_tempo|exact E|exact C|exact Rt]|].
  split; [eapply got_field; [apply vec_ctrl|exact E|exact D|exact Rd]|].
  eapply got_field; [apply vec_ctrl|exact E|exact F|exact Rs].
Qed.

Lemma reads_models_doc : reads read_models models_doc (models_like note_shape).
Proof.
  split; intros j m.
  - split.
    + intros R. unfold read_models in R. struct_open R E. eapply lists_got; [exact E|reflexivity..|exact R].
    + intros ((v0 & F0 & V0) & (v1 & F1 & V1) & (v2 & F2 & V2) & (v3 & F3 & V3) & (v4 & F4 & V4)). unfold read_models. cbn [Nat.add] in *.
      build_struct [Some v0; Some v1; Some v2; Some v3; Some v4]. now apply lists_read.
  - intros ((v0 & F0 & V0) & (v1 & F1 & V1) & (v2 & F2 & V2) & (v3 & F3 & V3) & (v4 & F4 & V4)). unfold read_models. cbn [Nat.add] in *.
    build_struct [Some v0; Some v1; Some v2; Some v3; Some v4]. now apply lists_shape with m.
Qed.
Lemma reads_score_doc : reads read_score score_doc (score_like note_shape).
Proof.
  split; intros j m.
  - split.
    + intros R. unfold read_score in R. struct_open R E. apply bind_opt_inv in R as (k & Rk & R). apply bind_opt_inv in R as (r & Rr & R).
      apply bind_opt_inv in R as (x & Rx & R). assert (m = mkScore k r x) as -> by congruence.
      split; [eapply got_optional; [intros; apply doc_key|exact E|reflexivity|exact Rk]|].
      split; [eapply got_optional; [intros; apply doc_rhythm|exact E|reflexivity|exact Rr]|].
      eapply lists_got; [exact E|reflexivity..|exact Rx].
    + intros (K & R & (v0 & F0 & V0) & (v1 & F1 & V1) & (v2 & F2 & V2) & (v3 & F3 & V3) & (v4 & F4 & V4)). unfold read_score. cbn [Nat.add] in *.
      apply (held_optional read_rhythm _ _ _ _ _ doc_rhythm) in R as (r & R & Rr). apply (held_optional read_key _ _ _ _ _ doc_key) in K as (k & K & Rk).
      build_struct [k; r; Some v0; Some v1; Some v2; Some v3; Some v4]. rewrite Rk. cbn [bind_opt bind]. rewrite Rr. cbn [bind_opt bind].
      rewrite (lists_read v0 v1 v2 v3 v4 (es_models m)) by assumption. destruct m. reflexivity.
  - intros (K & R & (v0 & F0 & V0) & (v1 & F1 & V1) & (v2 & F2 & V2) & (v3 & F3 & V3) & (v4 & F4 & V4)). unfold read_score. cbn [Nat.add] in *.
    apply (held_optional read_rhythm _ _ _ _ _ doc_rhythm) in R as (r & R & Rr). apply (held_optional read_key _ _ _ _ _ doc_key) in K as (k & K & Rk).
    build_struct [k; r; Some v0; Some v1; Some v2; Some v3; Some v4]. rewrite Rk. cbn [bind_opt bind]. rewrite Rr. cbn [bind_opt bind].
    apply not_none_bind; [|discriminate]. now apply lists_shape with (es_models m).
Qed.
Lemma doc_grid j g : read_grid j = Ret (Some g) <-> number_doc 4294967295 j g.
Proof. apply (doc_number u32_max). reflexivity. Qed.
Lemma reads_exported_doc : reads read_exported project_doc (project_like note_shape).
Proof.
  destruct reads_models_doc as [ME MN]. split; intros j m.
  - split.
    + intros R. unfold read_exported in R. struct_open R E. apply bind_opt_inv in R as (r & Rr & R). apply bind_opt_inv in R as (k & Rk & R).
      apply bind_opt_inv in R as (g & Rg & R). apply bind_opt_inv in R as (x & Rx & R). assert (m = mkExported r k g x) as -> by congruence.
      split; [field_of_struct E ltac:(apply doc_rhythm)|]. split; [field_of_struct E ltac:(apply doc_key)|]. split; [field_of_struct E ltac:(apply doc_grid)|].
      field_of_struct E ltac:(apply ME).
    + intros ((v0 & F0 & V0) & (v1 & F1 & V1) & (v2 & F2 & V2) & (v3 & F3 & V3)). unfold read_exported.
      build_struct [Some v0; Some v1; Some v2; Some v3]. cbn [required]. apply doc_rhythm in V0. apply doc_key in V1. apply doc_grid in V2. apply ME in V3.
      rewrite V0. cbn [bind_opt bind]. rewrite V1. cbn [bind_opt bind]. rewrite V2. cbn [bind_opt bind]. rewrite V3. destruct m. reflexivity.
  - intros ((v0 & F0 & V0) & (v1 & F1 & V1) & (v2 & F2 & V2) & (v3 & F3 & V3)). unfold read_exported.
    build_struct [Some v0; Some v1; Some v2; Some v3]. cbn [required]. apply doc_rhythm in V0. apply doc_key in V1. apply doc_grid in V2.
    rewrite V0. cbn [bind_opt bind]. rewrite V1. cbn [bind_opt bind]. rewrite V2. cbn [bind_opt bind]. apply not_none_bind; [|discriminate].
    eapply MN, V3.
Qed.
