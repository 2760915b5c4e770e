(** Lemmas about saved values: writing then reading, what reading accepts, and
    the cases of the clipboard reader. *)
From Coq Require Import ZArith List Bool Lia Permutation Ascii String.
From Verif Require Import Base M_Pitch M_Duration M_Percent M_Scalar M_Bar M_Note M_Models M_Store M_Tuple M_Project M_Text M_Json.
From Verif Require Import S_Pitch S_Note S_Percent S_Project S_Text S_Json P_Base P_Pitch P_Percent P_Note P_Text P_Json P_Store P_History.
Import ListNotations.
Open Scope Z_scope.
Open Scope list_scope.

(** ** Written texts are JSON texts *)

Definition plain (s : text) : Prop := Forall (fun c => 32 <= c /\ c <> 34 /\ c <> 92) s.

Fixpoint writable (j : json) : Prop :=
  match j with
  | JNull | JBool _ => True
  | JInt z => - 2 ^ 63 <= z < 2 ^ 64
  | JFloat => False
  | JStr s => plain s
  | JArr l => fold_right (fun v P => writable v /\ P) True l
  | JObj l => fold_right (fun kv P => plain (fst kv) /\ writable (snd kv) /\ P) True l
  end.

Definition json_nested (P : json -> Prop)
  (Hnull : P JNull) (Hbool : forall b, P (JBool b)) (Hint : forall z, P (JInt z)) (Hfloat : P JFloat)
  (Hstr : forall s, P (JStr s)) (Harr : forall l, Forall P l -> P (JArr l))
  (Hobj : forall l, Forall (fun kv : text * json => P (snd kv)) l -> P (JObj l)) : forall j, P j :=
  fix nested (j : json) : P j :=
    match j with
    | JNull => Hnull
    | JBool b => Hbool b
    | JInt z => Hint z
    | JFloat => Hfloat
    | JStr s => Hstr s
    | JArr l => Harr l ((fix go l : Forall P l :=
        match l with [] => Forall_nil _ | v :: l' => Forall_cons _ (nested v) (go l') end) l)
    | JObj l => Hobj l ((fix go l : Forall (fun kv : text * json => P (snd kv)) l :=
        match l with [] => Forall_nil _ | kv :: l' => Forall_cons _ (nested (snd kv)) (go l') end) l)
    end.

Lemma Forall2_length {A B} (R : A -> B -> Prop) l m : Forall2 R l m -> List.length l = List.length m.
Proof. induction 1; cbn; congruence. Qed.

Lemma show_digits_head f : forall n acc, 0 < n < 10 ^ Z.of_nat f -> (0 < f)%nat ->
  exists c r, show_digits f n acc = c :: r /\ c <> 48.
Proof.
  induction f as [|f IH]; intros n acc H L; [lia|]. cbn [show_digits].
  destruct (Z.ltb_spec n 10).
  - rewrite Z.mod_small by lia. eexists _, _. split; [reflexivity | lia].
  - assert (0 < f)%nat. { destruct f; [cbn in H; lia|lia]. }
    apply IH; auto. split; [apply Z.div_str_pos; lia|].
    apply Z.div_lt_upper_bound; [lia|]. rewrite Nat2Z.inj_succ, Z.pow_succ_r in H by lia. lia.
Qed.

Lemma show_nat_natural n : 0 <= n -> natural (show_nat n) n.
Proof.
  intros H. split; [now apply show_nat_numeral|]. intros r E.
  destruct (Z.eq_dec n 0) as [->|N]; [cbn in E; now inversion E|].
  unfold show_nat in E.
  destruct (show_digits_head (S (Z.to_nat (Z.log2 n))) n []) as (c & r' & E' & N48); [|lia|rewrite E' in E; congruence].
  split; [lia|]. rewrite Nat2Z.inj_succ, Z2Nat.id by apply Z.log2_nonneg.
  pose proof (Z.log2_spec n ltac:(lia)).
  assert (2 ^ Z.succ (Z.log2 n) <= 10 ^ Z.succ (Z.log2 n)); [|lia]. apply Z.pow_le_mono_l. lia.
Qed.

Lemma plain_string s : plain s -> string_text s s.
Proof. induction 1 as [|c s (A & B & C) H IH]; constructor; auto. Qed.

Lemma padded_self {A} (item : text -> A -> Prop) s a : item s a -> padded item s a.
Proof.
  intros H. pose proof (pad item [] s [] a blank_nil H blank_nil) as P. cbn in P. now rewrite app_nil_r in P.
Qed.

Lemma commas_separated {A} (item : text -> A -> Prop) (f : A -> text) l :
  l <> [] -> Forall (fun a => item (f a) a) l -> separated (padded item) (commas (map f l)) l.
Proof.
  intros NE H. induction H as [|a l Ha Hl IH]; [congruence|].
  destruct l as [|b l]; [cbn; apply sep_one; now apply padded_self|].
  change (commas (map f (a :: b :: l))) with (f a ++ 44 :: commas (map f (b :: l))).
  apply sep_more; [now apply padded_self | apply IH; discriminate].
Qed.

Lemma show_denotes ov j : writable j -> denotes ov (show_json j) j.
Proof.
  induction j as [| b | z | | s | l IH | l IH] using json_nested; intros W.
  - apply den_null.
  - destruct b; [apply den_true | apply den_false].
  - apply den_number. cbn in W. cbn [show_json]. unfold show_int. destruct (Z.ltb_spec z 0).
    + replace z with (- (- z)) at 2 by lia. apply num_neg; [apply show_nat_natural; lia | lia].
    + apply num_pos; [apply show_nat_natural; lia | lia].
  - destruct W.
  - apply den_string. now apply plain_string.
  - destruct l as [|v l]; [exact (den_empty_array ov [] blank_nil)|].
    cbn [show_json]. apply den_array. apply commas_separated; [discriminate|].
    cbn [writable] in W. revert W. induction IH as [|x m Hx Hm IHm]; cbn [fold_right]; intros W; constructor; [apply Hx | apply IHm]; tauto.
  - destruct l as [|v l]; [exact (den_empty_object ov [] blank_nil)|].
    cbn [show_json]. apply den_object. apply commas_separated; [discriminate|].
    cbn [writable] in W. revert W. induction IH as [|[k x] m Hx Hm IHm]; cbn [fold_right fst snd]; intros W; constructor; [|apply IHm; tauto].
    destruct W as (Pk & Wx & _). cbn [fst snd]. unfold show_string.
    change ((34 :: k ++ [34]) ++ 58 :: show_json x) with (34 :: (k ++ [34]) ++ 58 :: show_json x).
    rewrite <- app_assoc. cbn [app].
    apply (mem (denotes ov) k k [] (show_json x) x); [now apply plain_string | constructor | apply padded_self; now apply Hx].
Qed.

Lemma writable_same j : writable j -> same_content j j.
Proof.
  induction j as [| b | z | | s | l IH | l IH] using json_nested; intros W; try constructor.
  - destruct W.
  - cbn [writable] in W. revert W. induction IH as [|x m Hx Hm IHm]; cbn [fold_right]; intros W; constructor; tauto.
  - apply same_object with (l1 := l) (more := []).
    + cbn [writable] in W. revert W. induction IH as [|x m Hx Hm IHm]; cbn [fold_right]; intros W; constructor; tauto.
    + intros k v [].
    + now rewrite app_nil_r.
Qed.

Lemma writable_arr l : Forall writable l -> writable (JArr l).
Proof. induction 1; cbn; auto. Qed.

Definition plainb (s : text) : bool := forallb (fun c => (32 <=? c) && negb (c =? 34) && negb (c =? 92)) s.
Lemma plainb_plain s : plainb s = true -> plain s.
Proof.
  unfold plainb, plain. rewrite forallb_forall, Forall_forall. intros H c Hc. specialize (H c Hc). lia.
Qed.
Lemma writable_struct ns vs : forallb plainb ns = true -> Forall writable vs -> writable (JObj (combine ns vs)).
Proof.
  intros Hn Hv. revert vs Hv. induction ns as [|n ns IH]; intros vs Hv; [exact I|].
  cbn in Hn. apply andb_true_iff in Hn as (A & B).
  destruct Hv as [|v vs Hv Hvs]; [exact I|]. cbn [combine writable fold_right fst snd].
  split; [now apply plainb_plain|]. split; [exact Hv|]. now apply (IH B).
Qed.

(** ** Reading the fields of a struct *)

Lemma field_filter n l : field n l =
  match filter (fun kv => text_eqb (fst kv) n) l with [] => Some None | [(_, v)] => Some (Some v) | _ => None end.
Proof.
  induction l as [|[k v] l IH]; [reflexivity|]. cbn [field filter fst]. destruct (text_eqb k n); [|exact IH].
  rewrite IH. destruct (filter _ l) as [|[k' v'] [|x y]]; reflexivity.
Qed.

Lemma filter_perm {A} (f : A -> bool) l l' : Permutation l l' -> Permutation (filter f l) (filter f l').
Proof.
  induction 1; cbn; auto.
  - destruct (f x); auto.
  - destruct (f y), (f x); auto. constructor.
  - etransitivity; eauto.
Qed.

Fixpoint nodupb (l : list text) : bool :=
  match l with [] => true | a :: l' => negb (existsb (text_eqb a) l') && nodupb l' end.
Lemma nodupb_NoDup l : nodupb l = true -> NoDup l.
Proof.
  induction l as [|a l IH]; cbn; intros H; constructor; apply andb_true_iff in H as (A & B); [|auto].
  intros Hin. apply negb_true_iff in A. assert (existsb (text_eqb a) l = true); [|congruence].
  apply existsb_exists. exists a. split; [exact Hin | now apply text_eqb_eq].
Qed.

Definition same_member (x y : text * json) : Prop := fst x = fst y /\ same_content (snd x) (snd y).

Lemma same_members_split ns vs l1 : List.length ns = List.length vs -> Forall2 same_member (combine ns vs) l1 ->
  exists vs', l1 = combine ns vs' /\ Forall2 same_content vs vs'.
Proof.
  revert vs l1. induction ns as [|n ns IH]; intros [|v vs] l1 L H; try discriminate.
  - inversion H; subst. exists []. split; [reflexivity | constructor].
  - cbn in H. inversion H as [|x [k v'] xs ys [E S] HF]; subst. cbn in E, S. subst k.
    destruct (IH vs ys ltac:(cbn in L; lia) HF) as (vs' & -> & F). exists (v' :: vs'). split; [reflexivity | now constructor].
Qed.

Lemma filter_none {A} (f : A -> bool) l : (forall x, In x l -> f x = false) -> filter f l = [].
Proof.
  induction l as [|a l IH]; cbn; intros H; [reflexivity|]. rewrite (H a (or_introl eq_refl)). apply IH. auto.
Qed.

Lemma filter_combine ns vs n i v : NoDup ns -> nth_error ns i = Some n -> nth_error vs i = Some v ->
  filter (fun kv : text * json => text_eqb (fst kv) n) (combine ns vs) = [(n, v)].
Proof.
  intros ND. revert i vs. induction ND as [|a ns Hin ND IH]; intros i vs Hn Hv; [destruct i; discriminate|].
  destruct vs as [|w vs]; [destruct i; discriminate|]. cbn [combine filter fst].
  destruct i as [|i].
  - cbn in Hn, Hv. inversion Hn; subst a. inversion Hv; subst w.
    replace (text_eqb n n) with true by (symmetry; now apply text_eqb_eq).
    f_equal. apply filter_none. intros [k u] Hk. cbn. apply in_combine_l in Hk.
    destruct (text_eqb k n) eqn:E; [|reflexivity]. apply text_eqb_eq in E. subst. contradiction.
  - cbn in Hn, Hv. destruct (text_eqb a n) eqn:E; [|eapply IH; eauto].
    apply text_eqb_eq in E. subst a. apply nth_error_In in Hn. contradiction.
Qed.

Lemma map_fst_combine {A B} (l : list A) (m : list B) : List.length l = List.length m -> map fst (combine l m) = l.
Proof.
  revert m. induction l as [|a l IH]; intros [|b m] H; try discriminate; [reflexivity|]. cbn. f_equal. apply IH. cbn in H; lia.
Qed.

Lemma struct_same ns vs j : nodupb ns = true -> List.length ns = List.length vs ->
  same_content (JObj (combine ns vs)) j -> exists vs', struct ns j = Some (map Some vs') /\ Forall2 same_content vs vs'.
Proof.
  intros ND L H. apply nodupb_NoDup in ND. inversion H as [ | | | | | l l1 more l' HF Hmore HP E1 E2]; subst.
  destruct (same_members_split _ _ _ L HF) as (vs' & -> & F). exists vs'. split; [|exact F].
  assert (L' : List.length ns = List.length vs') by (rewrite L; eapply Forall2_length; eauto).
  rewrite map_fst_combine in Hmore by exact L.
  assert (Fl : forall n i, nth_error ns i = Some n -> field n l' = Some (nth_error vs' i)).
  { intros n i Hn. rewrite field_filter.
    assert (exists v, nth_error vs' i = Some v) as (v & Hv).
    { destruct (nth_error vs' i) eqn:E; [eauto|]. apply nth_error_None in E.
      assert (nth_error ns i <> None) by congruence. apply nth_error_Some in H0. lia. }
    rewrite Hv. apply (filter_perm (fun kv => text_eqb (fst kv) n)) in HP. rewrite filter_app in HP.
    rewrite (filter_combine ns vs' n i v ND Hn Hv) in HP.
    rewrite (filter_none _ more) in HP.
    - apply Permutation_length_1_inv in HP. rewrite HP. reflexivity.
    - intros [k u] Hk. cbn. destruct (text_eqb k n) eqn:E; [|reflexivity]. apply text_eqb_eq in E. subst k.
      apply nth_error_In in Hn. apply Hmore in Hk. contradiction. }
  cbn [struct]. clear - Fl L'. revert vs' L' Fl. induction ns as [|n ns IH]; intros [|v vs'] L Fl; try discriminate; [reflexivity|].
  cbn [fields map]. rewrite (Fl n 0%nat eq_refl). cbn [nth_error].
  rewrite (IH vs'); [reflexivity | cbn in L; lia |]. intros m i Hm. apply (Fl m (S i)). exact Hm.
Qed.

(** ** Writing then reading *)

Lemma bind_opt_some {A B} (m : outcome (option A)) a (k : A -> outcome (option B)) : m = Ret (Some a) -> bind_opt m k = k a.
Proof. intros ->. reflexivity. Qed.

Definition reads_as {A} (r : reader A) (w : json) (a : A) : Prop := forall j, same_content w j -> r j = Ret (Some a).

Lemma reads_required {A} (r : reader A) w a j : reads_as r w a -> same_content w j -> required r (Some j) = Ret (Some a).
Proof. intros H S. exact (H j S). Qed.

Lemma reads_int lo hi z : lo <= z <= hi -> reads_as (read_int lo hi) (JInt z) z.
Proof.
  intros H j S. inversion S; subst. unfold read_int. rewrite (proj2 (in_range_iff lo hi z) H). reflexivity.
Qed.
Lemma reads_bool b : reads_as read_bool (JBool b) b.
Proof. intros j S. inversion S. reflexivity. Qed.
Lemma reads_enum {A} (names : list (text * A)) s a : lookup names s = Some a -> reads_as (read_enum names) (JStr s) a.
Proof. intros H j S. inversion S; subst. unfold read_enum. now rewrite H. Qed.
Lemma reads_vec {A} (r : reader A) (w : A -> json) l : Forall (fun a => reads_as r (w a) a) l -> reads_as (read_vec r) (JArr (map w l)) l.
Proof.
  intros H j S. inversion S as [ | | | | l0 l' HF E1 E2 | ]; subst. cbn [read_vec]. clear S.
  revert l' HF. induction H as [|a l Ha Hl IH]; intros l' HF; cbn in HF; inversion HF; subst; [reflexivity|].
  cbn [read_all]. rewrite (Ha _ H1). cbn [bind_opt bind]. rewrite (IH _ H3). reflexivity.
Qed.
Lemma reads_option {A} (r : reader A) (w : A -> json) o j : (forall a, o = Some a -> reads_as r (w a) a /\ w a <> JNull) ->
  same_content (write_option w o) j -> optional r (Some j) = Ret (Some o).
Proof.
  intros H S. cbn [optional]. destruct o as [a|]; cbn [write_option] in S.
  - destruct (H a eq_refl) as (R & N). assert (NJ : j <> JNull) by (intros ->; inversion S; congruence).
    unfold read_option. rewrite (R j S). destruct j; try reflexivity. congruence.
  - inversion S; subst. reflexivity.
Qed.

Ltac fields_of S :=
  match type of S with
  | same_content (JObj (combine ?ns ?vs)) ?j =>
      let vs' := fresh "vs" in let E := fresh "E" in let F := fresh "F" in
      destruct (struct_same ns vs j eq_refl eq_refl S) as (vs' & E & F);
      repeat match goal with H : Forall2 same_content (_ :: _) _ |- _ => inversion H; clear H; subst end;
      match goal with H : Forall2 same_content [] _ |- _ => inversion H; clear H; subst end;
      cbn [map] in E
  end.
Ltac step tac :=
  etransitivity; [eapply bind_opt_some; (eapply reads_required; [|eassumption]); tac | cbv beta iota].

Lemma reads_pitch p : valid_pitch p -> reads_as read_pitch (write_pitch p) p.
Proof.
  intros V j S. unfold write_pitch in S. fields_of S. unfold read_pitch. rewrite E.
  step ltac:(apply (reads_enum solfa_names _ (p_solfa p)); destruct (p_solfa p); reflexivity).
  step ltac:(apply (reads_enum octave_names _ (p_octave p)); destruct (p_octave p); reflexivity).
  step ltac:(apply (reads_enum sharp_flat_names _ (p_sharp_flat p)); destruct (p_sharp_flat p); reflexivity).
  destruct V as (A & B & C). unfold pitch_new. rewrite value_of_ok; [|now rewrite <- A]. cbn [unwrap bind].
  do 2 f_equal. unfold canon. destruct p; cbn in *. subst. reflexivity.
Qed.

Lemma reads_duration d : 2 <= d_den d <= 255 -> 0 <= d_dots d <= 255 -> reads_as read_duration (write_duration d) d.
Proof.
  intros V W j S. unfold write_duration in S. fields_of S. unfold read_duration. rewrite E.
  step ltac:(apply (reads_enum numerator_names _ (d_num d)); destruct (d_num d); reflexivity).
  step ltac:(apply reads_int; unfold u8_max, u16_max; lia). step ltac:(apply reads_int; unfold u8_max, u16_max; lia).
  do 2 f_equal. unfold denominator_deser, denominator_from_value. destruct d as [n de k]. cbn [d_num d_den d_dots] in *.
  destruct (Z.ltb_spec de 2); [lia | reflexivity].
Qed.

Lemma four_same {A} (r : reader A) wa wb wc wd a b c d j : reads_as r wa a -> reads_as r wb b -> reads_as r wc c -> reads_as r wd d ->
  same_content (JArr [wa; wb; wc; wd]) j -> read_four r j = Ret (Some (a, b, c, d)).
Proof.
  intros Ha Hb Hc Hd S. inversion S as [ | | | | l0 l' HF E1 E2 | ]; subst.
  repeat match goal with H : Forall2 same_content (_ :: _) _ |- _ => inversion H; clear H; subst end.
  match goal with H : Forall2 same_content [] _ |- _ => inversion H; clear H; subst end.
  cbn [read_four]. unfold bind_opt at 1. rewrite (Ha _ ltac:(eassumption)). cbn [bind].
  unfold bind_opt at 1. rewrite (Hb _ ltac:(eassumption)). cbn [bind].
  unfold bind_opt at 1. rewrite (Hc _ ltac:(eassumption)). cbn [bind].
  unfold bind_opt at 1. rewrite (Hd _ ltac:(eassumption)). reflexivity.
Qed.

Lemma reads_trimmer t : savable_trimmer t -> reads_as read_trimmer (write_trimmer t) t.
Proof.
  intros (V & Sum & A & B & C) j S. unfold write_trimmer in S. fields_of S. unfold read_trimmer. rewrite E.
  unfold trim_values in V. inversion V as [|? ? V0 VA]; subst. inversion VA as [|? ? V1 VB]; subst. inversion VB as [|? ? V2 VC]; subst.
  inversion VC as [|? ? V3 VD]; subst.
  etransitivity; [eapply bind_opt_some; cbn [required]; eapply four_same; [| | | | eassumption]; apply reads_int; assumption|].
  cbv beta iota. unfold trim_total, trim_values in *. cbn in C, Sum. rewrite Z.add_0_r in *.
  rewrite (proj1 (from_array_iff _ _ _ _)); [|repeat split; try apply A; try apply B; destruct C; lia].
  cbn [bind]. do 2 f_equal. unfold trimmer_new. destruct t; cbn in *. f_equal. lia.
Qed.

Lemma reads_percent p : u16 p -> reads_as read_percent_value (write_percent p) p.
Proof.
  intros V j S. unfold write_percent in S. fields_of S. unfold read_percent_value. rewrite E.
  eapply reads_required; [|eassumption]. apply reads_int. exact V.
Qed.

Lemma reads_rate r : savable_rate r -> reads_as read_rate (write_rate r) r.
Proof.
  intros (A & B & C & D & Sum) j S. unfold write_rate in S. fields_of S. unfold read_rate. rewrite E.
  etransitivity; [eapply bind_opt_some; cbn [required]; eapply four_same; [| | | | eassumption]; apply reads_percent; assumption|].
  cbv beta iota. do 2 f_equal. unfold rate_from_array. destruct r; cbn in *. subst. reflexivity.
Qed.

Lemma reads_velocity v : 0 <= v <= 127 -> reads_as read_velocity_value (JInt v) v.
Proof.
  intros V j S. unfold read_velocity_value. erewrite bind_opt_some; [|apply (reads_int 0 u8_max v); [unfold u8_max; lia | exact S]].
  unfold velocity_new. destruct (Z.ltb_spec 127 v); [lia | reflexivity].
Qed.

Lemma reads_note n : savable_note n -> reads_as read_note (write_note n) n.
Proof.
  intros (A & B & C & D & F0 & G & H & I & J) j S. unfold write_note in S. fields_of S. unfold read_note. rewrite E.
  step ltac:(apply reads_int; exact A).
  step ltac:(apply reads_pitch; exact B).
  step ltac:(apply reads_duration; assumption).
  step ltac:(apply reads_bool). step ltac:(apply reads_bool).
  step ltac:(apply reads_velocity; assumption).
  step ltac:(apply reads_trimmer; assumption).
  step ltac:(apply reads_rate; assumption).
  step ltac:(apply reads_trimmer; assumption).
  step ltac:(apply reads_int; exact J).
  destruct n; reflexivity.
Qed.

Lemma reads_rhythm r : savable_rhythm r -> reads_as read_rhythm (write_rhythm r) r.
Proof.
  intros V j S. unfold write_rhythm in S. fields_of S. unfold read_rhythm. rewrite E.
  step ltac:(apply reads_int; exact V).
  step ltac:(apply (reads_enum rhythm_den_names _ (rh_den r)); destruct (rh_den r); reflexivity).
  destruct r; reflexivity.
Qed.

Lemma reads_key k : savable_key k -> reads_as read_key (JInt k) k.
Proof. intros H. apply reads_int. exact H. Qed.

Lemma reads_marks s : 0 <= s < 2 ^ 11 -> reads_as read_marks (write_marks s) s.
Proof.
  intros V j S. unfold write_marks in S. fields_of S. unfold read_marks. rewrite E.
  step ltac:(apply reads_int; unfold u8_max, u16_max; lia). do 2 f_equal. change (ms_of all_marks) with (Z.ones 11).
  rewrite Z.land_ones by lia. apply Z.mod_small. exact V.
Qed.

Lemma reads_bar b : savable_bar b -> reads_as read_bar (write_bar b) b.
Proof.
  intros (A & B & C & D) j S. unfold write_bar in S. fields_of S. unfold read_bar. rewrite E.
  step ltac:(apply reads_int; exact A).
  etransitivity; [eapply bind_opt_some; eapply reads_option; [|eassumption];
    intros r Er; split; [apply reads_rhythm; now apply B | discriminate] | cbv beta iota].
  etransitivity; [eapply bind_opt_some; eapply reads_option; [|eassumption];
    intros k Ek; split; [apply reads_key; now apply C | discriminate] | cbv beta iota].
  step ltac:(apply reads_marks; exact D).
  destruct b; reflexivity.
Qed.

Lemma reads_tempo t : savable_tempo t -> reads_as read_tempo_elem (write_tempo t) t.
Proof.
  intros (A & B) j S. unfold write_tempo in S. fields_of S. unfold read_tempo_elem. rewrite E.
  step ltac:(apply reads_int; exact A). step ltac:(apply reads_int; unfold u8_max, u16_max; lia).
  do 2 f_equal. destruct t as [k v]; cbn [tp_tick tp_value] in *. f_equal. unfold tempo_value_deser, min_tempo, max_tempo.
  destruct (Z.ltb_spec 999 v); [lia|]. destruct (Z.ltb_spec v 1); [lia | reflexivity].
Qed.

Lemma reads_ctrl c : savable_ctrl c -> reads_as read_ctrl (write_ctrl c) c.
Proof.
  intros (A & B & C) j S. unfold write_ctrl in S. fields_of S. unfold read_ctrl. rewrite E.
  step ltac:(apply reads_int; exact A). step ltac:(apply reads_velocity; exact B). step ltac:(apply reads_int; exact C).
  destruct c; reflexivity.
Qed.

Lemma reads_models_fields m n b t d s : savable m ->
  Forall2 same_content (models_values m) [n; b; t; d; s] ->
  read_models_fields (Some n) (Some b) (Some t) (Some d) (Some s) = Ret (Some m).
Proof.
  intros (A & B & C & D & E) F. unfold models_values in F.
  repeat match goal with H : Forall2 same_content (_ :: _) _ |- _ => inversion H; clear H; subst end.
  unfold read_models_fields.
  step ltac:(apply reads_vec; eapply Forall_impl; [|exact A]; apply reads_note).
  step ltac:(apply reads_vec; eapply Forall_impl; [|exact B]; apply reads_bar).
  step ltac:(apply reads_vec; eapply Forall_impl; [|exact C]; apply reads_tempo).
  step ltac:(apply reads_vec; eapply Forall_impl; [|exact D]; apply reads_ctrl).
  step ltac:(apply reads_vec; eapply Forall_impl; [|exact E]; apply reads_ctrl).
  destruct m; reflexivity.
Qed.

Lemma reads_models m : savable m -> reads_as read_models (write_models m) m.
Proof.
  intros V j S. unfold write_models in S.
  destruct (struct_same models_fields (models_values m) j eq_refl eq_refl S) as (vs' & E & F).
  unfold read_models. rewrite E.
  pose proof (Forall2_length _ _ _ F) as L. destruct vs' as [|n [|b [|t [|d [|s [|x y]]]]]]; try discriminate. cbn [map].
  now apply reads_models_fields.
Qed.

Lemma reads_score e : savable_score e -> reads_as read_score (write_score e) e.
Proof.
  intros (A & B & V) j S. unfold write_score in S.
  match type of S with same_content (JObj (combine _ ?vs)) _ =>
    destruct (struct_same score_fields vs j eq_refl eq_refl S) as (vs' & E & F) end.
  unfold read_score. rewrite E.
  inversion F as [|? k ? vs1 Fk F1]; subst. inversion F1 as [|? r ? vs2 Fr F2]; subst.
  pose proof (Forall2_length _ _ _ F2) as L. destruct vs2 as [|n [|b [|t [|d [|s [|x y]]]]]]; try discriminate. cbn [map].
  etransitivity; [eapply bind_opt_some; eapply reads_option; [|eassumption];
    intros z Ez; split; [apply reads_key; now apply A | discriminate] | cbv beta iota].
  etransitivity; [eapply bind_opt_some; eapply reads_option; [|eassumption];
    intros z Ez; split; [apply reads_rhythm; now apply B | discriminate] | cbv beta iota].
  rewrite (bind_opt_some _ (es_models e)); [|now apply reads_models_fields]. destruct e; reflexivity.
Qed.

Lemma reads_exported p : savable_project p -> reads_as read_exported (write_project p) (export p).
Proof.
  intros (A & B & C & V1 & V2 & V3 & V4 & V5) j S. unfold write_project in S. cbv zeta in S. fields_of S.
  unfold read_exported. rewrite E.
  step ltac:(apply reads_rhythm; exact A).
  step ltac:(apply reads_key; exact B).
  etransitivity; [eapply bind_opt_some with (a := pj_grid p) | cbv beta iota].
  { cbn [required]. match goal with H : same_content (write_grid _) _ |- _ => unfold write_grid in H; fields_of H end.
    unfold read_grid. match goal with H : struct value_field _ = _ |- _ => rewrite H end.
    eapply reads_required; [|eassumption]. apply reads_int. exact C. }
  etransitivity; [eapply bind_opt_some with (a := ex_models (export p)) | cbv beta iota].
  { eapply reads_required; [|eassumption]. apply reads_models. repeat split; assumption. }
  reflexivity.
Qed.

Lemma reads_project p : import (export p) = p -> savable_project p -> reads_as read_project (write_project p) p.
Proof.
  intros EI P j S. unfold read_project. rewrite (reads_exported p P j S). cbn [bind_opt bind].
  exact (f_equal (fun x => Ret (Some x)) EI).
Qed.

(** ** What is written is writable and not deeply nested *)

Lemma writable_int z : - 2 ^ 63 <= z < 2 ^ 64 -> writable (JInt z). Proof. exact (fun H => H). Qed.
Lemma writable_trimmer t : savable_trimmer t -> writable (write_trimmer t).
Proof.
  intros (V & _). unfold trim_values in V. unfold write_trimmer. apply writable_struct; [reflexivity|].
  constructor; [|constructor]. apply writable_arr.
  inversion V as [|? ? V0 VA]; subst. inversion VA as [|? ? V1 VB]; subst. inversion VB as [|? ? V2 VC]; subst.
  inversion VC as [|? ? V3 VD]; subst. unfold i16, i16_min, i16_max in *.
  repeat constructor; lia.
Qed.
Lemma writable_percent p : u16 p -> writable (write_percent p).
Proof.
  intros V. apply writable_struct; [reflexivity|]. unfold u16, u16_max in V. repeat constructor; lia.
Qed.
Lemma writable_rate r : savable_rate r -> writable (write_rate r).
Proof.
  intros (A & B & C & D & _). unfold write_rate. apply writable_struct; [reflexivity|].
  constructor; [|constructor]. apply writable_arr. repeat (constructor; [now apply writable_percent|]). constructor.
Qed.
Lemma writable_pitch p : writable (write_pitch p).
Proof.
  apply writable_struct; [reflexivity|]. constructor; [|constructor; [|constructor; [|constructor]]];
    cbn [writable]; apply plainb_plain; [destruct (p_solfa p) | destruct (p_octave p) | destruct (p_sharp_flat p)]; reflexivity.
Qed.
Lemma writable_note n : savable_note n -> writable (write_note n).
Proof.
  intros (A & B & C & D & E & F & G & H & I). unfold write_note. apply writable_struct; [reflexivity|].
  unfold u32, u32_max in A.
  constructor; [apply writable_int; lia|].
  constructor; [apply writable_pitch|].
  constructor. { apply writable_struct; [reflexivity|]. constructor; [|repeat constructor; lia].
    cbn [writable]. apply plainb_plain. destruct (d_num (n_duration n)); reflexivity. }
  constructor; [exact Logic.I|]. constructor; [exact Logic.I|].
  constructor; [apply writable_int; lia|].
  constructor; [now apply writable_trimmer|]. constructor; [now apply writable_rate|].
  constructor; [now apply writable_trimmer|]. constructor; [apply writable_int; lia|]. constructor.
Qed.
Lemma writable_rhythm r : savable_rhythm r -> writable (write_rhythm r).
Proof.
  intros A. unfold savable_rhythm in A. apply writable_struct; [reflexivity|].
  constructor; [apply writable_int; lia|]. constructor; [|constructor].
  cbn [writable]. apply plainb_plain. destruct (rh_den r); reflexivity.
Qed.
Lemma writable_option {A} (w : A -> json) o : (forall a, o = Some a -> writable (w a)) -> writable (write_option w o).
Proof. destruct o; cbn [write_option]; intros H; [now apply H | exact Logic.I]. Qed.
Lemma writable_bar b : savable_bar b -> writable (write_bar b).
Proof.
  intros (A & B & C & D). unfold u32, u32_max in A. apply writable_struct; [reflexivity|].
  constructor; [apply writable_int; lia|].
  constructor; [apply writable_option; intros; apply writable_rhythm; now apply B|].
  constructor; [apply writable_option; intros k Ek; specialize (C k Ek); unfold savable_key in C; apply writable_int; lia|].
  constructor; [|constructor]. apply writable_struct; [reflexivity|]. repeat constructor; lia.
Qed.
Lemma writable_tempo t : savable_tempo t -> writable (write_tempo t).
Proof.
  intros (A & B). unfold u32, u32_max in A. apply writable_struct; [reflexivity|]. repeat constructor; lia.
Qed.
Lemma writable_ctrl t : savable_ctrl t -> writable (write_ctrl t).
Proof.
  intros (A & B & C). unfold u32, u32_max in A. apply writable_struct; [reflexivity|]. repeat constructor; lia.
Qed.
Lemma writable_map {A} (w : A -> json) (P : A -> Prop) l : (forall a, P a -> writable (w a)) -> Forall P l -> writable (JArr (map w l)).
Proof. intros H F. apply writable_arr. induction F; constructor; auto. Qed.
Lemma writable_values m : savable m -> Forall writable (models_values m).
Proof.
  intros (A & B & C & D & E).
  constructor; [exact (writable_map _ _ _ writable_note A)|]. constructor; [exact (writable_map _ _ _ writable_bar B)|].
  constructor; [exact (writable_map _ _ _ writable_tempo C)|]. constructor; [exact (writable_map _ _ _ writable_ctrl D)|].
  constructor; [exact (writable_map _ _ _ writable_ctrl E)|]. constructor.
Qed.
Lemma writable_models m : savable m -> writable (write_models m).
Proof. intros V. apply writable_struct; [reflexivity | now apply writable_values]. Qed.
Lemma writable_score e : savable_score e -> writable (write_score e).
Proof.
  intros (A & B & V). apply writable_struct; [reflexivity|].
  constructor; [apply writable_option; intros k Ek; specialize (A k Ek); unfold savable_key in A; apply writable_int; lia|].
  constructor; [apply writable_option; intros; apply writable_rhythm; now apply B|]. now apply writable_values.
Qed.
Lemma writable_project p : savable_project p -> writable (write_project p).
Proof.
  intros (A & B & C & V1 & V2 & V3 & V4 & V5). unfold savable_key in B. unfold u32, u32_max in C. unfold write_project. cbv zeta.
  apply writable_struct; [reflexivity|].
  constructor; [now apply writable_rhythm|]. constructor; [apply writable_int; change (ex_key (export p)) with (pj_key p); clear - B; lia|].
  constructor; [apply writable_struct; [reflexivity | change (ex_grid (export p)) with (pj_grid p); repeat constructor; lia]|].
  constructor; [|constructor]. apply writable_models. repeat split; assumption.
Qed.

Lemma nesting_struct ns vs n : Forall (fun v => (nesting v <= n)%nat) vs -> (nesting (JObj (combine ns vs)) <= S n)%nat.
Proof. intros H. apply nesting_obj. intros k v Hin. apply in_combine_r in Hin. rewrite Forall_forall in H. auto. Qed.
Lemma nesting_map {A} (w : A -> json) l n : (forall a, (nesting (w a) <= n)%nat) -> (nesting (JArr (map w l)) <= S n)%nat.
Proof. intros H. apply nesting_arr. intros v Hv. apply in_map_iff in Hv as (a & <- & _). apply H. Qed.
Lemma nesting_rhythm r : nesting (write_rhythm r) = 1%nat. Proof. reflexivity. Qed.
Lemma nesting_note n : (nesting (write_note n) <= 4)%nat.
Proof. apply Nat.eq_le_incl. reflexivity. Qed.
Lemma nesting_bar b : (nesting (write_bar b) <= 4)%nat.
Proof.
  apply nesting_struct. constructor; [cbn; lia|]. constructor; [destruct (b_rhythm b); cbn [write_option]; [rewrite nesting_rhythm; lia | cbn; lia]|].
  constructor; [destruct (b_key b); cbn; lia|]. constructor; [|constructor]. apply Nat.le_trans with 1%nat; [apply Nat.eq_le_incl; reflexivity | lia].
Qed.
Lemma nesting_tempo b : (nesting (write_tempo b) <= 4)%nat. Proof. cbn. lia. Qed.
Lemma nesting_ctrl b : (nesting (write_ctrl b) <= 4)%nat. Proof. cbn. lia. Qed.
Lemma nesting_values m : Forall (fun v => (nesting v <= 5)%nat) (models_values m).
Proof.
  constructor; [apply nesting_map, nesting_note|]. constructor; [apply nesting_map, nesting_bar|].
  constructor; [apply nesting_map, nesting_tempo|]. constructor; [apply nesting_map, nesting_ctrl|].
  constructor; [apply nesting_map, nesting_ctrl|]. constructor.
Qed.
Lemma nesting_models m : (nesting (write_models m) <= 6)%nat.
Proof. apply nesting_struct, nesting_values. Qed.
Lemma nesting_score e : (nesting (write_score e) <= 6)%nat.
Proof.
  apply nesting_struct. constructor; [destruct (es_key e); cbn; lia|].
  constructor; [destruct (es_rhythm e); cbn [write_option]; [rewrite nesting_rhythm; lia | cbn; lia]|]. apply nesting_values.
Qed.
Lemma nesting_project p : (nesting (write_project p) <= 7)%nat.
Proof.
  unfold write_project. cbv zeta. apply nesting_struct.
  constructor; [rewrite nesting_rhythm; lia|]. constructor; [cbn; lia|]. constructor; [cbn; lia|].
  constructor; [apply nesting_models|]. constructor.
Qed.

(** ** What is read is savable *)

Lemma bind_opt_inv {A B} (m : outcome (option A)) (k : A -> outcome (option B)) b :
  bind_opt m k = Ret (Some b) -> exists a, m = Ret (Some a) /\ k a = Ret (Some b).
Proof. unfold bind_opt. destruct m as [[a|]| |]; cbn; try discriminate. eauto. Qed.
Lemma required_inv {A} (r : reader A) o a : required r o = Ret (Some a) -> exists j, o = Some j /\ r j = Ret (Some a).
Proof. destruct o; cbn; [eauto | discriminate]. Qed.
Lemma read_int_inv lo hi j z : read_int lo hi j = Ret (Some z) -> lo <= z <= hi.
Proof.
  unfold read_int. destruct j as [| | z' | | | |]; try discriminate. destruct (in_range lo hi z') eqn:E; [|discriminate].
  intros H. inversion H; subst. now apply in_range_iff.
Qed.
Lemma read_vec_inv {A} (r : reader A) (P : A -> Prop) j l : (forall j a, r j = Ret (Some a) -> P a) ->
  read_vec r j = Ret (Some l) -> Forall P l.
Proof.
  intros H. destruct j as [| | | | |js|]; try discriminate. cbn [read_vec]. revert l.
  induction js as [|j js IH]; intros l E; cbn [read_all] in E; [inversion E; constructor|].
  apply bind_opt_inv in E as (a & Ea & E). apply bind_opt_inv in E as (m & Em & E). inversion E; subst. constructor; eauto.
Qed.

Ltac opt_inv H :=
  match type of H with
  | bind_opt (required _ _) _ = Ret (Some _) =>
      let a := fresh "a" in let Ha := fresh "Ha" in
      apply bind_opt_inv in H as (a & Ha & H); apply required_inv in Ha as (? & _ & Ha); cbv beta iota in H
  | bind_opt _ _ = Ret (Some _) =>
      let a := fresh "a" in let Ha := fresh "Ha" in
      apply bind_opt_inv in H as (a & Ha & H); cbv beta iota in H
  end.
(** the result of [struct] with as many fields as there are names *)
Ltac struct_inv H :=
  match type of H with
  | match struct ?ns ?j with _ => _ end = _ =>
      destruct (struct ns j) as [l|]; [|discriminate];
      repeat (destruct l as [|? l]; try discriminate)
  end.

Lemma read_pitch_valid j p : read_pitch j = Ret (Some p) -> valid_pitch p.
Proof.
  unfold read_pitch. intros H. struct_inv H. repeat opt_inv H.
  unfold pitch_new in H. destruct (pitch_value_of a a0 a1) as [q|] eqn:E; [|discriminate]. cbn in H. inversion H; subst.
  eapply value_of_valid; eauto.
Qed.

Lemma read_duration_valid j d : read_duration j = Ret (Some d) -> 2 <= d_den d <= 255 /\ 0 <= d_dots d <= 255.
Proof.
  unfold read_duration. intros H. struct_inv H. repeat opt_inv H. inversion H; subst. cbn [d_den d_dots].
  apply read_int_inv in Ha0, Ha1. unfold u8_max in *. unfold denominator_deser, denominator_from_value.
  destruct (Z.ltb_spec a0 2); lia.
Qed.

Lemma read_four_inv {A} (r : reader A) (P : A -> Prop) j x : (forall j a, r j = Ret (Some a) -> P a) ->
  read_four r j = Ret (Some x) -> let '(a, b, c, d) := x in P a /\ P b /\ P c /\ P d.
Proof.
  intros HP H. destruct j as [| | | | |js|]; try discriminate. destruct js as [|j1 [|j2 [|j3 [|j4 [|j5 js]]]]]; try discriminate.
  cbn [read_four] in H. apply bind_opt_inv in H as (a & Ha & H). apply bind_opt_inv in H as (b & Hb & H).
  apply bind_opt_inv in H as (c & Hc & H). apply bind_opt_inv in H as (d & Hd & H). inversion H; subst.
  repeat split; eapply HP; eassumption.
Qed.

Lemma read_trimmer_savable j t : read_trimmer j = Ret (Some t) -> savable_trimmer t.
Proof.
  unfold read_trimmer. intros H. struct_inv H. opt_inv H.
  apply (read_four_inv _ i16) in Ha; [|intros; eapply read_int_inv; eassumption].
  destruct a as [[[a b] c] d]. destruct Ha as (A & B & C & D).
  destruct (trimmer_from_array a b c d) as [t'| |] eqn:E; try discriminate. cbn in H. inversion H; subst.
  destruct (from_array_valid _ _ _ _ _ A B C D E) as (Et & V1 & V2).
  assert (R : i16 (a + b) /\ i16 (a + b + c) /\ i16 (a + b + c + d)).
  { clear - E. unfold trimmer_from_array, chk_i16 in E. bind_inv.
    repeat match goal with H : chk _ _ _ = Ret _ |- _ => apply chk_inv in H as [-> ?] end. unfold i16. auto. }
  destruct R as (R1 & R2 & R3). subst t. unfold savable_trimmer, trim_total, trim_values, trimmer_new in *. cbn in *.
  rewrite !Z.add_0_r in *. rewrite !Z.add_assoc in *. auto 10.
Qed.

Lemma read_percent_u16 j p : read_percent_value j = Ret (Some p) -> u16 p.
Proof.
  unfold read_percent_value. intros H. struct_inv H. apply required_inv in H as (? & _ & H). now apply read_int_inv in H.
Qed.

Lemma read_rate_savable j r : read_rate j = Ret (Some r) -> savable_rate r.
Proof.
  unfold read_rate. intros H. struct_inv H. opt_inv H.
  apply (read_four_inv _ u16) in Ha; [|apply read_percent_u16].
  destruct a as [[[a b] c] d]. destruct Ha as (A & B & C & D). inversion H; subst.
  unfold savable_rate, rate_from_array. cbn. auto 10.
Qed.

Lemma read_velocity_savable j v : read_velocity_value j = Ret (Some v) -> 0 <= v <= 127.
Proof.
  unfold read_velocity_value. intros H. opt_inv H. inversion H; subst. apply read_int_inv in Ha.
  apply velocity_new_ok. exact Ha.
Qed.

Lemma read_note_savable j n : read_note j = Ret (Some n) -> savable_note n.
Proof.
  unfold read_note. intros H. struct_inv H. repeat opt_inv H. inversion H; subst. unfold savable_note.
  cbn [n_base_tick n_pitch n_duration n_base_velocity n_tick_trimmer n_duration_trimmer n_velocity_trimmer n_channel].
  apply read_int_inv in Ha. apply read_pitch_valid in Ha0. apply read_duration_valid in Ha1.
  apply read_velocity_savable in Ha4. apply read_trimmer_savable in Ha5. apply read_rate_savable in Ha6.
  apply read_trimmer_savable in Ha7. apply read_int_inv in Ha8. unfold u8_max in *.
  destruct Ha1. repeat match goal with |- ?A /\ ?B => split end; (assumption || lia).
Qed.

Lemma read_rhythm_savable j r : read_rhythm j = Ret (Some r) -> savable_rhythm r.
Proof.
  unfold read_rhythm. intros H. struct_inv H. repeat opt_inv H. inversion H; subst. apply read_int_inv in Ha. exact Ha.
Qed.

Lemma optional_inv {A} (r : reader A) o x : optional r o = Ret (Some x) -> forall a, x = Some a -> exists j, r j = Ret (Some a).
Proof.
  intros H a ->. destruct o as [j|]; cbn [optional] in H; [|discriminate]. unfold read_option in H.
  destruct j; try discriminate; opt_inv H; inversion H; subst; eauto.
Qed.

Lemma read_marks_range j s : read_marks j = Ret (Some s) -> 0 <= s < 2 ^ 11.
Proof.
  unfold read_marks. intros H. struct_inv H. opt_inv H. apply (f_equal (fun o => match o with Ret (Some x) => x | _ => 0 end)) in H.
  subst s. change (ms_of all_marks) with (Z.ones 11). rewrite Z.land_ones by lia. apply Z.mod_pos_bound. lia.
Qed.

Lemma read_bar_savable j b : read_bar j = Ret (Some b) -> savable_bar b.
Proof.
  unfold read_bar. intros H. struct_inv H. repeat opt_inv H. inversion H; subst. unfold savable_bar.
  cbn [b_tick b_rhythm b_key b_marks].
  apply read_int_inv in Ha. apply read_marks_range in Ha2.
  split; [exact Ha|]. split; [|split; [|exact Ha2]].
  - intros r Er. destruct (optional_inv _ _ _ Ha0 r Er) as (j' & Hj). eapply read_rhythm_savable; eauto.
  - intros k Ek. destruct (optional_inv _ _ _ Ha1 k Ek) as (j' & Hj). apply read_int_inv in Hj. exact Hj.
Qed.

Lemma read_tempo_savable j t : read_tempo_elem j = Ret (Some t) -> savable_tempo t.
Proof.
  unfold read_tempo_elem. intros H. struct_inv H. repeat opt_inv H. inversion H; subst. apply read_int_inv in Ha, Ha0.
  split; [exact Ha|]. cbn [tp_value]. unfold tempo_value_deser, min_tempo, max_tempo.
  destruct (Z.ltb_spec 999 a0); [lia|]. destruct (Z.ltb_spec a0 1); lia.
Qed.

Lemma read_ctrl_savable j t : read_ctrl j = Ret (Some t) -> savable_ctrl t.
Proof.
  unfold read_ctrl. intros H. struct_inv H. repeat opt_inv H. inversion H; subst. apply read_int_inv in Ha, Ha1.
  apply read_velocity_savable in Ha0. repeat split; cbn; (apply Ha || apply Ha0 || apply Ha1).
Qed.

Lemma read_fields_savable n b t d s m : read_models_fields n b t d s = Ret (Some m) -> savable m.
Proof.
  unfold read_models_fields. intros H. repeat opt_inv H. inversion H; subst. unfold savable. cbn.
  repeat split; eapply read_vec_inv; try eassumption; eauto using read_note_savable, read_bar_savable, read_tempo_savable, read_ctrl_savable.
Qed.

Lemma read_models_savable j m : read_models j = Ret (Some m) -> savable m.
Proof. unfold read_models. intros H. struct_inv H. eapply read_fields_savable; eauto. Qed.

Lemma read_score_savable j e : read_score j = Ret (Some e) -> savable_score e.
Proof.
  unfold read_score. intros H. struct_inv H. repeat opt_inv H. inversion H; subst. unfold savable_score.
  cbn [es_key es_rhythm es_models]. split; [|split; [|eapply read_fields_savable; eauto]].
  - intros k Ek. destruct (optional_inv _ _ _ Ha k Ek) as (j' & Hj). apply read_int_inv in Hj. exact Hj.
  - intros r Er. destruct (optional_inv _ _ _ Ha0 r Er) as (j' & Hj). eapply read_rhythm_savable; eauto.
Qed.

(** ** Reading never hangs *)

Definition ends {A} (o : outcome A) : Prop := o <> Hang.
Lemma ends_bind_opt {A B} (m : outcome (option A)) (k : A -> outcome (option B)) : ends m -> (forall a, ends (k a)) -> ends (bind_opt m k).
Proof. unfold ends, bind_opt. destruct m as [[a|]| |]; cbn; auto; discriminate. Qed.
Lemma ends_ret {A} (a : A) : ends (Ret a). Proof. discriminate. Qed.
Lemma ends_required {A} (r : reader A) o : (forall j, ends (r j)) -> ends (required r o).
Proof. destruct o; cbn; auto using ends_ret. Qed.
Lemma ends_optional {A} (r : reader A) o : (forall j, ends (r j)) -> ends (optional r o).
Proof.
  destruct o as [j|]; cbn [optional]; intros H; [|apply ends_ret]. unfold read_option.
  destruct j; try apply ends_ret; apply ends_bind_opt; auto using ends_ret.
Qed.
Lemma ends_vec {A} (r : reader A) j : (forall j, ends (r j)) -> ends (read_vec r j).
Proof.
  intros H. destruct j as [| | | | |l|]; try apply ends_ret. cbn [read_vec]. induction l as [|x l IH]; cbn [read_all]; [apply ends_ret|].
  apply ends_bind_opt; [apply H|]. intros a. apply ends_bind_opt; [exact IH|]. intros; apply ends_ret.
Qed.
Lemma ends_four {A} (r : reader A) j : (forall j, ends (r j)) -> ends (read_four r j).
Proof.
  intros H. destruct j as [| | | | |l|]; try apply ends_ret. destruct l as [|a [|b [|c [|d [|e l]]]]]; try apply ends_ret.
  cbn [read_four]. repeat (apply ends_bind_opt; [apply H | intros ?]). apply ends_ret.
Qed.
Ltac go_ends :=
  match goal with
  | |- ends (match struct ?ns ?j with _ => _ end) =>
      destruct (struct ns j) as [l|]; [|apply ends_ret]; repeat (destruct l as [|? l]; try apply ends_ret)
  | |- ends (Ret _) => apply ends_ret
  | |- ends (bind_opt _ _) => apply ends_bind_opt; [|intros ?]
  | |- ends (required _ _) => apply ends_required; intros ?
  | |- ends (optional _ _) => apply ends_optional; intros ?
  | |- ends (read_vec _ _) => apply ends_vec; intros ?
  | |- ends (read_four _ _) => apply ends_four; intros ?
  | |- ends (read_int _ _ _) => apply ends_ret
  | |- ends (read_bool _) => apply ends_ret
  | |- ends (read_enum _ _) => apply ends_ret
  end.
Lemma ends_pitch j : ends (read_pitch j).
Proof. unfold read_pitch. repeat go_ends. unfold pitch_new, unwrap. destruct (pitch_value_of _ _ _); discriminate. Qed.
Lemma ends_duration j : ends (read_duration j). Proof. unfold read_duration. repeat go_ends. Qed.
Lemma ends_trimmer j : ends (read_trimmer j).
Proof.
  unfold read_trimmer. repeat go_ends. destruct a as [[[a b] c] d].
  destruct (from_array_iff a b c d) as (P & Q). unfold trimmer_from_array, chk_i16, chk.
  destruct (in_range _ _ (a + b)); cbn [bind]; [|discriminate].
  destruct (in_range _ _ (a + b + c)); cbn [bind]; [|discriminate].
  destruct (in_range _ _ (a + b + c + d)); cbn [bind]; discriminate.
Qed.
Lemma ends_rate j : ends (read_rate j).
Proof. unfold read_rate. repeat go_ends; [unfold read_percent_value; repeat go_ends|]. destruct a as [[[a b] c] d]. apply ends_ret. Qed.
Lemma ends_velocity j : ends (read_velocity_value j). Proof. unfold read_velocity_value. repeat go_ends. Qed.
Lemma ends_note j : ends (read_note j).
Proof.
  unfold read_note. repeat go_ends;
    auto using ends_pitch, ends_duration, ends_trimmer, ends_rate, ends_velocity. unfold read_channel. go_ends.
Qed.
Lemma ends_rhythm j : ends (read_rhythm j). Proof. unfold read_rhythm. repeat go_ends. Qed.
Lemma ends_bar j : ends (read_bar j).
Proof. unfold read_bar. repeat go_ends; auto using ends_rhythm; [unfold read_key; go_ends | unfold read_marks; repeat go_ends]. Qed.
Lemma ends_tempo j : ends (read_tempo_elem j). Proof. unfold read_tempo_elem. repeat go_ends. Qed.
Lemma ends_ctrl j : ends (read_ctrl j).
Proof. unfold read_ctrl. repeat go_ends; auto using ends_velocity. unfold read_channel. go_ends. Qed.
Lemma ends_fields n b t d s : ends (read_models_fields n b t d s).
Proof. unfold read_models_fields. repeat go_ends; auto using ends_note, ends_bar, ends_tempo, ends_ctrl. Qed.
Lemma ends_models j : ends (read_models j).
Proof. unfold read_models. repeat go_ends. apply ends_fields. Qed.
Lemma ends_score j : ends (read_score j).
Proof.
  unfold read_score. repeat go_ends; auto using ends_rhythm, ends_fields. unfold read_key. go_ends.
Qed.

(** ** The first value and the document *)

Lemma delimiter_iff c r : delimiter c = true <-> may_follow (c :: r).
Proof. unfold delimiter, is_ws. cbn. rewrite !orb_true_iff, !Z.eqb_eq. intuition lia. Qed.

Lemma follow_stops r : may_follow r -> stops r.
Proof. destruct r as [|c r]; cbn; [tauto|]. unfold digit. lia. Qed.

Lemma first_none ov t : first_value ov t = None <-> blank t.
Proof.
  unfold first_value. destruct (skip_ws_spec t) as (w & E & Hw & Hs).
  destruct (skip_ws t) as [|c r] eqn:Es.
  - rewrite app_nil_r in E. subst. tauto.
  - split; [discriminate|]. intros B. exfalso. rewrite E in B. apply Forall_app in B as (_ & B). inversion B; subst.
    cbn in Hs. apply is_ws_iff in H1. congruence.
Qed.

Lemma first_some ov t j rest : first_value ov t = Some (Some (j, rest)) <-> begins_with ov t j rest.
Proof.
  unfold first_value, begins_with, json_text. split.
  - destruct (skip_ws_spec t) as (w & E & Hw & Hs). destruct (skip_ws t) as [|c r] eqn:Es; [discriminate|].
    destruct (parse_value ov max_levels (c :: r)) as [[v rest']|] eqn:P; [|discriminate].
    destruct (value_sound ov max_levels _ _ _ P) as (p & Ep & Dp & Np).
    destruct (denotes_head _ _ _ Dp) as (c' & r' & -> & _ & _ & SE). cbn in Ep. injection Ep as -> Er.
    intros H. assert (K : v = j /\ rest' = rest /\ (ends_itself v \/ may_follow rest')).
    { destruct (shows_end c') eqn:Sc; [inversion H; subst; split; [auto|split; [auto|left; now apply SE]]|].
      destruct rest' as [|d rest'']; [inversion H; subst; repeat split; right; exact Logic.I|].
      destruct (delimiter d) eqn:Dd; [|discriminate]. inversion H; subst. repeat split. right. now apply (delimiter_iff d rest''). }
    destruct K as (-> & -> & K). exists w, (c' :: r'). split; [rewrite E, Er; reflexivity|]. repeat split; auto.
  - intros (w & s & -> & Hw & (D & N) & F). rewrite skip_ws_app; [|exact Hw | eapply denotes_no_ws; eauto].
    destruct (denotes_head _ _ _ D) as (c & r & -> & _ & _ & SE). cbn [app]. change (c :: r ++ rest) with ((c :: r) ++ rest).
    rewrite (value_complete ov max_levels (c :: r) j rest D N); [|destruct F; [now left | right; now apply follow_stops]].
    destruct (shows_end c) eqn:Sc; [reflexivity|]. destruct F as [F|F]; [apply SE in F; congruence|].
    destruct rest as [|d rest]; [reflexivity|]. apply delimiter_iff in F. now rewrite F.
Qed.

Lemma first_cases ov t : first_value ov t = None \/ first_value ov t = Some None \/ exists j rest, first_value ov t = Some (Some (j, rest)).
Proof. destruct (first_value ov t) as [[[j r]|]|]; eauto. Qed.

Lemma stops_blank_nil w : blank w -> stops w.
Proof. destruct w as [|c w]; [exact (fun _ => Logic.I)|]. intros H. inversion H; subst. apply stops_ws. now apply is_ws_iff. Qed.

Lemma document_iff ov t j : parse_document ov t = Some j <-> padded (json_text ov) t j.
Proof.
  unfold parse_document. split.
  - destruct (skip_ws_spec t) as (w & E & Hw & Hs).
    destruct (parse_value ov max_levels (skip_ws t)) as [[v r]|] eqn:P; [|discriminate].
    destruct (value_sound ov max_levels _ _ _ P) as (p & Ep & Dp & Np).
    destruct (skip_ws_spec r) as (w' & E' & Hw' & _). destruct (skip_ws r); [|discriminate]. intros H; inversion H; subst v.
    rewrite app_nil_r in E'. subst r. rewrite E, Ep. constructor; [exact Hw | now split | exact Hw'].
  - intros H. inversion H as [w s w' a Hw (D & N) Hw' E1 E2]; subst.
    rewrite skip_ws_app; [|exact Hw | eapply denotes_no_ws; eauto].
    rewrite (value_complete ov max_levels s j w' D N); [|right; now apply stops_blank_nil].
    pose proof (skip_ws_app w' [] Hw' Logic.I) as K. rewrite app_nil_r in K. now rewrite K.
Qed.

(** ** The cases of the clipboard reader *)

Definition version_of (j : json) : option Z := match j with JInt v => if 0 <=? v then Some v else None | _ => None end.

Lemma from_clipboard_eq {A} ov (r : reader A) t : from_clipboard ov r t =
  match first_value ov t with
  | None => Ret (Err EmptyString)
  | Some None => Ret (Err (CannotParse t))
  | Some (Some (j, rest)) =>
      match version_of j with
      | None => Ret (Err (VersionNotU64 t))
      | Some v =>
          if v =? 1 then
            match parse_document ov rest with
            | None => Ret (Err (CannotParse t))
            | Some j => let! o := r j in Ret (match o with Some a => Ok a | None => Err (CannotParse t) end)
            end
          else Ret (Err (VersionErr v))
      end
  end.
Proof.
  unfold from_clipboard. destruct (first_value ov t) as [[[j rest]|]|]; try reflexivity.
  destruct j; try reflexivity. cbn [version_of]. destruct (0 <=? z); reflexivity.
Qed.

Lemma version_some j v : version_of j = Some v <-> j = JInt v /\ 0 <= v.
Proof.
  destruct j as [| | z | | | |]; cbn; try (split; [discriminate | intros [H _]; discriminate]).
  destruct (Z.leb_spec 0 z); split; [intros H0; inversion H0; subst; auto | intros [H0 _]; congruence
    | discriminate | intros [H0 ?]; inversion H0; subst; lia].
Qed.


Lemma begins_unique ov t j rest j' rest' : begins_with ov t j rest -> begins_with ov t j' rest' -> j = j' /\ rest = rest'.
Proof. rewrite <- !first_some. intros H K. rewrite H in K. inversion K. auto. Qed.

Lemma begins_not_blank ov t j rest : begins_with ov t j rest -> ~ blank t.
Proof. rewrite <- first_some, <- (first_none ov). congruence. Qed.

Lemma padded_unique ov t j j' : padded (json_text ov) t j -> padded (json_text ov) t j' -> j = j'.
Proof. rewrite <- !document_iff. congruence. Qed.

Lemma clipboard_empty {A} ov (r : reader A) t : from_clipboard ov r t = Ret (Err EmptyString) <-> blank t.
Proof.
  rewrite from_clipboard_eq, <- (first_none ov). destruct (first_value ov t) as [[[j rest]|]|]; [| |tauto]; split; try discriminate.
  destruct (version_of j) as [v|]; [|discriminate]. destruct (v =? 1); [|discriminate].
  destruct (parse_document ov rest); [|discriminate]. destruct (r j0) as [[a|]| |]; discriminate.
Qed.

Lemma clipboard_version_err {A} ov (r : reader A) t v : from_clipboard ov r t = Ret (Err (VersionErr v)) <->
  exists rest, begins_with ov t (JInt v) rest /\ 0 <= v /\ v <> 1.
Proof.
  rewrite from_clipboard_eq. split.
  - destruct (first_value ov t) as [[[j rest]|]|] eqn:E; try discriminate. apply first_some in E.
    destruct (version_of j) as [u|] eqn:V; [|discriminate]. apply version_some in V as (-> & V).
    destruct (Z.eqb_spec u 1) as [->|N].
    + destruct (parse_document ov rest); [|discriminate]. destruct (r j) as [[a|]| |]; discriminate.
    + intros H. inversion H; subst. eauto.
  - intros (rest & B & V & N). apply first_some in B. rewrite B.
    rewrite (proj2 (version_some (JInt v) v)) by auto. destruct (Z.eqb_spec v 1); [contradiction | reflexivity].
Qed.

Lemma clipboard_not_u64 {A} ov (r : reader A) t s : from_clipboard ov r t = Ret (Err (VersionNotU64 s)) <->
  s = t /\ exists j rest, begins_with ov t j rest /\ forall v, j = JInt v -> v < 0.
Proof.
  rewrite from_clipboard_eq. split.
  - destruct (first_value ov t) as [[[j rest]|]|] eqn:E; try discriminate. apply first_some in E.
    destruct (version_of j) as [u|] eqn:V.
    + destruct (Z.eqb_spec u 1) as [->|N]; [|discriminate].
      destruct (parse_document ov rest); [|discriminate]. destruct (r j0) as [[a|]| |]; discriminate.
    + intros H. inversion H; subst. split; [reflexivity|]. exists j, rest. split; [exact E|].
      intros v ->. cbn in V. destruct (Z.leb_spec 0 v); [discriminate | lia].
  - intros (-> & j & rest & B & V). apply first_some in B. rewrite B.
    destruct (version_of j) as [u|] eqn:Vj; [|reflexivity]. apply version_some in Vj as (-> & Hu). specialize (V u eq_refl). lia.
Qed.

Lemma clipboard_ok {A} ov (r : reader A) t a : from_clipboard ov r t = Ret (Ok a) <->
  exists rest j, begins_with ov t (JInt 1) rest /\ padded (json_text ov) rest j /\ r j = Ret (Some a).
Proof.
  rewrite from_clipboard_eq. split.
  - destruct (first_value ov t) as [[[j rest]|]|] eqn:E; try discriminate. apply first_some in E.
    destruct (version_of j) as [u|] eqn:V; [|discriminate]. apply version_some in V as (-> & V).
    destruct (Z.eqb_spec u 1) as [->|N]; [|discriminate].
    destruct (parse_document ov rest) as [j|] eqn:D; [|discriminate]. apply document_iff in D.
    destruct (r j) as [[b|]| |] eqn:R; try discriminate. cbn. intros H. inversion H; subst. eauto.
  - intros (rest & j & B & D & R). apply first_some in B. apply document_iff in D. rewrite B. cbn. now rewrite D, R.
Qed.

Lemma clipboard_panic {A} ov (r : reader A) t : from_clipboard ov r t = Panic <->
  exists rest j, begins_with ov t (JInt 1) rest /\ padded (json_text ov) rest j /\ r j = Panic.
Proof.
  rewrite from_clipboard_eq. split.
  - destruct (first_value ov t) as [[[j rest]|]|] eqn:E; try discriminate. apply first_some in E.
    destruct (version_of j) as [u|] eqn:V; [|discriminate]. apply version_some in V as (-> & V).
    destruct (Z.eqb_spec u 1) as [->|N]; [|discriminate].
    destruct (parse_document ov rest) as [j|] eqn:D; [|discriminate]. apply document_iff in D.
    destruct (r j) as [[b|]| |] eqn:R; try discriminate. eauto.
  - intros (rest & j & B & D & R). apply first_some in B. apply document_iff in D. rewrite B. cbn. now rewrite D, R.
Qed.

Lemma clipboard_cannot {A} ov (r : reader A) t s : from_clipboard ov r t = Ret (Err (CannotParse s)) <->
  s = t /\ ((~ blank t /\ forall j rest, ~ begins_with ov t j rest) \/
            (exists rest, begins_with ov t (JInt 1) rest /\
               ((forall j, ~ padded (json_text ov) rest j) \/ (exists j, padded (json_text ov) rest j /\ r j = Ret None)))).
Proof.
  rewrite from_clipboard_eq. split.
  - destruct (first_value ov t) as [[[j rest]|]|] eqn:E; try discriminate.
    + apply first_some in E.
      destruct (version_of j) as [u|] eqn:V; [|discriminate]. apply version_some in V as (-> & V).
      destruct (Z.eqb_spec u 1) as [->|N]; [|discriminate].
      destruct (parse_document ov rest) as [j|] eqn:D.
      * apply document_iff in D. destruct (r j) as [[b|]| |] eqn:R; try discriminate. cbn. intros H. inversion H; subst.
        split; [reflexivity|]. right. exists rest. eauto.
      * intros H. inversion H; subst. split; [reflexivity|]. right. exists rest. split; [exact E|]. left.
        intros j P. apply document_iff in P. congruence.
    + intros H. inversion H; subst. split; [reflexivity|]. left. split.
      * rewrite <- (first_none ov). congruence.
      * intros j rest B. apply first_some in B. congruence.
  - intros (-> & [(NB & NV) | (rest & B & C)]).
    + destruct (first_value ov t) as [[[j rest]|]|] eqn:E; [|reflexivity|].
      * apply first_some in E. exfalso. eapply NV; eauto.
      * apply first_none in E. contradiction.
    + apply first_some in B. rewrite B. cbn. destruct C as [C | (j & D & R)].
      * destruct (parse_document ov rest) as [j|] eqn:D; [apply document_iff in D; exfalso; eapply C; eauto | reflexivity].
      * apply document_iff in D. now rewrite D, R.
Qed.

Lemma clipboard_ends {A} ov (r : reader A) t : (forall j, ends (r j)) -> from_clipboard ov r t <> Hang.
Proof.
  intros H. rewrite from_clipboard_eq. destruct (first_value ov t) as [[[j rest]|]|]; try discriminate.
  destruct (version_of j) as [u|]; [|discriminate]. destruct (u =? 1); [|discriminate].
  destruct (parse_document ov rest) as [j'|]; [|discriminate].
  specialize (H j'). unfold ends in H. destruct (r j') as [[b|]| |]; cbn; congruence.
Qed.

(** written texts are read back *)
Lemma one_text ov : json_text ov (chars "1") (JInt 1).
Proof. split; [apply (show_denotes ov (JInt 1)); cbn; lia | cbn; lia]. Qed.

Lemma begins_one ov l : begins_with ov (chars "1" ++ show_json (JObj l)) (JInt 1) (show_json (JObj l)).
Proof.
  exists [], (chars "1"). split; [reflexivity|]. split; [constructor|]. split; [apply one_text|]. right.
  cbn [show_json may_follow]. cbn. tauto.
Qed.

Lemma show_document ov j : writable j -> (nesting j <= 127)%nat -> padded (json_text ov) (show_json j) j.
Proof. intros W N. apply padded_self. split; [now apply show_denotes | exact N]. Qed.

Lemma clipboard_written {A} ov (r : reader A) l a : writable (JObj l) -> (nesting (JObj l) <= 127)%nat ->
  reads_as r (JObj l) a -> from_clipboard ov r (chars "1" ++ show_json (JObj l)) = Ret (Ok a).
Proof.
  intros W N R. apply clipboard_ok. exists (show_json (JObj l)), (JObj l).
  split; [apply begins_one|]. split; [now apply show_document | apply R; now apply writable_same].
Qed.

Lemma models_roundtrip ov m : savable m -> from_clipboard_text ov (to_clipboard_text m) = Ret (Ok m).
Proof.
  intros V. pose proof (nesting_models m) as N. pose proof (writable_models m V) as W. pose proof (reads_models m V) as R.
  unfold from_clipboard_text, to_clipboard_text. unfold write_models in *.
  apply clipboard_written; [exact W | lia | exact R].
Qed.
Lemma score_roundtrip ov e : savable_score e -> score_from_clipboard_text ov (chars "1" ++ show_json (write_score e)) = Ret (Ok e).
Proof.
  intros V. pose proof (nesting_score e) as N. pose proof (writable_score e V) as W. pose proof (reads_score e V) as R.
  unfold score_from_clipboard_text. unfold write_score in *.
  apply clipboard_written; [exact W | lia | exact R].
Qed.
Lemma project_roundtrip ov p : import (export p) = p -> savable_project p ->
  exists j, parse_document ov (show_json (write_project p)) = Some j /\ read_project j = Ret (Some p).
Proof.
  intros E V. exists (write_project p). split.
  - apply document_iff. apply show_document; [now apply writable_project|].
    pose proof (nesting_project p). lia.
  - apply reads_project; auto. apply writable_same. now apply writable_project.
Qed.

(** the two kinds of clipboard text are exchangeable *)
Lemma fields_app ns ns' l os : fields (ns ++ ns') l = Some os ->
  exists a b, os = a ++ b /\ List.length a = List.length ns /\ fields ns' l = Some b.
Proof.
  revert os. induction ns as [|n ns IH]; intros os H; [exists [], os; auto|]. cbn in H.
  destruct (field n l) as [o|]; [|discriminate]. destruct (fields (ns ++ ns') l) as [os'|] eqn:E; [|discriminate].
  inversion H; subst. destruct (IH _ eq_refl) as (a & b & -> & L & F). exists (o :: a), b. cbn. auto.
Qed.

Lemma score_as_models l e : read_score (JObj l) = Ret (Some e) -> read_models (JObj l) = Ret (Some (score_to_models e)).
Proof.
  unfold read_score, read_models, struct. change score_fields with ([chars "key"; chars "rhythm"] ++ models_fields).
  destruct (fields ([chars "key"; chars "rhythm"] ++ models_fields) l) as [os|] eqn:E; [|discriminate].
  apply fields_app in E as (a & b & -> & L & F). rewrite F.
  destruct a as [|k [|r [|x a]]]; try discriminate.
  destruct b as [|n [|b0 [|t [|d [|s [|x b]]]]]]; try discriminate. cbn [app].
  intros H. opt_inv H. opt_inv H. opt_inv H. inversion H; subst. exact Ha1.
Qed.

Lemma models_as_score l m : fields [chars "key"; chars "rhythm"] l = Some [None; None] ->
  read_models (JObj l) = Ret (Some m) -> read_score (JObj l) = Ret (Some (mkScore None None m)).
Proof.
  unfold read_score, read_models, struct. intros K H. change score_fields with (chars "key" :: chars "rhythm" :: models_fields).
  cbn [fields] in K. destruct (field (chars "key") l) as [k|] eqn:E1; [|discriminate].
  destruct (field (chars "rhythm") l) as [r|] eqn:E2; [|discriminate]. inversion K; subst.
  remember models_fields as mf. cbn [fields]. rewrite E1, E2. subst mf. destruct (fields models_fields l) as [os|]; [|discriminate].
  destruct os as [|n [|b0 [|t [|d [|s [|x b]]]]]]; try discriminate. cbn [optional]. unfold bind_opt at 1 2. cbn [bind].
  now rewrite H.
Qed.

(** ** Panics *)

Lemma field_in n l v : field n l = Some (Some v) -> In (n, v) l.
Proof.
  rewrite field_filter. destruct (filter _ l) as [|[k u] [|x y]] eqn:E; try discriminate. intros H. inversion H; subst.
  assert (I : In (k, v) (filter (fun kv => text_eqb (fst kv) n) l)) by (rewrite E; now left).
  apply filter_In in I as (I & T). cbn in T. apply text_eqb_eq in T. now subst.
Qed.
Lemma fields_in ns : forall l os i n v, fields ns l = Some os -> nth_error ns i = Some n -> nth_error os i = Some (Some v) -> In (n, v) l.
Proof.
  induction ns as [|m ns IH]; intros l os i n v H Hn Hv; [destruct i; discriminate|]. cbn in H.
  destruct (field m l) as [o|] eqn:Fm; [|discriminate]. destruct (fields ns l) as [os'|] eqn:Fs; [|discriminate].
  inversion H; subst. destruct i as [|i]; cbn in Hn, Hv.
  - inversion Hn; subst. inversion Hv; subst. now apply field_in.
  - eapply IH; eauto.
Qed.
Lemma struct_field ns x os i n v : struct ns x = Some os -> nth_error ns i = Some n -> nth_error os i = Some (Some v) -> field_of x i n v.
Proof.
  intros H Hn Hv. unfold field_of. destruct x as [| | | | |l|l]; try discriminate; cbn [struct] in H.
  - right. exists l. split; [reflexivity|]. destruct (Nat.eqb _ _); [|discriminate]. inversion H; subst.
    rewrite nth_error_map in Hv. destruct (nth_error l i); [|discriminate]. cbn in Hv. congruence.
  - left. exists l. split; [reflexivity|]. eapply fields_in; eauto.
Qed.
Lemma field_within x i n v y : field_of x i n v -> within y v -> within y x.
Proof.
  intros [(l & -> & H) | (l & -> & H)] W; [eapply within_object; eauto | eapply within_array; [eapply nth_error_In; eauto | exact W]].
Qed.

Definition cause (P : json -> Prop) (j : json) : Prop := exists x, within x j /\ P x.
(** a panic of [r] has a cause *)
Definition caused {A} (P : json -> Prop) (r : reader A) : Prop := forall j, r j = Panic -> cause P j.
Lemma cause_field P x i n v : field_of x i n v -> cause P v -> cause P x.
Proof. intros F (y & W & Py). exists y. split; [eapply field_within; eauto | exact Py]. Qed.

Lemma bind_opt_panic {A B} (m : outcome (option A)) (k : A -> outcome (option B)) :
  bind_opt m k = Panic -> m = Panic \/ exists a, m = Ret (Some a) /\ k a = Panic.
Proof. unfold bind_opt. destruct m as [[a|]| |]; cbn; try discriminate; eauto. Qed.

Lemma caused_calm {A} P (r : reader A) : (forall j, r j <> Panic) -> caused P r.
Proof. intros H j E. elim (H j E). Qed.
Lemma calm_int lo hi j : read_int lo hi j <> Panic. Proof. discriminate. Qed.
Lemma calm_bool j : read_bool j <> Panic. Proof. discriminate. Qed.
Lemma calm_enum {A} (n : list (text * A)) j : read_enum n j <> Panic. Proof. discriminate. Qed.

Lemma caused_vec {A} P (r : reader A) : caused P r -> caused P (read_vec r).
Proof.
  intros H j E. destruct j as [| | | | |l|]; try discriminate. cbn [read_vec] in E.
  assert (K : exists v, In v l /\ cause P v).
  { induction l as [|v l IH]; cbn [read_all] in E; [discriminate|].
    apply bind_opt_panic in E as [E | (a & Ea & E)]; [exists v; split; [now left | now apply H]|].
    apply bind_opt_panic in E as [E | (b & Eb & E)]; [|discriminate].
    destruct (IH E) as (w & I & C). exists w. split; [now right | exact C]. }
  destruct K as (v & I & y & W & Py). exists y. split; [eapply within_array; eauto | exact Py].
Qed.
Lemma caused_option {A} P (r : reader A) : caused P r -> caused P (read_option r).
Proof.
  intros H j E. unfold read_option in E.
  assert (r j = Panic); [|now apply H].
  destruct j; try discriminate; (apply bind_opt_panic in E as [E | (a & Ea & E)]; [exact E | discriminate]).
Qed.
Lemma caused_required {A} P (r : reader A) x os i n o ns : caused P r -> struct ns x = Some os -> nth_error ns i = Some n ->
  nth_error os i = Some o -> required r o = Panic -> cause P x.
Proof.
  intros H S Hn Ho E. destruct o as [v|]; [|discriminate]. cbn in E.
  eapply cause_field; [eapply struct_field; eauto | now apply H].
Qed.
Lemma caused_optional {A} P (r : reader A) x os i n o ns : caused P r -> struct ns x = Some os -> nth_error ns i = Some n ->
  nth_error os i = Some o -> optional r o = Panic -> cause P x.
Proof.
  intros H S Hn Ho E. destruct o as [v|]; [|discriminate]. cbn in E.
  eapply cause_field; [eapply struct_field; eauto | now apply (caused_option P r H)].
Qed.

(** split the panic of a struct reader into its fields *)
Ltac struct_panic H :=
  match type of H with
  | match struct ?ns ?j with _ => _ end = _ =>
      let S := fresh "S" in
      destruct (struct ns j) as [os|] eqn:S; [|discriminate];
      repeat (destruct os as [|? os]; try discriminate)
  end.
Ltac next_panic H :=
  match type of H with
  | bind_opt _ _ = Panic =>
      let a := fresh "a" in let Ha := fresh "Ha" in
      apply bind_opt_panic in H as [H | (a & Ha & H)]; cbv beta iota in H
  end.
Ltac nth_field i :=
  match goal with
  | S : struct _ _ = Some _ |- _ =>
      first [ eapply (caused_required _ _ _ _ i); [|exact S|reflexivity|reflexivity|eassumption]
            | eapply (caused_optional _ _ _ _ i); [|exact S|reflexivity|reflexivity|eassumption] ]
  end.

Lemma lookup_variant {A} (name : A -> text) all j x : read_enum (map (fun a => (name a, a)) all) j = Ret (Some x) -> variant (name x) j.
Proof.
  unfold read_enum.
  assert (K : forall s, lookup (map (fun a => (name a, a)) all) s = Some x -> s = name x).
  { intros s. induction all as [|a all IH]; cbn; [discriminate|]. destruct (text_eqb (name a) s) eqn:E; [|exact IH].
    intros H. inversion H; subst. apply text_eqb_eq in E. auto. }
  destruct j as [| | | |s| |[|[s [| | | | | |]] [|]]]; try discriminate; intros H;
    apply (f_equal (fun o => match o with Ret y => y | _ => None end)) in H; cbn [fst] in H.
  - left. f_equal. now apply K.
  - right. do 3 f_equal. now apply K.
Qed.

Lemma caused_pitch : caused (fun x => bad_pitch x \/ bad_trimmer x) read_pitch.
Proof.
  intros j H. unfold read_pitch in H. struct_panic H. do 3 (next_panic H; [destruct o || idtac; match type of H with required _ ?o = _ => destruct o; discriminate end|]).
  apply required_inv in Ha as (j1 & -> & V1), Ha0 as (j2 & -> & V2), Ha1 as (j3 & -> & V3).
  exists j. split; [constructor|]. left.
  exists a, a0, a1, j1, j2, j3.
  split; [eapply struct_field; [exact S | reflexivity | reflexivity]|].
  split; [eapply lookup_variant; exact V1|].
  split; [eapply (struct_field _ _ _ 1); [exact S | reflexivity | reflexivity]|].
  split; [eapply lookup_variant; exact V2|].
  split; [eapply (struct_field _ _ _ 2); [exact S | reflexivity | reflexivity]|].
  split; [eapply lookup_variant; exact V3|].
  intros M. unfold pitch_new in H. rewrite value_of_ok in H by exact M. discriminate.
Qed.

Lemma read_int_some lo hi j z : read_int lo hi j = Ret (Some z) -> j = JInt z.
Proof.
  unfold read_int. destruct j as [| | z' | | | |]; try discriminate. destruct (in_range lo hi z'); [|discriminate].
  intros H. inversion H. reflexivity.
Qed.

Lemma caused_trimmer : caused (fun x => bad_pitch x \/ bad_trimmer x) read_trimmer.
Proof.
  intros j H. unfold read_trimmer in H. struct_panic H. next_panic H.
  - exfalso. destruct o as [v|]; [|discriminate]. cbn [required] in H. destruct v as [| | | | |l|]; try discriminate.
    destruct l as [|x [|y [|z [|w [|q l]]]]]; try discriminate. cbn [read_four] in H.
    repeat (next_panic H; [discriminate|]). discriminate.
  - apply required_inv in Ha as (v & -> & Ha). destruct v as [| | | | |l|]; try discriminate.
    destruct l as [|x [|y [|z [|w [|q l]]]]]; try discriminate. cbn [read_four] in Ha.
    apply bind_opt_inv in Ha as (c1 & H1 & Ha). apply bind_opt_inv in Ha as (c2 & H2 & Ha).
    apply bind_opt_inv in Ha as (c3 & H3 & Ha). apply bind_opt_inv in Ha as (c4 & H4 & Ha). inversion Ha; subst a.
    cbv beta iota in H. apply read_int_some in H1, H2, H3, H4. subst.
    exists j. split; [constructor|]. right. exists c1, c2, c3, c4.
    split; [eapply struct_field; [exact S | reflexivity | reflexivity]|].
    intros R. rewrite (proj1 (from_array_iff _ _ _ _) R) in H. discriminate.
Qed.

Lemma calm_percent j : read_percent_value j <> Panic.
Proof.
  unfold read_percent_value. destruct (struct value_field j) as [[|[v|] [|]]|]; cbn; discriminate.
Qed.
Lemma calm_four {A} (r : reader A) : (forall j, r j <> Panic) -> forall j, read_four r j <> Panic.
Proof.
  intros C j H. destruct j as [| | | | |l|]; try discriminate.
  destruct l as [|x [|y [|z [|w [|q l]]]]]; try discriminate. cbn [read_four] in H.
  repeat (next_panic H; [eapply C; eassumption|]). discriminate.
Qed.
Lemma calm_rate j : read_rate j <> Panic.
Proof.
  unfold read_rate. intros H. struct_panic H. next_panic H.
  - destruct o; [|discriminate]. exact (calm_four _ calm_percent _ H).
  - destruct a as [[[? ?] ?] ?]. discriminate.
Qed.
Lemma calm_duration j : read_duration j <> Panic.
Proof. unfold read_duration. intros H. struct_panic H. repeat (next_panic H; [match type of H with required _ ?o = _ => destruct o; discriminate end|]). discriminate. Qed.
Lemma calm_velocity j : read_velocity_value j <> Panic.
Proof. unfold read_velocity_value. intros H. next_panic H; discriminate. Qed.
Lemma calm_rhythm j : read_rhythm j <> Panic.
Proof. unfold read_rhythm. intros H. struct_panic H. repeat (next_panic H; [match type of H with required _ ?o = _ => destruct o; discriminate end|]). discriminate. Qed.
Lemma calm_tempo j : read_tempo_elem j <> Panic.
Proof. unfold read_tempo_elem. intros H. struct_panic H. repeat (next_panic H; [match type of H with required _ ?o = _ => destruct o; discriminate end|]). discriminate. Qed.
Lemma calm_required {A} (r : reader A) o : (forall j, r j <> Panic) -> required r o <> Panic.
Proof. destruct o; cbn; intros H; [apply H | discriminate]. Qed.
Lemma calm_optional {A} (r : reader A) o : (forall j, r j <> Panic) -> optional r o <> Panic.
Proof.
  destruct o as [j|]; cbn; intros H; [|discriminate]. unfold read_option.
  destruct j; try discriminate; intros E; apply bind_opt_panic in E as [E | (a & Ea & E)]; (discriminate || eapply H; eassumption).
Qed.
Lemma calm_marks j : read_marks j <> Panic.
Proof. unfold read_marks. intros H. struct_panic H. next_panic H; [|discriminate]. revert H. apply calm_required, calm_int. Qed.
Lemma calm_ctrl j : read_ctrl j <> Panic.
Proof.
  unfold read_ctrl. intros H. struct_panic H. next_panic H; [revert H; apply calm_required, calm_int|].
  next_panic H; [revert H; apply calm_required, calm_velocity|]. next_panic H; [revert H; apply calm_required, calm_int | discriminate].
Qed.
Lemma calm_bar j : read_bar j <> Panic.
Proof.
  unfold read_bar. intros H. struct_panic H. next_panic H; [revert H; apply calm_required, calm_int|].
  next_panic H; [revert H; apply calm_optional, calm_rhythm|]. next_panic H; [revert H; apply calm_optional, calm_int|].
  next_panic H; [revert H; apply calm_required, calm_marks | discriminate].
Qed.

Lemma caused_note : caused (fun x => bad_pitch x \/ bad_trimmer x) read_note.
Proof.
  intros j H. unfold read_note in H. struct_panic H.
  next_panic H; [exfalso; revert H; apply calm_required, calm_int|].
  next_panic H; [nth_field 1%nat; apply caused_pitch|].
  next_panic H; [exfalso; revert H; apply calm_required, calm_duration|].
  next_panic H; [exfalso; revert H; apply calm_required, calm_bool|].
  next_panic H; [exfalso; revert H; apply calm_required, calm_bool|].
  next_panic H; [exfalso; revert H; apply calm_required, calm_velocity|].
  next_panic H; [nth_field 6%nat; apply caused_trimmer|].
  next_panic H; [exfalso; revert H; apply calm_required, calm_rate|].
  next_panic H; [nth_field 8%nat; apply caused_trimmer|].
  next_panic H; [exfalso; revert H; apply calm_required, calm_int | discriminate].
Qed.

Lemma fields_panic n b t d s : read_models_fields n b t d s = Panic -> required (read_vec read_note) n = Panic.
Proof.
  assert (C : forall A (r : reader A), (forall j, r j <> Panic) -> forall j, read_vec r j <> Panic).
  { intros A r C j E. destruct (caused_vec (fun _ => False) r (caused_calm _ _ C) j E) as (x & _ & []). }
  unfold read_models_fields. intros H. next_panic H; [exact H|].
  next_panic H; [exfalso; revert H; apply calm_required, C, calm_bar|].
  next_panic H; [exfalso; revert H; apply calm_required, C, calm_tempo|].
  next_panic H; [exfalso; revert H; apply calm_required, C, calm_ctrl|].
  next_panic H; [exfalso; revert H; apply calm_required, C, calm_ctrl | discriminate].
Qed.

Lemma caused_models : caused (fun x => bad_pitch x \/ bad_trimmer x) read_models.
Proof.
  intros j H. unfold read_models in H. struct_panic H. apply fields_panic in H. nth_field 0%nat. apply caused_vec, caused_note.
Qed.
Lemma caused_score : caused (fun x => bad_pitch x \/ bad_trimmer x) read_score.
Proof.
  intros j H. unfold read_score in H. struct_panic H.
  next_panic H; [exfalso; revert H; apply calm_optional, calm_int|].
  next_panic H; [exfalso; revert H; apply calm_optional, calm_rhythm|].
  next_panic H; [|discriminate]. apply fields_panic in H. nth_field 2%nat. apply caused_vec, caused_note.
Qed.

(** ** Reading what was written, for concrete selections *)

Fixpoint writableb (j : json) : bool :=
  match j with
  | JNull | JBool _ => true
  | JInt z => (- 2 ^ 63 <=? z) && (z <? 2 ^ 64)
  | JFloat => false
  | JStr s => plainb s
  | JArr l => forallb writableb l
  | JObj l => forallb (fun kv => plainb (fst kv) && writableb (snd kv)) l
  end.
Lemma writableb_ok j : writableb j = true -> writable j.
Proof.
  induction j as [| b | z | | s | l IH | l IH] using json_nested; intros W; cbn [writable]; try exact Logic.I; try discriminate.
  - cbn in W. lia.
  - now apply plainb_plain.
  - cbn [writableb] in W. induction IH as [|x m Hx Hm IHm]; cbn in *; [exact Logic.I|]. apply andb_true_iff in W as (W1 & W2). auto.
  - cbn [writableb] in W. induction IH as [|x m Hx Hm IHm]; cbn in *; [exact Logic.I|]. apply andb_true_iff in W as (W1 & W2).
    apply andb_true_iff in W1 as (W0 & W1). auto using plainb_plain.
Qed.

Lemma models_written ov m : writableb (write_models m) = true ->
  from_clipboard_text ov (to_clipboard_text m) =
    (let! o := read_models (write_models m) in
     Ret (match o with Some a => Ok a | None => Err (CannotParse (to_clipboard_text m)) end)).
Proof.
  intros W. apply writableb_ok in W. unfold from_clipboard_text. rewrite from_clipboard_eq.
  assert (B : first_value ov (to_clipboard_text m) = Some (Some (JInt 1, show_json (write_models m)))).
  { apply first_some. unfold to_clipboard_text. unfold write_models. apply begins_one. }
  assert (D : parse_document ov (show_json (write_models m)) = Some (write_models m)).
  { apply document_iff, show_document; [exact W|]. pose proof (nesting_models m). lia. }
  rewrite B. cbn [version_of]. change (0 <=? 1) with true. cbv iota. change (1 =? 1) with true. cbv iota. rewrite D. reflexivity.
Qed.

(** ** Loading a project *)

Lemma s_add_in {V} k (v : V) s x : In x (fst (s_add k v s)) -> x = (k, v) \/ In x s.
Proof.
  induction s as [|[k' v'] s IH]; cbn [s_add]; [cbn; intuition congruence|].
  destruct (k =? k'); [cbn; intuition congruence|]. destruct (k <? k'); [cbn; intuition congruence|].
  destruct (s_add k v s) as [t o]. cbn in *. intuition congruence.
Qed.
Lemma s_bulk_add_in {V} (l : list (Z * V)) : forall s x, In x (fst (s_bulk_add l s)) -> In x l \/ In x s.
Proof.
  intros s x. rewrite bulk_add_fst. revert s. unfold add_all. induction l as [|[k v] l IH]; cbn; intros s H; [auto|].
  apply IH in H as [H|H]; [auto|]. apply s_add_in in H as [H|H]; auto.
Qed.
Lemma stored_forall {V} (P : V -> Prop) (key : V -> Z) l :
  Forall P l -> Forall P (map snd (fst (s_bulk_add (map (fun v => (key v, v)) l) []))).
Proof.
  rewrite !Forall_forall. intros H v I. apply in_map_iff in I as ([k u] & <- & I). apply s_bulk_add_in in I as [I|[]].
  apply in_map_iff in I as (w & E & I). inversion E; subst. now apply H.
Qed.

Lemma read_project_ok j p : read_project j = Ret (Some p) -> project_ok p /\ savable_project p.
Proof.
  unfold read_project. intros H. opt_inv H.
  apply (f_equal (fun o => match o with Ret (Some q) => q | _ => p end)) in H. subst p.
  rename Ha into H. unfold read_exported in H. struct_inv H. repeat opt_inv H.
  apply (f_equal (fun o => match o with Ret (Some q) => q | _ => a end)) in H. subst a.
  apply read_rhythm_savable in Ha. apply read_int_inv in Ha0. apply read_models_savable in Ha2.
  assert (Ha1' : u32 a2).
  { unfold read_grid in Ha1. struct_inv Ha1. apply required_inv in Ha1 as (? & _ & Ha1). now apply read_int_inv in Ha1. }
  destruct Ha2 as (A & B & C & D & E). split.
  - apply import_ok. cbn [ex_models]. constructor.
    + eapply Forall_impl; [|exact B]. intros ? X; apply X.
    + eapply Forall_impl; [|exact C]. intros ? X; apply X.
    + eapply Forall_impl; [|exact D]. intros ? X; apply X.
    + eapply Forall_impl; [|exact E]. intros ? X; apply X.
  - unfold savable_project, import. cbn [pj_rhythm pj_key pj_grid pj_notes pj_bars pj_tempos pj_dumpers pj_softs ex_rhythm ex_key ex_grid ex_models].
    split; [exact Ha|]. split; [exact Ha0|]. split; [exact Ha1'|]. split.
    + rewrite Forall_forall in *. intros v I. apply in_map_iff in I as ([k u] & <- & I).
      eapply Permutation_in in I; [|apply b_bulk_add_perm]. rewrite app_nil_r in I.
      apply in_map_iff in I as (w & Ew & I). inversion Ew; subst. now apply A.
    + repeat split; apply stored_forall; assumption.
Qed.
