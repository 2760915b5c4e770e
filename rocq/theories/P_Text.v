From Coq Require Import Reals Lra SpecFloat.
From Flocq Require Import Core Div Bracket BinarySingleNaN.
From Verif Require Import P_Base M_Duration M_Percent M_Scalar M_Project M_Text S_Percent S_Text P_Percent.
Import ListNotations.
Open Scope Z_scope.

(** ** Numerals *)
Lemma is_digit_iff c : is_digit c = true <-> digit c.
Proof. unfold is_digit, digit. lia. Qed.

Definition val (a : Z) (s : text) : Z := fold_left (fun a c => a * 10 + (c - 48)) s a.

Lemma val_snoc a s c : val a (s ++ [c]) = 10 * val a s + (c - 48).
Proof. unfold val. rewrite fold_left_app. cbn [fold_left]. lia. Qed.
Lemma val_app a s t : val a (s ++ t) = val (val a s) t.
Proof. unfold val. apply fold_left_app. Qed.

Lemma numeral_val s z : numeral s z <-> s <> [] /\ Forall digit s /\ z = val 0 s.
Proof.
  split.
  - induction 1 as [c D|s z c N [H1 [H2 H3]] D].
    + split; [discriminate|]. split; [constructor; [auto|constructor]|]. unfold val; cbn [fold_left]; ring.
    + split; [destruct s; discriminate|]. split; [apply Forall_app; auto|]. rewrite val_snoc. lia.
  - intros [H1 [H2 ->]]. revert H1 H2. induction s as [|c s IH] using rev_ind; [congruence|]. intros _ H2.
    apply Forall_app in H2. destruct H2 as [H2 H3]. inversion H3; subst. rewrite val_snoc.
    destruct s as [|d r] eqn:E.
    + replace (10 * val 0 [] + (c - 48)) with (c - 48) by (unfold val; cbn; lia). apply num_one; auto.
    + apply num_more; auto. apply IH; [discriminate|auto].
Qed.

Lemma val_ge a s : 0 <= a -> Forall digit s -> a <= val a s.
Proof.
  intros H F. revert a H. induction F as [|c s D F IH]; intros a H; [cbn; lia|].
  change (val a (c :: s)) with (val (a * 10 + (c - 48)) s). unfold digit in D. specialize (IH (a * 10 + (c - 48))). lia.
Qed.

Lemma in_range_iff lo hi z : in_range lo hi z = true <-> lo <= z <= hi.
Proof. unfold in_range. lia. Qed.

Lemma parse_pos lo hi s : lo <= 0 -> forall acc, 0 <= acc <= hi ->
  (Forall digit s -> val acc s <= hi -> parse_digits lo hi false acc s = Ok (val acc s)) /\
  (Forall digit s -> hi < val acc s -> parse_digits lo hi false acc s = Err IntPosOverflow) /\
  (~ Forall digit s -> exists e, parse_digits lo hi false acc s = Err e).
Proof.
  intros L. induction s as [|c s IH]; intros acc A.
  - cbn. split; [auto|]. split; [intros; lia|]. intros N. destruct N. constructor.
  - cbn [parse_digits]. change (val acc (c :: s)) with (val (acc * 10 + (c - 48)) s).
    destruct (is_digit c) eqn:D.
    + apply is_digit_iff in D. unfold digit in D. destruct (in_range lo hi (acc * 10)) eqn:R1.
      * apply in_range_iff in R1. destruct (in_range lo hi (acc * 10 + (c - 48))) eqn:R2.
        -- apply in_range_iff in R2. destruct (IH (acc * 10 + (c - 48))) as [H1 [H2 H3]]; [lia|].
           split; [intros F; inversion F; auto|]. split; [intros F; inversion F; auto|].
           intros N. apply H3. intros F. apply N. constructor; auto.
        -- assert (hi < acc * 10 + (c - 48)) by (rewrite <- Bool.not_true_iff_false, in_range_iff in R2; lia).
           split; [intros F V; inversion F; subst; pose proof (val_ge (acc * 10 + (c - 48)) s); lia|]. split; eauto.
      * assert (hi < acc * 10) by (rewrite <- Bool.not_true_iff_false, in_range_iff in R1; lia).
        split; [intros F V; inversion F; subst; pose proof (val_ge (acc * 10 + (c - 48)) s); lia|]. split; eauto.
    + assert (~ digit c) by (rewrite <- is_digit_iff; congruence).
      split; [intros F; inversion F; tauto|]. split; [intros F; inversion F; tauto|]. eauto.
Qed.

Lemma parse_neg lo hi s : 0 <= hi -> forall acc, lo <= acc <= 0 ->
  (Forall digit s -> lo <= - val (- acc) s -> parse_digits lo hi true acc s = Ok (- val (- acc) s)) /\
  (Forall digit s -> - val (- acc) s < lo -> parse_digits lo hi true acc s = Err IntNegOverflow) /\
  (~ Forall digit s -> exists e, parse_digits lo hi true acc s = Err e).
Proof.
  intros L. induction s as [|c s IH]; intros acc A.
  - cbn. split; [intros; f_equal; lia|]. split; [intros; lia|]. intros N. destruct N. constructor.
  - cbn [parse_digits]. change (val (- acc) (c :: s)) with (val (- acc * 10 + (c - 48)) s).
    destruct (is_digit c) eqn:D.
    + apply is_digit_iff in D. unfold digit in D. destruct (in_range lo hi (acc * 10)) eqn:R1.
      * apply in_range_iff in R1. destruct (in_range lo hi (acc * 10 - (c - 48))) eqn:R2.
        -- apply in_range_iff in R2. destruct (IH (acc * 10 - (c - 48))) as [H1 [H2 H3]]; [lia|].
           replace (- (acc * 10 - (c - 48))) with (- acc * 10 + (c - 48)) in * by lia.
           split; [intros F; inversion F; auto|]. split; [intros F; inversion F; auto|].
           intros N. apply H3. intros F. apply N. constructor; auto.
        -- assert (acc * 10 - (c - 48) < lo) by (rewrite <- Bool.not_true_iff_false, in_range_iff in R2; lia).
           split; [intros F V; inversion F; subst; pose proof (val_ge (- acc * 10 + (c - 48)) s); lia|]. split; eauto.
      * assert (acc * 10 < lo) by (rewrite <- Bool.not_true_iff_false, in_range_iff in R1; lia).
        split; [intros F V; inversion F; subst; pose proof (val_ge (- acc * 10 + (c - 48)) s); lia|]. split; eauto.
    + assert (~ digit c) by (rewrite <- is_digit_iff; congruence).
      split; [intros F; inversion F; tauto|]. split; [intros F; inversion F; tauto|]. eauto.
Qed.

Lemma digit_dec c : digit c \/ ~ digit c.
Proof. rewrite <- is_digit_iff. destruct (is_digit c); auto. Qed.
Lemma digits_dec s : Forall digit s \/ ~ Forall digit s.
Proof.
  induction s as [|c s [IH|IH]]; [left; constructor| |right; intros H; inversion H; tauto].
  destruct (digit_dec c); [left; constructor; auto|right; intros H'; inversion H'; tauto].
Qed.

Definition sgn (lo : Z) : bool := lo <? 0.

(** What reading an integer gives. *)
Lemma parse_int_spec lo hi s : lo <= 0 <= hi ->
  (forall z, int_text (sgn lo) s z -> lo <= z <= hi -> parse_int lo hi s = Ok z) /\
  (forall z, int_text (sgn lo) s z -> hi < z -> parse_int lo hi s = Err IntPosOverflow) /\
  (forall z, int_text (sgn lo) s z -> z < lo -> sgn lo = true -> parse_int lo hi s = Err IntNegOverflow) /\
  ((forall z, ~ int_text (sgn lo) s z) -> exists e, parse_int lo hi s = Err e).
Proof.
  intros R.
  assert (NZ : forall r z, numeral r z -> 0 <= z).
  { intros r z N. apply numeral_val in N. destruct N as [_ [F ->]]. apply val_ge; [lia|auto]. }
  destruct s as [|c s].
  { split; [|split; [|split]]; [| | |cbn; eauto];
      intros z [N|[[r [E _]]|[_ [r [E _]]]]]; try discriminate; apply numeral_val in N; destruct N; congruence. }
  cbn [parse_int].
  destruct (Z.eqb_spec c 43) as [->|P].
  - (* plus *) cbn [orb].
    assert (INV : forall z, int_text (sgn lo) (43 :: s) z <-> numeral s z).
    { intros z. split; [|intros N; right; left; eauto].
      intros [N|[[r [E N]]|[_ [r [E _]]]]]; [|inversion E; subst; auto|discriminate].
      apply numeral_val in N. destruct N as [_ [F _]]. inversion F; subst. unfold digit in H1; lia. }
    setoid_rewrite INV. change (43 =? 45) with false.
    destruct s as [|d s].
    + split; [|split; [|split]]; [| | |eauto]; intros z N; apply numeral_val in N; destruct N; congruence.
    + destruct (parse_pos lo hi (d :: s) (proj1 R) 0 ltac:(lia)) as [H1 [H2 H3]].
      split; [|split; [|split]].
      * intros z N B. apply numeral_val in N. destruct N as [_ [F ->]]. apply H1; auto; lia.
      * intros z N B. apply numeral_val in N. destruct N as [_ [F ->]]. apply H2; auto.
      * intros z N B _. apply NZ in N. lia.
      * intros N. apply H3. intros F. apply (N (val 0 (d :: s))). apply numeral_val. split; [discriminate|auto].
  - destruct ((c =? 45) && sgn lo) eqn:M; unfold sgn in *; rewrite M; cbn [orb].
    + (* minus *)
      assert (c = 45) by lia. subst c. assert (S : (lo <? 0) = true) by lia. clear M P. rewrite S. change (45 =? 45) with true.
      assert (INV : forall z, int_text true (45 :: s) z <-> numeral s (- z)).
      { intros z. split; [|intros N; right; right; split; eauto].
        intros [N|[[r [E N]]|[_ [r [E N]]]]]; [|discriminate|inversion E; subst; auto].
        apply numeral_val in N. destruct N as [_ [F _]]. inversion F; subst. unfold digit in H1; lia. }
      setoid_rewrite INV.
      destruct s as [|d s].
      * split; [|split; [|split]]; [| | |eauto]; intros z N; apply numeral_val in N; destruct N; congruence.
      * destruct (parse_neg lo hi (d :: s) (proj2 R) 0 ltac:(lia)) as [H1 [H2 H3]]. change (- 0) with 0 in *.
        split; [|split; [|split]].
        -- intros z N B. apply numeral_val in N. destruct N as [_ [F E]]. replace z with (- val 0 (d :: s)) by lia. apply H1; auto; lia.
        -- intros z N B. apply NZ in N. lia.
        -- intros z N B _. apply numeral_val in N. destruct N as [_ [F E]]. apply H2; auto; lia.
        -- intros N. apply H3. intros F. apply (N (- val 0 (d :: s))). apply numeral_val. split; [discriminate|]. split; [auto|lia].
    + (* no sign *)
      assert (INV : forall z, int_text (lo <? 0) (c :: s) z <-> numeral (c :: s) z).
      { intros z. split; [|intros N; left; auto]. intros [N|[[r [E N]]|[S [r [E N]]]]]; auto; inversion E; subst; lia. }
      setoid_rewrite INV.
      destruct (parse_pos lo hi (c :: s) (proj1 R) 0 ltac:(lia)) as [H1 [H2 H3]].
      split; [|split; [|split]].
      * intros z N B. apply numeral_val in N. destruct N as [_ [F ->]]. apply H1; auto; lia.
      * intros z N B. apply numeral_val in N. destruct N as [_ [F ->]]. apply H2; auto.
      * intros z N B _. apply NZ in N. lia.
      * intros N. apply H3. intros F. apply (N (val 0 (c :: s))). apply numeral_val. split; [discriminate|auto].
Qed.

Lemma int_text_dec b s : (exists z, int_text b s z) \/ forall z, ~ int_text b s z.
Proof.
  assert (G : forall s, (exists z, numeral s z) \/ forall z, ~ numeral s z).
  { intros r. destruct (digits_dec r) as [D|D].
    - destruct r as [|c r]; [right; intros z N; apply numeral_val in N; destruct N; congruence|].
      left. exists (val 0 (c :: r)). apply numeral_val. split; [discriminate|auto].
    - right. intros z N. apply numeral_val in N. tauto. }
  destruct (G s) as [[z N]|N1]; [left; exists z; left; auto|].
  destruct s as [|c s]; [right; intros z [N|[[r [E _]]|[_ [r [E _]]]]]; try discriminate; eapply N1; eauto|].
  destruct (G s) as [[z N]|N2].
  - destruct (Z.eq_dec c 43) as [->|P]; [left; exists z; right; left; eauto|].
    destruct (Z.eq_dec c 45) as [->|P']; [destruct b|].
    + left. exists (- z). right; right. split; auto. exists s. rewrite Z.opp_involutive. auto.
    + right. intros y [M|[[r [E M]]|[S _]]]; [eapply N1; eauto|inversion E|discriminate].
    + right. intros y [M|[[r [E M]]|[S [r [E M]]]]]; [eapply N1; eauto|inversion E; congruence|inversion E; congruence].
  - right. intros y [M|[[r [E M]]|[S [r [E M]]]]]; [eapply N1; eauto|inversion E; subst; eapply N2; eauto|inversion E; subst; eapply N2; eauto].
Qed.

Lemma int_text_unsigned_nonneg s z : int_text false s z -> 0 <= z.
Proof.
  intros [N|[[r [_ N]]|[E _]]]; [| |discriminate]; apply numeral_val in N; destruct N as [_ [F ->]]; apply val_ge; auto; lia.
Qed.

Lemma parse_int_iff lo hi s z : lo <= 0 <= hi -> parse_int lo hi s = Ok z <-> int_text (sgn lo) s z /\ lo <= z <= hi.
Proof.
  intros R. destruct (parse_int_spec lo hi s R) as [H1 [H2 [H3 H4]]]. split; [|intros [A B]; auto].
  intros E. destruct (int_text_dec (sgn lo) s) as [[y Y]|N]; [|destruct (H4 N) as [e X]; congruence].
  destruct (Z_lt_le_dec hi y) as [L|L]; [rewrite (H2 y Y L) in E; discriminate|].
  destruct (Z_lt_le_dec y lo) as [L'|L'].
  - destruct (sgn lo) eqn:S; [rewrite (H3 y Y L' eq_refl) in E; discriminate|].
    apply int_text_unsigned_nonneg in Y. unfold sgn in S. lia.
  - assert (E' := H1 y Y (conj L' L)). rewrite E' in E. apply ok_inj in E. subst. auto.
Qed.

(** ** Printing *)
Lemma show_digits_spec f : forall n acc, 0 <= n < 10 ^ Z.of_nat f -> (0 < f)%nat ->
  exists ds, show_digits f n acc = ds ++ acc /\ numeral ds n.
Proof.
  induction f as [|f IH]; intros n acc H L; [lia|]. cbn [show_digits].
  assert (D : digit (48 + n mod 10)) by (unfold digit; pose proof (Z.mod_pos_bound n 10); lia).
  destruct (Z.ltb_spec n 10).
  - exists [48 + n mod 10]. split; [reflexivity|]. rewrite Z.mod_small in * by lia.
    replace n with (48 + n - 48) at 2 by lia. apply num_one; auto.
  - assert (0 < f)%nat. { destruct f; [cbn in H; lia|lia]. }
    destruct (IH (n / 10) ((48 + n mod 10) :: acc)) as [ds [E N]]; auto.
    { split; [apply Z.div_pos; lia|]. apply Z.div_lt_upper_bound; [lia|]. rewrite Nat2Z.inj_succ, Z.pow_succ_r in H by lia. lia. }
    exists (ds ++ [48 + n mod 10]). split; [rewrite E, <- app_assoc; reflexivity|].
    pose proof (Z.div_mod n 10 ltac:(lia)). replace n with (10 * (n / 10) + (48 + n mod 10 - 48)) at 2 by lia. apply num_more; auto.
Qed.

Lemma show_nat_numeral n : 0 <= n -> numeral (show_nat n) n.
Proof.
  intros H. unfold show_nat. destruct (show_digits_spec (S (Z.to_nat (Z.log2 n))) n []) as [ds [E N]]; [|lia|rewrite E, app_nil_r; auto].
  split; auto. rewrite Nat2Z.inj_succ, Z2Nat.id by apply Z.log2_nonneg.
  destruct (Z.eq_dec n 0) as [->|]; [reflexivity|]. pose proof (Z.log2_spec n ltac:(lia)).
  assert (2 ^ Z.succ (Z.log2 n) <= 10 ^ Z.succ (Z.log2 n)); [|lia]. apply Z.pow_le_mono_l. lia.
Qed.

Lemma show_int_text z : int_text true (show_int z) z.
Proof.
  unfold show_int. destruct (Z.ltb_spec z 0).
  - right; right. split; auto. eexists. split; [reflexivity|]. apply show_nat_numeral. lia.
  - left. apply show_nat_numeral. lia.
Qed.
Lemma show_int_unsigned z : 0 <= z -> int_text false (show_int z) z.
Proof. intros H. unfold show_int. destruct (Z.ltb_spec z 0); [lia|]. left. apply show_nat_numeral; auto. Qed.
Lemma show_int_nonempty z : show_int z <> [].
Proof.
  unfold show_int. destruct (Z.ltb_spec z 0); [discriminate|]. pose proof (show_nat_numeral z ltac:(lia)) as N.
  apply numeral_val in N. tauto.
Qed.

(** ** Locations *)
Lemma span_spec p s : forall a b, span p s = (a, b) -> s = a ++ b /\ Forall (fun c => p c = true) a /\
  match b with [] => True | c :: _ => p c = false end.
Proof.
  induction s as [|c s IH]; intros a b E; cbn in E.
  - inversion E; subst. repeat split; constructor.
  - destruct (p c) eqn:P.
    + destruct (span p s) as [a' b'] eqn:E'. inversion E; subst. destruct (IH _ _ eq_refl) as [-> [F G]]. repeat split; auto.
    + inversion E; subst. repeat split; auto.
Qed.
Lemma span_app p a b : Forall (fun c => p c = true) a -> match b with [] => True | c :: _ => p c = false end -> span p (a ++ b) = (a, b).
Proof.
  induction 1 as [|c a P F IH]; intros G; cbn.
  - destruct b as [|c b]; cbn; auto. rewrite G. reflexivity.
  - rewrite P, IH; auto.
Qed.

Lemma parse_location_shape nd s a b : ascii_digits nd -> location_shape nd s a b ->
  parse_location nd s =
    (let! bar := unwrap (parse_int 0 usize_max a) in
     let! offset := unwrap (parse_int 0 usize_max b) in Ret (Some (mkLoc bar offset))).
Proof.
  intros A [-> [NA [NB [FA FB]]]]. unfold parse_location. rewrite span_app; auto.
  - destruct a as [|x a]; [congruence|]. rewrite <- (app_nil_r b), span_app, app_nil_r; auto. destruct b; [congruence|reflexivity].
  - cbn. destruct (nd 58) eqn:E; auto. apply A in E; [|lia]. unfold digit in E. lia.
Qed.

Lemma parse_location_none nd s : (forall a b, ~ location_shape nd s a b) -> parse_location nd s = Ret None.
Proof.
  intros N. unfold parse_location. destruct (span nd s) as [a rest] eqn:E. apply span_spec in E. destruct E as [E [F _]].
  destruct a as [|x a]; [reflexivity|]. destruct rest as [|c rest]; [reflexivity|].
  destruct (Z.eq_dec c 58) as [->|C].
  - destruct (span nd rest) as [b r] eqn:E'. apply span_spec in E'. destruct E' as [E' [F' _]].
    destruct b as [|y b]; [reflexivity|]. destruct r; [|reflexivity]. exfalso. apply (N (x :: a) (y :: b)).
    rewrite app_nil_r in E'. subst. repeat split; auto; discriminate.
  - destruct c as [|c|c]; auto. do 6 (destruct c; auto). congruence.
Qed.

Lemma shape_dec nd s : ascii_digits nd -> (exists a b, location_shape nd s a b) \/ forall a b, ~ location_shape nd s a b.
Proof.
  intros A. destruct (span nd s) as [a rest] eqn:E. pose proof E as E0. apply span_spec in E. destruct E as [E [F G]].
  assert (U : forall a' b', location_shape nd s a' b' -> a' = a /\ 58 :: b' = rest).
  { intros a' b' [S [_ [_ [FA _]]]]. rewrite S, span_app in E0; auto; [inversion E0; auto|].
    destruct (nd 58) eqn:X; auto. apply A in X; [|lia]. unfold digit in X. lia. }
  destruct a as [|x a].
  { right. intros a' b' L. destruct (U _ _ L) as [-> _]. destruct L as [_ [L _]]. congruence. }
  destruct rest as [|c rest]; [right; intros a' b' L; destruct (U _ _ L); discriminate|].
  destruct (Z.eq_dec c 58) as [->|C]; [|right; intros a' b' L; destruct (U _ _ L) as [_ H]; inversion H; congruence].
  destruct rest as [|y rest]; [right; intros a' b' L; destruct (U _ _ L) as [_ H]; inversion H; subst; destruct L as [_ [_ [L _]]]; congruence|].
  destruct (forallb nd (y :: rest)) eqn:FB.
  - left. exists (x :: a), (y :: rest). rewrite forallb_forall in FB. repeat split; auto; try discriminate. apply Forall_forall; auto.
  - right. intros a' b' L. destruct (U _ _ L) as [_ H]. inversion H; subst. destruct L as [_ [_ [_ [_ L]]]].
    assert (forallb nd (y :: rest) = true) by (apply forallb_forall; rewrite Forall_forall in L; auto). congruence.
Qed.

Lemma numeral_nd nd s z : ascii_digits nd -> numeral s z -> s <> [] /\ Forall (fun c => nd c = true) s.
Proof.
  intros A N. apply numeral_val in N. destruct N as [H [F _]]. split; auto. eapply Forall_impl; [|exact F].
  intros c D. apply A; auto. unfold digit in D. lia.
Qed.

Lemma nd_int nd s z : ascii_digits nd -> Forall (fun c => nd c = true) s -> int_text false s z -> numeral s z.
Proof.
  intros A F [N|[[r [-> N]]|[E _]]]; [auto| |discriminate]. inversion F; subst. apply A in H1; [|lia]. unfold digit in H1. lia.
Qed.

Lemma usize_parse s z : parse_int 0 usize_max s = Ok z <-> int_text false s z /\ usize z.
Proof. apply parse_int_iff. unfold usize_max. lia. Qed.

Lemma parse_location_some nd s l : ascii_digits nd ->
  parse_location nd s = Ret (Some l) <->
  exists a b, s = a ++ 58 :: b /\ numeral a (loc_bar l) /\ numeral b (loc_offset l) /\ usize (loc_bar l) /\ usize (loc_offset l).
Proof.
  intros A. split.
  - intros E. destruct (shape_dec nd s A) as [[a [b S]]|N]; [|rewrite parse_location_none in E by auto; discriminate].
    rewrite (parse_location_shape nd s a b A S) in E. destruct S as [-> [NA [NB [FA FB]]]]. exists a, b. split; auto.
    destruct (parse_int 0 usize_max a) as [x|] eqn:Ex; [|discriminate]. cbn [unwrap bind] in E.
    destruct (parse_int 0 usize_max b) as [y|] eqn:Ey; [|discriminate]. cbn [unwrap bind] in E.
    apply ret_inj in E. inversion E; subst l. cbn. apply usize_parse in Ex, Ey. destruct Ex as [Tx Ux], Ey as [Ty Uy].
    repeat split; try apply Ux; try apply Uy; eapply nd_int; eauto.
  - intros [a [b [S [Na [Nb [Ua Ub]]]]]].
    rewrite (parse_location_shape nd s a b A).
    + rewrite (proj2 (usize_parse a (loc_bar l))) by (split; [left; auto|auto]). cbn [unwrap bind].
      rewrite (proj2 (usize_parse b (loc_offset l))) by (split; [left; auto|auto]). cbn [unwrap bind]. destruct l; reflexivity.
    + destruct (numeral_nd nd a _ A Na), (numeral_nd nd b _ A Nb). repeat split; auto.
Qed.

Lemma location_roundtrip nd l : ascii_digits nd -> usize (loc_bar l) -> usize (loc_offset l) ->
  parse_location nd (show_location l) = Ret (Some l).
Proof.
  intros A U V. apply parse_location_some; auto. exists (show_int (loc_bar l)), (show_int (loc_offset l)). split; [reflexivity|].
  unfold usize in *. unfold show_int. destruct (Z.ltb_spec (loc_bar l) 0); [lia|]. destruct (Z.ltb_spec (loc_offset l) 0); [lia|].
  split; [apply show_nat_numeral; lia|]. split; [apply show_nat_numeral; lia|auto].
Qed.

Lemma parse_location_panic nd s : ascii_digits nd ->
  parse_location nd s = Panic <->
  exists a b, location_shape nd s a b /\ ~ ((exists x, numeral a x /\ usize x) /\ (exists y, numeral b y /\ usize y)).
Proof.
  intros A. destruct (shape_dec nd s A) as [[a [b S]]|N].
  - rewrite (parse_location_shape nd s a b A S).
    assert (U : forall a' b', location_shape nd s a' b' -> a' = a /\ b' = b).
    { intros a' b' S'. destruct S as [E [_ [_ [Fa _]]]], S' as [E' [_ [_ [Fa' _]]]]. 
      assert (C : nd 58 = false) by (destruct (nd 58) eqn:X; auto; apply A in X; [unfold digit in X; lia|lia]).
      assert (X : span nd s = (a, 58 :: b)) by (rewrite E; apply span_app; auto).
      assert (X' : span nd s = (a', 58 :: b')) by (rewrite E'; apply span_app; auto).
      rewrite X in X'. inversion X'; auto. }
    destruct S as [E [NA [NB [FA FB]]]].
    assert (P : forall t, Forall (fun c => nd c = true) t -> (exists x, parse_int 0 usize_max t = Ok x) <-> exists x, numeral t x /\ usize x).
    { intros t Ft. split; intros [x X]; exists x.
      - apply usize_parse in X. split; [eapply nd_int; eauto; tauto|tauto].
      - apply usize_parse. split; [left; tauto|tauto]. }
    split.
    + intros H. exists a, b. split; [repeat split; auto|]. rewrite <- (P a), <- (P b) by auto. intros [[x X] [y Y]].
      rewrite X, Y in H. discriminate.
    + intros [a' [b' [S' H]]]. destruct (U _ _ S') as [-> ->]. rewrite <- (P a), <- (P b) in H by auto.
      destruct (parse_int 0 usize_max a) as [x|]; [|reflexivity]. cbn [unwrap bind].
      destruct (parse_int 0 usize_max b) as [y|]; [|reflexivity]. destruct H. split; eauto.
  - rewrite parse_location_none by auto. split; [discriminate|]. intros [a [b [S _]]]. destruct (N _ _ S).
Qed.

Lemma parse_location_not_hang nd s : parse_location nd s <> Hang.
Proof.
  unfold parse_location. destruct (span nd s) as [[|x a] [|c rest]]; try discriminate.
  destruct c as [|c|c]; try discriminate; do 6 (destruct c; try discriminate).
  destruct (span nd rest) as [[|y b] [|d r]]; try discriminate.
  destruct (parse_int 0 usize_max (x :: a)); try discriminate. cbn [unwrap bind]. destruct (parse_int 0 usize_max (y :: b)); discriminate.
Qed.

(** ** Decimal fractions *)
Lemma digits_value_val s : digits_value s = val 0 s.
Proof. reflexivity. Qed.

Lemma is_digit_Forall s : Forall (fun c => is_digit c = true) s <-> Forall digit s.
Proof. split; apply Forall_impl; intros c; apply is_digit_iff. Qed.

Lemma digits_span s t : Forall digit s -> match t with [] => True | c :: _ => ~ digit c end -> span is_digit (s ++ t) = (s, t).
Proof.
  intros F H. apply span_app; [apply is_digit_Forall; auto|]. destruct t; auto.
  destruct (is_digit z) eqn:E; auto. apply is_digit_iff in E. tauto.
Qed.

Lemma exponent_digits d : d <> [] -> Forall digit d -> span is_digit d = (d, []).
Proof. intros _ F. rewrite <- (app_nil_r d) at 1. apply digits_span; auto. Qed.

Lemma digit_sign c : digit c -> c <> 43 /\ c <> 45 /\ c <> 46 /\ c <> 101 /\ c <> 69.
Proof. unfold digit. lia. Qed.

Lemma exponent_complete s k : exponent_text s k -> parse_exponent s = Some k.
Proof.
  destruct 1 as [|c d v C N|c d v C N|c d v C N]; [reflexivity| | |];
    apply numeral_val in N; destruct N as [NE [F ->]]; cbn [parse_exponent];
    replace ((c =? 101) || (c =? 69)) with true by lia.
  - destruct d as [|y d]; [congruence|]. inversion F; subst. apply digit_sign in H1.
    assert (E : match y :: d with 43 :: r => (false, r) | 45 :: r => (true, r) | _ => (false, y :: d) end = (false, y :: d)).
    { destruct y as [|y|y]; auto. do 6 (destruct y; auto); lia. }
    rewrite E. rewrite exponent_digits by auto. reflexivity.
  - rewrite exponent_digits by auto. destruct d; [congruence|reflexivity].
  - rewrite exponent_digits by auto. destruct d; [congruence|reflexivity].
Qed.

Lemma exponent_sound s k : parse_exponent s = Some k -> exponent_text s k.
Proof.
  destruct s as [|c s]; cbn [parse_exponent]; [intros E; inversion E; constructor|].
  destruct ((c =? 101) || (c =? 69)) eqn:C; [|discriminate]. assert (C' : c = 101 \/ c = 69) by lia. clear C.
  assert (D : forall r d rest, span is_digit r = (d, rest) -> d <> [] -> rest = [] -> r = d /\ numeral d (digits_value d)).
  { intros r d rest E NE ->. apply span_spec in E. destruct E as [-> [F _]]. rewrite app_nil_r. split; auto.
    apply numeral_val. split; auto. split; [apply is_digit_Forall; auto|reflexivity]. }
  assert (G : match s with 43 :: r => (false, r) | 45 :: r => (true, r) | _ => (false, s) end =
              match s with c :: r => if c =? 43 then (false, r) else if c =? 45 then (true, r) else (false, s) | [] => (false, s) end).
  { destruct s as [|y r]; auto. destruct (Z.eqb_spec y 43) as [->|]; [reflexivity|]. destruct (Z.eqb_spec y 45) as [->|]; [reflexivity|].
    destruct y as [|y|y]; auto. do 6 (destruct y; auto); congruence. }
  rewrite G. clear G. intros E.
  destruct s as [|y r]; [discriminate|].
  destruct (Z.eqb_spec y 43) as [->|]; [|destruct (Z.eqb_spec y 45) as [->|]].
  - destruct (span is_digit r) as [d rest] eqn:S. destruct d as [|x d]; [discriminate|]. destruct rest; [|discriminate].
    destruct (D _ _ _ S ltac:(discriminate) eq_refl) as [-> N]. inversion E; subst. apply ex_plus; auto.
  - destruct (span is_digit r) as [d rest] eqn:S. destruct d as [|x d]; [discriminate|]. destruct rest; [|discriminate].
    destruct (D _ _ _ S ltac:(discriminate) eq_refl) as [-> N]. inversion E; subst. apply ex_minus; auto.
  - destruct (span is_digit (y :: r)) as [d rest] eqn:S. destruct d as [|x d]; [discriminate|]. destruct rest; [|discriminate].
    destruct (D _ _ _ S ltac:(discriminate) eq_refl) as [E' N]. rewrite E' in *. inversion E; subst. apply ex_plain; auto.
Qed.

Lemma exponent_head s k : exponent_text s k -> match s with [] => True | c :: _ => c = 101 \/ c = 69 end.
Proof. destruct 1; auto. Qed.

Lemma decimal_complete s m e : decimal_text s m e -> parse_decimal s = Some (m, e).
Proof.
  destruct 1 as [a x m k N X|a b x m k Fa Fb N X]; apply numeral_val in N; destruct N as [NE [F ->]]; unfold parse_decimal.
  - assert (H := exponent_head _ _ X). rewrite digits_span; auto; [|destruct x; auto; intros D; apply digit_sign in D; lia].
    replace (match x with 46 :: r => span is_digit r | _ => ([], x) end) with (@nil Z, x)
      by (destruct x as [|y x]; auto; destruct H; subst; reflexivity).
    rewrite app_nil_r. rewrite (exponent_complete _ _ X). destruct a; [congruence|]. rewrite Z.sub_0_r. reflexivity.
  - assert (H := exponent_head _ _ X). rewrite digits_span; auto; [|unfold digit; lia].
    rewrite digits_span; auto; [|destruct x; auto; intros D; apply digit_sign in D; lia].
    rewrite (exponent_complete _ _ X). rewrite digits_value_val. destruct (a ++ b); [congruence|]. reflexivity.
Qed.

Lemma dot_split rest :
  match rest with 46 :: r => span is_digit r | _ => ([], rest) end =
  match rest with c :: r => if c =? 46 then span is_digit r else ([], rest) | [] => ([], rest) end.
Proof.
  destruct rest as [|c r]; auto. destruct (Z.eqb_spec c 46) as [->|C]; [reflexivity|].
  destruct c as [|c|c]; auto. do 6 (destruct c; auto); congruence.
Qed.

Lemma decimal_sound s m e : parse_decimal s = Some (m, e) -> decimal_text s m e.
Proof.
  unfold parse_decimal. destruct (span is_digit s) as [a rest] eqn:S. apply span_spec in S. destruct S as [-> [Fa _]].
  apply is_digit_Forall in Fa. rewrite dot_split. destruct rest as [|c rest]; [|destruct (Z.eq_dec c 46) as [->|C]].
  - cbn [app parse_exponent length]. rewrite !app_nil_r. destruct a as [|x a]; [discriminate|]. intros E.
    injection E as <- <-. rewrite <- (app_nil_r (x :: a)) at 1. apply dt_int; [|constructor].
    apply numeral_val. split; [discriminate|auto].
  - change (46 =? 46) with true. cbv iota. destruct (span is_digit rest) as [b rest'] eqn:S. apply span_spec in S. destruct S as [-> [Fb _]]. apply is_digit_Forall in Fb.
    destruct (a ++ b) as [|x l] eqn:AB; [discriminate|]. destruct (parse_exponent rest') as [k|] eqn:X; [|discriminate].
    rewrite <- AB. intros E. injection E as <- <-. apply dt_frac; auto; [|apply exponent_sound; auto].
    apply numeral_val. split; [congruence|]. split; [apply Forall_app; auto|reflexivity].
  - replace (c =? 46) with false by lia. cbv beta iota. rewrite app_nil_r. destruct a as [|x a]; [discriminate|]. destruct (parse_exponent (c :: rest)) as [k|] eqn:X; [|discriminate].
    cbn [length]. intros E. injection E as <- <-. rewrite Z.sub_0_r. apply dt_int; [|apply exponent_sound; auto].
    apply numeral_val. split; [discriminate|auto].
Qed.

Lemma text_eqb_eq a b : text_eqb a b = true <-> a = b.
Proof.
  revert b. induction a as [|x a IH]; intros [|y b]; cbn; split; intros H; try discriminate; auto.
  - apply andb_true_iff in H. destruct H as [H1 H2]. apply IH in H2. f_equal; auto. lia.
  - inversion H; subst. rewrite (proj2 (IH b)); auto. lia.
Qed.

Lemma lower_letter c d : 97 <= c <= 122 -> lower d = c <-> same_letter c d.
Proof. unfold lower, same_letter. intros H. destruct ((65 <=? d) && (d <=? 90)) eqn:E; lia. Qed.

Lemma lower_word w s : Forall (fun c => 97 <= c <= 122) w -> map lower s = w <-> Forall2 same_letter w s.
Proof.
  intros F. revert s. induction F as [|c w C F IH]; intros [|d s]; cbn; split; intros H; try discriminate; try constructor; try inversion H; subst.
  - apply lower_letter; auto.
  - apply IH; auto.
  - f_equal; [apply lower_letter; auto|apply IH; auto].
Qed.

(** after the sign *)
Definition tail_value (neg : bool) (r : text) (x : f32) : Prop :=
  (exists m e, decimal_text r m e /\ x = f32_of_decimal neg m e) \/
  (infinity_word r /\ x = B754_infinity neg) \/ (nan_word r /\ x = B754_nan).

Definition tail_parse (neg : bool) (r : text) : option f32 :=
  match r with
  | [] => None
  | _ =>
      match parse_decimal r with
      | Some (m, e) => Some (f32_of_decimal neg m e)
      | None =>
          let w := map lower r in
          if text_eqb w [105; 110; 102] || text_eqb w [105; 110; 102; 105; 110; 105; 116; 121]
          then Some (B754_infinity neg)
          else if text_eqb w [110; 97; 110] then Some B754_nan
          else None
      end
  end.

Lemma decimal_not_word r m e : decimal_text r m e -> exists c t, r = c :: t /\ (digit c \/ c = 46).
Proof.
  destruct 1 as [a x m k N X|a b x m k Fa Fb N X]; apply numeral_val in N; destruct N as [NE [F _]].
  - destruct a as [|c a]; [congruence|]. inversion F; subst. exists c, (a ++ x). auto.
  - destruct a as [|c a]; [exists 46, (b ++ x); auto|]. inversion Fa; subst. exists c, (a ++ 46 :: b ++ x). auto.
Qed.

Lemma tail_parse_iff neg r x : tail_parse neg r = Some x <-> tail_value neg r x.
Proof.
  assert (W : forall w c t, Forall2 same_letter (w :: c) t -> 97 <= w <= 122 -> exists d t', t = d :: t' /\ ~ (digit d \/ d = 46)).
  { intros w c t H B. inversion H; subst. exists y, l'. split; auto. unfold same_letter, digit in *. lia. }
  unfold tail_value, infinity_word, nan_word. split.
  - destruct r as [|c r]; [discriminate|]. cbn [tail_parse].
    destruct (parse_decimal (c :: r)) as [[m e]|] eqn:P.
    + intros E. injection E as <-. left. exists m, e. split; auto. apply decimal_sound; auto.
    + cbv zeta. destruct (text_eqb _ [105; 110; 102] || _) eqn:T.
      * intros E. injection E as <-. right; left. split; auto. apply orb_true_iff in T. rewrite !text_eqb_eq in T.
        destruct T as [T|T]; [left|right]; apply lower_word; auto; repeat (constructor; [lia|]); constructor.
      * destruct (text_eqb _ [110; 97; 110]) eqn:T2; [|discriminate]. intros E. injection E as <-. right; right. split; auto.
        apply text_eqb_eq in T2. apply lower_word; auto. repeat (constructor; [lia|]); constructor.
  - intros [[m [e [D ->]]]|[[[H|H] ->]|[H ->]]].
    + destruct (decimal_not_word _ _ _ D) as [c [t [-> _]]]. cbn [tail_parse]. rewrite (decimal_complete _ _ _ D). reflexivity.
    + destruct (W _ _ _ H ltac:(lia)) as [c [t [E N]]]. unfold tail_parse. 
      destruct r as [|c' r']; [discriminate|].
      destruct (parse_decimal (c' :: r')) as [[m e]|] eqn:P.
      { apply decimal_sound, decimal_not_word in P. destruct P as [d [t' [P D]]]. rewrite P in E. inversion E; subst. tauto. }
      cbv zeta. apply lower_word in H; [|repeat (constructor; [lia|]); constructor]. rewrite H. reflexivity.
    + destruct (W _ _ _ H ltac:(lia)) as [c [t [E N]]]. unfold tail_parse. 
      destruct r as [|c' r']; [discriminate|].
      destruct (parse_decimal (c' :: r')) as [[m e]|] eqn:P.
      { apply decimal_sound, decimal_not_word in P. destruct P as [d [t' [P D]]]. rewrite P in E. inversion E; subst. tauto. }
      cbv zeta. apply lower_word in H; [|repeat (constructor; [lia|]); constructor]. rewrite H. reflexivity.
    + destruct (W _ _ _ H ltac:(lia)) as [c [t [E N]]]. unfold tail_parse. 
      destruct r as [|c' r']; [discriminate|].
      destruct (parse_decimal (c' :: r')) as [[m e]|] eqn:P.
      { apply decimal_sound, decimal_not_word in P. destruct P as [d [t' [P D]]]. rewrite P in E. inversion E; subst. tauto. }
      cbv zeta. apply lower_word in H; [|repeat (constructor; [lia|]); constructor]. rewrite H. reflexivity.
Qed.

Lemma tail_head neg r x : tail_value neg r x -> match r with [] => False | c :: _ => c <> 43 /\ c <> 45 end.
Proof.
  intros [[m [e [D _]]]|[[[H|H] _]|[H _]]].
  - destruct (decimal_not_word _ _ _ D) as [c [t [-> H]]]. unfold digit in H. lia.
  - inversion H; subst. unfold same_letter in *. lia.
  - inversion H; subst. unfold same_letter in *. lia.
  - inversion H; subst. unfold same_letter in *. lia.
Qed.

Lemma parse_f32_iff s x :
  parse_f32 s = Some x <->
  tail_value false s x \/ (exists r, s = 43 :: r /\ tail_value false r x) \/ (exists r, s = 45 :: r /\ tail_value true r x).
Proof.
  destruct s as [|c s].
  - split; [discriminate|]. intros [H|[[r [E _]]|[r [E _]]]]; try discriminate. apply tail_head in H. tauto.
  - change (parse_f32 (c :: s)) with (tail_parse (c =? 45) (if (c =? 45) || (c =? 43) then s else c :: s)).
    rewrite tail_parse_iff. destruct (Z.eqb_spec c 45) as [->|N1]; cbn [orb].
    + split; [intros H; right; right; eauto|]. intros [H|[[r [E H]]|[r [E H]]]]; [apply tail_head in H; lia|discriminate|inversion E; subst; auto].
    + destruct (Z.eqb_spec c 43) as [->|N2].
      * split; [intros H; right; left; eauto|]. intros [H|[[r [E H]]|[r [E H]]]]; [apply tail_head in H; lia|inversion E; subst; auto|discriminate].
      * split; [intros H; left; auto|]. intros [H|[[r [E H]]|[r [E H]]]]; auto; inversion E; congruence.
Qed.

(** ** The nearest f32 *)
Lemma powerRZ_split e : powerRZ 10 e = (IZR (10 ^ Z.max e 0) / IZR (10 ^ Z.max (- e) 0))%R.
Proof.
  destruct e as [|p|p].
  - cbn. lra.
  - rewrite Z.max_l, (Z.max_r (- Z.pos p)) by lia. change (10 ^ 0) with 1. cbn [powerRZ]. replace (IZR (10 ^ Z.pos p) / 1)%R with (IZR (10 ^ Z.pos p)) by lra.
    rewrite <- (positive_nat_Z p). rewrite <- pow_IZR. reflexivity.
  - rewrite Z.max_r, (Z.max_l (- Z.neg p)) by lia. change (10 ^ 0) with 1. cbn [powerRZ].
    change (- Z.neg p) with (Z.pos p). rewrite <- (positive_nat_Z p). rewrite <- pow_IZR. unfold Rdiv. rewrite Rmult_1_l. reflexivity.
Qed.

Lemma f32_of_decimal_correct neg m e : 0 <= m ->
  let x := rate_value neg m e in
  if Rlt_bool (Rabs (round32 x)) (bpow radix2 128)
  then real (f32_of_decimal neg m e) = round32 x /\ finite (f32_of_decimal neg m e)
  else f32_of_decimal neg m e = B754_infinity neg.
Proof.
  intros Hm x. unfold f32_of_decimal. destruct (Z.eqb_spec m 0) as [->|Nz].
  - assert (x = 0%R) as -> by (unfold x, rate_value; destruct neg; lra).
    unfold round32. rewrite round_0 by typeclasses eauto. rewrite Rabs_R0, Rlt_bool_true by apply bpow_gt_0.
    split; reflexivity.
  - set (n := 10 ^ Z.max e 0). set (d := 10 ^ Z.max (- e) 0).
    assert (Pn : 0 < n) by (apply Z.pow_pos_nonneg; lia). assert (Pd : 0 < d) by (apply Z.pow_pos_nonneg; lia).
    set (a := (IZR m * powerRZ 10 e)%R).
    assert (Ea : (F2R (Float radix2 (m * n) 0) / F2R (Float radix2 d 0))%R = a).
    { unfold a. rewrite powerRZ_split. fold n d. unfold F2R; cbn [Fnum Fexp bpow]. rewrite mult_IZR. field.
      apply IZR_neq; lia. }
    pose proof (@Fdiv_correct radix2 fe (Float radix2 (m * n) 0) (Float radix2 d 0)) as C.
    assert (P1 : (0 < F2R (Float radix2 (m * n) 0))%R) by (apply F2R_gt_0; cbn; nia).
    assert (P2 : (0 < F2R (Float radix2 d 0))%R) by (apply F2R_gt_0; cbn; lia).
    specialize (C P1 P2). rewrite Ea in C.
    assert (Pa : (0 < a)%R) by (rewrite <- Ea; apply Rdiv_lt_0_compat; auto).
    destruct (Fdiv fe (Float radix2 (m * n) 0) (Float radix2 d 0)) as [[q ex] l]. destruct C as [C1 C2].
    assert (Ex : x = if neg then (- a)%R else a) by reflexivity. clearbody x. 
    assert (Rn : Rlt_bool x 0 = neg). { rewrite Ex. destruct neg; [apply Rlt_bool_true; lra|apply Rlt_bool_false; lra]. }
    assert (Rx : Rabs x = a). { rewrite Ex. destruct neg; [rewrite Rabs_Ropp|]; apply Rabs_pos_eq; lra. }
    assert (N0 : x <> 0%R) by (rewrite Ex; destruct neg; lra).
    pose proof (binary_round_aux_correct' 24 128 f32_prec_gt_0 f32_prec_lt_emax mode_NE x q ex l N0) as B.
    rewrite Rx, Rn in B. specialize (B C2). 
    assert (C1' : ex <= cexp radix2 (SpecFloat.fexp 24 128) x).
    { rewrite <- cexp_abs, Rx. exact C1. }
    specialize (B C1'). cbv zeta in B. destruct B as [V B].
    destruct (bool_dec _ true) as [H|H]; [|congruence].
    cbn [round_mode] in B. change (round radix2 (SpecFloat.fexp 24 128) ZnearestE x) with (round32 x) in B.
    destruct (Rlt_bool (Rabs (round32 x)) (bpow radix2 128)).
    + destruct B as [B1 [B2 _]]. unfold real, finite. rewrite B2R_SF2B, is_finite_SF2B. auto.
    + apply B2SF_inj. rewrite B2SF_SF2B. rewrite B. destruct neg; reflexivity.
Qed.

Lemma decimal_nonneg s m e : decimal_text s m e -> 0 <= m.
Proof.
  destruct 1 as [a x m k N _|a b x m k _ _ N _]; apply numeral_val in N; destruct N as [_ [F ->]]; apply val_ge; auto; lia.
Qed.
Lemma rate_text_parse s neg m e : rate_text s neg m e -> parse_f32 s = Some (f32_of_decimal neg m e) /\ 0 <= m.
Proof.
  destruct 1 as [s m e D|s m e D|s m e D]; (split; [|eapply decimal_nonneg; eauto]); apply parse_f32_iff; unfold tail_value; [left|right; left|right; right]; eauto 8.
Qed.

Lemma round32_small x z : (Rabs x <= IZR z)%R -> 0 <= z < 16777216 -> (Rabs (round32 x) < bpow radix2 128)%R.
Proof.
  intros H B. apply Rle_lt_trans with (IZR z).
  - apply Rabs_le_inv in H. apply Rabs_le. split.
    + rewrite <- opp_IZR, <- (round_int (- z)) by lia. apply round32_le. rewrite opp_IZR. lra.
    + rewrite <- (round_int z) by lia. apply round32_le. lra.
  - apply Rlt_trans with (IZR 16777216); [apply IZR_lt; lia|]. change (IZR 16777216) with (bpow radix2 24). apply bpow_lt. lia.
Qed.

(** The rate that a text stands for. *)
Lemma f32_le_finite x y : finite x -> finite y -> (real x <= real y)%R -> f32_le x y.
Proof. unfold finite. destruct x as [[]|[]| |[]], y as [[]|[]| |[]]; intros A B C; try discriminate; exact C. Qed.

Lemma decimal_mono n1 m1 e1 n2 m2 e2 : 0 <= m1 -> 0 <= m2 ->
  (rate_value n1 m1 e1 <= rate_value n2 m2 e2)%R -> f32_le (f32_of_decimal n1 m1 e1) (f32_of_decimal n2 m2 e2).
Proof.
  intros H1 H2 L. pose proof (f32_of_decimal_correct n1 m1 e1 H1) as C1. pose proof (f32_of_decimal_correct n2 m2 e2 H2) as C2.
  cbv zeta in *. assert (R := round32_le _ _ L).
  assert (S : forall (n : bool) (m e : Z), 0 <= m -> (if n then rate_value n m e <= 0 else 0 <= rate_value n m e)%R).
  { intros n m e Hm. unfold rate_value. assert (0 <= IZR m * powerRZ 10 e)%R.
    { apply Rmult_le_pos; [apply IZR_le; auto|apply powerRZ_le; lra]. } destruct n; lra. }
  assert (Z0 : round32 0 = 0%R) by (apply (round_int 0); lia).
  assert (S1 := S n1 m1 e1 H1). assert (S2 := S n2 m2 e2 H2). clear S.
  remember (rate_value n1 m1 e1) as x1. remember (rate_value n2 m2 e2) as x2.
  remember (f32_of_decimal n1 m1 e1) as f1. remember (f32_of_decimal n2 m2 e2) as f2.
  assert (P := bpow_gt_0 radix2 128).
  destruct (Rlt_bool_spec (Rabs (round32 x1)) (bpow radix2 128)) as [B1|B1], (Rlt_bool_spec (Rabs (round32 x2)) (bpow radix2 128)) as [B2|B2].
  - destruct C1 as [R1 F1], C2 as [R2 F2]. apply f32_le_finite; auto. rewrite R1, R2. auto.
  - destruct C1 as [R1 F1]. rewrite C2. destruct n2.
    + exfalso. apply round32_le in S2. rewrite Z0 in S2. rewrite Rabs_left1 in B2 by auto.
      apply Rabs_def2 in B1. lra.
    + destruct f1 as [[]|[]| |[]]; try discriminate; exact I.
  - destruct C2 as [R2 F2]. rewrite C1. destruct n1.
    + destruct f2 as [[]|[]| |[]]; try discriminate; exact I.
    + exfalso. apply round32_le in S1. rewrite Z0 in S1. rewrite Rabs_pos_eq in B1 by auto.
      apply Rabs_def2 in B2. lra.
  - rewrite C1, C2. destruct n1, n2; try exact I.
    exfalso. apply round32_le in S1, S2. rewrite Z0 in S1, S2. rewrite Rabs_pos_eq in B1 by auto. lra.
Qed.

Lemma to_f32_correct p : 0 <= p < 65536 -> real (percent_to_f32 p) = round32 (IZR p / 1000) /\ finite (percent_to_f32 p).
Proof.
  intros H. unfold percent_to_f32, f32_div.
  destruct (f32_of_Z_correct p) as [Ep Fp]; [lia|]. destruct (f32_of_Z_correct 1000) as [Et Ft]; [lia|].
  pose proof (Bdiv_correct 24 128 f32_prec_gt_0 f32_prec_lt_emax mode_NE (f32_of_Z p) (f32_of_Z 1000)) as C.
  rewrite Ep, Et, Fp in C. specialize (C ltac:(lra)). cbn [round_mode] in C.
  change (round radix2 (SpecFloat.fexp 24 128) ZnearestE (IZR p / 1000)) with (round32 (IZR p / 1000)) in C.
  rewrite Rlt_bool_true in C; [destruct C as [C1 [C2 _]]; unfold real, finite; auto|].
  apply (round32_small _ 65536); [|lia]. assert (0 <= IZR p <= 65536)%R by (split; apply IZR_le; lia).
  rewrite Rabs_pos_eq; lra.
Qed.

Lemma decimal_exact neg m e p : 0 <= m -> 0 <= p < 65536 -> rate_value neg m e = (IZR p / 1000)%R ->
  real (f32_of_decimal neg m e) = real (percent_to_f32 p) /\ finite (f32_of_decimal neg m e).
Proof.
  intros Hm H E. destruct (to_f32_correct p H) as [R1 F1]. pose proof (f32_of_decimal_correct neg m e Hm) as C. cbv zeta in C.
  rewrite E in C. rewrite Rlt_bool_true in C; [rewrite R1; auto|].
  apply (round32_small _ 65536); [|lia]. assert (0 <= IZR p <= 65536)%R by (split; apply IZR_le; lia).
  rewrite Rabs_pos_eq; lra.
Qed.

Lemma percent_same x y : finite x -> finite y -> real x = real y -> percent_of_f32 x = percent_of_f32 y.
Proof.
  intros Fx Fy E. assert (f32_le x y) by (apply f32_le_finite; auto; lra). assert (f32_le y x) by (apply f32_le_finite; auto; lra).
  apply Z.le_antisymm; apply percent_mono; auto.
Qed.

Lemma nonempty_rate s neg m e : rate_text s neg m e -> s <> [].
Proof. intros R ->. apply rate_text_parse in R. destruct R. discriminate. Qed.

Lemma read_percent_rate s neg m e : rate_text s neg m e -> read_percent s = Ret (Ok (Some (percent_of_f32 (f32_of_decimal neg m e)))).
Proof.
  intros R. pose proof (nonempty_rate _ _ _ _ R). apply rate_text_parse in R. destruct R as [R _]. unfold read_percent.
  destruct s; [congruence|]. rewrite R. reflexivity.
Qed.

Lemma read_percent_exact s neg m e p : rate_text s neg m e -> 0 <= p <= 2000 -> rate_value neg m e = (IZR p / 1000)%R ->
  read_percent s = Ret (Ok (Some (if existsb (Z.eqb p) lossy then p - 1 else p))).
Proof.
  intros R H E. rewrite (read_percent_rate _ _ _ _ R). apply rate_text_parse in R. destruct R as [_ Hm].
  destruct (decimal_exact neg m e p Hm ltac:(lia) E) as [A B]. destruct (to_f32_correct p ltac:(lia)) as [_ F].
  rewrite (percent_same _ (percent_to_f32 p) B F A), percent_roundtrip by auto. reflexivity.
Qed.

(** the canonical text for a number of thousandths *)
Lemma thousandths p : (rate_value false p (-3) = IZR p / 1000)%R.
Proof. unfold rate_value. change (powerRZ 10 (-3)) with (/ (10 ^ 3))%R. field. Qed.

Lemma percent_mono_real neg m e n' m' e' : 0 <= m -> 0 <= m' ->
  (rate_value neg m e <= rate_value n' m' e')%R -> percent_of_f32 (f32_of_decimal neg m e) <= percent_of_f32 (f32_of_decimal n' m' e').
Proof. intros. apply percent_mono, decimal_mono; auto. Qed.

Lemma percent_thousandths p : 0 <= p <= 2000 -> percent_of_f32 (f32_of_decimal false p (-3)) = if existsb (Z.eqb p) lossy then p - 1 else p.
Proof.
  intros H. destruct (decimal_exact false p (-3) p ltac:(lia) ltac:(lia) (thousandths p)) as [A B]. destruct (to_f32_correct p ltac:(lia)) as [_ F].
  rewrite (percent_same _ (percent_to_f32 p) B F A), percent_roundtrip by auto. reflexivity.
Qed.

Lemma read_between neg m e p : 0 <= m -> 0 <= p < 2000 -> (IZR p / 1000 <= rate_value neg m e <= IZR (p + 1) / 1000)%R ->
  p - 1 <= percent_of_f32 (f32_of_decimal neg m e) <= p + 1.
Proof.
  intros Hm H [L U]. rewrite <- thousandths in L, U.
  pose proof (percent_mono_real false p (-3) neg m e ltac:(lia) Hm L) as A. pose proof (percent_mono_real neg m e false (p + 1) (-3) Hm ltac:(lia) U) as B.
  rewrite percent_thousandths in A, B by lia. destruct (existsb (Z.eqb p) lossy), (existsb (Z.eqb (p + 1)) lossy); lia.
Qed.

Lemma read_low neg m e : 0 <= m -> (rate_value neg m e <= 0)%R -> percent_of_f32 (f32_of_decimal neg m e) = 0.
Proof.
  intros Hm L. pose proof (percent_range (f32_of_decimal neg m e)).
  assert (L' : (rate_value neg m e <= rate_value false 0 (-3))%R) by (rewrite thousandths; lra).
  pose proof (percent_mono_real neg m e false 0 (-3) Hm ltac:(lia) L') as A. rewrite percent_thousandths in A by lia. change (existsb _ _) with false in A. cbv iota in A. lia.
Qed.
Lemma read_high neg m e : 0 <= m -> (2 <= rate_value neg m e)%R -> percent_of_f32 (f32_of_decimal neg m e) = 2000.
Proof.
  intros Hm L. pose proof (percent_range (f32_of_decimal neg m e)).
  assert (L' : (rate_value false 2000 (-3) <= rate_value neg m e)%R) by (rewrite thousandths; lra).
  pose proof (percent_mono_real false 2000 (-3) neg m e ltac:(lia) Hm L') as A. rewrite percent_thousandths in A by lia. change (existsb _ _) with false in A. cbv iota in A. lia.
Qed.

(** What is shown. *)
Lemma show_percent_text p : 0 <= p -> exists m e, rate_text (show_percent p) false m e /\ (rate_value false m e = IZR p / 1000)%R.
Proof.
  intros H. unfold show_percent. set (i := p / 1000). set (f := p mod 1000).
  assert (P : p = 1000 * i + f /\ 0 <= f < 1000 /\ 0 <= i) by (unfold i, f; lia). clearbody i f. destruct P as [-> [F I]].
  pose proof (show_nat_numeral i I) as N. pose proof N as N'. apply numeral_val in N'. destruct N' as [_ [D V]].
  assert (V1 : forall e m, rate_value false m e = (IZR m * powerRZ 10 e)%R) by reflexivity.
  assert (DF : forall c, 0 <= c <= 9 -> digit (48 + c)) by (unfold digit; intros; lia).
  assert (G : forall b m, Forall digit b -> m = val i b -> 
    rate_text (show_nat i ++ 46 :: b) false m (- Z.of_nat (length b))).
  { intros b m Fb E. apply rt_plain. rewrite <- (app_nil_r b) at 1. rewrite <- (Z.sub_0_l (Z.of_nat (length b))). apply dt_frac; auto; [|constructor].
    apply numeral_val. split; [destruct (show_nat i) eqn:X; [apply numeral_val in N; destruct N; congruence|discriminate]|].
    split; [apply Forall_app; auto|]. rewrite val_app, <- V. auto. }
  destruct (Z.eqb_spec f 0) as [->|F0].
  - exists i, 0. split; [rewrite app_nil_r; apply rt_plain; rewrite <- (app_nil_r (show_nat i)); apply dt_int; [auto|constructor]|].
    rewrite V1, Z.add_0_r, mult_IZR. cbn [powerRZ]. lra.
  - destruct (Z.eqb_spec (f mod 100) 0) as [F1|F1]; [|destruct (Z.eqb_spec (f mod 10) 0) as [F2|F2]].
    + exists (10 * i + f / 100), (-1). split.
      * apply (G [48 + f / 100]); [constructor; [apply DF; lia|constructor]|]. unfold val; cbn [fold_left]. lia.
      * rewrite V1. change (powerRZ 10 (-1)) with (/ (10 ^ 1))%R. assert (f = 100 * (f / 100)) by lia.
        rewrite H0 at 2. rewrite !plus_IZR, !mult_IZR. field.
    + exists (100 * i + f / 10), (-2). split.
      * apply (G [48 + f / 100; 48 + f / 10 mod 10]); [constructor; [apply DF; lia|constructor; [apply DF; lia|constructor]]|].
        unfold val; cbn [fold_left]. lia.
      * rewrite V1. change (powerRZ 10 (-2)) with (/ (10 ^ 2))%R. assert (f = 10 * (f / 10)) by lia.
        rewrite H0 at 2. rewrite !plus_IZR, !mult_IZR. field.
    + exists (1000 * i + f), (-3). split.
      * apply (G [48 + f / 100; 48 + f / 10 mod 10; 48 + f mod 10]);
          [constructor; [apply DF; lia|constructor; [apply DF; lia|constructor; [apply DF; lia|constructor]]]|].
        unfold val; cbn [fold_left]. lia.
      * apply thousandths.
Qed.

Lemma real_nonneg_inj (x y : f32) : finite x -> finite y -> Bsign x = false -> Bsign y = false -> real x = real y -> x = y.
Proof. intros Fx Fy Sx Sy E. apply B2R_Bsign_inj; auto. congruence. Qed.

Lemma read_percent_accepts s p : read_percent s = Ret (Ok (Some p)) ->
  (exists neg m e, rate_text s neg m e) \/ special_word s \/ (exists c r, s = c :: r /\ (c = 43 \/ c = 45) /\ special_word r).
Proof.
  unfold read_percent. destruct s as [|c s]; [discriminate|]. destruct (parse_f32 (c :: s)) as [x|] eqn:E; [intros _|discriminate].
  apply parse_f32_iff in E. unfold tail_value, infinity_word, nan_word, special_word in *.
  destruct E as [[[m [e [D _]]]|[[[H|H] _]|[H _]]]|[[r [S [[m [e [D _]]]|[[[H|H] _]|[H _]]]]]|[r [S [[m [e [D _]]]|[[[H|H] _]|[H _]]]]]]].
  - left. exists false, m, e. constructor; auto.
  - right; left; tauto.
  - right; left; tauto.
  - right; left; tauto.
  - left. exists false, m, e. rewrite S. constructor; exact D.
  - right; right. exists 43, r. tauto.
  - right; right. exists 43, r. tauto.
  - right; right. exists 43, r. tauto.
  - left. exists true, m, e. rewrite S. constructor; exact D.
  - right; right. exists 45, r. tauto.
  - right; right. exists 45, r. tauto.
  - right; right. exists 45, r. tauto.
Qed.
