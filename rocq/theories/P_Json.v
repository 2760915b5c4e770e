(** Lemmas about JSON texts: the parser accepts exactly the grammar. *)
From Coq Require Import ZArith List Bool Lia Ascii String.
From Verif Require Import Base M_Pitch M_Duration M_Percent M_Scalar M_Bar M_Note M_Models M_Text M_Json.
From Verif Require Import S_Pitch S_Note S_Percent S_Text S_Json P_Base P_Text.
Import ListNotations.
Open Scope Z_scope.
Open Scope list_scope.

(** ** Blanks *)

Lemma is_ws_iff c : is_ws c = true <-> c = 32 \/ c = 9 \/ c = 10 \/ c = 13.
Proof. unfold is_ws. rewrite !orb_true_iff, !Z.eqb_eq. tauto. Qed.

Lemma blank_ws w : blank w <-> Forall (fun c => is_ws c = true) w.
Proof. unfold blank. split; apply Forall_impl; intros c H; now apply is_ws_iff. Qed.

Definition no_ws (s : text) : Prop := match s with [] => True | c :: _ => is_ws c = false end.

Lemma skip_ws_app w s : blank w -> no_ws s -> skip_ws (w ++ s) = s.
Proof.
  intros Hw Hs. unfold skip_ws. rewrite span_app; [reflexivity | now apply blank_ws | exact Hs].
Qed.

Lemma skip_ws_spec s : exists w, s = w ++ skip_ws s /\ blank w /\ no_ws (skip_ws s).
Proof.
  unfold skip_ws. destruct (span is_ws s) as [w r] eqn:E. cbn [snd].
  destruct (span_spec _ _ _ _ E) as (A & B & C). exists w. rewrite blank_ws. auto.
Qed.

Lemma blank_nil : blank []. Proof. constructor. Qed.
Lemma blank_app a b : blank a -> blank b -> blank (a ++ b).
Proof. apply Forall_app_2 || (intros; apply Forall_app; auto). Qed.

Lemma skip_ws_self s : no_ws s -> skip_ws s = s.
Proof. intros H. exact (skip_ws_app [] s blank_nil H). Qed.

(** ** Strings *)

Lemma hex_digit_iff c x : hex_digit c = Some x <-> hex_is c x.
Proof.
  unfold hex_digit, is_digit. split.
  - intros H.
    destruct ((48 <=? c) && (c <=? 57)) eqn:A; [inversion H; constructor; lia|].
    destruct ((97 <=? c) && (c <=? 102)) eqn:B; [inversion H; replace (c - 87) with (c - 97 + 10) by lia; constructor; lia|].
    destruct ((65 <=? c) && (c <=? 70)) eqn:C; [inversion H; replace (c - 55) with (c - 65 + 10) by lia; constructor; lia|].
    discriminate.
  - intros H; inversion H; subst; clear H.
    + replace ((48 <=? c) && (c <=? 57)) with true by lia. reflexivity.
    + replace ((48 <=? c) && (c <=? 57)) with false by lia.
      replace ((97 <=? c) && (c <=? 102)) with true by lia. f_equal; lia.
    + replace ((48 <=? c) && (c <=? 57)) with false by lia.
      replace ((97 <=? c) && (c <=? 102)) with false by lia.
      replace ((65 <=? c) && (c <=? 70)) with true by lia. f_equal; lia.
Qed.

Lemma hex4_iff a b c d n : hex4 a b c d = Some n <-> code_unit [a; b; c; d] n.
Proof.
  unfold hex4. split.
  - destruct (hex_digit a) as [x|] eqn:A; [|discriminate].
    destruct (hex_digit b) as [y|] eqn:B; [|discriminate].
    destruct (hex_digit c) as [z|] eqn:C; [|discriminate].
    destruct (hex_digit d) as [w|] eqn:D; [|discriminate].
    intros H; inversion H; subst.
    replace (x * 4096 + y * 256 + z * 16 + w) with (16 * (16 * (16 * x + y) + z) + w) by lia.
    constructor; now apply hex_digit_iff.
  - intros H; inversion H; subst.
    repeat match goal with H : hex_is _ _ |- _ => apply hex_digit_iff in H; rewrite H; clear H end.
    f_equal; lia.
Qed.

Lemma simple_escape_iff e c : simple_escape e = Some c <->
  In (e, c) [(34, 34); (92, 92); (47, 47); (98, 8); (102, 12); (110, 10); (114, 13); (116, 9)].
Proof.
  unfold simple_escape. split.
  - repeat match goal with |- (if ?x =? ?y then _ else _) = _ -> _ => destruct (Z.eqb_spec x y); [subst; intros H; inversion H; subst; cbn; tauto|] end.
    discriminate.
  - cbn. intros H. repeat (destruct H as [H|H]; [inversion H; subst; reflexivity|]). contradiction.
Qed.

Lemma string_complete s t : string_text s t -> forall r, parse_chars (s ++ 34 :: r) = Some (t, r).
Proof.
  induction 1 as [| c s t H1 H2 H3 H IH | e c s t Hin H IH | h n s t Hc Hn H IH | h k n m s t Hc Hk Hn Hm H IH]; intros r.
  - reflexivity.
  - cbn [app parse_chars]. destruct (Z.eqb_spec c 34); [contradiction|]. destruct (Z.eqb_spec c 92); [contradiction|].
    destruct (Z.ltb_spec c 32); [lia|]. now rewrite IH.
  - assert (e <> 117) by (intros ->; cbn in Hin; repeat (destruct Hin as [Hin|Hin]; [discriminate|]); exact Hin).
    apply simple_escape_iff in Hin.
    change ((92 :: e :: s) ++ 34 :: r) with (92 :: e :: (s ++ 34 :: r)).
    cbn [parse_chars Z.eqb Pos.eqb].
    destruct (Z.eqb_spec e 117); [contradiction|]. rewrite Hin, IH. reflexivity.
  - inversion Hc; subst h n. apply hex4_iff in Hc.
    change ((92 :: 117 :: [a; b; c; d] ++ s) ++ 34 :: r) with (92 :: 117 :: a :: b :: c :: d :: (s ++ 34 :: r)).
    cbn [parse_chars Z.eqb Pos.eqb]. rewrite Hc. unfold low_surrogate, high_surrogate.
    set (n := 16 * (16 * (16 * x + y) + z) + w) in *.
    replace ((56320 <=? n) && (n <=? 57343)) with false by lia.
    replace ((55296 <=? n) && (n <=? 56319)) with false by lia. now rewrite IH.
  - inversion Hc; subst h n. apply hex4_iff in Hc.
    inversion Hk; subst k m. apply hex4_iff in Hk.
    set (n := 16 * (16 * (16 * x + y) + z) + w) in *.
    set (m := 16 * (16 * (16 * x0 + y0) + z0) + w0) in *.
    change ((92 :: 117 :: [a; b; c; d] ++ 92 :: 117 :: [a0; b0; c0; d0] ++ s) ++ 34 :: r)
      with (92 :: 117 :: a :: b :: c :: d :: 92 :: 117 :: a0 :: b0 :: c0 :: d0 :: (s ++ 34 :: r)).
    cbn [parse_chars Z.eqb Pos.eqb andb]. rewrite Hc. unfold high_surrogate.
    replace (low_surrogate n) with false by (unfold low_surrogate; lia).
    replace ((55296 <=? n) && (n <=? 56319)) with true by lia.
    rewrite Hk. replace (low_surrogate m) with true by (unfold low_surrogate; lia).
    rewrite IH. cbn [cons_char]. do 3 f_equal. lia.
Qed.

Lemma some_pair {A B} (a c : A) (b d : B) : Some (a, b) = Some (c, d) -> a = c /\ b = d.
Proof. intros H. inversion H. auto. Qed.

Lemma string_sound_aux k : forall s t r, (List.length s <= k)%nat -> parse_chars s = Some (t, r) ->
  exists p, s = p ++ 34 :: r /\ string_text p t.
Proof.
  induction k as [|k IH]; intros s t r Hk H.
  { destruct s; [discriminate | cbn in Hk; lia]. }
  destruct s as [|c s]; [discriminate|]. cbn [parse_chars] in H.
  destruct (Z.eqb_spec c 34) as [->|N34].
  { inversion H; subst. exists []. split; [reflexivity | constructor]. }
  destruct (Z.eqb_spec c 92) as [->|N92].
  - destruct s as [|e r1]; [discriminate|].
    destruct (Z.eqb_spec e 117) as [->|N117].
    + destruct r1 as [|a [|b [|c [|d r2]]]]; try discriminate.
      destruct (hex4 a b c d) as [n|] eqn:Hn; [|discriminate]. apply hex4_iff in Hn.
      destruct (low_surrogate n) eqn:L; [discriminate|].
      destruct (high_surrogate n) eqn:Hh.
      * destruct r2 as [|x [|y [|a' [|b' [|c' [|d' r3]]]]]]; try discriminate.
        destruct ((x =? 92) && (y =? 117)) eqn:XY; [|discriminate].
        apply andb_true_iff in XY as [X Y]. apply Z.eqb_eq in X, Y. subst x y.
        destruct (hex4 a' b' c' d') as [m|] eqn:Hm; [|discriminate]. apply hex4_iff in Hm.
        destruct (low_surrogate m) eqn:Lm; [|discriminate].
        destruct (parse_chars r3) as [[t' r']|] eqn:E; [|discriminate].
        cbn [cons_char] in H. apply some_pair in H as [<- <-].
        apply IH in E; [|cbn [List.length] in Hk; clear -Hk; lia]. destruct E as (p & -> & P).
        exists (92 :: 117 :: [a; b; c; d] ++ 92 :: 117 :: [a'; b'; c'; d'] ++ p). split; [reflexivity|].
        replace (65536 + (n - 55296) * 1024 + (m - 56320)) with (65536 + 1024 * (n - 55296) + (m - 56320)) by lia.
        unfold low_surrogate, high_surrogate in *.
        apply str_pair; auto; lia.
      * destruct (parse_chars r2) as [[t' r']|] eqn:E; [|discriminate].
        cbn [cons_char] in H. apply some_pair in H as [<- <-].
        apply IH in E; [|cbn [List.length] in Hk; clear -Hk; lia]. destruct E as (p & -> & P).
        exists (92 :: 117 :: [a; b; c; d] ++ p). split; [reflexivity|].
        unfold low_surrogate, high_surrogate in *. apply str_code; auto; lia.
    + destruct (simple_escape e) as [x|] eqn:X; [|discriminate].
      destruct (parse_chars r1) as [[t' r']|] eqn:E; [|discriminate].
      cbn [cons_char] in H. apply some_pair in H as [<- <-].
      apply IH in E; [|cbn [List.length] in Hk; clear -Hk; lia]. destruct E as (p & -> & P).
      exists (92 :: e :: p). split; [reflexivity|]. apply str_escape; [now apply simple_escape_iff | exact P].
  - destruct (Z.ltb_spec c 32); [discriminate|].
    destruct (parse_chars s) as [[t' r']|] eqn:E; [|discriminate].
    cbn [cons_char] in H. apply some_pair in H as [<- <-].
    apply IH in E; [|cbn [List.length] in Hk; clear -Hk; lia]. destruct E as (p & -> & P).
    exists (c :: p). split; [reflexivity|]. now apply str_plain.
Qed.

Lemma string_sound s t r : parse_chars s = Some (t, r) -> exists p, s = p ++ 34 :: r /\ string_text p t.
Proof. exact (string_sound_aux _ s t r (le_n _)). Qed.

(** ** Numbers *)

(** the text does not go on with a character that a number could contain *)
Definition stops (s : text) : Prop :=
  match s with [] => True | c :: _ => ~ digit c /\ c <> 46 /\ c <> 101 /\ c <> 69 end.

Lemma fraction_complete f r : fraction f -> (match r with [] => True | c :: _ => ~ digit c /\ c <> 46 end) ->
  parse_fraction (f ++ r) = Some (f, r).
Proof.
  intros [-> | (d & -> & Hd & Fd)] Hr.
  - cbn [app]. unfold parse_fraction. destruct r as [|c r]; [reflexivity|].
    destruct (Z.eqb_spec c 46); [tauto | reflexivity].
  - cbn [app parse_fraction Z.eqb Pos.eqb]. rewrite digits_span; [|exact Fd|destruct r; tauto].
    destruct d; [congruence | reflexivity].
Qed.

Lemma exp_complete e r : exponent e -> (match r with [] => True | c :: _ => ~ digit c /\ c <> 101 /\ c <> 69 end) ->
  parse_exp (e ++ r) = Some (e, r).
Proof.
  intros [-> | (c & sg & d & -> & Hc & Hsg & Hd & Fd)] Hr.
  - cbn [app]. unfold parse_exp. destruct r as [|c r]; [reflexivity|].
    destruct (Z.eqb_spec c 101); [tauto|]. destruct (Z.eqb_spec c 69); [tauto|]. reflexivity.
  - assert (S : span is_digit (d ++ r) = (d, r)) by (apply digits_span; [exact Fd | destruct r; tauto]).
    assert (Ec : (c =? 101) || (c =? 69) = true) by (destruct Hc; subst; reflexivity).
    cbn [app]. unfold parse_exp. rewrite Ec.
    destruct d as [|d0 d]; [congruence|]. inversion Fd as [|? ? D0 Fd']; subst.
    destruct Hsg as [-> | [-> | ->]].
    + cbn [app]. cbn [app] in S.
      destruct (digit_sign d0 D0) as (N1 & N2 & _).
      destruct (Z.eqb_spec d0 43); [contradiction|]. destruct (Z.eqb_spec d0 45); [contradiction|].
      cbn [orb]. rewrite S. reflexivity.
    + cbn [app Z.eqb Pos.eqb orb]. cbn [app] in S. rewrite S. reflexivity.
    + cbn [app Z.eqb Pos.eqb orb]. cbn [app] in S. rewrite S. reflexivity.
Qed.

Lemma fraction_sound s f r : parse_fraction s = Some (f, r) -> s = f ++ r /\ fraction f.
Proof.
  unfold parse_fraction, fraction. destruct s as [|c s]; [intros H; inversion H; auto|].
  destruct (Z.eqb_spec c 46) as [->|]; [|intros H; inversion H; auto].
  destruct (span is_digit s) as [d r'] eqn:E. destruct (span_spec _ _ _ _ E) as (A & B & _).
  destruct d as [|d0 d]; [discriminate|]. intros H; inversion H; subst. split; [reflexivity|].
  right. exists (d0 :: d). split; [reflexivity|]. split; [congruence|]. now apply is_digit_Forall.
Qed.

Lemma exp_sound s e r : parse_exp s = Some (e, r) -> s = e ++ r /\ exponent e.
Proof.
  unfold parse_exp, exponent. destruct s as [|c s]; [intros H; inversion H; auto|].
  destruct ((c =? 101) || (c =? 69)) eqn:Ec; [|intros H; inversion H; auto].
  apply orb_true_iff in Ec. rewrite !Z.eqb_eq in Ec.
  set (q := match s with [] => ([], s) | x :: r1 => if (x =? 43) || (x =? 45) then ([x], r1) else ([], s) end).
  assert (Q : s = fst q ++ snd q /\ (fst q = [] \/ fst q = [43] \/ fst q = [45])).
  { subst q. destruct s as [|x r1]; [cbn; auto|].
    destruct (Z.eqb_spec x 43) as [->|]; [cbn; auto|]. destruct (Z.eqb_spec x 45) as [->|]; cbn; auto. }
  destruct q as [sg r1]. cbn [fst snd] in Q. destruct Q as (-> & Q).
  destruct (span is_digit r1) as [d r'] eqn:E. destruct (span_spec _ _ _ _ E) as (A & B & _).
  destruct d as [|d0 d]; [discriminate|]. intros H; inversion H; subst. split.
  { cbn [app]. rewrite <- app_assoc. reflexivity. }
  right. exists c, sg, (d0 :: d). repeat split; auto; try congruence. now apply is_digit_Forall.
Qed.

Lemma natural_parts i v : natural i v <-> i <> [] /\ Forall digit i /\ v = digits_value i /\ (forall r, i = 48 :: r -> r = []).
Proof. unfold natural. rewrite numeral_val. change (digits_value i) with (val 0 i). tauto. Qed.

Definition bad_integer (i : text) : bool := match i with [] => true | [_] => false | c :: _ => c =? 48 end.

Lemma bad_integer_iff i : bad_integer i = false <-> i <> [] /\ (forall r, i = 48 :: r -> r = []).
Proof.
  unfold bad_integer. destruct i as [|c [|d i]].
  - split; [discriminate | intros [H _]; congruence].
  - split; [intros _; split; [congruence | intros r H; now inversion H] | reflexivity].
  - rewrite Z.eqb_neq. split; [intros H; split; [congruence | intros r E; inversion E; congruence]|].
    intros [_ H] ->. specialize (H _ eq_refl). discriminate.
Qed.

Lemma u64_pow : u64_max = 2 ^ 64 - 1. Proof. reflexivity. Qed.
Lemma i64_pow : i64_min = - 2 ^ 63. Proof. reflexivity. Qed.

Lemma number_lex sg i f e r : (sg = [] \/ sg = [45]) -> i <> [] -> Forall digit i -> fraction f -> exponent e -> stops r ->
  let s := (sg ++ i ++ f ++ e) ++ r in
  exists s2 s3, match s with c :: r => if c =? 45 then ([45], r) else ([], s) | [] => ([], s) end = (sg, i ++ s2) /\
    span is_digit (i ++ s2) = (i, s2) /\ parse_fraction s2 = Some (f, s3) /\ parse_exp s3 = Some (e, r).
Proof.
  intros Hsg Hi Di Hf He Hr s. exists (f ++ e ++ r), (e ++ r).
  assert (Hne : match f ++ e ++ r with [] => True | c :: _ => ~ digit c end).
  { destruct Hf as [-> | (d & -> & _)]; [|cbn; unfold digit; lia].
    destruct He as [-> | (c & sg' & d & -> & Hc & _)]; [|cbn; unfold digit; lia].
    cbn. destruct r; cbn in *; tauto. }
  assert (Hner : match e ++ r with [] => True | c :: _ => ~ digit c /\ c <> 46 end).
  { destruct He as [-> | (c & sg' & d & -> & Hc & _)]; [|cbn; unfold digit; lia].
    cbn. destruct r; cbn in *; tauto. }
  repeat split.
  - subst s. rewrite <- !app_assoc. destruct Hsg as [-> | ->]; [|reflexivity].
    destruct i as [|c i]; [congruence|]. inversion Di; subst. cbn [app].
    destruct (digit_sign c H1) as (_ & N & _). destruct (Z.eqb_spec c 45); [contradiction | reflexivity].
  - apply digits_span; assumption.
  - apply fraction_complete; assumption.
  - apply exp_complete; [assumption | destruct r; cbn in *; tauto].
Qed.

Lemma number_complete ov s j r : number ov s j -> stops r -> parse_number ov (s ++ r) = Some (j, r).
Proof.
  intros H Hr.
  assert (Key : forall neg i v f e, natural i v -> fraction f -> exponent e ->
    let sg := if neg : bool then [45] else [] in
    parse_number ov ((sg ++ i ++ f ++ e) ++ r) =
      (let int := match f, e with [], [] => true | _, _ => false end in
       let float := if ov (sg ++ i ++ f ++ e) then None else Some (JFloat, r) in
       if neg then if int && (0 <? v) && (- v >=? i64_min) then Some (JInt (- v), r) else float
       else if int && (v <=? u64_max) then Some (JInt v, r) else float)).
  { intros neg i v f e Hi Hf He sg. apply natural_parts in Hi as (Hi & Di & Hv & Hz).
    destruct (number_lex sg i f e r ltac:(subst sg; destruct neg; auto) Hi Di Hf He Hr) as (s2 & s3 & E1 & E2 & E3 & E4).
    unfold parse_number.
    lazymatch goal with |- match ?c with (_, _) => _ end = _ => replace c with (sg, i ++ s2) by (symmetry; exact E1) end.
    rewrite E2.
    assert (B : bad_integer i = false) by (apply bad_integer_iff; auto). unfold bad_integer in B. rewrite B.
    rewrite E3, E4, <- Hv. subst sg. destruct neg; reflexivity. }
  destruct H as [s v Hn Hv | s v Hn Hv | neg i v f e Hn Hf He Hbig Hov].
  - specialize (Key false s v [] [] Hn (or_introl eq_refl) (or_introl eq_refl)). cbn in Key.
    rewrite app_nil_r in Key. rewrite Key. rewrite u64_pow.
    replace (v <=? 2 ^ 64 - 1) with true by lia. reflexivity.
  - specialize (Key true s v [] [] Hn (or_introl eq_refl) (or_introl eq_refl)). cbn [app andb] in Key.
    rewrite app_nil_r in Key. cbn [app]. rewrite Key. rewrite i64_pow.
    replace ((0 <? v) && (- v >=? - 2 ^ 63)) with true by lia. reflexivity.
  - rewrite (Key neg i v f e Hn Hf He). cbv zeta. rewrite Hov.
    assert (V : 0 <= v) by (apply natural_parts in Hn as (_ & D & -> & _); apply (val_ge 0 i); [lia|exact D]).
    destruct f as [|c f]; [destruct e as [|c e]|].
    + specialize (Hbig eq_refl). destruct neg; cbn [andb].
      * rewrite i64_pow. replace ((0 <? v) && (- v >=? - 2 ^ 63)) with false by lia. reflexivity.
      * rewrite u64_pow. replace (v <=? 2 ^ 64 - 1) with false by lia. reflexivity.
    + destruct neg; reflexivity.
    + destruct neg; reflexivity.
Qed.

Lemma number_sound ov s j r : parse_number ov s = Some (j, r) -> exists p, s = p ++ r /\ number ov p j.
Proof.
  unfold parse_number.
  set (q := match s with c :: r => if c =? 45 then ([45], r) else ([], s) | [] => ([], s) end).
  assert (Q : s = fst q ++ snd q /\ exists neg : bool, fst q = if neg then [45] else []).
  { subst q. destruct s as [|c s]; [split; [reflexivity|]; now exists false|].
    destruct (Z.eqb_spec c 45) as [->|]; (split; [reflexivity|]); [now exists true | now exists false]. }
  destruct q as [sg s1]. cbn [fst snd] in Q. destruct Q as (-> & neg & ->).
  destruct (span is_digit s1) as [i s2] eqn:Es. destruct (span_spec _ _ _ _ Es) as (-> & Di & _).
  apply is_digit_Forall in Di.
  destruct (bad_integer i) eqn:B; unfold bad_integer in B; rewrite B; [discriminate|].
  change (bad_integer i = false) in B. apply bad_integer_iff in B as (Hi & Hz).
  destruct (parse_fraction s2) as [[f s3]|] eqn:Ef; [|discriminate]. apply fraction_sound in Ef as (-> & Ff).
  destruct (parse_exp s3) as [[e r']|] eqn:Ee; [|discriminate]. apply exp_sound in Ee as (-> & Fe).
  assert (Hn : natural i (digits_value i)) by (apply natural_parts; auto).
  set (v := digits_value i) in *.
  assert (V : 0 <= v) by (subst v; apply (val_ge 0 i); [lia | exact Di]).
  set (p := (if neg then [45] else []) ++ i ++ f ++ e).
  assert (Ep : forall x, (if neg then [45] else []) ++ i ++ f ++ e ++ x = p ++ x)
    by (intros x; subst p; now rewrite <- !app_assoc).
  rewrite Ep.
  intros H. cbv zeta in H.
  assert (Flt : forall (Hb : f ++ e = [] -> if neg then v = 0 \/ 2 ^ 63 < v else 2 ^ 64 <= v),
            (if ov p then None else Some (JFloat, r')) = Some (j, r) -> exists p', p ++ r' = p' ++ r /\ number ov p' j).
  { intros Hb G. destruct (ov p) eqn:O; [discriminate|]. inversion G; subst j r. exists p. split; [reflexivity|].
    subst p. apply (num_float ov neg i v f e); auto. }
  destruct f as [|c f]; [destruct e as [|c e]|].
  - destruct neg; cbn [andb] in H.
    + destruct ((0 <? v) && (- v >=? i64_min)) eqn:C.
      * inversion H; subst j r. exists p. split; [reflexivity|]. subst p. cbn. rewrite app_nil_r.
        rewrite i64_pow in C. apply num_neg; [exact Hn | lia].
      * apply Flt; [intros _; rewrite i64_pow in C; lia | exact H].
    + destruct (v <=? u64_max) eqn:C.
      * inversion H; subst j r. exists p. split; [reflexivity|]. subst p. cbn. rewrite app_nil_r.
        rewrite u64_pow in C. apply num_pos; [exact Hn | lia].
      * apply Flt; [intros _; rewrite u64_pow in C; lia | exact H].
  - apply Flt; [discriminate|]. destruct neg; exact H.
  - apply Flt; [discriminate|]. destruct neg; exact H.
Qed.

Lemma number_head ov s j : number ov s j -> exists c r, s = c :: r /\ (c = 45 \/ digit c).
Proof.
  intros [s' v Hn Hv | s' v Hn Hv | neg i v f e Hn _ _ _ _].
  - apply natural_parts in Hn as (Hi & Di & _). destruct s' as [|c r]; [congruence|]. inversion Di; subst. eauto.
  - eauto.
  - apply natural_parts in Hn as (Hi & Di & _). destruct i as [|c r]; [congruence|]. inversion Di; subst.
    destruct neg; cbn; eauto.
Qed.

(** ** Values *)

Lemma denotes_head ov s j : denotes ov s j -> exists c r, s = c :: r /\ is_ws c = false /\
  (c = 34 \/ c = 91 \/ c = 123 \/ c = 45 \/ digit c \/ c = 110 \/ c = 116 \/ c = 102) /\
  (shows_end c = true <-> ends_itself j).
Proof.
  intros H. destruct H as [ | | | s j H | s t H | w H | s l H | w H | s l H].
  4: { destruct (number_head _ _ _ H) as (c & r & -> & D). exists c, r. split; [reflexivity|].
       assert (W : is_ws c = false /\ shows_end c = false)
         by (unfold is_ws, shows_end, digit in *; destruct D as [->|D]; [now split | lia]).
       destruct W as (W1 & W2). repeat split; auto; try tauto; try congruence.
       destruct H; cbn; tauto. }
  all: eexists _, _; repeat split; try reflexivity; try tauto; cbn; intros; (tauto || discriminate).
Qed.

Lemma no_ws_app c r s : is_ws c = false -> no_ws ((c :: r) ++ s). Proof. exact (fun H => H). Qed.

Lemma denotes_no_ws ov s j r : denotes ov s j -> no_ws (s ++ r).
Proof. intros H. destruct (denotes_head _ _ _ H) as (c & r' & -> & W & _). exact W. Qed.

Lemma digit_dispatch c : c = 45 \/ digit c ->
  (c =? 34) = false /\ (c =? 91) = false /\ (c =? 123) = false /\ (c =? 45) || is_digit c = true.
Proof. unfold is_digit, digit. lia. Qed.

Lemma nesting_in l v : In v l -> (nesting v <= fold_right (fun v n => Nat.max (nesting v) n) 0 l)%nat.
Proof. induction l; cbn; [tauto|]. intros [->|H]; [lia|]. specialize (IHl H). lia. Qed.

Lemma nesting_in_obj l k v : In (k, v) l -> (nesting v <= fold_right (fun (kv : text * json) n => Nat.max (nesting (snd kv)) n) 0 l)%nat.
Proof. induction l as [|[k' v'] l IH]; cbn; [tauto|]. intros [E|H]; [inversion E; lia|]. specialize (IH H). lia. Qed.

Lemma nesting_arr l n : (forall v, In v l -> (nesting v <= n)%nat) -> (nesting (JArr l) <= S n)%nat.
Proof.
  intros H. cbn. apply le_n_S. induction l as [|v l IH]; cbn; [lia|].
  apply Nat.max_lub; [apply H; now left | apply IH; intros; apply H; now right].
Qed.
Lemma nesting_obj l n : (forall k v, In (k, v) l -> (nesting v <= n)%nat) -> (nesting (JObj l) <= S n)%nat.
Proof.
  intros H. cbn. apply le_n_S. induction l as [|[k v] l IH]; cbn; [lia|].
  apply Nat.max_lub; [apply (H k); now left | apply IH; intros k' v' Hi; apply (H k'); now right].
Qed.

Lemma stops_ws c r : is_ws c = true -> stops (c :: r).
Proof. rewrite is_ws_iff. cbn. unfold digit. lia. Qed.

Lemma stops_blank w c r : blank w -> (c = 44 \/ c = 93 \/ c = 125 \/ c = 58) -> stops (w ++ c :: r).
Proof.
  intros Hw Hc. destruct w as [|x w]; [cbn; unfold digit; lia|]. inversion Hw; subst.
  apply stops_ws. now apply is_ws_iff.
Qed.

Definition reads (ov : text -> bool) (p : text -> option (json * text)) (n : nat) : Prop :=
  forall s j r, denotes ov s j -> (nesting j <= n)%nat -> (ends_itself j \/ stops r) -> p (s ++ r) = Some (j, r).

Lemma elements_complete ov p n s l : reads ov p n -> separated (padded (denotes ov)) s l ->
  (forall v, In v l -> (nesting v <= n)%nat) ->
  forall fuel r, (List.length l <= fuel)%nat -> parse_elements p fuel (skip_ws (s ++ 93 :: r)) = Some (l, r).
Proof.
  intros Hp H. induction H as [s a H | s a r0 l H Hl IH]; intros Hn fuel r Hf.
  - destruct fuel as [|fuel]; [cbn in Hf; lia|]. inversion H as [w s' w' a' Hw Hs Hw' E1 E2]; subst.
    replace ((w ++ s' ++ w') ++ 93 :: r) with (w ++ s' ++ w' ++ 93 :: r) by now rewrite <- !app_assoc.
    rewrite skip_ws_app; [|exact Hw | eapply denotes_no_ws; exact Hs].
    cbn [parse_elements]. rewrite (Hp s' a); [|exact Hs | apply Hn; now left | right; apply stops_blank; auto].
    rewrite skip_ws_app; [|exact Hw' | reflexivity]. cbn. reflexivity.
  - destruct fuel as [|fuel]; [cbn in Hf; lia|]. inversion H as [w s' w' a' Hw Hs Hw' E1 E2]; subst.
    replace (((w ++ s' ++ w') ++ 44 :: r0) ++ 93 :: r) with (w ++ s' ++ w' ++ 44 :: (r0 ++ 93 :: r))
      by (repeat rewrite <- app_assoc; reflexivity).
    rewrite skip_ws_app; [|exact Hw | eapply denotes_no_ws; exact Hs].
    cbn [parse_elements]. rewrite (Hp s' a); [|exact Hs | apply Hn; now left | right; apply stops_blank; auto].
    rewrite skip_ws_app; [|exact Hw' | reflexivity]. cbn [Z.eqb Pos.eqb].
    rewrite IH; [reflexivity | intros v Hv; apply Hn; now right | cbn in Hf; lia].
Qed.

Lemma members_complete ov p n s l : reads ov p n -> separated (padded (member (denotes ov))) s l ->
  (forall k v, In (k, v) l -> (nesting v <= n)%nat) ->
  forall fuel r, (List.length l <= fuel)%nat -> parse_members p fuel (skip_ws (s ++ 125 :: r)) = Some (l, r).
Proof.
  intros Hp H.
  assert (One : forall s a (Ha : padded (member (denotes ov)) s a) (Hn : (nesting (snd a) <= n)%nat) c r fuel,
    (c = 44 \/ c = 125) ->
    parse_members p (S fuel) (skip_ws (s ++ c :: r)) =
      if c =? 44 then match parse_members p fuel (skip_ws r) with Some (l, r'') => Some (a :: l, r'') | None => None end
      else Some ([a], r)).
  { clear s l H. intros s a Ha Hn c r fuel Hc.
    inversion Ha as [w s' w' a' Hw Hs Hw' E1 E2]; subst.
    inversion Hs as [k kt w1 v j Hk Hw1 Hv E1 E2]; subst.
    inversion Hv as [w2 v' w3 j' Hw2 Hd Hw3 E1 E2]; subst. cbn [snd] in Hn.
    replace ((w ++ (34 :: k ++ 34 :: w1 ++ 58 :: w2 ++ v' ++ w3) ++ w') ++ c :: r)
      with (w ++ (34 :: (k ++ 34 :: (w1 ++ 58 :: (w2 ++ v' ++ ((w3 ++ w') ++ c :: r))))))
      by (cbn [app]; repeat (rewrite <- app_assoc; cbn [app]); reflexivity).
    rewrite skip_ws_app; [|exact Hw | reflexivity].
    cbn [parse_members Z.eqb Pos.eqb]. rewrite (string_complete _ _ Hk).
    rewrite skip_ws_app; [|exact Hw1 | reflexivity]. cbn [Z.eqb Pos.eqb].
    rewrite skip_ws_app; [|exact Hw2 | eapply denotes_no_ws; exact Hd].
    rewrite (Hp v' j); [|exact Hd | exact Hn | right; apply stops_blank; [now apply blank_app | tauto]].
    rewrite skip_ws_app; [|now apply blank_app | destruct Hc; subst; reflexivity].
    destruct Hc; subst c; reflexivity. }
  induction H as [s a H | s a r0 l H Hl IH]; intros Hn fuel r Hf.
  - destruct fuel as [|fuel]; [cbn in Hf; lia|].
    rewrite (One s a H); [reflexivity | destruct a as [k v]; apply (Hn k); now left | auto].
  - destruct fuel as [|fuel]; [cbn in Hf; lia|].
    replace ((s ++ 44 :: r0) ++ 125 :: r) with (s ++ 44 :: (r0 ++ 125 :: r)) by (rewrite <- app_assoc; reflexivity).
    rewrite (One s a H); [|destruct a as [k v]; apply (Hn k); now left | auto].
    cbn [Z.eqb Pos.eqb]. rewrite IH; [reflexivity | intros k v Hv; apply (Hn k); now right | cbn in Hf; lia].
Qed.

Lemma separated_length {A} (item : text -> A -> Prop) s l : (forall s a, item s a -> s <> []) ->
  separated item s l -> (List.length l <= List.length s)%nat.
Proof.
  intros Hne H. induction H as [s a H | s a r l H Hl IH].
  - specialize (Hne _ _ H). destruct s; [congruence | cbn; lia].
  - rewrite app_length. cbn. lia.
Qed.

Lemma padded_nonempty {A} (item : text -> A -> Prop) s a : (forall s a, item s a -> s <> []) -> padded item s a -> s <> [].
Proof.
  intros H P. inversion P as [w s' w' a' Hw Hs Hw' E1 E2]; subst. specialize (H _ _ Hs).
  destruct w; [destruct s'; [congruence | discriminate] | discriminate].
Qed.

Lemma denotes_nonempty ov s j : denotes ov s j -> s <> [].
Proof. intros H. destruct (denotes_head _ _ _ H) as (c & r & -> & _). discriminate. Qed.

Lemma separated_nonempty_list {A} (item : text -> A -> Prop) s l : separated item s l -> l <> [].
Proof. destruct 1; discriminate. Qed.

(** the first character of a padded value, after the blanks, opens a value *)
Lemma elements_head ov s l c r : separated (padded (denotes ov)) s l -> skip_ws (s ++ c :: r) <> [] /\
  forall x y, skip_ws (s ++ c :: r) = x :: y -> x <> 93.
Proof.
  intros H.
  assert (exists w t z, s = w ++ t ++ z /\ blank w /\ exists j, denotes ov t j) as (w & t & z & -> & Hw & j & Ht).
  { destruct H as [s a H | s a r0 l H Hl]; inversion H as [w s' w' a' Hw Hs Hw' E1 E2]; subst.
    - exists w, s', w'; eauto.
    - exists w, s', (w' ++ 44 :: r0). split; [now rewrite <- !app_assoc | eauto]. }
  replace ((w ++ t ++ z) ++ c :: r) with (w ++ t ++ (z ++ c :: r)) by now rewrite <- !app_assoc.
  rewrite skip_ws_app; [|exact Hw | eapply denotes_no_ws; exact Ht].
  destruct (denotes_head _ _ _ Ht) as (x & y & -> & _ & Hx & _). cbn [app].
  split; [discriminate|]. intros x' y' E. inversion E; subst. unfold digit in Hx. lia.
Qed.

Lemma members_head ov s l c r : separated (padded (member (denotes ov))) s l -> skip_ws (s ++ c :: r) <> [] /\
  forall x y, skip_ws (s ++ c :: r) = x :: y -> x <> 125.
Proof.
  intros H.
  assert (exists w t z, s = w ++ (34 :: t) ++ z /\ blank w) as (w & t & z & -> & Hw).
  { destruct H as [s a H | s a r0 l H Hl]; inversion H as [w s' w' a' Hw Hs Hw' E1 E2]; subst;
      inversion Hs; subst.
    - eexists w, _, w'; split; [reflexivity | exact Hw].
    - eexists w, _, (w' ++ 44 :: r0). split; [now rewrite <- !app_assoc | exact Hw]. }
  replace ((w ++ (34 :: t) ++ z) ++ c :: r) with (w ++ 34 :: (t ++ (z ++ c :: r)))
    by (rewrite <- !app_assoc; reflexivity).
  rewrite skip_ws_app; [|exact Hw | reflexivity]. split; [discriminate|]. intros x y E. inversion E. lia.
Qed.

Lemma value_complete ov d : reads ov (parse_value ov d) d.
Proof.
  induction d as [|d IH]; intros s j r H Hn Hr; destruct H as [ | | | s j H | s t H | w H | s l H | w H | s l H].
  all: try reflexivity.
  all: try (exfalso; cbn in Hn; lia).
  1, 3: destruct (number_head _ _ _ H) as (c & r' & -> & D); destruct (digit_dispatch c D) as (A & B & C & E);
    cbn [app parse_value]; rewrite A, B, C, E;
    change (c :: r' ++ r) with ((c :: r') ++ r); apply number_complete; [exact H|];
    destruct Hr as [Hr|Hr]; [destruct H; contradiction | exact Hr].
  1, 2: change ((34 :: s ++ [34]) ++ r) with (34 :: (s ++ [34]) ++ r); rewrite <- app_assoc; cbn [app parse_value Z.eqb Pos.eqb];
    rewrite (string_complete _ _ H); reflexivity.
  - change ((91 :: w ++ [93]) ++ r) with (91 :: (w ++ [93]) ++ r). rewrite <- app_assoc.
    cbn [app parse_value Z.eqb Pos.eqb]. rewrite skip_ws_app; [reflexivity | exact H | reflexivity].
  - change ((91 :: s ++ [93]) ++ r) with (91 :: (s ++ [93]) ++ r). rewrite <- app_assoc.
    cbn [app parse_value Z.eqb Pos.eqb].
    destruct (elements_head ov s l 93 r H) as (NE & NB).
    destruct (skip_ws (s ++ 93 :: r)) as [|c' r'] eqn:E; [congruence|].
    specialize (NB _ _ eq_refl). destruct (Z.eqb_spec c' 93); [contradiction|].
    rewrite <- E. rewrite (elements_complete ov (parse_value ov d) d s l IH H); [reflexivity | |].
    + intros v Hv. apply nesting_in in Hv. cbn in Hn. lia.
    + rewrite app_length. cbn [List.length].
      assert (List.length l <= List.length s)%nat; [|lia].
      apply (separated_length (padded (denotes ov))); [|exact H].
      intros s0 a0. apply padded_nonempty. apply denotes_nonempty.
  - change ((123 :: w ++ [125]) ++ r) with (123 :: (w ++ [125]) ++ r). rewrite <- app_assoc.
    cbn [app parse_value Z.eqb Pos.eqb]. rewrite skip_ws_app; [reflexivity | exact H | reflexivity].
  - change ((123 :: s ++ [125]) ++ r) with (123 :: (s ++ [125]) ++ r). rewrite <- app_assoc.
    cbn [app parse_value Z.eqb Pos.eqb].
    destruct (members_head ov s l 125 r H) as (NE & NB).
    destruct (skip_ws (s ++ 125 :: r)) as [|c' r'] eqn:E; [congruence|].
    specialize (NB _ _ eq_refl). destruct (Z.eqb_spec c' 125); [contradiction|].
    rewrite <- E. rewrite (members_complete ov (parse_value ov d) d s l IH H); [reflexivity | |].
    + intros k v Hv. apply nesting_in_obj in Hv. cbn in Hn. lia.
    + rewrite app_length. cbn [List.length].
      assert (List.length l <= List.length s)%nat; [|lia].
      apply (separated_length (padded (member (denotes ov)))); [|exact H].
      intros s0 a0. apply padded_nonempty. intros s1 a1 M. destruct M. discriminate.
Qed.

(** ** Soundness *)

Definition sound (ov : text -> bool) (p : text -> option (json * text)) (n : nat) : Prop :=
  forall s j r, p s = Some (j, r) -> exists t, s = t ++ r /\ denotes ov t j /\ (nesting j <= n)%nat.

Lemma elements_sound ov p n : sound ov p n -> forall fuel w s l r, blank w -> parse_elements p fuel s = Some (l, r) ->
  exists t, w ++ s = t ++ 93 :: r /\ separated (padded (denotes ov)) t l /\ forall v, In v l -> (nesting v <= n)%nat.
Proof.
  intros Hp. induction fuel as [|fuel IH]; intros w s l r Hw H; [discriminate|]. cbn [parse_elements] in H.
  destruct (p s) as [[v r1]|] eqn:E; [|discriminate]. destruct (Hp _ _ _ E) as (t & -> & Ht & Nt).
  destruct (skip_ws_spec r1) as (w1 & E1 & Hw1 & _).
  destruct (skip_ws r1) as [|c r2]; [discriminate|].
  destruct (Z.eqb_spec c 44) as [->|N44].
  - destruct (parse_elements p fuel (skip_ws r2)) as [[l' r3]|] eqn:E2; [|discriminate].
    inversion H; subst l r. destruct (skip_ws_spec r2) as (w2 & E3 & Hw2 & _).
    destruct (IH w2 _ _ _ Hw2 E2) as (t2 & E4 & S2 & N2). rewrite <- E3 in E4.
    exists ((w ++ t ++ w1) ++ 44 :: t2). split.
    { rewrite E1, E4. repeat rewrite <- app_assoc. reflexivity. }
    split; [apply sep_more; [now constructor | exact S2]|].
    intros v' [->|Hv]; auto.
  - destruct (Z.eqb_spec c 93) as [->|N93]; [|discriminate]. inversion H; subst l r.
    exists (w ++ t ++ w1). split; [rewrite E1; repeat rewrite <- app_assoc; reflexivity|].
    split; [apply sep_one; now constructor|]. intros v' [->|[]]; auto.
Qed.

Lemma members_sound ov p n : sound ov p n -> forall fuel w s l r, blank w -> parse_members p fuel s = Some (l, r) ->
  exists t, w ++ s = t ++ 125 :: r /\ separated (padded (member (denotes ov))) t l /\
            forall k v, In (k, v) l -> (nesting v <= n)%nat.
Proof.
  intros Hp. induction fuel as [|fuel IH]; intros w s l r Hw H; [discriminate|]. cbn [parse_members] in H.
  destruct s as [|q s1]; [discriminate|]. destruct (Z.eqb_spec q 34) as [->|]; [|discriminate].
  destruct (parse_chars s1) as [[k s2]|] eqn:Ek; [|discriminate]. apply string_sound in Ek as (kt & -> & Hk).
  destruct (skip_ws_spec s2) as (wa & Ea & Hwa & _). destruct (skip_ws s2) as [|co s3]; [discriminate|].
  destruct (Z.eqb_spec co 58) as [->|]; [|discriminate].
  destruct (skip_ws_spec s3) as (wb & Eb & Hwb & _).
  destruct (p (skip_ws s3)) as [[v r1]|] eqn:E; [|discriminate]. destruct (Hp _ _ _ E) as (t & Et & Ht & Nt).
  destruct (skip_ws_spec r1) as (w1 & E1 & Hw1 & _).
  destruct (skip_ws r1) as [|c r2]; [discriminate|].
  assert (Mem : padded (member (denotes ov)) (w ++ (34 :: kt ++ 34 :: wa ++ 58 :: (wb ++ t ++ w1)) ++ []) (k, v)).
  { constructor; [exact Hw | | constructor]. constructor; [exact Hk | exact Hwa|]. now constructor. }
  rewrite app_nil_r in Mem.
  assert (Eq : 34 :: kt ++ 34 :: s2 = (34 :: kt ++ 34 :: wa ++ 58 :: (wb ++ t ++ w1)) ++ c :: r2).
  { rewrite Ea, Eb, Et, E1. cbn [app]. repeat (rewrite <- app_assoc; cbn [app]). reflexivity. }
  rewrite Eq. clear Eq. set (m := 34 :: kt ++ 34 :: wa ++ 58 :: (wb ++ t ++ w1)) in *. clearbody m.
  destruct (Z.eqb_spec c 44) as [->|N44].
  - destruct (parse_members p fuel (skip_ws r2)) as [[l' r3]|] eqn:E2; [|discriminate].
    inversion H; subst l r. destruct (skip_ws_spec r2) as (w2 & E3 & Hw2 & _).
    destruct (IH w2 _ _ _ Hw2 E2) as (t2 & E4 & S2 & N2). rewrite <- E3 in E4.
    exists ((w ++ m) ++ 44 :: t2). split.
    { rewrite E4. repeat (rewrite <- app_assoc; cbn [app]). reflexivity. }
    split; [apply sep_more; [exact Mem | exact S2]|].
    intros k' v' [X|Hv]; [inversion X; subst; auto | eauto].
  - destruct (Z.eqb_spec c 125) as [->|N125]; [|discriminate]. inversion H; subst l r.
    exists (w ++ m). split; [rewrite <- app_assoc; reflexivity|].
    split; [apply sep_one; exact Mem|]. intros k' v' [X|[]]. inversion X; subst; auto.
Qed.

Lemma strip_sound p : forall s r, strip p s = Some r -> s = p ++ r.
Proof.
  induction p as [|c p IH]; intros s r H; cbn in H; [now inversion H|].
  destruct s as [|d s]; [discriminate|]. destruct (Z.eqb_spec c d) as [->|]; [|discriminate].
  cbn. f_equal. now apply IH.
Qed.

Lemma word_sound p v s j r : parse_word p v s = Some (j, r) -> s = p ++ r /\ j = v.
Proof.
  unfold parse_word. destruct (strip p s) as [r'|] eqn:E; [|discriminate]. intros H; inversion H; subst.
  split; [now apply strip_sound | reflexivity].
Qed.

Lemma value_sound ov d : sound ov (parse_value ov d) d.
Proof.
  assert (Base : forall n c s j r, (nesting j = 0)%nat ->
    (forall t, denotes ov t j -> c :: s = t ++ r -> exists t, c :: s = t ++ r /\ denotes ov t j /\ (nesting j <= n)%nat))
    by (intros n c s j r Hn t Ht E; exists t; repeat split; auto; lia).
  induction d as [|d IH]; intros s j r H; (destruct s as [|c s]; [discriminate|]); cbn [parse_value] in H.
  all: destruct (Z.eqb_spec c 34) as [->|N34];
    [destruct (parse_chars s) as [[t r']|] eqn:E; [|discriminate]; inversion H; subst j r';
     apply string_sound in E as (p & -> & Hp); exists (34 :: p ++ [34]);
     split; [cbn; now rewrite <- app_assoc|]; split; [now constructor | cbn; lia] |].
  all: destruct (Z.eqb_spec c 91) as [->|N91]; [try discriminate|].
  all: try (destruct (Z.eqb_spec c 123) as [->|N123]; [try discriminate|]).
  all: try (destruct ((c =? 45) || is_digit c) eqn:D;
    [apply number_sound in H as (p & E & Hp); exists p; split; [exact E|]; split; [now constructor|]; destruct Hp; cbn; lia|]).
  all: try (destruct (Z.eqb_spec c 110) as [->|N110];
    [apply word_sound in H as (-> & ->); exists [110; 117; 108; 108]; repeat split; [constructor | cbn; lia]|]).
  all: try (destruct (Z.eqb_spec c 116) as [->|N116];
    [apply word_sound in H as (-> & ->); exists [116; 114; 117; 101]; repeat split; [constructor | cbn; lia]|]).
  all: try (destruct (Z.eqb_spec c 102) as [->|N102];
    [apply word_sound in H as (-> & ->); exists [102; 97; 108; 115; 101]; repeat split; [constructor | cbn; lia]|discriminate]).
  - destruct (skip_ws_spec s) as (w & Ew & Hw & _).
    destruct (skip_ws s) as [|c' r'] eqn:Es; [discriminate|].
    destruct (Z.eqb_spec c' 93) as [->|N93].
    + inversion H; subst j r'. exists (91 :: w ++ [93]). split; [rewrite Ew; cbn; now rewrite <- app_assoc|].
      split; [now constructor | cbn; lia].
    + destruct (parse_elements (parse_value ov d) (List.length s) (c' :: r')) as [[l r'']|] eqn:E; [|discriminate].
      inversion H; subst j r''. destruct (elements_sound ov _ d IH _ w _ _ _ Hw E) as (t & Et & St & Nt).
      exists (91 :: t ++ [93]). split; [rewrite Ew, Et; cbn; now rewrite <- app_assoc|].
      split; [now constructor | now apply nesting_arr].
  - destruct (skip_ws_spec s) as (w & Ew & Hw & _).
    destruct (skip_ws s) as [|c' r'] eqn:Es; [discriminate|].
    destruct (Z.eqb_spec c' 125) as [->|N125].
    + inversion H; subst j r'. exists (123 :: w ++ [125]). split; [rewrite Ew; cbn; now rewrite <- app_assoc|].
      split; [now constructor | cbn; lia].
    + destruct (parse_members (parse_value ov d) (List.length s) (c' :: r')) as [[l r'']|] eqn:E; [|discriminate].
      inversion H; subst j r''. destruct (members_sound ov _ d IH _ w _ _ _ Hw E) as (t & Et & St & Nt).
      exists (123 :: t ++ [125]). split; [rewrite Ew, Et; cbn; now rewrite <- app_assoc|].
      split; [now constructor | now apply nesting_obj].
Qed.
