(** Which error is reported for text that is no integer of its type. *)
From Coq Require Import ZArith List Bool Lia.
From Verif Require Import P_Base M_Text S_Text P_Text.
Import ListNotations.
Open Scope Z_scope.

Definition overflow (e : int_error) : bool := match e with IntPosOverflow | IntNegOverflow => true | _ => false end.

Lemma digits_app lo hi neg t e s : forall acc, parse_digits lo hi neg acc s = Err e -> parse_digits lo hi neg acc (s ++ t) = Err e.
Proof.
  induction s as [|c s IH]; intros acc H; [discriminate|]. cbn [parse_digits app] in *. destruct (is_digit c); [|exact H].
  destruct (in_range lo hi (acc * 10)); [|exact H]. destruct (in_range lo hi (if neg then acc * 10 - (c - 48) else acc * 10 + (c - 48))); [apply IH; exact H|exact H].
Qed.

Lemma digits_cut lo hi neg e s : forall acc, parse_digits lo hi neg acc s = Err e -> overflow e = true ->
  exists p rest, s = p ++ rest /\ p <> [] /\ Forall digit p /\ parse_digits lo hi neg acc p = Err e.
Proof.
  induction s as [|c s IH]; intros acc H O; [discriminate|]. cbn [parse_digits] in H. destruct (is_digit c) eqn:D; [|injection H as <-; discriminate].
  assert (DC : digit c) by (apply is_digit_iff; exact D).
  destruct (in_range lo hi (acc * 10)) eqn:R1.
  - destruct (in_range lo hi (if neg then acc * 10 - (c - 48) else acc * 10 + (c - 48))) eqn:R2.
    + destruct (IH _ H O) as (p & rest & -> & N & F & P). exists (c :: p), rest. repeat split; [discriminate|constructor; auto|]. cbn [parse_digits]. rewrite D, R1, R2. exact P.
    + exists [c], s. repeat split; [discriminate|constructor; auto|]. cbn [parse_digits]. rewrite D, R1, R2. exact H.
  - exists [c], s. repeat split; [discriminate|constructor; auto|]. cbn [parse_digits]. rewrite D, R1. exact H.
Qed.

Lemma int_app lo hi p rest e : overflow e = true -> parse_int lo hi p = Err e -> parse_int lo hi (p ++ rest) = Err e.
Proof.
  intros O H. destruct p as [|c p]; [injection H as <-; discriminate|]. cbn [parse_int app] in *.
  destruct ((c =? 43) || (c =? 45) && (lo <? 0)).
  - destruct p as [|d p]; [injection H as <-; discriminate|]. cbn [app]. exact (digits_app lo hi _ rest e (d :: p) 0 H).
  - exact (digits_app lo hi _ rest e (c :: p) 0 H).
Qed.

Lemma int_cut lo hi s e : parse_int lo hi s = Err e -> overflow e = true ->
  exists p rest z, s = p ++ rest /\ int_text (sgn lo) p z /\ parse_int lo hi p = Err e.
Proof.
  intros H O. destruct s as [|c s]; [injection H as <-; discriminate|]. cbn [parse_int] in H.
  destruct ((c =? 43) || (c =? 45) && (lo <? 0)) eqn:S.
  - destruct s as [|d s]; [injection H as <-; discriminate|]. destruct (digits_cut _ _ _ _ _ _ H O) as (p & rest & E & N & F & P).
    exists (c :: p), rest. assert (NUM : numeral p (val 0 p)) by (apply numeral_val; auto).
    assert (PI : parse_int lo hi (c :: p) = Err e) by (cbn [parse_int]; rewrite S; destruct p; [congruence|exact P]).
    destruct (Z.eqb_spec c 43) as [->|C].
    + exists (val 0 p). split; [rewrite E; reflexivity|]. split; [right; left; eauto|exact PI].
    + exists (- val 0 p). split; [rewrite E; reflexivity|]. split; [|exact PI]. right; right. cbn [orb] in S. apply andb_true_iff in S as [C' L].
      apply Z.eqb_eq in C' as ->. split; [exact L|]. exists p. rewrite Z.opp_involutive. auto.
  - destruct (digits_cut _ _ _ _ _ _ H O) as (p & rest & E & N & F & P). exists p, rest, (val 0 p). split; [exact E|]. split; [left; apply numeral_val; auto|].
    destruct p as [|c' p]; [congruence|]. injection E as -> _. cbn [parse_int]. rewrite S. exact P.
Qed.

Lemma int_pos lo hi s : lo <= 0 <= hi ->
  (parse_int lo hi s = Err IntPosOverflow <-> exists p rest z, s = p ++ rest /\ int_text (sgn lo) p z /\ hi < z).
Proof.
  intros R. split.
  - intros H. destruct (int_cut _ _ _ _ H eq_refl) as (p & rest & z & -> & T & P). exists p, rest, z. split; [reflexivity|]. split; [exact T|].
    destruct (parse_int_spec lo hi p R) as [A [_ [C _]]]. destruct (Z_lt_le_dec hi z) as [L|L]; [exact L|].
    destruct (Z_lt_le_dec z lo) as [L'|L']; [|rewrite (A z T ltac:(lia)) in P; discriminate].
    destruct (sgn lo) eqn:SG; [rewrite (C z T L' eq_refl) in P; discriminate|]. apply int_text_unsigned_nonneg in T. unfold sgn in SG. lia.
  - intros (p & rest & z & -> & T & L). apply int_app; [reflexivity|]. destruct (parse_int_spec lo hi p R) as [_ [B _]]. exact (B z T L).
Qed.

Lemma int_neg lo hi s : lo <= 0 <= hi ->
  (parse_int lo hi s = Err IntNegOverflow <-> exists p rest z, s = p ++ rest /\ int_text (sgn lo) p z /\ z < lo).
Proof.
  intros R. assert (SG : forall p z, int_text (sgn lo) p z -> z < lo -> sgn lo = true).
  { intros p z T L. destruct (sgn lo) eqn:SG; [reflexivity|]. apply int_text_unsigned_nonneg in T. unfold sgn in SG. lia. }
  split.
  - intros H. destruct (int_cut _ _ _ _ H eq_refl) as (p & rest & z & -> & T & P). exists p, rest, z. split; [reflexivity|]. split; [exact T|].
    destruct (parse_int_spec lo hi p R) as [A [B _]]. destruct (Z_lt_le_dec z lo) as [L|L]; [exact L|].
    destruct (Z_lt_le_dec hi z) as [L'|L']; [rewrite (B z T L') in P; discriminate|rewrite (A z T ltac:(lia)) in P; discriminate].
  - intros (p & rest & z & -> & T & L). apply int_app; [reflexivity|]. destruct (parse_int_spec lo hi p R) as [_ [_ [C _]]]. exact (C z T L (SG _ _ T L)).
Qed.

Lemma int_empty lo hi s : parse_int lo hi s = Err IntEmpty <-> s = [].
Proof.
  split; [|intros ->; reflexivity]. destruct s as [|c s]; [reflexivity|]. cbn [parse_int].
  assert (D : forall neg s acc, parse_digits lo hi neg acc s <> Err IntEmpty).
  { intros neg s'. induction s' as [|d s' IH]; intros acc; [discriminate|]. cbn [parse_digits]. destruct (is_digit d); [|discriminate].
    destruct (in_range lo hi (acc * 10)); [|destruct neg; discriminate]. destruct neg.
    - destruct (in_range lo hi (acc * 10 - (d - 48))); [apply IH|discriminate].
    - destruct (in_range lo hi (acc * 10 + (d - 48))); [apply IH|discriminate]. }
  destruct ((c =? 43) || (c =? 45) && (lo <? 0)); [destruct s; [discriminate|]|]; intros H; exfalso; exact (D _ _ _ H).
Qed.

(** all four at once, for text that is not empty *)
Lemma int_errors lo hi s : lo <= 0 <= hi -> s <> [] -> forall e,
  parse_int lo hi s = Err e <->
  refused (sgn lo) lo hi s e.
Proof.
  intros R N e. unfold refused. destruct e.
  - rewrite int_empty. tauto.
  - split.
    + intros H. split.
      * intros z T. destruct (parse_int_spec lo hi s R) as [A _]. destruct (Z_lt_le_dec hi z) as [L|L].
        { rewrite (proj2 (int_pos lo hi s R)) in H; [discriminate|]. exists s, [], z. rewrite app_nil_r. auto. }
        destruct (Z_lt_le_dec z lo) as [L'|L']; [|rewrite (A z T ltac:(lia)) in H; discriminate].
        rewrite (proj2 (int_neg lo hi s R)) in H; [discriminate|]. exists s, [], z. rewrite app_nil_r. auto.
      * intros p rest z E T. destruct (Z_lt_le_dec hi z) as [L|L]; [rewrite (proj2 (int_pos lo hi s R)) in H; [discriminate|eauto 6]|].
        destruct (Z_lt_le_dec z lo) as [L'|L']; [|lia]. rewrite (proj2 (int_neg lo hi s R)) in H; [discriminate|eauto 6].
    + intros [A B]. destruct (parse_int lo hi s) as [z|e] eqn:P; [exfalso; apply (A z); apply (parse_int_iff lo hi s z R); exact P|].
      destruct e; [apply int_empty in P; congruence|reflexivity| |].
      * apply int_pos in P as (p & rest & z & E & T & L); [|exact R]. specialize (B p rest z E T). lia.
      * apply int_neg in P as (p & rest & z & E & T & L); [|exact R]. specialize (B p rest z E T). lia.
  - exact (int_pos lo hi s R).
  - exact (int_neg lo hi s R).
Qed.
