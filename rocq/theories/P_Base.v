(** Tactics and lemmas shared by the proofs. *)
From Coq Require Export ZArith List Bool Lia.
From Coq Require Export ZifyBool ZifyNat.
From Verif Require Export Base.
Export ListNotations.
Open Scope Z_scope.

Ltac Zify.zify_post_hook ::= Z.div_mod_to_equations.

Ltac inv H := inversion H; clear H; subst.

Lemma bind_ret {A B} (o : outcome A) (k : A -> outcome B) b :
  bind o k = Ret b -> exists a, o = Ret a /\ k a = Ret b.
Proof. destruct o; cbn; intros H; try discriminate; eauto. Qed.

Lemma ret_inj {A} (a b : A) : Ret a = Ret b -> a = b.
Proof. intros H; injection H; auto. Qed.
Lemma ok_inj {A E} (a b : A) : @Ok A E a = Ok b -> a = b.
Proof. intros H; injection H; auto. Qed.

Ltac bind_inv :=
  repeat match goal with
  | H : bind _ _ = Ret _ |- _ =>
      let a := fresh "r" in let Ha := fresh "Hr" in
      apply bind_ret in H; destruct H as [a [Ha H]]
  end.

Lemma chk_ret lo hi z : lo <= z <= hi -> chk lo hi z = Ret z.
Proof. intros H; unfold chk, in_range. destruct (Z.leb_spec lo z); destruct (Z.leb_spec z hi); cbn; auto; lia. Qed.

Lemma chk_inv lo hi z r : chk lo hi z = Ret r -> r = z /\ lo <= z <= hi.
Proof.
  unfold chk, in_range. destruct (Z.leb_spec lo z); destruct (Z.leb_spec z hi); cbn; intros E; inv E; lia.
Qed.

Lemma chk_panic lo hi z : z < lo \/ hi < z -> chk lo hi z = Panic.
Proof. intros H; unfold chk, in_range. destruct (Z.leb_spec lo z); destruct (Z.leb_spec z hi); cbn; auto; lia. Qed.

Lemma chk_not_hang lo hi z : chk lo hi z <> Hang.
Proof. unfold chk. destruct (in_range lo hi z); discriminate. Qed.

Lemma as_u32_id z : u32 z -> as_u32 z = z.
Proof. unfold u32, as_u32, u32_max; intros; rewrite Z.mod_small; lia. Qed.
Lemma as_u16_id z : u16 z -> as_u16 z = z.
Proof. unfold u16, as_u16, u16_max; intros; rewrite Z.mod_small; lia. Qed.
Lemma as_u8_id z : u8 z -> as_u8 z = z.
Proof. unfold u8, as_u8, u8_max; intros; rewrite Z.mod_small; lia. Qed.
Lemma as_i8_id z : i8 z -> as_i8 z = z.
Proof. unfold i8, as_i8; intros; rewrite Z.mod_small; lia. Qed.
Lemma as_u32_range z : u32 (as_u32 z).
Proof. unfold u32, as_u32, u32_max. lia. Qed.

(** Lifting of a complete enumeration of an integer range. *)
Fixpoint zrange (lo : Z) (n : nat) : list Z :=
  match n with O => [] | S n' => lo :: zrange (lo + 1) n' end.

Lemma zrange_In n : forall lo z, In z (zrange lo n) <-> lo <= z < lo + Z.of_nat n.
Proof.
  induction n as [|n IH]; intros lo z; cbn [zrange In].
  - lia.
  - rewrite IH. lia.
Qed.

Lemma zrange_forall (f : Z -> bool) lo n :
  forallb f (zrange lo n) = true -> forall z, lo <= z < lo + Z.of_nat n -> f z = true.
Proof. intros H z Hz. rewrite forallb_forall in H. apply H, zrange_In, Hz. Qed.

