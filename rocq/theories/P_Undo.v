From Verif Require Import P_Base M_Undo S_Undo.
Open Scope nat_scope.

Section Undo.
Variable U : Type.

Definition us_inv (s : undo_store U) : Prop :=
  us_index s <= length (us_store s) /\ length (us_store s) <= Nat.max (us_capacity s) 1.

Definition us_abs (s : undo_store U) : stacks U :=
  mkSt (Nat.max (us_capacity s) 1) (skipn (us_index s) (us_store s))
       (rev (firstn (us_index s) (us_store s))) (us_freezed s).

Lemma removelast_firstn_all (l : list U) : removelast l = firstn (length l - 1) l.
Proof.
  induction l as [|x l IH]; auto. destruct l as [|y l]; auto.
  change (removelast (x :: y :: l)) with (x :: removelast (y :: l)). rewrite IH. cbn [length].
  replace (S (S (length l)) - 1) with (S (S (length l) - 1)) by lia. reflexivity.
Qed.

Lemma add_store (st : list U) cap u : length st <= Nat.max cap 1 ->
  u :: (if Nat.leb cap (length st) then removelast st else st) = firstn (Nat.max cap 1) (u :: st).
Proof.
  intros H. replace (Nat.max cap 1) with (S (Nat.max cap 1 - 1)) by lia. cbn [firstn]. f_equal.
  destruct (Nat.leb_spec cap (length st)).
  - rewrite removelast_firstn_all. destruct cap; cbn in *; [|f_equal; lia].
    destruct st as [|x [|y st]]; cbn in *; auto; lia.
  - rewrite firstn_all2; auto; lia.
Qed.

Lemma skipn_nth (l : list U) i x : nth_error l i = Some x -> skipn i l = x :: skipn (S i) l.
Proof.
  revert i; induction l as [|y l IH]; intros [|i] H; cbn in *; try discriminate.
  - inv H; auto.
  - rewrite (IH _ H). reflexivity.
Qed.

Lemma firstn_nth (l : list U) i x : nth_error l i = Some x -> firstn (S i) l = firstn i l ++ [x].
Proof.
  revert i; induction l as [|y l IH]; intros [|i] H; cbn [firstn nth_error app] in *; try discriminate.
  - inv H; auto.
  - f_equal. apply IH; auto.
Qed.

Lemma obs_abs s r : us_inv s -> (r, us_len s, us_can_undo s, us_can_redo s) = st_obs (us_abs s) r.
Proof.
  intros [Hi Hc]. unfold st_obs, us_abs, us_len, us_can_undo, us_can_redo; cbn [st_undo st_redo].
  assert (L1 : length (skipn (us_index s) (us_store s)) = length (us_store s) - us_index s) by apply skipn_length.
  assert (L2 : length (rev (firstn (us_index s) (us_store s))) = us_index s) by (rewrite rev_length, firstn_length; lia).
  rewrite L1, L2. f_equal; [f_equal; [f_equal; lia|]|].
  - destruct (skipn (us_index s) (us_store s)); cbn in L1; destruct (Nat.ltb_spec (us_index s) (length (us_store s))); auto; lia.
  - destruct (rev (firstn (us_index s) (us_store s))); cbn in L2; destruct (Nat.eqb_spec (us_index s) 0); cbn; auto; lia.
Qed.

Lemma us_step_refines s o : us_inv s ->
  exists s' r, us_step s o = Ret (s', st_obs (us_abs s') r) /\ us_inv s' /\ st_step (us_abs s) o = (us_abs s', r).
Proof.
  intros HI. pose proof HI as [Hi Hc]. destruct o as [u| | |b]; cbn [us_step st_step].
  - unfold us_add. cbn [us_abs st_frozen]. destruct (us_freezed s) eqn:Ef.
    + cbn [bind]. exists s, None. rewrite obs_abs by auto. split; [reflexivity|]. split; [exact HI|reflexivity].
    + assert (E : (if Nat.eqb (us_index s) 0 then Ret (us_store s)
         else if Nat.ltb (length (us_store s)) (us_index s) then Panic
         else Ret (skipn (us_index s) (us_store s))) = Ret (skipn (us_index s) (us_store s))).
      { destruct (Nat.eqb_spec (us_index s) 0) as [->|]; [reflexivity|].
        destruct (Nat.ltb_spec (length (us_store s)) (us_index s)); [lia|reflexivity]. }
      rewrite E. cbn [bind].
      set (st := skipn (us_index s) (us_store s)).
      assert (Hl : length st <= Nat.max (us_capacity s) 1) by (unfold st; rewrite skipn_length; lia).
      eexists (mkUS _ _ 0 false), None. rewrite (add_store st _ u Hl).
      set (st2 := firstn (Nat.max (us_capacity s) 1) (u :: st)).
      assert (HI' : us_inv (mkUS st2 (us_capacity s) 0 false)).
      { split; cbn; [lia|]. unfold st2. rewrite firstn_length. lia. }
      rewrite obs_abs by auto. split; [reflexivity|]. split; [exact HI'|].
      unfold us_abs; cbn. reflexivity.
  - unfold us_undo. destruct (nth_error (us_store s) (us_index s)) as [x|] eqn:En.
    + assert (us_index s < length (us_store s)) by (apply nth_error_Some; congruence).
      eexists _, _. rewrite obs_abs. { split; [reflexivity|]. split; [split; cbn; lia|].
        unfold us_abs; cbn [us_index us_store us_capacity us_freezed st_undo st_redo st_limit st_frozen].
        rewrite (skipn_nth _ _ _ En), (firstn_nth _ _ _ En), rev_app_distr. reflexivity. }
      split; cbn; lia.
    + exists s, None. rewrite obs_abs by auto. split; [reflexivity|]. split; [exact HI|].
      apply nth_error_None in En. unfold us_abs; cbn [st_undo]. rewrite skipn_all2 by lia. reflexivity.
  - unfold us_redo. destruct (us_index s) as [|i] eqn:Ei.
    + exists s, None. rewrite obs_abs by auto. split; [reflexivity|]. split; [exact HI|].
      unfold us_abs; rewrite Ei; reflexivity.
    + destruct (nth_error (us_store s) i) as [x|] eqn:En.
      2: { apply nth_error_None in En. lia. }
      eexists _, _. rewrite obs_abs. { split; [reflexivity|]. split; [split; cbn; lia|].
        unfold us_abs; rewrite Ei; cbn [us_index us_store us_capacity us_freezed st_undo st_redo st_limit st_frozen].
        rewrite (firstn_nth _ _ _ En), rev_app_distr, (skipn_nth _ i x En). reflexivity. }
      split; cbn; lia.
  - eexists _, _. rewrite obs_abs. { split; [reflexivity|]. split; [split; cbn; lia|]. reflexivity. } split; cbn; lia.
Qed.

Lemma us_run_refines os : forall s, us_inv s ->
  exists s' xs, us_run s os = Ret (s', xs) /\ st_run (us_abs s) os = (us_abs s', xs).
Proof.
  induction os as [|o os IH]; intros s HI; cbn [us_run st_run].
  - eauto.
  - destruct (us_step_refines s o HI) as (s1 & r & -> & HI1 & ->). cbn [bind].
    destruct (IH s1 HI1) as (s2 & xs & -> & ->). cbn [bind]. eauto.
Qed.

Lemma us_new_refines cap os :
  exists s xs a, us_run (us_new U cap) os = Ret (s, xs) /\ st_run (st_new (Nat.max cap 1)) os = (a, xs).
Proof.
  destruct (us_run_refines os (us_new U cap)) as (s & xs & H1 & H2).
  - split; cbn; lia.
  - exists s, xs, (us_abs s). auto.
Qed.
End Undo.

Section Fly.
Variable T : Type.
Variable T_eqb : T -> T -> bool.
Hypothesis EQ : equivalence T_eqb.

Lemma find_congr (p : list (ref T)) a b : T_eqb (ref_val a) (ref_val b) = true ->
  find (fun q => T_eqb (ref_val q) (ref_val a)) p = find (fun q => T_eqb (ref_val q) (ref_val b)) p.
Proof.
  intros H. destruct EQ as (R & S & Tr). induction p as [|x p IH]; cbn; auto.
  destruct (T_eqb (ref_val x) (ref_val a)) eqn:E1, (T_eqb (ref_val x) (ref_val b)) eqn:E2; auto.
  - rewrite (Tr _ _ _ E1 H) in E2; discriminate.
  - apply S in H. rewrite (Tr _ _ _ E2 H) in E1; discriminate.
Qed.

(** A pool answers like a list of earlier calls. *)
Definition pool_like (p : pool T) (hist : list (ref T)) : Prop :=
  forall r, find (fun q => T_eqb (ref_val q) (ref_val r)) p = find (fun q => T_eqb (ref_val q) (ref_val r)) hist.

Lemma find_app_l (f : ref T -> bool) l l' x : find f l = Some x -> find f (l ++ l') = Some x.
Proof. induction l as [|y l IH]; cbn; try discriminate. destruct (f y); auto. Qed.
Lemma find_app_r (f : ref T -> bool) l l' : find f l = None -> find f (l ++ l') = find f l'.
Proof. induction l as [|y l IH]; cbn; auto. destruct (f y); auto; discriminate. Qed.

Lemma fw_run_spec rs : forall p hist, pool_like p hist ->
  fw_run T_eqb p rs = map (fun r => match find (fun q => same T_eqb q r) (hist ++ rs) with Some x => x | None => r end) rs.
Proof.
  destruct EQ as (R & S & Tr).
  induction rs as [|r rs IH]; intros p hist HP; cbn [fw_run]; auto.
  unfold fw_intern. pose proof (HP r) as Hr. unfold same in *.
  destruct (find (fun q => T_eqb (ref_val q) (ref_val r)) p) as [q|] eqn:E.
  - cbn [map]. rewrite (find_app_l _ _ (r :: rs) _ (eq_sym Hr)). f_equal.
    rewrite (IH p (hist ++ [r])).
    + rewrite <- app_assoc. reflexivity.
    + intros x. rewrite HP. destruct (find (fun y => T_eqb (ref_val y) (ref_val x)) hist) as [y|] eqn:Ex.
      * rewrite (find_app_l _ _ [r] _ Ex). reflexivity.
      * rewrite (find_app_r _ _ [r] Ex). cbn. destruct (T_eqb (ref_val r) (ref_val x)) eqn:Erx; auto.
        rewrite (find_congr _ _ _ Erx) in Hr. congruence.
  - cbn [map]. rewrite (find_app_r _ _ (r :: rs) (eq_sym Hr)). cbn [find]. rewrite R. f_equal.
    rewrite (IH (r :: p) (hist ++ [r])).
    + rewrite <- app_assoc. reflexivity.
    + intros x. cbn [find]. destruct (T_eqb (ref_val r) (ref_val x)) eqn:Erx.
      * rewrite (find_app_r _ _ [r]); [cbn; rewrite Erx; auto|]. rewrite <- (find_congr _ _ _ Erx). congruence.
      * rewrite HP. destruct (find (fun y => T_eqb (ref_val y) (ref_val x)) hist) as [y|] eqn:Ex.
        -- rewrite (find_app_l _ _ [r] _ Ex). reflexivity.
        -- rewrite (find_app_r _ _ [r] Ex). cbn. rewrite Erx. reflexivity.
Qed.

Lemma fw_first rs i r : nth_error rs i = Some r ->
  nth_error (fw_run T_eqb fw_new rs) i = find (fun q => same T_eqb q r) rs.
Proof.
  intros H. rewrite (fw_run_spec rs fw_new []) by (intros x; reflexivity).
  rewrite nth_error_map, H. cbn [option_map app].
  destruct (find (fun q => same T_eqb q r) rs) eqn:E; auto.
  exfalso. pose proof (find_none _ _ E r (nth_error_In _ _ H)) as N. unfold same in N.
  destruct EQ as (R & _ & _). rewrite R in N. discriminate.
Qed.

Lemma fw_canonical rs i j r s x y :
  nth_error rs i = Some r -> nth_error rs j = Some s ->
  nth_error (fw_run T_eqb fw_new rs) i = Some x -> nth_error (fw_run T_eqb fw_new rs) j = Some y ->
  T_eqb (ref_val x) (ref_val r) = true /\ In x rs /\
  (T_eqb (ref_val r) (ref_val s) = true -> x = y) /\
  (T_eqb (ref_val r) (ref_val s) = false -> T_eqb (ref_val x) (ref_val y) = false).
Proof.
  intros Hr Hs Hx Hy. rewrite (fw_first _ _ _ Hr) in Hx. rewrite (fw_first _ _ _ Hs) in Hy.
  pose proof (find_some _ _ Hx) as [Ix Ex]. pose proof (find_some _ _ Hy) as [Iy Ey]. unfold same in *.
  destruct EQ as (R & S & Tr).
  split; [exact Ex|]. split; [exact Ix|]. split.
  - intros H. rewrite (find_congr _ _ _ H) in Hx. congruence.
  - intros H. destruct (T_eqb (ref_val x) (ref_val y)) eqn:E; auto.
    rewrite <- H. symmetry. eapply Tr; [apply S; exact Ex|]. eapply Tr; [exact E|exact Ey].
Qed.

(** later calls never change earlier answers *)
Lemma fw_run_app rs rs' : firstn (length rs) (fw_run T_eqb fw_new (rs ++ rs')) = fw_run T_eqb fw_new rs.
Proof.
  enough (G : forall p, firstn (length rs) (fw_run T_eqb p (rs ++ rs')) = fw_run T_eqb p rs) by apply G.
  induction rs as [|r rs IH]; intros p; cbn [length firstn app fw_run]; auto.
  destruct (fw_intern T_eqb p r) as [p' x]. cbn. f_equal. apply IH.
Qed.
End Fly.
