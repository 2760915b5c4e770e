(** Lemmas about the containers. *)
From Coq Require Import Sorted Permutation.
From Verif Require Import P_Base M_Store M_Project.
Open Scope Z_scope.

Lemma last_indep {A} (s : list A) x : forall a b, last (x :: s) a = last (x :: s) b.
Proof. revert x. induction s as [|c s IH]; intros x a b; [auto|]. exact (IH c a b). Qed.
Lemma last_cons {A} (s : list A) a b : last (b :: s) a = last s b.
Proof. destruct s as [|c s]; [auto|]. exact (last_indep s c a b). Qed.

Section Store.
Variable V : Type.
Implicit Types (s t l : list (Z * V)) (k x : Z) (v : V).

Definition srt s := StronglySorted (fun a b : Z * V => fst a < fst b) s.

Fixpoint get k s : option V :=
  match s with [] => None | (k', v) :: s' => if k =? k' then Some v else get k s' end.

Lemma srt_cons a s : srt (a :: s) <-> srt s /\ (forall k v, In (k, v) s -> fst a < k).
Proof.
  unfold srt. split.
  - intros H. inv H. split; auto. intros k v I. rewrite Forall_forall in H3. apply (H3 (k, v) I).
  - intros [H1 H2]. constructor; auto. apply Forall_forall. intros [k v] I. cbn. eauto.
Qed.

Lemma get_in k v s : get k s = Some v -> In (k, v) s.
Proof.
  induction s as [|[k' v'] s IH]; cbn; [discriminate|].
  destruct (Z.eqb_spec k k'); intros E; [inv E; auto|auto].
Qed.

Lemma get_none k s : get k s = None <-> ~ In k (map fst s).
Proof.
  induction s as [|[k' v'] s IH]; cbn; [tauto|].
  destruct (Z.eqb_spec k k'); [subst|]; intuition (try discriminate; congruence).
Qed.

Lemma in_keys k v s : In (k, v) s -> In k (map fst s).
Proof. intros. apply in_map_iff. exists (k, v); auto. Qed.

Lemma keys_in k s : In k (map fst s) -> exists v, In (k, v) s.
Proof. rewrite in_map_iff. intros [[k' v] [E I]]. cbn in E; subst. eauto. Qed.

Lemma get_nodup k v s : NoDup (map fst s) -> In (k, v) s -> get k s = Some v.
Proof.
  induction s as [|[k' v'] s IH]; cbn; [tauto|]. intros N [E|I].
  - inv E. rewrite Z.eqb_refl; auto.
  - inv N. destruct (Z.eqb_spec k k'); [subst; exfalso; apply H1; eapply in_keys; eauto|auto].
Qed.

Lemma srt_nodup s : srt s -> NoDup (map fst s).
Proof.
  induction s as [|a s IH]; cbn; [constructor|]. intros H. apply srt_cons in H. destruct H as [H1 H2].
  constructor; auto. intros I. apply keys_in in I. destruct I as [v I]. apply H2 in I. lia.
Qed.

Lemma get_In k v s : srt s -> get k s = Some v <-> In (k, v) s.
Proof. intros H; split; [apply get_in|apply get_nodup, srt_nodup; auto]. Qed.

Lemma srt_ext s : forall t, srt s -> srt t -> (forall k, get k s = get k t) -> s = t.
Proof.
  induction s as [|[k v] s IH]; intros [|[k' v'] t] Hs Ht E; auto.
  - specialize (E k'). cbn in E. rewrite Z.eqb_refl in E. discriminate.
  - specialize (E k). cbn in E. rewrite Z.eqb_refl in E. discriminate.
  - apply srt_cons in Hs, Ht. destruct Hs as [Hs1 Hs2], Ht as [Ht1 Ht2]. cbn [fst] in *.
    assert (k = k').
    { pose proof (E k) as E1. pose proof (E k') as E2. cbn in E1, E2. rewrite Z.eqb_refl in E1, E2.
      destruct (Z.eqb_spec k k'); auto. destruct (Z.eqb_spec k' k); [lia|].
      symmetry in E1. apply get_in, Ht2 in E1. apply get_in, Hs2 in E2. lia. }
    subst k'. assert (v = v').
    { specialize (E k). cbn in E. rewrite Z.eqb_refl in E. congruence. }
    subst v'. f_equal. apply IH; auto. intros x. specialize (E x). cbn in E.
    destruct (Z.eqb_spec x k); auto. subst x.
    destruct (get k s) eqn:G1; [apply get_in, Hs2 in G1; lia|].
    destruct (get k t) eqn:G2; [apply get_in, Ht2 in G2; lia|auto].
Qed.

Lemma s_add_in k v s k' v' : In (k', v') (fst (s_add k v s)) -> (k' = k /\ v' = v) \/ In (k', v') s.
Proof.
  induction s as [|[a b] s IH]; cbn.
  - intros [E|[]]; inv E; auto.
  - destruct (k =? a); [cbn; intros [E|I]; [inv E|]; auto|].
    destruct (k <? a); [cbn; intros [E|[E|I]]; try inv E; auto|].
    destruct (s_add k v s) as [t o] eqn:E; cbn in *. intros [H|H]; [inv H; auto|].
    apply IH in H. tauto.
Qed.

Lemma s_add_sorted k v s : srt s -> srt (fst (s_add k v s)).
Proof.
  induction s as [|[a b] s IH]; cbn; intros H.
  - apply srt_cons; split; [constructor|cbn; tauto].
  - apply srt_cons in H. destruct H as [H1 H2]. cbn in *.
    destruct (Z.eqb_spec k a); [subst; cbn; apply srt_cons; auto|].
    destruct (Z.ltb_spec k a).
    { cbn. apply srt_cons. split; [apply srt_cons; auto|]. intros k' v' [E|I]; [inv E; auto|].
      apply H2 in I. cbn; lia. }
    specialize (IH H1). pose proof (s_add_in k v s) as D.
    destruct (s_add k v s) as [t o] eqn:E; cbn in *. apply srt_cons; split; auto.
    intros k' v' I. cbn. apply D in I. destruct I as [[-> ->]|I]; [lia|eauto].
Qed.

Lemma s_add_get k v s x : srt s -> get x (fst (s_add k v s)) = if x =? k then Some v else get x s.
Proof.
  induction s as [|[a b] s IH]; cbn; intros H.
  - destruct (x =? k); auto.
  - apply srt_cons in H. destruct H as [H1 H2]. cbn in *.
    destruct (Z.eqb_spec k a); [subst; cbn; destruct (x =? a); auto|].
    destruct (Z.ltb_spec k a); [cbn; auto|].
    specialize (IH H1). destruct (s_add k v s) as [t o] eqn:E; cbn in *. rewrite IH.
    destruct (Z.eqb_spec x a); auto. destruct (Z.eqb_spec x k); auto; lia.
Qed.

Lemma s_add_old k v s : srt s -> snd (s_add k v s) = get k s.
Proof.
  induction s as [|[a b] s IH]; cbn; intros H; auto.
  apply srt_cons in H. destruct H as [H1 H2]. cbn in *.
  destruct (Z.eqb_spec k a); [auto|]. destruct (Z.ltb_spec k a).
  - cbn. symmetry. apply get_none. intros I. apply keys_in in I. destruct I as [w I].
    apply H2 in I. lia.
  - specialize (IH H1). destruct (s_add k v s); auto.
Qed.

Lemma s_remove_in k s k' v' : In (k', v') (s_remove k s) -> In (k', v') s.
Proof.
  induction s as [|[a b] s IH]; cbn; [tauto|]. destruct (k =? a); cbn; tauto.
Qed.

Lemma s_remove_sorted k s : srt s -> srt (s_remove k s).
Proof.
  induction s as [|[a b] s IH]; cbn; intros H; auto.
  apply srt_cons in H. destruct H as [H1 H2]. destruct (k =? a); auto.
  apply srt_cons. split; auto. intros k' v' I. eapply H2, s_remove_in; eauto.
Qed.

Lemma s_remove_get k s x : srt s -> get x (s_remove k s) = if x =? k then None else get x s.
Proof.
  induction s as [|[a b] s IH]; cbn; intros H; [destruct (x =? k); auto|].
  apply srt_cons in H. destruct H as [H1 H2]. cbn in *. destruct (Z.eqb_spec k a).
  - subst. destruct (Z.eqb_spec x a); auto. subst. apply get_none. intros I. apply keys_in in I.
    destruct I as [w I]. apply H2 in I. lia.
  - cbn. rewrite IH by auto. destruct (Z.eqb_spec x a), (Z.eqb_spec x k); auto; lia.
Qed.

Lemma remove_keys_sorted ks : forall s, srt s -> srt (remove_keys ks s).
Proof. induction ks; cbn; intros; auto. apply IHks, s_remove_sorted; auto. Qed.

Lemma remove_keys_get ks : forall s x, srt s ->
  get x (remove_keys ks s) = if in_dec Z.eq_dec x ks then None else get x s.
Proof.
  induction ks as [|k ks IH]; intros s x H; [auto|]. unfold remove_keys; cbn [fold_left].
  fold (remove_keys ks (s_remove k s)). rewrite IH by (apply s_remove_sorted; auto).
  rewrite s_remove_get by auto.
  destruct (in_dec Z.eq_dec x ks), (in_dec Z.eq_dec x (k :: ks)), (Z.eqb_spec x k);
    auto; cbn in *; intuition congruence.
Qed.

Lemma add_all_sorted l : forall s, srt s -> srt (add_all l s).
Proof. induction l as [|[k v] l]; cbn; intros; auto. apply IHl, s_add_sorted; auto. Qed.

Lemma get_app x l l' : get x (l ++ l') = match get x l with Some v => Some v | None => get x l' end.
Proof. induction l as [|[k v] l IH]; cbn; auto. destruct (x =? k); auto. Qed.

Lemma add_all_get l : forall s x, srt s ->
  get x (add_all l s) = match get x (rev l) with Some v => Some v | None => get x s end.
Proof.
  induction l as [|[k v] l IH]; intros s x H; [auto|]. unfold add_all; cbn [fold_left fst snd].
  fold (add_all l (fst (s_add k v s))). rewrite IH by (apply s_add_sorted; auto).
  cbn [rev]. rewrite get_app. cbn. rewrite s_add_get by auto.
  destruct (get x (rev l)); auto. destruct (x =? k); auto.
Qed.

Lemma add_all_in l : forall s k v, In (k, v) (add_all l s) -> In (k, v) l \/ In (k, v) s.
Proof.
  induction l as [|[a b] l IH]; intros s k v I; [auto|]. unfold add_all in I; cbn [fold_left fst snd] in I.
  apply IH in I. destruct I as [I|I]; [left; right; auto|]. apply s_add_in in I.
  destruct I as [[-> ->]|I]; [left; left; auto|auto].
Qed.

Lemma add_all_app l l' s : add_all (l ++ l') s = add_all l' (add_all l s).
Proof. unfold add_all. apply fold_left_app. Qed.

Lemma remove_keys_in ks : forall s k v, In (k, v) (remove_keys ks s) -> In (k, v) s.
Proof. induction ks; cbn; intros; auto. apply IHks in H. eapply s_remove_in; eauto. Qed.

Lemma get_rev_none x l : get x (rev l) = None <-> ~ In x (map fst l).
Proof. rewrite get_none, map_rev, <- in_rev. tauto. Qed.

Lemma get_rev_in x v l : get x (rev l) = Some v -> In (x, v) l.
Proof. intros H. apply get_in in H. apply in_rev; auto. Qed.

Lemma get_rev_nodup x v l : NoDup (map fst l) -> In (x, v) l -> get x (rev l) = Some v.
Proof.
  intros N I. apply get_nodup; [|apply -> in_rev; auto]. rewrite map_rev. apply NoDup_rev; auto.
Qed.

Lemma bulk_add_fst l : forall s, fst (s_bulk_add l s) = add_all l s.
Proof.
  induction l as [|[k v] l IH]; intros s; [auto|]. cbn. unfold add_all; cbn.
  destruct (s_add k v s) as [s1 o] eqn:E. specialize (IH s1). destruct (s_bulk_add l s1); cbn in *. auto.
Qed.

(** What a bulk addition with distinct keys reports. *)
Lemma bulk_add_old l : forall s, srt s -> NoDup (map fst l) -> forall k v,
  In (k, v) (snd (s_bulk_add l s)) <-> In k (map fst l) /\ get k s = Some v.
Proof.
  induction l as [|[k0 v0] l IH]; intros s Hs N k v; [cbn; tauto|].
  cbn [s_bulk_add map fst]. pose proof (s_add_sorted k0 v0 s Hs) as Hs1.
  pose proof (s_add_get k0 v0 s k Hs) as G. pose proof (s_add_old k0 v0 s Hs) as O.
  destruct (s_add k0 v0 s) as [s1 o] eqn:E. cbn [fst snd] in *. inv N.
  specialize (IH s1 Hs1 H2 k v). destruct (s_bulk_add l s1) as [s2 r]. cbn [snd] in *.
  cbn [In]. rewrite G in IH. destruct (Z.eqb_spec k k0).
  - subst k0. assert (~ In (k, v) r) by (rewrite IH; tauto).
    destruct (get k s) as [w|]; cbn; [|intuition congruence].
    split; [intros [E'|I]; [inv E'; auto|tauto]|]. intros [_ E']. inv E'. auto.
  - destruct (get k0 s); cbn; rewrite ?IH; intuition congruence.
Qed.

(** A change of a store given by what was added and what was removed. *)
Record delta (A R s s' : list (Z * V)) : Prop := mkDelta {
  dl_get : forall x, get x s' =
    match get x (rev A) with
    | Some v => Some v
    | None => if in_dec Z.eq_dec x (map fst R) then None else get x s
    end;
  dl_removed : forall k v, In (k, v) R -> get k s = Some v;
  dl_covered : forall k, In k (map fst A) -> get k s <> None -> In k (map fst R);
}.

Lemma delta_redo A R s s' : srt s -> srt s' -> delta A R s s' ->
  add_all A (remove_keys (map fst R) s) = s'.
Proof.
  intros Hs Hs' D. apply srt_ext; auto.
  - apply add_all_sorted, remove_keys_sorted; auto.
  - intros k. rewrite add_all_get by (apply remove_keys_sorted; auto).
    rewrite remove_keys_get by auto. symmetry. apply D.
Qed.

Lemma delta_undo A R s s' : srt s -> srt s' -> delta A R s s' ->
  add_all R (remove_keys (map fst A) s') = s.
Proof.
  intros Hs Hs' [D1 D2 D3]. apply srt_ext; auto.
  - apply add_all_sorted, remove_keys_sorted; auto.
  - intros k. rewrite add_all_get by (apply remove_keys_sorted; auto).
    rewrite remove_keys_get by auto.
    destruct (get k (rev R)) as [v|] eqn:GR.
    + apply get_rev_in, D2 in GR. auto.
    + apply get_rev_none in GR. destruct (in_dec Z.eq_dec k (map fst A)) as [I|I].
      * specialize (D3 k I). destruct (get k s) as [w|]; auto. exfalso. apply GR, D3. discriminate.
      * rewrite D1. apply get_rev_none in I. rewrite I.
        destruct (in_dec Z.eq_dec k (map fst R)); [tauto|auto].
Qed.

Lemma delta_nil s : delta [] [] s s.
Proof. split; cbn; tauto. Qed.

Lemma delta_add k v s : srt s ->
  delta [(k, v)] (match get k s with Some w => [(k, w)] | None => [] end) s (fst (s_add k v s)).
Proof.
  intros H. split.
  - intros x. rewrite s_add_get by auto. cbn. destruct (Z.eqb_spec x k); auto.
    destruct (get k s); cbn; [destruct (Z.eq_dec k x); [lia|auto]|auto].
  - intros k' v'. destruct (get k s) eqn:E; cbn; [|tauto]. intros [I|[]]. inv I. auto.
  - cbn. intros k' [<-|[]]. destruct (get k s); cbn; auto.
Qed.

Lemma delta_bulk_add l s : srt s -> NoDup (map fst l) ->
  delta l (snd (s_bulk_add l s)) s (fst (s_bulk_add l s)).
Proof.
  intros H N. pose proof (bulk_add_old l s H N) as O. rewrite bulk_add_fst. split.
  - intros x. rewrite add_all_get by auto. destruct (get x (rev l)) eqn:E; auto.
    destruct (in_dec Z.eq_dec x (map fst (snd (s_bulk_add l s)))) as [I|I]; auto.
    apply keys_in in I. destruct I as [v I]. apply O in I. apply get_rev_none in E. tauto.
  - intros k v I. apply O in I. tauto.
  - intros k I Hn. destruct (get k s) as [v|] eqn:E; [|congruence].
    apply (in_keys k v). apply O. auto.
Qed.

(** Removing present entries, then adding new ones. *)
Lemma delta_change A F s : srt s -> NoDup (map fst A) -> (forall k v, In (k, v) F -> get k s = Some v) ->
  let r := s_bulk_add A (remove_keys (map fst F) s) in
  delta A (F ++ snd r) s (fst r).
Proof.
  intros H N P. pose proof (remove_keys_sorted (map fst F) s H) as H1.
  pose proof (bulk_add_old A _ H1 N) as O. cbv zeta. rewrite bulk_add_fst. split.
  - intros x. rewrite add_all_get by auto. destruct (get x (rev A)) eqn:E; auto.
    rewrite remove_keys_get by auto.
    destruct (in_dec Z.eq_dec x (map fst F)) as [I|I];
    destruct (in_dec Z.eq_dec x (map fst (F ++ snd (s_bulk_add A (remove_keys (map fst F) s))))) as [J|J]; auto.
    + exfalso. apply J. rewrite map_app. apply in_or_app. auto.
    + exfalso. rewrite map_app in J. apply in_app_or in J. destruct J as [J|J]; [auto|].
      apply keys_in in J. destruct J as [v J]. apply O in J. apply get_rev_none in E. tauto.
  - intros k v I. apply in_app_or in I. destruct I as [I|I]; [auto|]. apply O in I. destruct I as [_ I].
    rewrite remove_keys_get in I by auto. destruct (in_dec Z.eq_dec k (map fst F)); [discriminate|auto].
  - intros k I Hn. rewrite map_app. apply in_or_app.
    destruct (in_dec Z.eq_dec k (map fst F)) as [J|J]; [auto|right].
    destruct (get k s) as [v|] eqn:E; [|congruence]. apply (in_keys k v). apply O. split; auto.
    rewrite remove_keys_get by auto. destruct (in_dec Z.eq_dec k (map fst F)); [tauto|auto].
Qed.

Lemma delta_remove F s : srt s -> (forall k v, In (k, v) F -> get k s = Some v) ->
  delta [] F s (remove_keys (map fst F) s).
Proof.
  intros H P. split.
  - intros x. rewrite remove_keys_get by auto. auto.
  - auto.
  - cbn; tauto.
Qed.

(** Adding further entries at fresh keys. *)
Lemma delta_more A R N s s1 : srt s -> srt s1 -> delta A R s s1 ->
  (forall k, In k (map fst N) -> get k s1 = None) ->
  delta (A ++ N) R s (add_all N s1).
Proof.
  intros H H1 [D1 D2 D3] F. split.
  - intros x. rewrite add_all_get by auto. rewrite rev_app_distr, get_app.
    destruct (get x (rev N)); auto.
  - auto.
  - intros k I Hn. rewrite map_app in I. apply in_app_or in I. destruct I as [I|I]; [auto|].
    pose proof (F k I) as F1. rewrite D1 in F1.
    destruct (get k (rev A)); [discriminate|].
    destruct (in_dec Z.eq_dec k (map fst R)); [auto|congruence].
Qed.

(** Search. *)
Lemma s_find_spec k s : srt s ->
  match s_find k s with
  | Ok i => exists v, nth_error s i = Some (k, v)
  | Err i => (forall j k' v', nth_error s j = Some (k', v') -> (j < i)%nat -> k' < k) /\
             (forall j k' v', nth_error s j = Some (k', v') -> (i <= j)%nat -> k < k') /\ (i <= length s)%nat
  end.
Proof.
  induction s as [|[a b] s IH]; intros H.
  - cbn. split; [|split]; [intros [|j]; cbn; discriminate..|lia].
  - apply srt_cons in H. destruct H as [H1 H2]. cbn [s_find]. destruct (Z.eqb_spec k a).
    { subst. exists b. reflexivity. }
    destruct (Z.ltb_spec k a).
    + split; [lia|]. split; [|cbn; lia]. intros [|j] k' v' E _; cbn in E; [inv E; auto|].
      apply nth_error_In, H2 in E. cbn in E. lia.
    + specialize (IH H1). destruct (s_find k s) as [i|i].
      * destruct IH as [v E]. exists v. exact E.
      * destruct IH as [IH1 [IH2 IH3]]. split; [|split].
        -- intros [|j] k' v' E L; cbn in E; [inv E; lia|]. eapply IH1; eauto; lia.
        -- intros [|j] k' v' E L; cbn in E; [lia|]. eapply IH2; eauto; lia.
        -- cbn; lia.
Qed.

Lemma s_find_ok k s i : srt s -> s_find k s = Ok i -> exists v, nth_error s i = Some (k, v).
Proof. intros H E. pose proof (s_find_spec k s H) as F. rewrite E in F. auto. Qed.

Lemma nth_lt_sorted s : srt s -> forall i j a b, nth_error s i = Some a -> nth_error s j = Some b -> (i < j)%nat ->
  fst a < fst b.
Proof.
  induction s as [|c s IH]; intros H i j a b E1 E2 L; [destruct i; discriminate|].
  apply srt_cons in H. destruct H as [H1 H2]. destruct j as [|j]; [lia|]. destruct i as [|i]; cbn in *.
  - inv E1. apply nth_error_In in E2. destruct b; eapply H2; eauto.
  - eapply IH; eauto; lia.
Qed.

Lemma last_nth (a : Z * V) s : nth_error (a :: s) (length s) = Some (last s a).
Proof. revert a. induction s as [|b s IH]; intros a; cbn [length nth_error]; [auto|]. rewrite IH. destruct s; auto.
  cbn. f_equal. clear. revert p. induction s as [|c s IH]; intros p; auto. cbn. destruct s; auto. Qed.

Lemma last_In (a : Z * V) s : In (last s a) (a :: s).
Proof. eapply nth_error_In, last_nth. Qed.

Lemma last_max a s : srt (a :: s) -> forall k v, In (k, v) (a :: s) -> k <= fst (last s a).
Proof.
  intros H k v I. apply In_nth_error in I. destruct I as [i E]. pose proof (last_nth a s) as L.
  assert (i < length (a :: s))%nat by (apply nth_error_Some; congruence). cbn [length] in *.
  destruct (Nat.eq_dec i (length s)) as [->|]; [rewrite E in L; inv L; cbn; lia|].
  pose proof (nth_lt_sorted _ H i (length s) _ _ E L). cbn in H1. lia.
Qed.

Lemma srt_app s t : srt s -> srt t -> (forall a b, In a s -> In b t -> fst a < fst b) -> srt (s ++ t).
Proof.
  induction s as [|a s IH]; cbn; intros H1 H2 H3; auto. apply srt_cons in H1. destruct H1 as [H1 H1'].
  apply srt_cons. split; [apply IH; auto|]. intros k v I. apply in_app_or in I. destruct I as [I|I].
  - eapply H1'; eauto.
  - apply (H3 a (k, v)); auto.
Qed.

Lemma s_add_last k v s : (forall k' v', In (k', v') s -> k' < k) -> s_add k v s = (s ++ [(k, v)], None).
Proof.
  induction s as [|[a b] s IH]; intros H; cbn; auto.
  assert (a < k) by (apply (H a b); left; auto).
  destruct (Z.eqb_spec k a); [lia|]. destruct (Z.ltb_spec k a); [lia|].
  rewrite IH; auto. intros k' v' I. apply (H k' v'); right; auto.
Qed.
End Store.

Section Bag.
Variable V : Type.
Variable V_eq_dec : forall a b : V, {a = b} + {a <> b}.
Implicit Types (s t l : list (Z * V)) (k : Z) (v : V).

Definition bsrt s := StronglySorted (fun a b : Z * V => fst a <= fst b) s.

Lemma bsrt_cons a s : bsrt (a :: s) <-> bsrt s /\ (forall k v, In (k, v) s -> fst a <= k).
Proof.
  unfold bsrt. split.
  - intros H. inv H. split; auto. intros k v I. rewrite Forall_forall in H3. apply (H3 (k, v) I).
  - intros [H1 H2]. constructor; auto. apply Forall_forall. intros [k v] I. cbn. eauto.
Qed.

Lemma b_add_perm k v s : Permutation (b_add k v s) ((k, v) :: s).
Proof.
  induction s as [|[a b] s IH]; cbn; auto. destruct (k <? a); auto.
  rewrite IH. constructor.
Qed.

Lemma b_add_sorted k v s : bsrt s -> bsrt (b_add k v s).
Proof.
  induction s as [|[a b] s IH]; cbn; intros H.
  - apply bsrt_cons; split; auto. cbn; tauto.
  - apply bsrt_cons in H. destruct H as [H1 H2]. cbn in *. destruct (Z.ltb_spec k a).
    + apply bsrt_cons. split; [apply bsrt_cons; auto|]. intros k' v' [E|I]; cbn; [inv E; lia|].
      apply H2 in I. lia.
    + apply bsrt_cons. split; auto. intros k' v' I.
      apply (Permutation_in _ (b_add_perm k v s)) in I. destruct I as [E|I]; [inv E; auto|eauto].
Qed.

Lemma b_bulk_add_perm l : forall s, Permutation (b_bulk_add l s) (l ++ s).
Proof.
  induction l as [|[k v] l IH]; intros s; [cbn; auto|].
  change (b_bulk_add ((k, v) :: l) s) with (b_bulk_add l (b_add k v s)).
  rewrite IH, b_add_perm. symmetry. apply Permutation_middle.
Qed.

Lemma b_bulk_add_sorted l : forall s, bsrt s -> bsrt (b_bulk_add l s).
Proof. induction l as [|[k v] l IH]; intros s H; [auto|]. apply IH, b_add_sorted; auto. Qed.

Lemma b_remove_sub k v s : forall x, In x (b_remove V_eq_dec k v s) -> In x s.
Proof.
  induction s as [|[a b] s IH]; cbn; auto. intros x.
  destruct (k =? a); [destruct (V_eq_dec v b)|]; cbn; intuition.
Qed.

Lemma b_remove_sorted k v s : bsrt s -> bsrt (b_remove V_eq_dec k v s).
Proof.
  induction s as [|[a b] s IH]; cbn; intros H; auto.
  apply bsrt_cons in H. destruct H as [H1 H2].
  destruct (k =? a); [destruct (V_eq_dec v b); auto|]; apply bsrt_cons; split; auto;
    intros k' v' I; eapply H2, b_remove_sub; eauto.
Qed.

Lemma b_bulk_remove_sorted l : forall s, bsrt s -> bsrt (b_bulk_remove V_eq_dec l s).
Proof. induction l as [|[k v] l IH]; intros s H; [auto|]. apply IH, b_remove_sorted; auto. Qed.

Lemma b_bulk_remove_sub l : forall s x, In x (b_bulk_remove V_eq_dec l s) -> In x s.
Proof. induction l as [|[k v] l IH]; intros s x I; [auto|]. apply IH in I. eapply b_remove_sub; eauto. Qed.

Lemma b_remove_perm k v s : In (k, v) s -> Permutation s ((k, v) :: b_remove V_eq_dec k v s).
Proof.
  induction s as [|[a b] s IH]; cbn; [tauto|]. intros I.
  destruct (Z.eqb_spec k a) as [->|Hk].
  - destruct (V_eq_dec v b) as [->|Hv]; [auto|]. destruct I as [E|I]; [congruence|].
    rewrite IH at 1 by auto. apply perm_swap.
  - destruct I as [E|I]; [congruence|]. rewrite IH at 1 by auto. apply perm_swap.
Qed.

Lemma b_remove_absent k v s : ~ In (k, v) s -> b_remove V_eq_dec k v s = s.
Proof.
  induction s as [|[a b] s IH]; cbn; auto. intros N.
  destruct (Z.eqb_spec k a) as [->|Hk].
  - destruct (V_eq_dec v b) as [->|Hv]; [tauto|]. rewrite IH; auto.
  - rewrite IH; auto.
Qed.

Lemma pair_eq_dec (a b : Z * V) : {a = b} + {a <> b}.
Proof. decide equality. apply Z.eq_dec. Qed.

Lemma b_remove_cong k v s t : Permutation s t ->
  Permutation (b_remove V_eq_dec k v s) (b_remove V_eq_dec k v t).
Proof.
  intros P. destruct (in_dec pair_eq_dec (k, v) s) as [I|I].
  - pose proof (Permutation_in _ P I) as I'.
    apply (Permutation_cons_inv (a := (k, v))).
    rewrite <- (b_remove_perm k v s I), <- (b_remove_perm k v t I'). auto.
  - assert (~ In (k, v) t) by (intros J; apply I; eapply Permutation_in; [symmetry|]; eauto).
    rewrite !b_remove_absent; auto.
Qed.

Lemma b_bulk_remove_cong l : forall s t, Permutation s t ->
  Permutation (b_bulk_remove V_eq_dec l s) (b_bulk_remove V_eq_dec l t).
Proof. induction l as [|[k v] l IH]; intros s t P; [auto|]. apply (IH (b_remove V_eq_dec k v s)), b_remove_cong; auto. Qed.

Lemma b_bulk_remove_perm l : forall s r, Permutation s (l ++ r) -> Permutation (b_bulk_remove V_eq_dec l s) r.
Proof.
  induction l as [|[k v] l IH]; intros s r P; [auto|]. apply (IH (b_remove V_eq_dec k v s)).
  apply (Permutation_cons_inv (a := (k, v))). rewrite <- b_remove_perm; auto.
  eapply Permutation_in; [symmetry; apply P|left; auto].
Qed.

Lemma b_bulk_add_cong l s t : Permutation s t -> Permutation (b_bulk_add l s) (b_bulk_add l t).
Proof.
  intros P. etransitivity; [apply b_bulk_add_perm|]. etransitivity; [|symmetry; apply b_bulk_add_perm].
  apply Permutation_app_head; auto.
Qed.

Lemma blast_max a s : bsrt (a :: s) -> forall k v, In (k, v) (a :: s) -> k <= fst (last s a).
Proof.
  revert a. induction s as [|b s IH]; intros a H k v I.
  - destruct I as [E|[]]; subst; cbn; lia.
  - apply bsrt_cons in H. destruct H as [H1 H2].
    assert (E : last (b :: s) a = last s b) by (apply last_cons).
    rewrite E. destruct I as [I|I].
    + subst a. transitivity (fst b); [destruct b; apply (H2 z v0); left; auto|].
      destruct b as [kb vb]. apply (IH (kb, vb) H1 kb vb). left; auto.
    + eapply IH; eauto.
Qed.
End Bag.
