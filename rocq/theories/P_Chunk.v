(** Lemmas about ticks, chunks and start positions. *)
From Coq Require Import Sorted Permutation.
From Verif Require Import P_Base P_Note M_Duration M_Scalar M_Bar M_Store M_Repeat S_Note S_Repeat.
Import ListNotations.
Open Scope Z_scope.

Lemma from_to_In a b t : In t (from_to a b) <-> a <= t < b.
Proof.
  unfold from_to. rewrite in_map_iff. split.
  - intros [i [<- H]]. apply in_seq in H. lia.
  - intros H. exists (Z.to_nat (t - a)). split; [lia|]. apply in_seq. lia.
Qed.
Lemma from_to_nil a b : b <= a -> from_to a b = [].
Proof. intros H. unfold from_to. replace (Z.to_nat (b - a)) with 0%nat by lia. reflexivity. Qed.
Lemma from_to_cons a b : a < b -> from_to a b = a :: from_to (a + 1) b.
Proof.
  intros H. unfold from_to. replace (Z.to_nat (b - a)) with (S (Z.to_nat (b - (a + 1)))) by lia.
  cbn [seq map]. f_equal; [lia|]. rewrite <- seq_shift, map_map. apply map_ext. intros; lia.
Qed.
Lemma from_to_app a b c : a <= b <= c -> from_to a b ++ from_to b c = from_to a c.
Proof.
  intros H. unfold from_to. replace (Z.to_nat (c - a)) with (Z.to_nat (b - a) + Z.to_nat (c - b))%nat by lia.
  rewrite seq_app, map_app. f_equal.
  assert (G : forall n k m, map (fun i => b + Z.of_nat i) (seq m n) = map (fun i => b - Z.of_nat k + Z.of_nat i) (seq (m + k) n)).
  { induction n as [|n IH]; intros k m; cbn [seq map]; [reflexivity|]. f_equal; [lia|]. rewrite (IH k). reflexivity. }
  rewrite (G _ (Z.to_nat (b - a)) 0%nat). apply map_ext. intros. lia.
Qed.
Lemma from_to_length a b : a <= b -> Z.of_nat (length (from_to a b)) = b - a.
Proof. intros. unfold from_to. rewrite map_length, seq_length. lia. Qed.
Lemma from_to_sorted a b : StronglySorted Z.lt (from_to a b).
Proof.
  unfold from_to. generalize (Z.to_nat (b - a)) as n. intros n. generalize 0%nat as k. induction n as [|n IH]; intros k; cbn [seq map]; constructor; auto.
  apply Forall_forall. intros x H. apply in_map_iff in H. destruct H as [i [<- H]]. apply in_seq in H. lia.
Qed.
Global Opaque from_to.

Lemma perf_app a b : performance (a ++ b) = performance a ++ performance b.
Proof. apply flat_map_app. Qed.
Lemma perf_cons c l : performance (c :: l) = from_to (ck_start c) (ck_end c) ++ performance l.
Proof. reflexivity. Qed.

(** ** Optimizing *)
Lemma optimize_from_perf l : forall c, Forall good_chunk (c :: l) -> performance (optimize_from c l) = performance (c :: l).
Proof.
  induction l as [|d l IH]; intros c F; cbn [optimize_from]; [reflexivity|].
  inversion F as [|? ? Gc F']; subst. inversion F' as [|? ? Gd F'']; subst. unfold good_chunk in *.
  destruct (Z.eqb_spec (ck_end c) (ck_start d)) as [E|E].
  - rewrite IH; [|constructor; auto; unfold good_chunk; cbn; lia]. rewrite !perf_cons. cbn [ck_start ck_end].
    rewrite app_assoc, E, from_to_app by lia. reflexivity.
  - rewrite perf_cons, IH by auto. reflexivity.
Qed.

Fixpoint no_joint (l : list chunk) : Prop :=
  match l with
  | c :: l' => match l' with d :: _ => ck_end c <> ck_start d | [] => True end /\ no_joint l'
  | [] => True
  end.
Lemma optimize_from_head l : forall c, exists d r, optimize_from c l = d :: r /\ ck_start d = ck_start c.
Proof.
  induction l as [|d l IH]; intros c; cbn [optimize_from]; [eauto|].
  destruct (ck_end c =? ck_start d); [|eauto]. destruct (IH (mkChunk (ck_start c) (ck_end d))) as [x [r [E S]]]. eauto.
Qed.
Lemma optimize_from_joint l : forall c, no_joint (optimize_from c l).
Proof.
  induction l as [|d l IH]; intros c; cbn [optimize_from]; [cbn; auto|].
  destruct (Z.eqb_spec (ck_end c) (ck_start d)) as [E|E]; [apply IH|].
  destruct (optimize_from_head l d) as [x [r [E' S]]]. rewrite E'. split; [congruence|]. rewrite <- E'. apply IH.
Qed.
Lemma optimize_joint l : no_joint (optimize l).
Proof. destruct l; [exact I|apply optimize_from_joint]. Qed.
Lemma no_joint_id l : no_joint l -> optimize l = l.
Proof.
  destruct l as [|c l]; [reflexivity|]. cbn [optimize]. revert c. induction l as [|d l IH]; intros c H; [reflexivity|].
  cbn [optimize_from]. destruct H as [H1 H2]. replace (ck_end c =? ck_start d) with false by lia. f_equal. apply IH. exact H2.
Qed.
Lemma optimize_good l : Forall good_chunk l -> Forall good_chunk (optimize l).
Proof.
  destruct l as [|c l]; auto. cbn [optimize]. revert c. induction l as [|d l IH]; intros c F; cbn [optimize_from]; [auto|].
  inversion F as [|? ? Gc F']; subst. inversion F' as [|? ? Gd F'']; subst. unfold good_chunk in *.
  destruct (Z.eqb_spec (ck_end c) (ck_start d)) as [E|E]; [apply IH; constructor; auto; cbn; lia|constructor; auto].
Qed.

(** ** Accumulated ticks *)
Lemma no_joint_tl c l : no_joint (c :: l) -> no_joint l.
Proof. intros [_ H]. exact H. Qed.

(** Adding behind all keys. *)
Lemma s_add_last {V} k (v : V) s : (forall x, In x (map fst s) -> x < k) -> fst (s_add k v s) = s ++ [(k, v)].
Proof.
  induction s as [|[k' v'] s IH]; intros H; cbn [s_add]; [reflexivity|].
  pose proof (H k' (or_introl eq_refl)). replace (k =? k') with false by lia. replace (k <? k') with false by lia.
  destruct (s_add k v s) as [t o] eqn:E. cbn. f_equal. cbn in IH. apply IH. intros x Hx. apply H. cbn. auto.
Qed.
Lemma s_add_replace {V} k (v w : V) s : (forall x, In x (map fst s) -> x < k) -> fst (s_add k v (s ++ [(k, w)])) = s ++ [(k, v)].
Proof.
  induction s as [|[k' v'] s IH]; intros H; cbn [s_add app].
  - rewrite Z.eqb_refl. reflexivity.
  - pose proof (H k' (or_introl eq_refl)). replace (k =? k') with false by lia. replace (k <? k') with false by lia.
    destruct (s_add k v (s ++ [(k, w)])) as [t o] eqn:E. cbn. f_equal. cbn in IH. apply IH. intros x Hx. apply H. cbn. auto.
Qed.

(** Chunks of which only the last may reach the end of time. *)
Fixpoint ends_last (l : list chunk) : Prop :=
  match l with
  | [] => True
  | [c] => True
  | c :: l' => ck_end c <> u32_max /\ ends_last l'
  end.

Lemma ends_last_app a b : b <> [] -> Forall (fun c => ck_end c <> u32_max) a -> ends_last b -> ends_last (a ++ b).
Proof.
  intros N F E. induction F as [|c a Hc F IH]; [exact E|]. cbn [app ends_last]. destruct (a ++ b) eqn:X; [destruct a; [cbn in X; congruence|discriminate]|auto].
Qed.

(** Each entry of the table stands where its chunk starts in the performance;
    chunks that play nothing may be missing, or be there in addition. *)
Inductive table : Z -> list chunk -> list (Z * chunk) -> Prop :=
| tb_nil o : table o [] []
| tb_skip o c l r : ck_end c = ck_start c -> table o l r -> table o (c :: l) r
| tb_extra o k c l r : ck_end c = ck_start c -> table o l r -> table o l ((k, c) :: r)
| tb_cons o c l r : table (o + (ck_end c - ck_start c)) l r -> table o (c :: l) ((o, c) :: r).

(** The buffer during the loop: entries before [offset], and maybe one empty chunk at [offset]. *)
Lemma accum_loop_table l : forall offset buf base r,
  0 <= offset -> Forall (fun c => 0 <= ck_start c <= ck_end c) l -> ends_last l ->
  (forall x, In x (map fst base) -> x < offset) ->
  (buf = base \/ exists c, ck_end c = ck_start c /\ buf = base ++ [(offset, c)]) ->
  accum_loop offset buf l = Ret r ->
  exists t, r = base ++ t /\ table offset l t.
Proof.
  induction l as [|c l IH]; intros offset buf base r O F EL B HB E.
  - cbn in E. apply ret_inj in E. subst r. destruct HB as [->|[c [Ec ->]]].
    + exists []. rewrite app_nil_r. split; auto. constructor.
    + exists [(offset, c)]. split; auto. apply tb_extra; auto. constructor.
  - inversion F as [|? ? Gc F']; subst.
    assert (A : fst (s_add offset c buf) = base ++ [(offset, c)]).
    { destruct HB as [->|[d [Ed ->]]]; [apply s_add_last|apply s_add_replace]; auto. }
    cbn [accum_loop] in E. rewrite A in E. destruct (Z.eqb_spec (ck_end c) u32_max) as [M|M].
    + destruct l as [|d l]; [|cbn [ends_last] in EL; destruct EL; congruence]. cbn in E. apply ret_inj in E. subst r.
      exists [(offset, c)]. split; auto. apply tb_cons, tb_nil.
    + assert (EL' : ends_last l) by (destruct l; [exact I|destruct EL; auto]).
      unfold ck_len in E. destruct (chk_u32 (ck_end c - ck_start c)) as [n| |] eqn:E1; try discriminate. cbn [bind] in E.
      destruct (chk_u32 (offset + n)) as [o'| |] eqn:E2; try discriminate. cbn [bind] in E.
      apply chk_inv in E1. destruct E1 as [-> _]. apply chk_inv in E2. destruct E2 as [-> _].
      destruct (Z.eq_dec (ck_end c) (ck_start c)) as [Z0|NZ].
      * destruct (IH (offset + (ck_end c - ck_start c)) (base ++ [(offset, c)]) base r) as [t [Er T]]; [lia|auto|auto| | |auto|].
        { intros x Hx. apply B in Hx. lia. }
        { right. exists c. split; auto. repeat f_equal. lia. }
        replace (offset + (ck_end c - ck_start c)) with offset in T by lia.
        exists t. split; auto. apply tb_skip; auto.
      * destruct (IH (offset + (ck_end c - ck_start c)) (base ++ [(offset, c)]) (base ++ [(offset, c)]) r) as [t [Er T]]; [lia|auto|auto| |auto|auto|].
        { intros x Hx. rewrite map_app, in_app_iff in Hx. cbn in Hx. destruct Hx as [Hx|[<-|[]]]; [apply B in Hx; lia|lia]. }
        exists ((offset, c) :: t). rewrite Er, <- app_assoc. split; auto. apply tb_cons; auto.
Qed.

Lemma by_accum_table l r : Forall (fun c => 0 <= ck_start c <= ck_end c) l -> ends_last l -> by_accum_tick l = Ret r -> table 0 l r.
Proof.
  intros F E H. destruct (accum_loop_table l 0 [] [] r ltac:(lia) F E ltac:(intros x []) (or_introl eq_refl) H) as [t [-> T]]. exact T.
Qed.

(** ** Finding a tick *)
Lemma times_app t a b : times t (a ++ b) = times t a + times t b.
Proof. unfold times. rewrite filter_app, app_length. lia. Qed.
Lemma times_cons t x l : times t (x :: l) = (if t =? x then 1 else 0) + times t l.
Proof. unfold times. cbn [filter]. destruct (t =? x); cbn [length]; lia. Qed.
Lemma times_nonneg t l : 0 <= times t l.
Proof. unfold times. lia. Qed.
Lemma times_zero t l : ~ In t l -> times t l = 0.
Proof.
  induction l as [|x l IH]; intros N; [reflexivity|]. rewrite times_cons. destruct (Z.eqb_spec t x) as [->|]; [destruct N; cbn; auto|].
  rewrite IH; [lia|]. intros H. apply N. cbn; auto.
Qed.
Lemma times_from_to t a b : times t (from_to a b) = if (a <=? t) && (t <? b) then 1 else 0.
Proof.
  destruct ((a <=? t) && (t <? b)) eqn:E.
  - rewrite <- (from_to_app a t b), times_app by lia. rewrite (from_to_cons t b) by lia. rewrite times_cons, Z.eqb_refl.
    rewrite !times_zero; [lia| |]; rewrite from_to_In; lia.
  - apply times_zero. rewrite from_to_In. lia.
Qed.

Lemma nth_time_shift t n l p a : nth_time t (n - times t a) l p -> nth_time t n (a ++ l) (Z.of_nat (length a) + p).
Proof.
  intros [x [y [-> [-> T]]]]. exists (a ++ x), y. rewrite app_assoc, app_length, times_app. repeat split; lia.
Qed.
Lemma nth_time_fun t n l p q : nth_time t n l p -> nth_time t n l q -> p = q.
Proof.
  intros [a [b [-> [-> T]]]] [a' [b' [E [-> T']]]]. revert a' E T T'. generalize n. induction a as [|x a IH]; intros m a' E T T'.
  - destruct a' as [|y a']; [reflexivity|]. cbn in E. inversion E; subst. rewrite times_cons, Z.eqb_refl in T'.
    pose proof (times_nonneg y a'). change (times y []) with 0 in T. lia.
  - destruct a' as [|y a'].
    + cbn in E. inversion E; subst. rewrite times_cons, Z.eqb_refl in T. pose proof (times_nonneg t a). change (times t []) with 0 in T'. lia.
    + cbn in E. inversion E; subst. rewrite times_cons in T, T'. specialize (IH (m - if t =? y then 1 else 0) a' H1). cbn [length]. lia.
Qed.
Lemma nth_time_count t n l p : nth_time t n l p -> 1 <= n <= times t l.
Proof.
  intros [a [b [-> [-> T]]]]. rewrite times_app, times_cons, Z.eqb_refl. pose proof (times_nonneg t a). pose proof (times_nonneg t b). lia.
Qed.
Lemma nth_time_exists t l : forall n, 1 <= n <= times t l -> exists p, nth_time t n l p.
Proof.
  induction l as [|x l IH]; intros n H; [change (times t []) with 0 in H; lia|]. rewrite times_cons in H.
  destruct (Z.eqb_spec t x) as [->|N].
  - destruct (Z.eq_dec n 1) as [->|]; [exists 0, [], l; repeat split|]. destruct (IH (n - 1)) as [p P]; [lia|]. exists (1 + p).
    apply (nth_time_shift x n l p [x]). rewrite times_cons, Z.eqb_refl. exact P.
  - destruct (IH n) as [p P]; [lia|]. exists (1 + p). apply (nth_time_shift t n l p [x]). rewrite times_cons.
    replace (t =? x) with false by lia. change (times t []) with 0. rewrite Z.sub_0_r. exact P.
Qed.

Lemma contains_spec c t : ck_contains c t = true <-> ck_start c <= t < ck_end c.
Proof. unfold ck_contains. lia. Qed.

(** The loop over the table from the [cur]-th occurrence on. *)
Lemma accum_tick_spec p l o r : table o l r -> forall cur,
  Forall (fun c => 0 <= ck_start c <= ck_end c) l -> 0 <= o -> 1 <= cur <= ps_iter p -> ps_iter p <= 5 -> 0 <= ps_tick p ->
  o + Z.of_nat (length (performance (removelast l))) + ps_tick p <= u32_max ->
  let m := times (ps_tick p) (performance l) in
  (ps_iter p - cur < m ->
     exists x, nth_time (ps_tick p) (ps_iter p - cur + 1) (performance l) x /\ accum_tick_loop p cur r = Ret (Ok (o + x))) /\
  (m <= ps_iter p - cur -> accum_tick_loop p cur r = Ret (Err (CannotFind (ps_iter p) (cur - 1 + m)))).
Proof.
  induction 1 as [o|o c l r Z0 T IH|o k c l r Z0 T IH|o c l r T IH]; intros cur F O C I5 P B m.
  - subst m. change (times (ps_tick p) (performance [])) with 0. split; [lia|]. intros _. cbn [accum_tick_loop].
    unfold chk_u8. rewrite chk_ret by (unfold u8_max; lia). cbn [bind]. do 3 f_equal. lia.
  - inversion F; subst. subst m. rewrite perf_cons, from_to_nil by lia. cbn [app]. apply IH; auto.
    destruct l; cbn [removelast] in *; [auto|]. rewrite perf_cons, from_to_nil in B by lia. exact B.
  - subst m. cbn [accum_tick_loop]. replace (ck_contains c (ps_tick p)) with false by (unfold ck_contains; lia). apply IH; auto.
  - inversion F as [|? ? G F']; subst. subst m. rewrite perf_cons.
    assert (B0 : o + ps_tick p <= u32_max) by lia.
    assert (IH' : forall cur : Z, 1 <= cur <= ps_iter p ->
       (ps_iter p - cur < times (ps_tick p) (performance l) ->
          exists x, nth_time (ps_tick p) (ps_iter p - cur + 1) (performance l) x /\
             accum_tick_loop p cur r = Ret (Ok (o + (ck_end c - ck_start c) + x))) /\
       (times (ps_tick p) (performance l) <= ps_iter p - cur ->
          accum_tick_loop p cur r = Ret (Err (CannotFind (ps_iter p) (cur - 1 + times (ps_tick p) (performance l)))))).
    { destruct l as [|d l].
      - intros cur' C'. assert (X : forall r, table (o + (ck_end c - ck_start c)) [] r -> Forall (fun e => ck_end (snd e) = ck_start (snd e)) r).
        { clear. intros r. revert r. intros r H. remember [] as n. induction H; try discriminate; constructor; auto. }
        specialize (X r T). change (times (ps_tick p) (performance [])) with 0. split; [lia|]. intros _. clear - X C' I5.
        induction X as [|[k d] r Hd X IHX]; cbn [accum_tick_loop].
        + unfold chk_u8. rewrite chk_ret by (unfold u8_max; lia). cbn [bind]. do 3 f_equal. lia.
        + cbn [snd] in Hd. replace (ck_contains d (ps_tick p)) with false by (unfold ck_contains; lia). exact IHX.
      - intros cur' C'. apply IH; auto; try lia. change (removelast (c :: d :: l)) with (c :: removelast (d :: l)) in B.
        rewrite perf_cons, app_length, Nat2Z.inj_add, from_to_length in B by lia. lia. }
    clear IH B. rename IH' into IH.
    rewrite times_app, times_from_to. cbn [accum_tick_loop].
    change ((ck_start c <=? ps_tick p) && (ps_tick p <? ck_end c)) with (ck_contains c (ps_tick p)).
    destruct (ck_contains c (ps_tick p)) eqn:K.
    + apply contains_spec in K. destruct (Z.eqb_spec cur (ps_iter p)) as [E|E].
      * split; [|pose proof (times_nonneg (ps_tick p) (performance l)); lia]. intros _. exists (ps_tick p - ck_start c). split.
        -- exists (from_to (ck_start c) (ps_tick p)), (from_to (ps_tick p + 1) (ck_end c) ++ performance l).
           split; [|split].
           ++ rewrite <- (from_to_app (ck_start c) (ps_tick p) (ck_end c)), (from_to_cons (ps_tick p) (ck_end c)) by lia.
              rewrite <- app_assoc. reflexivity.
           ++ rewrite from_to_length by lia. reflexivity.
           ++ rewrite times_zero by (rewrite from_to_In; lia). lia.
        -- unfold chk_u32. rewrite chk_ret by lia. cbn [bind]. rewrite chk_ret by lia. cbn [bind]. do 2 f_equal. lia.
      * unfold chk_u8. rewrite chk_ret by (unfold u8_max; lia). cbn [bind].
        destruct (IH (cur + 1)) as [H1 H2]; [lia|]. split.
        -- intros L. destruct H1 as [x [N A]]; [lia|]. exists (ck_end c - ck_start c + x). split; [|rewrite A; do 2 f_equal; lia].
           rewrite <- (from_to_length (ck_start c) (ck_end c)) by lia. apply nth_time_shift. rewrite times_from_to.
           replace ((ck_start c <=? ps_tick p) && (ps_tick p <? ck_end c)) with true by lia.
           replace (ps_iter p - cur + 1 - 1) with (ps_iter p - (cur + 1) + 1) by lia. exact N.
        -- intros L. rewrite H2 by lia. do 3 f_equal. lia.
    + assert (K' : ~ (ck_start c <= ps_tick p < ck_end c)) by (rewrite <- contains_spec; congruence).
      destruct (IH cur) as [H1 H2]; [lia|]. split.
      * intros L. destruct H1 as [x [N A]]; [lia|]. exists (ck_end c - ck_start c + x). split; [|rewrite A; do 2 f_equal; lia].
        rewrite <- (from_to_length (ck_start c) (ck_end c)) by lia. apply nth_time_shift. rewrite times_from_to.
        replace ((ck_start c <=? ps_tick p) && (ps_tick p <? ck_end c)) with false by lia. rewrite Z.sub_0_r. exact N.
      * intros L. rewrite H2 by lia. reflexivity.
Qed.

(** The same without a bound on the sum: the section that plays the tick decides. *)
Lemma accum_tick_exact p l o r : table o l r -> forall cur,
  Forall (fun c => 0 <= ck_start c <= ck_end c) l -> 0 <= o -> 1 <= cur <= ps_iter p -> ps_iter p <= 5 -> 0 <= ps_tick p ->
  let m := times (ps_tick p) (performance l) in
  (ps_iter p - cur < m ->
     exists a c b, l = a ++ c :: b /\ ck_start c <= ps_tick p < ck_end c /\ times (ps_tick p) (performance a) = ps_iter p - cur /\
       accum_tick_loop p cur r =
         if o + Z.of_nat (length (performance a)) + ps_tick p <=? u32_max
         then Ret (Ok (o + Z.of_nat (length (performance a)) + (ps_tick p - ck_start c))) else Panic) /\
  (m <= ps_iter p - cur -> accum_tick_loop p cur r = Ret (Err (CannotFind (ps_iter p) (cur - 1 + m)))).
Proof.
  induction 1 as [o|o c l r Z0 T IH|o k c l r Z0 T IH|o c l r T IH]; intros cur F O C I5 P m.
  - subst m. change (times (ps_tick p) (performance [])) with 0. split; [lia|]. intros _. cbn [accum_tick_loop].
    unfold chk_u8. rewrite chk_ret by (unfold u8_max; lia). cbn [bind]. do 3 f_equal. lia.
  - inversion F; subst. subst m. rewrite perf_cons, from_to_nil by lia. cbn [app]. destruct (IH cur) as [H1' H2']; auto. split; [|auto].
    intros L. destruct (H1' L) as [a [d [b [El [K [Tm A]]]]]]. exists (c :: a), d, b. rewrite El. repeat split; auto; try lia.
    + rewrite perf_cons, from_to_nil by lia. exact Tm.
    + rewrite A, perf_cons, from_to_nil by lia. reflexivity.
  - subst m. cbn [accum_tick_loop]. replace (ck_contains c (ps_tick p)) with false by (unfold ck_contains; lia). apply IH; auto.
  - inversion F as [|? ? G F']; subst. subst m. rewrite perf_cons, times_app, times_from_to. cbn [accum_tick_loop].
    change ((ck_start c <=? ps_tick p) && (ps_tick p <? ck_end c)) with (ck_contains c (ps_tick p)).
    assert (Step : forall k cur', (ps_tick p <? ck_end c) && (ck_start c <=? ps_tick p) = (k =? 1) -> (k = 0 \/ k = 1) -> cur' = cur + k -> 1 <= cur' <= ps_iter p ->
       (ps_iter p - cur < k + times (ps_tick p) (performance l) ->
          exists a d b, c :: l = a ++ d :: b /\ ck_start d <= ps_tick p < ck_end d /\ times (ps_tick p) (performance a) = ps_iter p - cur /\
            accum_tick_loop p cur' r =
              if o + Z.of_nat (length (performance a)) + ps_tick p <=? u32_max
              then Ret (Ok (o + Z.of_nat (length (performance a)) + (ps_tick p - ck_start d))) else Panic) /\
       (k + times (ps_tick p) (performance l) <= ps_iter p - cur ->
          accum_tick_loop p cur' r = Ret (Err (CannotFind (ps_iter p) (cur - 1 + (k + times (ps_tick p) (performance l))))))).
    { intros k cur' K K01 -> C'. destruct (IH (cur + k)) as [H1 H2]; auto; try lia. split.
      - intros L. destruct H1 as [a [d [b [El [Kd [Tm A]]]]]]; [lia|]. exists (c :: a), d, b. rewrite El. split; [reflexivity|]. split; [auto|].
        rewrite perf_cons, times_app, times_from_to, app_length, Nat2Z.inj_add, from_to_length by lia. split.
        + rewrite Tm, andb_comm, K. destruct K01; subst k; [change (0 =? 1) with false|change (1 =? 1) with true]; cbv iota; lia.
        + rewrite A. repeat rewrite Z.add_assoc. reflexivity.
      - intros L. rewrite H2 by lia. do 3 f_equal. lia. }
    destruct (ck_contains c (ps_tick p)) eqn:K.
    + pose proof K as K0. apply contains_spec in K. destruct (Z.eqb_spec cur (ps_iter p)) as [E|E].
      * split; [|pose proof (times_nonneg (ps_tick p) (performance l)); lia]. intros _. exists [], c, l. split; [reflexivity|]. split; [exact K|].
        change (performance []) with (@nil Z). change (times (ps_tick p) []) with 0. split; [lia|]. cbn [length Z.of_nat]. rewrite Z.add_0_r.
        unfold chk_u32. destruct (Z.leb_spec (o + ps_tick p) u32_max).
        -- rewrite chk_ret by lia. cbn [bind]. rewrite chk_ret by lia. cbn [bind]. do 2 f_equal. lia.
        -- unfold chk, in_range. replace ((0 <=? o + ps_tick p) && (o + ps_tick p <=? u32_max)) with false by lia. reflexivity.
      * unfold chk_u8. rewrite chk_ret by (unfold u8_max; lia). cbn [bind]. apply Step; auto; try lia.
    + apply (Step 0); auto; try lia. unfold ck_contains in K. rewrite andb_comm in K. rewrite K. reflexivity.
Qed.

(** The table can be made when all chunks but the last fit. *)
Lemma accum_loop_ret l : forall o buf, Forall (fun c => 0 <= ck_start c /\ ck_start c <= ck_end c) l -> ends_last l ->
  0 <= o -> (forall c, last l c = c \/ ck_end (last l c) = u32_max) ->
  o + Z.of_nat (length (performance (removelast l))) <= u32_max -> exists r, accum_loop o buf l = Ret r.
Proof.
  induction l as [|c l IH]; intros o buf F EL O L B; cbn [accum_loop]; [eauto|]. inversion F; subst.
  destruct l as [|d l].
  - destruct (L (mkChunk 1 0)) as [X|X]; cbn in X.
    + subst c. cbn in *. lia.
    + rewrite X, Z.eqb_refl. cbn. eauto.
  - change (removelast (c :: d :: l)) with (c :: removelast (d :: l)) in B.
    rewrite perf_cons, app_length, Nat2Z.inj_add, from_to_length in B by lia. destruct EL as [N EL].
    replace (ck_end c =? u32_max) with false by lia. unfold ck_len, chk_u32. rewrite chk_ret by lia. cbn [bind]. rewrite chk_ret by lia. cbn [bind].
    apply IH; auto; try lia.
Qed.

(** ** In the words of the specification *)
Lemma no_joint_iff l : no_joint l <-> none_joins l.
Proof.
  induction l as [|c l IH].
  - split; [|exact (fun _ => I)]. intros _ a x y b E. destruct a; discriminate.
  - cbn [no_joint]. rewrite IH. split.
    + intros [H1 H2] a x y b E. destruct a as [|z a]; cbn in E; inversion E; subst; [auto|]. eapply H2; eauto.
    + intros H. split.
      * destruct l as [|d l]; [exact I|]. apply (H [] c d l eq_refl).
      * intros a x y b E. apply (H (c :: a) x y b). rewrite E. reflexivity.
Qed.
Lemma ends_last_iff l : ends_last l <-> open_only_last l.
Proof.
  induction l as [|c l IH].
  - split; [|exact (fun _ => I)]. intros _ a x b E. destruct a; discriminate.
  - assert (X : ends_last (c :: l) <-> (l <> [] -> ck_end c <> u32_max) /\ ends_last l).
    { destruct l as [|d l]; cbn [ends_last]; [tauto|]. split; [tauto|]. intros [H1 H2]. split; auto. apply H1. discriminate. }
    rewrite X, IH. split.
    + intros [H1 H2] a x b E U. destruct a as [|z a]; cbn in E; inversion E; subst.
      * destruct b; auto. destruct H1; [discriminate|auto].
      * eapply H2; eauto.
    + intros H. split.
      * intros N U. apply N. apply (H [] c l eq_refl U).
      * intros a x b E. apply (H (c :: a) x b). rewrite E. reflexivity.
Qed.

Lemma start_found l r tick iter :
  Forall in_time l -> open_only_last l -> by_accum_tick l = Ret r -> 0 <= tick ->
  Z.of_nat (length (performance (removelast l))) + tick <= u32_max ->
  let n := play_iter_new iter in
  (forall pos, to_accum_tick (play_start_new tick iter) r = Ret (Ok pos) <-> nth_time tick n (performance l) pos) /\
  (times tick (performance l) < n -> to_accum_tick (play_start_new tick iter) r = Ret (Err (CannotFind n (times tick (performance l))))).
Proof.
  intros F EL E T B n. apply ends_last_iff in EL. pose proof (by_accum_table l r F EL E) as TB.
  pose proof (play_iter_new_ok iter) as I. fold n in I. unfold to_accum_tick, play_start_new. fold n.
  pose proof (accum_tick_spec (mkStart tick n) l 0 r TB 1 F) as X. cbn [ps_tick ps_iter] in X.
  destruct X as [X1 X2]; try lia. replace (n - 1 + 1) with n in X1 by lia. replace (1 - 1) with 0 in X2 by lia. cbn [Z.add] in X2. split.
  - intros pos. split.
    + intros H. destruct (Z.lt_ge_cases (n - 1) (times tick (performance l))) as [L|L].
      * destruct (X1 L) as [x [N A]]. rewrite A in H. inversion H. subst. exact N.
      * rewrite X2 in H by lia. discriminate.
    + intros N. destruct (X1) as [x [N' A]]; [apply nth_time_count in N; lia|]. rewrite A. do 2 f_equal. cbn. eapply nth_time_fun; eauto.
  - intros L. apply X2. lia.
Qed.

Lemma table_made a c : Forall in_time (a ++ [c]) -> Forall (fun d => ck_end d <> u32_max) a -> ck_end c = u32_max ->
  Z.of_nat (length (performance a)) <= u32_max -> exists r, by_accum_tick (a ++ [c]) = Ret r.
Proof.
  intros F N U B. apply accum_loop_ret; auto; try lia.
  - apply ends_last_app; [discriminate|auto|exact I].
  - intros d. right. rewrite last_last. exact U.
  - rewrite removelast_last. lia.
Qed.

Lemma start_exact l r tick iter :
  Forall in_time l -> open_only_last l -> by_accum_tick l = Ret r -> 0 <= tick ->
  let n := play_iter_new iter in
  (n <= times tick (performance l) ->
     exists a c b, l = a ++ c :: b /\ ck_start c <= tick < ck_end c /\ times tick (performance a) + 1 = n /\
       let pos := Z.of_nat (length (performance a)) + (tick - ck_start c) in
       nth_time tick n (performance l) pos /\
       to_accum_tick (play_start_new tick iter) r = if pos + ck_start c <=? u32_max then Ret (Ok pos) else Panic) /\
  (times tick (performance l) < n -> to_accum_tick (play_start_new tick iter) r = Ret (Err (CannotFind n (times tick (performance l))))).
Proof.
  intros F EL E T n. apply ends_last_iff in EL. pose proof (by_accum_table l r F EL E) as TB.
  pose proof (play_iter_new_ok iter) as I. fold n in I. unfold to_accum_tick, play_start_new. fold n.
  pose proof (accum_tick_exact (mkStart tick n) l 0 r TB 1 F) as X. cbn [ps_tick ps_iter] in X.
  destruct X as [X1 X2]; try lia. replace (1 - 1) with 0 in X2 by lia. cbn [Z.add] in X2. split.
  - intros L. destruct X1 as [a [c [b [El [K [Tm A]]]]]]; [lia|]. exists a, c, b. split; [exact El|]. split; [exact K|]. split; [lia|]. cbv zeta. split.
    + exists (performance a ++ from_to (ck_start c) tick), (from_to (tick + 1) (ck_end c) ++ performance b).
      assert (G : 0 <= ck_start c <= ck_end c).
      { rewrite El in F. apply Forall_app in F. destruct F as [_ F]. inversion F; subst. assumption. }
      split; [|split].
      * rewrite El. replace (performance (a ++ c :: b)) with (performance a ++ performance (c :: b)) by (unfold performance; rewrite flat_map_app; reflexivity).
        rewrite perf_cons, <- (from_to_app (ck_start c) tick (ck_end c)), (from_to_cons tick (ck_end c)) by lia. rewrite <- !app_assoc. reflexivity.
      * rewrite app_length, Nat2Z.inj_add, from_to_length by lia. reflexivity.
      * rewrite times_app, (times_zero tick (from_to _ _)) by (rewrite from_to_In; lia). lia.
    + rewrite A. cbn [Z.add]. replace (Z.of_nat (length (performance a)) + (tick - ck_start c) + ck_start c) with (Z.of_nat (length (performance a)) + tick) by lia.
      reflexivity.
  - intros L. apply X2. lia.
Qed.

(** When the table cannot be made. *)
Lemma accum_loop_exact l : forall o buf, Forall in_time l -> 0 <= o <= u32_max ->
  let n := o + Z.of_nat (length (performance (filter (fun c => negb (ck_end c =? u32_max)) l))) in
  if n <=? u32_max then exists r, accum_loop o buf l = Ret r else accum_loop o buf l = Panic.
Proof.
  induction l as [|c l IH]; intros o buf F O; cbn [accum_loop filter].
  - change (performance []) with (@nil Z). cbn [length Z.of_nat]. cbv zeta. replace (o + 0 <=? u32_max) with true by lia. eauto.
  - inversion F as [|? ? G F']; subst. unfold in_time in G. destruct (Z.eqb_spec (ck_end c) u32_max) as [M|M]; cbn [negb].
    + apply IH; auto.
    + cbv zeta. rewrite perf_cons, app_length, Nat2Z.inj_add, from_to_length by lia. unfold ck_len, chk_u32.
      destruct (Z.leb_spec (ck_end c - ck_start c) u32_max) as [L|L].
      * rewrite chk_ret by lia. cbn [bind]. destruct (Z.leb_spec (o + (ck_end c - ck_start c)) u32_max) as [L2|L2].
        -- rewrite chk_ret by lia. cbn [bind]. specialize (IH (o + (ck_end c - ck_start c)) (fst (s_add o c buf)) F' ltac:(lia)).
           cbv zeta in IH. rewrite Z.add_assoc. exact IH.
        -- match goal with |- if ?b then _ else _ => replace b with false by lia end.
           unfold chk, in_range. match goal with |- context [if ?b then Ret _ else _] => replace b with false by lia end. reflexivity.
      * match goal with |- if ?b then _ else _ => replace b with false by lia end.
        unfold chk at 1, in_range. match goal with |- context [if ?b then Ret _ else _] => replace b with false by lia end. reflexivity.
Qed.
