(** Lemmas about replenishing bars. *)
From Coq Require Import Sorted Permutation.
From Verif Require Import P_Base M_Duration M_Percent M_Scalar M_Bar M_Note M_Store M_Models M_Project S_Percent S_Project P_Store P_Note P_Query.
Open Scope Z_scope.

Lemma note_valid_len n : note_valid n -> exists l, note_tick_len n = Ret l /\ 0 <= l <= 3826.
Proof.
  intros [H1 H2]. destruct (note_tick_len_bound n H1 H2) as [t [l [E [L B]]]].
  rewrite longest in L. apply ret_inj in L. subst. eauto.
Qed.

Lemma note_start_u32 n : u32 (note_start_tick n).
Proof. unfold note_start_tick. destruct (_ <? 0); [unfold u32, u32_max; lia|apply as_u32_range]. Qed.

Definition end_step (m : Z) (kn : Z * note) : outcome Z :=
  let! l := note_tick_len (snd kn) in
  let! e := chk_u32 (fst kn + l) in
  Ret (Z.max m e).

Definition entries_valid (l : list (Z * note)) : Prop := forall k n, In (k, n) l -> note_valid n /\ u32 k.
Definition entries_fit (l : list (Z * note)) : Prop :=
  forall k n x, In (k, n) l -> note_tick_len n = Ret x -> k + x <= u32_max.

Lemma ends_fold l : forall m, entries_valid l -> entries_fit l ->
  exists m', ofold end_step m l = Ret m'.
Proof.
  induction l as [|[k n] l IH]; intros m V F; [cbn; eauto|].
  destruct (V k n) as [Vn Uk]; [left; auto|]. destruct (note_valid_len n Vn) as [x [E B]].
  cbn [ofold]. unfold end_step at 1. cbn [fst snd]. rewrite E. cbn [bind].
  assert (k + x <= u32_max) by (eapply F; [left; reflexivity|auto]).
  unfold chk_u32. rewrite chk_ret by (unfold u32 in *; lia). cbn [bind].
  apply IH; [intros a b I; apply V; right; auto|intros a b y I; apply F; right; auto].
Qed.

Lemma ends_fold_spec l : forall m m', ofold end_step m l = Ret m' ->
  m <= m' /\ (forall k n x, In (k, n) l -> note_tick_len n = Ret x -> k + x <= m' /\ k + x <= u32_max) /\
  (m' = m \/ exists k n x, In (k, n) l /\ note_tick_len n = Ret x /\ m' = k + x).
Proof.
  induction l as [|[k n] l IH]; intros m m' H.
  - cbn in H. apply ret_inj in H. subst. split; [lia|]. split; [cbn; tauto|auto].
  - cbn [ofold] in H. apply bind_ret in H. destruct H as [m1 [E H]].
    unfold end_step in E. cbn [fst snd] in E. bind_inv. apply ret_inj in E. subst m1.
    apply chk_inv in Hr0. destruct Hr0 as [-> B]. apply IH in H. destruct H as [H1 [H2 H3]].
    split; [lia|]. split.
    + intros k' n' x [I|I] L; [inv I; rewrite Hr in L; apply ret_inj in L; subst; lia|eauto].
    + destruct H3 as [->|[k' [n' [x [I [L ->]]]]]].
      * destruct (Z.max_spec m (k + r)) as [[_ M]|[_ M]]; rewrite M; auto.
        right. exists k, n, r. split; [left; auto|auto].
      * right. exists k', n', x. split; [right; auto|auto].
Qed.

Lemma ends_fold_not_hang l : forall m, entries_valid l -> ofold end_step m l <> Hang.
Proof.
  induction l as [|[k n] l IH]; intros m V; [discriminate|].
  destruct (V k n) as [Vn Uk]; [left; auto|]. destruct (note_valid_len n Vn) as [x [E B]].
  cbn [ofold]. unfold end_step at 1. cbn [fst snd]. rewrite E. cbn [bind].
  destruct (chk_u32 (k + x)) eqn:C; cbn [bind]; try discriminate.
  - apply IH. intros a0 b I; apply V; right; auto.
  - exfalso. revert C. apply chk_not_hang.
Qed.

(** The greatest end of a note. *)
Definition max_end_spec (p : project) (o : option Z) : Prop :=
  match o with
  | None => pj_notes p = []
  | Some m => 0 <= m <= u32_max /\
      (forall k n x, In (k, n) (pj_notes p) -> note_tick_len n = Ret x -> k + x <= m) /\
      (m = 0 \/ exists k n x, In (k, n) (pj_notes p) /\ note_tick_len n = Ret x /\ m = k + x)
  end.

Lemma entries_ok p : notes_ok (pj_notes p) -> notes_valid p -> entries_valid (pj_notes p).
Proof.
  intros [_ K] V k n I. split; [apply V in I; auto|]. apply K in I. subst. apply note_start_u32.
Qed.

Lemma range_sub (k : Z) s a (b : note) : In (a, b) (b_range_from k s) <-> In (a, b) s /\ k <= a.
Proof. unfold b_range_from. rewrite filter_In. cbn. rewrite Z.leb_le. tauto. Qed.

Definition range_start (last : Z) : Z := if last - 3826 <? 0 then 0 else last - 3826.

Lemma note_max_end_unfold p : note_max_end_tick p =
  match pj_notes p with
  | [] => Ret None
  | x :: s => let! m := ofold end_step 0 (b_range_from (as_u32 (range_start (fst (last s x)))) (pj_notes p)) in Ret (Some m)
  end.
Proof.
  unfold note_max_end_tick, b_peek_last. destruct (pj_notes p) as [|x s]; auto.
  destruct (last s x) as [t n]. rewrite longest. cbn [bind fst]. reflexivity.
Qed.

Lemma range_start_id t : u32 t -> as_u32 (range_start t) = range_start t.
Proof. intros H. apply as_u32_id. unfold range_start, u32, u32_max in *. destruct (Z.ltb_spec (t - 3826) 0); lia. Qed.

Lemma last_start_u32 p x s : notes_ok (pj_notes p) -> pj_notes p = x :: s -> u32 (fst (last s x)).
Proof.
  intros [_ K] E. pose proof (last_In note x s) as I. destruct (last s x) as [k n].
  rewrite <- E in I. apply K in I. subst. apply note_start_u32.
Qed.

Lemma note_max_end_spec p o : notes_ok (pj_notes p) -> notes_valid p ->
  note_max_end_tick p = Ret o -> max_end_spec p o.
Proof.
  intros Hk V H. rewrite note_max_end_unfold in H. pose proof (entries_ok p Hk V) as EV.
  destruct (pj_notes p) as [|x s] eqn:Ep; [apply ret_inj in H; subst; exact Ep|].
  pose proof (last_start_u32 p x s ltac:(rewrite Ep; auto) Ep) as Ul.
  rewrite <- Ep in *. bind_inv. apply ret_inj in H. subst o. rewrite range_start_id in Hr by auto.
  apply ends_fold_spec in Hr. destruct Hr as [R1 [R2 R3]].
  assert (Hsrt : bsrt note (x :: s)) by (rewrite <- Ep; apply Hk).
  pose proof (last_In note x s) as Il. destruct (last s x) as [lt ln] eqn:El. cbn [fst] in *.
  assert (Il' : In (lt, ln) (pj_notes p)) by (rewrite Ep; auto).
  destruct (EV _ _ Il') as [Vl _]. destruct (note_valid_len _ Vl) as [ll [Ell Bl]].
  unfold max_end_spec.
  assert (ltr : lt <= r).
  { destruct (R2 lt ln ll) as [Q _]; auto; [|lia]. apply range_sub. split; auto.
    unfold range_start, u32 in *. destruct (Z.ltb_spec (lt - 3826) 0); lia. }
  split; [|split].
  - split; [lia|]. destruct R3 as [->|[k [n [y [I [L ->]]]]]]; [unfold u32_max; lia|].
    apply (R2 k n y); auto.
  - intros k n y I L. destruct (EV _ _ I) as [Vn Un]. destruct (note_valid_len _ Vn) as [y' [Ey By]].
    rewrite L in Ey. apply ret_inj in Ey. subst y'.
    assert (Kl : k <= lt).
    { rewrite Ep in I. pose proof (blast_max note note_eq_dec x s Hsrt k n I) as Q. rewrite El in Q. exact Q. }
    destruct (Z.le_gt_cases (range_start lt) k) as [C|C].
    + apply (R2 k n y); auto. apply range_sub; auto.
    + unfold range_start, u32 in *. destruct (Z.ltb_spec (lt - 3826) 0); lia.
  - destruct R3 as [->|[k [n [y [I [L ->]]]]]]; auto. right. exists k, n, y. split; auto.
    apply range_sub in I. tauto.
Qed.

Lemma note_max_end_total p : notes_ok (pj_notes p) -> notes_valid p -> entries_fit (pj_notes p) ->
  exists o, note_max_end_tick p = Ret o.
Proof.
  intros Hk V F. rewrite note_max_end_unfold. pose proof (entries_ok p Hk V) as EV.
  destruct (pj_notes p) as [|x s] eqn:Ep; [eauto|]. rewrite <- Ep in *.
  destruct (ends_fold (b_range_from (as_u32 (range_start (fst (last s x)))) (pj_notes p)) 0) as [m E].
  - intros k n I. apply range_sub in I. apply EV. tauto.
  - intros k n y I. apply range_sub in I. apply F. tauto.
  - rewrite E. cbn. eauto.
Qed.

Lemma note_max_end_not_hang p : notes_ok (pj_notes p) -> notes_valid p -> note_max_end_tick p <> Hang.
Proof.
  intros Hk V. rewrite note_max_end_unfold. pose proof (entries_ok p Hk V) as EV.
  destruct (pj_notes p) as [|x s] eqn:Ep; [discriminate|]. rewrite <- Ep in *.
  destruct (ofold _ _ _) eqn:E; try discriminate. exfalso. revert E. apply ends_fold_not_hang.
  intros k n I. apply range_sub in I. apply EV. tauto.
Qed.

(** The result does not depend on the order of the notes; it needs no validity. *)
Lemma filter_perm {A} (f : A -> bool) l l' : Permutation l l' -> Permutation (filter f l) (filter f l').
Proof.
  induction 1; cbn; auto.
  - destruct (f x); auto.
  - destruct (f x), (f y); auto. apply perm_swap.
  - eapply Permutation_trans; eauto.
Qed.

Lemma blast_perm x s x' s' : bsrt note (x :: s) -> bsrt note (x' :: s') -> Permutation (x :: s) (x' :: s') ->
  fst (last s x) = fst (last s' x').
Proof.
  intros H H' P. pose proof (last_In note x s) as I. pose proof (last_In note x' s') as I'.
  destruct (last s x) as [k n] eqn:E. destruct (last s' x') as [k' n'] eqn:E'. cbn.
  pose proof (blast_max note note_eq_dec x s H k' n' (Permutation_in _ (Permutation_sym P) I')) as A.
  pose proof (blast_max note note_eq_dec x' s' H' k n (Permutation_in _ P I)) as B. rewrite E in A. rewrite E' in B.
  cbn in *. lia.
Qed.

Lemma max_end_perm p q m : bsrt note (pj_notes p) -> bsrt note (pj_notes q) ->
  Permutation (pj_notes p) (pj_notes q) ->
  note_max_end_tick p = Ret m -> note_max_end_tick q = Ret m.
Proof.
  intros Hp Hq P H. rewrite note_max_end_unfold in *.
  destruct (pj_notes p) as [|x s] eqn:Ep.
  - apply Permutation_nil in P. rewrite P. auto.
  - destruct (pj_notes q) as [|x' s'] eqn:Eq; [apply Permutation_sym, Permutation_nil in P; discriminate|].
    rewrite <- (blast_perm _ _ _ _ Hp Hq P). rewrite <- Ep, <- Eq in *.
    set (a := as_u32 _) in *. clearbody a. bind_inv. apply ret_inj in H. subst m.
    pose proof (filter_perm (fun kv : Z * note => a <=? fst kv) _ _ P) as Pf.
    fold (b_range_from a (pj_notes p)) in Pf. fold (b_range_from a (pj_notes q)) in Pf.
    pose proof Hr as S. apply ends_fold_spec in S. destruct S as [S1 [S2 S3]].
    assert (E : exists r', ofold end_step 0 (b_range_from a (pj_notes q)) = Ret r').
    { revert Hr. clear - Pf. generalize 0. revert r. induction Pf; intros r z H.
      - eauto.
      - cbn [ofold] in *. bind_inv. rewrite Hr. cbn [bind]. eauto.
      - cbn [ofold] in *. unfold end_step in *. destruct x as [k1 n1], y as [k2 n2]. cbn [fst snd] in *.
        bind_inv. apply ret_inj in Hr, Hr0. subst. rewrite Hr1. cbn [bind]. rewrite Hr2. cbn [bind].
        rewrite Hr3. cbn [bind]. rewrite Hr4. cbn [bind].
        replace (Z.max (Z.max z r3) r5) with (Z.max (Z.max z r5) r3) by lia. eauto.
      - apply IHPf1 in H. destruct H as [r' H]. apply IHPf2 in H. exact H. }
    destruct E as [r' E]. rewrite E. cbn. do 2 f_equal.
    apply ends_fold_spec in E. destruct E as [T1 [T2 T3]].
    assert (I1 : forall k n, In (k, n) (b_range_from a (pj_notes p)) <-> In (k, n) (b_range_from a (pj_notes q))).
    { intros k n; split; apply Permutation_in; auto. symmetry; auto. }
    destruct S3 as [->|[k [n [y [I [L ->]]]]]], T3 as [->|[k' [n' [y' [I' [L' ->]]]]]]; auto.
    + apply I1 in I'. destruct (S2 _ _ _ I' L'). lia.
    + apply I1 in I. destruct (T2 _ _ _ I L). lia.
    + apply I1 in I. apply I1 in I'. destruct (T2 _ _ _ I L), (S2 _ _ _ I' L'). lia.
Qed.

(** ** The loop *)
Lemma even_bars_app a : forall from len b, even_bars from len (a + b) = even_bars from len a ++ even_bars (from + Z.of_nat a * len) len b.
Proof.
  induction a as [|a IH]; intros from len b; cbn [Nat.add even_bars app].
  - replace (from + Z.of_nat 0 * len) with from by lia. auto.
  - rewrite IH. do 3 f_equal. lia.
Qed.

Lemma even_bars_snoc from len n : even_bars from len (S n) =
  even_bars from len n ++ [mkBar (from + Z.of_nat (S n) * len) None None 0].
Proof.
  replace (S n) with (n + 1)%nat at 1 by lia. rewrite even_bars_app. cbn [even_bars]. do 3 f_equal. lia.
Qed.

Lemma even_bars_ticks n : forall from len b, In b (even_bars from len n) ->
  exists i, (1 <= i <= n)%nat /\ b = mkBar (from + Z.of_nat i * len) None None 0.
Proof.
  induction n as [|n IH]; intros from len b H; [destruct H|].
  destruct H as [<-|H].
  - exists 1%nat. split; [lia|]. f_equal; lia.
  - apply IH in H. destruct H as [i [Hi ->]]. exists (S i). split; [lia|]. f_equal; lia.
Qed.

Lemma even_bars_length n : forall from len, length (even_bars from len n) = n.
Proof. induction n; intros; cbn; auto. Qed.

Lemma replenish_loop_spec len max_end fuel : forall bar_tick bars acc r,
  0 < len -> 0 <= bar_tick ->
  (forall k v, In (k, v) bars -> k <= bar_tick) ->
  replenish_loop fuel len bar_tick max_end bars acc = Ret r ->
  exists n, r = (bars ++ map bar_entry (even_bars bar_tick len n), acc ++ even_bars bar_tick len n) /\
    max_end <= bar_tick + Z.of_nat n * len /\
    (n = O \/ (bar_tick + (Z.of_nat n - 1) * len < max_end /\ bar_tick + Z.of_nat n * len <= u32_max)).
Proof.
  induction fuel as [|f IH]; intros bt bars acc r Hlen H0 Hb H; cbn [replenish_loop] in H;
    destruct (Z.ltb_spec bt max_end) as [L|L]; try discriminate.
  - apply ret_inj in H. subst. exists 0%nat. cbn. rewrite !app_nil_r. split; auto. split; [lia|auto].
  - bind_inv. apply chk_inv in Hr. destruct Hr as [-> B].
    rewrite (s_add_last _ _ _ bars) in H by (intros k v I; apply Hb in I; lia). cbn [fst] in H.
    apply IH in H; auto; [|lia|].
    2:{ intros k v I. apply in_app_or in I. destruct I as [I|[I|[]]]; [apply Hb in I; lia|inv I; lia]. }
    destruct H as [n [-> [H1 H2]]]. exists (S n). split; [|split; [lia|]].
    + cbn [even_bars map app]. rewrite <- !app_assoc. reflexivity.
    + right. destruct H2 as [->|H2]; lia.
  - apply ret_inj in H. subst. exists 0%nat. cbn. rewrite !app_nil_r. split; auto. split; [lia|auto].
Qed.

Lemma replenish_loop_total len max_end fuel : forall bar_tick bars acc,
  0 < len -> 0 <= bar_tick -> max_end + len <= u32_max + 1 ->
  (Z.to_nat (max_end - bar_tick) <= fuel)%nat ->
  exists r, replenish_loop fuel len bar_tick max_end bars acc = Ret r.
Proof.
  induction fuel as [|f IH]; intros bt bars acc Hlen H0 Hm Hf; cbn [replenish_loop];
    destruct (Z.ltb_spec bt max_end) as [L|L]; eauto; [lia|].
  unfold chk_u32. rewrite chk_ret by lia. cbn [bind]. apply IH; lia.
Qed.

Lemma replenish_loop_not_hang len max_end fuel : forall bar_tick bars acc,
  0 < len -> (Z.to_nat (max_end - bar_tick) <= fuel)%nat ->
  replenish_loop fuel len bar_tick max_end bars acc <> Hang.
Proof.
  induction fuel as [|f IH]; intros bt bars acc Hlen Hf; cbn [replenish_loop];
    destruct (Z.ltb_spec bt max_end) as [L|L]; try discriminate; [lia|].
  destruct (chk_u32 (bt + len)) eqn:C; cbn [bind]; try discriminate.
  - apply chk_inv in C. destruct C as [-> _]. apply IH; lia.
  - exfalso. revert C. apply chk_not_hang.
Qed.

(** A bar length of zero: the loop never ends. *)
Lemma replenish_loop_zero max_end fuel : forall bar_tick bars acc,
  u32 bar_tick -> bar_tick < max_end ->
  replenish_loop fuel 0 bar_tick max_end bars acc = Hang.
Proof.
  induction fuel as [|f IH]; intros bt bars acc U L; cbn [replenish_loop];
    destruct (Z.ltb_spec bt max_end); try lia; auto.
  rewrite Z.add_0_r. unfold chk_u32. rewrite chk_ret by exact U. cbn [bind]. apply IH; auto.
Qed.

(** ** The whole *)
Definition content_end (p : project) (ne : option Z) : Z :=
  Z.max (Z.max (Z.max (unwrap_or ne 0) (unwrap_or (max_tick (pj_tempos p)) 0))
             (unwrap_or (max_tick (pj_dumpers p)) 0)) (unwrap_or (max_tick (pj_softs p)) 0).

Lemma last_tick_bar p : keyed b_tick (pj_bars p) ->
  match last_bar p with Some (_, b) => b_tick b | None => 0 end = last_tick p.
Proof.
  intros H. destruct (last_bar_spec p H) as [-> L]. unfold last_tick. destruct (pj_bars p); auto.
Qed.

Lemma last_tick_range p : keyed b_tick (pj_bars p) -> u32 (last_tick p).
Proof.
  intros [_ H]. unfold last_tick. destruct (pj_bars p) as [|x s] eqn:E; [unfold u32, u32_max; lia|].
  pose proof (last_In bar x s) as I. destruct (last s x). apply H in I. cbn. tauto.
Qed.

Lemma last_tick_max p : keyed b_tick (pj_bars p) -> forall k v, In (k, v) (pj_bars p) -> k <= last_tick p.
Proof.
  intros [H _] k v I. unfold last_tick. destruct (pj_bars p) as [|x s] eqn:E; [destruct I|].
  eapply last_max; eauto.
Qed.

Lemma replenish_unfold p : keyed b_tick (pj_bars p) -> replenish_bars p =
  let! ne := note_max_end_tick p in
  if content_end p ne <=? last_tick p then Ret (p, [])
  else
    let! r := rhythm_at p (last_tick p) in
    let! (bars, added) :=
      replenish_loop (Z.to_nat (content_end p ne - last_tick p)) (rhythm_tick_len r) (last_tick p) (content_end p ne) (pj_bars p) [] in
    Ret (pj_set_bars p bars, added).
Proof. intros H. unfold replenish_bars. rewrite (last_tick_bar p H). reflexivity. Qed.

Lemma pj_set_bars_id p : pj_set_bars p (pj_bars p) = p.
Proof. destruct p; reflexivity. Qed.

(** What replenishing returns. *)
Lemma rhythm_len_u32 r : u32 (rhythm_tick_len r).
Proof. unfold rhythm_tick_len. apply as_u32_range. Qed.

Lemma replenish_ret p p' more : keyed b_tick (pj_bars p) ->
  replenish_bars p = Ret (p', more) ->
  exists ne r n, note_max_end_tick p = Ret ne /\ rhythm_at p (last_tick p) = Ret r /\
    more = even_bars (last_tick p) (rhythm_tick_len r) n /\
    p' = pj_set_bars p (pj_bars p ++ map bar_entry more) /\
    content_end p ne <= last_tick p + Z.of_nat n * rhythm_tick_len r /\
    (n = O \/ (0 < rhythm_tick_len r /\
               last_tick p + (Z.of_nat n - 1) * rhythm_tick_len r < content_end p ne /\
               last_tick p + Z.of_nat n * rhythm_tick_len r <= u32_max)).
Proof.
  intros H E. rewrite (replenish_unfold p H) in E. apply bind_ret in E. destruct E as [ne [En E]].
  destruct (rhythm_at_spec p (last_tick p) H) as [o [_ Er]].
  set (r := match o with Some r => r | None => pj_rhythm p end) in *. clearbody r.
  exists ne, r. destruct (Z.leb_spec (content_end p ne) (last_tick p)) as [L|L].
  - apply ret_inj in E. inv E. exists 0%nat. cbn [even_bars map]. rewrite app_nil_r, pj_set_bars_id.
    repeat split; auto; lia.
  - rewrite Er in E. cbn [bind] in E. apply bind_ret in E. destruct E as [[bars added] [El E]].
    apply ret_inj in E. inv E.
    pose proof (rhythm_len_u32 r) as Ur. pose proof (last_tick_range p H) as U.
    destruct (Z.eq_dec (rhythm_tick_len r) 0) as [Z0|Z0].
    { rewrite Z0, replenish_loop_zero in El by auto. discriminate. }
    unfold u32 in U, Ur.
    apply replenish_loop_spec in El; [|lia|lia|apply last_tick_max; auto].
    destruct El as [n [E1 [E2 E3]]]. inv E1. exists n. repeat split; auto.
    destruct E3; auto. right. split; [lia|auto].
Qed.

Lemma replenish_ok p p' more : keyed b_tick (pj_bars p) ->
  replenish_bars p = Ret (p', more) ->
  p' = pj_set_bars p (pj_bars p ++ map bar_entry more) /\
  keyed b_tick (pj_bars p') /\
  (forall b, In b more -> last_tick p < b_tick b /\ u32 (b_tick b) /\ b_rhythm b = None /\ b_key b = None /\ b_marks b = 0) /\
  srt bar (map bar_entry more).
Proof.
  intros H E. destruct (replenish_ret p p' more H E) as [ne [r [n [E1 [E2 [E3 [E4 [E5 E6]]]]]]]].
  pose proof (rhythm_len_u32 r) as Ur. pose proof (last_tick_range p H) as U. unfold u32 in U, Ur.
  split; auto.
  assert (T : forall b, In b more -> last_tick p < b_tick b /\ u32 (b_tick b) /\ b_rhythm b = None /\ b_key b = None /\ b_marks b = 0).
  { intros b I. rewrite E3 in I. apply even_bars_ticks in I. destruct I as [i [Hi ->]]. cbn.
    unfold u32. repeat split; try lia; try nia. }
  assert (S : srt bar (map bar_entry more)).
  { rewrite E3. destruct E6 as [->|[Lp _]]; [constructor|]. clear - Lp.
    generalize (last_tick p). revert Lp. generalize (rhythm_tick_len r). intros len Hl.
    induction n as [|n IH]; intros from; cbn; [constructor|].
    apply srt_cons. split; [apply IH|]. intros k v I. apply in_map_iff in I. destruct I as [b [Eb I]].
    inv Eb. apply even_bars_ticks in I. destruct I as [i [Hi ->]]. cbn. nia. }
  split; [|split; auto].
  rewrite E4. cbn. split.
  - apply srt_app; auto; [apply H|]. intros [k v] b' I I'. apply in_map_iff in I'. destruct I' as [b [<- I']].
    apply T in I'. apply (last_tick_max p H) in I. cbn. lia.
  - intros k v I. apply in_app_or in I. destruct I as [I|I]; [apply H in I; auto|].
    apply in_map_iff in I. destruct I as [b [Eb I]]. inv Eb. split; auto. apply T in I. tauto.
Qed.

(** The end of the content. *)
Lemma max_tick_spec {V} tick (s : list (Z * V)) : keyed tick s ->
  match max_tick s with
  | None => s = []
  | Some m => (forall k v, In (k, v) s -> k <= m) /\ (exists v, In (m, v) s) /\ u32 m
  end.
Proof.
  intros [H K]. unfold max_tick, s_peek_last. destruct s as [|x s]; cbn [option_map]; auto.
  pose proof (last_In V x s) as I. pose proof (last_max V x s H) as M. destruct (last s x) as [k v].
  cbn [fst] in *. split; auto. split; eauto. apply K in I. tauto.
Qed.

(** A component of the content and its end. *)
Definition end_of (P : Z -> Prop) (z : Z) : Prop := u32 z /\ (forall t, P t -> t <= z) /\ (z = 0 \/ P z).

Lemma end_of_max P Q a b : end_of P a -> end_of Q b -> end_of (fun t => P t \/ Q t) (Z.max a b).
Proof.
  intros [A1 [A2 A3]] [B1 [B2 B3]]. unfold end_of, u32 in *. split; [lia|]. split.
  - intros t [H|H]; [apply A2 in H|apply B2 in H]; lia.
  - destruct (Z.max_spec a b) as [[? ->]|[? ->]]; tauto.
Qed.

Lemma end_of_store {V} tick (s : list (Z * V)) : keyed tick s ->
  end_of (fun t => exists v, In (t, v) s) (unwrap_or (max_tick s) 0).
Proof.
  intros H. apply max_tick_spec in H. destruct (max_tick s) as [m|]; cbn.
  - destruct H as [H1 [H2 H3]]. split; auto. split; auto. intros t [v I]. eauto.
  - subst s. split; [unfold u32, u32_max; lia|]. split; auto. intros t [v []].
Qed.

Lemma end_of_ext (P Q : Z -> Prop) z : (forall t, P t <-> Q t) -> end_of P z -> end_of Q z.
Proof.
  intros E [H1 [H2 H3]]. split; auto. split; [intros t H; apply H2, E, H|].
  destruct H3; auto. right. apply E; auto.
Qed.

Lemma content_end_spec p ne : project_ok p -> notes_valid p -> max_end_spec p ne ->
  end_of (ends_at p) (content_end p ne).
Proof.
  intros [O1 O2 O3 O4 O5] V M. unfold content_end.
  assert (N : end_of (fun t => exists k n x, In (k, n) (pj_notes p) /\ note_tick_len n = Ret x /\ t = k + x) (unwrap_or ne 0)).
  { destruct ne as [m|]; cbn in *.
    - destruct M as [M1 [M2 M3]]. split; auto. split; auto. intros t [k [n [x [I [L ->]]]]]. eauto.
    - split; [unfold u32, u32_max; lia|]. split; auto. intros t [k [n [x [I _]]]]. rewrite M in I. destruct I. }
  pose proof (end_of_max _ _ _ _ (end_of_max _ _ _ _ (end_of_max _ _ _ _ N (end_of_store _ _ O3))
    (end_of_store _ _ O4)) (end_of_store _ _ O5)) as E.
  eapply end_of_ext; [|exact E]. intros t. cbv beta. split.
  - intros [[[[k [n [x [I [L ->]]]]]|[v I]]|[v I]]|[v I]].
    + eapply ends_note; eauto.
    + eapply ends_tempo; eauto.
    + eapply ends_dumper; eauto.
    + eapply ends_soft; eauto.
  - intros []; eauto 10.
Qed.

(** When replenishing succeeds. *)
Lemma replenish_total p : project_ok p -> notes_valid p -> valid_rhythms p ->
  (forall t r, ends_at p t -> rhythm_at p (last_tick p) = Ret r -> t + rhythm_tick_len r <= u32_max + 1) ->
  exists p' more, replenish_bars p = Ret (p', more).
Proof.
  intros O V R F. pose proof (ok_bars p O) as Hb. rewrite (replenish_unfold p Hb).
  destruct (rhythm_at_all _ p (last_tick p) Hb R) as [r [Er Rr]].
  pose proof (rhythm_tick_len_pos r Rr) as Lp. pose proof (last_tick_range p Hb) as U. unfold u32 in U.
  destruct (note_max_end_total p (ok_notes p O) V) as [ne En].
  { intros k n x I L. specialize (F (k + x) r (ends_note p k n x I L) Er). lia. }
  rewrite En. cbn [bind].
  pose proof (content_end_spec p ne O V (note_max_end_spec p ne (ok_notes p O) V En)) as [C1 [C2 C3]].
  destruct (Z.leb_spec (content_end p ne) (last_tick p)); [eauto|].
  rewrite Er. cbn [bind].
  destruct (replenish_loop_total (rhythm_tick_len r) (content_end p ne) (Z.to_nat (content_end p ne - last_tick p))
     (last_tick p) (pj_bars p) []) as [[bars added] E]; try lia.
  - destruct C3 as [C3|C3]; [lia|]. apply (F _ r C3 Er).
  - rewrite E. cbn. eauto.
Qed.

Lemma replenish_not_hang p : project_ok p -> notes_valid p -> valid_rhythms p -> replenish_bars p <> Hang.
Proof.
  intros O V R. pose proof (ok_bars p O) as Hb. rewrite (replenish_unfold p Hb).
  destruct (rhythm_at_all _ p (last_tick p) Hb R) as [r [Er Rr]].
  pose proof (rhythm_tick_len_pos r Rr) as Lp. pose proof (last_tick_range p Hb) as U. unfold u32 in U.
  pose proof (note_max_end_not_hang p (ok_notes p O) V) as NH.
  destruct (note_max_end_tick p) as [ne| |] eqn:En; try discriminate; [|tauto]. cbn [bind].
  destruct (Z.leb_spec (content_end p ne) (last_tick p)); [discriminate|].
  rewrite Er. cbn [bind].
  destruct (replenish_loop _ _ _ _ _ _) as [[bars added]| |] eqn:E; try discriminate.
  exfalso. revert E. apply replenish_loop_not_hang; lia.
Qed.

(** Exactly when it does not return. *)
Lemma replenish_loop_panic len max_end fuel : forall bar_tick bars acc,
  0 < len -> u32 bar_tick -> (Z.to_nat (max_end - bar_tick) <= fuel)%nat ->
  (replenish_loop fuel len bar_tick max_end bars acc = Panic <->
   forall k, 0 <= k -> max_end <= bar_tick + k * len -> u32_max < bar_tick + k * len).
Proof.
  induction fuel as [|f IH]; intros bt bars acc Hlen U Hf; cbn [replenish_loop];
    destruct (Z.ltb_spec bt max_end) as [L|L]; try lia.
  - split; [discriminate|]. intros H. specialize (H 0). unfold u32 in U. lia.
  - unfold u32 in U. destruct (Z.leb_spec (bt + len) u32_max) as [B|B].
    + unfold chk_u32. rewrite chk_ret by lia. cbn [bind]. rewrite IH; [|auto|unfold u32; lia|lia].
      split; intros H k K M.
      * destruct (Z.eq_dec k 0) as [->|N]; [lia|]. specialize (H (k - 1)).
        replace (bt + len + (k - 1) * len) with (bt + k * len) in H by lia. apply H; lia.
      * specialize (H (k + 1)). replace (bt + (k + 1) * len) with (bt + len + k * len) in H by lia. apply H; lia.
    + replace (chk_u32 (bt + len)) with (@Panic Z).
      * split; [|auto]. intros _ k K M. destruct (Z.eq_dec k 0) as [->|N]; [lia|]. nia.
      * unfold chk_u32, chk, in_range. destruct (Z.leb_spec (bt + len) u32_max); [lia|]. now rewrite andb_false_r.
  - split; [discriminate|]. intros H. specialize (H 0). unfold u32 in U. lia.
Qed.

Lemma rhythm_tick_len_nonneg r : 0 <= rhythm_tick_len r.
Proof. unfold rhythm_tick_len, as_u32. apply Z.mod_pos_bound. reflexivity. Qed.

Lemma replenish_exact p : project_ok p -> notes_valid p ->
  exists r, rhythm_at p (last_tick p) = Ret r /\
  (replenish_bars p = Hang <->
     rhythm_tick_len r = 0 /\ (exists t, ends_at p t /\ last_tick p < t) /\ forall t, ends_at p t -> t <= u32_max) /\
  (replenish_bars p = Panic <-> exists t, ends_at p t /\
     (u32_max < t \/
      last_tick p < t /\ 0 < rhythm_tick_len r /\
      forall k, 0 <= k -> t <= last_tick p + k * rhythm_tick_len r -> u32_max < last_tick p + k * rhythm_tick_len r)).
Proof.
  intros O V. pose proof (ok_bars p O) as Hb. rewrite (replenish_unfold p Hb).
  destruct (rhythm_at_spec p (last_tick p) Hb) as [o [_ Er]].
  set (r := match o with Some r => r | None => pj_rhythm p end) in *. clearbody r.
  exists r. split; auto.
  pose proof (rhythm_tick_len_nonneg r) as Lp. pose proof (last_tick_range p Hb) as U.
  pose proof (note_max_end_not_hang p (ok_notes p O) V) as NH.
  destruct (note_max_end_tick p) as [ne| |] eqn:En; [|clear NH|tauto].
  2:{ cbn [bind].
    assert (X : exists t, ends_at p t /\ u32_max < t).
    { assert (Y : ~ entries_fit (pj_notes p)).
      { intros F. destruct (note_max_end_total p (ok_notes p O) V F) as [o' F']. congruence. }
      clear - Y. revert Y. assert (D : forall l, (forall k n, In (k, n) l -> In (k, n) (pj_notes p)) ->
        ~ entries_fit l -> exists t, ends_at p t /\ u32_max < t).
      { induction l as [|[k n] l IH]; intros I Y; [exfalso; apply Y; intros k n x []|].
        destruct (note_tick_len n) as [x| |] eqn:E.
        - destruct (Z.leb_spec (k + x) u32_max) as [B|B].
          + apply IH; [intros; apply I; now right|]. intros F. apply Y. intros k' n' x' [J|J] E'; [|eauto].
            inv J. assert (x' = x) by congruence. subst. auto.
          + exists (k + x). split; auto. apply ends_note with n; auto. apply I. now left.
        - apply IH; [intros; apply I; now right|]. intros F. apply Y. intros k' n' x' [J|J] E'; [|eauto].
          inv J. congruence.
        - apply IH; [intros; apply I; now right|]. intros F. apply Y. intros k' n' x' [J|J] E'; [|eauto].
          inv J. congruence. }
      intros Y. apply (D (pj_notes p)); auto. }
    destruct X as [t [X1 X2]]. split; split; try discriminate; eauto.
    intros [_ [_ X]]. specialize (X t X1). lia. }
  cbn [bind].
  pose proof (content_end_spec p ne O V (note_max_end_spec p ne (ok_notes p O) V En)) as [C1 [C2 C3]].
  set (m := content_end p ne) in *. clearbody m. unfold u32 in C1, U.
  destruct (Z.leb_spec m (last_tick p)) as [L|L].
  { split; split; try discriminate.
    - intros [_ [[t [T1 T2]] _]]. apply C2 in T1. lia.
    - intros [t [T1 T2]]. apply C2 in T1. lia. }
  rewrite Er. cbn [bind]. destruct C3 as [C3|C3]; [lia|].
  assert (Z' : rhythm_tick_len r = 0 \/ 0 < rhythm_tick_len r) by lia. destruct Z' as [Z'|Z'].
  - rewrite Z'. rewrite replenish_loop_zero by (auto; unfold u32; lia). cbn [bind].
    split; split; try discriminate; auto.
    + intros _. split; auto. split; [eauto|]. intros t T. apply C2 in T. lia.
    + intros [t [T1 [T2|T2]]]; [apply C2 in T1|]; lia.
  - pose proof (replenish_loop_not_hang (rhythm_tick_len r) m (Z.to_nat (m - last_tick p)) (last_tick p) (pj_bars p) [] Z' ltac:(lia)) as NH'.
    pose proof (replenish_loop_panic (rhythm_tick_len r) m (Z.to_nat (m - last_tick p)) (last_tick p) (pj_bars p) [] Z' ltac:(unfold u32; lia) ltac:(lia)) as P.
    destruct (replenish_loop _ _ _ _ _ _) as [[bars added]| |]; cbn [bind]; [| |tauto].
    + split; split; try discriminate; [lia|].
      intros [t [T1 T2]]. apply C2 in T1. destruct T2 as [T2|[T2 [T3 T4]]]; [lia|].
      assert (X : Ret (bars, added) = @Panic (list (Z * bar) * list bar)) by (apply P; intros k K M; apply T4; lia).
      discriminate.
    + split; split; try discriminate; auto; [lia|]. intros _. exists m. split; auto. right.
      split; [lia|]. split; auto. now apply P.
Qed.

Lemma replenish_covered p p' more : project_ok p -> notes_valid p ->
  replenish_bars p = Ret (p', more) -> covered p'.
Proof.
  intros O V E. pose proof (ok_bars p O) as Hb.
  destruct (replenish_ret p p' more Hb E) as [ne [r [n [E1 [E2 [E3 [E4 [E5 E6]]]]]]]].
  pose proof (content_end_spec p ne O V (note_max_end_spec p ne (ok_notes p O) V E1)) as [C1 [C2 C3]].
  intros t T. assert (Tp : ends_at p t).
  { subst p'. destruct T; [eapply ends_note|eapply ends_tempo|eapply ends_dumper|eapply ends_soft]; eauto. }
  apply C2 in Tp. rewrite E4. cbn. destruct n as [|n].
  - unfold last_tick in E5. destruct (pj_bars p) as [|x s]; [left; lia|right].
    pose proof (last_In bar x s) as I. destruct (last s x) as [k b] eqn:El. exists k, b.
    split; [apply in_or_app; left; exact I|cbn in *; lia].
  - right. exists (last_tick p + Z.of_nat (S n) * rhythm_tick_len r), (mkBar (last_tick p + Z.of_nat (S n) * rhythm_tick_len r) None None 0).
    split; [|lia]. apply in_or_app. right. rewrite E3, even_bars_snoc, map_app. apply in_or_app. right. left. reflexivity.
Qed.
