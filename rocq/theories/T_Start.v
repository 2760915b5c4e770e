(** Property theorems about where playing can be started after edits: C96. *)
From Coq Require Import ZArith List Bool Lia Sorted.
From Verif Require Import Base M_Duration M_Scalar M_Bar M_Note M_Store M_Models M_Project M_Repeat S_Note S_Repeat S_Silent S_Panic S_Twice S_Ending S_Further S_Return S_Project S_Score S_Effect S_Write S_Start.
From Verif Require Import P_Base P_Store P_Query P_Edit P_Chunk P_Heard.
From Verif Require T_Repeat T_Number T_Times T_Reading T_Heard T_Twice T_Write T_Return.
Import ListNotations.
Open Scope Z_scope.

(** ** The n-th time in a list *)
Lemma nth_prefix t n x y pos : pos < Z.of_nat (length x) -> (nth_time t n (x ++ y) pos <-> nth_time t n x pos).
Proof.
  intros L. split.
  - intros (a & b & E & -> & T). assert (LE : (length a < length x)%nat) by lia. clear L.
    exists a. revert x E LE T. generalize n. induction a as [|z a IH]; intros m x E LE T; (destruct x as [|z' x]; [cbn in LE; lia|]); cbn in E; injection E as E1 E2; subst.
    + exists x. auto.
    + rewrite times_cons in T. destruct (IH (m - (if t =? z then 1 else 0)) x E2 ltac:(cbn in LE; lia) ltac:(lia)) as (b' & -> & _ & _). exists b'. split; [reflexivity|]. split; [reflexivity|]. rewrite times_cons. exact T.
  - intros (a & b & -> & -> & T). exists a, (b ++ y). rewrite <- app_assoc. auto.
Qed.

Lemma nth_suffix t n x y pos : Z.of_nat (length x) <= pos -> (nth_time t n (x ++ y) pos <-> nth_time t (n - times t x) y (pos - Z.of_nat (length x))).
Proof.
  intros L. split.
  - intros (a & b & E & -> & T). exists (skipn (length x) a), b. assert (LE : (length x <= length a)%nat) by lia. clear L.
    revert a n E LE T. induction x as [|z x IH]; intros a n E LE T.
    + cbn [app] in E. cbn [length skipn]. split; [exact E|]. split; [lia|]. change (times t []) with 0. lia.
    + destruct a as [|z' a]; [cbn in LE; lia|]. cbn in E. injection E as E1 E2. subst z'. rewrite times_cons in T.
      destruct (IH a (n - (if t =? z then 1 else 0)) E2 ltac:(cbn in LE; lia) ltac:(lia)) as (H1 & H2 & H3). cbn [length skipn]. split; [exact H1|]. split; [lia|]. rewrite times_cons. lia.
  - intros H. replace pos with (Z.of_nat (length x) + (pos - Z.of_nat (length x))) by lia. apply nth_time_shift. exact H.
Qed.

Lemma nth_bounds t n l pos : nth_time t n l pos -> 0 <= pos < Z.of_nat (length l).
Proof. intros (a & b & -> & -> & _). rewrite app_length. cbn [length]. lia. Qed.

Lemma nth_passage t n s e pos : s <= e -> (nth_time t n (from_to s e) pos <-> n = 1 /\ 0 <= pos < e - s /\ t = s + pos).
Proof.
  intros L. split.
  - intros H. pose proof (nth_bounds _ _ _ _ H) as B. rewrite from_to_length in B by lia. pose proof (nth_time_count _ _ _ _ H) as C. rewrite times_from_to in C.
    destruct ((s <=? t) && (t <? e)) eqn:X; [|lia]. apply andb_true_iff in X as [X1 X2]. apply Z.leb_le in X1. apply Z.ltb_lt in X2.
    assert (n = 1) by lia. subst n. split; [reflexivity|].
    assert (H' : nth_time t 1 (from_to s e) (t - s)).
    { exists (from_to s t), (from_to (t + 1) e). rewrite <- (from_to_cons t e) by lia. rewrite from_to_app by lia. rewrite from_to_length by lia.
      rewrite times_from_to. replace (t <? t) with false by lia. rewrite andb_false_r. repeat split; lia. }
    rewrite (nth_time_fun _ _ _ _ _ H H') in *. lia.
  - intros (-> & B & ->). exists (from_to s (s + pos)), (from_to (s + pos + 1) e). rewrite <- (from_to_cons (s + pos) e) by lia. rewrite from_to_app by lia. rewrite from_to_length by lia.
    rewrite times_from_to. replace (s + pos <? s + pos) with false by lia. rewrite andb_false_r. repeat split; lia.
Qed.

Lemma nth_first x l pos : nth_time x 1 l pos -> Z.of_nat (length (until x l)) = pos.
Proof.
  intros (a & b & -> & -> & T). assert (N : ~ In x a).
  { intros I. apply in_split in I as (u & v & ->). rewrite times_app, times_cons, Z.eqb_refl in T. pose proof (times_nonneg x u). pose proof (times_nonneg x v). lia. }
  rewrite P_Jump.until_app by exact N. cbn [until]. rewrite Z.eqb_refl, app_nil_r. reflexivity.
Qed.

Lemma until_rest x l : In x l -> exists r, l = until x l ++ x :: r.
Proof.
  induction l as [|y l IH]; intros I; [destruct I|]. cbn [until]. destruct (y =? x) eqn:E.
  - apply Z.eqb_eq in E. subst y. exists l. reflexivity.
  - destruct I as [->|I]; [lia|]. destruct (IH I) as [r R]. exists r. cbn [app]. f_equal. exact R.
Qed.

(** ** In a project *)
Lemma within_tune p t : project_ok p -> within p t -> tune (score p).
Proof.
  intros O (T & M & M0 & B & BD). apply T_Write.score_tune; [exact O|]. apply Forall_forall. intros b I E. specialize (B b I). unfold u32_max in *. lia.
Qed.

(** A start is a time the tick is heard. *)
Theorem C96_start : forall p t n pos c w cs, project_ok p -> within p t -> render_project p = Ret (Ok (c, w)) -> to_chunks c = Ret cs ->
  (start_at p t n pos <-> nth_time t n (performance cs) pos).
Proof.
  intros p t n pos c w cs O W R K. pose proof (within_tune p t O W) as T. destruct W as (T0 & M & M0 & B & BD).
  destruct (T_Reading.C64_any_marks _ _ _ _ _ t T R K) as (F & _ & H). destruct (H M B M0 T0 BD) as (table & TB & H1 & H2). split.
  - intros (N & c' & w' & cs' & table' & R' & K' & TB' & A). rewrite R in R'. injection R' as <- <-. rewrite K in K'. injection K' as <-. rewrite TB in TB'. injection TB' as <-.
    destruct (Z.lt_ge_cases (times t (performance cs)) n) as [L|L].
    + rewrite (H2 n N L) in A. discriminate A.
    + destruct (nth_time_exists t (performance cs) n ltac:(lia)) as [q Q]. rewrite (H1 n q Q) in A. injection A as <-. exact Q.
  - intros N. split; [pose proof (nth_time_count _ _ _ _ N); lia|]. exists c, w, cs, table. auto.
Qed.
Print Assumptions C96_start.

(** Two projects that are heard alike up to a position start alike there. *)
Lemma alike_starts p p' t n pos c w cs c' w' cs' x y y' : project_ok p -> project_ok p' -> within p t -> within p' t ->
  render_project p = Ret (Ok (c, w)) -> to_chunks c = Ret cs -> render_project p' = Ret (Ok (c', w')) -> to_chunks c' = Ret cs' ->
  performance cs = x ++ y -> performance cs' = x ++ y' -> pos < Z.of_nat (length x) -> (start_at p t n pos <-> start_at p' t n pos).
Proof.
  intros O O' W W' R K R' K' P P' L. rewrite (C96_start p t n pos c w cs O W R K), (C96_start p' t n pos c' w' cs' O' W' R' K'), P, P'.
  rewrite !nth_prefix by exact L. reflexivity.
Qed.

Lemma inserted_gains p p' c w cs c' w' cs' x s e y : project_ok p -> project_ok p' ->
  render_project p = Ret (Ok (c, w)) -> to_chunks c = Ret cs -> render_project p' = Ret (Ok (c', w')) -> to_chunks c' = Ret cs' -> s <= e ->
  performance cs = x ++ y -> performance cs' = x ++ from_to s e ++ y -> gains p p' (Z.of_nat (length x)) s e.
Proof.
  intros O O' R K R' K' L P P' t W W'. pose proof (fun n pos => C96_start p t n pos c w cs O W R K) as E. pose proof (fun n pos => C96_start p' t n pos c' w' cs' O' W' R' K') as E'.
  split; [|split].
  - intros n pos B. rewrite E, E', P, P', !nth_prefix by exact B. reflexivity.
  - intros n pos B. rewrite E, E', P, P', !nth_suffix by (rewrite ?from_to_length by lia; lia). rewrite from_to_length, times_from_to by lia. unfold once.
    replace (n + (if (s <=? t) && (t <? e) then 1 else 0) - times t x - (if (s <=? t) && (t <? e) then 1 else 0)) with (n - times t x) by lia.
    replace (pos + (e - s) - Z.of_nat (length x) - (e - s)) with (pos - Z.of_nat (length x)) by lia. reflexivity.
  - intros pos B. split.
    + intros [n H]. rewrite E', P', nth_suffix in H by lia. rewrite nth_prefix in H by (rewrite from_to_length by lia; lia). rewrite nth_passage in H by lia. lia.
    + intros ->. exists (1 + times (s + (pos - Z.of_nat (length x))) x). rewrite E', P', nth_suffix by lia. rewrite nth_prefix by (rewrite from_to_length by lia; lia). rewrite nth_passage by lia. lia.
Qed.

(** Whatever is done behind a bar line, all starts before the line is first reached stay. *)
Theorem C96_later : forall p p' x px k k' w w' cs cs', project_ok p -> project_ok p' -> within p x -> within p' x ->
  pj_rhythm p = pj_rhythm p' -> T_Heard.bars_to x p = T_Heard.bars_to x p' -> In x (map b_tick (score p)) ->
  Forall no_jump (T_Heard.bars_to x p) -> implicit_clear (score p) -> implicit_clear (score p') ->
  render_project p = Ret (Ok (k, w)) -> to_chunks k = Ret cs -> render_project p' = Ret (Ok (k', w')) -> to_chunks k' = Ret cs' ->
  start_at p x 1 px ->
  start_at p' x 1 px /\ forall t n pos, within p t -> within p' t -> pos < px -> (start_at p t n pos <-> start_at p' t n pos).
Proof.
  intros p p' x px k k' w w' cs cs' O O' WX WX' RH B I NJ C C' R K R' K' H.
  destruct (T_Heard.C78_projects p p' x k k' w w' cs cs' (within_tune p x O WX) (within_tune p' x O' WX') RH B I NJ C C' R K R' K') as (E & J & J').
  rewrite (C96_start p x 1 px k w cs O WX R K) in H. apply nth_first in H. destruct (until_rest _ _ J) as [r P]. destruct (until_rest _ _ J') as [r' P']. rewrite <- E in P'. split.
  - rewrite (C96_start p' x 1 px k' w' cs' O' WX' R' K'). exists (until x (performance cs)), r'. split; [exact P'|]. split; [lia|].
    apply times_zero. clear. induction (performance cs) as [|y l IH]; cbn [until]; [auto|]. destruct (y =? x) eqn:X; [auto|]. intros [->|Q]; [lia|auto].
  - intros t n pos W W' L. apply (alike_starts p p' t n pos k w cs k' w' cs' _ _ _ O O' W W' R K R' K' P P'). lia.
Qed.
Print Assumptions C96_later.

Lemma changed_ok p bars' ch p' : project_ok p -> differences (score p) bars' ch -> edits_done p [change_bars ch] p' -> project_ok p'.
Proof.
  intros O D E. inversion E as [|? ? k p1 ? ? E1 E2]; subst. inversion E2; subst. destruct (T_Write.differ_edit p bars' ch O D) as (T & _). exact (proj1 (edit_ok _ _ _ _ O T E1)).
Qed.

(** Repeat signs around a passage: the passage can be started a second time, directly behind the first time. *)
Theorem C96_repeat : forall p a x x' m y y' q ch p' c w pa, project_ok p -> score p = a ++ x :: m ++ y :: q ->
  Forall compatible (score p) -> marked Dc (score p) = [] -> marked Ds (score p) = [] ->
  render_project p = Ret (Ok (c, w)) -> idle (x :: m ++ [y]) -> outside a q -> signed Start x x' -> signed End y y' ->
  differences (score p) (a ++ x' :: m ++ y' :: q) ch -> edits_done p [change_bars ch] p' ->
  within p (b_tick y) -> within p' (b_tick y) -> start_at p (b_tick x) 1 pa ->
  gains p p' (pa + (b_tick y - b_tick x)) (b_tick x) (b_tick y) /\
  forall t, b_tick x <= t < b_tick y -> start_at p' t 2 (pa + (b_tick y - b_tick x) + (t - b_tick x)).
Proof.
  intros p a x x' m y y' q ch p' c w pa O E F A B R I OU SX SY D ED W W' H. pose proof (changed_ok p _ ch p' O D ED) as O'.
  pose proof (within_tune p _ O W) as T.
  assert (U : Forall (fun b => b_tick b <> u32_max) (score p)) by (eapply Forall_impl; [|exact (proj2 T)]; cbn; lia).
  assert (L : b_tick x < b_tick y).
  { destruct T as [SS _]. rewrite E, map_app in SS. apply sorted_split in SS as (_ & SS & _). cbn [map] in SS. inversion SS as [|? ? _ FA]; subst. rewrite Forall_forall in FA. apply FA.
    rewrite map_app, in_app_iff. right. left. reflexivity. }
  assert (BX : 0 <= b_tick x). { destruct T as [_ SU]. rewrite Forall_forall in SU. apply SU. rewrite E. apply in_elt. }
  destruct (T_Write.C89_repeat p a x x' m y y' q ch p' c w O E U F A B R I OU SX SY D ED) as (cs & c' & cs' & K & R' & K' & X & Y & P & P' & XI).
  assert (WT : forall p t, within p (b_tick y) -> 0 <= t <= b_tick y -> within p t). { clear. intros p t (_ & M & M0 & HB & BD) L. split; [lia|]. exists M. repeat split; auto; lia. }
  assert (WX : within p (b_tick x)) by (apply WT; [exact W|lia]). rewrite (C96_start p (b_tick x) 1 pa c w cs O WX R K), P in H.
  assert (NX : ~ In (b_tick x) X) by (rewrite XI; lia).
  assert (PA : pa = Z.of_nat (length X)).
  { apply nth_first in H. rewrite P_Jump.until_app in H by exact NX. rewrite (from_to_cons (b_tick x)) in H by lia. cbn [app until] in H. rewrite Z.eqb_refl, app_nil_r in H. lia. }
  split.
  - pose proof (inserted_gains p p' c w cs c' [] cs' (X ++ from_to (b_tick x) (b_tick y)) (b_tick x) (b_tick y) Y O O' R K R' K' ltac:(lia)) as G.
    rewrite app_length, Nat2Z.inj_add, from_to_length, <- PA in G by lia. apply G; rewrite <- app_assoc; assumption.
  - intros t B1. assert (WX' : within p' t) by (apply WT; [exact W'|lia]). rewrite (C96_start p' t _ _ c' [] cs' O' WX' R' K'), P'.
    rewrite nth_suffix by lia. rewrite times_zero by (rewrite XI; lia). rewrite nth_suffix by (rewrite from_to_length by lia; lia). rewrite nth_prefix by (rewrite !from_to_length by lia; lia).
    rewrite nth_passage, times_from_to, from_to_length by lia. replace ((b_tick x <=? t) && (t <? b_tick y)) with true by (symmetry; apply andb_true_iff; split; [apply Z.leb_le|apply Z.ltb_lt]; lia). lia.
Qed.
Print Assumptions C96_repeat.

Lemma unended p t : project_ok p -> within p t -> Forall (fun b => b_tick b <> u32_max) (score p).
Proof. intros O W. eapply Forall_impl; [|exact (proj2 (within_tune p t O W))]. cbn. lia. Qed.
Lemma within_less p t t' : within p t -> 0 <= t' <= t -> within p t'.
Proof. intros (_ & M & M0 & HB & BD) L. split; [lia|]. exists M. repeat split; auto; lia. Qed.
Lemma in_order p t a x b y c : project_ok p -> within p t -> score p = a ++ x :: b ++ y :: c -> 0 <= b_tick x < b_tick y.
Proof.
  intros O W E. destruct (within_tune p t O W) as [SS SU]. rewrite E in *. split; [rewrite Forall_forall in SU; apply SU, in_elt|].
  rewrite map_app in SS. apply sorted_split in SS as (_ & SS & _). cbn [map] in SS. inversion SS as [|? ? _ FA]; subst. rewrite Forall_forall in FA. apply FA.
  rewrite map_app, in_app_iff. right. left. reflexivity.
Qed.

(** A first and a second ending: what the second time plays of the first ending can no more be started, and all that follows comes so much earlier. *)
Theorem C96_endings : forall p a x m v v' y y' n n' z q t ch p' c w pa, project_ok p -> score p = a ++ x :: m ++ v ++ y :: n ++ z :: q ->
  Forall compatible (score p) -> marked Dc (score p) = [] -> marked Ds (score p) = [] -> render_project p = Ret (Ok (c, w)) ->
  has x Start = true -> idle (m ++ v ++ n) -> has y End = true -> has y Start = false -> has z End = false -> no_var z -> Forall no_goal v ->
  hd_error (map b_tick v) = Some t -> Forall2 (signed Var1) v v' -> second_sign y y' -> Forall2 (signed Var2) n n' ->
  differences (score p) (a ++ x :: m ++ v' ++ y' :: n' ++ z :: q) ch -> edits_done p [change_bars ch] p' ->
  within p (b_tick y) -> start_at p (b_tick x) 1 pa ->
  gains p' p (pa + (b_tick y - b_tick x) + (t - b_tick x)) t (b_tick y).
Proof.
  intros p a x m v v' y y' n n' z q t ch p' c w pa O E F A B R XS I YE YS ZE ZV NG HT SV SY SN D ED W H. pose proof (changed_ok p _ ch p' O D ED) as O'.
  destruct v as [|v0 v]; [discriminate HT|]. cbn in HT. injection HT as <-.
  assert (L1 : 0 <= b_tick x < b_tick v0) by (apply (in_order p _ a x m v0 (v ++ y :: n ++ z :: q) O W); rewrite E; reflexivity).
  assert (L2 : 0 <= b_tick v0 < b_tick y) by (apply (in_order p _ (a ++ x :: m) v0 v y (n ++ z :: q) O W); rewrite E, <- app_assoc; reflexivity).
  destruct (T_Write.C89_endings p a x m _ v' y y' n n' z q (b_tick v0) ch p' c w O E (unended _ _ O W) F A B R XS I YE YS ZE ZV NG eq_refl SV SY SN D ED) as (cs & c' & cs' & K & R' & K' & X & Y & P & P' & XI).
  assert (WX : within p (b_tick x)) by (apply (within_less _ _ _ W); lia). rewrite (C96_start p (b_tick x) 1 pa c w cs O WX R K), P in H.
  assert (PA : pa = Z.of_nat (length X)).
  { apply nth_first in H. rewrite P_Jump.until_app in H by (rewrite XI; lia). rewrite (from_to_cons (b_tick x)) in H by lia. cbn [app until] in H. rewrite Z.eqb_refl, app_nil_r in H. lia. }
  pose proof (inserted_gains p' p c' [] cs' c w cs (X ++ from_to (b_tick x) (b_tick y) ++ from_to (b_tick x) (b_tick v0)) (b_tick v0) (b_tick y) Y O' O R' K' R K ltac:(lia)) as G.
  rewrite !app_length, !Nat2Z.inj_add, !from_to_length, <- PA in G by lia. rewrite Z.add_assoc in G. apply G; rewrite <- !app_assoc; assumption.
Qed.
Print Assumptions C96_endings.

(** One more ending: the passage before the endings can be started once more, in front of the new ending. *)
Theorem C96_further : forall p k j a x m u w y y' n n' z q t ch p' c wa pb, project_ok p -> score p = a ++ x :: m ++ u ++ w ++ y :: n ++ z :: q ->
  Forall compatible (score p) -> marked Dc (score p) = [] -> marked Ds (score p) = [] -> render_project p = Ret (Ok (c, wa)) ->
  has x Start = true -> idle m -> idle (y :: n) -> is_var j = true -> is_var k = true -> mark_bit k = mark_bit j + 1 ->
  Forall (fun b => ~ no_var b /\ has b j = false) u -> Forall (fun b => has b j = true) w -> w <> [] ->
  no_var z -> Forall no_goal w -> hd_error (map b_tick (u ++ w)) = Some t -> signed k y y' -> Forall2 (signed k) n n' ->
  differences (score p) (a ++ x :: m ++ u ++ w ++ y' :: n' ++ z :: q) ch -> edits_done p [change_bars ch] p' ->
  within p (b_tick y) -> start_at p (b_tick y) 1 pb ->
  gains p p' pb (b_tick x) t.
Proof.
  intros p k j a x m u w y y' n n' z q t ch p' c wa pb O E F A B R XS BM BN JV KV KJ UU WJ NW ZV NG HT SY SN D ED W H. pose proof (changed_ok p _ ch p' O D ED) as O'.
  assert (L1 : b_tick x < t).
  { assert (E' : score p = a ++ x :: m ++ (u ++ w) ++ y :: n ++ z :: q) by (rewrite E, <- app_assoc; reflexivity).
    destruct (u ++ w) as [|v0 v]; [discriminate HT|]. cbn in HT. injection HT as <-. apply (in_order p (b_tick y) a x m v0 (v ++ y :: n ++ z :: q) O W). exact E'. }
  destruct (T_Write.C89_further p k j a x m u w y y' n n' z q t ch p' c wa O E (unended _ _ O W) F A B R XS BM BN JV KV KJ UU WJ NW ZV NG HT SY SN D ED) as (cs & c' & cs' & K & R' & K' & X & Y & P & P' & XI).
  rewrite (C96_start p (b_tick y) 1 pb c wa cs O W R K), P in H.
  assert (PB : pb = Z.of_nat (length X)).
  { apply nth_first in H. rewrite P_Jump.until_app in H by (rewrite XI; lia). cbn [until] in H. rewrite Z.eqb_refl, app_nil_r in H. lia. }
  rewrite PB. apply (inserted_gains p p' c wa cs c' [] cs' X (b_tick x) t (b_tick y :: Y) O O' R K R' K' ltac:(lia) P P').
Qed.
Print Assumptions C96_further.

(** D.C. or D.S. written at [d]: all starts before [d] is first reached stay. *)
Theorem C96_jump : forall p m bars' ch p' c w cs x cs' d pd, project_ok p -> Forall compatible (score p) ->
  render_project p = Ret (Ok (c, w)) -> to_chunks c = Ret cs -> marked Dc (score p) = [] -> marked Ds (score p) = [] -> first_bar_len (score p) <> None ->
  m = Dc \/ m = Ds -> Forall2 (differ m) (score p) bars' -> marked m bars' = [d] -> Forall compatible bars' -> implicit_clear bars' ->
  render_region (pj_rhythm p) bars' = Ret (Ok x) -> to_chunks (fst x) = Ret cs' ->
  differences (score p) bars' ch -> edits_done p [change_bars ch] p' -> within p d -> start_at p d 1 pd ->
  forall t n pos, within p t -> within p' t -> pos < pd -> (start_at p t n pos <-> start_at p' t n pos).
Proof.
  intros p m bars' ch p' c w cs x cs' d pd O F R TC MD MS FB M D MM F' IC R' TC' DI ED WD H t n pos W W' L. pose proof (changed_ok p _ ch p' O DI ED) as O'.
  destruct (T_Return.C91_project_jump p m bars' ch p' c w cs x cs' d O (unended _ _ O WD) F R TC MD MS FB M D MM F' IC R' TC' DI ED) as (RP & s & l & second & _ & PS).
  destruct x as [c' w']. destruct PS as (_ & _ & P' & _).
  rewrite (C96_start p d 1 pd c w cs O WD R TC) in H.
  assert (J : In d (performance cs)) by (destruct H as (u & v & -> & _); apply in_elt). destruct (until_rest _ _ J) as [r P]. apply nth_first in H.
  apply (alike_starts p p' t n pos c w cs c' w' cs' _ _ _ O O' W W' R TC RP TC' P P'). lia.
Qed.
Print Assumptions C96_jump.

Lemma sorted_cut f l : StronglySorted Z.lt l -> l = filter (fun t => t <? f) l ++ filter (fun t => f <=? t) l.
Proof.
  induction 1 as [|y l SS IH FA]; [reflexivity|]. cbn [filter]. destruct (y <? f) eqn:X.
  - replace (f <=? y) with false by lia. cbn [app]. f_equal. exact IH.
  - replace (f <=? y) with true by lia. rewrite Forall_forall in FA.
    assert (N : filter (fun t => t <? f) l = []).
    { clear IH. induction l as [|z l IH]; [reflexivity|]. cbn [filter]. replace (z <? f) with false by (specialize (FA z (or_introl eq_refl)); lia). apply IH; [inversion SS; auto|]. intros w I. apply FA. right. exact I. }
    rewrite N in *. cbn [app] in *. f_equal. exact IH.
Qed.

(** Fine: no start moves, and those of the second pass from Fine on are gone. *)
Theorem C96_fine : forall p bars' ch p' c w cs d s f, project_ok p -> Forall compatible (score p) ->
  render_project p = Ret (Ok (c, w)) -> to_chunks c = Ret cs -> jump (actual_top (full_bar (pj_rhythm p) (score p))) (score p) d s ->
  Forall2 (differ Fine) (score p) bars' -> marked Fine (score p) = [] -> marked Fine bars' = [f] -> (forall a b, marked Coda (score p) = [a; b] -> b < f) ->
  differences (score p) bars' ch -> edits_done p [change_bars ch] p' -> within p 0 ->
  exists l first second, passes (score p) s l first second (performance cs) /\
    forall t n pos, within p t -> within p' t -> (start_at p' t n pos <-> start_at p t n pos /\ (pos < Z.of_nat (length first) \/ t < f)).
Proof.
  intros p bars' ch p' c w cs d s f O F R TC J D MF MF' CF DI ED W0. pose proof (changed_ok p _ ch p' O DI ED) as O'.
  destruct (T_Return.C91_project_fine p bars' ch p' c w cs d s f O (unended _ _ O W0) F R TC J D MF MF' CF DI ED) as (l & first & second & c' & cs' & PS & RP & TC' & P').
  exists l, first, second. split; [exact PS|]. intros t n pos W W'. destruct PS as (_ & _ & P & SE).
  assert (SS : StronglySorted Z.lt second) by (rewrite SE; apply T_Repeat.C43_second).
  rewrite (C96_start p t n pos c w cs O W R TC), (C96_start p' t n pos c' w cs' O' W' RP TC'), P, P'.
  rewrite (sorted_cut f second SS) at 2. set (lo := filter (fun t => t <? f) second). set (hi := filter (fun t => f <=? t) second). rewrite app_assoc. split.
  - intros H. pose proof (nth_bounds _ _ _ _ H) as B. split; [apply nth_prefix; [lia|exact H]|].
    destruct (Z.lt_ge_cases pos (Z.of_nat (length first))) as [Q|Q]; [auto|right]. rewrite nth_suffix in H by lia. destruct H as (u & v & E & _).
    assert (I : In t lo) by (rewrite E; apply in_elt). unfold lo in I. apply filter_In in I. lia.
  - intros [H C]. destruct (Z.lt_ge_cases pos (Z.of_nat (length (first ++ lo)))) as [Q|Q]; [rewrite nth_prefix in H by exact Q; exact H|]. exfalso.
    rewrite nth_suffix in H by lia. destruct H as (u & v & E & _). assert (I : In t hi) by (rewrite E; apply in_elt). unfold hi in I. apply filter_In in I.
    rewrite app_length in Q. lia.
Qed.
Print Assumptions C96_fine.

(** Codas: no start of the first pass moves and none of the second before the first Coda; those between the Codas are gone in the second pass and those behind them come earlier by as much
    as is left out. *)
Theorem C96_codas : forall p bars' ch p' c w cs d s a b, project_ok p -> Forall compatible (score p) ->
  render_project p = Ret (Ok (c, w)) -> to_chunks c = Ret cs -> jump (actual_top (full_bar (pj_rhythm p) (score p))) (score p) d s ->
  Forall2 (differ Coda) (score p) bars' -> marked Coda (score p) = [] -> marked Coda bars' = [a; b] -> s < a -> a <= b -> (forall f, marked Fine (score p) = [f] -> b < f) ->
  differences (score p) bars' ch -> edits_done p [change_bars ch] p' -> within p 0 ->
  exists l first second out, passes (score p) s l first second (performance cs) /\ (forall t, In t out <-> In t second /\ a <= t < b) /\ NoDup out /\
    forall t n pos, within p t -> within p' t ->
      (pos < Z.of_nat (length first) \/ t < a -> (start_at p' t n pos <-> start_at p t n pos)) /\
      (Z.of_nat (length first) <= pos -> b <= t -> (start_at p' t n pos <-> start_at p t n (pos + Z.of_nat (length out)))) /\
      (Z.of_nat (length first) <= pos -> a <= t < b -> ~ start_at p' t n pos).
Proof.
  intros p bars' ch p' c w cs d s a b O F R TC J D MC MC' SA AB CF DI ED W0. pose proof (changed_ok p _ ch p' O DI ED) as O'.
  destruct (T_Return.C91_project_codas p bars' ch p' c w cs d s a b O (unended _ _ O W0) F R TC J D MC MC' SA CF DI ED) as (l & first & second & c' & cs' & PS & RP & TC' & P').
  assert (SS : StronglySorted Z.lt second) by (destruct PS as (_ & _ & _ & ->); apply T_Repeat.C43_second).
  pose (lo := filter (fun t => t <? a) second). pose (rest := filter (fun t => a <=? t) second).
  pose (out := filter (fun t => t <? b) rest). pose (hi := filter (fun t => b <=? t) rest).
  assert (SR : StronglySorted Z.lt rest) by (apply P_Jump.filter_sorted, SS).
  assert (E1 : second = lo ++ out ++ hi) by (unfold out, hi; rewrite <- (sorted_cut b rest SR); apply sorted_cut, SS).
  assert (E2 : filter (fun t => negb ((a <=? t) && (t <? b))) second = lo ++ hi).
  { rewrite E1, !filter_app, (T_Number.filter_none _ out), (T_Number.filter_all _ lo), (T_Number.filter_all _ hi); [reflexivity|..];
      intros t I; unfold lo, hi, out, rest in I; rewrite ?filter_In in I; lia. }
  exists l, first, second, out. split; [exact PS|]. split; [intros t; unfold out, rest; rewrite !filter_In, Z.leb_le, Z.ltb_lt; tauto|].
  split; [apply NoDup_filter; clear - SR; induction SR as [|z r S0 IH FA]; constructor; [intros I; rewrite Forall_forall in FA; specialize (FA z I); lia|exact IH]|].
  intros t n pos W W'. destruct PS as (_ & _ & P & _). rewrite E1 in P. rewrite E2 in P'.
  pose proof (fun n pos => C96_start p t n pos c w cs O W R TC) as H. pose proof (fun n pos => C96_start p' t n pos c' w cs' O' W' RP TC') as H'. rewrite P in H. rewrite P' in H'.
  assert (NL : forall q, a <= q -> times q lo = 0) by (intros q L; apply times_zero; unfold lo; rewrite filter_In; lia).
  assert (NO : forall q, q < a \/ b <= q -> times q out = 0) by (intros q L; apply times_zero; unfold out, rest; rewrite !filter_In; lia).
  assert (NH : forall q, q < b -> times q hi = 0) by (intros q L; apply times_zero; unfold hi, rest; rewrite !filter_In; lia).
  assert (NN : forall q m (l : list Z) k, times q l = 0 -> ~ nth_time q m l k) by (intros q m l0 k T N; pose proof (nth_time_count _ _ _ _ N); lia).
  split; [|split].
  - intros C. rewrite H, H'. destruct (Z.lt_ge_cases pos (Z.of_nat (length (first ++ lo)))) as [Q|Q].
    + rewrite (app_assoc first lo hi), (app_assoc first lo (out ++ hi)). rewrite !(nth_prefix t n (first ++ lo)) by exact Q. reflexivity.
    + rewrite app_length in Q. assert (t < a) by lia. rewrite (app_assoc first lo hi), (app_assoc first lo (out ++ hi)).
      rewrite !(nth_suffix t n (first ++ lo)) by (rewrite app_length; lia). split; intros N; exfalso; revert N; apply NN; rewrite ?times_app, ?NO, ?NH by lia; lia.
  - intros L T. rewrite H, H'. destruct (Z.lt_ge_cases pos (Z.of_nat (length (first ++ lo)))) as [Q|Q]; rewrite app_length in Q.
    + split; intros N; exfalso.
      * rewrite nth_suffix in N by lia. rewrite nth_prefix in N by lia. revert N. apply NN, NL. lia.
      * rewrite (app_assoc lo out hi) in N. rewrite nth_suffix in N by lia. rewrite nth_prefix in N by (rewrite app_length; lia). revert N. apply NN. rewrite times_app, NL, NO by lia. lia.
    + rewrite (nth_suffix t n first (lo ++ hi)), (nth_suffix t n first (lo ++ out ++ hi)), (nth_suffix _ _ lo hi), (nth_suffix _ _ lo (out ++ hi)), (nth_suffix _ _ out hi) by lia.
      rewrite (NO t) by lia. rewrite Z.sub_0_r.
      replace (pos + Z.of_nat (length out) - Z.of_nat (length first) - Z.of_nat (length lo) - Z.of_nat (length out)) with (pos - Z.of_nat (length first) - Z.of_nat (length lo)) by lia. reflexivity.
  - intros L T. rewrite H'. rewrite nth_suffix by lia. apply NN. rewrite times_app, NL, NH by lia. lia.
Qed.
Print Assumptions C96_codas.

(** ** Cases *)
Import T_Repeat.
Ltac within_tac M := split; [lia|]; exists M; split; [lia|]; split; [rewrite T_Write.of_score; apply Forall_forall; repeat constructor; cbn; lia|unfold u32_max; lia].
Ltac start_tac := split; [lia|]; do 4 eexists; split; [vm_compute; reflexivity|split; [vm_compute; reflexivity|split; [vm_compute; reflexivity|vm_compute; reflexivity]]].

(** The score of C82_plain_case, where the other hypotheses are shown, as a project: starts before, in and behind the passage. *)
Example C96_repeat_case : let bars := [bar_at 960 []] ++ bar_at 1920 [] :: [] ++ bar_at 2880 [Segno] :: [bar_at 3840 [Start]; bar_at 4800 [End]] in
  let bars' := [bar_at 960 []] ++ bar_at 1920 [Start] :: [] ++ bar_at 2880 [Segno; End] :: [bar_at 3840 [Start]; bar_at 4800 [End]] in
  let p := T_Write.project_of bars in let p' := T_Write.project_of bars' in
  let ch := [(bar_at 2880 [Segno], bar_at 2880 [Segno; End]); (bar_at 1920 [], bar_at 1920 [Start])] in
  project_ok p /\ score p = bars /\ differences (score p) bars' ch /\ edits_done p [change_bars ch] p' /\ within p 4000 /\ within p' 4000 /\
  start_at p 1000 1 1000 /\ start_at p' 1000 1 1000 /\ start_at p 1920 1 1920 /\ start_at p' 1920 1 1920 /\ start_at p' 1920 2 2880 /\
  start_at p 4000 2 4960 /\ start_at p' 4000 2 5920.
Proof.
  cbv zeta. rewrite T_Write.of_score. split; [apply T_Write.of_ok; tune_tac|]. split; [reflexivity|]. split; [T_Write.differ_tac|].
  split; [eapply done_cons; [vm_compute; reflexivity|apply done_nil]|]. split; [within_tac 4800|]. split; [within_tac 4800|]. repeat (split; [start_tac|]). start_tac.
Qed.

(** The projects of C91_project_case, where D.C. and then Fine are written. *)
Example C96_pass_case : let p := T_Write.project_of T_Return.bare_bars in let p1 := T_Write.project_of T_Return.dc_bars in let p2 := T_Write.project_of T_Return.fine_bars in
  let p3 := T_Write.project_of T_Return.coda_bars in
  within p 6000 /\ within p1 6000 /\ within p2 6000 /\ within p3 6000 /\
  start_at p 1000 2 2920 /\ start_at p1 1000 2 2920 /\ start_at p 5760 1 6720 /\ start_at p1 1000 3 7720 /\
  start_at p2 1000 3 7720 /\ start_at p1 5000 2 10760 /\ (forall pos, ~ start_at p2 5000 2 pos) /\
  start_at p2 4000 2 9760 /\ start_at p3 4000 2 8800 /\ (forall pos, ~ start_at p3 1000 3 pos).
Proof.
  cbv zeta. do 4 (split; [within_tac 6720|]). do 6 (split; [start_tac|]).
  assert (N : forall q t n c w cs table, render_project q = Ret (Ok (c, w)) -> to_chunks c = Ret cs -> by_accum_tick cs = Ret table ->
    (forall x, to_accum_tick (play_start_new t n) table <> Ret (Ok x)) -> forall pos, ~ start_at q t n pos).
  { intros q t n c w cs table R K T A pos (_ & c' & w' & cs' & table' & R' & K' & T' & A'). rewrite R in R'. injection R' as <- <-. rewrite K in K'. injection K' as <-.
    rewrite T in T'. injection T' as <-. exact (A _ A'). }
  split; [eapply N; [vm_compute; reflexivity..|vm_compute; discriminate]|].
  do 2 (split; [start_tac|]). eapply N; [vm_compute; reflexivity..|vm_compute; discriminate].
Qed.

(** The longer scores of C83_plain_case and C87_plain_case, where the other hypotheses are shown, as projects. *)
Example C96_endings_case : let bars v1 v2 y := T_Write.project_of ([bar_at 240 []] ++ bar_at 480 [Start] :: [bar_at 960 []] ++ [bar_at 1920 v1; bar_at 2880 v2] ++ bar_at 3840 y :: [] ++ bar_at 4800 [Start] :: [bar_at 5760 [End]]) in
  let p := bars [] [Fine] [End] in let p' := bars [Var1] [Fine; Var1] [Var2] in
  let ch := [(bar_at 1920 [], bar_at 1920 [Var1]); (bar_at 2880 [Fine], bar_at 2880 [Fine; Var1]); (bar_at 3840 [End], bar_at 3840 [Var2])] in
  project_ok p /\ differences (score p) (score p') ch /\ edits_done p [change_bars ch] p' /\ within p 4000 /\ within p' 4000 /\
  start_at p 480 1 480 /\ start_at p 2000 2 5360 /\ start_at p 1000 2 4360 /\ start_at p' 1000 2 4360 /\ start_at p 4000 1 7360 /\ start_at p' 4000 1 5440.
Proof.
  cbv zeta beta. rewrite !T_Write.of_score. split; [apply T_Write.of_ok; tune_tac|]. split; [T_Write.differ_tac|].
  split; [eapply done_cons; [vm_compute; reflexivity|apply done_nil]|]. split; [within_tac 5760|]. split; [within_tac 5760|]. repeat (split; [start_tac|]). start_tac.
Qed.
Example C96_further_case : let bars y := T_Write.project_of ([bar_at 240 []] ++ bar_at 480 [Start] :: [bar_at 960 []] ++ [bar_at 1920 [Var1]] ++ [bar_at 2880 [Fine; Var2]] ++ bar_at 3840 y :: [] ++ bar_at 4800 [Start] :: [bar_at 5760 [End]]) in
  let p := bars [] in let p' := bars [Var3] in let ch := [(bar_at 3840 [], bar_at 3840 [Var3])] in
  project_ok p /\ differences (score p) (score p') ch /\ edits_done p [change_bars ch] p' /\ within p 4000 /\ within p' 4000 /\
  start_at p 3840 1 5280 /\ start_at p 1000 2 3400 /\ start_at p' 1000 2 3400 /\ start_at p' 1000 3 5800 /\ start_at p 4000 1 5440 /\ start_at p' 4000 1 6880.
Proof.
  cbv zeta beta. rewrite !T_Write.of_score. split; [apply T_Write.of_ok; tune_tac|]. split; [T_Write.differ_tac|].
  split; [eapply done_cons; [vm_compute; reflexivity|apply done_nil]|]. split; [within_tac 5760|]. split; [within_tac 5760|]. repeat (split; [start_tac|]). start_tac.
Qed.
