(** Property theorems about writing signs into the bars of a project: C89. *)
From Coq Require Import ZArith List Bool Lia Sorted Permutation.
From Verif Require Import Base M_Pitch M_Duration M_Percent M_Scalar M_Bar M_Note M_Store M_Tuple M_Models M_Project M_Repeat.
From Verif Require Import S_Note S_Repeat S_Twice S_Ending S_Further S_Project S_Score S_Effect S_Write P_Base P_Store P_Query P_Replenish P_Edit P_History P_Effect.
From Verif Require T_Project T_Score T_Twice T_Ending T_Further T_Move.
Import ListNotations.
Open Scope Z_scope.

(** The bar that is put at the tick [k], or [b]. *)
Definition put_at (new : list bar) (kb : Z * bar) : Z * bar :=
  (fst kb, match find (fun b => b_tick b =? fst kb) new with Some b => b | None => snd kb end).
Lemma put_cases new k b : exists b', put_at new (k, b) = (k, b') /\ (In b' new /\ b_tick b' = k \/ b' = b /\ ~ In k (map b_tick new)).
Proof.
  unfold put_at. cbn [fst snd]. destruct (find _ new) as [b'|] eqn:E; eexists; (split; [reflexivity|]).
  - apply find_some in E as [I E]. left. split; [exact I|lia].
  - right. split; [reflexivity|]. intros I. apply in_map_iff in I as (x & X & I). apply (find_none _ _ E) in I. lia.
Qed.

Lemma put_store s out new s' : keyed b_tick s -> keyed b_tick s' -> NoDup (map b_tick new) -> incl (map b_tick new) (map fst s) -> incl out (map b_tick new) ->
  overwritten b_tick s out new s' -> s' = map (put_at new) s.
Proof.
  intros K K' N I1 I2 W.
  assert (KM : keyed b_tick (map (put_at new) s)).
  { destruct K as [K1 K2]. split.
    - clear - K1. unfold srt in *. induction K1 as [|[k b] s S IH F]; cbn [map]; constructor; auto. apply Forall_map. exact F.
    - intros k b I. apply in_map_iff in I as ([k0 b0] & E & I). destruct (put_cases new k0 b0) as (b' & E' & C). rewrite E' in E. injection E as -> ->.
      destruct (K2 k b0 I) as [A B]. split; [|exact B]. destruct C as [[_ C]|[-> _]]; auto. }
  apply (T_Move.store_eq b_tick); auto. intros k v. rewrite (W k v). split.
  - intros [[I ->]|(N1 & N2 & I)].
    + assert (J : In (b_tick v) (map fst s)) by (apply I1, in_map, I). apply in_map_iff in J as ([k b] & E & J). cbn in E. subst k.
      apply in_map_iff. exists (b_tick v, b). split; [|exact J]. destruct (put_cases new (b_tick v) b) as (b' & -> & [[C1 C2]|[_ C]]); [|exfalso; apply C, in_map, I].
      f_equal. clear - N I C1 C2. induction new as [|x l IH]; [destruct I|]. cbn in N. inversion N as [|? ? N1 N2]; subst. destruct I as [->|I], C1 as [->|C1]; auto.
      * exfalso. apply N1. rewrite <- C2. apply in_map, C1.
      * exfalso. apply N1. rewrite C2. apply in_map, I.
    + apply in_map_iff. exists (k, v). split; [|exact I]. destruct (put_cases new k v) as (b' & -> & [[C1 C2]|[-> _]]); [|reflexivity]. exfalso. apply N1. rewrite <- C2. apply in_map, C1.
  - intros I. apply in_map_iff in I as ([k0 b0] & E & I). destruct (put_cases new k0 b0) as (b' & E' & C). rewrite E' in E. injection E as -> ->.
    destruct C as [[C1 C2]|[-> C]]; [left; auto|]. right. split; [exact C|]. split; [intros J; apply C, I2, J|exact I].
Qed.

Lemma ends_same p q : same_but_bars p q -> forall t, ends_at q t -> ends_at p t.
Proof.
  intros (_ & _ & _ & S4 & S5 & S6 & S7) t H. inversion H; subst; [rewrite <- S4 in *|rewrite <- S5 in *|rewrite <- S6 in *|rewrite <- S7 in *].
  - eapply ends_note; eassumption.
  - eapply S_Project.ends_tempo; eassumption.
  - eapply ends_dumper; eassumption.
  - eapply ends_soft; eassumption.
Qed.

(** * C89 *)

(** Replacing bars where they are, by drawing them again or by a change: exactly these bars change, each at its place, and
    nothing else does; only where something was not covered by bars before are blank bars appended. *)
Theorem C89_written : forall e p out into p' k, project_ok p -> edit_typed e -> edit_wf e p -> moves e out into -> in_place p out into -> all_distinct into ->
  edit_run e p = Ret (Some (p', k)) ->
  same_but_bars p p' /\ exists bars more, score p' = bars ++ more /\ rewritten (m_bars into) (score p) bars /\
    Forall (fun b => exists t, b = mkBar t None None 0 /\ last_tick p < t) more /\ (notes_valid p -> covered p -> more = []).
Proof.
  intros e p out into p' k O T W M [PO PI PT PB] D E.
  apply edit_cases in E. destruct E as [[r [-> _]]|[[r [-> _]]|[[g [-> _]]|[F [A [M' E]]]]]]; [inversion M..|]. destruct (moves_fun _ _ _ _ _ M M') as [-> ->]. clear M'.
  destruct (moves_typed _ _ _ M T) as [_ TA]. pose proof (exchange_ok F A p O TA) as OQ.
  assert (BQ : pj_bars (exchange F A p) = map (put_at (m_bars A)) (pj_bars p)).
  { apply (put_store _ (map b_tick (m_bars F))); auto; [apply O|apply OQ|apply D| | |].
    - intros x I. apply in_map_iff in I as (b & <- & I). apply PT in I. unfold score in I. rewrite map_map in I. apply in_map_iff in I as ([k0 b0] & X & I). cbn in X.
      rewrite <- X, (T_Move.keyed_tick _ _ _ _ (ok_bars p O) I). apply (in_map fst) in I. exact I.
    - intros x I. apply in_map_iff in I as (b & <- & I). apply PB, I.
    - cbn [exchange pj_bars]. apply (add_all_overwritten b_tick); [apply (keyed_srt _ _ (ok_bars p O))|apply D]. }
  assert (SB : same_but_bars p (exchange F A p)).
  { unfold same_but_bars, exchange. cbn [pj_rhythm pj_key pj_grid pj_notes pj_tempos pj_dumpers pj_softs].
    destruct PO as (E1 & E2 & E3 & E4), PI as (E5 & E6 & E7 & E8). rewrite E1, E2, E3, E4, E5, E6, E7, E8. cbn [map]. rewrite !remove_nil. repeat split; reflexivity. }
  assert (LT : last_tick (exchange F A p) = last_tick p).
  { unfold last_tick. rewrite BQ. destruct (pj_bars p) as [|x s]; [reflexivity|]. cbn [map]. clear. revert x. induction s as [|y s IH]; intros x; [reflexivity|].
    cbn [map]. change (last (put_at (m_bars A) y :: map (put_at (m_bars A)) s) (put_at (m_bars A) x)) with (last (map (put_at (m_bars A)) (y :: s)) (put_at (m_bars A) x)).
    destruct s as [|z s]; [reflexivity|]. specialize (IH x). exact IH. }
  assert (RW : rewritten (m_bars A) (score p) (score (exchange F A p))).
  { unfold rewritten, score. rewrite BQ, map_map. pose proof (ok_bars p O) as [_ KT]. revert KT. generalize (pj_bars p). clear. induction l as [|[k b] s IH]; intros KT; cbn [map]; constructor.
    - destruct (put_cases (m_bars A) k b) as (b' & -> & C). cbn [snd]. destruct (KT k b (or_introl eq_refl)) as [KB _]. subst k. destruct C as [[C1 C2]|[-> C]]; auto.
    - apply IH. intros k0 b0 I. apply KT. right. exact I. }
  unfold runs in E. apply bind_ret in E as ([p2 more] & E1 & E2). apply ret_inj in E2. injection E2 as -> _.
  destruct (may_append e).
  - destruct (replenish_ret _ _ _ (ok_bars _ OQ) E1) as (ne & r & n & E3 & _ & -> & -> & C1 & C2). split.
    { destruct SB as (S1 & S2 & S3 & S4 & S5 & S6 & S7). unfold same_but_bars. cbn [pj_set_bars pj_rhythm pj_key pj_grid pj_notes pj_tempos pj_dumpers pj_softs]. auto 10. }
    exists (score (exchange F A p)), (even_bars (last_tick (exchange F A p)) (rhythm_tick_len r) n).
    split; [unfold score; cbn [pj_set_bars pj_bars]; rewrite map_app, (map_map bar_entry); cbn; rewrite map_id; reflexivity|]. split; [exact RW|]. rewrite LT in *. split.
    + apply Forall_forall. intros b J. destruct C2 as [->|(P & _)]; [destruct J|]. clear - J P. revert J P. generalize (last_tick p). induction n as [|n IH]; intros t J P; [destruct J|].
      destruct J as [<-|J]; [eexists; split; [reflexivity|lia]|]. destruct (IH _ J P) as (t' & -> & L). eexists; split; [reflexivity|lia].
    + intros NV CV. destruct n as [|n]; [reflexivity|]. exfalso. destruct C2 as [C2|(P & L & _)]; [discriminate|].
      assert (NV' : notes_valid (exchange F A p)). { intros k0 n0 I. destruct SB as (_ & _ & _ & S4 & _). rewrite <- S4 in I. exact (NV k0 n0 I). }
      destruct (content_end_spec _ ne OQ NV' (note_max_end_spec _ ne (ok_notes _ OQ) NV' E3)) as [X1 [X2 X3]].
      assert (CE : content_end (exchange F A p) ne <= last_tick p).
      { pose proof (last_tick_range p (ok_bars p O)) as LR. unfold u32 in LR. destruct X3 as [->|X3]; [lia|].
        assert (EP : ends_at p (content_end (exchange F A p) ne)) by (apply (ends_same p (exchange F A p)); auto).
        destruct (CV _ EP) as [Y|(k0 & b0 & Y1 & Y2)]; [lia|]. pose proof (last_tick_max p (ok_bars p O) k0 b0 Y1). lia. }
      nia.
  - apply ret_inj in E1. injection E1 as <- <-. split; [exact SB|]. exists (score (exchange F A p)), []. rewrite app_nil_r. auto.
Qed.
Print Assumptions C89_written.

Lemma score_ticks p : project_ok p -> NoDup (map b_tick (score p)).
Proof.
  intros O. destruct (T_Score.score_sorted p O) as [S _]. clear - S. induction S as [|t l S IH F]; constructor; auto.
  intros I. rewrite Forall_forall in F. specialize (F t I). lia.
Qed.
Lemma zip_in {A B} (P : A -> B -> Prop) l l' : Forall2 P l l' -> forall x, In x (combine l l') -> P (fst x) (snd x) /\ In (fst x) l /\ In (snd x) l'.
Proof. induction 1 as [|a b l l' H F IH]; intros x []; [subst; cbn; auto|]. destruct (IH x H0) as (A1 & A2 & A3). cbn. auto. Qed.
Lemma score_entry p b : project_ok p -> In b (score p) -> In (b_tick b, b) (pj_bars p) /\ Base.u32 (b_tick b).
Proof.
  intros O I. unfold score in I. apply in_map_iff in I as ([k b0] & E & I). cbn in E. subst b0. destruct (ok_bars p O) as [_ K]. destruct (K k b I) as [-> U]. auto.
Qed.

Lemma differ_edit p bars' ch : project_ok p -> differences (score p) bars' ch ->
  edit_typed (change_bars ch) /\ edit_wf (change_bars ch) p /\ moves (change_bars ch) (changes_from (mkChanges [] ch [] [] [])) (changes_to (mkChanges [] ch [] [] [])) /\
  in_place p (changes_from (mkChanges [] ch [] [] [])) (changes_to (mkChanges [] ch [] [] [])) /\ all_distinct (changes_to (mkChanges [] ch [] [] [])).
Proof.
  intros O [D1 D2 D3 D4].
  assert (X : forall x, In x ch -> b_tick (snd x) = b_tick (fst x) /\ In (fst x) (score p)).
  { intros x I. destruct (zip_in _ _ _ D1 x (D3 x I)) as (A & B & _). auto. }
  assert (DD : all_distinct (changes_to (mkChanges [] ch [] [] []))).
  { constructor; unfold distinct_ticks; cbn; try constructor. rewrite map_map. rewrite (map_ext_in _ (fun x => b_tick (fst x))); [exact D2|]. intros x I. apply X, I. }
  unfold change_bars. cbn [edit_typed edit_wf].
  split; [split; constructor; cbn; try constructor; apply Forall_map, Forall_forall; intros x I; destruct (X x I) as [E J]; apply (score_entry p _ O) in J; rewrite ?E; tauto|].
  split; [split; [|exact DD]|].
  - constructor; cbn; try (intros v []); [exists (map snd (pj_notes p)); reflexivity|]. intros b I. apply in_map_iff in I as (x & <- & I). destruct (X x I) as [E J].
    apply (score_entry p _ O), J.
  - split; [constructor|]. split; [|exact DD]. constructor; try (repeat split; fail); cbn; intros b I; apply in_map_iff in I as (x & <- & I); destruct (X x I) as [E J].
    + rewrite E. apply in_map, J.
    + rewrite map_map. apply in_map_iff. exists x. auto.
Qed.
Lemma differ_rewritten bars bars' ch new : NoDup (map b_tick bars) -> differences bars bars' ch -> rewritten (map snd ch) bars new -> new = bars'.
Proof.
  intros N [D1 D2 D3 D4] R.
  assert (G : forall b b' n, In (b, b') (combine bars bars') -> In (b, n) (combine bars new) -> n = b').
  { intros b b' n I J. destruct (zip_in _ _ _ R _ J) as ([T C] & B & _). cbn [fst snd] in *. destruct (zip_in _ _ _ D1 _ I) as (T' & _). cbn [fst snd] in *.
    assert (U : forall x, In x ch -> b_tick (fst x) = b_tick b -> x = (b, b')).
    { intros [x x'] Ix Ex. cbn [fst] in Ex. pose proof (D3 _ Ix) as Jx. clear - N I Jx Ex. revert bars' I Jx. induction bars as [|b0 l IH]; intros l' I Jx; [destruct I|].
      destruct l' as [|b0' l']; [destruct I|]. cbn in N. inversion N as [|? ? N1 N2]; subst. cbn in I, Jx. destruct I as [I|I], Jx as [J|J].
      - congruence.
      - injection I as -> ->. exfalso. apply N1. rewrite <- Ex. apply in_map. exact (in_combine_l _ _ _ _ J).
      - injection J as -> ->. exfalso. apply N1. rewrite Ex. apply in_map. exact (in_combine_l _ _ _ _ I).
      - apply (IH N2 l'); auto. }
    destruct C as [C|[-> C]].
    - apply in_map_iff in C as ([x x'] & E & Ix). cbn in E. subst x'. destruct (zip_in _ _ _ D1 _ (D3 _ Ix)) as (Tx & _). cbn [fst snd] in Tx.
      assert (E : (x, n) = (b, b')) by (apply U; [exact Ix|cbn [fst]; congruence]). congruence.
    - destruct (D4 b b' I) as [E|Ix]; [exact E|]. exfalso. apply C. rewrite <- T'. rewrite map_map. apply in_map_iff. exists (b, b'). auto. }
  clear D2 D3 D4 N. revert new R G. induction D1 as [|b b' l l' H D1 IH]; intros new R G; inversion R as [|? n ? new' R1 R2]; subst; [reflexivity|]. f_equal.
  - apply (G b b' n); left; reflexivity.
  - apply IH; [exact R2|]. intros c c' n' I J. apply (G c c' n'); right; assumption.
Qed.

(** So every score with its bar lines at the same ticks can be written by one change, which always returns if everything was covered by bars. *)
Theorem C89_any : forall p bars' ch, project_ok p -> differences (score p) bars' ch ->
  (forall p' k, edit_run (change_bars ch) p = Ret (Some (p', k)) ->
     same_but_bars p p' /\ exists more, score p' = bars' ++ more /\ Forall (fun b => exists t, b = mkBar t None None 0 /\ last_tick p < t) more /\
       (notes_valid p -> covered p -> more = [])) /\
  (notes_valid p -> covered p -> exists p' k, edit_run (change_bars ch) p = Ret (Some (p', k))).
Proof.
  intros p bars' ch O D. destruct (differ_edit p bars' ch O D) as (T & W & M & I & DD). split.
  - intros p' k E. destruct (C89_written _ p _ _ p' k O T W M I DD E) as (SB & bars & more & ES & R & B). split; [exact SB|].
    cbn [changes_to m_bars ch_bars] in R. rewrite (differ_rewritten _ _ _ _ (score_ticks p O) D R) in ES. exists more. auto.
  - intros NV CV. destruct (edit_exact _ p _ _ O NV T W M) as (q & r & X & OQ & _ & H1 & H2); [constructor|reflexivity|].
    assert (EP : forall t, ends_at q t -> t <= last_tick q /\ t <= u32_max).
    { intros t H. assert (EP : ends_at p t).
      { destruct X as [_ XN _ XT XD XS]. cbn in XN, XT, XD, XS. rewrite !app_nil_r in XN. unfold overwritten in XT, XD, XS. cbn in XT, XD, XS. inversion H as [k n l J L|k v J|k v J|k v J]; subst.
        - destruct (ok_notes q OQ) as [_ KQ]. pose proof (KQ k n J) as EK. subst k. apply (in_map snd) in J. cbn in J. apply (Permutation_in _ XN) in J.
          apply in_map_iff in J as ([k' n'] & E & J). cbn in E. subst n'. destruct (ok_notes p O) as [_ KP]. pose proof (KP k' n J) as EK. rewrite <- EK. eapply ends_note; eassumption.
        - apply XT in J as [[[] _]|(_ & _ & J)]. eapply S_Project.ends_tempo; eassumption.
        - apply XD in J as [[[] _]|(_ & _ & J)]. eapply ends_dumper; eassumption.
        - apply XS in J as [[[] _]|(_ & _ & J)]. eapply ends_soft; eassumption. }
      pose proof (last_tick_range q (ok_bars q OQ)) as LR. unfold Base.u32, u32_max in *. destruct (CV t EP) as [Y|(k & b & Y1 & Y2)]; [lia|].
      assert (Z : exists b', In (k, b') (pj_bars q)).
      { destruct X as [_ _ XB _ _ _]. destruct (in_dec Z.eq_dec k (map b_tick (m_bars (changes_to (mkChanges [] ch [] [] []))))) as [J|J].
        - apply in_map_iff in J as (b' & <- & J). exists b'. apply XB. left. rewrite app_nil_r. auto.
        - exists b. apply XB. right. rewrite app_nil_r. split; [exact J|]. split; [|exact Y1]. intros J'. apply J. apply in_map_iff in J' as (x & <- & J'). apply I, J'. }
      destruct Z as (b' & Z). pose proof (last_tick_max q (ok_bars q OQ) k b' Z). lia. }
    destruct (edit_run (change_bars ch) p) as [[[p' k]|]| |] eqn:E; [eauto| | |]; exfalso.
    + cbn [change_bars edit_run] in E. rewrite change_runs in E. unfold runs in E. apply bind_ret in E as ([p' more] & _ & E). apply ret_inj in E. discriminate.
    + destruct (proj1 H2 eq_refl) as (_ & t & Et & [Lt|(Lt & _)]); specialize (EP t Et); lia.
    + destruct (proj1 H1 eq_refl) as (_ & _ & (t & Et & Lt) & _). specialize (EP t Et). lia.
Qed.
Print Assumptions C89_any.

Lemma score_tune p : project_ok p -> Forall (fun b => b_tick b <> u32_max) (score p) -> tune (score p).
Proof.
  intros O U. destruct (T_Score.score_sorted p O) as [SS SU]. split; [exact SS|]. rewrite Forall_forall in *. intros b J.
  specialize (SU b J). specialize (U b J). unfold Base.u32, u32_max in *. lia.
Qed.

(** What is heard then is what the new bars say, whatever was appended. *)
Theorem C89_heard : forall p bars' ch p' x, project_ok p -> differences (score p) bars' ch -> edits_done p [change_bars ch] p' ->
  marked Dc bars' = [] \/ first_bar_len bars' <> None \/ notes_valid p /\ covered p ->
  render_region (pj_rhythm p) bars' = Ret (Ok x) -> render_project p' = Ret (Ok x).
Proof.
  intros p bars' ch p' [c w] O D E C R. inversion E as [|? ? k p1 ? ? E1 E2]; subst. inversion E2; subst.
  destruct (proj1 (C89_any p bars' ch O D) p' k E1) as ((ER & _) & more & ES & B & N). unfold render_project. rewrite <- ER, ES.
  assert (C' : (marked Dc bars' = [] \/ first_bar_len bars' <> None) \/ notes_valid p /\ covered p) by tauto. destruct C' as [C'|[NV CV]].
  - apply T_Score.render_blank; auto. eapply Forall_impl; [|exact B]. cbv beta. intros b (t & -> & _). eauto.
  - rewrite (N NV CV), app_nil_r. exact R.
Qed.
Print Assumptions C89_heard.

Lemma no_marks_same f bars bars' : Forall2 (fun b b' => b_tick b' = b_tick b /\ has b' f = has b f) bars bars' -> marked f bars' = marked f bars.
Proof. intros F. unfold marked. induction F as [|b b' l l' [T H] F IH]; [reflexivity|]. cbn [filter]. rewrite H. destruct (has b f); cbn [map]; rewrite IH, ?T; reflexivity. Qed.

(** So putting repeat signs around a passage of a project makes it be heard once more; *)
Theorem C89_repeat : forall p a x x' m y y' q ch p' c w, project_ok p -> score p = a ++ x :: m ++ y :: q ->
  Forall (fun b => b_tick b <> u32_max) (score p) -> Forall compatible (score p) -> marked Dc (score p) = [] -> marked Ds (score p) = [] ->
  render_project p = Ret (Ok (c, w)) -> idle (x :: m ++ [y]) -> outside a q -> signed Start x x' -> signed End y y' ->
  differences (score p) (a ++ x' :: m ++ y' :: q) ch -> edits_done p [change_bars ch] p' ->
  exists cs c' cs', to_chunks c = Ret cs /\ render_project p' = Ret (Ok (c', [])) /\ to_chunks c' = Ret cs' /\
    once_more (b_tick x) (b_tick y) (performance cs) (performance cs').
Proof.
  intros p a x x' m y y' q ch p' c w O E U F A B R I OU SX SY D ED. pose proof (score_tune p O U) as T. unfold render_project in R.
  assert (MD : marked Dc (a ++ x' :: m ++ y' :: q) = []).
  { rewrite (no_marks_same Dc (score p)); [exact A|]. rewrite E.
    assert (Q : forall l, Forall2 (fun b b' => b_tick b' = b_tick b /\ has b' Dc = has b Dc) l l) by (induction l; constructor; auto).
    destruct SX as (TX & _ & HX), SY as (TY & _ & HY). apply Forall2_app; [apply Q|]. constructor; [rewrite HX, orb_false_r; auto|]. apply Forall2_app; [apply Q|]. constructor; [rewrite HY, orb_false_r; auto|apply Q]. }
  rewrite E in T, F, A, B, R. destruct (T_Twice.C82_signs _ _ _ _ _ _ _ _ _ _ T F A B R I OU SX SY) as (cs & c' & cs' & K & R' & K' & P).
  exists cs, c', cs'. split; [exact K|]. split; [|auto]. apply (C89_heard p (a ++ x' :: m ++ y' :: q) ch); auto.
Qed.
Print Assumptions C89_repeat.

(** the same in a tune with D.C. or D.S., for the first pass; *)
Theorem C89_repeat_jump : forall p a x x' m y y' q ch p' c w cs d s, project_ok p -> notes_valid p -> covered p -> score p = a ++ x :: m ++ y :: q ->
  Forall (fun b => b_tick b <> u32_max) (score p) -> Forall compatible (score p) -> implicit_clear (score p) -> small_first (score p) ->
  render_project p = Ret (Ok (c, w)) -> to_chunks c = Ret cs -> jump (actual_top (full_bar (pj_rhythm p) (score p))) (score p) d s ->
  idle (x :: m ++ [y]) -> Forall no_jump m -> outside a q -> signed Start x x' -> signed End y y' -> 0 < b_tick x ->
  differences (score p) (a ++ x' :: m ++ y' :: q) ch -> edits_done p [change_bars ch] p' ->
  exists c' cs', render_project p' = Ret (Ok (c', w)) /\ to_chunks c' = Ret cs' /\
    (b_tick y <= d /\ once_more (b_tick x) (b_tick y) (performance cs) (performance cs') \/ d <= b_tick x /\ performance cs' = performance cs).
Proof.
  intros p a x x' m y y' q ch p' c w cs d s O NV CV E U F IC SF R K J I NJ OU SX SY PX D ED. pose proof (score_tune p O U) as T. unfold render_project in R.
  rewrite E in T, F, IC, SF, R, J. destruct (T_Twice.C82_signs_jump _ _ _ _ _ _ _ _ _ _ _ _ _ T F IC SF R K J I NJ OU SX SY PX) as (c' & cs' & R' & K' & P).
  exists c', cs'. split; [|auto]. apply (C89_heard p (a ++ x' :: m ++ y' :: q) ch); auto.
Qed.
Print Assumptions C89_repeat_jump.

(** writing a first and a second ending makes the first be left out the second time, *)
Theorem C89_endings : forall p a x m v v' y y' n n' z q t ch p' c w, project_ok p -> score p = a ++ x :: m ++ v ++ y :: n ++ z :: q ->
  Forall (fun b => b_tick b <> u32_max) (score p) -> Forall compatible (score p) -> marked Dc (score p) = [] -> marked Ds (score p) = [] ->
  render_project p = Ret (Ok (c, w)) ->
  has x Start = true -> idle (m ++ v ++ n) -> has y End = true -> has y Start = false -> has z End = false -> no_var z -> Forall no_goal v ->
  hd_error (map b_tick v) = Some t -> Forall2 (signed Var1) v v' -> second_sign y y' -> Forall2 (signed Var2) n n' ->
  differences (score p) (a ++ x :: m ++ v' ++ y' :: n' ++ z :: q) ch -> edits_done p [change_bars ch] p' ->
  exists cs c' cs', to_chunks c = Ret cs /\ render_project p' = Ret (Ok (c', [])) /\ to_chunks c' = Ret cs' /\
    once_less (b_tick x) t (b_tick y) (performance cs) (performance cs').
Proof.
  intros p a x m v v' y y' n n' z q t ch p' c w O E U F A B R XS I YE YS ZE ZV NG HT SV SY SN D ED. pose proof (score_tune p O U) as T. unfold render_project in R.
  assert (MD : marked Dc (a ++ x :: m ++ v' ++ y' :: n' ++ z :: q) = []).
  { rewrite (no_marks_same Dc (score p)); [exact A|]. rewrite E.
    assert (Q : forall l, Forall2 (fun b b' => b_tick b' = b_tick b /\ has b' Dc = has b Dc) l l) by (induction l; constructor; auto).
    assert (QS : forall k l l', is_var k = true -> Forall2 (signed k) l l' -> Forall2 (fun b b' => b_tick b' = b_tick b /\ has b' Dc = has b Dc) l l').
    { intros k l l' KV H. induction H as [|b b' l l' (TB & _ & HB) H IH]; constructor; auto. split; [exact TB|]. rewrite HB. destruct k; try discriminate KV; apply orb_false_r. }
    destruct SY as (TY & _ & HY). apply Forall2_app; [apply Q|]. constructor; [auto|]. apply Forall2_app; [apply Q|]. apply Forall2_app; [apply (QS Var1); auto|].
    constructor; [rewrite HY; cbn [mark_bit Z.eqb Pos.eqb negb]; rewrite andb_true_r, orb_false_r; auto|]. apply Forall2_app; [apply (QS Var2); auto|apply Q]. }
  rewrite E in T, F, A, B, R. destruct (T_Ending.C83_signs _ _ _ _ _ _ _ _ _ _ _ _ _ _ _ T F A B R XS I YE YS ZE ZV NG HT SV SY SN) as (cs & c' & cs' & K & R' & K' & P).
  exists cs, c', cs'. split; [exact K|]. split; [|auto]. apply (C89_heard p (a ++ x :: m ++ v' ++ y' :: n' ++ z :: q) ch); auto.
Qed.
Print Assumptions C89_endings.

Theorem C89_endings_jump : forall p a x m v v' y y' n n' z q t ch p' c w cs d s, project_ok p -> notes_valid p -> covered p ->
  score p = a ++ x :: m ++ v ++ y :: n ++ z :: q ->
  Forall (fun b => b_tick b <> u32_max) (score p) -> Forall compatible (score p) -> implicit_clear (score p) -> small_first (score p) ->
  render_project p = Ret (Ok (c, w)) -> to_chunks c = Ret cs -> jump (actual_top (full_bar (pj_rhythm p) (score p))) (score p) d s ->
  has x Start = true -> idle (m ++ v ++ n) -> Forall no_jump (v ++ y :: n) -> has y End = true -> has y Start = false -> has z End = false -> no_var z -> Forall no_goal v ->
  hd_error (map b_tick v) = Some t -> Forall2 (signed Var1) v v' -> second_sign y y' -> Forall2 (signed Var2) n n' ->
  differences (score p) (a ++ x :: m ++ v' ++ y' :: n' ++ z :: q) ch -> edits_done p [change_bars ch] p' ->
  exists c' cs' first first' second, render_project p' = Ret (Ok (c', w)) /\ to_chunks c' = Ret cs' /\
    performance cs = first ++ second /\ performance cs' = first' ++ filter (fun i => negb ((t <=? i) && (i <? b_tick y))) second /\
    StronglySorted Z.lt second /\
    (b_tick y <= d /\ once_less (b_tick x) t (b_tick y) first first' \/ d <= b_tick x /\ first = first').
Proof.
  intros p a x m v v' y y' n n' z q t ch p' c w cs d s O NV CV E U F IC SF R K J XS I NJ YE YS ZE ZV NG HT SV SY SN D ED.
  pose proof (score_tune p O U) as T. unfold render_project in R. rewrite E in T, F, IC, SF, R, J.
  destruct (T_Ending.C83_signs_jump _ _ _ _ _ _ _ _ _ _ _ _ _ _ _ _ _ _ T F IC SF R K J XS I NJ YE YS ZE ZV NG HT SV SY SN) as (c' & cs' & f1 & f2 & f3 & R' & P).
  exists c', cs', f1, f2, f3. split; [|exact P]. apply (C89_heard p (a ++ x :: m ++ v' ++ y' :: n' ++ z :: q) ch); auto.
Qed.
Print Assumptions C89_endings_jump.

(** and one more ending makes the passage before the endings be heard once more. *)
Theorem C89_further : forall p k j a x m u w y y' n n' z q t ch p' c wa, project_ok p -> score p = a ++ x :: m ++ u ++ w ++ y :: n ++ z :: q ->
  Forall (fun b => b_tick b <> u32_max) (score p) -> Forall compatible (score p) -> marked Dc (score p) = [] -> marked Ds (score p) = [] ->
  render_project p = Ret (Ok (c, wa)) ->
  has x Start = true -> idle m -> idle (y :: n) -> is_var j = true -> is_var k = true -> mark_bit k = mark_bit j + 1 ->
  Forall (fun b => ~ no_var b /\ has b j = false) u -> Forall (fun b => has b j = true) w -> w <> [] ->
  no_var z -> Forall no_goal w -> hd_error (map b_tick (u ++ w)) = Some t -> signed k y y' -> Forall2 (signed k) n n' ->
  differences (score p) (a ++ x :: m ++ u ++ w ++ y' :: n' ++ z :: q) ch -> edits_done p [change_bars ch] p' ->
  exists cs c' cs', to_chunks c = Ret cs /\ render_project p' = Ret (Ok (c', [])) /\ to_chunks c' = Ret cs' /\
    again_before (b_tick x) t (b_tick y) (performance cs) (performance cs').
Proof.
  intros p k j a x m u w y y' n n' z q t ch p' c wa O E U F A B R XS BM BN JV KV KJ UU WJ NW ZV NG HT SY SN D ED. pose proof (score_tune p O U) as T. unfold render_project in R.
  assert (MD : marked Dc (a ++ x :: m ++ u ++ w ++ y' :: n' ++ z :: q) = []).
  { rewrite (no_marks_same Dc (score p)); [exact A|]. rewrite E.
    assert (Q : forall l, Forall2 (fun b b' => b_tick b' = b_tick b /\ has b' Dc = has b Dc) l l) by (induction l; constructor; auto).
    assert (QS : forall l l', Forall2 (signed k) l l' -> Forall2 (fun b b' => b_tick b' = b_tick b /\ has b' Dc = has b Dc) l l').
    { intros l l' H. induction H as [|b b' l l' (TB & _ & HB) H IH]; constructor; auto. split; [exact TB|]. rewrite HB. clear - KV. destruct k; try discriminate KV; apply orb_false_r. }
    apply Forall2_app; [apply Q|]. constructor; [auto|]. apply Forall2_app; [apply Q|]. apply Forall2_app; [apply Q|]. apply Forall2_app; [apply Q|].
    change (y :: n ++ z :: q) with ((y :: n) ++ z :: q). change (y' :: n' ++ z :: q) with ((y' :: n') ++ z :: q). apply Forall2_app; [apply QS; constructor; auto|apply Q]. }
  rewrite E in T, F, A, B, R. destruct (T_Further.C87_signs _ _ _ _ _ _ _ _ _ _ _ _ _ _ _ _ _ T F A B R XS BM BN JV KV KJ UU WJ NW ZV NG HT SY SN) as (cs & c' & cs' & K & R' & K' & P).
  exists cs, c', cs'. split; [exact K|]. split; [|auto]. apply (C89_heard p (a ++ x :: m ++ u ++ w ++ y' :: n' ++ z :: q) ch); auto.
Qed.
Print Assumptions C89_further.

Theorem C89_further_jump : forall p k j a x m u w y y' n n' z q t f ch p' c wa cs d s, project_ok p -> notes_valid p -> covered p ->
  score p = a ++ x :: m ++ u ++ w ++ y :: n ++ z :: q ->
  Forall (fun b => b_tick b <> u32_max) (score p) -> Forall compatible (score p) -> implicit_clear (score p) -> small_first (score p) ->
  render_project p = Ret (Ok (c, wa)) -> to_chunks c = Ret cs -> jump (actual_top (full_bar (pj_rhythm p) (score p))) (score p) d s ->
  has x Start = true -> idle m -> idle (y :: n) -> Forall no_jump (y :: n) -> is_var j = true -> is_var k = true -> mark_bit k = mark_bit j + 1 ->
  Forall (fun b => ~ no_var b /\ has b j = false) u -> Forall (fun b => has b j = true) w -> hd_error (map b_tick w) = Some f ->
  no_var z -> Forall no_goal w -> hd_error (map b_tick (u ++ w)) = Some t -> signed k y y' -> Forall2 (signed k) n n' ->
  differences (score p) (a ++ x :: m ++ u ++ w ++ y' :: n' ++ z :: q) ch -> edits_done p [change_bars ch] p' ->
  exists c' cs' first first' second, render_project p' = Ret (Ok (c', wa)) /\ to_chunks c' = Ret cs' /\
    performance cs = first ++ second /\ performance cs' = first' ++ filter (fun i => negb ((f <=? i) && (i <? b_tick y))) second /\
    StronglySorted Z.lt second /\
    (b_tick y < d /\ again_before (b_tick x) t (b_tick y) first first' \/ d <= b_tick x /\ first = first').
Proof.
  intros p k j a x m u w y y' n n' z q t f ch p' c wa cs d s O NV CV E U F IC SF R K J XS BM BN NJ JV KV KJ UU WJ HF ZV NG HT SY SN D ED.
  pose proof (score_tune p O U) as T. unfold render_project in R. rewrite E in T, F, IC, SF, R, J.
  destruct (T_Further.C87_signs_jump _ _ _ _ _ _ _ _ _ _ _ _ _ _ _ _ _ _ _ _ _ T F IC SF R K J XS BM BN NJ JV KV KJ UU WJ HF ZV NG HT SY SN) as (c' & cs' & f1 & f2 & f3 & R' & P).
  exists c', cs', f1, f2, f3. split; [|exact P]. apply (C89_heard p (a ++ x :: m ++ u ++ w ++ y' :: n' ++ z :: q) ch); auto.
Qed.
Print Assumptions C89_further_jump.

(** The scores of C82_case, C83_case and C87_case as the bars of a project with a note in it, where the signs are written by a change: the other
    hypotheses are shown there. *)
Definition project_of (bars : list bar) : project :=
  mkProject T_Repeat.four_four 0 60 [(0, T_Project.ex_note 0 SC)] (map bar_entry bars) [] [] [].
Lemma of_score bars : score (project_of bars) = bars.
Proof. unfold score, project_of. cbn [pj_bars]. rewrite map_map. apply map_id. Qed.
Lemma of_ok bars : tune bars -> project_ok (project_of bars) /\ notes_valid (project_of bars).
Proof.
  intros [S F]. split; [|intros k n [E|[]]; inversion E; apply T_Project.ex_note_valid].
  constructor; cbn [project_of pj_notes pj_bars pj_tempos pj_dumpers pj_softs]; [| |split; [constructor|intros k v []]..].
  - split; [repeat constructor|]. intros k n [E|[]]. inversion E. reflexivity.
  - split.
    + clear F. unfold srt. induction bars as [|b l IH]; cbn [map] in *; constructor; inversion S; subst; auto. apply Forall_map. apply (proj1 (Forall_map _ _ _)) in H2. exact H2.
    + intros k v I. apply in_map_iff in I as (b & E & I). inversion E; subst. split; [reflexivity|]. rewrite Forall_forall in F. specialize (F v I). unfold Base.u32, u32_max in *. lia.
Qed.
Lemma of_covered bars : (exists b, In b bars /\ 240 <= b_tick b) -> covered (project_of bars).
Proof.
  intros (b & I & L) t H. inversion H as [k n l J E|k v J|k v J|k v J]; subst; [|destruct J..]. destruct J as [J|[]]. inversion J; subst.
  vm_compute in E. apply ret_inj in E. subst l. right. exists (b_tick b), b. split; [|lia]. apply in_map_iff. exists b. auto.
Qed.
Ltac differ_tac := constructor; [repeat constructor|repeat constructor; cbn; intuition discriminate|cbn; intuition|cbn; intros b b' H; decompose [or] H; try contradiction;
  match goal with E : (_, _) = (b, b') |- _ => inversion E; subst; auto 10 end].
Import T_Repeat.
Example C89_repeat_case :
  let p := project_of (T_Twice.case_p ++ bar_at 4800 [] :: [bar_at 5760 [Fine]] ++ bar_at 6720 [] :: T_Twice.case_q) in
  let ch := [(bar_at 6720 [], bar_at 6720 [End]); (bar_at 4800 [], bar_at 4800 [Start])] in
  project_ok p /\ notes_valid p /\ covered p /\
  differences (score p) (T_Twice.case_p ++ bar_at 4800 [Start] :: [bar_at 5760 [Fine]] ++ bar_at 6720 [End] :: T_Twice.case_q) ch /\
  exists p' c, edits_done p [change_bars ch] p' /\ render_project p' = Ret (Ok (c, [])) /\
    to_chunks c = Ret [mkChunk 0 1920; mkChunk 1920 2880; mkChunk 2880 3840; mkChunk 1920 2880; mkChunk 3840 4800;
      mkChunk 4800 6720; mkChunk 4800 6720; mkChunk 6720 8640; mkChunk 960 1920; mkChunk 1920 2880; mkChunk 3840 4800; mkChunk 4800 5760].
Proof.
  cbv zeta. rewrite of_score. destruct (of_ok (T_Twice.case_p ++ bar_at 4800 [] :: [bar_at 5760 [Fine]] ++ bar_at 6720 [] :: T_Twice.case_q)) as [O V]; [tune_tac|].
  split; [exact O|]. split; [exact V|]. split; [apply of_covered; exists (bar_at 4800 []); split; [apply in_elt|cbn; lia]|]. split; [differ_tac|].
  eexists. eexists. split; [eapply done_cons; [vm_compute; reflexivity|apply done_nil]|]. split; [vm_compute; reflexivity|]. vm_compute. reflexivity.
Qed.
Example C89_endings_case :
  let p := project_of (T_Ending.case_p ++ bar_at 1920 [Start] :: [bar_at 2400 []] ++ [bar_at 2880 []] ++ bar_at 3840 [End] :: [bar_at 4800 []] ++ bar_at 5760 [] :: T_Ending.case_q) in
  let ch := [(bar_at 2880 [], bar_at 2880 [Var1]); (bar_at 3840 [End], bar_at 3840 [Var2]); (bar_at 4800 [], bar_at 4800 [Var2])] in
  project_ok p /\ notes_valid p /\ covered p /\
  differences (score p) (T_Ending.case_p ++ bar_at 1920 [Start] :: [bar_at 2400 []] ++ [bar_at 2880 [Var1]] ++ bar_at 3840 [Var2] :: [bar_at 4800 [Var2]] ++ bar_at 5760 [] :: T_Ending.case_q) ch /\
  exists p' c, edits_done p [change_bars ch] p' /\ render_project p' = Ret (Ok (c, [])) /\
    to_chunks c = Ret [mkChunk 0 1920; mkChunk 1920 2880; mkChunk 2880 3840; mkChunk 1920 2880; mkChunk 3840 5760; mkChunk 5760 6720;
      mkChunk 960 1920; mkChunk 1920 2880; mkChunk 3840 5760; mkChunk 5760 u32_max].
Proof.
  cbv zeta. rewrite of_score.
  destruct (of_ok (T_Ending.case_p ++ bar_at 1920 [Start] :: [bar_at 2400 []] ++ [bar_at 2880 []] ++ bar_at 3840 [End] :: [bar_at 4800 []] ++ bar_at 5760 [] :: T_Ending.case_q)) as [O V]; [tune_tac|].
  split; [exact O|]. split; [exact V|]. split; [apply of_covered; exists (bar_at 1920 [Start]); split; [apply in_elt|cbn; lia]|]. split; [differ_tac|].
  eexists. eexists. split; [eapply done_cons; [vm_compute; reflexivity|apply done_nil]|]. split; [vm_compute; reflexivity|]. vm_compute. reflexivity.
Qed.
Example C89_further_case :
  let p := project_of (T_Further.one_p ++ bar_at 960 [Start] :: T_Further.one_m ++ [bar_at 2880 [Var1]] ++ [bar_at 3840 [Var2]] ++ bar_at 4800 [] :: [bar_at 5760 []] ++ bar_at 6720 [] :: T_Further.one_q) in
  let ch := [(bar_at 4800 [], bar_at 4800 [Var3]); (bar_at 5760 [], bar_at 5760 [Var3])] in
  project_ok p /\ notes_valid p /\ covered p /\
  differences (score p) (T_Further.one_p ++ bar_at 960 [Start] :: T_Further.one_m ++ [bar_at 2880 [Var1]] ++ [bar_at 3840 [Var2]] ++ bar_at 4800 [Var3] :: [bar_at 5760 [Var3]] ++ bar_at 6720 [] :: T_Further.one_q) ch /\
  exists p' c, edits_done p [change_bars ch] p' /\ render_project p' = Ret (Ok (c, [])) /\
    to_chunks c = Ret [mkChunk 0 960; mkChunk 960 2880; mkChunk 2880 3840; mkChunk 960 2880; mkChunk 3840 4800; mkChunk 960 2880; mkChunk 4800 6720; mkChunk 6720 7680;
      mkChunk 480 960; mkChunk 960 2880; mkChunk 4800 6720; mkChunk 6720 u32_max].
Proof.
  cbv zeta. rewrite of_score.
  destruct (of_ok (T_Further.one_p ++ bar_at 960 [Start] :: T_Further.one_m ++ [bar_at 2880 [Var1]] ++ [bar_at 3840 [Var2]] ++ bar_at 4800 [] :: [bar_at 5760 []] ++ bar_at 6720 [] :: T_Further.one_q)) as [O V]; [tune_tac|].
  split; [exact O|]. split; [exact V|]. split; [apply of_covered; exists (bar_at 960 [Start]); split; [apply in_elt|cbn; lia]|]. split; [differ_tac|].
  eexists. eexists. split; [eapply done_cons; [vm_compute; reflexivity|apply done_nil]|]. split; [vm_compute; reflexivity|]. vm_compute. reflexivity.
Qed.
