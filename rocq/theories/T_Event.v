(** Property theorems about the events of a project: C59, C60. *)
From Coq Require Import ZArith List Bool Lia.
From Verif Require Import Base M_Pitch M_Duration M_Percent M_Scalar M_Bar M_Note M_Models M_Store M_Tuple M_Project M_Event.
From Verif Require Import S_Project S_Event P_Base P_Store P_Edit.
From Verif Require T_Project.
Import ListNotations.
Open Scope Z_scope.

(** ** Lemmas *)

Lemma replenish_loop_adds len max_end fuel : forall t bars acc s l,
  replenish_loop fuel len t max_end bars acc = Ret (s, l) ->
  exists more, l = acc ++ more /\ s = fold_left follow_store (replenish_events more) bars.
Proof.
  induction fuel as [|f IH]; intros t bars acc s l E; cbn [replenish_loop] in E; destruct (t <? max_end); try discriminate.
  - apply ret_inj in E. inversion E; subst. exists []. rewrite app_nil_r. auto.
  - apply bind_ret in E. destruct E as [t' [_ E]]. destruct (IH _ _ _ _ _ E) as [more [-> ->]].
    exists (mkBar t' None None ms_empty :: more). rewrite <- app_assoc. auto.
  - apply ret_inj in E. inversion E; subst. exists []. rewrite app_nil_r. auto.
Qed.
Lemma replenish_adds p p' more : replenish_bars p = Ret (p', more) ->
  p' = pj_set_bars p (fold_left follow_store (replenish_events more) (pj_bars p)).
Proof.
  unfold replenish_bars. intros E. apply bind_ret in E. destruct E as [ne [_ E]].
  match type of E with (if ?b then _ else _) = _ => destruct b end.
  - apply ret_inj in E. inversion E; subst. destruct p'; reflexivity.
  - apply bind_ret in E. destruct E as [r [_ E]]. apply bind_ret in E. destruct E as [[s l] [L E]]. apply ret_inj in E. inversion E; subst.
    apply replenish_loop_adds in L. destruct L as [m [-> ->]]. reflexivity.
Qed.

Lemma follow_exchange g b m p : same_repos (follow (exchange_events g b m) p) (exchange g b p).
Proof.
  assert (S : forall V (tick : V -> Z) (gs bs : list V) s,
    fold_left follow_store (map (fun x => SRemove (tick x)) gs ++ map (fun x => SAdd (tick x) x m) bs) s =
    add_all (map (fun x => (tick x, x)) bs) (remove_keys (map tick gs) s)).
  { intros V tick gs bs s. rewrite fold_left_app. unfold add_all, remove_keys. revert s. induction gs as [|x gs IH]; intros s; [|apply IH].
    cbn [map fold_left]. revert s. induction bs as [|y bs IH]; intros s; [reflexivity|]. cbn [map fold_left]. apply IH. }
  assert (N : forall gs bs s,
    fold_left follow_bag (map (fun n => BRemove (note_start_tick n) n) gs ++ map (fun n => BAdd (note_start_tick n) n m) bs) s =
    b_bulk_add (map note_entry bs) (b_bulk_remove note_eq_dec (map note_entry gs) s)).
  { intros gs bs s. rewrite fold_left_app. unfold b_bulk_add, b_bulk_remove. revert s. induction gs as [|x gs IH]; intros s; [|apply IH].
    cbn [map fold_left]. revert s. induction bs as [|y bs IH]; intros s; [reflexivity|]. cbn [map fold_left]. apply IH. }
  unfold same_repos, follow, exchange_events, exchange. cbn [pj_notes pj_bars pj_tempos pj_dumpers pj_softs ev_notes ev_bars ev_tempos ev_dumpers ev_softs].
  split; [apply N|]. split; [apply (S bar b_tick)|]. split; [apply (S tempo tp_tick)|]. split; apply (S ctrl_chg cc_tick).
Qed.

Lemma follow_app a b p : follow (ev_app a b) p = follow b (follow a p).
Proof. unfold follow, ev_app. cbn. rewrite !fold_left_app. reflexivity. Qed.
Lemma follow_repos v p q : same_repos p q -> same_repos (follow v p) (follow v q).
Proof. intros (A & B & C & D & E). unfold same_repos, follow. cbn. rewrite A, B, C, D, E. auto. Qed.
Lemma repos_refl p : same_repos p p.
Proof. repeat split. Qed.
Lemma repos_trans p q r : same_repos p q -> same_repos q r -> same_repos p r.
Proof. intros (A & B & C & D & E) (A' & B' & C' & D' & E'). repeat split; congruence. Qed.
Lemma follow_none p : same_repos (follow ev_none p) p.
Proof. repeat split. Qed.

Ltac opened E := repeat (apply bind_ret in E; let x := fresh "x" in let H := fresh "R" in destruct E as [x [H E]]; try (destruct x as [? ?]));
  apply ret_inj in E.

(** * C59 *)

(** What an edit reports is what it does. *)
Theorem C59_edit : forall q p p' c, edit_run (request_edit q) p = Ret (Some (p', c)) ->
  exists v, request_events q p = Ret v /\ same_repos (follow v p) p'.
Proof.
  intros q p p' c E. destruct q; cbn [request_edit edit_run request_events] in *.
  - unfold set_rhythm, by_cmd in E. apply ret_inj in E. inversion E; subst. exists ev_none. split; [reflexivity|]. repeat split.
  - unfold set_key, by_cmd in E. apply ret_inj in E. inversion E; subst. exists ev_none. split; [reflexivity|]. repeat split.
  - unfold set_grid, by_cmd in E. apply ret_inj in E. inversion E; subst. exists ev_none. split; [reflexivity|]. repeat split.
  - unfold add_note in E. opened E. inversion E; subst. rewrite R. cbn [bind]. eexists. split; [reflexivity|].
    rewrite (replenish_adds _ _ _ R). repeat split.
  - unfold add_bar in E. destruct (s_add (b_tick b) b (pj_bars p)) as [s o] eqn:A. apply ret_inj in E. inversion E; subst.
    eexists. split; [reflexivity|]. repeat split. cbn. rewrite A. reflexivity.
  - unfold add_tempo in E. destruct (s_add (tp_tick t) t (pj_tempos p)) as [s o] eqn:A. opened E. inversion E; subst. cbn [fst]. rewrite R. cbn [bind].
    eexists. split; [reflexivity|]. rewrite (replenish_adds _ _ _ R). repeat split. cbn. rewrite A. reflexivity.
  - unfold add_dumper in E. destruct (s_add (cc_tick c0) c0 (pj_dumpers p)) as [s o] eqn:A. opened E. inversion E; subst. cbn [fst]. rewrite R. cbn [bind].
    eexists. split; [reflexivity|]. rewrite (replenish_adds _ _ _ R). repeat split. cbn. rewrite A. reflexivity.
  - unfold add_soft in E. destruct (s_add (cc_tick c0) c0 (pj_softs p)) as [s o] eqn:A. opened E. inversion E; subst. cbn [fst]. rewrite R. cbn [bind].
    eexists. split; [reflexivity|]. rewrite (replenish_adds _ _ _ R). repeat split. cbn. rewrite A. reflexivity.
  - unfold tuplize_notes in E. destruct (1 <? length l)%nat; [|discriminate]. apply bind_ret in E. destruct E as [t [T E]]. opened E. inversion E; subst.
    rewrite T. cbn [bind]. rewrite R. cbn [bind]. eexists. split; [reflexivity|]. rewrite (replenish_adds _ _ _ R). repeat split.
  - unfold bulk_remove, by_cmd in E. apply ret_inj in E. inversion E; subst. eexists. split; [reflexivity|]. apply follow_exchange.
  - unfold bulk_add in E.
    destruct (s_bulk_add (map bar_entry (m_bars m)) (pj_bars p)) as [s1 o1] eqn:A1.
    destruct (s_bulk_add (map tempo_entry (m_tempos m)) (pj_tempos p)) as [s2 o2] eqn:A2.
    destruct (s_bulk_add (map ctrl_entry (m_dumpers m)) (pj_dumpers p)) as [s3 o3] eqn:A3.
    destruct (s_bulk_add (map ctrl_entry (m_softs m)) (pj_softs p)) as [s4 o4] eqn:A4.
    opened E. inversion E; subst. cbn [fst]. rewrite R. cbn [bind]. eexists. split; [reflexivity|].
    rewrite (replenish_adds _ _ _ R). repeat split; cbn; rewrite ?A1, ?A2, ?A3, ?A4; reflexivity.
  - unfold change in E.
    destruct (s_change (change_entries b_tick (ch_bars c0)) (pj_bars p)) as [s1 o1] eqn:A1.
    destruct (s_change (change_entries tp_tick (ch_tempos c0)) (pj_tempos p)) as [s2 o2] eqn:A2.
    destruct (s_change (change_entries cc_tick (ch_dumpers c0)) (pj_dumpers p)) as [s3 o3] eqn:A3.
    destruct (s_change (change_entries cc_tick (ch_softs c0)) (pj_softs p)) as [s4 o4] eqn:A4.
    opened E. inversion E; subst. cbn [fst]. rewrite R. cbn [bind]. eexists. split; [reflexivity|].
    rewrite (replenish_adds _ _ _ R). repeat split; cbn; rewrite ?A1, ?A2, ?A3, ?A4; reflexivity.
Qed.
Print Assumptions C59_edit.

(** So it is for undo and redo. *)
Theorem C59_undo_redo : forall c m p,
  same_repos (follow (undo_events c m) p) (cmd_undo c p) /\ same_repos (follow (redo_events c m) p) (cmd_redo c p).
Proof. intros c m p. destruct c; split; try (repeat split; fail); apply follow_exchange. Qed.
Print Assumptions C59_undo_redo.

Lemma act_follow a s s' : act_run a s = Ret s' -> match a with Clear _ => True | _ =>
  exists v, ss_events s' = ev_app (ss_events s) v /\ same_repos (follow v (ss_model s)) (ss_model s') end.
Proof.
  assert (NO : forall s, ev_app (ss_events s) ev_none = ss_events s).
  { intros [? ? ? ? ev]. destruct ev. unfold ev_app. cbn. rewrite !app_nil_r. reflexivity. }
  destruct a as [q| | |k]; cbn [act_run]; intros E; [| | |exact I].
  - apply bind_ret in E. destruct E as [r [R E]]. apply bind_ret in E. destruct E as [v [V E]]. destruct r as [[p c]|]; apply ret_inj in E; subst s'.
    + destruct (C59_edit q _ _ _ R) as [v' [V' S]]. rewrite V in V'. apply ret_inj in V'. subst v'. exists v. auto.
    + exists ev_none. rewrite NO. split; [reflexivity|apply follow_none].
  - destruct (ss_undo s) as [|[c m] r]; apply ret_inj in E; subst s'.
    + exists ev_none. rewrite NO. split; [reflexivity|apply follow_none].
    + exists (undo_events c m). split; [reflexivity|]. apply C59_undo_redo.
  - destruct (ss_redo s) as [|[c m] r]; apply ret_inj in E; subst s'.
    + exists ev_none. rewrite NO. split; [reflexivity|apply follow_none].
    + exists (redo_events c m). split; [reflexivity|]. apply C59_undo_redo.
Qed.

(** An observer that follows the events whenever it likes, and has them cleared
    when it has, is never out of step: its copy with the events it has not seen
    is the project, whatever was edited, undone and redone in between. *)
Theorem C59_observer : forall ms s copy s' copy', all_together (s, copy) ms = Ret (s', copy') ->
  same_repos (follow (ss_events s) copy) (ss_model s) -> same_repos (follow (ss_events s') copy') (ss_model s').
Proof.
  induction ms as [|m ms IH]; intros s copy s' copy' E K; cbn [all_together] in E.
  - apply ret_inj in E. inversion E; subst. exact K.
  - apply bind_ret in E. destruct E as [[s1 copy1] [T E]]. apply (IH _ _ _ _ E). clear IH E s' copy'.
    destruct m as [a|keep]; cbn [together] in T.
    + assert (H : (exists k, a = Clear k) \/ ((let! s' := act_run a s in Ret (s', copy)) = Ret (s1, copy1) /\ forall k, a <> Clear k)).
      { destruct a as [q| | |k]; [right|right|right|left; eauto]; (split; [exact T|congruence]). }
      destruct H as [[k ->]|[T' NC]]; [apply ret_inj in T; inversion T; subst; exact K|].
      apply bind_ret in T'. destruct T' as [s2 [T1 T2]]. apply ret_inj in T2. inversion T2; subst s2 copy1.
      pose proof (act_follow _ _ _ T1) as F. destruct a as [q| | |k]; [| | |elim (NC k eq_refl)];
      (destruct F as [v [-> S]]; rewrite follow_app; eapply repos_trans; [apply follow_repos; exact K|exact S]).
    + apply bind_ret in T. destruct T as [s2 [T1 T2]]. apply ret_inj in T2. inversion T2; subst s2 copy1.
      cbn [act_run] in T1. destruct keep; apply ret_inj in T1; subst s1; cbn [ss_events ss_model]; exact K.
Qed.
Print Assumptions C59_observer.

(** Immediately after looking the copy is the project. *)
Theorem C59_look : forall s copy keep s' copy', same_repos (follow (ss_events s) copy) (ss_model s) ->
  together (s, copy) (Look keep) = Ret (s', copy') -> same_repos copy' (ss_model s') /\ ss_events s' = ev_none /\ ss_model s' = ss_model s.
Proof.
  intros s copy keep s' copy' K E. cbn [together act_run bind] in E. destruct keep; apply ret_inj in E; inversion E; subst; auto.
Qed.
Print Assumptions C59_look.

(** It may start from nothing when a project is loaded. *)
Theorem C59_load : forall e limit p, pj_notes p = [] -> pj_bars p = [] -> pj_tempos p = [] -> pj_dumpers p = [] -> pj_softs p = [] ->
  same_repos (follow (ss_events (session_load e limit)) p) (ss_model (session_load e limit)).
Proof.
  intros e limit p A B C D F. unfold session_load. cbn [ss_events ss_model]. unfold follow, import_events, import, same_repos.
  cbn [ev_notes ev_bars ev_tempos ev_dumpers ev_softs pj_notes pj_bars pj_tempos pj_dumpers pj_softs fold_left follow_bag follow_store].
  rewrite A, B, C, D, F. repeat split.
Qed.
Print Assumptions C59_load.

(** The project of a session is that of the histories of C28 to C31. *)
Definition forget (s : session) : history := mkHist (ss_model s) (map fst (ss_undo s)) (map fst (ss_redo s)) (ss_limit s).
Theorem C59_history : forall s,
  (forall q s', act_run (Ask q) s = Ret s' -> history_edit (forget s) (request_edit q) = Ret (forget s')) /\
  (forall q h, history_edit (forget s) (request_edit q) = Ret h -> exists s', act_run (Ask q) s = Ret s' /\ forget s' = h) /\
  (exists s', act_run UndoIt s = Ret s' /\ forget s' = history_undo (forget s)) /\
  (exists s', act_run RedoIt s = Ret s' /\ forget s' = history_redo (forget s)).
Proof.
  intros s. unfold history_edit. cbn [h_model forget]. split; [|split; [|split]].
  - intros q s' E. cbn [act_run] in E. apply bind_ret in E. destruct E as [r [R E]]. rewrite R. cbn [bind].
    apply bind_ret in E. destruct E as [v [V E]]. destruct r as [[p c]|]; apply ret_inj in E; subst s'; [|reflexivity].
    unfold forget. cbn [ss_model ss_undo ss_redo ss_limit h_limit h_undo]. rewrite <- firstn_map. reflexivity.
  - intros q h E. apply bind_ret in E. destruct E as [r [R E]]. destruct r as [[p c]|]; apply ret_inj in E; subst h.
    + destruct (C59_edit q _ _ _ R) as [v [V _]]. cbn [act_run]. rewrite R, V. cbn [bind]. eexists. split; [reflexivity|].
      unfold forget. cbn [ss_model ss_undo ss_redo ss_limit h_limit h_undo]. rewrite <- firstn_map. reflexivity.
    + exists s. split; [|reflexivity]. cbn [act_run]. rewrite R. cbn [bind].
      destruct q; cbn [request_edit edit_run] in R;
        try (unfold set_rhythm, set_key, set_grid, bulk_remove, by_cmd in R; discriminate);
        try (unfold add_note, add_bar, add_tempo, add_dumper, add_soft, bulk_add, change in R;
             repeat match type of R with context [let (_, _) := ?x in _] => destruct x end; try discriminate;
             apply bind_ret in R; destruct R as [[? ?] [_ R]]; discriminate).
      unfold tuplize_notes in R. cbn [request_events]. destruct (1 <? length l)%nat; [|reflexivity].
      apply bind_ret in R. destruct R as [t [_ R]]. apply bind_ret in R. destruct R as [[? ?] [_ R]]. discriminate.
  - cbn [act_run]. unfold history_undo, forget. cbn [h_undo]. destruct (ss_undo s) as [|[c m] r] eqn:U; eexists; (split; [reflexivity|]); cbn; rewrite ?U; reflexivity.
  - cbn [act_run]. unfold history_redo, forget. cbn [h_redo]. destruct (ss_redo s) as [|[c m] r] eqn:U; eexists; (split; [reflexivity|]); cbn; rewrite ?U; reflexivity.
Qed.
Print Assumptions C59_history.

(** * C60 *)

Section Reported.
Context {V : Type} (tick : V -> Z).
Lemma reported_app l l' (x : V) m : reported (l ++ l') x m <-> reported l x m \/ reported l' x m.
Proof.
  unfold reported. split.
  - intros [e [I P]]. apply in_app_or in I. destruct I; [left|right]; eauto.
  - intros [[e [I P]]|[e [I P]]]; exists e; (split; [apply in_or_app; auto|exact P]).
Qed.
Lemma reported_nil (x : V) m : reported [] x m <-> False.
Proof. split; [intros [e [[] _]]|intros []]. Qed.
Lemma reported_adds d l (x : V) m : reported (map (fun y => SAdd (tick y) y d) l) x m <-> In x l /\ m = d.
Proof.
  split.
  - intros [e [I P]]. apply in_map_iff in I. destruct I as [y [<- I]]. inversion P; subst; auto.
  - intros [I ->]. exists (SAdd (tick x) x d). split; [apply in_map_iff; eauto|constructor].
Qed.
Lemma reported_removes (ks : list V) (x : V) m : reported (map (fun y => SRemove (tick y)) ks) x m <-> False.
Proof. split; [|intros []]. intros [e [I P]]. apply in_map_iff in I. destruct I as [y [<- I]]. inversion P. Qed.
Lemma reported_one k y d (x : V) m : reported [SAdd k y d] x m <-> In x [y] /\ m = d.
Proof.
  split.
  - intros [e [[<-|[]] P]]. inversion P; subst. split; [left|]; reflexivity.
  - intros [[->|[]] ->]. exists (SAdd k x d). split; [left; reflexivity|constructor].
Qed.
Lemma reported_bulk l d (x : V) m : reported [SBulkAdd (map (fun y => (tick y, y)) l) d] x m <-> In x l /\ m = d.
Proof.
  split.
  - intros [e [[<-|[]] P]]. inversion P as [|k l' I|]; subst. apply in_map_iff in I. destruct I as [y [E I]]. inversion E; subst. auto.
  - intros [I ->]. eexists. split; [left; reflexivity|]. apply (put_bulk _ _ (tick x)). apply in_map_iff. eauto.
Qed.
Lemma reported_change (l : list (V * V)) d (x : V) m : reported [SChange (change_entries tick l) d] x m <-> In x (map snd l) /\ m = d.
Proof.
  unfold change_entries. split.
  - intros [e [[<-|[]] P]]. inversion P as [| |k0 k l' I]; subst. apply in_map_iff in I. destruct I as [[y z] [E I]]. inversion E; subst.
    split; [|reflexivity]. apply in_map_iff. exists (y, x). auto.
  - intros [I ->]. apply in_map_iff in I. destruct I as [[y z] [E I]]. cbn in E. subst z.
    eexists. split; [left; reflexivity|]. apply (put_change _ _ (tick y) (tick x)). apply in_map_iff. exists (y, x). auto.
Qed.
End Reported.

Definition notes_reported (l : list bag_event) (x : note) (m : metadata) := exists e, In e l /\ note_in x m e.
Lemma notes_app l l' x m : notes_reported (l ++ l') x m <-> notes_reported l x m \/ notes_reported l' x m.
Proof.
  unfold notes_reported. split.
  - intros [e [I P]]. apply in_app_or in I. destruct I; [left|right]; eauto.
  - intros [[e [I P]]|[e [I P]]]; exists e; (split; [apply in_or_app; auto|exact P]).
Qed.
Lemma notes_nil x m : notes_reported [] x m <-> False.
Proof. split; [intros [e [[] _]]|intros []]. Qed.
Lemma notes_adds d l x m : notes_reported (map (fun y => BAdd (note_start_tick y) y d) l) x m <-> In x l /\ m = d.
Proof.
  split.
  - intros [e [I P]]. apply in_map_iff in I. destruct I as [y [<- I]]. inversion P; subst; auto.
  - intros [I ->]. exists (BAdd (note_start_tick x) x d). split; [apply in_map_iff; eauto|constructor].
Qed.
Lemma notes_removes l x m : notes_reported (map (fun y => BRemove (note_start_tick y) y) l) x m <-> False.
Proof. split; [|intros []]. intros [e [I P]]. apply in_map_iff in I. destruct I as [y [<- I]]. inversion P. Qed.
Lemma notes_one k y d x m : notes_reported [BAdd k y d] x m <-> In x [y] /\ m = d.
Proof.
  split.
  - intros [e [[<-|[]] P]]. inversion P; subst. split; [left|]; reflexivity.
  - intros [[->|[]] ->]. exists (BAdd k x d). split; [left; reflexivity|constructor].
Qed.
Lemma notes_bulk l d x m : notes_reported [BBulkAdd (map note_entry l) d] x m <-> In x l /\ m = d.
Proof.
  split.
  - intros [e [[<-|[]] P]]. inversion P as [|k l' I|]; subst. apply in_map_iff in I. destruct I as [y [E I]]. inversion E; subst. auto.
  - intros [I ->]. eexists. split; [left; reflexivity|]. apply (note_bulk _ _ (note_start_tick x)). apply in_map_iff. exists x. auto.
Qed.
Lemma notes_gone l d e x m : notes_reported (BBulkRemove l d :: e) x m <-> notes_reported e x m.
Proof.
  split.
  - intros [y [[<-|I] P]]; [inversion P|]. exists y. auto.
  - intros [y [I P]]. exists y. split; [right; exact I|exact P].
Qed.
Lemma notes_change (l : list (note * note)) d x m :
  notes_reported [BChange (map (fun ft => (note_entry (fst ft), note_entry (snd ft))) l) d] x m <-> In x (map snd l) /\ m = d.
Proof.
  split.
  - intros [e [[<-|[]] P]]. inversion P as [| |k0 k l' I]; subst. apply in_map_iff in I. destruct I as [[y z] [E I]]. inversion E; subst.
    split; [|reflexivity]. apply in_map_iff. exists (y, x). auto.
  - intros [I ->]. apply in_map_iff in I. destruct I as [[y z] [E I]]. cbn in E. subst z.
    eexists. split; [left; reflexivity|]. apply (note_change _ _ (note_entry y) (note_start_tick x)). apply in_map_iff. exists (y, x). auto.
Qed.

Lemma reported_cons {V} (e : store_event V) l x m : reported (e :: l) x m <-> reported [e] x m \/ reported l x m.
Proof. apply (reported_app [e] l). Qed.

(** [v] reports the elements of [m] and no others as put in, with the metadata
    [d]; bars apart. *)
Definition reports_but_bars (v : events) (m : models) (d : metadata) : Prop :=
  (forall x d', note_reported v x d' <-> In x (m_notes m) /\ d' = d) /\
  (forall x d', reported (ev_tempos v) x d' <-> In x (m_tempos m) /\ d' = d) /\
  (forall x d', reported (ev_dumpers v) x d' <-> In x (m_dumpers m) /\ d' = d) /\
  (forall x d', reported (ev_softs v) x d' <-> In x (m_softs m) /\ d' = d).
Definition reports (v : events) (m : models) (d : metadata) : Prop :=
  reports_but_bars v m d /\ forall x d', reported (ev_bars v) x d' <-> In x (m_bars m) /\ d' = d.
(** The command of an edit that was asked to put in [m] puts in [m] and the bars [more]. *)
Definition puts (added m : models) (more : list bar) : Prop :=
  m_notes added = m_notes m /\ m_bars added = m_bars m ++ more /\ m_tempos added = m_tempos m /\
  m_dumpers added = m_dumpers m /\ m_softs added = m_softs m.

Lemma meta_of_select_eq s : meta_of_select s = mkMeta (if s then Some true else None) false.
Proof. destruct s; reflexivity. Qed.
Ltac rep := intros; unfold note_reported; rewrite ?meta_of_select_eq; cbn [asked changes_to ev_none ev_notes ev_bars ev_tempos ev_dumpers ev_softs models_empty m_notes m_bars m_tempos m_dumpers m_softs];
  repeat match goal with |- context [exists e, In e ?l /\ note_in ?x ?m e] => change (exists e, In e l /\ note_in x m e) with (notes_reported l x m) end;
  rewrite ?notes_gone, ?notes_nil, ?notes_one, ?notes_bulk, ?notes_change,
    ?reported_nil, ?reported_one, ?(reported_bulk b_tick), ?(reported_bulk tp_tick), ?(reported_bulk cc_tick),
    ?(reported_change b_tick), ?(reported_change tp_tick), ?(reported_change cc_tick);
  cbn [In]; tauto.

(** What the caller asked for is reported with what the caller said about the
    selection; the bars that are put in besides are reported as neither to be
    selected nor unselected; nothing else is reported as put in. *)
Theorem C60_edit : forall q p p' added removed m d v, asked q = Some (m, d) ->
  edit_run (request_edit q) p = Ret (Some (p', ModelChanged added removed)) -> request_events q p = Ret v ->
  reports_but_bars v m d /\
  exists more, puts added m more /\
    forall x d', reported (ev_bars v) x d' <-> (In x (m_bars m) /\ d' = d) \/ (In x more /\ d' = leave_alone).
Proof.
  assert (RE : forall more x d', reported (replenish_events more) x d' <-> In x more /\ d' = leave_alone).
  { intros. unfold replenish_events. apply reported_adds. }
  intros q p p' added removed m d v A E V. destruct q; cbn [asked request_edit edit_run request_events] in *; try discriminate.
  - inversion A; subst; clear A. unfold add_note in E. opened E. inversion E; subst. rewrite R in V. cbn [bind] in V. apply ret_inj in V. subst v.
    split; [split; [|split; [|split]]; rep|]. exists l. split; [repeat split|]. intros. cbn [ev_bars m_bars]. rewrite RE. cbn [In]. tauto.
  - inversion A; subst; clear A. unfold add_bar in E. destruct (s_add (b_tick b) b (pj_bars p)) as [s o] eqn:SA. apply ret_inj in E. inversion E; subst.
    apply ret_inj in V. subst v. split; [split; [|split; [|split]]; rep|]. exists []. split; [repeat split|]. intros. cbn [ev_bars m_bars].
    rewrite reported_one, meta_of_select_eq. cbn [In]. tauto.
  - inversion A; subst; clear A. unfold add_tempo in E. destruct (s_add (tp_tick t) t (pj_tempos p)) as [s o] eqn:SA. opened E. inversion E; subst.
    cbn [fst] in V. rewrite R in V. cbn [bind] in V. apply ret_inj in V. subst v.
    split; [split; [|split; [|split]]; rep|]. exists l. split; [repeat split|]. intros. cbn [ev_bars m_bars]. rewrite RE. cbn [In]. tauto.
  - inversion A; subst; clear A. unfold add_dumper in E. destruct (s_add (cc_tick c) c (pj_dumpers p)) as [s o] eqn:SA. opened E. inversion E; subst.
    cbn [fst] in V. rewrite R in V. cbn [bind] in V. apply ret_inj in V. subst v.
    split; [split; [|split; [|split]]; rep|]. exists l. split; [repeat split|]. intros. cbn [ev_bars m_bars]. rewrite RE. cbn [In]. tauto.
  - inversion A; subst; clear A. unfold add_soft in E. destruct (s_add (cc_tick c) c (pj_softs p)) as [s o] eqn:SA. opened E. inversion E; subst.
    cbn [fst] in V. rewrite R in V. cbn [bind] in V. apply ret_inj in V. subst v.
    split; [split; [|split; [|split]]; rep|]. exists l. split; [repeat split|]. intros. cbn [ev_bars m_bars]. rewrite RE. cbn [In]. tauto.
  - unfold tuplize_notes in E. destruct (1 <? length l)%nat; [|discriminate]. apply bind_ret in E. destruct E as [t [T E]]. opened E.
    rewrite T in A, V. cbn [bind] in V. rewrite R in V. cbn [bind] in V. apply ret_inj in V. subst v. inversion E; subst. inversion A; subst; clear A.
    split; [split; [|split; [|split]]; rep|]. exists l0. split; [repeat split|]. intros. cbn [ev_bars m_bars]. rewrite RE. cbn [In]. tauto.
  - inversion A; subst; clear A. unfold bulk_add in E.
    destruct (s_bulk_add (map bar_entry (m_bars m)) (pj_bars p)) as [s1 o1] eqn:A1.
    destruct (s_bulk_add (map tempo_entry (m_tempos m)) (pj_tempos p)) as [s2 o2] eqn:A2.
    destruct (s_bulk_add (map ctrl_entry (m_dumpers m)) (pj_dumpers p)) as [s3 o3] eqn:A3.
    destruct (s_bulk_add (map ctrl_entry (m_softs m)) (pj_softs p)) as [s4 o4] eqn:A4.
    opened E. inversion E; subst. cbn [fst] in V. rewrite R in V. cbn [bind] in V. apply ret_inj in V. subst v.
    split; [split; [|split; [|split]]; rep|]. exists l. split; [repeat split|]. intros. cbn [ev_bars m_bars]. rewrite reported_cons, RE.
    rewrite (reported_bulk b_tick). tauto.
  - inversion A; subst; clear A. unfold change in E.
    destruct (s_change (change_entries b_tick (ch_bars c)) (pj_bars p)) as [s1 o1] eqn:A1.
    destruct (s_change (change_entries tp_tick (ch_tempos c)) (pj_tempos p)) as [s2 o2] eqn:A2.
    destruct (s_change (change_entries cc_tick (ch_dumpers c)) (pj_dumpers p)) as [s3 o3] eqn:A3.
    destruct (s_change (change_entries cc_tick (ch_softs c)) (pj_softs p)) as [s4 o4] eqn:A4.
    opened E. inversion E; subst. cbn [fst] in V. rewrite R in V. cbn [bind] in V. apply ret_inj in V. subst v.
    split; [split; [|split; [|split]]; rep|]. exists l. split; [repeat split|]. intros. cbn [ev_bars m_bars]. rewrite reported_cons, RE.
    rewrite (reported_change b_tick). tauto.
Qed.
Print Assumptions C60_edit.

(** A call that puts nothing in reports nothing as put in. *)
Theorem C60_quiet : forall q p v, asked q = None -> request_events q p = Ret v -> reports v models_empty leave_alone.
Proof.
  intros q p v A V. destruct q; cbn [asked request_events] in *; try discriminate; try (apply ret_inj in V; subst v).
  1-3: (split; [split; [|split; [|split]]|]); rep.
  - destruct (1 <? length l)%nat eqn:L.
    + apply bind_ret in V. destruct V as [t [T V]]. rewrite T in A. discriminate.
    + apply ret_inj in V. subst v. (split; [split; [|split; [|split]]|]); rep.
  - unfold redo_events, exchange_events. cbn [models_empty m_notes m_bars m_tempos m_dumpers m_softs map]. rewrite !app_nil_r.
    split; [split; [|split; [|split]]|]; cbn [ev_notes ev_bars ev_tempos ev_dumpers ev_softs models_empty m_notes m_bars m_tempos m_dumpers m_softs In]; intros x d';
      [|rewrite (reported_removes tp_tick)|rewrite (reported_removes cc_tick)|rewrite (reported_removes cc_tick)|rewrite (reported_removes b_tick)]; try tauto.
    change (notes_reported (map (fun n => BRemove (note_start_tick n) n) (m_notes m)) x d' <-> False /\ d' = leave_alone).
    rewrite notes_removes. tauto.
Qed.
Print Assumptions C60_quiet.

Lemma exchange_reports g b d : reports (exchange_events g b d) b d.
Proof.
  unfold exchange_events.
  split; [split; [|split; [|split]]|]; cbn [ev_notes ev_bars ev_tempos ev_dumpers ev_softs]; intros x d'.
  - change (notes_reported (map (fun n => BRemove (note_start_tick n) n) (m_notes g) ++ map (fun n => BAdd (note_start_tick n) n d) (m_notes b)) x d' <-> In x (m_notes b) /\ d' = d).
    rewrite notes_app, notes_removes, notes_adds. tauto.
  - rewrite reported_app, (reported_removes tp_tick), (reported_adds tp_tick). tauto.
  - rewrite reported_app, (reported_removes cc_tick), (reported_adds cc_tick). tauto.
  - rewrite reported_app, (reported_removes cc_tick), (reported_adds cc_tick). tauto.
  - rewrite reported_app, (reported_removes b_tick), (reported_adds b_tick). tauto.
Qed.

(** Undo reports what the edit took away, and redo what it put in, with what the
    caller of the edit said about the selection. *)
Theorem C60_undo_redo : forall added removed d,
  reports (undo_events (ModelChanged added removed) d) removed d /\ reports (redo_events (ModelChanged added removed) d) added d.
Proof. intros. split; apply exchange_reports. Qed.
Print Assumptions C60_undo_redo.

(** The metadata that is recorded is what the caller said. *)
Theorem C60_recorded : forall q m d, asked q = Some (m, d) -> request_meta q = d.
Proof.
  intros q m d A. destruct q; cbn [asked] in A; try discriminate; try (inversion A; subst; try apply meta_of_select_eq; reflexivity).
  destruct (tuplize l); try discriminate. destruct (1 <? length l)%nat; [|discriminate]. inversion A; subst. reflexivity.
Qed.
Print Assumptions C60_recorded.

(** So a redo reports what the edit reported if the edit put in no bars of its own … *)
Theorem C60_redo : forall q p p' added removed m d v, asked q = Some (m, d) ->
  edit_run (request_edit q) p = Ret (Some (p', ModelChanged added removed)) -> request_events q p = Ret v ->
  m_bars added = m_bars m -> reports v m d /\ reports (redo_events (ModelChanged added removed) (request_meta q)) m d.
Proof.
  intros q p p' added removed m d v A E V B. destruct (C60_edit _ _ _ _ _ _ _ _ A E V) as [R [more [(PN & PB & PT & PD & PS) RB]]].
  assert (M : more = []). { rewrite B in PB. apply (app_inv_head (m_bars m)). rewrite app_nil_r. symmetry. exact PB. }
  subst more. split.
  - split; [exact R|]. intros x d'. rewrite RB. cbn [In]. tauto.
  - rewrite (C60_recorded _ _ _ A). destruct (exchange_reports removed added d) as [(RN & RT & RD & RS) RB'].
    cbn [redo_events]. rewrite PN in RN. rewrite PT in RT. rewrite PD in RD. rewrite PS in RS. rewrite B in RB'.
    split; [split; [|split; [|split]]|]; assumption.
Qed.
Print Assumptions C60_redo.

(** … and if it did, the redo asks for those bars to be selected although the
    edit did not. *)
Theorem C60_redo_refuted : exists q p p' added removed v b,
  edit_run (request_edit q) p = Ret (Some (p', ModelChanged added removed)) /\ request_events q p = Ret v /\
  (forall d, reported (ev_bars v) b d <-> d = leave_alone) /\
  (forall d, reported (ev_bars (redo_events (ModelChanged added removed) (request_meta q))) b d <-> d = mkMeta (Some true) false).
Proof.
  pose (n := T_Project.ex_note 0 SC). pose (b := mkBar 960 None None ms_empty).
  pose (p := mkProject rhythm_default 0 60 [] [] [] [] []).
  exists (QAddNote n true), p, (mkProject rhythm_default 0 60 [(0, n)] [(960, b)] [] [] []),
    (mkModels [n] [b] [] [] []), models_empty,
    (mkEvents [BAdd 0 n (meta_of_select true)] [SAdd 960 b (meta_of_select false)] [] [] []), b.
  split; [vm_compute; reflexivity|]. split; [vm_compute; reflexivity|]. split; intros d.
  - cbn [ev_bars]. rewrite reported_one. cbn [In]. unfold leave_alone. cbn. intuition.
  - cbn [ev_bars redo_events exchange_events models_empty m_bars map app]. rewrite reported_one. cbn [In]. cbn. intuition.
Qed.
Print Assumptions C60_redo_refuted.

(** A session: an edit that is looked at, a change, an undo, a redo and another
    look; the observer began with the project that was loaded. *)
Definition ex_copy : project := mkProject rhythm_default 0 60 [] [] [] [] [].
Definition ex_moves : list move :=
  [Look true; Act (Ask (QAddNote (T_Project.ex_note 2000 SC) true)); Act (Ask (QBulkRemove (mkModels [T_Project.ex_note 480 SE] [] [] [] []) meta_new));
   Look true; Act UndoIt; Act UndoIt; Act RedoIt; Act (Ask (QChange T_Project.ex_change (meta_of_select true)))].
Example C59_example : exists s copy,
  all_together (session_load (export T_Project.ex_project) 10, ex_copy) ex_moves = Ret (s, copy) /\
  same_repos (follow (ss_events s) copy) (ss_model s) /\ ~ same_repos copy (ss_model s) /\
  length (ss_undo s) = 2%nat /\ length (ev_notes (ss_events s)) = 4%nat.
Proof.
  assert (E : match all_together (session_load (export T_Project.ex_project) 10, ex_copy) ex_moves with
    | Ret (s, copy) => (length (ss_undo s), length (ev_notes (ss_events s)), map fst (pj_notes copy), map fst (pj_notes (ss_model s))) =
        (2%nat, 4%nat, [0; 480; 1600; 2000], [0; 480; 700; 1600; 2000]) | _ => False end) by (vm_compute; reflexivity).
  destruct (all_together _ _) as [[s copy]| |] eqn:T; [|destruct E|destruct E]. injection E as E1 E2 E3 E4.
  exists s, copy. split; [reflexivity|]. split; [|split; [|split]]; auto.
  - apply (C59_observer _ _ _ _ _ T). apply C59_load; reflexivity.
  - intros (N & _). rewrite N in E3. rewrite E4 in E3. discriminate.
Qed.
Example C60_quiet_case : exists v,
  asked (QBulkRemove (mkModels [T_Project.ex_note 480 SE] [] [] [] []) meta_new) = None /\
  request_events (QBulkRemove (mkModels [T_Project.ex_note 480 SE] [] [] [] []) meta_new) T_Project.ex_project = Ret v /\ ev_notes v <> [].
Proof. eexists. split; [reflexivity|]. split; [vm_compute; reflexivity|]. discriminate. Qed.
(** A note put in before the last bar brings no bars with it. *)
Example C60_redo_case : let q := QAddNote (T_Project.ex_note 100 SC) true in exists p' added removed m d v,
  asked q = Some (m, d) /\ edit_run (request_edit q) T_Project.ex_project = Ret (Some (p', ModelChanged added removed)) /\
  request_events q T_Project.ex_project = Ret v /\ m_bars added = m_bars m /\ request_meta q = mkMeta (Some true) false.
Proof.
  cbv zeta. eexists. eexists. eexists. eexists. eexists. eexists.
  split; [reflexivity|]. split; [vm_compute; reflexivity|]. split; [vm_compute; reflexivity|]. split; reflexivity.
Qed.
Example C60_example : exists m d p' added removed v,
  asked (QChange T_Project.ex_change (meta_of_select true)) = Some (m, d) /\
  edit_run (EChange T_Project.ex_change) T_Project.ex_project = Ret (Some (p', ModelChanged added removed)) /\
  request_events (QChange T_Project.ex_change (meta_of_select true)) T_Project.ex_project = Ret v /\
  m_notes m <> [] /\ md_select d = Some true.
Proof.
  assert (E : exists p' added removed, edit_run (EChange T_Project.ex_change) T_Project.ex_project = Ret (Some (p', ModelChanged added removed))).
  { cbn [edit_run]. unfold change.
    repeat match goal with |- context [let (_, _) := ?x in _] => let y := eval vm_compute in x in change x with y; cbn beta iota end.
    match goal with |- context [replenish_bars ?x] => let y := eval vm_compute in (replenish_bars x) in replace (replenish_bars x) with y by (vm_compute; reflexivity) end.
    cbn [bind]. eauto. }
  destruct E as (p' & added & removed & E). destruct (C59_edit (QChange T_Project.ex_change (meta_of_select true)) _ _ _ E) as [v [V _]].
  exists (changes_to T_Project.ex_change), (meta_of_select true), p', added, removed, v.
  split; [reflexivity|]. split; [exact E|]. split; [exact V|]. split; [|reflexivity]. vm_compute. discriminate.
Qed.
