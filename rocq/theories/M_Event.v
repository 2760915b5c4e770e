(** Model of what the project reports to its observers: the metadata of a change
    and the events of the repositories (src/project.rs 42-66, 849-884).  The
    containers of klavier-helper record an event for every call that changes
    them (they are created with [new(true)]); the crate is not in the sandbox, so
    an event is represented by the call with its arguments (see DESIGN.md,
    trusted base). *)
From Coq Require Import ZArith List Bool.
From Verif Require Import Base M_Pitch M_Duration M_Scalar M_Bar M_Note M_Models M_Store M_Tuple M_Project.
Import ListNotations.
Open Scope Z_scope.

(** src/project.rs 42-49 *)
Record metadata := mkMeta { md_select : option bool; md_dragged : bool }.
(** src/project.rs 52-57 *)
Definition meta_new : metadata := mkMeta None false.
(** src/project.rs 59-64 *)
Definition meta_with_select (m : metadata) (b : bool) : metadata := mkMeta (Some b) (md_dragged m).
(** src/project.rs 187-188, 597-598, 614-615, 630-631, 647-648, 663-664 *)
Definition meta_of_select (select : bool) : metadata :=
  if select then mkMeta (Some true) (md_dragged meta_new) else meta_new.

(** The calls of [Store] ([V]: the elements) and of [BagStore] *)
Inductive store_event (V : Type) :=
| SAdd (k : Z) (v : V) (m : metadata)
| SRemove (k : Z)
| SBulkAdd (l : list (Z * V)) (m : metadata)
| SChange (l : list (Z * (Z * V))) (m : metadata).
Inductive bag_event :=
| BAdd (k : Z) (n : note) (m : metadata)
| BRemove (k : Z) (n : note)
| BBulkAdd (l : list (Z * note)) (m : metadata)
| BBulkRemove (l : list (Z * note)) (m : metadata)
| BChange (l : list ((Z * note) * (Z * note))) (m : metadata).
Arguments SAdd {V}. Arguments SRemove {V}. Arguments SBulkAdd {V}. Arguments SChange {V}.

(** The events of the five repositories, oldest first (src/project.rs 860-884) *)
Record events := mkEvents {
  ev_notes : list bag_event;
  ev_bars : list (store_event bar);
  ev_tempos : list (store_event tempo);
  ev_dumpers : list (store_event ctrl_chg);
  ev_softs : list (store_event ctrl_chg);
}.
Definition ev_none : events := mkEvents [] [] [] [] [].
Definition ev_app (a b : events) : events :=
  mkEvents (ev_notes a ++ ev_notes b) (ev_bars a ++ ev_bars b) (ev_tempos a ++ ev_tempos b)
    (ev_dumpers a ++ ev_dumpers b) (ev_softs a ++ ev_softs b).

(** src/project.rs 186-190, 349: bars added by [replenish_bars] *)
Definition replenish_events (more : list bar) : list (store_event bar) :=
  map (fun b => SAdd (b_tick b) b (meta_of_select false)) more.

(** src/project.rs 431-463 and 478-510 *)
Definition exchange_events (gone back : models) (m : metadata) : events :=
  mkEvents
    (map (fun n => BRemove (note_start_tick n) n) (m_notes gone) ++ map (fun n => BAdd (note_start_tick n) n m) (m_notes back))
    (map (fun b => SRemove (b_tick b)) (m_bars gone) ++ map (fun b => SAdd (b_tick b) b m) (m_bars back))
    (map (fun t => SRemove (tp_tick t)) (m_tempos gone) ++ map (fun t => SAdd (tp_tick t) t m) (m_tempos back))
    (map (fun d => SRemove (cc_tick d)) (m_dumpers gone) ++ map (fun d => SAdd (cc_tick d) d m) (m_dumpers back))
    (map (fun s => SRemove (cc_tick s)) (m_softs gone) ++ map (fun s => SAdd (cc_tick s) s m) (m_softs back)).

(** src/project.rs 420-465; [m] is the metadata kept in the command *)
Definition undo_events (c : cmd) (m : metadata) : events :=
  match c with ModelChanged added removed => exchange_events added removed m | _ => ev_none end.
(** src/project.rs 467-512 *)
Definition redo_events (c : cmd) (m : metadata) : events :=
  match c with ModelChanged added removed => exchange_events removed added m | _ => ev_none end.

(** The calls of the trait [Project] with what they say about the selection *)
Inductive request :=
| QSetRhythm (r : rhythm) | QSetKey (k : key) | QSetGrid (g : grid)
| QAddNote (n : note) (select : bool) | QAddBar (b : bar) (select : bool) | QAddTempo (t : tempo) (select : bool)
| QAddDumper (c : ctrl_chg) (select : bool) | QAddSoft (c : ctrl_chg) (select : bool)
| QTuplize (l : list note)
| QBulkRemove (m : models) (d : metadata) | QBulkAdd (m : models) (d : metadata) | QChange (c : model_changes) (d : metadata).
Definition request_edit (q : request) : edit :=
  match q with
  | QSetRhythm r => ESetRhythm r | QSetKey k => ESetKey k | QSetGrid g => ESetGrid g
  | QAddNote n _ => EAddNote n | QAddBar b _ => EAddBar b | QAddTempo t _ => EAddTempo t
  | QAddDumper c _ => EAddDumper c | QAddSoft c _ => EAddSoft c | QTuplize l => ETuplize l
  | QBulkRemove m _ => EBulkRemove m | QBulkAdd m _ => EBulkAdd m | QChange c _ => EChange c
  end.

(** The metadata that is kept in the recorded command: src/project.rs 607, 623,
    640, 656, 672, 700, 709, 750, 825.  (The commands of the three settings have
    none.) *)
Definition request_meta (q : request) : metadata :=
  match q with
  | QSetRhythm _ | QSetKey _ | QSetGrid _ => meta_new
  | QAddNote _ s | QAddBar _ s | QAddTempo _ s | QAddDumper _ s | QAddSoft _ s => meta_of_select s
  | QTuplize _ => meta_with_select meta_new true
  | QBulkRemove _ d | QBulkAdd _ d | QChange _ d => d
  end.

(** The events of a request.  [replenish_bars] is run on the project as the other
    calls left it; it reports the bars it adds. *)
Definition request_events (q : request) (p : project) : outcome events :=
  match q with
  | QSetRhythm _ | QSetKey _ | QSetGrid _ => Ret ev_none
  (* src/project.rs 595-611 *)
  | QAddNote n s =>
      let! (_, more) := replenish_bars (pj_set_notes p (b_add (note_start_tick n) n (pj_notes p))) in
      Ret (mkEvents [BAdd (note_start_tick n) n (meta_of_select s)] (replenish_events more) [] [] [])
  (* src/project.rs 613-627 *)
  | QAddBar b s => Ret (mkEvents [] [SAdd (b_tick b) b (meta_of_select s)] [] [] [])
  (* src/project.rs 629-644 *)
  | QAddTempo t s =>
      let! (_, more) := replenish_bars (pj_set_tempos p (fst (s_add (tp_tick t) t (pj_tempos p)))) in
      Ret (mkEvents [] (replenish_events more) [SAdd (tp_tick t) t (meta_of_select s)] [] [])
  (* src/project.rs 646-660 *)
  | QAddDumper d s =>
      let! (_, more) := replenish_bars (pj_set_dumpers p (fst (s_add (cc_tick d) d (pj_dumpers p)))) in
      Ret (mkEvents [] (replenish_events more) [] [SAdd (cc_tick d) d (meta_of_select s)] [])
  (* src/project.rs 662-676 *)
  | QAddSoft d s =>
      let! (_, more) := replenish_bars (pj_set_softs p (fst (s_add (cc_tick d) d (pj_softs p)))) in
      Ret (mkEvents [] (replenish_events more) [] [] [SAdd (cc_tick d) d (meta_of_select s)])
  (* src/project.rs 678-706 *)
  | QTuplize notes =>
      if (1 <? length notes)%nat then
        let! tupled := tuplize notes in
        let! (_, more) := replenish_bars (pj_set_notes p
          (b_bulk_add (map note_entry tupled) (b_bulk_remove note_eq_dec (map note_entry notes) (pj_notes p)))) in
        Ret (mkEvents
          [BBulkRemove (map note_entry notes) meta_new; BBulkAdd (map note_entry tupled) (meta_with_select meta_new true)]
          (replenish_events more) [] [] [])
      else Ret ev_none
  (* src/project.rs 708-710 *)
  | QBulkRemove m d => Ret (redo_events (ModelChanged models_empty m) d)
  (* src/project.rs 712-752 *)
  | QBulkAdd m d =>
      let! (_, more) := replenish_bars (mkProject (pj_rhythm p) (pj_key p) (pj_grid p)
        (b_bulk_add (map note_entry (m_notes m)) (pj_notes p))
        (fst (s_bulk_add (map bar_entry (m_bars m)) (pj_bars p)))
        (fst (s_bulk_add (map tempo_entry (m_tempos m)) (pj_tempos p)))
        (fst (s_bulk_add (map ctrl_entry (m_dumpers m)) (pj_dumpers p)))
        (fst (s_bulk_add (map ctrl_entry (m_softs m)) (pj_softs p)))) in
      Ret (mkEvents [BBulkAdd (map note_entry (m_notes m)) d]
        (SBulkAdd (map bar_entry (m_bars m)) d :: replenish_events more)
        [SBulkAdd (map tempo_entry (m_tempos m)) d]
        [SBulkAdd (map ctrl_entry (m_dumpers m)) d] [SBulkAdd (map ctrl_entry (m_softs m)) d])
  (* src/project.rs 754-827 *)
  | QChange c d =>
      let ns := map (fun ft => (note_entry (fst ft), note_entry (snd ft))) (ch_notes c) in
      let! (_, more) := replenish_bars (mkProject (pj_rhythm p) (pj_key p) (pj_grid p)
        (b_change note_eq_dec ns (pj_notes p))
        (fst (s_change (change_entries b_tick (ch_bars c)) (pj_bars p)))
        (fst (s_change (change_entries tp_tick (ch_tempos c)) (pj_tempos p)))
        (fst (s_change (change_entries cc_tick (ch_dumpers c)) (pj_dumpers p)))
        (fst (s_change (change_entries cc_tick (ch_softs c)) (pj_softs p)))) in
      Ret (mkEvents [BChange ns d]
        (SChange (change_entries b_tick (ch_bars c)) d :: replenish_events more)
        [SChange (change_entries tp_tick (ch_tempos c)) d]
        [SChange (change_entries cc_tick (ch_dumpers c)) d] [SChange (change_entries cc_tick (ch_softs c)) d])
  end.

(** A session: the project, the commands with their metadata that can be undone
    and redone (newest first), and the events since they were last cleared. *)
Record session := mkSession {
  ss_model : project; ss_undo : list (cmd * metadata); ss_redo : list (cmd * metadata); ss_limit : nat; ss_events : events }.

(** [Clear]: whether serdo's [irreversible_mutate] keeps the commands or forgets
    them is left open. *)
Inductive act := Ask (q : request) | UndoIt | RedoIt | Clear (keep : bool).
Definition act_run (a : act) (s : session) : outcome session :=
  match a with
  | Ask q =>
      let! r := edit_run (request_edit q) (ss_model s) in
      let! v := request_events q (ss_model s) in
      match r with
      | None => Ret s
      | Some (p, c) =>
          Ret (mkSession p (firstn (ss_limit s) ((c, request_meta q) :: ss_undo s)) [] (ss_limit s) (ev_app (ss_events s) v))
      end
  | UndoIt =>
      match ss_undo s with
      | [] => Ret s
      | (c, m) :: r =>
          Ret (mkSession (cmd_undo c (ss_model s)) r ((c, m) :: ss_redo s) (ss_limit s) (ev_app (ss_events s) (undo_events c m)))
      end
  | RedoIt =>
      match ss_redo s with
      | [] => Ret s
      | (c, m) :: r =>
          Ret (mkSession (cmd_redo c (ss_model s)) ((c, m) :: ss_undo s) r (ss_limit s) (ev_app (ss_events s) (redo_events c m)))
      end
  (* src/project.rs 849-857 *)
  | Clear keep =>
      Ret (if keep then mkSession (ss_model s) (ss_undo s) (ss_redo s) (ss_limit s) ev_none
           else mkSession (ss_model s) [] [] (ss_limit s) ev_none)
  end.

(** src/project.rs 90-113: a project that is loaded *)
Definition import_events (e : exported) : events :=
  let m := ex_models e in
  mkEvents [BBulkAdd (map note_entry (m_notes m)) meta_new] [SBulkAdd (map bar_entry (m_bars m)) meta_new]
    [SBulkAdd (map tempo_entry (m_tempos m)) meta_new] [SBulkAdd (map ctrl_entry (m_dumpers m)) meta_new]
    [SBulkAdd (map ctrl_entry (m_softs m)) meta_new].
Definition session_load (e : exported) (limit : nat) : session := mkSession (import e) [] [] limit (import_events e).
