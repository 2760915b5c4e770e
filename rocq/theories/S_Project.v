(** Specification of projects, their queries, edits and histories. *)
From Coq Require Import ZArith List Bool Sorted Permutation.
From Verif Require Import Base M_Duration M_Percent M_Scalar M_Bar M_Note M_Tuple M_Models M_Project S_Percent.
Import ListNotations.
Open Scope Z_scope.

(** ** What holds of every project *)

(** A repository with one element per tick: sorted, every element is stored
    under its own tick. *)
Definition keyed {V : Type} (tick : V -> Z) (s : list (Z * V)) : Prop :=
  StronglySorted (fun a b => fst a < fst b) s /\
  (forall k v, In (k, v) s -> k = tick v /\ u32 k).

(** The notes: sorted by effective start tick. *)
Definition notes_ok (s : list (Z * note)) : Prop :=
  StronglySorted (fun a b => fst a <= fst b) s /\
  (forall k n, In (k, n) s -> k = note_start_tick n).

Record project_ok (p : project) : Prop := mkOk {
  ok_notes : notes_ok (pj_notes p);
  ok_bars : keyed b_tick (pj_bars p);
  ok_tempos : keyed tp_tick (pj_tempos p);
  ok_dumpers : keyed cc_tick (pj_dumpers p);
  ok_softs : keyed cc_tick (pj_softs p);
}.

(** What the types of Rust guarantee about the ticks of elements. *)
Record models_typed (m : models) : Prop := mkTyped {
  ty_bars : Forall (fun b => u32 (b_tick b)) (m_bars m);
  ty_tempos : Forall (fun b => u32 (tp_tick b)) (m_tempos m);
  ty_dumpers : Forall (fun b => u32 (cc_tick b)) (m_dumpers m);
  ty_softs : Forall (fun b => u32 (cc_tick b)) (m_softs m);
}.

(** ** Values in force *)

(** [o] is the element with the greatest tick that is not after [t]. *)
Definition latest {V : Type} (s : list (Z * V)) (t : Z) (o : option V) : Prop :=
  match o with
  | Some v => exists k, In (k, v) s /\ k <= t /\ forall k' v', In (k', v') s -> k' <= t -> k' <= k
  | None => forall k v, In (k, v) s -> t < k
  end.

(** The bars that set something (a rhythm, a key), with what they set. *)
Definition setting {A : Type} (f : bar -> option A) (s : list (Z * bar)) : list (Z * A) :=
  flat_map (fun kb => match f (snd kb) with Some a => [(fst kb, a)] | None => [] end) s.

(** ** Where bar number [b] starts; bars are counted from 1, what is before the
    first bar is bar 0; after the last bar the length in force there goes on. *)
Definition bar_start (p : project) (len_at_end : Z) (b : Z) : Z :=
  if b =? 0 then 0
  else
    match nth_error (pj_bars p) (Z.to_nat (b - 1)) with
    | Some (k, _) => k
    | None =>
        match pj_bars p with
        | [] => b * rhythm_tick_len (pj_rhythm p)
        | x :: s => fst (last s x) + (b - Z.of_nat (length (pj_bars p))) * len_at_end
        end
    end.

(** Earlier locations. *)
Definition loc_lt (a b : location) : Prop :=
  loc_bar a < loc_bar b \/ (loc_bar a = loc_bar b /\ loc_offset a < loc_offset b).

(** All rhythms of a project satisfy a predicate. *)
Definition all_rhythms (P : rhythm -> Prop) (p : project) : Prop :=
  P (pj_rhythm p) /\ forall k b r, In (k, b) (pj_bars p) -> b_rhythm b = Some r -> P r.

(** Bars of positive length: the numerator, a u8, is not 0. *)
Definition valid_rhythms (p : project) : Prop := all_rhythms (fun r => 1 <= rh_num r <= 255) p.

(** ** Ends of the content *)

(** Something ends (a note) or is (a tempo, a pedal event) at tick [t]. *)
Inductive ends_at (p : project) : Z -> Prop :=
| ends_note k n l : In (k, n) (pj_notes p) -> note_tick_len n = Ret l -> ends_at p (k + l)
| ends_tempo k v : In (k, v) (pj_tempos p) -> ends_at p k
| ends_dumper k v : In (k, v) (pj_dumpers p) -> ends_at p k
| ends_soft k v : In (k, v) (pj_softs p) -> ends_at p k.

(** The same for a selection of elements. *)
Inductive ends_in (m : models) : Z -> Prop :=
| in_note n l : In n (m_notes m) -> note_tick_len n = Ret l -> ends_in m (note_start_tick n + l)
| in_tempo v : In v (m_tempos m) -> ends_in m (tp_tick v)
| in_dumper v : In v (m_dumpers m) -> ends_in m (cc_tick v)
| in_soft v : In v (m_softs m) -> ends_in m (cc_tick v).

(** Notes as the constructors make them. *)
Definition note_valid (n : note) : Prop :=
  duration_valid (n_duration n) /\ obtainable_rate (n_duration_trimmer n).
Definition notes_valid (p : project) : Prop := forall k n, In (k, n) (pj_notes p) -> note_valid n.

(** Everything is covered by bars. *)
Definition covered (p : project) : Prop :=
  forall t, ends_at p t -> t <= 0 \/ exists k b, In (k, b) (pj_bars p) /\ t <= k.

(** The tick of the last bar, 0 if there is none. *)
Definition last_tick (p : project) : Z :=
  match pj_bars p with [] => 0 | x :: s => fst (last s x) end.

(** Everything but the bars is the same. *)
Definition same_but_bars (p q : project) : Prop :=
  pj_rhythm p = pj_rhythm q /\ pj_key p = pj_key q /\ pj_grid p = pj_grid q /\
  pj_notes p = pj_notes q /\ pj_tempos p = pj_tempos q /\ pj_dumpers p = pj_dumpers q /\
  pj_softs p = pj_softs q.

(** Blank bars, evenly spaced after [from]. *)
Fixpoint even_bars (from len : Z) (n : nat) : list bar :=
  match n with
  | O => []
  | S n' => mkBar (from + len) None None 0 :: even_bars (from + len) len n'
  end.

(** ** Equal projects: the order of notes is of no importance *)
Record same_project (p q : project) : Prop := mkSame {
  same_rhythm : pj_rhythm p = pj_rhythm q;
  same_key : pj_key p = pj_key q;
  same_grid : pj_grid p = pj_grid q;
  same_notes : Permutation (pj_notes p) (pj_notes q);
  same_bars : pj_bars p = pj_bars q;
  same_tempos : pj_tempos p = pj_tempos q;
  same_dumpers : pj_dumpers p = pj_dumpers q;
  same_softs : pj_softs p = pj_softs q;
}.

(** ** Well-formed edits *)

(** All of [l] is there (with multiplicity). *)
Definition contains_notes (p : project) (l : list note) : Prop :=
  exists rest, Permutation (map snd (pj_notes p)) (l ++ rest).
Definition contains_all {V : Type} (tick : V -> Z) (s : list (Z * V)) (l : list V) : Prop :=
  forall v, In v l -> In (tick v, v) s.
Definition distinct_ticks {V : Type} (tick : V -> Z) (l : list V) : Prop := NoDup (map tick l).

Record all_present (p : project) (m : models) : Prop := mkPresent {
  pr_notes : contains_notes p (m_notes m);
  pr_bars : contains_all b_tick (pj_bars p) (m_bars m);
  pr_tempos : contains_all tp_tick (pj_tempos p) (m_tempos m);
  pr_dumpers : contains_all cc_tick (pj_dumpers p) (m_dumpers m);
  pr_softs : contains_all cc_tick (pj_softs p) (m_softs m);
}.

Record all_distinct (m : models) : Prop := mkDistinct {
  ds_bars : distinct_ticks b_tick (m_bars m);
  ds_tempos : distinct_ticks tp_tick (m_tempos m);
  ds_dumpers : distinct_ticks cc_tick (m_dumpers m);
  ds_softs : distinct_ticks cc_tick (m_softs m);
}.

Definition changes_from (c : model_changes) : models :=
  mkModels (map fst (ch_notes c)) (map fst (ch_bars c)) (map fst (ch_tempos c))
    (map fst (ch_dumpers c)) (map fst (ch_softs c)).
Definition changes_to (c : model_changes) : models :=
  mkModels (map snd (ch_notes c)) (map snd (ch_bars c)) (map snd (ch_tempos c))
    (map snd (ch_dumpers c)) (map snd (ch_softs c)).

(** What is removed is there, no two things put into one repository are at the
    same tick. *)
Definition edit_wf (e : edit) (p : project) : Prop :=
  match e with
  | ETuplize l => contains_notes p l
  | EBulkRemove m => all_present p m
  | EBulkAdd m => all_distinct m
  | EChange c => all_present p (changes_from c) /\ all_distinct (changes_to c)
  | _ => True
  end.

(** Ticks fit in u32. *)
Definition edit_typed (e : edit) : Prop :=
  match e with
  | EAddBar b => u32 (b_tick b)
  | EAddTempo t => u32 (tp_tick t)
  | EAddDumper c | EAddSoft c => u32 (cc_tick c)
  | EBulkRemove m | EBulkAdd m => models_typed m
  | EChange c => models_typed (changes_from c) /\ models_typed (changes_to c)
  | _ => True
  end.

(** Every edit records a command, except making a tuplet of fewer than two notes. *)
Definition records (e : edit) : bool :=
  match e with ETuplize l => (1 <? length l)%nat | _ => true end.

(** ** What each edit does *)

(** What an edit of elements takes out and puts in.  Only adding a single bar
    and removing never append bars. *)
Inductive moves : edit -> models -> models -> Prop :=
| mv_note n : moves (EAddNote n) models_empty (mkModels [n] [] [] [] [])
| mv_bar b : moves (EAddBar b) models_empty (mkModels [] [b] [] [] [])
| mv_tempo t : moves (EAddTempo t) models_empty (mkModels [] [] [t] [] [])
| mv_dumper c : moves (EAddDumper c) models_empty (mkModels [] [] [] [c] [])
| mv_soft c : moves (EAddSoft c) models_empty (mkModels [] [] [] [] [c])
| mv_tuplize l t : tuplize l = Ret t -> moves (ETuplize l) (mkModels l [] [] [] []) (mkModels t [] [] [] [])
| mv_remove m : moves (EBulkRemove m) m models_empty
| mv_add m : moves (EBulkAdd m) models_empty m
| mv_change c : moves (EChange c) (changes_from c) (changes_to c).

Definition may_append (e : edit) : bool :=
  match e with EAddBar _ | EBulkRemove _ | ESetRhythm _ | ESetKey _ | ESetGrid _ => false | _ => true end.

(** [s'] is [s] without what is at the ticks [gone], with [put] written over it. *)
Definition overwritten {V : Type} (tick : V -> Z) (s : list (Z * V)) (gone : list Z) (put : list V)
    (s' : list (Z * V)) : Prop :=
  forall k v, In (k, v) s' <->
    (In v put /\ k = tick v) \/ (~ In k (map tick put) /\ ~ In k gone /\ In (k, v) s).

(** The elements [out] are taken out and [into] put in; [more] are the bars
    added behind everything else. *)
Record exchanged (p : project) (out into : models) (more : list bar) (p' : project) : Prop := mkExch {
  exch_settings : pj_rhythm p' = pj_rhythm p /\ pj_key p' = pj_key p /\ pj_grid p' = pj_grid p;
  exch_notes : Permutation (map snd (pj_notes p') ++ m_notes out) (map snd (pj_notes p) ++ m_notes into);
  exch_bars : overwritten b_tick (pj_bars p) (map b_tick (m_bars out)) (m_bars into ++ more) (pj_bars p');
  exch_tempos : overwritten tp_tick (pj_tempos p) (map tp_tick (m_tempos out)) (m_tempos into) (pj_tempos p');
  exch_dumpers : overwritten cc_tick (pj_dumpers p) (map cc_tick (m_dumpers out)) (m_dumpers into) (pj_dumpers p');
  exch_softs : overwritten cc_tick (pj_softs p) (map cc_tick (m_softs out)) (m_softs into) (pj_softs p');
}.

(** The same for edits that are given anything: of several elements put at one tick
    the last one stays; taking out what is not there does nothing. *)
Definition last_with {V : Type} (tick : V -> Z) (put : list V) (k : Z) (v : V) : Prop :=
  tick v = k /\ exists a b, put = a ++ v :: b /\ ~ In k (map tick b).

Definition written_over {V : Type} (tick : V -> Z) (s : list (Z * V)) (gone : list Z) (put : list V)
    (s' : list (Z * V)) : Prop :=
  forall k v, In (k, v) s' <->
    last_with tick put k v \/ (~ In k (map tick put) /\ ~ In k gone /\ In (k, v) s).

Definition how_many (l : list note) (n : note) : nat := count_occ note_eq_dec l n.

Record rewritten (p : project) (out into : models) (more : list bar) (p' : project) : Prop := mkRewr {
  rewr_settings : pj_rhythm p' = pj_rhythm p /\ pj_key p' = pj_key p /\ pj_grid p' = pj_grid p;
  rewr_notes : forall n, how_many (map snd (pj_notes p')) n =
    (how_many (map snd (pj_notes p)) n - how_many (m_notes out) n + how_many (m_notes into) n)%nat;
  rewr_bars : written_over b_tick (pj_bars p) (map b_tick (m_bars out)) (m_bars into ++ more) (pj_bars p');
  rewr_tempos : written_over tp_tick (pj_tempos p) (map tp_tick (m_tempos out)) (m_tempos into) (pj_tempos p');
  rewr_dumpers : written_over cc_tick (pj_dumpers p) (map cc_tick (m_dumpers out)) (m_dumpers into) (pj_dumpers p');
  rewr_softs : written_over cc_tick (pj_softs p) (map cc_tick (m_softs out)) (m_softs into) (pj_softs p');
}.

(** ** What undoing an edit gives, whatever the edit was given *)

(** The element put at tick [k] before the last one that was put there. *)
Definition before_last {V : Type} (tick : V -> Z) (put : list V) (k : Z) (v : V) : Prop :=
  exists a w b, put = a ++ w :: b /\ tick w = k /\ ~ In k (map tick b) /\ last_with tick a k v.

(** The store [s'] one has after taking [out] out of [s], putting [into] in, and
    undoing that: where several elements were put at one tick, the last but one
    stays; elsewhere what was said to be taken out is there, and the rest is as
    it was. *)
Definition given_back {V : Type} (tick : V -> Z) (out into : list V) (k : Z) (v : V) : Prop :=
  before_last tick into k v \/ (~ (exists w, before_last tick into k w) /\ last_with tick out k v).

Definition taken_back {V : Type} (tick : V -> Z) (s : list (Z * V)) (out into : list V) (s' : list (Z * V)) : Prop :=
  forall k v, In (k, v) s' <->
    given_back tick out into k v \/ (~ (exists w, given_back tick out into k w) /\ In (k, v) s).

Record undone (p : project) (out into : models) (q : project) : Prop := mkUndone {
  und_settings : pj_rhythm q = pj_rhythm p /\ pj_key q = pj_key p /\ pj_grid q = pj_grid p;
  und_notes : forall n, how_many (map snd (pj_notes q)) n =
    Nat.max (how_many (map snd (pj_notes p)) n) (how_many (m_notes out) n);
  und_bars : taken_back b_tick (pj_bars p) (m_bars out) (m_bars into) (pj_bars q);
  und_tempos : taken_back tp_tick (pj_tempos p) (m_tempos out) (m_tempos into) (pj_tempos q);
  und_dumpers : taken_back cc_tick (pj_dumpers p) (m_dumpers out) (m_dumpers into) (pj_dumpers q);
  und_softs : taken_back cc_tick (pj_softs p) (m_softs out) (m_softs into) (pj_softs q);
}.

(** Undoing gives nothing that was not there. *)
Definition nothing_new {V : Type} (tick : V -> Z) (s : list (Z * V)) (out into : list V) : Prop :=
  forall k v, given_back tick out into k v -> In (k, v) s.

Record undoable (p : project) (out into : models) : Prop := mkUndoable {
  uable_notes : forall n, (how_many (m_notes out) n <= how_many (map snd (pj_notes p)) n)%nat;
  uable_bars : nothing_new b_tick (pj_bars p) (m_bars out) (m_bars into);
  uable_tempos : nothing_new tp_tick (pj_tempos p) (m_tempos out) (m_tempos into);
  uable_dumpers : nothing_new cc_tick (pj_dumpers p) (m_dumpers out) (m_dumpers into);
  uable_softs : nothing_new cc_tick (pj_softs p) (m_softs out) (m_softs into);
}.

(** ** Histories *)

Inductive hop := HEdit (e : edit) | HUndo | HRedo.

Definition hop_typed (o : hop) : Prop := match o with HEdit e => edit_typed e | _ => True end.

(** The real editor. *)
Definition hist_step (h : history) (o : hop) : outcome history :=
  match o with
  | HEdit e => history_edit h e
  | HUndo => Ret (history_undo h)
  | HRedo => Ret (history_redo h)
  end.
Fixpoint hist_run (h : history) (os : list hop) : outcome history :=
  match os with
  | [] => Ret h
  | o :: os' => let! h' := hist_step h o in hist_run h' os'
  end.

(** An editor that keeps a full copy of the project before every step. *)
Record snapshots := mkSnap {
  sn_past : list project; sn_now : project; sn_future : list project; sn_limit : nat }.

Definition snap_edit (s : snapshots) (e : edit) : outcome snapshots :=
  let! r := edit_run e (sn_now s) in
  match r with
  | None => Ret s
  | Some (p, _) => Ret (mkSnap (firstn (sn_limit s) (sn_now s :: sn_past s)) p [] (sn_limit s))
  end.
Definition snap_undo (s : snapshots) : snapshots :=
  match sn_past s with
  | [] => s
  | q :: r => mkSnap r q (sn_now s :: sn_future s) (sn_limit s)
  end.
Definition snap_redo (s : snapshots) : snapshots :=
  match sn_future s with
  | [] => s
  | q :: r => mkSnap (sn_now s :: sn_past s) q r (sn_limit s)
  end.
Definition snap_step (s : snapshots) (o : hop) : outcome snapshots :=
  match o with
  | HEdit e => snap_edit s e
  | HUndo => Ret (snap_undo s)
  | HRedo => Ret (snap_redo s)
  end.
Fixpoint snap_run (s : snapshots) (os : list hop) : outcome snapshots :=
  match os with
  | [] => Ret s
  | o :: os' => let! s' := snap_step s o in snap_run s' os'
  end.

(** Every edit of the history is well-formed when it is made. *)
Fixpoint hist_wf (s : snapshots) (os : list hop) : Prop :=
  match os with
  | [] => True
  | o :: os' =>
      match o with HEdit e => edit_wf e (sn_now s) /\ edit_typed e | _ => True end /\
      match snap_step s o with Ret s' => hist_wf s' os' | _ => True end
  end.
