(** Specification of the score that a project plays: its bars, and what edits do to
    them. *)
From Coq Require Import ZArith List Bool.
From Verif Require Import Base M_Scalar M_Bar M_Note M_Models M_Project M_Repeat S_Project.
Import ListNotations.
Open Scope Z_scope.

(** The bars of a project in order of their ticks, which is how a player gives them to
    [render_region] (with the rhythm of the project). *)
Definition score (p : project) : list bar := map snd (pj_bars p).
Definition render_project (p : project) := render_region (pj_rhythm p) (score p).

(** The bars that an edit is given to put in. *)
Definition edit_bars (e : edit) : list bar :=
  match e with EAddBar b => [b] | EBulkAdd m => m_bars m | EChange c => map snd (ch_bars c) | _ => [] end.
Definition hop_bars (o : hop) : list bar := match o with HEdit e => edit_bars e | _ => [] end.

(** All bars that an edit mentions, also those it is told to take out: they come back when
    it is undone, even if they were not there. *)
Definition named_bars (e : edit) : list bar :=
  match e with
  | EAddBar b => [b]
  | EBulkAdd m | EBulkRemove m => m_bars m
  | EChange c => map fst (ch_bars c) ++ map snd (ch_bars c)
  | _ => []
  end.

(** An edit of notes, tempos and pedals, of the key or of the grid. *)
Definition leaves_bars (e : edit) : Prop :=
  match e with
  | ESetRhythm _ | EAddBar _ => False
  | EBulkRemove m | EBulkAdd m => m_bars m = []
  | EChange c => ch_bars c = []
  | _ => True
  end.

(** Bars that differ at most in their keys, and in rhythms that are not at tick 0. *)
Definition same_marks (a b : bar) : Prop :=
  b_tick a = b_tick b /\ b_marks a = b_marks b /\ (b_tick a = 0 -> b_rhythm a = b_rhythm b).
