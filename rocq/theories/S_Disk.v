(** Specification of what an edit may put in so that it survives on disk. *)
From Coq Require Import ZArith List Bool.
From Verif Require Import Base M_Duration M_Percent M_Scalar M_Bar M_Note M_Models M_Store M_Tuple M_Project M_Event M_Json M_Disk.
From Verif Require Import S_Project S_Json.
Import ListNotations.
Open Scope Z_scope.

(** Everything that the edit is given to put in survives saving and loading (see
    S_Json).  What it takes out is in the project already, and what it makes
    itself (tuplets, bars) is not mentioned. *)
Definition edit_savable (e : edit) : Prop :=
  match e with
  | ESetRhythm r => savable_rhythm r
  | ESetKey k => savable_key k
  | ESetGrid g => u32 g
  | EAddNote n => savable_note n
  | EAddBar b => savable_bar b
  | EAddTempo t => savable_tempo t
  | EAddDumper c | EAddSoft c => savable_ctrl c
  | ETuplize _ | EBulkRemove _ => True
  | EBulkAdd m => savable m
  | EChange c => savable (changes_to c)
  end.
(** Also what it is given to take out survives, whether it is in the project or not. *)
Definition edit_all_savable (e : edit) : Prop :=
  match e with
  | ETuplize l => Forall savable_note l
  | EBulkRemove m => savable m
  | EChange c => savable (changes_from c) /\ savable (changes_to c)
  | _ => edit_savable e
  end.
Definition hop_savable (o : hop) : Prop := match o with HEdit e => edit_savable e | _ => True end.

(** A session as a sequence of calls, and the same calls without what they say about
    the selection.  Clearing the events does nothing to the project. *)
Fixpoint acts_run (s : session) (l : list act) : outcome session :=
  match l with [] => Ret s | a :: l' => let! s' := act_run a s in acts_run s' l' end.
Definition hops (a : act) : list hop :=
  match a with Ask q => [HEdit (request_edit q)] | UndoIt => [HUndo] | RedoIt => [HRedo] | Clear _ => [] end.
Definition session_new (p : project) (limit : nat) : session := mkSession p [] [] limit ev_none.

(** What is asked for has ticks in u32 and survives. *)
Definition act_storable (a : act) : Prop :=
  match a with Ask q => edit_typed (request_edit q) /\ edit_all_savable (request_edit q) | _ => True end.
