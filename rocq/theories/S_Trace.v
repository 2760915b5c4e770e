(** Specification of what can be learnt about an editor by working with it. *)
From Coq Require Import ZArith List Bool.
From Verif Require Import Base M_Scalar M_Pitch M_Bar M_Note M_Models M_Project M_Repeat S_Project S_Score.
Import ListNotations.
Open Scope Z_scope.

(** A user edits, undoes and redoes, and looks at the project in between. *)
Inductive act :=
| Do (o : hop)
| AskContent
| AskRhythm (t : Z) | AskKey (t : Z) | AskTempo (t : Z) | AskDumper (t : Z) | AskSoft (t : Z)
| AskTick (l : location) | AskLocation (t : Z)
| AskPlaying
| AskCanUndo | AskCanRedo.

Inductive answer :=
| Content (p : project)
| Rhythm (r : outcome rhythm) | Key (k : outcome key) | Value (v : outcome Z)
| Tick (t : outcome (result Z location_error)) | Place (l : outcome location)
| Playing (r : outcome (result (compound * list rr_warning) rr_error)) (c : option (outcome (list chunk)))
| Can (b : bool).

Definition look (h : history) (a : act) : list answer :=
  let p := h_model h in
  match a with
  | Do _ => []
  | AskContent => [Content p]
  | AskRhythm t => [Rhythm (rhythm_at p t)]
  | AskKey t => [Key (key_at p t)]
  | AskTempo t => [Value (tempo_at p t)]
  | AskDumper t => [Value (dumper_at p t)]
  | AskSoft t => [Value (soft_at p t)]
  | AskTick l => [Tick (location_to_tick p l)]
  | AskLocation t => [Place (tick_to_location p t)]
  | AskPlaying =>
      let r := render_project p in
      [Playing r (match r with Ret (Ok (c, _)) => Some (to_chunks c) | _ => None end)]
  | AskCanUndo => [Can (negb (length (h_undo h) =? 0)%nat)]
  | AskCanRedo => [Can (negb (length (h_redo h) =? 0)%nat)]
  end.

(** All answers given, and how the work ended. *)
Inductive ending := Fine_ | Crashed | Stuck.
Fixpoint work (h : history) (acts : list act) : list answer * ending :=
  match acts with
  | [] => ([], Fine_)
  | a :: acts' =>
      match (match a with Do o => hist_step h o | _ => Ret h end) with
      | Ret h' => let (l, e) := work h' acts' in (look h a ++ l, e)
      | Panic => (look h a, Crashed)
      | Hang => (look h a, Stuck)
      end
  end.

(** Answers that a user cannot tell apart: the content is the same up to the order in which notes at one tick
    are stored, everything else is equal. *)
Definition alike (a b : answer) : Prop :=
  match a, b with
  | Content p, Content q => same_project p q
  | _, _ => a = b
  end.
Definition indistinguishable (x y : list answer * ending) : Prop := Forall2 alike (fst x) (fst y) /\ snd x = snd y.

Definition acts_typed (acts : list act) : Prop := Forall (fun a => match a with Do o => hop_typed o | _ => True end) acts.

(** No redo, and no look at the redo button, before the next edit that makes a step. *)
Fixpoint no_redo (acts : list act) : Prop :=
  match acts with
  | [] => True
  | Do HRedo :: _ | AskCanRedo :: _ => False
  | Do (HEdit e) :: acts' => records e = true \/ no_redo acts'
  | _ :: acts' => no_redo acts'
  end.
