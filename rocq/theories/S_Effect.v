(** Specification of where edits take effect. *)
From Coq Require Import ZArith List Bool.
From Verif Require Import Base M_Scalar M_Bar M_Note M_Models M_Project S_Project.
Import ListNotations.
Open Scope Z_scope.

(** At tick [x] nothing is heard of changes at the ticks [at_]: each of them is later than
    [x], or another element of the store [s], not at any of them, lies between it and [x]. *)
Definition shielded {A : Type} (at_ : list Z) (s : list (Z * A)) (x : Z) : Prop :=
  forall m, In m at_ -> x < m \/ exists k a, In (k, a) s /\ ~ In k at_ /\ m < k <= x.

(** No element of the store [s] lies behind [k] and not behind [x], except at the ticks [at_]. *)
Definition clear_between {A : Type} (at_ : list Z) (s : list (Z * A)) (k x : Z) : Prop :=
  forall k' a, In (k', a) s -> k < k' <= x -> In k' at_.

(** The ticks at which an edit takes out or puts in tempos, pedal events and bars. *)
Definition ticks_of {V : Type} (tick : V -> Z) (get : models -> list V) (out into : models) : list Z :=
  map tick (get out) ++ map tick (get into).

(** ** Edits one after the other *)

(** [p'] is the project after making the edits [es], one after the other, on [p]; all of
    them return. *)
Inductive edits_done : project -> list edit -> project -> Prop :=
| done_nil p : edits_done p [] p
| done_cons p e c p1 es p' : edit_run e p = Ret (Some (p1, c)) -> edits_done p1 es p' -> edits_done p (e :: es) p'.

(** The edits that add one note, tempo or pedal event, and what each adds. *)
Definition adds_one (e : edit) : option models :=
  match e with
  | EAddNote n => Some (mkModels [n] [] [] [] [])
  | EAddTempo t => Some (mkModels [] [] [t] [] [])
  | EAddDumper c => Some (mkModels [] [] [] [c] [])
  | EAddSoft c => Some (mkModels [] [] [] [] [c])
  | _ => None
  end.

(** Two selections in one. *)
Definition m_both (m m' : models) : models :=
  mkModels (m_notes m ++ m_notes m') (m_bars m ++ m_bars m') (m_tempos m ++ m_tempos m')
    (m_dumpers m ++ m_dumpers m') (m_softs m ++ m_softs m').

(** All that such edits add. *)
Definition all_added (es : list edit) : models :=
  fold_right (fun e m => match adds_one e with Some a => m_both a m | None => m end) models_empty es.

(** The elements of a selection (without bars) as such edits. *)
Definition as_edits (m : models) : list edit :=
  map EAddNote (m_notes m) ++ map EAddTempo (m_tempos m) ++ map EAddDumper (m_dumpers m) ++ map EAddSoft (m_softs m).
