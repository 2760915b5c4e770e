(** Specification of making an edit once more. *)
From Coq Require Import ZArith List Bool.
From Verif Require Import Base M_Bar M_Note M_Models M_Project S_Project S_Move.
Import ListNotations.
Open Scope Z_scope.

(** Everything but the notes is the same, and of the bars everything but blank ones. *)
Record but_notes (p q : project) : Prop := mkButNotes {
  bn_settings : pj_rhythm q = pj_rhythm p /\ pj_key q = pj_key p /\ pj_grid q = pj_grid p;
  bn_tempos : pj_tempos q = pj_tempos p;
  bn_dumpers : pj_dumpers q = pj_dumpers p;
  bn_softs : pj_softs q = pj_softs p;
  bn_there : forall k b, In (k, b) (pj_bars p) -> In (k, b) (pj_bars q) \/ blank b /\ ~ In k (map fst (pj_bars q));
  bn_here : forall k b, In (k, b) (pj_bars q) -> In (k, b) (pj_bars p) \/ blank b /\ ~ In k (map fst (pj_bars p));
}.
(** How often the note [n] is in the project. *)
Definition copies (p : project) (n : note) : nat := count_occ note_eq_dec (map snd (pj_notes p)) n.
(** How often it is in a list. *)
Definition among (l : list note) (n : note) : nat := count_occ note_eq_dec l n.
