(** Specification of moving elements about: in several steps, there and back, or some of them first. *)
From Coq Require Import ZArith List Bool Permutation.
From Verif Require Import Base M_Scalar M_Bar M_Note M_Models M_Project S_Project.
Import ListNotations.
Open Scope Z_scope.

(** The other way round. *)
Definition back (c : model_changes) : model_changes :=
  let turn {V : Type} (l : list (V * V)) := map (fun x => (snd x, fst x)) l in
  mkChanges (turn (ch_notes c)) (turn (ch_bars c)) (turn (ch_tempos c)) (turn (ch_dumpers c)) (turn (ch_softs c)).

(** From where [c] takes the elements straight to where [d] puts them. *)
Definition straight (c d : model_changes) : model_changes :=
  let pair {V : Type} (l l' : list (V * V)) := combine (map fst l) (map snd l') in
  mkChanges (pair (ch_notes c) (ch_notes d)) (pair (ch_bars c) (ch_bars d)) (pair (ch_tempos c) (ch_tempos d))
    (pair (ch_dumpers c) (ch_dumpers d)) (pair (ch_softs c) (ch_softs d)).

(** Both at once. *)
Definition at_once (c d : model_changes) : model_changes :=
  mkChanges (ch_notes c ++ ch_notes d) (ch_bars c ++ ch_bars d) (ch_tempos c ++ ch_tempos d)
    (ch_dumpers c ++ ch_dumpers d) (ch_softs c ++ ch_softs d).

(** Each step goes on where the one before stopped. *)
Fixpoint continues (c : model_changes) (cs : list model_changes) : Prop :=
  match cs with
  | [] => True
  | d :: cs' => changes_from d = changes_to c /\ continues d cs'
  end.

(** The places of [into] are free once [out] is taken away. *)
Definition free {V : Type} (tick : V -> Z) (s : list (Z * V)) (out into : list V) : Prop :=
  forall v, In v into -> In (tick v) (map tick out) \/ ~ In (tick v) (map fst s).
Record all_free (p : project) (out into : models) : Prop := mkFree {
  fr_bars : free b_tick (pj_bars p) (m_bars out) (m_bars into);
  fr_tempos : free tp_tick (pj_tempos p) (m_tempos out) (m_tempos into);
  fr_dumpers : free cc_tick (pj_dumpers p) (m_dumpers out) (m_dumpers into);
  fr_softs : free cc_tick (pj_softs p) (m_softs out) (m_softs into);
}.

(** No place of one is a place of the other. *)
Definition elsewhere {V : Type} (tick : V -> Z) (l l' : list V) : Prop := forall v, In v l -> ~ In (tick v) (map tick l').
Record all_elsewhere (m m' : models) : Prop := mkElse {
  el_bars : elsewhere b_tick (m_bars m) (m_bars m');
  el_tempos : elsewhere tp_tick (m_tempos m) (m_tempos m');
  el_dumpers : elsewhere cc_tick (m_dumpers m) (m_dumpers m');
  el_softs : elsewhere cc_tick (m_softs m) (m_softs m');
}.

Definition blank (b : bar) : Prop := b_rhythm b = None /\ b_key b = None /\ b_marks b = 0.

(** Everything in [p] is in [q], and [q] has nothing else but blank bars at other ticks. *)
Record with_blanks (p q : project) : Prop := mkBlanks {
  wb_settings : pj_rhythm q = pj_rhythm p /\ pj_key q = pj_key p /\ pj_grid q = pj_grid p;
  wb_notes : Permutation (map snd (pj_notes q)) (map snd (pj_notes p));
  wb_tempos : pj_tempos q = pj_tempos p;
  wb_dumpers : pj_dumpers q = pj_dumpers p;
  wb_softs : pj_softs q = pj_softs p;
  wb_bars : forall k b, In (k, b) (pj_bars p) -> In (k, b) (pj_bars q);
  wb_blank : forall k b, In (k, b) (pj_bars q) -> In (k, b) (pj_bars p) \/ blank b /\ ~ In k (map fst (pj_bars p));
}.

(** The two differ in nothing but blank bars where the other has none. *)
Record apart_from_blanks (p q : project) : Prop := mkApart {
  ap_settings : pj_rhythm q = pj_rhythm p /\ pj_key q = pj_key p /\ pj_grid q = pj_grid p;
  ap_notes : Permutation (map snd (pj_notes q)) (map snd (pj_notes p));
  ap_tempos : pj_tempos q = pj_tempos p;
  ap_dumpers : pj_dumpers q = pj_dumpers p;
  ap_softs : pj_softs q = pj_softs p;
  ap_there : forall k b, In (k, b) (pj_bars p) -> In (k, b) (pj_bars q) \/ blank b /\ ~ In k (map fst (pj_bars q));
  ap_here : forall k b, In (k, b) (pj_bars q) -> In (k, b) (pj_bars p) \/ blank b /\ ~ In k (map fst (pj_bars p));
}.
