(** Specification of writing a whole score, element by element. *)
From Coq Require Import ZArith List Bool Permutation.
From Verif Require Import Base M_Scalar M_Bar M_Note M_Models M_Project S_Project.
Import ListNotations.
Open Scope Z_scope.

(** Everything a project holds. *)
Definition contents (p : project) : models :=
  mkModels (map snd (pj_notes p)) (map snd (pj_bars p)) (map snd (pj_tempos p)) (map snd (pj_dumpers p)) (map snd (pj_softs p)).

(** Its settings and every element of it, each by an edit of its own. *)
Definition entries (p : project) : list edit :=
  [ESetRhythm (pj_rhythm p); ESetKey (pj_key p); ESetGrid (pj_grid p)] ++
  map EAddBar (map snd (pj_bars p)) ++ map EAddNote (map snd (pj_notes p)) ++ map EAddTempo (map snd (pj_tempos p)) ++
  map EAddDumper (map snd (pj_dumpers p)) ++ map EAddSoft (map snd (pj_softs p)).

(** A project without elements. *)
Definition bare_project (p : project) : Prop := pj_notes p = [] /\ pj_bars p = [] /\ pj_tempos p = [] /\ pj_dumpers p = [] /\ pj_softs p = [].

(** The same elements, in any order. *)
Definition same_elements (m m' : models) : Prop :=
  Permutation (m_notes m) (m_notes m') /\ Permutation (m_bars m) (m_bars m') /\ Permutation (m_tempos m) (m_tempos m') /\
  Permutation (m_dumpers m) (m_dumpers m') /\ Permutation (m_softs m) (m_softs m').

(** The edits set no other settings than those of [p], and all of them that [p0] does not have yet. *)
Definition sets_as (p p0 : project) (es : list edit) : Prop :=
  (forall r, In (ESetRhythm r) es -> r = pj_rhythm p) /\ (In (ESetRhythm (pj_rhythm p)) es \/ pj_rhythm p0 = pj_rhythm p) /\
  (forall k, In (ESetKey k) es -> k = pj_key p) /\ (In (ESetKey (pj_key p)) es \/ pj_key p0 = pj_key p) /\
  (forall g, In (ESetGrid g) es -> g = pj_grid p) /\ (In (ESetGrid (pj_grid p)) es \/ pj_grid p0 = pj_grid p).
