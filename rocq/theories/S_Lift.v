(** Specification of cutting a selection and pasting it elsewhere. *)
From Coq Require Import ZArith List Bool.
From Verif Require Import Base M_Note M_Models.
Import ListNotations.
Open Scope Z_scope.

(** The change of every element of [m] to the element of [m'] at the same place of the lists. *)
Definition pairs (m m' : models) : model_changes :=
  mkChanges (combine (m_notes m) (m_notes m')) (combine (m_bars m) (m_bars m')) (combine (m_tempos m) (m_tempos m'))
    (combine (m_dumpers m) (m_dumpers m')) (combine (m_softs m) (m_softs m')).
(** As many elements of each kind. *)
Definition matched (m m' : models) : Prop :=
  length (m_notes m) = length (m_notes m') /\ length (m_bars m) = length (m_bars m') /\ length (m_tempos m) = length (m_tempos m') /\
  length (m_dumpers m) = length (m_dumpers m') /\ length (m_softs m) = length (m_softs m').
