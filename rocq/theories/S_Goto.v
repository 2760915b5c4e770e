(** Specification of locations that a user types. *)
From Coq Require Import ZArith List Bool.
From Verif Require Import Base M_Percent M_Scalar M_Bar M_Note M_Models M_Project S_Project S_Score.
Import ListNotations.
Open Scope Z_scope.

(** The location lies inside the bar it names: its offset does not reach the bar after it. Bar 0 is
    what is before the first bar line. *)
Definition inside (p : project) (l : location) : Prop :=
  loc_bar l = 0 /\ (forall b, In b (score p) -> loc_offset l < b_tick b) \/
  exists i b, loc_bar l = Z.of_nat i + 1 /\ nth_error (score p) i = Some b /\
    forall b', nth_error (score p) (S i) = Some b' -> b_tick b + loc_offset l < b_tick b'.

(** The same where the last bar has its proper length, and bars of this length are thought
    to follow it. *)
Definition placed (p : project) (l : location) : Prop :=
  loc_bar l < Z.of_nat (length (score p)) /\ inside p l \/
  Z.of_nat (length (score p)) <= loc_bar l /\
    exists r, rhythm_at p (last_tick p) = Ret r /\ loc_offset l < rhythm_tick_len r.

(** Something in the selection sounds at its own tick or later: a tempo or pedal event, or a note that is not
    trimmed to start elsewhere. *)
Definition sounds (m : models) : Prop :=
  m_tempos m <> [] \/ m_dumpers m <> [] \/ m_softs m <> [] \/ exists n, In n (m_notes m) /\ t_sum (n_tick_trimmer n) = 0.
