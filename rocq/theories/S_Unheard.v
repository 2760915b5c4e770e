(** Specification of what the pass after D.C. or D.S. leaves out. *)
From Coq Require Import ZArith List.
From Verif Require Import M_Bar S_Repeat.
Import ListNotations.
Open Scope Z_scope.

(** Left out in the last pass: in a variation other than the last. *)
Definition other_variation (l : layout) (t : Z) : Prop :=
  exists x c vs e, In (x, Varied c vs, e) (timed_layout l) /\ hd e (starts_of vs) <= t < last (starts_of vs) e.
(** Left out in the last pass, which goes to [s]: before the target, from Fine on, between the codas. *)
Definition skipped (bars : list bar) (s t : Z) : Prop :=
  t < s \/ (exists f, hd_error (marked Fine bars) = Some f /\ f <= t) \/ (exists a b, marked Coda bars = [a; b] /\ a <= t < b).
