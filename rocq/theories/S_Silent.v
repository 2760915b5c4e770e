(** Specification of changing the signs a jump looks at. *)
From Coq Require Import ZArith List Bool.
From Verif Require Import M_Bar M_Repeat S_Repeat.
Import ListNotations.
Open Scope Z_scope.

(** The signs that say where a jump goes to, where it ends and what it leaves out. *)
Definition goal_sign (m : mark) : bool := match m with Segno | Fine | Coda => true | _ => false end.

(** [b'] is the bar [b] without some of these signs. *)
Definition fewer_goals (b b' : bar) : Prop :=
  b_tick b' = b_tick b /\ b_rhythm b' = b_rhythm b /\
  forall m, (goal_sign m = false -> has b' m = has b m) /\ (has b' m = true -> has b m = true).
(** [b'] is the bar [b], with or without these signs. *)
Definition other_goals (b b' : bar) : Prop :=
  b_tick b' = b_tick b /\ b_rhythm b' = b_rhythm b /\ forall m, goal_sign m = false -> has b' m = has b m.

(** [b'] is the bar [b] without the sign [m]. *)
Definition unsigned (m : mark) (b b' : bar) : Prop :=
  b_tick b' = b_tick b /\ b_rhythm b' = b_rhythm b /\ forall k, has b' k = has b k && negb (mark_bit k =? mark_bit m).

(** [b'] is the bar [b] with D.S. for D.C. and D.C. for D.S. *)
Definition other_jump (m : mark) : mark := match m with Dc => Ds | Ds => Dc | _ => m end.
Definition swapped (b b' : bar) : Prop :=
  b_tick b' = b_tick b /\ b_rhythm b' = b_rhythm b /\ forall k, has b' k = has b (other_jump k).
(** The same, and without Segno. *)
Definition from_the_top (b b' : bar) : Prop :=
  b_tick b' = b_tick b /\ b_rhythm b' = b_rhythm b /\ forall k, has b' k = has b (other_jump k) && negb (mark_bit k =? mark_bit Segno).
