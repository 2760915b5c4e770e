(** Specification of how bars with contradictory marks are read.  Marks cannot be
    edited into a contradiction (C20_no_contradiction), but a file or a pasted text
    may contain any set of marks. *)
From Coq Require Import ZArith List Bool.
From Verif Require Import Base M_Duration M_Scalar M_Bar M_Repeat S_Note S_Repeat.
Import ListNotations.
Open Scope Z_scope.

(** [b'] is [b] without some of the marks that contradict one that is left; only
    Start and variation marks are left out, and only where a variation mark is
    involved; of several variation marks the lowest one is left. *)
Definition reads (b b' : bar) : Prop :=
  b_tick b' = b_tick b /\ b_rhythm b' = b_rhythm b /\ b_key b' = b_key b /\
  (forall m, has b' m = true -> has b m = true) /\
  (forall m, has b m = true -> has b' m = false ->
    exists k, has b' k = true /\ contradict m k = true /\
      ((m = Start /\ is_var k = true) \/
       (is_var m = true /\ (is_var k = true -> mark_bit k < mark_bit m)))).

Definition varies (b : bar) : bool := has b Var1 || has b Var2 || has b Var3 || has b Var4.

(** Bar by bar; Start gives way to a variation mark only directly after a bar that is
    read as one of a variation ([after]: the bar before is). *)
Inductive read_from : bool -> list bar -> list bar -> Prop :=
| read_nil after : read_from after [] []
| read_cons after b b' l l' : reads b b' ->
    (has b Start = true -> has b' Start = false -> after = true) ->
    read_from (varies b') l l' -> read_from after (b :: l) (b' :: l').
Definition read_as (bars bars' : list bar) : Prop := read_from false bars bars'.

(** D.C. or D.S. on the same bar as a variation, and no repeat ends there. *)
Definition torn (b : bar) : Prop := ~ no_jump b /\ ~ no_var b /\ has b End = false.

(** [b'] is [b] without the marks in [p]. *)
Definition without (p : mark -> bool) (b b' : bar) : Prop :=
  b_tick b' = b_tick b /\ b_rhythm b' = b_rhythm b /\ b_key b' = b_key b /\ forall m, has b' m = has b m && negb (p m).

Definition is_start (m : mark) : bool := match m with Start => true | _ => false end.

(** The bars end inside a variation. *)
Definition in_variation (r : rhythm) (bars : list bar) : Prop := exists t, render_region r bars = Ret (Err (VariationNotClosed t)).
