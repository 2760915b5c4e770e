(** Specification of blank bars that make no difference. *)
From Coq Require Import ZArith List Bool.
From Verif Require Import Base M_Scalar M_Bar M_Note M_Models M_Project M_Repeat S_Project S_Score S_Repeat.
Import ListNotations.
Open Scope Z_scope.

(** A bar of [p] that [q] does not have. *)
Definition only_in (p q : project) (b : bar) : Prop := In b (score p) /\ ~ In b (score q).

(** The bar in front of [b] is not in an ending of a repeat, and with a D.C. in the score [b] is not inside the first bar. *)
Definition passed_over (p : project) (b : bar) : Prop :=
  (forall x, In x (score p) -> b_tick x < b_tick b ->
     (forall y, In y (score p) -> b_tick y < b_tick b -> b_tick y <= b_tick x) -> no_var x) /\
  (marked Dc (score p) = [] \/ exists x, In x (score p) /\ 0 < b_tick x < b_tick b).
