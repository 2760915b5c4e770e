(** Specification of the moments of a performance: which tick is heard at a moment,
    and which entry of a table of chunks is in force at it. *)
From Coq Require Import ZArith List Bool.
From Verif Require Import Base M_Repeat S_Repeat.
Import ListNotations.
Open Scope Z_scope.

(** [heard_at l p t]: after [p] other ticks of the performance [l], [t] is played. *)
Definition heard_at (l : list Z) (p t : Z) : Prop := exists a b, l = a ++ t :: b /\ p = Z.of_nat (length a).

(** The last entry that does not begin after [p]. *)
Definition in_force (r : list (Z * chunk)) (p k : Z) (c : chunk) : Prop :=
  exists a b, r = a ++ (k, c) :: b /\ k <= p /\ Forall (fun e => p < fst e) b.

(** Chunks that play something. *)
Definition sounds (c : chunk) : bool := ck_start c <? ck_end c.
