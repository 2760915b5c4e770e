(** Specification of the numbers of bars: counting bar lines. *)
From Coq Require Import ZArith List Bool.
From Verif Require Import Base M_Bar M_Project S_Score.
Import ListNotations.
Open Scope Z_scope.

(** How many bar lines of the score are at or before a tick, and where the last of them is (0 if
    there is none). *)
Definition lines_at (t : Z) (bars : list bar) : Z := Z.of_nat (length (filter (fun b => b_tick b <=? t) bars)).
Definition last_line (t : Z) (bars : list bar) : Z := fold_right Z.max 0 (map b_tick (filter (fun b => b_tick b <=? t) bars)).

(** [p'] is [p] with the bar line [b] in addition (other elements may differ too). *)
Definition one_more (b : bar) (p p' : project) : Prop :=
  pj_rhythm p' = pj_rhythm p /\ exists l1 l2, score p = l1 ++ l2 /\ score p' = l1 ++ b :: l2.
