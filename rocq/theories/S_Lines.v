(** Specification of bar lines that do not matter for the order of playing. *)
From Coq Require Import ZArith List Bool.
From Verif Require Import Base M_Bar M_Repeat S_Repeat.
Import ListNotations.
Open Scope Z_scope.

(** The bar carries no mark, or the [k]-th variation mark and no other. *)
Definition unmarked (b : bar) : Prop := forall m, has b m = false.
Definition only_variation (k : Z) (b : bar) : Prop := forall m, has b m = (mark_bit m =? 6 + k).

(** The line [b] cuts the last of the bars [before] in two: it carries no mark, or, if that bar
    is in a variation, the mark of this variation. *)
Definition cuts (before : list bar) (b : bar) : Prop :=
  match rev before with
  | [] => unmarked b
  | x :: _ => no_var x /\ unmarked b \/ exists k, 1 <= k <= 4 /\ carries k x /\ compatible x /\ only_variation k b
  end.

(** [more] is the score [bars] with any number of such lines put in; with a D.C. in the score, not
    inside its first bar. *)
Inductive ruled : list bar -> list bar -> Prop :=
| ruled_none l : ruled l l
| ruled_one l1 b l2 more : cuts l1 b ->
    marked Dc (l1 ++ l2) = [] \/ (exists x, In x l1 /\ b_tick x <> 0) ->
    ruled (l1 ++ b :: l2) more -> ruled (l1 ++ l2) more.
