(** Specification of putting one score behind another. *)
From Coq Require Import ZArith List Bool.
From Verif Require Import Base M_Bar M_Repeat S_Repeat.
Import ListNotations.
Open Scope Z_scope.

(** The same bar [d] ticks later. *)
Definition later (d : Z) (b : bar) : bar := mkBar (b_tick b + d) (b_rhythm b) (b_key b) (b_marks b).

(** The score [b] put behind the score [a], with its beginning at [d]. *)
Definition joined (a : list bar) (d : Z) (b : list bar) : list bar := a ++ map (later d) b.

(** The score stands by itself: its first repeat, if it has one, has a written start. *)
Definition by_itself (b : list bar) : Prop :=
  forall u z v, b = u ++ z :: v -> idle u -> ~ (no_repeat z /\ no_var z) -> has z Start = true /\ has z End = false.

(** First [P] up to [d], then [Q] moved by [d], as far as time reaches. *)
Definition one_after_other (P : list Z) (d : Z) (Q : list Z) : list Z :=
  until d P ++ map (Z.add d) (until (u32_max - d) Q).

(** No sign that belongs to a jump. *)
Definition no_goal (b : bar) : Prop := has b Segno = false /\ has b Fine = false /\ has b Coda = false.
