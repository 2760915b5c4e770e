(** Specification of putting repeat signs around a passage. *)
From Coq Require Import ZArith List Bool.
From Verif Require Import M_Bar M_Repeat S_Repeat.
Import ListNotations.
Open Scope Z_scope.

(** [b'] is the bar [b] with the mark [m] put on it. *)
Definition signed (m : mark) (b b' : bar) : Prop :=
  b_tick b' = b_tick b /\ b_rhythm b' = b_rhythm b /\ forall k, has b' k = has b k || (mark_bit k =? mark_bit m).

(** Neither a repeat is to be found here nor a jump. *)
Definition untouched (b : bar) : Prop := no_var b /\ no_jump b.

(** The score gets a repeat from [a] to [b]: the passage lay inside a plain section, or began where one begins. *)
Inductive rest_signed (a b : Z) : section -> list (bar * section) -> section -> list (bar * section) -> Prop :=
| signed_inside p x x' m y y' q rest :
    signed Start x x' -> signed End y y' -> b_tick x = a -> b_tick y = b ->
    no_var x -> no_var y -> Forall untouched m ->
    rest_signed a b (Plain (p ++ x :: m ++ y :: q)) rest (Plain p) ((x', Repeated m) :: (y', Plain q) :: rest)
| signed_at sec x x' m y y' q rest :
    signed Start x x' -> signed End y y' -> b_tick x = a -> b_tick y = b ->
    no_var y -> Forall untouched m ->
    rest_signed a b sec ((x, Plain (m ++ y :: q)) :: rest) sec ((x', Repeated m) :: (y', Plain q) :: rest)
| signed_later sec x c rest c' rest' :
    rest_signed a b c rest c' rest' -> rest_signed a b sec ((x, c) :: rest) sec ((x, c') :: rest').

(** Also from the beginning, where only the end of the repeat is written. *)
Inductive layout_signed (a b : Z) : layout -> layout -> Prop :=
| signed_top m y y' q rest :
    signed End y y' -> a = 0 -> b_tick y = b -> Forall no_jump m ->
    layout_signed a b (Plain (m ++ y :: q), rest) (Repeated m, (y', Plain q) :: rest)
| signed_rest sec rest sec' rest' : rest_signed a b sec rest sec' rest' -> layout_signed a b (sec, rest) (sec', rest').

(** [Q] is [P] with the passage from [a] to [b] once more, directly after it is first heard; before it everything
    up to [a] is heard and nothing else. *)
Definition once_more (a b : Z) (P Q : list Z) : Prop :=
  exists A B, P = A ++ from_to a b ++ B /\ Q = A ++ from_to a b ++ from_to a b ++ B /\ forall t, In t A <-> 0 <= t < a.

(** No repeat is open at the end of [p], and after bars without signs the next sign in [q], if there is one,
    starts a repeat: what lies between is not inside one. *)
Definition outside (p q : list bar) : Prop :=
  (forall s, ~ open_repeat p s) /\
  (idle p -> forall u z v, q = u ++ z :: v -> idle u -> ~ (no_repeat z /\ no_var z) -> has z Start = true /\ has z End = false).
