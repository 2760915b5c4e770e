(** Specification of writing a first and a second ending for a repeat. *)
From Coq Require Import ZArith List Bool.
From Verif Require Import M_Bar M_Repeat S_Repeat S_Twice.
Import ListNotations.
Open Scope Z_scope.

(** [b'] is the bar [b] without the sign at the end of a repeat and with the number of the second ending. *)
Definition second_sign (b b' : bar) : Prop :=
  b_tick b' = b_tick b /\ b_rhythm b' = b_rhythm b /\ forall k, has b' k = has b k && negb (mark_bit k =? mark_bit End) || (mark_bit k =? mark_bit Var2).

(** A jump cannot go to this bar line. *)
Definition no_goal (b : bar) : Prop := has b Segno = false.

(** A repeat from [a] to [b] gets endings: [v], from [t] on, is the first, and what comes behind the repeat, up to [z], the second. *)
Inductive ended (a t b : Z) : Z -> section -> list (bar * section) -> section -> list (bar * section) -> Prop :=
| ended_inside m v v' y y' n n' z q rest :
    Forall2 (signed Var1) v v' -> second_sign y y' -> Forall2 (signed Var2) n n' ->
    hd_error (map b_tick v) = Some t -> b_tick y = b ->
    Forall no_jump (v ++ y :: n) -> Forall no_goal v -> Forall no_var n -> no_var z ->
    ended a t b a (Repeated (m ++ v)) ((y, Plain (n ++ z :: q)) :: rest) (Varied m [v'; y' :: n']) ((z, Plain q) :: rest)
| ended_at m v v' y y' n n' z c rest :
    Forall2 (signed Var1) v v' -> second_sign y y' -> Forall2 (signed Var2) n n' ->
    hd_error (map b_tick v) = Some t -> b_tick y = b ->
    Forall no_jump (v ++ y :: n) -> Forall no_goal v -> Forall no_var n ->
    ended a t b a (Repeated (m ++ v)) ((y, Plain n) :: (z, c) :: rest) (Varied m [v'; y' :: n']) ((z, c) :: rest)
| ended_later s sec x c rest c' rest' : ended a t b (b_tick x) c rest c' rest' -> ended a t b s sec ((x, c) :: rest) sec ((x, c') :: rest').

(** In [P] the passage from [a] to [b] is heard twice, first when everything before [a] was heard and nothing else; in [Q] its last
    part, from [t] on, is left out the second time. *)
Definition once_less (a t b : Z) (P Q : list Z) : Prop :=
  exists A B, P = A ++ from_to a b ++ from_to a t ++ from_to t b ++ B /\ Q = A ++ from_to a b ++ from_to a t ++ B /\ forall i, In i A <-> 0 <= i < a.
