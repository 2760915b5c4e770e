(** Specification of writing one more ending behind the endings of a repeat. *)
From Coq Require Import ZArith List Bool.
From Verif Require Import M_Bar M_Repeat S_Note S_Repeat S_Twice S_Ending.
Import ListNotations.
Open Scope Z_scope.

(** A repeat from [a] has endings from [t] on, the last of them, [w], from [f] on; what comes behind them, from [b] up to [z],
    gets the next number, that of the mark [k]. *)
Inductive further (k : mark) (a t f b : Z) : Z -> section -> list (bar * section) -> section -> list (bar * section) -> Prop :=
| further_inside c us w y y' n n' z q rest :
    is_var k = true -> mark_bit k = 8 + Z.of_nat (length us) -> signed k y y' -> Forall2 (signed k) n n' ->
    hd_error (starts_of (us ++ [w])) = Some t -> hd_error (map b_tick w) = Some f -> b_tick y = b ->
    Forall no_jump (y :: n) -> Forall no_goal w -> Forall no_var n -> no_var z ->
    further k a t f b a (Varied c (us ++ [w])) ((y, Plain (n ++ z :: q)) :: rest) (Varied c ((us ++ [w]) ++ [y' :: n'])) ((z, Plain q) :: rest)
| further_at c us w y y' n n' z c2 rest :
    is_var k = true -> mark_bit k = 8 + Z.of_nat (length us) -> signed k y y' -> Forall2 (signed k) n n' ->
    hd_error (starts_of (us ++ [w])) = Some t -> hd_error (map b_tick w) = Some f -> b_tick y = b ->
    Forall no_jump (y :: n) -> Forall no_goal w -> Forall no_var n ->
    further k a t f b a (Varied c (us ++ [w])) ((y, Plain n) :: (z, c2) :: rest) (Varied c ((us ++ [w]) ++ [y' :: n'])) ((z, c2) :: rest)
| further_later s sec x c rest c' rest' : further k a t f b (b_tick x) c rest c' rest' -> further k a t f b s sec ((x, c) :: rest) sec ((x, c') :: rest').

(** [Q] is [P] with the passage from [a] to [t] once more in front of the first time that [b] is heard; before that everything
    up to [b] is heard and nothing else. *)
Definition again_before (a t b : Z) (P Q : list Z) : Prop :=
  exists A B, P = A ++ b :: B /\ Q = A ++ from_to a t ++ b :: B /\ forall i, In i A <-> 0 <= i < b.
