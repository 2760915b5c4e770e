(** Specification of where playing can be started in a project. *)
From Coq Require Import ZArith List Bool.
From Verif Require Import Base M_Bar M_Project M_Repeat S_Repeat S_Score.
Import ListNotations.
Open Scope Z_scope.

(** The project can be rendered, and asked for the [n]-th time of the tick [t] the table of start positions answers [pos]. *)
Definition start_at (p : project) (t n pos : Z) : Prop :=
  1 <= n <= 5 /\ exists c w cs table, render_project p = Ret (Ok (c, w)) /\ to_chunks c = Ret cs /\ by_accum_tick cs = Ret table /\
    to_accum_tick (play_start_new t n) table = Ret (Ok pos).

(** The tune has ordinary length, so that positions are within 32 bits (see C64). *)
Definition within (p : project) (t : Z) : Prop :=
  0 <= t /\ exists M, 0 <= M /\ (forall b, In b (score p) -> b_tick b <= M) /\ 5 * M + t <= u32_max.

(** Whether [t] belongs to the passage from [s] to [e]. *)
Definition once (s e t : Z) : Z := if (s <=? t) && (t <? e) then 1 else 0.

(** In [p'] the passage from [s] to [e] is inserted at the position [at_]. What can be started before it, can still be; what comes later, comes later by
    the length of the passage, and ticks of the passage have one more time; and the passage itself can be started everywhere. *)
Definition gains (p p' : project) (at_ s e : Z) : Prop :=
  forall t, within p t -> within p' t ->
    (forall n pos, pos < at_ -> (start_at p t n pos <-> start_at p' t n pos)) /\
    (forall n pos, at_ <= pos -> (start_at p t n pos <-> start_at p' t (n + once s e t) (pos + (e - s)))) /\
    (forall pos, at_ <= pos < at_ + (e - s) -> ((exists n, start_at p' t n pos) <-> t = s + (pos - at_))).
