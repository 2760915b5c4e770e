(** Specification for C91: signs that a jump looks at, and jumps, written into a score. *)
From Coq Require Import ZArith List Bool.
From Verif Require Import Base M_Bar M_Repeat S_Repeat.
Import ListNotations.
Open Scope Z_scope.

(** The bars [b] and [b'] differ in nothing that is played or looked at, except that one may have the sign [m] and the other not. *)
Definition differ (m : mark) (b b' : bar) : Prop :=
  b_tick b' = b_tick b /\ b_rhythm b' = b_rhythm b /\ forall k, k <> m -> has b' k = has b k.

(** The tune is played in two passes: [first], up to the jump, and then [second], from [s] on, which leaves out all but the last
    endings of each repeat. *)
Definition passes (bars : list bar) (s : Z) (l : layout) (first second played : list Z) : Prop :=
  well_laid l /\ layout_bars l = bars /\ played = first ++ second /\
  second = second_pass l s (hd_error (marked Fine bars)) (pair_of (marked Coda bars)).

(** The bar at [d] is not inside a repeat: it belongs to no section with a repeat or endings, though it may begin or end one. *)
Definition not_repeated (l : layout) (d : Z) : Prop :=
  forall s sec e b, In (s, sec, e) (timed_layout l) -> is_plain sec = false -> In b (section_bars sec) -> b_tick b <> d.
