(** Specification of stretching a score: its bar lines are moved, without any of them
    passing another one. *)
From Coq Require Import ZArith List Bool.
From Verif Require Import Base M_Duration M_Scalar M_Bar M_Repeat S_Repeat.
Import ListNotations.
Open Scope Z_scope.

(** [to t t']: the tick [t] is moved to [t'].  The order is kept, and the beginning and the
    end of the time line stay where they are. *)
Record stretch (to : Z -> Z -> Prop) : Prop := mkStretch {
  to_order : forall a a' b b', to a a' -> to b b' -> (a < b <-> a' < b');
  to_range : forall a a', to a a' -> 0 <= a <= u32_max /\ 0 <= a' <= u32_max;
  to_begin : to 0 0;
  to_end : to u32_max u32_max;
}.

(** The two bars carry the same marks; if they are at the beginning, the same rhythm. *)
Definition moved_bar (to : Z -> Z -> Prop) (b b' : bar) : Prop :=
  to (b_tick b) (b_tick b') /\ b_marks b = b_marks b' /\ (b_tick b = 0 -> b_rhythm b = b_rhythm b').

Section Moved.
Variable to : Z -> Z -> Prop.

Definition moved_opt {A} (P : A -> A -> Prop) (a b : option A) : Prop :=
  match a, b with Some x, Some y => P x y | None, None => True | _, _ => False end.
Definition moved_pair (r s : Z * Z) : Prop := to (fst r) (fst s) /\ to (snd r) (snd s).
Definition moved_chunk (c d : chunk) : Prop := to (ck_start c) (ck_start d) /\ to (ck_end c) (ck_end d).
(** Interval sets hold the last tick of an interval, not the tick after it. *)
Definition moved_interval (i j : Z * Z) : Prop := to (fst i) (fst j) /\ to (snd i + 1) (snd j + 1).

Definition moved_region (x y : region) : Prop :=
  match x, y with
  | RSeq r, RSeq s => moved_pair r s
  | RRepeat r, RRepeat s => moved_pair r s
  | RVar c vs, RVar d ws => moved_pair c d /\ Forall2 moved_pair vs ws
  | _, _ => False
  end.
Definition moved_jump (x y : ds_dc) : Prop :=
  match x, y with
  | JDc t l, JDc u m => to t u /\ to l m
  | JDs t, JDs u => to t u
  | _, _ => False
  end.
Definition moved_global (x y : global_repeat) : Prop :=
  moved_jump (gr_ds_dc x) (gr_ds_dc y) /\ moved_opt to (gr_fine x) (gr_fine y) /\ to (gr_segno x) (gr_segno y) /\
  moved_opt moved_pair (gr_coda x) (gr_coda y) /\ Forall2 moved_interval (gr_iter1 x) (gr_iter1 y).
Definition moved_compound (x y : compound) : Prop :=
  moved_opt moved_global (cp_global x) (cp_global y) /\ Forall2 moved_region (cp_regions x) (cp_regions y).
Definition moved_warning (x y : rr_warning) : Prop :=
  match x, y with
  | SegnoAndDcFound a b, SegnoAndDcFound c d => to a c /\ to b d
  | OrphanCodaFound a, OrphanCodaFound c => to a c
  | _, _ => False
  end.
Definition moved_error (x y : rr_error) : Prop :=
  match x, y with
  | DuplicatedRepeatStart a, DuplicatedRepeatStart b => to a b
  | DuplicatedSegno a b, DuplicatedSegno c d => to a c /\ to b d
  | DuplicatedDsDc a b, DuplicatedDsDc c d => to a c /\ to b d
  | DuplicatedFine a b, DuplicatedFine c d => to a c /\ to b d
  | OrphanRepeatEnd a, OrphanRepeatEnd b => to a b
  | NoRepeatEnd a, NoRepeatEnd b => to a b
  | InvalidRegionIndex a i j, InvalidRegionIndex b k l => to a b /\ i = k /\ j = l
  | RepeatInVariation a, RepeatInVariation b => to a b
  | VariationNotClosed a, VariationNotClosed b => to a b
  | NoSegnoForDs a, NoSegnoForDs b => to a b
  | MoreThanTwoCodas a b c, MoreThanTwoCodas d e f => to a d /\ to b e /\ to c f
  | OnlyOneCoda a, OnlyOneCoda b => to a b
  | DcDsWhileRepeat a, DcDsWhileRepeat b => to a b
  | DcDsWhileVariation a, DcDsWhileVariation b => to a b
  | SegnoWhileVariation a, SegnoWhileVariation b => to a b
  | CodaAfterFine a b c, CodaAfterFine d e f => to a d /\ to b e /\ to c f
  | _, _ => False
  end.

(** Both return something alike, or both panic. *)
Definition both {A B} (P : A -> B -> Prop) (x : outcome A) (y : outcome B) : Prop :=
  match x, y with Ret a, Ret b => P a b | Panic, Panic => True | Hang, Hang => True | _, _ => False end.
Definition either {A B} (P : A -> A -> Prop) (Q : B -> B -> Prop) (x y : result A B) : Prop :=
  match x, y with Ok a, Ok b => P a b | Err a, Err b => Q a b | _, _ => False end.

Definition moved_rendering : outcome (result (compound * list rr_warning) rr_error) -> outcome (result (compound * list rr_warning) rr_error) -> Prop :=
  both (either (fun x y => moved_compound (fst x) (fst y) /\ Forall2 moved_warning (snd x) (snd y)) moved_error).
Definition moved_chunks : outcome (list chunk) -> outcome (list chunk) -> Prop := both (Forall2 moved_chunk).
End Moved.
