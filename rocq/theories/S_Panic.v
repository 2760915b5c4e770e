(** Specification of the scores whose rendering panics. *)
From Coq Require Import ZArith List Bool.
From Verif Require Import Base M_Duration M_Scalar M_Bar M_Repeat S_Note S_Repeat.
Import ListNotations.
Open Scope Z_scope.

(** Directly after a bar with the fourth variation mark comes one with another
    variation mark, and nothing before is wrong but that the fourth variation is not
    closed. *)
Definition restarted (r : rhythm) (bars : list bar) : Prop :=
  exists a x y c t, bars = a ++ x :: y :: c /\ render_region r (a ++ [x]) = Ret (Err (VariationNotClosed t)) /\
    has x Var4 = true /\ (has y Var1 = true \/ has y Var2 = true \/ has y Var3 = true) /\ counts_ok (a ++ [x; y]).

(** Repeats and variations are as documented, and no mark is there too often. *)
Definition laid_out (bars : list bar) : Prop :=
  counts_ok bars /\ exists l, well_laid l /\ layout_bars l = bars /\ segno_ok bars (timed_layout l).

(** D.C. at [d], which has to find the top itself, and an immensely long first bar. *)
Definition long_first (d : Z) (bars : list bar) : Prop :=
  marked Dc bars = [d] /\ d <> 0 /\ marked Segno bars = [] /\ exists f, first_bar_len bars = Some f /\ u32_max < 2 * f.

(** The first of two codas is not after [s], or the second is at Fine. *)
Definition bad_codas (s : Z) (bars : list bar) : Prop :=
  exists a b, marked Coda bars = [a; b] /\ (forall f, marked Fine bars = [f] -> b <= f) /\ (a <= s \/ marked Fine bars = [b]).

(** No jump mark, other than at the very top, comes before the first variation of a
    repeat whose start is not written. *)
Definition varied_clear (bars : list bar) : Prop :=
  forall pre j mid x post, bars = pre ++ j :: mid ++ x :: post -> ~ no_jump j -> b_tick j <> 0 -> idle (pre ++ j :: mid) -> has x Var1 = false.
