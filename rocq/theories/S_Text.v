(** Specification of numbers and locations written as text. *)
From Coq Require Import ZArith List Bool Reals.
From Verif Require Import Base M_Project M_Text.
Import ListNotations.
Open Scope Z_scope.

Definition digit (c : Z) : Prop := 48 <= c <= 57.

(** [numeral s z]: the text [s] is a decimal numeral for [z]. *)
Inductive numeral : text -> Z -> Prop :=
| num_one c : digit c -> numeral [c] (c - 48)
| num_more s z c : numeral s z -> digit c -> numeral (s ++ [c]) (10 * z + (c - 48)).

(** An integer as Rust reads it: an optional plus sign; a minus sign only for
    signed types. *)
Definition int_text (signed : bool) (s : text) (z : Z) : Prop :=
  numeral s z \/ (exists r, s = 43 :: r /\ numeral r z) \/
  (signed = true /\ exists r, s = 45 :: r /\ numeral r (- z)).

(** Why a text that is not empty is no integer between [lo] and [hi]: the first thing
    wrong with it from the left is that the number read so far is beyond the range,
    or else a character that does not belong there (or the end). *)
Definition refused (signed : bool) (lo hi : Z) (s : text) (e : int_error) : Prop :=
  match e with
  | IntPosOverflow => exists p rest z, s = p ++ rest /\ int_text signed p z /\ hi < z
  | IntNegOverflow => exists p rest z, s = p ++ rest /\ int_text signed p z /\ z < lo
  | IntInvalidDigit => (forall z, ~ int_text signed s z) /\ forall p rest z, s = p ++ rest -> int_text signed p z -> lo <= z <= hi
  | IntEmpty => False
  end.

(** Text that looks like a location to the regular expression. *)
Definition location_shape (nd : Z -> bool) (s a b : text) : Prop :=
  s = a ++ 58 :: b /\ a <> [] /\ b <> [] /\ Forall (fun c => nd c = true) a /\ Forall (fun c => nd c = true) b.

(** A character class that is right about ASCII. *)
Definition ascii_digits (nd : Z -> bool) : Prop := forall c, 0 <= c < 128 -> (nd c = true <-> digit c).

(** An exponent. *)
Inductive exponent_text : text -> Z -> Prop :=
| ex_none : exponent_text [] 0
| ex_plain c d v : c = 101 \/ c = 69 -> numeral d v -> exponent_text (c :: d) v
| ex_plus c d v : c = 101 \/ c = 69 -> numeral d v -> exponent_text (c :: 43 :: d) v
| ex_minus c d v : c = 101 \/ c = 69 -> numeral d v -> exponent_text (c :: 45 :: d) (- v).

(** [decimal_text s m e]: [s] is a decimal fraction without sign, of value m * 10^e. *)
Inductive decimal_text : text -> Z -> Z -> Prop :=
| dt_int a x m k : numeral a m -> exponent_text x k -> decimal_text (a ++ x) m k
| dt_frac a b x m k : Forall digit a -> Forall digit b -> numeral (a ++ b) m -> exponent_text x k ->
    decimal_text (a ++ 46 :: b ++ x) m (k - Z.of_nat (length b)).

(** With a sign. *)
Inductive rate_text : text -> bool -> Z -> Z -> Prop :=
| rt_plain s m e : decimal_text s m e -> rate_text s false m e
| rt_plus s m e : decimal_text s m e -> rate_text (43 :: s) false m e
| rt_minus s m e : decimal_text s m e -> rate_text (45 :: s) true m e.

(** The number it stands for. *)
Definition rate_value (neg : bool) (m e : Z) : R :=
  let a := (IZR m * powerRZ 10 e)%R in if neg then (- a)%R else a.

(** Words for special values, in any mixture of cases. *)
Definition same_letter (c d : Z) : Prop := d = c \/ (97 <= c <= 122 /\ d = c - 32).
Definition infinity_word (s : text) : Prop :=
  Forall2 same_letter [105; 110; 102] s \/ Forall2 same_letter [105; 110; 102; 105; 110; 105; 116; 121] s.
Definition nan_word (s : text) : Prop := Forall2 same_letter [110; 97; 110] s.
Definition special_word (s : text) : Prop :=
  Forall2 same_letter [105; 110; 102] s \/ Forall2 same_letter [105; 110; 102; 105; 110; 105; 116; 121] s \/
  Forall2 same_letter [110; 97; 110] s.

(** A text field after a sequence of edits, starting from [t]. *)
Inductive edited {T E} (read : text -> outcome (result T E)) : list (text -> text) -> text_input T E -> text_input T E -> Prop :=
| ed_nil t : edited read [] t t
| ed_cons f fs t u v : ti_mutate read (fun s => (f s, tt)) t = Ret (u, tt) -> edited read fs u v -> edited read (f :: fs) t v.

(** The text that the edits produce. *)
Definition edited_text (fs : list (text -> text)) (s : text) : text := fold_left (fun b f => f b) fs s.
