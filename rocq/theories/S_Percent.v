(** Specification of rates, percentages and trimmers. *)
From Coq Require Import ZArith List Bool Reals.
From Flocq Require Import Core BinarySingleNaN.
From Verif Require Import Base M_Percent.
Import ListNotations.

(** The real number denoted by a finite f32. *)
Definition real (x : f32) : R := B2R x.
Definition finite (x : f32) : Prop := is_finite x = true.

(** Rounding of a real number to the nearest f32 (ties to even): 24 bits of
    precision, smallest exponent -149. *)
Definition round32 (r : R) : R := round radix2 (FLT_exp (-149) 24) ZnearestE r.

Open Scope Z_scope.

(** [rate_means x p]: the percentage (in thousandths) that the rate [x] stands for. *)
Inductive rate_means (x : f32) : Z -> Prop :=
| rm_nan : x = B754_nan -> rate_means x 0
| rm_neg_inf : x = B754_infinity true -> rate_means x 0
| rm_pos_inf : x = B754_infinity false -> rate_means x 2000
| rm_neg : finite x -> (real x < 0)%R -> rate_means x 0
| rm_big : finite x -> (2 < real x)%R -> rate_means x 2000
| rm_mid : finite x -> (0 <= real x <= 2)%R -> rate_means x (Zfloor (round32 (real x * 1000))).

(** Order of f32 values including the infinities. *)
Definition f32_le (x y : f32) : Prop :=
  match x, y with
  | B754_nan, _ | _, B754_nan => False
  | B754_infinity true, _ => True
  | _, B754_infinity false => True
  | B754_infinity false, _ => False
  | _, B754_infinity true => False
  | _, _ => (real x <= real y)%R
  end.

(** The percentages that do not survive the trip through f32. *)
Definition lossy : list Z := [251; 253; 502; 506; 511; 1004; 1009; 1012; 1017; 1022].

(** The four values of a trimmer and what they add up to. *)
Definition trim_values (t : trimmer) : list Z := [t_v0 t; t_v1 t; t_v2 t; t_v3 t].
Definition trim_total (t : trimmer) : Z := zsum (trim_values t).

Definition clamp (lo hi v : Z) : Z := Z.max lo (Z.min hi v).

(** A trimmer that a user can have: four i16 and their exact sum. *)
Definition valid_trimmer (t : trimmer) : Prop :=
  Forall i16 (trim_values t) /\ t_sum t = trim_total t.

(** How trimmers come into being. *)
Inductive obtainable_trimmer : trimmer -> Prop :=
| ot_new a b c d : i16 a -> i16 b -> i16 c -> i16 d -> obtainable_trimmer (trimmer_new a b c d)
| ot_array a b c d t : i16 a -> i16 b -> i16 c -> i16 d ->
    trimmer_from_array a b c d = Ret t -> obtainable_trimmer t
| ot_load t u : obtainable_trimmer t -> trimmer_deser t = Ret u -> obtainable_trimmer u
| ot_added t k u : obtainable_trimmer t -> trimmer_added t k = Ret u -> obtainable_trimmer u
| ot_updated t f u :
    (forall a b c d, i16 a -> i16 b -> i16 c -> i16 d ->
       let '(a', b', c', d') := f (a, b, c, d) in i16 a' /\ i16 b' /\ i16 c' /\ i16 d') ->
    obtainable_trimmer t -> trimmer_updated t f = Ret u -> obtainable_trimmer u.

(** [fills old t new]: [t] is added to the values from the left; a value that
    reaches its limit passes the rest on to its right neighbour. *)
Inductive fills : list Z -> Z -> list Z -> Prop :=
| fills_nil t : fills [] t []
| fills_fit v vs t : i16 (v + t) -> fills (v :: vs) t (v + t :: vs)
| fills_over v vs t ws : i16_max < v + t -> fills vs (v + t - i16_max) ws ->
    fills (v :: vs) t (i16_max :: ws)
| fills_under v vs t ws : v + t < i16_min -> fills vs (v + t - i16_min) ws ->
    fills (v :: vs) t (i16_min :: ws).

(** A rate trimmer that a user can have: its cached product is a percentage. *)
Inductive obtainable_rate : rate_trimmer -> Prop :=
| or_one : obtainable_rate rate_one
| or_new a b c d : obtainable_rate (rate_new a b c d)
| or_array a b c d : obtainable_rate (rate_from_array a b c d)
| or_load r : obtainable_rate r -> obtainable_rate (rate_deser r).
