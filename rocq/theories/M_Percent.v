(** Model of src/percent.rs and src/trimmer.rs. *)
From Coq Require Import ZArith List Bool.
From Flocq Require Import Core BinarySingleNaN.
From Verif Require Import Base.
Import ListNotations.
Open Scope Z_scope.

(** ** f32

    IEEE 754 binary32: 24 bits of precision, exponents up to 128; one NaN
    (the code never looks at NaN payloads). *)
Definition f32 := binary_float 24 128.

Lemma f32_prec_gt_0 : Prec_gt_0 24. Proof. reflexivity. Qed.
Lemma f32_prec_lt_emax : Prec_lt_emax 24 128. Proof. reflexivity. Qed.

Definition f32_mul : f32 -> f32 -> f32 := @Bmult 24 128 f32_prec_gt_0 f32_prec_lt_emax mode_NE.
Definition f32_div : f32 -> f32 -> f32 := @Bdiv 24 128 f32_prec_gt_0 f32_prec_lt_emax mode_NE.
(** conversion of an integer to f32 ([as f32]); also used for literals *)
Definition f32_of_Z (z : Z) : f32 := binary_normalize 24 128 f32_prec_gt_0 f32_prec_lt_emax mode_NE z 0 false.
Definition f32_lt (x y : f32) : bool := Bltb x y.
Definition f32_is_nan (x : f32) : bool := is_nan x.

(** [as i32]: truncate towards zero, saturate, NaN gives 0. *)
Definition f32_trunc (x : f32) : Z :=
  match x with
  | B754_finite s m e _ =>
      let a := match e with
               | Z0 => Zpos m
               | Zpos p => Zpos m * 2 ^ Zpos p
               | Zneg p => Zpos m / 2 ^ Zpos p
               end in
      if s then - a else a
  | _ => 0
  end.
Definition f32_as_i32 (x : f32) : Z :=
  match x with
  | B754_infinity true => i32_min
  | B754_infinity false => i32_max
  | B754_nan => 0
  | _ => Z.max i32_min (Z.min i32_max (f32_trunc x))
  end.

(** ** Percentages *)

(** src/percent.rs 6-8: a u16 counting thousandths *)
Definition percent := Z.

(** src/percent.rs 11-23 *)
Definition percent_max : percent := 2000.
Definition percent_hundred : percent := 1000.
Definition percent_zero : percent := 0.

(** src/percent.rs 31-33 *)
Definition percent_to_f32 (p : percent) : f32 := f32_div (f32_of_Z p) (f32_of_Z 1000).

(** src/percent.rs 37-40 *)
Definition percent_apply (p : percent) (v : Z) : outcome Z :=
  let! prod := chk_i64 (v * p) in
  Ret (as_u32 (Z.quot prod 1000)).

(** src/percent.rs 50-63 *)
Definition percent_of_f32 (rate : f32) : percent :=
  if f32_is_nan rate then 0
  else if f32_lt rate (f32_of_Z 0) then 0
  else if f32_lt (f32_of_Z 2) rate then 2000
  else as_u16 (f32_as_i32 (f32_mul rate (f32_of_Z 1000))).

(** ** Trimmer *)

(** src/trimmer.rs 11-15 *)
Record trimmer := mkTrim {
  t_v0 : Z; t_v1 : Z; t_v2 : Z; t_v3 : Z;   (* [i16; 4] *)
  t_sum : Z;                                 (* i32, cached *)
}.

(** src/trimmer.rs 37-42; four i16 never overflow an i32 *)
Definition trimmer_new (a b c d : Z) : trimmer := mkTrim a b c d (a + b + c + d).

(** src/trimmer.rs 44-49 (and from_vec, 51-56): the additions are done in i16 *)
Definition trimmer_from_array (a b c d : Z) : outcome trimmer :=
  let! s1 := chk_i16 (a + b) in
  let! s2 := chk_i16 (s1 + c) in
  let! s3 := chk_i16 (s2 + d) in
  Ret (mkTrim a b c d s3).

(** src/trimmer.rs 35 *)
Definition trimmer_zero : trimmer := trimmer_new 0 0 0 0.

(** src/trimmer.rs 23-27: what deserialisation does with the stored values *)
Definition trimmer_deser (t : trimmer) : outcome trimmer :=
  trimmer_from_array (t_v0 t) (t_v1 t) (t_v2 t) (t_v3 t).

(** src/trimmer.rs 84-97: the loop over the slots; returns the new slots *)
Fixpoint added_loop (vs : list Z) (tick : Z) : outcome (list Z) :=
  match vs with
  | [] => Ret []
  | v :: vs' =>
      let! t := chk_i32 (v + tick) in
      if i16_max <? t then
        let! rest := added_loop vs' (t - i16_max) in Ret (i16_max :: rest)
      else if t <? i16_min then
        let! rest := added_loop vs' (t - i16_min) in Ret (i16_min :: rest)
      else Ret (t :: vs')
  end.

(** src/trimmer.rs 84-102 *)
Definition trimmer_added (t : trimmer) (tick : Z) : outcome trimmer :=
  let! vs := added_loop [t_v0 t; t_v1 t; t_v2 t; t_v3 t] tick in
  match vs with
  | [a; b; c; d] => Ret (trimmer_new a b c d)
  | _ => Panic
  end.

(** src/trimmer.rs 78-82: [f] is the caller's closure on the four values *)
Definition trimmer_updated (t : trimmer) (f : Z * Z * Z * Z -> Z * Z * Z * Z) : outcome trimmer :=
  let '(a, b, c, d) := f (t_v0 t, t_v1 t, t_v2 t, t_v3 t) in
  trimmer_from_array a b c d.

(** src/trimmer.rs 105-113 *)
Definition trimmer_eqb (x y : trimmer) : bool :=
  if t_sum x =? t_sum y then
    (t_v0 x =? t_v0 y) && (t_v1 x =? t_v1 y) && (t_v2 x =? t_v2 y) && (t_v3 x =? t_v3 y)
  else false.

(** ** Rate trimmer *)

(** src/trimmer.rs 124-128 *)
Record rate_trimmer := mkRate {
  r_v0 : percent; r_v1 : percent; r_v2 : percent; r_v3 : percent;
  r_sum : percent;   (* cached *)
}.

(** src/trimmer.rs 154-157 *)
Definition rate_one : rate_trimmer := mkRate 1000 1000 1000 1000 1000.

(** src/trimmer.rs 159-164 *)
Definition rate_new (a b c d : f32) : rate_trimmer :=
  mkRate (percent_of_f32 a) (percent_of_f32 b) (percent_of_f32 c) (percent_of_f32 d)
         (percent_of_f32 (f32_mul (f32_mul (f32_mul a b) c) d)).

(** src/trimmer.rs 166-171 (and from_vec, 173-178) *)
Definition rate_from_array (a b c d : percent) : rate_trimmer :=
  mkRate a b c d
    (percent_of_f32
       (f32_mul (f32_mul (f32_mul (percent_to_f32 a) (percent_to_f32 b)) (percent_to_f32 c))
                (percent_to_f32 d))).

(** src/trimmer.rs 136-140: deserialisation *)
Definition rate_deser (r : rate_trimmer) : rate_trimmer :=
  rate_from_array (r_v0 r) (r_v1 r) (r_v2 r) (r_v3 r).

(** src/trimmer.rs 147-151 *)
Definition rate_apply (r : rate_trimmer) (v : Z) : outcome Z := percent_apply (r_sum r) v.

(** src/trimmer.rs 197-205 *)
Definition rate_eqb (x y : rate_trimmer) : bool :=
  if r_sum x =? r_sum y then
    (r_v0 x =? r_v0 y) && (r_v1 x =? r_v1 y) && (r_v2 x =? r_v2 y) && (r_v3 x =? r_v3 y)
  else false.

Definition trimmer_eq_dec : forall a b : trimmer, {a = b} + {a <> b}.
Proof. repeat decide equality. Defined.
Definition rate_eq_dec : forall a b : rate_trimmer, {a = b} + {a <> b}.
Proof. repeat decide equality. Defined.
