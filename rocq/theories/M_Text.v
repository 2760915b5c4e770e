(** Model of src/location.rs, src/text_input.rs and the parts of the Rust
    standard library they call: printing of integers, [str::parse] for integers
    and f32.  A string is the list of its Unicode code points. *)
From Coq Require Import ZArith List Bool SpecFloat.
From Flocq Require Import Core Div BinarySingleNaN.
From Verif Require Import Base M_Duration M_Percent M_Scalar M_Store M_Tuple M_Models M_Project.
Import ListNotations.
Open Scope Z_scope.

Definition text := list Z.

(** ** Integers *)

Definition is_digit (c : Z) : bool := (48 <=? c) && (c <=? 57).

(** core::fmt: decimal digits of a non-negative number, in front of [acc] *)
Fixpoint show_digits (fuel : nat) (n : Z) (acc : text) : text :=
  match fuel with
  | O => acc
  | S f =>
      let acc' := (48 + n mod 10) :: acc in
      if n <? 10 then acc' else show_digits f (n / 10) acc'
  end.
Definition show_nat (n : Z) : text := show_digits (S (Z.to_nat (Z.log2 n))) n [].
(** [to_string] of signed and unsigned integers *)
Definition show_int (z : Z) : text := if z <? 0 then 45 :: show_nat (- z) else show_nat z.

(** core::num::IntErrorKind *)
Inductive int_error := IntEmpty | IntInvalidDigit | IntPosOverflow | IntNegOverflow.

(** core::num: the digits are taken from the left; each is checked to be a digit,
    then the multiplication and the addition (subtraction for negative numbers)
    are checked to stay in the range [lo..hi] of the type *)
Fixpoint parse_digits (lo hi : Z) (neg : bool) (acc : Z) (s : text) : result Z int_error :=
  match s with
  | [] => Ok acc
  | c :: s' =>
      if is_digit c then
        let over := if neg then IntNegOverflow else IntPosOverflow in
        let m := acc * 10 in
        if in_range lo hi m then
          let a := if neg then m - (c - 48) else m + (c - 48) in
          if in_range lo hi a then parse_digits lo hi neg a s' else Err over
        else Err over
      else Err IntInvalidDigit
  end.

(** core::num: [from_str_radix(s, 10)] for a type with range [lo..hi] *)
Definition parse_int (lo hi : Z) (s : text) : result Z int_error :=
  match s with
  | [] => Err IntEmpty
  | c :: s' =>
      if (c =? 43) || ((c =? 45) && (lo <? 0)) then
        match s' with
        | [] => Err IntInvalidDigit
        | _ => parse_digits lo hi (c =? 45) 0 s'
        end
      else parse_digits lo hi false 0 s
  end.

(** ** Locations (src/location.rs) *)

(** The longest prefix of characters that satisfy [p] *)
Fixpoint span (p : Z -> bool) (s : text) : text * text :=
  match s with
  | [] => ([], [])
  | c :: s' => if p c then let '(a, b) := span p s' in (c :: a, b) else ([], s)
  end.

(** src/location.rs 21-25 *)
Definition show_location (l : location) : text := show_int (loc_bar l) ++ 58 :: show_int (loc_offset l).

(** src/location.rs 28-36.  [nd] is the character class of the regular expression
    [\d], the decimal digits of all scripts; it depends on the version of Unicode
    and is left open.  A colon is no digit, so the match is unique. *)
Definition parse_location (nd : Z -> bool) (s : text) : outcome (option location) :=
  let '(a, rest) := span nd s in
  match a, rest with
  | _ :: _, 58 :: rest' =>
      let '(b, rest'') := span nd rest' in
      match b, rest'' with
      | _ :: _, [] =>
          let! bar := unwrap (parse_int 0 usize_max a) in
          let! offset := unwrap (parse_int 0 usize_max b) in
          Ret (Some (mkLoc bar offset))
      | _, _ => Ret None
      end
  | _, _ => Ret None
  end.

(** ** Floating point numbers *)

(** The f32 nearest to [(-1)^neg * m * 10^e], ties to even *)
Definition f32_of_decimal (neg : bool) (m e : Z) : f32 :=
  if m =? 0 then B754_zero neg
  else
    let '(q, ex, l) :=
      @Fdiv radix2 (FLT_exp (-149) 24) (Float radix2 (m * 10 ^ Z.max e 0) 0) (Float radix2 (10 ^ Z.max (- e) 0) 0) in
    let z := binary_round_aux 24 128 mode_NE neg q ex l in
    match bool_dec (valid_binary 24 128 z) true with
    | left H => SF2B z H
    | right _ => B754_nan
    end.

(** value of a string of digits *)
Definition digits_value (s : text) : Z := fold_left (fun a c => a * 10 + (c - 48)) s 0.

Definition lower (c : Z) : Z := if (65 <=? c) && (c <=? 90) then c + 32 else c.
Fixpoint text_eqb (a b : text) : bool :=
  match a, b with
  | [], [] => true
  | x :: a', y :: b' => (x =? y) && text_eqb a' b'
  | _, _ => false
  end.

(** core::num::dec2flt: the exponent, [None] if it has no digits or is followed
    by anything.  The code stops counting at exponents above 65535; here they are
    exact (a difference only for numbers with more than 65000 digits). *)
Definition parse_exponent (s : text) : option Z :=
  match s with
  | [] => Some 0
  | c :: s' =>
      if (c =? 101) || (c =? 69) then
        let '(neg, s'') :=
          match s' with
          | 43 :: r => (false, r)
          | 45 :: r => (true, r)
          | _ => (false, s')
          end in
        let '(d, rest) := span is_digit s'' in
        match d, rest with
        | _ :: _, [] => Some (if neg then - digits_value d else digits_value d)
        | _, _ => None
        end
      else None
  end.

(** core::num::dec2flt: digits with an optional point and exponent; the mantissa
    and the exponent of ten *)
Definition parse_decimal (s : text) : option (Z * Z) :=
  let '(a, rest) := span is_digit s in
  let '(b, rest') := match rest with 46 :: r => span is_digit r | _ => ([], rest) end in
  match a ++ b with
  | [] => None
  | _ =>
      match parse_exponent rest' with
      | Some e => Some (digits_value (a ++ b), e - Z.of_nat (length b))
      | None => None
      end
  end.

(** core::num::dec2flt: [str::parse::<f32>]; the error is [None].  "inf",
    "infinity" and "nan" are recognised whatever their case. *)
Definition parse_f32 (s : text) : option f32 :=
  match s with
  | [] => None
  | c :: s' =>
      let neg := c =? 45 in
      let r := if (c =? 45) || (c =? 43) then s' else s in
      match r with
      | [] => None
      | _ =>
          match parse_decimal r with
          | Some (m, e) => Some (f32_of_decimal neg m e)
          | None =>
              let w := map lower r in
              if text_eqb w [105; 110; 102] || text_eqb w [105; 110; 102; 105; 110; 105; 116; 121]
              then Some (B754_infinity neg)
              else if text_eqb w [110; 97; 110] then Some B754_nan
              else None
          end
      end
  end.

(** ** Text fields (src/text_input.rs)

    Each function models one [FromStr] implementation; the result is the value
    in [Validated].  The first case of each is the empty text. *)

Inductive location_error := InvalidFormat.

(** src/text_input.rs 52-65 *)
Definition read_location (nd : Z -> bool) (s : text) : outcome (result (option location) location_error) :=
  match s with
  | [] => Ret (Ok None)
  | _ => let! o := parse_location nd s in
         Ret (match o with Some l => Ok (Some l) | None => Err InvalidFormat end)
  end.

(** src/text_input.rs 67-77 *)
Definition read_i16 (s : text) : outcome (result (option Z) int_error) :=
  match s with [] => Ret (Ok None) | _ => Ret (res_map Some (parse_int i16_min i16_max s)) end.

(** src/text_input.rs 79-89 *)
Definition read_tempo (s : text) : outcome (result (option Z) int_error) :=
  match s with
  | [] => Ret (Ok None)
  | _ => match parse_int 0 u16_max s with
         | Ok u => let! t := tempo_value_new u in Ret (Ok (Some t))
         | Err e => Ret (Err e)
         end
  end.

(** src/text_input.rs 91-101 *)
Definition read_velocity (s : text) : outcome (result (option Z) int_error) :=
  match s with [] => Ret (Ok None) | _ => Ret (res_map (fun u => Some (velocity_new u)) (parse_int 0 u8_max s)) end.

(** src/rhythm.rs 18-22 *)
Inductive numerator_error := NumInvalidValue (v : Z) | NumCannotParse (s : text).

(** src/rhythm.rs 38-47 with 25-31; src/text_input.rs 103-113 *)
Definition read_numerator (s : text) : outcome (result (option Z) numerator_error) :=
  match s with
  | [] => Ret (Ok None)
  | _ => match parse_int 0 u8_max s with
         | Ok v => Ret (match rhythm_num_from_value v with Some n => Ok (Some n) | None => Err (NumInvalidValue v) end)
         | Err _ => Ret (Err (NumCannotParse s))
         end
  end.

(** src/text_input.rs 115-119 *)
Inductive denominator_error := DenParseInt | DenInvalidValue.

(** src/text_input.rs 121-137 *)
Definition read_denominator (s : text) : outcome (result (option Z) denominator_error) :=
  match s with
  | [] => Ret (Ok None)
  | _ => match parse_int 0 u8_max s with
         | Ok u => Ret (match denominator_from_value u with Some d => Ok (Some d) | None => Err DenInvalidValue end)
         | Err _ => Ret (Err DenParseInt)
         end
  end.

Inductive float_error := FloatError.

(** src/text_input.rs 139-152 *)
Definition read_percent (s : text) : outcome (result (option percent) float_error) :=
  match s with
  | [] => Ret (Ok None)
  | _ => Ret (match parse_f32 s with Some x => Ok (Some (percent_of_f32 x)) | None => Err FloatError end)
  end.

(** src/text_input.rs 16-19: the field; [read] is the [FromStr] implementation of
    its type, one of the above *)
Record text_input (T E : Type) := mkTI { ti_validated : result T E; ti_buffer : text }.
Arguments mkTI {T E}. Arguments ti_validated {T E}. Arguments ti_buffer {T E}.

(** src/text_input.rs 24-27 *)
Definition ti_from_string {T E} (read : text -> outcome (result T E)) (s : text) : outcome (text_input T E) :=
  let! v := read s in Ret (mkTI v s).

(** src/text_input.rs 29-35; [f] is the caller's mutator *)
Definition ti_mutate {T E R} (read : text -> outcome (result T E)) (f : text -> text * R) (t : text_input T E)
  : outcome (text_input T E * R) :=
  let '(s, r) := f (ti_buffer t) in
  let! v := read s in Ret (mkTI v s, r).

(** src/percent.rs 43-47 for percentages below 65536 thousandths: Rust prints the
    shortest decimal that reads as the same f32; a percentage has at most three
    places and at most five digits, so this is the percentage itself without
    trailing zeros (see C51_shown). *)
Definition show_percent (p : percent) : text :=
  let i := p / 1000 in
  let f := p mod 1000 in
  show_nat i ++
    (if f =? 0 then []
     else 46 :: (if f mod 100 =? 0 then [48 + f / 100]
                 else if f mod 10 =? 0 then [48 + f / 100; 48 + f / 10 mod 10]
                 else [48 + f / 100; 48 + f / 10 mod 10; 48 + f mod 10])).

(** src/grid.rs 14-31; the error carries the text that is shown *)
Definition grid_value_of (s : text) : result grid text :=
  match parse_int 0 u32_max s with
  | Ok i => match grid_from_u32 i with Some g => Ok g | None => Err [48] end
  | Err _ => Err s
  end.

(** src/grid.rs 55-59 *)
Definition grid_to_string (g : grid) : text := show_int g.

(** src/rhythm.rs 38-47; the two errors are told apart *)
Definition rhythm_num_from_str (s : text) : result Z (Z + text) :=
  match parse_int 0 u8_max s with
  | Ok v => match rhythm_num_from_value v with Some n => Ok n | None => Err (inl v) end
  | Err _ => Err (inr s)
  end.
