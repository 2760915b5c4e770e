(** Model of src/duration.rs. *)
From Coq Require Import ZArith List Bool.
From Verif Require Import Base.
Open Scope Z_scope.

(** src/duration.rs 5-14 *)
Inductive numerator := Whole | Half | Quarter | N8th | N16th | N32nd | N64th | N128th.

(** src/duration.rs 23-34 *)
Definition num_ord (n : numerator) : Z :=
  match n with
  | Whole => 0 | Half => 1 | Quarter => 2 | N8th => 3 | N16th => 4 | N32nd => 5 | N64th => 6 | N128th => 7
  end.

(** src/duration.rs 36-48 *)
Definition num_from_ord (o : Z) : option numerator :=
  match o with
  | 0 => Some Whole | 1 => Some Half | 2 => Some Quarter | 3 => Some N8th
  | 4 => Some N16th | 5 => Some N32nd | 6 => Some N64th | 7 => Some N128th
  | _ => None
  end.

(** src/duration.rs 54: the denominator is a u8; 82-88 the checked constructor *)
Definition denominator_from_value (v : Z) : option Z := if v <? 2 then None else Some v.

(** src/duration.rs 65-69: what deserialisation does with the stored u8 *)
Definition denominator_deser (v : Z) : Z :=
  match denominator_from_value v with Some d => d | None => 2 end.

(** src/duration.rs 93, 115-121: dots are a u8; deserialisation is unchecked (91-93) *)
Definition dots_from_value (v : Z) : option Z := if 7 <? v then None else Some v.

(** src/duration.rs 134-138 *)
Record duration := mkDur {
  d_num : numerator;
  d_den : Z;    (* u8 *)
  d_dots : Z;   (* u8 *)
}.

(** src/duration.rs 151-155 *)
Definition tick_resolution : Z := 240.
Definition max_dot : Z := 7.

(** Left and right shift of a 32-bit value; a shift amount of 32 or more is an
    overflow (panic with overflow checks). *)
Definition shl32 (a s : Z) : outcome Z := if s <? 32 then Ret (Z.shiftl a s) else Panic.
Definition shr32 (a s : Z) : outcome Z := if s <? 32 then Ret (Z.shiftr a s) else Panic.

(** src/duration.rs 162-176.  [240 << k] for k <= 2 fits, so the shift is exact. *)
Definition tick_length (d : duration) : outcome Z :=
  let n := num_ord (d_num d) in
  let! len :=
    if n <=? 2 then shl32 tick_resolution (2 - n) else shr32 tick_resolution (n - 2) in
  if (d_dots d =? 0) && (d_den d =? 2) then Ret len
  else
    let! h := shr32 len (d_dots d) in
    let! rest := chk_u32 (len - h) in
    let! dotted := chk_u32 (len + rest) in
    let! twice := chk_i64 (dotted * 2) in
    if d_den d =? 0 then Panic   (* division by zero *)
    else Ret (as_u32 (Z.quot twice (d_den d))).

(** src/duration.rs 178-188 *)
Definition with_numerator (d : duration) (n : numerator) : duration := mkDur n (d_den d) (d_dots d).
Definition with_denominator (d : duration) (x : Z) : duration := mkDur (d_num d) x (d_dots d).
Definition with_dots (d : duration) (x : Z) : duration := mkDur (d_num d) (d_den d) x.

(** src/duration.rs 190-192 *)
Definition duration_min (a b : duration) : outcome duration :=
  let! la := tick_length a in
  let! lb := tick_length b in
  Ret (if la <? lb then a else b).

(** src/duration.rs 16-20, 56-60, 95-99, 140-148 *)
Definition duration_default : duration := mkDur Quarter 2 0.

(** The durations that the checked constructors [Denominator::from_value] and
    [Dots::from_value] can produce. *)
Definition duration_valid (d : duration) : Prop := 2 <= d_den d <= 255 /\ 0 <= d_dots d <= 7.

Definition duration_eq_dec : forall a b : duration, {a = b} + {a <> b}.
Proof. repeat decide equality. Defined.
