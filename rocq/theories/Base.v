(** Shared vocabulary of the model: outcomes of Rust code and machine integers. *)
From Coq Require Import ZArith List Bool Lia.
Import ListNotations.
Open Scope Z_scope.

(** What a piece of Rust code can do: return, panic (explicit [panic!], failed
    [unwrap], out-of-bounds index, arithmetic overflow in a build with overflow
    checks, failed debug assertion) or loop for ever. *)
Inductive outcome (A : Type) : Type :=
| Ret (a : A)
| Panic
| Hang.
Arguments Ret {A} a.
Arguments Panic {A}.
Arguments Hang {A}.

Definition bind {A B : Type} (o : outcome A) (k : A -> outcome B) : outcome B :=
  match o with
  | Ret a => k a
  | Panic => Panic
  | Hang => Hang
  end.

Notation "'let!' x ':=' e 'in' k" := (bind e (fun x => k))
  (at level 200, x pattern, e at level 200, k at level 200, right associativity).

Definition omap {A B : Type} (f : A -> B) (o : outcome A) : outcome B :=
  bind o (fun a => Ret (f a)).

(** Rust's [Result]. *)
Inductive result (A E : Type) : Type :=
| Ok (a : A)
| Err (e : E).
Arguments Ok {A E} a.
Arguments Err {A E} e.

Definition res_map {A B E : Type} (f : A -> B) (r : result A E) : result B E :=
  match r with Ok a => Ok (f a) | Err e => Err e end.

(** [Result::unwrap] and [Option::unwrap]. *)
Definition unwrap {A E : Type} (r : result A E) : outcome A :=
  match r with Ok a => Ret a | Err _ => Panic end.
Definition unwrap_opt {A : Type} (o : option A) : outcome A :=
  match o with Some a => Ret a | None => Panic end.

(** Largest values of the machine types. *)
Definition u8_max : Z := 255.
Definition u16_max : Z := 65535.
Definition i16_min : Z := -32768.
Definition i16_max : Z := 32767.
Definition u32_max : Z := 4294967295.
Definition i32_min : Z := -2147483648.
Definition i32_max : Z := 2147483647.
Definition i64_min : Z := -9223372036854775808.
Definition i64_max : Z := 9223372036854775807.
Definition usize_max : Z := 18446744073709551615. (* 64-bit target *)

(** Ranges of the machine types. *)
Definition u8 (z : Z) : Prop := 0 <= z <= u8_max.
Definition i8 (z : Z) : Prop := -128 <= z <= 127.
Definition u16 (z : Z) : Prop := 0 <= z <= u16_max.
Definition i16 (z : Z) : Prop := i16_min <= z <= i16_max.
Definition u32 (z : Z) : Prop := 0 <= z <= u32_max.
Definition i32 (z : Z) : Prop := i32_min <= z <= i32_max.
Definition i64 (z : Z) : Prop := i64_min <= z <= i64_max.
Definition usize (z : Z) : Prop := 0 <= z <= usize_max.

(** Checked arithmetic: the exact result, or a panic if it leaves the type. *)
Definition in_range (lo hi z : Z) : bool := (lo <=? z) && (z <=? hi).
Definition chk (lo hi z : Z) : outcome Z := if in_range lo hi z then Ret z else Panic.
Definition chk_u8 (z : Z) : outcome Z := chk 0 u8_max z.
Definition chk_u16 (z : Z) : outcome Z := chk 0 u16_max z.
Definition chk_i16 (z : Z) : outcome Z := chk i16_min i16_max z.
Definition chk_u32 (z : Z) : outcome Z := chk 0 u32_max z.
Definition chk_i32 (z : Z) : outcome Z := chk i32_min i32_max z.
Definition chk_i64 (z : Z) : outcome Z := chk i64_min i64_max z.
Definition chk_usize (z : Z) : outcome Z := chk 0 usize_max z.

(** [as] conversions between integer types wrap around. *)
Definition as_u8 (z : Z) : Z := z mod 256.
Definition as_u16 (z : Z) : Z := z mod 65536.
Definition as_u32 (z : Z) : Z := z mod 4294967296.
Definition as_i8 (z : Z) : Z := (z + 128) mod 256 - 128.

(** Indexing of a slice or vector; out of bounds panics. *)
Definition index {A : Type} (l : list A) (i : Z) : outcome A :=
  if i <? 0 then Panic else unwrap_opt (nth_error l (Z.to_nat i)).

(** Sum of a list of integers, used in specifications. *)
Definition zsum (l : list Z) : Z := fold_right Z.add 0 l.

(** Sequencing of outcomes over a list. *)
Fixpoint omapM {A B : Type} (f : A -> outcome B) (l : list A) : outcome (list B) :=
  match l with
  | [] => Ret []
  | a :: l' => let! b := f a in let! bs := omapM f l' in Ret (b :: bs)
  end.

Fixpoint ofold {A S : Type} (f : S -> A -> outcome S) (s : S) (l : list A) : outcome S :=
  match l with
  | [] => Ret s
  | a :: l' => let! s' := f s a in ofold f s' l'
  end.
