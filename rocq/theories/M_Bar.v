(** Model of src/bar.rs. *)
From Coq Require Import ZArith List Bool.
From Verif Require Import Base M_Pitch M_Scalar.
Import ListNotations.
Open Scope Z_scope.

(** src/bar.rs 9-11 *)
Inductive var_index := VI1 | VI2 | VI3 | VI4.

(** src/bar.rs 19-27 (the error is abstracted to [None]) *)
Definition var_from_value (v : Z) : option var_index :=
  match v with 1 => Some VI1 | 2 => Some VI2 | 3 => Some VI3 | 4 => Some VI4 | _ => None end.

(** src/bar.rs 29-36 *)
Definition var_value (v : var_index) : Z :=
  match v with VI1 => 1 | VI2 => 2 | VI3 => 3 | VI4 => 4 end.

(** src/bar.rs 38-40 *)
Definition var_next (v : var_index) : option var_index := var_from_value (var_value v + 1).
(** src/bar.rs 42-44; [1 - 1 = 0] fits u8 *)
Definition var_prev (v : var_index) : option var_index := var_from_value (var_value v - 1).

(** src/bar.rs 64-76 *)
Inductive mark := Start | End | Dc | Fine | Ds | Segno | Coda | Var1 | Var2 | Var3 | Var4.

Definition all_marks : list mark := [Start; End; Dc; Fine; Ds; Segno; Coda; Var1; Var2; Var3; Var4].

(** src/bar.rs 46-53 *)
Definition var_to_mark (v : var_index) : mark :=
  match v with VI1 => Var1 | VI2 => Var2 | VI3 => Var3 | VI4 => Var4 end.

(** [EnumSet<Repeat>] (src/bar.rs 63, 100-102): a bit set, bit number = position
    of the variant *)
Definition mark_bit (m : mark) : Z :=
  match m with
  | Start => 0 | End => 1 | Dc => 2 | Fine => 3 | Ds => 4 | Segno => 5 | Coda => 6
  | Var1 => 7 | Var2 => 8 | Var3 => 9 | Var4 => 10
  end.

Definition mark_set := Z.
Definition ms_empty : mark_set := 0.
Definition ms_single (m : mark) : mark_set := Z.shiftl 1 (mark_bit m).
Definition ms_of (l : list mark) : mark_set := fold_right (fun m s => Z.lor (ms_single m) s) 0 l.

(** src/bar.rs 142-144 *)
Definition ms_contains (s : mark_set) (m : mark) : bool := Z.testbit s (mark_bit m).

(** src/bar.rs 105-138: the tables of incompatible marks *)
Definition all_region_marks : mark_set := ms_of [Var1; Var2; Var3; Var4].
Definition start_dislike : mark_set := ms_of [Dc; Ds; Var1; Var2; Var3; Var4].
Definition end_dislike : mark_set := all_region_marks.
Definition dc_dislike : mark_set := ms_of [Start; Ds; Segno; Var1; Var2; Var3; Var4].
Definition ds_dislike : mark_set := ms_of [Start; Var1; Var2; Var3; Var4].
Definition region1_dislike : mark_set := ms_of [Start; End; Dc; Ds; Segno; Var2; Var3; Var4].
Definition region2_dislike : mark_set := ms_of [Start; End; Dc; Ds; Segno; Var1; Var3; Var4].
Definition region3_dislike : mark_set := ms_of [Start; End; Dc; Ds; Segno; Var1; Var2; Var4].
Definition region4_dislike : mark_set := ms_of [Start; End; Dc; Ds; Segno; Var1; Var2; Var3].

(** src/bar.rs 149-156 *)
Definition try_add_repeat (s dislike : mark_set) (m : mark) : result mark_set mark_set :=
  let d := Z.land dislike s in
  if d =? 0 then Ok (Z.lor s (ms_single m)) else Err d.

(** src/bar.rs 158-172 *)
Definition try_add (s : mark_set) (m : mark) : result mark_set mark_set :=
  match m with
  | Start => try_add_repeat s start_dislike m
  | End => try_add_repeat s end_dislike m
  | Dc => try_add_repeat s dc_dislike m
  | Fine => try_add_repeat s ms_empty m
  | Ds => try_add_repeat s ds_dislike m
  | Segno => try_add_repeat s ms_empty m
  | Coda => try_add_repeat s ms_empty m
  | Var1 => try_add_repeat s region1_dislike m
  | Var2 => try_add_repeat s region2_dislike m
  | Var3 => try_add_repeat s region3_dislike m
  | Var4 => try_add_repeat s region4_dislike m
  end.

(** src/bar.rs 174-178 *)
Definition ms_remove (s : mark_set) (m : mark) : mark_set := Z.ldiff s (ms_single m).

(** src/bar.rs 180-186 *)
Definition region_index (s : mark_set) : option var_index :=
  if ms_contains s Var1 then Some VI1
  else if ms_contains s Var2 then Some VI2
  else if ms_contains s Var3 then Some VI3
  else if ms_contains s Var4 then Some VI4
  else None.

(** src/bar.rs 188-195 *)
Definition remove_regions (s : mark_set) : mark_set :=
  ms_remove (ms_remove (ms_remove (ms_remove s Var1) Var2) Var3) Var4.

(** src/bar.rs 197-199 *)
Definition ms_len (s : mark_set) : Z := Z.of_nat (length (filter (ms_contains s) all_marks)).

(** src/bar.rs 225-230 *)
Record bar := mkBar {
  b_tick : Z;
  b_rhythm : option rhythm;
  b_key : option key;
  b_marks : mark_set;
}.

(** src/bar.rs 244-249 *)
Definition bar_drag (b : bar) (d : Z) : bar :=
  mkBar (as_u32 (b_tick b + d)) (b_rhythm b) (b_key b) (b_marks b).

(** src/bar.rs 251-263 *)
Definition bar_with_tick_added (b : bar) (d : Z) : result bar tick_error :=
  let tick := b_tick b + d in
  if tick <? 0 then Err Minus else Ok (mkBar (as_u32 tick) (b_rhythm b) (b_key b) (b_marks b)).

Definition bar_eq_dec : forall a b : bar, {a = b} + {a <> b}.
Proof. repeat decide equality. Defined.
