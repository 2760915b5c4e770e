(** Model of src/velocity.rs, src/channel.rs, src/tempo.rs, src/ctrl_chg.rs,
    src/rhythm.rs, src/grid.rs, src/clipper.rs and src/play_iter.rs. *)
From Coq Require Import ZArith List Bool.
From Verif Require Import Base M_Duration.
Import ListNotations.
Open Scope Z_scope.

(** ** Velocity (src/velocity.rs) — a u8 *)

(** src/velocity.rs 29-31; also used by deserialisation (21-25) *)
Definition velocity_new (v : Z) : Z := if 127 <? v then 127 else v.

(** ** Channel (src/channel.rs) — a u8; deserialisation is unchecked (1-3) *)

(** src/channel.rs 6-12 *)
Definition channel_new (v : Z) : outcome Z := if v <? 16 then Ret v else Panic.

(** ** Tempo (src/tempo.rs) *)

(** src/tempo.rs 3-4 *)
Definition min_tempo : Z := 1.
Definition max_tempo : Z := 999.

(** src/tempo.rs 36-42 *)
Definition tempo_value_new (v : Z) : outcome Z := if max_tempo <? v then Panic else Ret v.

(** src/tempo.rs 23-29: deserialisation *)
Definition tempo_value_deser (v : Z) : Z :=
  if max_tempo <? v then max_tempo else if v <? min_tempo then min_tempo else v.

(** src/tempo.rs 52-59; the error carries a value *)
Definition tempo_value_up (v : Z) : outcome (result Z Z) :=
  let! n := chk_u16 (v + 1) in
  if max_tempo <? n then Ret (Err n)
  else let! t := tempo_value_new n in Ret (Ok t).

(** src/tempo.rs 61-69 *)
Definition tempo_value_down (v : Z) : outcome (result Z Z) :=
  if v <=? min_tempo then Ret (Err min_tempo)
  else let! t := tempo_value_new (v - 1) in Ret (Ok t).

(** src/tempo.rs 71-73 *)
Definition tempo_value_safe_new (v : Z) : outcome Z :=
  tempo_value_new (if max_tempo <? v then max_tempo else v).

(** src/note.rs 22-24 *)
Inductive tick_error := Minus.

(** src/tempo.rs 78-81 *)
Record tempo := mkTempo { tp_tick : Z; tp_value : Z }.

(** src/tempo.rs 100-106; i32 addition, then [as u16] *)
Definition tempo_drag (t : tempo) (tick_delta tempo_delta : Z) : outcome tempo :=
  let! v := chk_i32 (tp_value t + tempo_delta) in
  let! v' := tempo_value_safe_new (as_u16 v) in
  Ret (mkTempo (as_u32 (tp_tick t + tick_delta)) v').

(** src/tempo.rs 108-120 *)
Definition tempo_with_tick_added (t : tempo) (d : Z) : result tempo tick_error :=
  let tick := tp_tick t + d in
  if tick <? 0 then Err Minus else Ok (mkTempo (as_u32 tick) (tp_value t)).

(** src/tempo.rs 122-129 *)
Definition tempo_up (t : tempo) : outcome (result tempo Z) :=
  let! r := tempo_value_up (tp_value t) in
  Ret (res_map (mkTempo (tp_tick t)) r).

(** src/tempo.rs 131-138 *)
Definition tempo_down (t : tempo) : outcome (result tempo Z) :=
  let! r := tempo_value_down (tp_value t) in
  Ret (res_map (mkTempo (tp_tick t)) r).

(** ** Control change (src/ctrl_chg.rs) *)

(** src/ctrl_chg.rs 6-10 *)
Record ctrl_chg := mkCtrl { cc_tick : Z; cc_velocity : Z; cc_channel : Z }.

(** src/ctrl_chg.rs 17-22 *)
Definition ctrl_drag (c : ctrl_chg) (d : Z) : ctrl_chg :=
  mkCtrl (as_u32 (cc_tick c + d)) (cc_velocity c) (cc_channel c).

(** src/ctrl_chg.rs 24-36 *)
Definition ctrl_with_tick_added (c : ctrl_chg) (d : Z) : result ctrl_chg tick_error :=
  let tick := cc_tick c + d in
  if tick <? 0 then Err Minus else Ok (mkCtrl (as_u32 tick) (cc_velocity c) (cc_channel c)).

(** ** Rhythm (src/rhythm.rs) *)

(** src/rhythm.rs 51-53 *)
Inductive rhythm_den := D2 | D4 | D8 | D16 | D32 | D64.

(** src/rhythm.rs 77-86 *)
Definition rhythm_den_value (d : rhythm_den) : Z :=
  match d with D2 => 2 | D4 => 4 | D8 => 8 | D16 => 16 | D32 => 32 | D64 => 64 end.

(** src/rhythm.rs 65-75 *)
Definition rhythm_den_from_value (v : Z) : option rhythm_den :=
  match v with
  | 2 => Some D2 | 4 => Some D4 | 8 => Some D8 | 16 => Some D16 | 32 => Some D32 | 64 => Some D64
  | _ => None
  end.

(** src/rhythm.rs 102-105; the numerator is a u8 whose deserialisation is unchecked (8-10) *)
Record rhythm := mkRhythm { rh_num : Z; rh_den : rhythm_den }.

(** src/rhythm.rs 95-98 *)
Inductive rhythm_error := RhythmNumeratorError (v : Z) | RhythmDenominatorError (v : Z).

(** src/rhythm.rs 25-31 *)
Definition rhythm_num_from_value (v : Z) : option Z := if (v <? 1) || (99 <? v) then None else Some v.

(** src/rhythm.rs 123-138 *)
Definition rhythm_value_of (n d : Z) : result rhythm rhythm_error :=
  match rhythm_num_from_value n with
  | None => Err (RhythmNumeratorError n)
  | Some n' =>
      match rhythm_den_from_value d with
      | None => Err (RhythmDenominatorError d)
      | Some d' => Ok (mkRhythm n' d')
      end
  end.

(** src/rhythm.rs 140-142; at most 255*960, so no overflow *)
Definition rhythm_tick_len (r : rhythm) : Z :=
  as_u32 (Z.quot (rh_num r * tick_resolution * 4) (rhythm_den_value (rh_den r))).

(** src/rhythm.rs 145-149 *)
Definition rhythm_default : rhythm := mkRhythm 4 D4.

(** ** Grid (src/grid.rs) *)

(** src/grid.rs 9-11: a u32; deserialisation is unchecked (7-8) *)
Definition grid := Z.

(** src/grid.rs 25-31; the error is abstracted to [None] *)
Definition grid_from_u32 (i : Z) : option grid := if i =? 0 then None else Some i.

(** src/grid.rs 39-46; i64 division truncates towards zero *)
Definition grid_snap (g : grid) (tick : Z) : outcome Z :=
  let i := g in
  if i =? 0 then Panic   (* i64 division by zero *)
  else if tick <? 0 then
    let! a := chk_i64 (tick - Z.quot i 2) in
    chk_i64 (i * Z.quot a i)
  else
    let! a := chk_i64 (tick + Z.quot i 2) in
    chk_i64 (i * Z.quot a i).

(** src/grid.rs 50-52 *)
Definition grid_default : grid := 60.

(** ** Clipper (src/clipper.rs 20-28), for the integer instances *)
Definition clip (mn mx v : Z) : Z := if v <? mn then mn else if mx <? v then mx else v.

(** src/clipper.rs 20-28 for any [PartialOrd] type, given its [<]; used for f32 *)
Definition clip_gen {T : Type} (lt : T -> T -> bool) (mn mx v : T) : T :=
  if lt v mn then mn else if lt mx v then mx else v.

(** ** Play iteration (src/play_iter.rs) — a u8 *)

(** src/play_iter.rs 6 *)
Definition max_iter : Z := 5.

(** src/play_iter.rs 9-16 *)
Definition play_iter_new (i : Z) : Z :=
  let i := if i <? 1 then 1 else i in
  if max_iter <? i then max_iter else i.

(** src/play_iter.rs 20-27 *)
Definition play_iter_set (cur i : Z) : Z * bool :=
  if (0 <? i) && (i <=? max_iter) then (i, true) else (cur, false).

Definition tempo_eq_dec : forall a b : tempo, {a = b} + {a <> b}.
Proof. repeat decide equality. Defined.
Definition ctrl_eq_dec : forall a b : ctrl_chg, {a = b} + {a <> b}.
Proof. repeat decide equality. Defined.
Definition rhythm_eq_dec : forall a b : rhythm, {a = b} + {a <> b}.
Proof. repeat decide equality. Defined.
