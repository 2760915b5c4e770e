(** Model of src/note.rs. *)
From Coq Require Import ZArith List Bool.
From Verif Require Import Base M_Pitch M_Duration M_Percent M_Scalar.
Import ListNotations.
Open Scope Z_scope.

(** src/note.rs 32-43 *)
Record note := mkNote {
  n_base_tick : Z;          (* u32 *)
  n_pitch : pitch;
  n_duration : duration;
  n_tie : bool;
  n_tied : bool;
  n_base_velocity : Z;      (* Velocity *)
  n_tick_trimmer : trimmer;
  n_duration_trimmer : rate_trimmer;
  n_velocity_trimmer : trimmer;
  n_channel : Z;            (* Channel *)
}.

(** src/note.rs 73-76; the sum is exact in i64 *)
Definition note_start_tick (n : note) : Z :=
  let tick := n_base_tick n + t_sum (n_tick_trimmer n) in
  if tick <? 0 then 0 else as_u32 tick.

(** src/note.rs 79-81 *)
Definition note_tick_len (n : note) : outcome Z :=
  let! l := tick_length (n_duration n) in rate_apply (n_duration_trimmer n) l.

(** field updates, [Self { field, ..*self }] *)
Definition set_base_tick (n : note) (t : Z) : note :=
  mkNote t (n_pitch n) (n_duration n) (n_tie n) (n_tied n) (n_base_velocity n)
    (n_tick_trimmer n) (n_duration_trimmer n) (n_velocity_trimmer n) (n_channel n).
Definition set_pitch (n : note) (p : pitch) : note :=
  mkNote (n_base_tick n) p (n_duration n) (n_tie n) (n_tied n) (n_base_velocity n)
    (n_tick_trimmer n) (n_duration_trimmer n) (n_velocity_trimmer n) (n_channel n).
Definition set_duration (n : note) (d : duration) : note :=
  mkNote (n_base_tick n) (n_pitch n) d (n_tie n) (n_tied n) (n_base_velocity n)
    (n_tick_trimmer n) (n_duration_trimmer n) (n_velocity_trimmer n) (n_channel n).
Definition set_tie_tied (n : note) (a b : bool) : note :=
  mkNote (n_base_tick n) (n_pitch n) (n_duration n) a b (n_base_velocity n)
    (n_tick_trimmer n) (n_duration_trimmer n) (n_velocity_trimmer n) (n_channel n).
Definition set_tick_trimmer (n : note) (t : trimmer) : note :=
  mkNote (n_base_tick n) (n_pitch n) (n_duration n) (n_tie n) (n_tied n) (n_base_velocity n)
    t (n_duration_trimmer n) (n_velocity_trimmer n) (n_channel n).

(** src/note.rs 83-90 *)
Definition note_up_score_offset (n : note) : outcome (result note pitch_error) :=
  let! r := pitch_up (n_pitch n) in Ret (res_map (set_pitch n) r).

(** src/note.rs 92-99 *)
Definition note_down_score_offset (n : note) : outcome (result note pitch_error) :=
  let! r := pitch_down (n_pitch n) in Ret (res_map (set_pitch n) r).

Definition num_eqb (a b : numerator) : bool := num_ord a =? num_ord b.

(** src/note.rs 101-106 *)
Definition note_with_duration (n : note) (d : duration) : note := set_duration n d.

(** src/note.rs 108-118 *)
Definition note_with_duration_numerator (n : note) (x : numerator) : note :=
  set_duration n
    (if negb (num_eqb (d_num (n_duration n)) x) then with_numerator (n_duration n) x else n_duration n).

(** src/note.rs 120-138 *)
Definition note_with_tick_added (n : note) (d : Z) (is_trim : bool) : outcome (result note tick_error) :=
  let tick := n_base_tick n + d in
  if tick <? 0 then Ret (Err Minus)
  else if is_trim then
    let! t := trimmer_added (n_tick_trimmer n) d in Ret (Ok (set_tick_trimmer n t))
  else Ret (Ok (set_base_tick n (as_u32 tick))).

(** src/note.rs 140-148 *)
Definition note_drag (n : note) (d so_delta : Z) : outcome note :=
  let tick := n_base_tick n + d in
  let! r := pitch_with_score_offset_delta (n_pitch n) so_delta in
  let! p := unwrap r in
  Ret (set_pitch (set_base_tick n (as_u32 tick)) p).

(** src/note.rs 150-162; the error carries the rejected count *)
Definition note_add_dots (n : note) (k : Z) : outcome (result note Z) :=
  let! new_dots := chk_i32 (d_dots (n_duration n) + k) in
  if (new_dots <? 0) || (max_dot <? new_dots) then Ret (Err new_dots)
  else
    let! d := unwrap_opt (dots_from_value (as_u8 new_dots)) in
    Ret (Ok (set_duration n (with_dots (n_duration n) d))).

(** src/note.rs 164-189 *)
Definition note_toggle_sharp (n : note) : result note pitch_error :=
  res_map (set_pitch n) (pitch_toggle_sharp (n_pitch n)).
Definition note_toggle_flat (n : note) : result note pitch_error :=
  res_map (set_pitch n) (pitch_toggle_flat (n_pitch n)).
Definition note_toggle_natural (n : note) : result note pitch_error :=
  res_map (set_pitch n) (pitch_toggle_natural (n_pitch n)).

(** src/note.rs 191-213 *)
Definition note_toggle_tie (n : note) : note :=
  match n_tie n, n_tied n with
  | false, false => set_tie_tied n true false
  | true, false => set_tie_tied n false true
  | false, true => set_tie_tied n true true
  | true, true => set_tie_tied n false false
  end.

(** src/note.rs 220-226; the i32 sum cannot overflow for a u8 and four i16 but
    is checked anyway *)
Definition note_velocity (n : note) : outcome Z :=
  let! v := chk_i32 (n_base_velocity n + t_sum (n_velocity_trimmer n)) in
  Ret (if v <? 0 then 0 else if 127 <? v then 127 else velocity_new (as_u8 v)).

(** src/note.rs 251-253: whole note with seven dots, times 2.0 as u32 *)
Definition longest_tick_len : outcome Z :=
  let! l := tick_length (mkDur Whole 2 7) in
  chk_u32 (l * f32_as_i32 (percent_to_f32 percent_max)).

Definition note_eq_dec : forall a b : note, {a = b} + {a <> b}.
Proof. repeat decide equality. Defined.
