(** Specification of note lengths, shifting in time and the small value types. *)
From Coq Require Import ZArith List Bool.
From Verif Require Import Base M_Pitch M_Duration M_Percent M_Scalar M_Bar M_Note S_Percent.
Import ListNotations.
Open Scope Z_scope.

(** A whole note has four quarters of 240 ticks; every step to the next
    shorter note value halves it. *)
Definition halvings (n : numerator) : Z :=
  match n with
  | Whole => 0 | Half => 1 | Quarter => 2 | N8th => 3 | N16th => 4 | N32nd => 5 | N64th => 6 | N128th => 7
  end.
Definition plain_length (n : numerator) : Z := 960 / 2 ^ halvings n.

(** [dotted n k L]: L is the length of a note value with k dots, i.e.
    plain * (2 - 1/2^k), rounded up to a whole tick. *)
Definition dotted (n : numerator) (k L : Z) : Prop :=
  2 ^ k * (L - 1) < plain_length n * (2 * 2 ^ k - 1) <= 2 ^ k * L.

(** [lasts d t]: t ticks is the dotted length times 2/denominator, rounded down. *)
Definition lasts (d : duration) (t : Z) : Prop :=
  exists L, dotted (d_num d) (d_dots d) L /\ d_den d * t <= 2 * L < d_den d * (t + 1).

(** Notes as the constructors make them. *)
Definition valid_note (n : note) : Prop :=
  u32 (n_base_tick n) /\ 0 <= n_base_velocity n <= 127 /\ 0 <= n_channel n <= 255 /\
  duration_valid (n_duration n) /\
  valid_trimmer (n_tick_trimmer n) /\ valid_trimmer (n_velocity_trimmer n) /\
  obtainable_rate (n_duration_trimmer n).

(** "Same note at another base tick" etc. *)
Definition same_but_tick (n m : note) : Prop :=
  n_pitch m = n_pitch n /\ n_duration m = n_duration n /\ n_tie m = n_tie n /\ n_tied m = n_tied n /\
  n_base_velocity m = n_base_velocity n /\ n_tick_trimmer m = n_tick_trimmer n /\
  n_duration_trimmer m = n_duration_trimmer n /\ n_velocity_trimmer m = n_velocity_trimmer n /\
  n_channel m = n_channel n.
Definition same_but_trim (n m : note) : Prop :=
  n_base_tick m = n_base_tick n /\
  n_pitch m = n_pitch n /\ n_duration m = n_duration n /\ n_tie m = n_tie n /\ n_tied m = n_tied n /\
  n_base_velocity m = n_base_velocity n /\
  n_duration_trimmer m = n_duration_trimmer n /\ n_velocity_trimmer m = n_velocity_trimmer n /\
  n_channel m = n_channel n.

(** The nearest multiple of [g] to [t], ties away from zero. *)
Definition nearest_line (g t s : Z) : Prop :=
  (exists k, s = g * k) /\
  (forall k, Z.abs (t - s) <= Z.abs (t - g * k)) /\
  (forall k, Z.abs (t - s) = Z.abs (t - g * k) -> Z.abs (g * k) <= Z.abs s).

(** Tempo histories. *)
Inductive tempo_op := TUp | TDown | TSaveLoad | TDrag (tick_delta tempo_delta : Z) | TShift (d : Z).

(** One operation; an operation that is refused leaves the tempo as it was. *)
Definition tempo_step (t : tempo) (o : tempo_op) : outcome tempo :=
  match o with
  | TUp => let! r := tempo_up t in Ret (match r with Ok t' => t' | Err _ => t end)
  | TDown => let! r := tempo_down t in Ret (match r with Ok t' => t' | Err _ => t end)
  | TSaveLoad => Ret (mkTempo (tp_tick t) (tempo_value_deser (tp_value t)))
  | TDrag td vd => tempo_drag t td vd
  | TShift d => Ret (match tempo_with_tick_added t d with Ok t' => t' | Err _ => t end)
  end.
Definition tempo_ok (v : Z) : Prop := 1 <= v <= 999.

(** A drag of the tempo value that the editor may make without leaving the range. *)
Definition drag_stays (t : tempo) (o : tempo_op) : Prop :=
  match o with TDrag _ vd => 1 <= tp_value t + vd <= 65535 | _ => True end.

(** all histories: [drag_stays] has to hold at each step *)
Inductive tempo_history : tempo -> list tempo_op -> tempo -> Prop :=
| th_nil t : tempo_history t [] t
| th_cons t o t1 os t2 : drag_stays t o -> tempo_step t o = Ret t1 -> tempo_history t1 os t2 ->
    tempo_history t (o :: os) t2.

(** Play iteration histories *)
Definition play_iter_run (i0 : Z) (l : list Z) : Z := fold_left (fun c i => fst (play_iter_set c i)) l i0.

(** Repeat mark histories. *)
Inductive mark_op := MAdd (m : mark) | MRemove (m : mark) | MRemoveRegions.
(** A refused mark leaves the set unchanged. *)
Definition mark_step (s : mark_set) (o : mark_op) : mark_set :=
  match o with
  | MAdd m => match try_add s m with Ok s' => s' | Err _ => s end
  | MRemove m => ms_remove s m
  | MRemoveRegions => remove_regions s
  end.

Definition is_var (m : mark) : bool :=
  match m with Var1 | Var2 | Var3 | Var4 => true | _ => false end.

(** Marks that contradict each other when they are on the same bar. *)
Definition contradict (a b : mark) : bool :=
  match a, b with
  | Start, Dc | Start, Ds | Dc, Start | Ds, Start => true
  | _, _ =>
      let other x := match x with Start | End | Dc | Ds => true | _ => false end in
      (is_var a && other b) || (other a && is_var b) ||
      (is_var a && is_var b && negb (mark_bit a =? mark_bit b))
  end.

(** The documented table of refusals: which marks may not be on the bar when [m] is added. *)
Definition refused_by (m x : mark) : bool :=
  match m with
  | Start => match x with Dc | Ds => true | _ => is_var x end
  | End => is_var x
  | Dc => match x with Start | Ds | Segno => true | _ => is_var x end
  | Ds => match x with Start => true | _ => is_var x end
  | Fine | Segno | Coda => false
  | Var1 | Var2 | Var3 | Var4 =>
      match x with
      | Start | End | Dc | Ds | Segno => true
      | Var1 | Var2 | Var3 | Var4 => negb (mark_bit m =? mark_bit x)
      | Fine | Coda => false
      end
  end.
