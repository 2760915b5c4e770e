(** Specification of tuplizing and of moving a selection, independent of how the
    code computes them. *)
From Coq Require Import ZArith List Bool Sorted Permutation.
From Verif Require Import Base M_Duration M_Percent M_Scalar M_Bar M_Note M_Models S_Note.
Import ListNotations.
Open Scope Z_scope.

(** The length of a written duration in 256th notes: the plain length and the
    dots, the part of the dots below a 256th rounded up. *)
Definition units (d : duration) : Z :=
  let w := 2 ^ (8 - num_ord (d_num d)) in 2 * w - w / 2 ^ d_dots d.

(** The note without tuplet. *)
Definition plain (d : duration) : duration := mkDur (d_num d) 2 (d_dots d).

(** The shortest plain duration among the notes at tick [t], and its ticks. *)
Definition shortest_at (l : list note) (t : Z) (d : duration) (x : Z) : Prop :=
  (exists n, In n l /\ n_base_tick n = t /\ d = plain (n_duration n)) /\ lasts d x /\
  forall n y, In n l -> n_base_tick n = t -> lasts (plain (n_duration n)) y -> x <= y.

(** The ticks at which there are notes, in order, each with the shortest plain
    duration there. *)
Definition chords (l : list note) (cs : list (Z * duration * Z)) : Prop :=
  StronglySorted (fun a b => fst (fst a) < fst (fst b)) cs /\
  (forall t, In t (map (fun c => fst (fst c)) cs) <-> In t (map n_base_tick l)) /\
  Forall (fun c => shortest_at l (fst (fst c)) (snd (fst c)) (snd c)) cs.

Definition sum (l : list Z) : Z := fold_right Z.add 0 l.

(** The length of all notes together in 256th notes. *)
Definition units_of (l : list note) : Z := sum (map (fun n => units (n_duration n)) l).

Definition is_gcd (g : Z) (l : list Z) : Prop :=
  0 < g /\ (forall u, In u l -> (g | u)) /\ forall h, (forall u, In u l -> (h | u)) -> (h | g).

(** [s] is [l] stably sorted by tick. *)
Definition stable_sorted (l s : list note) : Prop :=
  Permutation l s /\ StronglySorted (fun a b => n_base_tick a <= n_base_tick b) s /\
  forall t, filter (fun n => n_base_tick n =? t) s = filter (fun n => n_base_tick n =? t) l.

(** A note with another place and tuplet number, all else the same. *)
Definition replaced_by (n : note) (tick den : Z) : note :=
  mkNote tick (n_pitch n) (mkDur (d_num (n_duration n)) den (d_dots (n_duration n))) (n_tie n) (n_tied n)
    (n_base_velocity n) (n_tick_trimmer n) (n_duration_trimmer n) (n_velocity_trimmer n) (n_channel n).

(** What [tuplize] leaves alone. *)
Definition essence (n : note) : note := replaced_by n 0 0.

(** ** Moving a selection *)

(** All ticks of a selection. *)
Definition all_ticks (m : models) : list Z :=
  map n_base_tick (m_notes m) ++ map b_tick (m_bars m) ++ map tp_tick (m_tempos m) ++
  map cc_tick (m_dumpers m) ++ map cc_tick (m_softs m).

Definition moved_note (k : Z) (a b : note) : Prop :=
  b = mkNote (n_base_tick a + k) (n_pitch a) (n_duration a) (n_tie a) (n_tied a) (n_base_velocity a)
        (n_tick_trimmer a) (n_duration_trimmer a) (n_velocity_trimmer a) (n_channel a).
Definition moved_bar (k : Z) (a b : bar) : Prop := b = mkBar (b_tick a + k) (b_rhythm a) (b_key a) (b_marks a).
Definition moved_tempo (k : Z) (a b : tempo) : Prop := b = mkTempo (tp_tick a + k) (tp_value a).
Definition moved_ctrl (k : Z) (a b : ctrl_chg) : Prop := b = mkCtrl (cc_tick a + k) (cc_velocity a) (cc_channel a).

(** [m'] is [m] with every element moved by [k] ticks. *)
Definition moved (k : Z) (m m' : models) : Prop :=
  Forall2 (moved_note k) (m_notes m) (m_notes m') /\ Forall2 (moved_bar k) (m_bars m) (m_bars m') /\
  Forall2 (moved_tempo k) (m_tempos m) (m_tempos m') /\ Forall2 (moved_ctrl k) (m_dumpers m) (m_dumpers m') /\
  Forall2 (moved_ctrl k) (m_softs m) (m_softs m').

(** The same, but round the clock: beyond the last tick comes tick 0. *)
Definition wrapped (k x : Z) : Z := (x + k) mod 4294967296.
Definition moved_round (k : Z) (m m' : models) : Prop :=
  Forall2 (fun a b => moved_note (wrapped k (n_base_tick a) - n_base_tick a) a b) (m_notes m) (m_notes m') /\
  Forall2 (fun a b => moved_bar (wrapped k (b_tick a) - b_tick a) a b) (m_bars m) (m_bars m') /\
  Forall2 (fun a b => moved_tempo (wrapped k (tp_tick a) - tp_tick a) a b) (m_tempos m) (m_tempos m') /\
  Forall2 (fun a b => moved_ctrl (wrapped k (cc_tick a) - cc_tick a) a b) (m_dumpers m) (m_dumpers m') /\
  Forall2 (fun a b => moved_ctrl (wrapped k (cc_tick a) - cc_tick a) a b) (m_softs m) (m_softs m').

Definition least (l : list Z) (s : Z) : Prop := In s l /\ forall x, In x l -> s <= x.
