(** Model of the binary form of projects and commands: what [bincode::serialize]
    makes of them and [bincode::deserialize] reads (version 1 with its defaults,
    see DESIGN.md).  Nothing in it is named: integers are stored with the least
    significant byte first, the variants of an enum as their position (u32), an
    [Option] behind a byte 0 or 1, a [Vec] behind its length (u64), the fields of a
    struct one after the other in order of declaration.  A byte is a number from 0
    to 255. *)
From Coq Require Import ZArith List Bool.
From Verif Require Import Base M_Pitch M_Duration M_Percent M_Scalar M_Bar M_Note M_Models M_Store M_Tuple M_Project M_Event M_Text M_Json M_Disk.
Import ListNotations.
Open Scope Z_scope.
Open Scope list_scope.

Definition bytes := list Z.

(** ** The format *)

(** An integer of [n] bytes; negative ones in two's complement. *)
Fixpoint put_int (n : nat) (z : Z) : bytes :=
  match n with O => [] | S n' => z mod 256 :: put_int n' (z / 256) end.
Fixpoint int_of (bs : bytes) : Z :=
  match bs with [] => 0 | b :: bs' => b + 256 * int_of bs' end.

(** A reader takes what it needs from the front; [None] is an error. *)
Definition breader (A : Type) := bytes -> outcome (option (A * bytes)).
Definition bret {A : Type} (a : A) : breader A := fun bs => Ret (Some (a, bs)).
Definition bfail {A : Type} : breader A := fun _ => Ret None.
Definition bthen {A B : Type} (g : breader A) (k : A -> breader B) : breader B :=
  fun bs => let? x := g bs in k (fst x) (snd x).
(** a conversion that may panic *)
Definition bconv {A : Type} (o : outcome A) : breader A := fun bs => let! a := o in Ret (Some (a, bs)).
Notation "'let#' x ':=' e 'in' k" := (bthen e (fun x => k))
  (at level 200, x pattern, e at level 200, k at level 200, right associativity).

Fixpoint get_bytes (n : nat) : breader bytes :=
  match n with
  | O => bret []
  | S n' => fun bs => match bs with
                      | [] => Ret None
                      | b :: bs' => let? x := get_bytes n' bs' in Ret (Some (b :: fst x, snd x))
                      end
  end.
Definition get_unsigned (n : nat) : breader Z := let# l := get_bytes n in bret (int_of l).
Definition get_signed (n : nat) : breader Z :=
  let# z := get_unsigned n in
  bret (if z <? 2 ^ (8 * Z.of_nat n - 1) then z else z - 2 ^ (8 * Z.of_nat n)).

Definition put_bool (b : bool) : bytes := [if b then 1 else 0].
Definition get_bool : breader bool :=
  let# z := get_unsigned 1 in if z =? 0 then bret false else if z =? 1 then bret true else bfail.

(** An enum of unit variants: its place among them *)
Definition put_variant (i : Z) : bytes := put_int 4 i.
Definition get_variant {A : Type} (all : list A) : breader A :=
  let# i := get_unsigned 4 in
  match nth_error all (Z.to_nat i) with Some a => bret a | None => bfail end.

Definition put_option {A : Type} (w : A -> bytes) (o : option A) : bytes :=
  match o with None => [0] | Some a => 1 :: w a end.
Definition get_option {A : Type} (g : breader A) : breader (option A) :=
  let# z := get_unsigned 1 in
  if z =? 0 then bret None else if z =? 1 then let# a := g in bret (Some a) else bfail.

Fixpoint get_times {A : Type} (n : nat) (g : breader A) : breader (list A) :=
  match n with O => bret [] | S n' => let# a := g in let# l := get_times n' g in bret (a :: l) end.
Definition put_vec {A : Type} (w : A -> bytes) (l : list A) : bytes :=
  put_int 8 (Z.of_nat (length l)) ++ concat (map w l).
Definition get_vec {A : Type} (g : breader A) : breader (list A) :=
  let# n := get_unsigned 8 in get_times (Z.to_nat n) g.
(** an array of four: no length *)
Definition get_four {A : Type} (g : breader A) : breader (A * A * A * A) :=
  let# a := g in let# b := g in let# c := g in let# d := g in bret (a, b, c, d).

(** ** The types *)

(** src/solfa.rs 3-7 *)
Definition solfa_place (s : solfa) : Z :=
  match s with SC => 0 | SD => 1 | SE => 2 | SF => 3 | SG => 4 | SA => 5 | SB => 6 end.
(** src/octave.rs 19-23 *)
Definition octave_place (o : octave) : Z :=
  match o with
  | OM2 => 0 | OM1 => 1 | O0 => 2 | O1 => 3 | O2 => 4 | O3 => 5 | O4 => 6 | O5 => 7 | O6 => 8 | O7 => 9 | O8 => 10
  end.
(** src/sharp_flat.rs 1-10 *)
Definition sharp_flat_place (a : sharp_flat) : Z :=
  match a with Sharp => 0 | DoubleSharp => 1 | Flat => 2 | DoubleFlat => 3 | Natural => 4 | NoAccidental => 5 end.

(** src/pitch.rs 31-63 *)
Definition put_pitch (p : pitch) : bytes :=
  put_variant (solfa_place (p_solfa p)) ++ put_variant (octave_place (p_octave p)) ++
  put_variant (sharp_flat_place (p_sharp_flat p)).
Definition get_pitch : breader pitch :=
  let# s := get_variant [SC; SD; SE; SF; SG; SA; SB] in
  let# o := get_variant [OM2; OM1; O0; O1; O2; O3; O4; O5; O6; O7; O8] in
  let# a := get_variant [Sharp; DoubleSharp; Flat; DoubleFlat; Natural; NoAccidental] in
  bconv (pitch_new s o a).

(** src/duration.rs 3-14 *)
Definition numerator_place (n : numerator) : Z :=
  match n with
  | Whole => 0 | Half => 1 | Quarter => 2 | N8th => 3 | N16th => 4 | N32nd => 5 | N64th => 6 | N128th => 7
  end.
(** src/duration.rs 132-138, 51-69, 91-93 *)
Definition put_duration (d : duration) : bytes :=
  put_variant (numerator_place (d_num d)) ++ put_int 1 (d_den d) ++ put_int 1 (d_dots d).
Definition get_duration : breader duration :=
  let# n := get_variant [Whole; Half; Quarter; N8th; N16th; N32nd; N64th; N128th] in
  let# d := get_unsigned 1 in
  let# k := get_unsigned 1 in
  bret (mkDur n (denominator_deser d) k).

(** src/trimmer.rs 8-32 *)
Definition put_trimmer (t : trimmer) : bytes :=
  put_int 2 (t_v0 t) ++ put_int 2 (t_v1 t) ++ put_int 2 (t_v2 t) ++ put_int 2 (t_v3 t).
Definition get_trimmer : breader trimmer :=
  let# v := get_four (get_signed 2) in
  let '(a, b, c, d) := v in bconv (trimmer_from_array a b c d).

(** src/trimmer.rs 121-145, src/percent.rs 4-8 *)
Definition put_rate (r : rate_trimmer) : bytes :=
  put_int 2 (r_v0 r) ++ put_int 2 (r_v1 r) ++ put_int 2 (r_v2 r) ++ put_int 2 (r_v3 r).
Definition get_rate : breader rate_trimmer :=
  let# v := get_four (get_unsigned 2) in
  let '(a, b, c, d) := v in bret (rate_from_array a b c d).

(** src/velocity.rs 1-25 *)
Definition get_velocity : breader Z := let# v := get_unsigned 1 in bret (velocity_new v).

(** src/note.rs 29-43 *)
Definition put_note (n : note) : bytes :=
  put_int 4 (n_base_tick n) ++ put_pitch (n_pitch n) ++ put_duration (n_duration n) ++
  put_bool (n_tie n) ++ put_bool (n_tied n) ++ put_int 1 (n_base_velocity n) ++
  put_trimmer (n_tick_trimmer n) ++ put_rate (n_duration_trimmer n) ++ put_trimmer (n_velocity_trimmer n) ++
  put_int 1 (n_channel n).
Definition get_note : breader note :=
  let# t := get_unsigned 4 in
  let# p := get_pitch in
  let# d := get_duration in
  let# tie := get_bool in
  let# tied := get_bool in
  let# v := get_velocity in
  let# st := get_trimmer in
  let# dt := get_rate in
  let# vt := get_trimmer in
  let# c := get_unsigned 1 in
  bret (mkNote t p d tie tied v st dt vt c).

(** src/rhythm.rs 8-10, 49-53, 100-105 *)
Definition rhythm_den_place (d : rhythm_den) : Z :=
  match d with D2 => 0 | D4 => 1 | D8 => 2 | D16 => 3 | D32 => 4 | D64 => 5 end.
Definition put_rhythm (r : rhythm) : bytes := put_int 1 (rh_num r) ++ put_variant (rhythm_den_place (rh_den r)).
Definition get_rhythm : breader rhythm :=
  let# n := get_unsigned 1 in
  let# d := get_variant [D2; D4; D8; D16; D32; D64] in
  bret (mkRhythm n d).

(** src/key.rs 7-9 *)
Definition put_key (k : key) : bytes := put_int 1 k.
Definition get_key : breader key := get_signed 1.

(** src/bar.rs 98-102: a u16 for eleven variants; unknown bits are dropped when reading *)
Definition put_marks (s : mark_set) : bytes := put_int 2 s.
Definition get_marks : breader mark_set := let# v := get_unsigned 2 in bret (Z.land v (ms_of all_marks)).

(** src/bar.rs 223-230 *)
Definition put_bar (b : bar) : bytes :=
  put_int 4 (b_tick b) ++ put_option put_rhythm (b_rhythm b) ++ put_option put_key (b_key b) ++ put_marks (b_marks b).
Definition get_bar : breader bar :=
  let# t := get_unsigned 4 in
  let# r := get_option get_rhythm in
  let# k := get_option get_key in
  let# m := get_marks in
  bret (mkBar t r k m).

(** src/tempo.rs 9-29, 76-81 *)
Definition put_tempo (t : tempo) : bytes := put_int 4 (tp_tick t) ++ put_int 2 (tp_value t).
Definition get_tempo : breader tempo :=
  let# t := get_unsigned 4 in
  let# v := get_unsigned 2 in
  bret (mkTempo t (tempo_value_deser v)).

(** src/ctrl_chg.rs 4-10 *)
Definition put_ctrl (c : ctrl_chg) : bytes :=
  put_int 4 (cc_tick c) ++ put_int 1 (cc_velocity c) ++ put_int 1 (cc_channel c).
Definition get_ctrl : breader ctrl_chg :=
  let# t := get_unsigned 4 in
  let# v := get_velocity in
  let# c := get_unsigned 1 in
  bret (mkCtrl t v c).

(** src/models.rs 7-14 *)
Definition put_models (m : models) : bytes :=
  put_vec put_note (m_notes m) ++ put_vec put_bar (m_bars m) ++ put_vec put_tempo (m_tempos m) ++
  put_vec put_ctrl (m_dumpers m) ++ put_vec put_ctrl (m_softs m).
Definition get_models : breader models :=
  let# n := get_vec get_note in
  let# b := get_vec get_bar in
  let# t := get_vec get_tempo in
  let# d := get_vec get_ctrl in
  let# s := get_vec get_ctrl in
  bret (mkModels n b t d s).

(** src/project.rs 69-70, 82-88; src/grid.rs 7-11 *)
Definition put_project (p : project) : bytes :=
  let e := export p in
  put_rhythm (ex_rhythm e) ++ put_key (ex_key e) ++ put_int 4 (ex_grid e) ++ put_models (ex_models e).
Definition get_exported : breader exported :=
  let# r := get_rhythm in
  let# k := get_key in
  let# g := get_unsigned 4 in
  let# m := get_models in
  bret (mkExported r k g m).

(** src/project.rs 42-49 *)
Definition put_metadata (m : metadata) : bytes := put_option put_bool (md_select m) ++ put_bool (md_dragged m).
Definition get_metadata : breader metadata :=
  let# s := get_option get_bool in
  let# d := get_bool in
  bret (mkMeta s d).

(** src/project.rs 409-415; see [write_cmd] *)
Definition put_cmd (cm : cmd * metadata) : bytes :=
  let (c, m) := cm in
  match c with
  | SetRhythm old new => put_variant 0 ++ put_rhythm old ++ put_rhythm new
  | SetKey old new => put_variant 1 ++ put_key old ++ put_key new
  | SetGrid old new => put_variant 2 ++ put_int 4 old ++ put_int 4 new
  | ModelChanged added removed => put_variant 3 ++ put_models added ++ put_models removed ++ put_metadata m
  end.
Definition get_cmd : breader (cmd * metadata) :=
  let# i := get_unsigned 4 in
  if i =? 0 then let# a := get_rhythm in let# b := get_rhythm in bret (SetRhythm a b, meta_new)
  else if i =? 1 then let# a := get_key in let# b := get_key in bret (SetKey a b, meta_new)
  else if i =? 2 then let# a := get_unsigned 4 in let# b := get_unsigned 4 in bret (SetGrid a b, meta_new)
  else if i =? 3 then
    let# a := get_models in let# r := get_models in let# m := get_metadata in bret (ModelChanged a r, m)
  else bfail.

(** [bincode::deserialize]: further bytes are ignored. *)
Definition from_bytes {A : Type} (g : breader A) (bs : bytes) : outcome (option A) :=
  let? x := g bs in Ret (Some (fst x)).
(** src/project.rs 90-113 *)
Definition bin_project (bs : bytes) : outcome (option project) :=
  let? e := from_bytes get_exported bs in Ret (Some (import e)).

(** Reopening from the bytes of the stored project and of the commands stored since
    then, oldest first; see [reopen]. *)
Fixpoint from_bytes_all {A : Type} (g : breader A) (l : list bytes) : outcome (option (list A)) :=
  match l with
  | [] => Ret (Some [])
  | bs :: l' => let? a := from_bytes g bs in let? m := from_bytes_all g l' in Ret (Some (a :: m))
  end.
Definition bin_reopen (snapshot : bytes) (log : list bytes) : outcome (option reopened) :=
  let? e := from_bytes get_exported snapshot in
  let? cs := from_bytes_all get_cmd log in
  Ret (Some (mkReopened (replay (import e) (map fst cs)) cs
    (fold_left (fun v cm => ev_app v (redo_events (fst cm) (snd cm))) cs (import_events e)))).
