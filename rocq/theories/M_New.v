(** Model of the constructors, defaults and the note builder that the other files
    do not need: src/rhythm.rs, src/tempo.rs, src/octave.rs, src/key.rs,
    src/bar.rs (the macro [repeat_set!], [u8 -> VarIndex]), src/note.rs
    ([Default], the derived builder), src/trimmer.rs ([from_vec]) and src/ctrl_chg.rs. *)
From Coq Require Import ZArith List Bool.
From Verif Require Import Base M_Pitch M_Duration M_Percent M_Scalar M_Bar M_Note.
Import ListNotations.
Open Scope Z_scope.

(** src/rhythm.rs 107-113 *)
Definition rhythm_new (n d : Z) : outcome rhythm :=
  match rhythm_value_of n d with Ok r => Ret r | Err _ => Panic end.

(** src/tempo.rs 92-98 *)
Definition tempo_new (tick v : Z) : outcome tempo :=
  let! x := tempo_value_new v in Ret (mkTempo tick x).

(** src/tempo.rs 14-18, 83-90 *)
Definition tempo_value_default : Z := 120.
Definition tempo_default : tempo := mkTempo 0 tempo_value_default.

(** src/octave.rs 82-87 *)
Definition octave_plus (a b : octave) : outcome octave :=
  let! v := chk_i32 (octave_value a + octave_value b) in
  let! r := octave_value_of v in
  match r with Ok o => Ret o | Err _ => Panic end.

(** src/key.rs 12-30: the named keys, in the order of [ALL] *)
Definition key_all : list key := [0; 1; 2; 3; 4; 5; 6; 7; -1; -2; -3; -4; -5; -6; -7].

(** src/key.rs 60-62 *)
Definition key_is_sharp (k : key) : bool := 0 <? k.

(** src/bar.rs 56-60 *)
Definition var_into (v : Z) : outcome var_index :=
  match var_from_value v with Some i => Ret i | None => Panic end.

(** src/bar.rs 208-221: [repeat_set!(e, es...)] adds [e] to [repeat_set!(es...)],
    and unwraps.  The macro always has a literal argument list; here it is a list. *)
Fixpoint repeat_set (l : list mark) : outcome mark_set :=
  match l with
  | [] => Ret ms_empty
  | m :: l' =>
      let! s := repeat_set l' in
      match try_add s m with Ok s' => Ret s' | Err _ => Panic end
  end.

(** src/velocity.rs 6-10, src/channel.rs 19-23 *)
Definition velocity_default : Z := 64.
Definition channel_default : Z := 0.

(** src/note.rs 229-244, with src/trimmer.rs 17-21 and 130-134 *)
Definition note_default : outcome note :=
  let! p := pitch_default in
  Ret (mkNote 0 p duration_default false false velocity_default trimmer_zero rate_one trimmer_zero
         channel_default).

(** src/note.rs 29-30: [derive(Builder)] with [builder(default)]: one setter for
    each field; the derived [build] never fails because every field has a default.
    The setters called so far are given as a record of options. *)
Record note_builder := mkBuilder {
  nb_tick : option Z;
  nb_pitch : option pitch;
  nb_duration : option duration;
  nb_tie : option bool;
  nb_tied : option bool;
  nb_velocity : option Z;
  nb_tick_trimmer : option trimmer;
  nb_duration_trimmer : option rate_trimmer;
  nb_velocity_trimmer : option trimmer;
  nb_channel : option Z;
}.

(** src/note.rs 29: [NoteBuilder::default()], and [build] *)
Definition builder_new : note_builder := mkBuilder None None None None None None None None None None.
Definition or_else {A : Type} (x : option A) (y : A) : A := match x with Some z => z | None => y end.
Definition note_build (b : note_builder) : outcome note :=
  let! d := note_default in
  Ret (mkNote (or_else (nb_tick b) (n_base_tick d)) (or_else (nb_pitch b) (n_pitch d))
         (or_else (nb_duration b) (n_duration d)) (or_else (nb_tie b) (n_tie d)) (or_else (nb_tied b) (n_tied d))
         (or_else (nb_velocity b) (n_base_velocity d)) (or_else (nb_tick_trimmer b) (n_tick_trimmer d))
         (or_else (nb_duration_trimmer b) (n_duration_trimmer d))
         (or_else (nb_velocity_trimmer b) (n_velocity_trimmer d)) (or_else (nb_channel b) (n_channel d))).

(** src/trimmer.rs 51-56: indexing a vector of fewer than four values panics, further
    values are ignored *)
Definition trimmer_from_vec (v : list Z) : outcome trimmer :=
  match v with
  | a :: b :: c :: d :: _ => trimmer_from_array a b c d
  | _ => Panic
  end.

(** src/trimmer.rs 70-72 *)
Definition trimmer_to_vec (t : trimmer) : list Z := [t_v0 t; t_v1 t; t_v2 t; t_v3 t].

(** src/trimmer.rs 173-178 *)
Definition rate_from_vec (v : list percent) : outcome rate_trimmer :=
  match v with
  | a :: b :: c :: d :: _ => Ret (rate_from_array a b c d)
  | _ => Panic
  end.

(** src/trimmer.rs 180-182 *)
Definition rate_to_vec (r : rate_trimmer) : list percent := [r_v0 r; r_v1 r; r_v2 r; r_v3 r].

(** src/play_iter.rs 30-34 *)
Definition play_iter_default : Z := 1.
