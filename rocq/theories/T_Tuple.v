(** Property theorems about moving selections and tuplizing: C34, C39. *)
From Coq Require Import ZArith List Bool Lia Sorted Permutation.
From Verif Require Import Base M_Pitch M_Duration M_Percent M_Scalar M_Bar M_Note M_Tuple M_Models S_Percent S_Note S_Tuple
  P_Base P_Note P_Tuple.
Import ListNotations.
Open Scope Z_scope.

(** * C34 *)

(** A non-empty selection is moved as a whole so that its first element comes to
    the given tick, provided that its last tick stays in range. *)
Theorem C34_rigid : forall m s t, Forall u32 (all_ticks m) -> least (all_ticks m) s -> u32 t ->
  (forall x, In x (all_ticks m) -> x + (t - s) <= u32_max) ->
  moved (t - s) m (move_to_tick m t) /\ least (all_ticks (move_to_tick m t)) t.
Proof.
  intros m s t U L T F. pose proof (move_spec m s t U L T F) as M. split; auto.
  replace t with (s + (t - s)) at 2 by lia. exact (moved_least _ _ _ _ M L).
Qed.
Print Assumptions C34_rigid.

(** Without the condition: ticks beyond the last one start again at 0. *)
Theorem C34_round : forall m s t, Forall u32 (all_ticks m) -> least (all_ticks m) s ->
  moved_round (t - s) m (move_to_tick m t).
Proof. exact move_round. Qed.
Print Assumptions C34_round.

Example C34_round_case : let m := mkModels [] [] [mkTempo 500 90; mkTempo 800 60] [mkCtrl 600 5 0] [] in
  Forall u32 (all_ticks m) /\ least (all_ticks m) 500 /\
  move_to_tick m (u32_max - 100) = mkModels [] [] [mkTempo (u32_max - 100) 90; mkTempo 199 60] [mkCtrl u32_max 5 0] [].
Proof.
  cbv zeta. split; [repeat constructor; vm_compute; congruence|].
  split; [split; [cbn; tauto|cbn; intros x H; intuition lia]|vm_compute; reflexivity].
Qed.

Theorem C34_idempotent : forall m t, Forall u32 (all_ticks m) -> u32 t ->
  (forall s x, least (all_ticks m) s -> In x (all_ticks m) -> x + (t - s) <= u32_max) ->
  move_to_tick (move_to_tick m t) t = move_to_tick m t.
Proof. exact move_idem. Qed.
Print Assumptions C34_idempotent.

Example C34_idempotent_case : let m := mkModels [] [] [mkTempo 500 90; mkTempo 800 60] [mkCtrl 600 5 0] [] in
  Forall u32 (all_ticks m) /\ u32 1000 /\
  (forall s x, least (all_ticks m) s -> In x (all_ticks m) -> x + (1000 - s) <= u32_max) /\ move_to_tick m 1000 <> m.
Proof.
  cbv zeta. split; [repeat constructor; vm_compute; congruence|]. split; [split; vm_compute; congruence|].
  split; [|vm_compute; congruence]. intros s x [I _] H. cbn in I, H. unfold u32_max. intuition lia.
Qed.

Theorem C34_empty : forall m t, all_ticks m = [] -> move_to_tick m t = m.
Proof. exact move_empty. Qed.
Print Assumptions C34_empty.

Example C34_empty_case : all_ticks models_empty = [] /\ move_to_tick models_empty 480 = models_empty.
Proof.
  split; reflexivity.
Qed.

(** Otherwise ticks wrap around. *)
Theorem C34_far_refuted : exists m t, Forall u32 (all_ticks m) /\ u32 t /\
  all_ticks m = [0; 1000] /\ all_ticks (move_to_tick m t) = [t; 0].
Proof.
  exists (mkModels [] [mkBar 0 None None 0] [mkTempo 1000 120] [] []), 4294966296.
  split; [repeat constructor; unfold u32, u32_max; cbn; lia|]. split; [unfold u32, u32_max; lia|]. split; vm_compute; reflexivity.
Qed.
Print Assumptions C34_far_refuted.

Example C34_example :
  let m := mkModels [] [mkBar 700 None (Some 1) 2] [mkTempo 500 90; mkTempo 800 60] [mkCtrl 600 5 0] [] in
  least (all_ticks m) 500 /\ (forall x, In x (all_ticks m) -> x + (1000 - 500) <= u32_max) /\
  move_to_tick m 1000 = mkModels [] [mkBar 1200 None (Some 1) 2] [mkTempo 1000 90; mkTempo 1300 60] [mkCtrl 1100 5 0] [].
Proof.
  cbv zeta. split.
  - split; [cbn; auto|]. cbn. intros x H. intuition lia.
  - split; [cbn; unfold u32_max; intros x H; intuition lia|]. vm_compute. reflexivity.
Qed.

(** * C39 *)

Definition valid_notes (l : list note) : Prop := Forall (fun n => duration_valid (n_duration n)) l.

(** As many notes, the same but for place and tuplet number; in order of tick;
    the first one stays. *)
Theorem C39_keeps : forall notes out, notes <> [] -> valid_notes notes -> tuplize notes = Ret out ->
  Permutation (map essence out) (map essence notes) /\
  StronglySorted (fun a b => n_base_tick a <= n_base_tick b) out /\
  (forall s, least (map n_base_tick notes) s -> least (map n_base_tick out) s).
Proof. exact tuplize_keeps. Qed.
Print Assumptions C39_keeps.

(** Where the notes go.  Notes are taken in order of tick.  With [g] the greatest
    common divisor of the lengths in 256th notes and [unit] and [tick] the total
    length of the chords (the shortest note of each) in 256th notes and in ticks,
    the tuplet number is [unit / g]; the whole group lasts twice [tick] over this
    number, and a note starts after the part of it that belongs to the notes
    before it.  The number is reduced modulo 256. *)
Theorem C39_places : forall notes out, notes <> [] -> valid_notes notes -> tuplize notes = Ret out ->
  exists n0 r cs g, stable_sorted notes (n0 :: r) /\ chords notes cs /\ is_gcd g (map (fun n => units (n_duration n)) notes) /\
    let unit := sum (map (fun c => units (snd (fst c))) cs) in
    let tick := sum (map snd cs) in
    (unit / g < 2 -> out = notes) /\
    (2 <= unit / g ->
       length out = length notes /\
       forall i n, nth_error (n0 :: r) i = Some n ->
         nth_error out i = Some (replaced_by n
           (n_base_tick n0 + tick / (unit / g) * 2 * sum (map (fun n => units (n_duration n)) (firstn i (n0 :: r))) / unit)
           ((unit / g) mod 256)) /\ 2 <= (unit / g) mod 256).
Proof. exact tuplize_spec. Qed.
Print Assumptions C39_places.

(** Equally long notes at different ticks are spread evenly over twice their length. *)
Theorem C39_even : forall notes d len, (2 <= length notes <= 255)%nat -> valid_notes notes ->
  NoDup (map n_base_tick notes) -> duration_valid d -> Forall (fun n => plain (n_duration n) = plain d) notes ->
  lasts (plain d) len -> (forall n, In n notes -> 0 <= n_base_tick n) ->
  (forall s, least (map n_base_tick notes) s -> s + 3826 <= u32_max) ->
  exists out s, tuplize notes = Ret out /\ length out = length notes /\ stable_sorted notes s /\
    forall i n n0, nth_error s i = Some n -> nth_error s 0 = Some n0 ->
      nth_error out i = Some (replaced_by n (n_base_tick n0 + 2 * len * Z.of_nat i / Z.of_nat (length notes)) (Z.of_nat (length notes))).
Proof.
  intros notes d len L V ND Vd SAME LA T0 B. apply plain_lasts in LA; auto. subst len.
  exact (tuplize_even notes d L V ND SAME Vd T0 B).
Qed.
Print Assumptions C39_even.

(** It returns for up to 2048 notes whose tuplet number is at most 255, not too
    close to the end of the tick range. *)
Theorem C39_returns : forall notes, notes <> [] -> valid_notes notes -> Z.of_nat (length notes) <= 2048 ->
  (forall n, In n notes -> 0 <= n_base_tick n) ->
  (forall s, least (map n_base_tick notes) s -> s + 2048 * Z.of_nat (length notes) <= u32_max) ->
  (forall cs g, chords notes cs -> is_gcd g (map (fun n => units (n_duration n)) notes) ->
     sum (map (fun c => units (snd (fst c))) cs) / g <= 255) ->
  exists out, tuplize notes = Ret out.
Proof. exact tuplize_returns. Qed.
Print Assumptions C39_returns.

(** With as much room it panics exactly if the tuplet number is at least 2 and, cut to
    eight bits, 0 or 1. *)
Theorem C39_panics : forall notes, notes <> [] -> valid_notes notes -> Z.of_nat (length notes) <= 2048 ->
  (forall n, In n notes -> 0 <= n_base_tick n) ->
  (forall s, least (map n_base_tick notes) s -> s + 2048 * Z.of_nat (length notes) <= u32_max) ->
  exists cs g, chords notes cs /\ is_gcd g (map (fun n => units (n_duration n)) notes) /\
    let q := sum (map (fun c => units (snd (fst c))) cs) / g in
    (tuplize notes = Panic <-> 2 <= q /\ q mod 256 < 2) /\ tuplize notes <> Hang.
Proof.
  intros notes NE V B0 T0 B1.
  destruct (tuplize_panics notes NE V B0 T0 B1) as (cs & g & C & G & [(E & A & B)|(out & E & A)]);
    exists cs, g; (split; [exact C|split; [exact G|]]); cbv zeta in *; rewrite E; (split; [|discriminate]); split;
    try discriminate; auto; lia.
Qed.
Print Assumptions C39_panics.

(** Any number of notes, anywhere: it panics exactly if the tuplet number is at least
    2 and either, cut to eight bits, 0 or 1, or one of these is beyond 32 bits: the
    length of the chords in ticks, of all notes in 256th notes, the length of the
    group times what comes before the last note, the place of the last note. *)
Theorem C39_exact : forall notes, notes <> [] -> valid_notes notes -> (forall n, In n notes -> 0 <= n_base_tick n) ->
  exists n0 r cs g, stable_sorted notes (n0 :: r) /\ chords notes cs /\ is_gcd g (map (fun n => units (n_duration n)) notes) /\
    let unit := sum (map (fun c => units (snd (fst c))) cs) in
    let tick := sum (map snd cs) in
    let q := unit / g in
    let before := units_of (removelast (n0 :: r)) in
    tuplize notes <> Hang /\
    (tuplize notes = Panic <-> 2 <= q /\
      (q mod 256 < 2 \/ u32_max < tick \/ u32_max < units_of notes \/ u32_max < tick / q * 2 * before \/
       u32_max < n_base_tick n0 + tick / q * 2 * before / unit)).
Proof. exact tuplize_exact. Qed.
Print Assumptions C39_exact.

Definition tnote (t : Z) (d : duration) : note :=
  mkNote t (match pitch_new SC O4 NoAccidental with Ret p => p | _ => mkPitch SC O4 NoAccidental 0 0 end) d
    false false 64 trimmer_zero rate_one trimmer_zero 0.

(** The notes of a chord do not stay together. *)
Theorem C39_chord_refuted : exists notes out, valid_notes notes /\ tuplize notes = Ret out /\
  map n_base_tick notes = [0; 0; 240] /\ map n_base_tick out = [0; 240; 480].
Proof.
  exists [tnote 0 (mkDur Quarter 2 0); tnote 0 (mkDur Quarter 2 0); tnote 240 (mkDur Quarter 2 0)].
  eexists. split; [repeat constructor; cbn; lia|]. split; [vm_compute; reflexivity|]. split; vm_compute; reflexivity.
Qed.
Print Assumptions C39_chord_refuted.

(** More than 255 units: 256 equal notes panic; a dotted 128th and a whole note
    become a tuplet of 3 instead of 259. *)
Theorem C39_large_refuted :
  (exists notes, length notes = 256%nat /\ valid_notes notes /\ tuplize notes = Panic) /\
  (exists notes out, valid_notes notes /\ tuplize notes = Ret out /\ map units (map n_duration notes) = [3; 256] /\
     map (fun n => d_den (n_duration n)) out = [3; 3]).
Proof.
  split.
  - exists (map (fun i => tnote (Z.of_nat i) (mkDur Quarter 2 0)) (seq 0 256)).
    split; [rewrite map_length, seq_length; reflexivity|]. split; [|vm_compute; reflexivity].
    apply Forall_forall. intros n I. apply in_map_iff in I. destruct I as [i [<- _]]. cbn. split; cbn; lia.
  - exists [tnote 0 (mkDur N128th 2 1); tnote 10 (mkDur Whole 2 0)]. eexists.
    split; [repeat constructor; cbn; lia|]. split; [vm_compute; reflexivity|]. split; vm_compute; reflexivity.
Qed.
Print Assumptions C39_large_refuted.

(** A triplet given in the wrong order; a dotted note with a plain one. *)
(** Two whole notes at the end of the time line. *)
Example C39_exact_case : let w := mkDur Whole 2 0 in
  valid_notes [tnote (u32_max - 1) w; tnote u32_max w] /\ tuplize [tnote (u32_max - 1) w; tnote u32_max w] = Panic /\
  tuplize [tnote (u32_max - 959) w; tnote u32_max w] = Panic /\
  exists out, tuplize [tnote (u32_max - 960) w; tnote u32_max w] = Ret out.
Proof.
  split; [repeat constructor; cbn; lia|]. split; [vm_compute; reflexivity|]. split; [vm_compute; reflexivity|].
  eexists. vm_compute. reflexivity.
Qed.

Example C39_example :
  let q := mkDur Quarter 2 0 in
  (exists out, tuplize [tnote 960 q; tnote 480 q; tnote 720 q] = Ret out /\
    map n_base_tick out = [480; 640; 800] /\ map n_duration out = [mkDur Quarter 3 0; mkDur Quarter 3 0; mkDur Quarter 3 0]) /\
  (exists out, tuplize [tnote 0 (mkDur Quarter 2 1); tnote 360 (mkDur N8th 2 0)] = Ret out /\
    map n_base_tick out = [0; 180] /\ map n_duration out = [mkDur Quarter 4 1; mkDur N8th 4 0]) /\
  valid_notes [tnote 960 q; tnote 480 q; tnote 720 q] /\ NoDup [960; 480; 720] /\ lasts (plain q) 240.
Proof.
  cbv zeta. split; [eexists; split; [vm_compute; reflexivity|split; vm_compute; reflexivity]|].
  split; [eexists; split; [vm_compute; reflexivity|split; vm_compute; reflexivity]|].
  split; [repeat constructor; cbn; lia|]. split; [repeat constructor; cbn; intuition lia|].
  apply plain_lasts; [split; cbn; lia|reflexivity].
Qed.

Example C39_returns_case : let q := mkDur Quarter 2 0 in let notes := [tnote 720 q; tnote 480 q] in
  notes <> [] /\ valid_notes notes /\ (forall s, least (map n_base_tick notes) s -> s + 2048 * Z.of_nat (length notes) <= u32_max) /\
  (forall cs g, chords notes cs -> is_gcd g (map (fun n => units (n_duration n)) notes) ->
     sum (map (fun c => units (snd (fst c))) cs) / g <= 255).
Proof.
  cbv zeta. split; [discriminate|]. split; [repeat constructor; cbn; lia|].
  split; [intros s [I _]; cbn in I; unfold u32_max; cbn [length Z.of_nat Pos.of_succ_nat Pos.succ]; intuition lia|].
  intros cs g (S & T & F) (G & _ & D).
  assert (D' : 64 <= g). { apply Z.divide_pos_le; [exact G|]. apply D. intros u [<-|[<-|[]]]; exists 1; reflexivity. }
  assert (U : forall c, In c cs -> units (snd (fst c)) = 64).
  { intros c I. rewrite Forall_forall in F. destruct (F c I) as ((n & N & _ & ->) & _). destruct N as [<-|[<-|[]]]; reflexivity. }
  assert (L : (length cs <= 2)%nat).
  { replace (length cs) with (length (map (fun c => fst (fst c)) cs)) by apply map_length.
    apply (NoDup_incl_length (l' := [720; 480])).
    - clear - S. induction S as [|c l S IH A]; cbn; constructor; [|exact IH].
      intro I. apply in_map_iff in I as (d & E & I). rewrite Forall_forall in A. specialize (A d I). lia.
    - intros t I. apply T in I. exact I. }
  assert (B : sum (map (fun c => units (snd (fst c))) cs) <= 128).
  { destruct cs as [|a [|b [|]]]; cbn [map sum fold_right length] in *; try lia;
      rewrite ?(U a) by (cbn; tauto); rewrite ?(U b) by (cbn; tauto); lia. }
  apply Z.div_le_upper_bound; lia.
Qed.
