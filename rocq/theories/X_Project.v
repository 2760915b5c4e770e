(** The repository's own unit tests of projects, of the clipboard and of the undo
    buffer, replayed on the model (see X_Repeat for what these are for). *)
From Coq Require Import ZArith List Bool String.
From Verif Require Import Base M_Pitch M_Duration M_Percent M_Scalar M_Bar M_Note M_New M_Store M_Tuple M_Models M_Project M_Undo M_Text M_Json M_Bin.
Import ListNotations.
Open Scope Z_scope.

Ltac run := vm_compute; reflexivity.
Ltac runs := repeat match goal with |- _ /\ _ => split end; run.

(** A session on a new project *)
Inductive step := Do (e : edit) | Un | Re.
Definition step_run (s : step) (h : history) : outcome history :=
  match s with Do e => history_edit h e | Un => Ret (history_undo h) | Re => Ret (history_redo h) end.
Fixpoint session (l : list step) (h : history) : outcome history :=
  match l with [] => Ret h | s :: l => let! h := step_run s h in session l h end.
Definition model_after (l : list step) : outcome project :=
  let! h := session l (history_new project_default 1000) in Ret (h_model h).
Definition seen {X} (f : project -> X) (l : list step) : outcome X := let! p := model_after l in Ret (f p).
Definition sizes (p : project) : nat * nat * nat := (List.length (pj_notes p), List.length (pj_bars p), List.length (pj_tempos p)).

(** [Pitch::new(.., Octave::Oct4 / Oct0 / Oct3, SharpFlat::Null)] *)
Definition pitch_of (s : solfa) (o : octave) : pitch :=
  match pitch_new s o NoAccidental with Ret p => p | _ => mkPitch s o NoAccidental (-1) (-1) end.
Definition note_at (t : Z) (s : solfa) (o : octave) (d : duration) : note :=
  mkNote t (pitch_of s o) d false false (velocity_new 64) trimmer_zero rate_one trimmer_zero 0.
Definition eighth := mkDur N8th 2 0.
Definition plain_bar (t : Z) : bar := mkBar t None None ms_empty.
Definition with_rhythm (t : Z) (n : Z) (d : rhythm_den) : bar := mkBar t (Some (mkRhythm n d)) None ms_empty.

(** ** src/project.rs *)
(** 942, [tempo] *)
Example tempo_test :
  let one := fst (s_add 10 (mkTempo 10 100) []) in let two := fst (s_add 20 (mkTempo 20 200) one) in
  tempo_at_store 0 [] = Ret 120 /\
  map (fun t => tempo_at_store t one) [0; 10; 11] = map Ret [120; 100; 100] /\
  map (fun t => tempo_at_store t two) [0; 10; 11; 19; 20; 100] = map Ret [120; 100; 100; 100; 200; 200].
Proof. cbv zeta. runs. Qed.
(** 962, [undo_note_addition]; 988, [undo_bar_addition] *)
Example undo_note_addition :
  let n := note_at 100 SC O4 (mkDur Quarter 2 0) in
  seen (fun p => List.length (pj_notes p)) [Do (EAddNote n)] = Ret 1%nat /\
  seen (fun p => List.length (pj_notes p)) [Do (EAddNote n); Un] = Ret 0%nat.
Proof. cbv zeta. runs. Qed.
Example undo_bar_addition :
  seen (fun p => List.length (pj_bars p)) [Do (EAddBar (plain_bar 100))] = Ret 1%nat /\
  seen (fun p => List.length (pj_bars p)) [Do (EAddBar (plain_bar 100)); Un] = Ret 0%nat.
Proof. runs. Qed.
(** 1006, [location_to_tick] *)
Definition ticks (l : list step) (q : list (Z * Z)) := seen (fun p => map (fun x => location_to_tick p (mkLoc (fst x) (snd x))) q) l.
Definition bars4 := map (fun b => Do (EAddBar b)) [plain_bar 100; plain_bar 1000; with_rhythm 2000 2 D4; plain_bar 3000].
Example location_to_tick_test :
  ticks [] [(0, 0); (0, 1); (0, u32_max); (0, u32_max + 1); (1, 1)] =
    Ret (map Ret [Ok 0; Ok 1; Ok u32_max; Err Overflow; Ok (960 + 1)]) /\
  ticks (firstn 1 bars4) [(0, 0); (0, 1); (1, 1); (1, u32_max - 100); (1, u32_max - 99); (2, 1)] =
    Ret (map Ret [Ok 0; Ok 1; Ok 101; Ok u32_max; Err Overflow; Ok (100 + 960 + 1)]) /\
  ticks (firstn 2 bars4) [(0, 0); (0, 1); (1, 1); (2, 0)] = Ret (map Ret [Ok 0; Ok 1; Ok 101; Ok 1000]) /\
  ticks bars4 [(4, 1); (5, 1)] = Ret (map Ret [Ok 3001; Ok (3000 + 480 + 1)]).
Proof. runs. Qed.
(** 1063, [tick_to_location] *)
Definition locations (l : list step) (q : list Z) := seen (fun p => map (tick_to_location p) q) l.
Example tick_to_location_test :
  locations [] [0; 100; u32_max] = Ret (map Ret [mkLoc 0 0; mkLoc 0 100; mkLoc 0 u32_max]) /\
  locations (firstn 1 bars4) [0; 99; 100; u32_max] =
    Ret (map Ret [mkLoc 0 0; mkLoc 0 99; mkLoc 1 0; mkLoc 1 (u32_max - 100)]) /\
  locations (firstn 2 bars4) [0; 99; 999; 1000; u32_max] =
    Ret (map Ret [mkLoc 0 0; mkLoc 0 99; mkLoc 1 899; mkLoc 2 0; mkLoc 2 (u32_max - 1000)]).
Proof. runs. Qed.
(** 1095, [rhythm_at] *)
Definition rhythms (l : list step) (q : list Z) :=
  seen (fun p => map (rhythm_at p) q) (Do (ESetRhythm (mkRhythm 6 D8)) :: l).
Definition last_of (l : list step) := seen (fun p => option_map snd (last_bar p)) (Do (ESetRhythm (mkRhythm 6 D8)) :: l).
Definition bars_r := map (fun b => Do (EAddBar b)) [plain_bar 100; with_rhythm 200 3 D4; plain_bar 300; with_rhythm 400 4 D4].
Example rhythm_at_test :
  let a := mkRhythm 6 D8 in let b := mkRhythm 3 D4 in let c := mkRhythm 4 D4 in
  rhythms [] [500; 0] = Ret (map Ret [a; a]) /\ last_of [] = Ret None /\
  rhythms (firstn 1 bars_r) [0; 99; 100; 101] = Ret (map Ret [a; a; a; a]) /\
  last_of (firstn 1 bars_r) = Ret (Some (plain_bar 100)) /\
  last_of (firstn 2 bars_r) = Ret (Some (with_rhythm 200 3 D4)) /\
  last_of (firstn 3 bars_r) = Ret (Some (plain_bar 300)) /\
  last_of bars_r = Ret (Some (with_rhythm 400 4 D4)) /\
  rhythms bars_r [0; 99; 100; 101; 199; 200; 201; 299; 300; 301; 399; 400; 401] =
    Ret (map Ret [a; a; a; a; a; b; b; b; b; b; b; c; c]).
Proof. cbv zeta. runs. Qed.
(** 1147, [note_max_tick_loc]; the rates 1.0, 1.0, 1.0, 2.0 are 1000, 1000, 1000, 2000 in
    thousandths *)
Definition n0 := note_at 100 SC O0 (mkDur Quarter 2 1).
Definition n1 := note_at 100 SC O0 (mkDur Whole 2 1).
Definition n2 := mkNote 200 (pitch_of SC O0) (mkDur N8th 2 0) false false 10 trimmer_zero (rate_from_array 1000 1000 1000 2000) trimmer_zero 0.
Example note_max_tick_loc :
  map (seen note_max_end_tick) [[]; [Do (EAddNote n0)]; [Do (EAddNote n0); Do (EAddNote n1)];
                                [Do (EAddNote n0); Do (EAddNote n1); Do (EAddNote n2)]] =
  map (fun x => Ret (Ret x)) [None; Some 460; Some 1540; Some 1540].
Proof. run. Qed.
(** 1195, [replenish_bars]: the number of bars and the last of them after each step *)
Definition fill :=
  [EAddNote n0; EAddNote (note_at 0 SC O0 (mkDur Whole 2 0)); EAddNote (note_at 960 SC O0 (mkDur Whole 2 1));
   EAddTempo (mkTempo (960 * 3) 200); EAddTempo (mkTempo (960 * 3 + 1) 200);
   EAddDumper (mkCtrl (960 * 4) 20 0); EAddDumper (mkCtrl (960 * 4 + 1) 20 0);
   EAddSoft (mkCtrl (960 * 5) 20 0); EAddDumper (mkCtrl (960 * 5 + 1) 20 0)].
Example replenish_bars_test :
  map (fun k => seen (fun p => (List.length (pj_bars p), option_map fst (s_peek_last (pj_bars p)))) (map Do (firstn k fill)))
      [0; 1; 2; 3; 4; 5; 6; 7; 8; 9]%nat =
  map Ret [(0, None); (1, Some 960%Z); (1, Some 960%Z); (3, Some (960 * 3)%Z); (3, Some (960 * 3)%Z); (4, Some (960 * 4)%Z);
           (4, Some (960 * 4)%Z); (5, Some (960 * 5)%Z); (5, Some (960 * 5)%Z); (6, Some (960 * 6)%Z)]%nat.
Proof. run. Qed.
(** 1275, [tuplize] *)
Definition e0 := note_at 100 SC O4 eighth.
Definition e1 := note_at 120 SC O4 eighth.
Definition e2 := note_at 150 SC O4 eighth.
Definition adds (l : list note) := map (fun n => Do (EAddNote n)) l.
Definition places (p : project) := map (fun e => (fst e, n_duration (snd e))) (pj_notes p).
Example tuplize_test :
  seen places (adds [e0; e1; e2] ++ [Do (ETuplize [e0; e1; e2])]) =
    Ret [(100, mkDur N8th 3 0); (100 + 80, mkDur N8th 3 0); (100 + 80 * 2, mkDur N8th 3 0)] /\
  seen places (adds [e0; e1; e2] ++ [Do (ETuplize [e0; e1; e2]); Un]) = Ret [(100, eighth); (120, eighth); (150, eighth)].
Proof. runs. Qed.
(** 1348, [can_serialize_project] *)
Definition saved := mkProject (mkRhythm 3 D4) (-2) grid_default (b_add 100 e0 []) [] [] [] [].
Example can_serialize_project :
  (let! o := bin_project (put_project saved) in
   Ret (option_map (fun d => (pj_key d, pj_rhythm d, pj_notes d)) o)) =
  Ret (Some (pj_key saved, pj_rhythm saved, [(100, e0)])).
Proof. run. Qed.
(** 1378, [can_undo_set_rhythm]; 1409, [can_undo_set_key]; 1427, [can_undo_set_grid] *)
Definition rs := [Do (ESetRhythm (mkRhythm 12 D8)); Do (ESetRhythm (mkRhythm 12 D4)); Un; Un; Re; Do (ESetRhythm (mkRhythm 16 D8)); Un].
Example can_undo_set_rhythm :
  map (fun k => seen pj_rhythm (firstn k rs)) [1; 2; 3; 4; 5; 6; 7]%nat =
  map Ret [mkRhythm 12 D8; mkRhythm 12 D4; mkRhythm 12 D8; rhythm_default; mkRhythm 12 D8; mkRhythm 16 D8; mkRhythm 12 D8].
Proof. run. Qed.
Definition ks := [Do (ESetKey (-1)); Do (ESetKey (-2)); Un; Re].
Example can_undo_set_key : map (fun k => seen pj_key (firstn k ks)) [2; 3; 4]%nat = map Ret [-2; -1; -2].
Proof. run. Qed.
Definition gs := [Do (ESetGrid 100); Do (ESetGrid 200); Un; Re].
Example can_undo_set_grid : map (fun k => seen pj_grid (firstn k gs)) [2; 3; 4]%nat = map Ret [200; 100; 200].
Proof. run. Qed.
(** 1445, [can_undo_add_note]; 1476, [can_undo_add_bar]; 1498, [can_undo_add_tempo];
    1521, [can_undo_add_dumper]; 1543, [can_undo_add_soft] *)
Definition three {X} (f : project -> X) (e : edit) := map (seen f) [[Do e]; [Do e; Un]; [Do e; Un; Re]].
Example can_undo_add_note :
  three (fun p => (map snd (pj_notes p), List.length (pj_bars p))) (EAddNote e0) =
  map Ret [([e0], 1); ([], 0); ([e0], 1)]%nat.
Proof. run. Qed.
Example can_undo_add_bar :
  three pj_bars (EAddBar (with_rhythm 1000 3 D4)) =
  map Ret [[(1000, with_rhythm 1000 3 D4)]; []; [(1000, with_rhythm 1000 3 D4)]].
Proof. run. Qed.
Example can_undo_add_tempo :
  three (fun p => (pj_tempos p, List.length (pj_bars p))) (EAddTempo (mkTempo 200 200)) =
  map Ret [([(200, mkTempo 200 200)], 1%nat); ([], 0%nat); ([(200, mkTempo 200 200)], 1%nat)].
Proof. run. Qed.
Example can_undo_add_dumper :
  three (fun p => (pj_dumpers p, List.length (pj_bars p))) (EAddDumper (mkCtrl 200 20 0)) =
  map Ret [([(200, mkCtrl 200 20 0)], 1%nat); ([], 0%nat); ([(200, mkCtrl 200 20 0)], 1%nat)].
Proof. run. Qed.
Example can_undo_add_soft :
  three (fun p => (pj_softs p, List.length (pj_bars p))) (EAddSoft (mkCtrl 200 20 0)) =
  map Ret [([(200, mkCtrl 200 20 0)], 1%nat); ([], 0%nat); ([(200, mkCtrl 200 20 0)], 1%nat)].
Proof. run. Qed.
(** 1565, [can_undo_tuplize] *)
Definition d1 := note_at 110 SD O4 eighth.
Definition d2 := note_at 120 SE O4 eighth.
Definition tup := Do (ETuplize []) :: adds [e0] ++ [Do (ETuplize [e0]); Un] ++ adds [e0; d1; d2] ++ [Do (ETuplize [e0; d1; d2]); Un; Re].
Definition solfas (p : project) := (map (fun e => (fst e, p_solfa (n_pitch (snd e)))) (pj_notes p), List.length (pj_bars p)).
Example can_undo_tuplize :
  map (fun k => seen solfas (firstn k tup)) [1; 3; 4; 8; 9; 10]%nat =
  map Ret [([], 0%nat); ([(100, SC)], 1%nat); ([], 0%nat); ([(100, SC); (180, SD); (260, SE)], 1%nat);
           ([(100, SC); (110, SD); (120, SE)], 1%nat); ([(100, SC); (180, SD); (260, SE)], 1%nat)].
Proof. run. Qed.
(** 1644, [can_undo_bulk_remove]; 1692, [can_undo_bulk_add] *)
Definition some_models := mkModels [e0] [] [mkTempo 200 200] [] [].
Definition bulk := [Do (EBulkAdd some_models); Do (EBulkRemove some_models); Un].
Example can_undo_bulk_remove : map (fun k => seen sizes (firstn k bulk)) [1; 2; 3]%nat = map Ret [(1, 1, 1); (0, 1, 0); (1, 1, 1)]%nat.
Proof. run. Qed.
Example can_undo_bulk_add : seen sizes [Do (EBulkAdd some_models); Un] = Ret (0, 0, 0)%nat.
Proof. run. Qed.
(** 1729, [can_undo_change] *)
Definition m00 := note_at 100 SC O4 eighth.
Definition m01 := note_at 101 SC O3 eighth.
Definition m10 := note_with_duration_numerator m00 Half.
Definition m11 := note_with_duration_numerator m01 Half.
Definition changed_session :=
  [Do (EBulkAdd (mkModels [m00; m01] [] [mkTempo 200 200] [] [])); Do (EChange (mkChanges [(m00, m10); (m01, m11)] [] [] [] [])); Un].
Example can_undo_change :
  seen sizes (firstn 1 changed_session) = Ret (2, 1, 1)%nat /\
  seen (fun p => (pj_notes p, pj_tempos p)) (firstn 2 changed_session) = Ret ([(100, m10); (101, m11)], [(200, mkTempo 200 200)]) /\
  seen (fun p => (pj_notes p, pj_tempos p)) changed_session = Ret ([(100, m00); (101, m01)], [(200, mkTempo 200 200)]).
Proof. runs. Qed.
(** 1797, [many_changes]: with a limit of ten undos; the log of commands is longer than
    that, and reopening redoes all of it *)
Definition many := EAddNote m00 :: EAddNote m01 :: map (fun i => EAddTempo (mkTempo (200 + i) (200 + i))) (map Z.of_nat (seq 0 20)).
Fixpoint logged (l : list edit) (p : project) : outcome (project * list cmd) :=
  match l with
  | [] => Ret (p, [])
  | e :: l => let! r := edit_run e p in
              match r with
              | None => logged l p
              | Some (p, c) => let! q := logged l p in Ret (fst q, c :: snd q)
              end
  end.
Example many_changes :
  (let! q := logged many project_default in Ret (sizes (fst q), sizes (replay project_default (snd q)))) =
  Ret ((2, 1, 20), (2, 1, 20))%nat /\
  (let! h := session (map Do many) (history_new project_default 10) in Ret (sizes (h_model h), List.length (h_undo h))) =
  Ret ((2, 1, 20), 10)%nat.
Proof. runs. Qed.

(** ** src/models.rs and src/exported_project.rs: the clipboard *)
Definition clip_text (s : string) := from_clipboard_text (fun _ => false) (chars s).
(** [parse_empty], [cannot_parse_version], [version_error] *)
Example clipboard_errors :
  map clip_text [""; " "; "-1"; "1.1"; "[0]"; "a"; "2"]%string =
  map (fun e => Ret (Err e)) [EmptyString; EmptyString; VersionNotU64 (chars "-1"); VersionNotU64 (chars "1.1");
                              VersionNotU64 (chars "[0]"); CannotParse (chars "a"); VersionErr 2].
Proof. run. Qed.
(** [normal_case] *)
Definition normal := mkModels [n0] [plain_bar 100] [] [] [].
Example normal_case : from_clipboard_text (fun _ => false) (to_clipboard_text normal) = Ret (Ok normal).
Proof. run. Qed.
(** [move_to_tick] *)
Example move_to_tick_test :
  move_to_tick (mkModels [n0] [plain_bar 110] [mkTempo 110 200; mkTempo 114 205] [mkCtrl 120 64 0] [mkCtrl 90 64 0]) 50 =
  mkModels [set_base_tick n0 60] [plain_bar 70] [mkTempo 70 200; mkTempo 74 205] [mkCtrl 80 64 0] [mkCtrl 50 64 0].
Proof. run. Qed.
(** src/exported_project.rs, [import_key], [import_rhythm] *)
Definition imported (k : option key) (r : option rhythm) :=
  score_from_clipboard_text (fun _ => false) (chars "1" ++ show_json (write_score (mkScore k r models_empty))).
Example import_key : imported (Some (-3)) None = Ret (Ok (mkScore (Some (-3)) None models_empty)).
Proof. run. Qed.
Example import_rhythm : imported None (Some (mkRhythm 3 D4)) = Ret (Ok (mkScore None (Some (mkRhythm 3 D4)) models_empty)).
Proof. run. Qed.

(** ** src/undo.rs: [should_be_dropped_when_capacity_reached], [can_undo]; the entries are
    represented by the numbers of the models they add *)
Definition added (l : list Z) : outcome (undo_store Z) := fold_left (fun s u => let! s := s in us_add s u) l (Ret (us_new Z 3)).
Example should_be_dropped_when_capacity_reached :
  us_can_undo (us_new Z 3) = false /\ snd (us_undo (us_new Z 3)) = None /\
  map (fun l => let! s := added l in Ret (us_store s, us_can_undo s)) [[0]; [0; 1]; [0; 1; 2]; [0; 1; 2; 3]; [0; 1; 2; 3; 4]] =
  map Ret [([0], true); ([1; 0], true); ([2; 1; 0], true); ([3; 2; 1], true); ([4; 3; 2], true)].
Proof. runs. Qed.
Definition undone (k : nat) (s : undo_store Z) : undo_store Z * list (option Z) :=
  Nat.iter k (fun sl => let '(s, u) := us_undo (fst sl) in (s, snd sl ++ [u])) (s, []).
Definition put (s : undo_store Z) (l : list Z) : outcome (undo_store Z) := fold_left (fun s u => let! s := s in us_add s u) l (Ret s).
Example can_undo_test :
  (let! s := put (us_new Z 3) [0; 1] in let a := us_can_undo s in
   let '(s, l1) := undone 3 s in let b := us_can_undo s in
   let! s := put s [0; 1; 2] in let '(s, l2) := undone 1 s in
   let! s := put s [3] in let '(s, l3) := undone 4 s in
   Ret (a, l1, b, l2, l3, us_can_undo s)) =
  Ret (true, [Some 1; Some 0; None], false, [Some 2], [Some 3; Some 1; Some 0; None], false).
Proof. run. Qed.

(** ** src/bar.rs: the tests of klavier_helper's [Store]: [should_sorted], [index], [find].
    The keys there are f32; all of them are small integers, and so are the keys here.
    Its [range]s, [update_at_idx] and [as_ref] are not used by this crate and are not
    modelled. *)
Definition bag3 : list (Z * bar) :=
  fold_left (fun s b => fst (s_add (b_tick b) b s)) [plain_bar 2; plain_bar 10; plain_bar 0] [].
Example should_sorted : bag3 = [(0, plain_bar 0); (2, plain_bar 2); (10, plain_bar 10)].
Proof. run. Qed.
Example index_test : map (fun k => s_find k bag3) [2; 0; 10; 1] = [Ok 1; Ok 0; Ok 2; Err 1]%nat.
Proof. run. Qed.
