(** The repository's own unit tests of src/repeat.rs and src/global_repeat.rs,
    replayed on the model: what each of them expects of the program, the model gives.
    These are tests of the model, not properties of it: the code cannot be run here,
    so the values its authors wrote down are the only outside check that the model
    is a model of this code. *)
From Coq Require Import ZArith List Bool.
From Verif Require Import Base M_Duration M_Scalar M_Bar M_Store M_Repeat M_New.
Import ListNotations.
Open Scope Z_scope.

Definition B (t : Z) (l : list mark) : bar :=
  mkBar t None None (match repeat_set l with Ret s => s | _ => -1 end).
Definition C := mkChunk.
Definition Rh := mkRhythm.
Definition ret_map {X Y} (f : X -> Y) (o : outcome X) : outcome Y := let! x := o in Ret (f x).
Definition rendered (r : rhythm) (bars : list bar) : outcome (list chunk) :=
  match render_region r bars with Ret (Ok (c, _)) => to_chunks c | _ => Panic end.
Definition optimized (r : rhythm) (bars : list bar) : outcome (list chunk) := ret_map optimize (rendered r bars).
(** the ticks that [to_accum_tick] finds for each start position *)
Definition positions (l : outcome (list chunk)) (q : list (Z * Z * result Z accum_error)) :=
  let! l := l in let! t := by_accum_tick l in
  Ret (map (fun x => to_accum_tick (play_start_new (fst (fst x)) (snd (fst x))) t) q).
Definition positions_are (l : outcome (list chunk)) (q : list (Z * Z * result Z accum_error)) : Prop :=
  positions l q = Ret (map (fun x => Ret (snd x)) q).

(** src/repeat.rs 515, [empty] *)
Definition empty_bars : list bar :=
  [].
Example empty : rendered (Rh 4 D4) empty_bars = Ret
  [C 0 u32_max].
Proof. vm_compute. reflexivity. Qed.
Example empty_positions : positions_are (rendered (Rh 4 D4) empty_bars)
  [(0, 1, Ok (0));
   (100, 1, Ok (100));
   (100, 2, Err (CannotFind 2 1))].
Proof. vm_compute. reflexivity. Qed.
(** src/repeat.rs 531, [single_bar] *)
Definition single_bar_bars : list bar :=
  [B 100 []].
Example single_bar : rendered (Rh 4 D4) single_bar_bars = Ret
  [C 0 u32_max].
Proof. vm_compute. reflexivity. Qed.
Example single_bar_positions : positions_are (rendered (Rh 4 D4) single_bar_bars)
  [(0, 1, Ok (0));
   (100, 1, Ok (100));
   (100, 2, Err (CannotFind 2 1))].
Proof. vm_compute. reflexivity. Qed.
(** src/repeat.rs 551, [default_start_repeat] *)
Definition default_start_repeat_bars : list bar :=
  [B 100 [End]].
Example default_start_repeat : rendered (Rh 4 D4) default_start_repeat_bars = Ret
  [C 0 100; C 0 100; C 100 u32_max].
Proof. vm_compute. reflexivity. Qed.
Example default_start_repeat_optimized : optimized (Rh 4 D4) default_start_repeat_bars = Ret
  [C 0 100; C 0 u32_max].
Proof. vm_compute. reflexivity. Qed.
Example default_start_repeat_positions : positions_are (optimized (Rh 4 D4) default_start_repeat_bars)
  [(0, 1, Ok (0));
   (50, 1, Ok (50));
   (0, 2, Ok (100));
   (50, 2, Ok (150));
   (100, 1, Ok (200));
   (150, 1, Ok (250));
   (100, 2, Err (CannotFind 2 1))].
Proof. vm_compute. reflexivity. Qed.
(** src/repeat.rs 582, [invalid_repeat_end] *)
Definition invalid_repeat_end_bars : list bar :=
  [B 100 [End];
   B 200 [End]].
Example invalid_repeat_end : render_region (Rh 4 D4) invalid_repeat_end_bars = Ret (Err (OrphanRepeatEnd 200)).
Proof. vm_compute. reflexivity. Qed.
(** src/repeat.rs 599, [single_repeat] *)
Definition single_repeat_bars : list bar :=
  [B 100 [Start];
   B 200 [End]].
Example single_repeat : rendered (Rh 4 D4) single_repeat_bars = Ret
  [C 0 100; C 100 200; C 100 200; C 200 u32_max].
Proof. vm_compute. reflexivity. Qed.
Example single_repeat_optimized : optimized (Rh 4 D4) single_repeat_bars = Ret
  [C 0 200; C 100 u32_max].
Proof. vm_compute. reflexivity. Qed.
Example single_repeat_positions : positions_are (optimized (Rh 4 D4) single_repeat_bars)
  [(0, 1, Ok (0));
   (0, 2, Err (CannotFind 2 1));
   (50, 2, Err (CannotFind 2 1));
   (100, 1, Ok (100));
   (150, 1, Ok (150));
   (100, 2, Ok (200));
   (150, 2, Ok (250));
   (200, 1, Ok (300));
   (250, 1, Ok (350));
   (200, 2, Err (CannotFind 2 1));
   (250, 2, Err (CannotFind 2 1))].
Proof. vm_compute. reflexivity. Qed.
(** src/repeat.rs 638, [single_repeat2] *)
Definition single_repeat2_bars : list bar :=
  [B 50 [Start];
   B 200 [End]].
Example single_repeat2 : rendered (Rh 4 D4) single_repeat2_bars = Ret
  [C 0 50; C 50 200; C 50 200; C 200 u32_max].
Proof. vm_compute. reflexivity. Qed.
Example single_repeat2_optimized : optimized (Rh 4 D4) single_repeat2_bars = Ret
  [C 0 200; C 50 u32_max].
Proof. vm_compute. reflexivity. Qed.
Example single_repeat2_positions : positions_are (optimized (Rh 4 D4) single_repeat2_bars)
  [(0, 1, Ok (0));
   (50, 1, Ok (50));
   (50, 2, Ok (200));
   (199, 2, Ok (349));
   (200, 1, Ok (350));
   (200, 2, Err (CannotFind 2 1))].
Proof. vm_compute. reflexivity. Qed.
(** src/repeat.rs 672, [simple_variation] *)
Definition simple_variation_bars : list bar :=
  [B 50 [Var1];
   B 100 [Var2];
   B 150 []].
Example simple_variation : rendered (Rh 4 D4) simple_variation_bars = Ret
  [C 0 50; C 50 100; C 0 50; C 100 150; C 150 u32_max].
Proof. vm_compute. reflexivity. Qed.
Example simple_variation_optimized : optimized (Rh 4 D4) simple_variation_bars = Ret
  [C 0 100; C 0 50; C 100 u32_max].
Proof. vm_compute. reflexivity. Qed.
Example simple_variation_positions : positions_are (optimized (Rh 4 D4) simple_variation_bars)
  [(0, 1, Ok (0));
   (0, 2, Ok (100));
   (20, 2, Ok (120));
   (100, 1, Ok (150));
   (100, 2, Err (CannotFind 2 1))].
Proof. vm_compute. reflexivity. Qed.
(** src/repeat.rs 708, [simple_variation2] *)
Definition simple_variation2_bars : list bar :=
  [B 100 [Var1];
   B 200 [Var1];
   B 350 [Var2];
   B 500 [Var2];
   B 650 []].
Example simple_variation2 : rendered (Rh 4 D4) simple_variation2_bars = Ret
  [C 0 100; C 100 350; C 0 100; C 350 650; C 650 u32_max].
Proof. vm_compute. reflexivity. Qed.
Example simple_variation2_optimized : optimized (Rh 4 D4) simple_variation2_bars = Ret
  [C 0 350; C 0 100; C 350 u32_max].
Proof. vm_compute. reflexivity. Qed.
Example simple_variation2_positions : positions_are (optimized (Rh 4 D4) simple_variation2_bars)
  [(0, 1, Ok (0));
   (200, 1, Ok (200));
   (0, 2, Ok (350));
   (350, 1, Ok (450));
   (650, 1, Ok (750));
   (650, 2, Err (CannotFind 2 1));
   (0, 3, Err (CannotFind 3 2))].
Proof. vm_compute. reflexivity. Qed.
(** src/repeat.rs 749, [simple_dc] *)
Definition simple_dc_bars : list bar :=
  [B 480 [Fine];
   B 960 [];
   B 1440 [Dc]].
Example simple_dc : rendered (Rh 2 D4) simple_dc_bars = Ret
  [C 0 1440; C 0 480].
Proof. vm_compute. reflexivity. Qed.
Example simple_dc_optimized : optimized (Rh 2 D4) simple_dc_bars = Ret
  [C 0 1440; C 0 480].
Proof. vm_compute. reflexivity. Qed.
Example simple_dc_positions : positions_are (optimized (Rh 2 D4) simple_dc_bars)
  [(0, 1, Ok (0));
   (0, 2, Ok (1440));
   (0, 3, Err (CannotFind 3 2))].
Proof. vm_compute. reflexivity. Qed.
(** src/repeat.rs 779, [simple_var_dc] *)
Definition simple_var_dc_bars : list bar :=
  [B 480 [Var1];
   B 580 [Var1];
   B 730 [Var2];
   B 880 [Var2];
   B 1030 [Fine];
   B 1180 [];
   B 1280 [Dc]].
Example simple_var_dc : rendered (Rh 2 D4) simple_var_dc_bars = Ret
  [C 0 480; C 480 730; C 0 480; C 730 1030; C 1030 1280; C 0 480; C 730 1030].
Proof. vm_compute. reflexivity. Qed.
Example simple_var_dc_optimized : optimized (Rh 2 D4) simple_var_dc_bars = Ret
  [C 0 730; C 0 480; C 730 1280; C 0 480; C 730 1030].
Proof. vm_compute. reflexivity. Qed.
Example simple_var_dc_positions : positions_are (optimized (Rh 2 D4) simple_var_dc_bars)
  [(0, 1, Ok (0));
   (480, 1, Ok (480));
   (400, 2, Ok (730 + 400));
   (800, 1, Ok (730 + 480 + (800 - 730)));
   (1180, 1, Ok (730 + 480 + (1180 - 730)));
   (0, 3, Ok (730 + 480 + (1280 - 730)));
   (0, 4, Err (CannotFind 4 3));
   (730, 2, Ok (730 + 480 + (1280 - 730) + 480));
   (730, 3, Err (CannotFind 3 2))].
Proof. vm_compute. reflexivity. Qed.
(** src/repeat.rs 826, [dc_and_repeat_end] *)
Definition dc_and_repeat_end_bars : list bar :=
  [B 480 [Start];
   B 530 [Start; End; Fine];
   B 600 [Start; End];
   B 1080 [Dc; End]].
Example dc_and_repeat_end : rendered (Rh 2 D4) dc_and_repeat_end_bars = Ret
  [C 0 480; C 480 530; C 480 530; C 530 600; C 530 600; C 600 1080; C 600 1080; C 0 480; C 480 530].
Proof. vm_compute. reflexivity. Qed.
Example dc_and_repeat_end_optimized : optimized (Rh 2 D4) dc_and_repeat_end_bars = Ret
  [C 0 530; C 480 600; C 530 1080; C 600 1080; C 0 530].
Proof. vm_compute. reflexivity. Qed.
(** src/repeat.rs 863, [two_vars] *)
Definition two_vars_bars : list bar :=
  [B 50 [Start];
   B 100 [];
   B 150 [Var1];
   B 200 [Var2];
   B 250 [Start];
   B 300 [];
   B 350 [Var1];
   B 400 [Var2];
   B 450 []].
Example two_vars : rendered (Rh 2 D4) two_vars_bars = Ret
  [C 0 50; C 50 150; C 150 200; C 50 150; C 200 250; C 250 350; C 350 400; C 250 350; C 400 450; C 450 u32_max].
Proof. vm_compute. reflexivity. Qed.
Example two_vars_optimized : optimized (Rh 2 D4) two_vars_bars = Ret
  [C 0 200; C 50 150; C 200 400; C 250 350; C 400 u32_max].
Proof. vm_compute. reflexivity. Qed.
(** src/repeat.rs 906, [two_vars_with_end_bar] *)
Definition two_vars_with_end_bar_bars : list bar :=
  [B 50 [Start];
   B 100 [];
   B 150 [Var1];
   B 200 [Var2];
   B 250 [];
   B 300 [Start];
   B 350 [];
   B 400 [Var1];
   B 450 [Var1];
   B 500 [Var2];
   B 550 [];
   B 600 []].
Example two_vars_with_end_bar : rendered (Rh 2 D4) two_vars_with_end_bar_bars = Ret
  [C 0 50; C 50 150; C 150 200; C 50 150; C 200 250; C 250 300; C 300 400; C 400 500; C 300 400; C 500 550; C 550 u32_max].
Proof. vm_compute. reflexivity. Qed.
Example two_vars_with_end_bar_optimized : optimized (Rh 2 D4) two_vars_with_end_bar_bars = Ret
  [C 0 200; C 50 150; C 200 500; C 300 400; C 500 u32_max].
Proof. vm_compute. reflexivity. Qed.
(** src/repeat.rs 954, [repeat_and_dc] *)
Definition repeat_and_dc_bars : list bar :=
  [B 240 [Start];
   B 320 [];
   B 370 [Var1];
   B 420 [Var2];
   B 470 [];
   B 520 [Start];
   B 570 [];
   B 620 [Var1];
   B 670 [Var2];
   B 720 [Fine];
   B 770 [Start];
   B 820 [];
   B 870 [];
   B 920 [End];
   B 970 [Dc]].
Example repeat_and_dc : rendered (Rh 2 D4) repeat_and_dc_bars = Ret
  [C 0 240; C 240 370; C 370 420; C 240 370; C 420 470; C 470 520; C 520 620; C 620 670; C 520 620; C 670 720; C 720 770; C 770 920; C 770 920; C 920 970; C 0 240; C 240 370; C 420 470; C 470 520; C 520 620; C 670 720].
Proof. vm_compute. reflexivity. Qed.
Example repeat_and_dc_optimized : optimized (Rh 2 D4) repeat_and_dc_bars = Ret
  [C 0 420; C 240 370; C 420 670; C 520 620; C 670 920; C 770 970; C 0 370; C 420 620; C 670 720].
Proof. vm_compute. reflexivity. Qed.
(** src/repeat.rs 1024, [consecutive_repeat] *)
Definition consecutive_repeat_bars : list bar :=
  [B 50 [];
   B 200 [Start; End];
   B 300 [End]].
Example consecutive_repeat : rendered (Rh 2 D4) consecutive_repeat_bars = Ret
  [C 0 200; C 0 200; C 200 300; C 200 300; C 300 u32_max].
Proof. vm_compute. reflexivity. Qed.
Example consecutive_repeat_optimized : optimized (Rh 2 D4) consecutive_repeat_bars = Ret
  [C 0 200; C 0 300; C 200 u32_max].
Proof. vm_compute. reflexivity. Qed.
(** src/repeat.rs 1056, [fine_and_repeat] *)
Definition fine_and_repeat_bars : list bar :=
  [B 120 [];
   B 270 [Start; End; Fine];
   B 370 [Dc; End]].
Example fine_and_repeat : rendered (Rh 1 D4) fine_and_repeat_bars = Ret
  [C 0 270; C 0 270; C 270 370; C 270 370; C 0 270].
Proof. vm_compute. reflexivity. Qed.
Example fine_and_repeat_optimized : optimized (Rh 1 D4) fine_and_repeat_bars = Ret
  [C 0 270; C 0 370; C 270 370; C 0 270].
Proof. vm_compute. reflexivity. Qed.
(** src/repeat.rs 1089, [dc_and_repeat] *)
Definition dc_and_repeat_bars : list bar :=
  [B 120 [Start];
   B 170 [Start; End; Fine];
   B 270 [Start; End];
   B 370 [Dc; End]].
Example dc_and_repeat : rendered (Rh 1 D4) dc_and_repeat_bars = Ret
  [C 0 120; C 120 170; C 120 170; C 170 270; C 170 270; C 270 370; C 270 370; C 0 120; C 120 170].
Proof. vm_compute. reflexivity. Qed.
Example dc_and_repeat_optimized : optimized (Rh 1 D4) dc_and_repeat_bars = Ret
  [C 0 170; C 120 270; C 170 370; C 270 370; C 0 170].
Proof. vm_compute. reflexivity. Qed.
(** src/repeat.rs 1128, [dc_without_fine] *)
Definition dc_without_fine_bars : list bar :=
  [B 120 [];
   B 170 [Start];
   B 270 [];
   B 370 [Dc; End];
   B 470 []].
Example dc_without_fine : rendered (Rh 1 D4) dc_without_fine_bars = Ret
  [C 0 170; C 170 370; C 170 370; C 0 170; C 170 370; C 370 u32_max].
Proof. vm_compute. reflexivity. Qed.
Example dc_without_fine_optimized : optimized (Rh 1 D4) dc_without_fine_bars = Ret
  [C 0 370; C 170 370; C 0 u32_max].
Proof. vm_compute. reflexivity. Qed.
(** src/repeat.rs 1163, [simple_ds] *)
Definition simple_ds_bars : list bar :=
  [B 120 [];
   B 200 [Segno];
   B 270 [Start; End; Fine];
   B 370 [Ds; End]].
Example simple_ds : rendered (Rh 1 D4) simple_ds_bars = Ret
  [C 0 270; C 0 270; C 270 370; C 270 370; C 200 270].
Proof. vm_compute. reflexivity. Qed.
Example simple_ds_optimized : optimized (Rh 1 D4) simple_ds_bars = Ret
  [C 0 270; C 0 370; C 270 370; C 200 270].
Proof. vm_compute. reflexivity. Qed.
(** src/repeat.rs 1197, [var_and_ds] *)
Definition var_and_ds_bars : list bar :=
  [B 120 [];
   B 200 [Segno];
   B 270 [Start; End; Fine];
   B 370 [Var1];
   B 470 [Var2];
   B 570 [Ds]].
Example var_and_ds : rendered (Rh 1 D4) var_and_ds_bars = Ret
  [C 0 270; C 0 270; C 270 370; C 370 470; C 270 370; C 470 570; C 200 270].
Proof. vm_compute. reflexivity. Qed.
Example var_and_ds_optimized : optimized (Rh 1 D4) var_and_ds_bars = Ret
  [C 0 270; C 0 470; C 270 370; C 470 570; C 200 270].
Proof. vm_compute. reflexivity. Qed.
(** src/repeat.rs 1236, [ds_and_coda] *)
Definition ds_and_coda_bars : list bar :=
  [B 120 [];
   B 200 [Segno];
   B 270 [End];
   B 370 [Coda];
   B 470 [];
   B 570 [Coda];
   B 670 [Ds]].
Example ds_and_coda : rendered (Rh 1 D4) ds_and_coda_bars = Ret
  [C 0 270; C 0 270; C 270 670; C 200 270; C 270 370; C 570 u32_max].
Proof. vm_compute. reflexivity. Qed.
Example ds_and_coda_optimized : optimized (Rh 1 D4) ds_and_coda_bars = Ret
  [C 0 270; C 0 670; C 200 370; C 570 u32_max].
Proof. vm_compute. reflexivity. Qed.
(** src/repeat.rs 1274, [ds_and_coda_fine] *)
Definition ds_and_coda_fine_bars : list bar :=
  [B 120 [];
   B 200 [Segno];
   B 270 [End];
   B 370 [Coda];
   B 470 [];
   B 570 [Coda];
   B 670 [Fine];
   B 770 [Ds]].
Example ds_and_coda_fine : rendered (Rh 1 D4) ds_and_coda_fine_bars = Ret
  [C 0 270; C 0 270; C 270 770; C 200 270; C 270 370; C 570 670].
Proof. vm_compute. reflexivity. Qed.
Example ds_and_coda_fine_optimized : optimized (Rh 1 D4) ds_and_coda_fine_bars = Ret
  [C 0 270; C 0 770; C 200 370; C 570 670].
Proof. vm_compute. reflexivity. Qed.
(** src/repeat.rs 1313, [ds_and_coda_skip_ds] *)
Definition ds_and_coda_skip_ds_bars : list bar :=
  [B 120 [];
   B 200 [Segno];
   B 270 [End];
   B 370 [Coda];
   B 470 [];
   B 570 [Ds];
   B 670 [Coda]].
Example ds_and_coda_skip_ds : rendered (Rh 1 D4) ds_and_coda_skip_ds_bars = Ret
  [C 0 270; C 0 270; C 270 570; C 200 270; C 270 370; C 670 u32_max].
Proof. vm_compute. reflexivity. Qed.
Example ds_and_coda_skip_ds_optimized : optimized (Rh 1 D4) ds_and_coda_skip_ds_bars = Ret
  [C 0 270; C 0 570; C 200 370; C 670 u32_max].
Proof. vm_compute. reflexivity. Qed.
(** src/repeat.rs 1408, [dc_goes_to_fine] *)
Definition dc_goes_to_fine_bars : list bar :=
  [B 200 [Fine];
   B 400 [Dc]].
Example dc_goes_to_fine : ret_map (@length chunk) (rendered (Rh 1 D4) dc_goes_to_fine_bars) = Ret 1%nat.
Proof. vm_compute. reflexivity. Qed.

(** src/repeat.rs 1347, [render_sequence_region_when_non_dcds] *)
Example render_sequence_region_when_non_dcds : render_chunks NonDcDs (RSeq (100, 200)) = Ret [C 100 200].
Proof. vm_compute. reflexivity. Qed.
(** src/repeat.rs 1357, [render_sequence_region_when_dcds_iter0] *)
Example render_sequence_region_when_dcds_iter0 :
  map (fun d => render_chunks (DcDsIter0 d) (RSeq (100, 200))) [99; 100; 101; 199; 200; 201] =
  map Ret [[]; []; [C 100 101]; [C 100 199]; [C 100 200]; [C 100 200]].
Proof. vm_compute. reflexivity. Qed.

(** ** src/global_repeat.rs *)
Definition then_add {X Y E} (r : result X E) (k : X -> result Y E) : result Y E := and_then r k.
Notation "g >> f" := (then_add g f) (at level 50, left associativity).
(** src/global_repeat.rs 143-146 *)
Definition adding_first_bar_len (len : Z) (g : gr_builder) : result gr_builder rr_error :=
  Ok (mkGB (gb_ds_dc g) (gb_fine g) (gb_segno g) (gb_coda g) (Some len) (gb_top_rhythm g)).
Definition adding_dc (t len : Z) := adding_ds_dc (JDc t len).
Definition adding_ds (t : Z) := adding_ds_dc (JDs t).
Definition gb44 : result gr_builder rr_error := Ok (gb_new (Rh 4 D4)).
Definition ranges (g : result gr_builder rr_error) : option iset :=
  match g with
  | Ok g => match gb_build g with Ret (Ok (Some g, _)) => Some (gr_iter1 g) | _ => None end
  | Err _ => None
  end.
Definition last_region (g : result gr_builder rr_error) (r : region) : outcome (list chunk) :=
  match g with
  | Ok g => match gb_build g with Ret (Ok (Some g, _)) => render_chunks (DcDsIter1 g) r | _ => Panic end
  | Err _ => Panic
  end.

(** src/repeat.rs 1385, [render_sequence_region_when_dcds_iter1] *)
Example render_sequence_region_when_dcds_iter1 :
  last_region (gb44 >> adding_segno 99 >> adding_dc 400 100 >> adding_first_bar_len 30) (RSeq (100, 200)) =
  Ret [C 100 200].
Proof. vm_compute. reflexivity. Qed.
(** src/global_repeat.rs 305, [dc_without_fine] *)
Example gr_dc_without_fine :
  ranges (gb44 >> adding_dc (4000) (240 * 4) >> adding_first_bar_len (240 * 4)) = Some [(0, u32_max - 1)].
Proof. vm_compute. reflexivity. Qed.
(** src/global_repeat.rs 318, [dc_with_fine] *)
Example gr_dc_with_fine :
  ranges (gb44 >> adding_dc (8000) (240 * 4) >> adding_fine (4000) >> adding_first_bar_len (240 * 4)) = Some [(0, 4000 - 1)].
Proof. vm_compute. reflexivity. Qed.
(** src/global_repeat.rs 332, [dc_with_fine_auftakt] *)
Example gr_dc_with_fine_auftakt :
  ranges (gb44 >> adding_dc (4000) (240 * 4) >> adding_fine (2000) >> adding_first_bar_len (240)) = Some [(240, 2000 - 1)].
Proof. vm_compute. reflexivity. Qed.
(** src/global_repeat.rs 346, [dc_with_coda_fine_auftakt] *)
Example gr_dc_with_coda_fine_auftakt :
  ranges (gb44 >> adding_dc (4000) (240 * 4) >> adding_coda (1000) >> adding_coda (5000) >> adding_fine (8000) >> adding_first_bar_len (240)) = Some [(240, 1000 - 1); (5000, 8000 - 1)].
Proof. vm_compute. reflexivity. Qed.
(** src/global_repeat.rs 362, [ds_without_fine] *)
Example gr_ds_without_fine :
  ranges (gb44 >> adding_ds (4000) >> adding_segno (100)) = Some [(100, u32_max - 1)].
Proof. vm_compute. reflexivity. Qed.
(** src/global_repeat.rs 375, [ds_with_fine] *)
Example gr_ds_with_fine :
  ranges (gb44 >> adding_ds (8000) >> adding_fine (4000) >> adding_segno (100)) = Some [(100, 4000 - 1)].
Proof. vm_compute. reflexivity. Qed.
(** src/global_repeat.rs 389, [ds_with_coda_fine] *)
Example gr_ds_with_coda_fine :
  ranges (gb44 >> adding_ds (4000) >> adding_coda (1000) >> adding_coda (5000) >> adding_fine (8000) >> adding_segno (240)) = Some [(240, 1000 - 1); (5000, 8000 - 1)].
Proof. vm_compute. reflexivity. Qed.
