{
 "claims": [
  {
   "property": "C01",
   "status": "proved",
   "theorems": [
    "C01_pitch_consistent",
    "C01_value_of_iff",
    "C01_builder_refuted"
   ],
   "note": "Invariant over all operation sequences. Exception by witness: PitchBuilder (C01_builder_refuted)."
  },
  {
   "property": "C02",
   "status": "proved",
   "theorems": [
    "C02_up",
    "C02_down",
    "C02_errors",
    "C02_up_down",
    "C02_down_up"
   ],
   "note": ""
  },
  {
   "property": "C03",
   "status": "proved",
   "theorems": [
    "C03_transpose",
    "C03_errors",
    "C03_compose",
    "C03_from_score_offset",
    "C03_zero_shift_refuted"
   ],
   "note": "Exact characterisation of success. C03_zero_shift_refuted: a valid pitch (A double flat, octave 8) that cannot be moved by 0."
  },
  {
   "property": "C04",
   "status": "proved",
   "theorems": [
    "C04_toggle_sharp",
    "C04_toggle_flat",
    "C04_toggle_natural"
   ],
   "note": ""
  },
  {
   "property": "C05",
   "status": "proved",
   "theorems": [
    "C05_apply_key",
    "C05_apply_key_idempotent"
   ],
   "note": ""
  },
  {
   "property": "C06",
   "status": "proved",
   "theorems": [
    "C06_octave_in_range",
    "C06_octave_out_of_range",
    "C06_octave_9_refuted"
   ],
   "note": "The total claim is false of the code: 9 panics (C06_octave_9_refuted). All other values are proved."
  },
  {
   "property": "C07",
   "status": "proved",
   "theorems": [
    "C07_shorter",
    "C07_tick_length",
    "C07_lasts_unique",
    "C07_bound",
    "C07_monotone",
    "C07_plain",
    "C07_loaded_dots_refuted"
   ],
   "note": "For the values that constructors make. Loaded dots are not checked: C07_loaded_dots_refuted."
  },
  {
   "property": "C08",
   "status": "proved",
   "theorems": [
    "C08_longest",
    "C08_longest_value",
    "C08_note_length"
   ],
   "note": ""
  },
  {
   "property": "C09",
   "status": "proved",
   "theorems": [
    "C09_rate_clamped",
    "C09_rate_means_unique",
    "C09_range",
    "C09_monotone"
   ],
   "note": ""
  },
  {
   "property": "C10",
   "status": "proved",
   "theorems": [
    "C10_roundtrip_refuted",
    "C10_roundtrip_exact"
   ],
   "note": "The round trip is false for exactly ten percentages (C10_roundtrip_refuted); proved: the result is p or p-1, and which."
  },
  {
   "property": "C11",
   "status": "proved",
   "theorems": [
    "C11_apply_floor",
    "C11_apply_exact",
    "C11_hundred_percent",
    "C11_zero_percent",
    "C11_monotone",
    "C11_wrap_refuted"
   ],
   "note": "Outside the proved range the result wraps (C11_wrap_refuted)."
  },
  {
   "property": "C12",
   "status": "proved",
   "theorems": [
    "C12_added",
    "C12_added_overflow",
    "C12_trimmer_invariant"
   ],
   "note": ""
  },
  {
   "property": "C13",
   "status": "proved",
   "theorems": [
    "C13_save_load",
    "C13_save_load_refuted",
    "C13_equality"
   ],
   "note": "False in general (C13_save_load_refuted); proved: holds exactly when the running sums fit i16."
  },
  {
   "property": "C14",
   "status": "proved",
   "theorems": [
    "C14_save_load_refuted",
    "C14_save_load_percent_rates",
    "C14_save_load_array",
    "C14_reload_stable"
   ],
   "note": "False for rates given as floating point numbers (C14_save_load_refuted); proved for percentages and loaded trimmers."
  },
  {
   "property": "C15",
   "status": "proved",
   "theorems": [
    "C15_start_tick",
    "C15_velocity"
   ],
   "note": ""
  },
  {
   "property": "C16",
   "status": "proved",
   "theorems": [
    "C16_note_shift",
    "C16_note_trim_shift",
    "C16_note_shift_back",
    "C16_bar_shift",
    "C16_tempo_shift",
    "C16_ctrl_shift",
    "C16_tempo_drag",
    "C16_shift_back",
    "C16_drag_wraps",
    "C16_shift_wraps_refuted",
    "C16_shift_above",
    "C16_drag_wraps_refuted"
   ],
   "note": "Out of range ticks wrap: C16_drag_wraps_refuted, C16_shift_wraps_refuted; C16_drag_wraps says to which value."
  },
  {
   "property": "C17",
   "status": "proved",
   "theorems": [
    "C17_tempo_in_range",
    "C17_no_panic",
    "C17_step",
    "C17_up_down",
    "C17_down_up",
    "C17_load",
    "C17_drag_value",
    "C17_drag_refuted"
   ],
   "note": "False for drag (C17_drag_refuted), proved for the other operations."
  },
  {
   "property": "C18",
   "status": "proved",
   "theorems": [
    "C18_snap_nearest",
    "C18_snap_defined",
    "C18_snap_idempotent",
    "C18_snap_monotone",
    "C18_snap_odd",
    "C18_loaded_grid_zero_refuted"
   ],
   "note": "For grids above 0; a loaded grid of 0 panics (C18_loaded_grid_zero_refuted)."
  },
  {
   "property": "C19",
   "status": "proved",
   "theorems": [
    "C19_rhythm"
   ],
   "note": ""
  },
  {
   "property": "C20",
   "status": "proved",
   "theorems": [
    "C20_no_contradiction",
    "C20_try_add",
    "C20_remove",
    "C20_remove_regions",
    "C20_region_index",
    "C20_len",
    "C20_equal",
    "C20_variations",
    "C20_order_refuted"
   ],
   "note": "Acceptance depends on the order of adding (C20_order_refuted)."
  },
  {
   "property": "C21",
   "status": "proved",
   "theorems": [
    "C21_undo_buffer",
    "C21_capacity_zero_refuted"
   ],
   "note": "Capacity 0 keeps one entry (C21_capacity_zero_refuted)."
  },
  {
   "property": "C22",
   "status": "proved",
   "theorems": [
    "C22_tempo",
    "C22_pedals"
   ],
   "note": ""
  },
  {
   "property": "C23",
   "status": "proved",
   "theorems": [
    "C23_rhythm",
    "C23_key"
   ],
   "note": ""
  },
  {
   "property": "C24",
   "status": "proved",
   "theorems": [
    "C24_roundtrip",
    "C24_monotone",
    "C24_meaning",
    "C24_bar_no"
   ],
   "note": ""
  },
  {
   "property": "C25",
   "status": "proved",
   "theorems": [
    "C25_extrapolation",
    "C25_total_refuted"
   ],
   "note": "Panics instead of an error near usize::MAX (C25_total_refuted)."
  },
  {
   "property": "C26",
   "status": "proved",
   "theorems": [
    "C26_covered",
    "C26_no_excess"
   ],
   "note": ""
  },
  {
   "property": "C27",
   "status": "proved",
   "theorems": [
    "C27_spacing",
    "C27_terminates",
    "C27_returns",
    "C27_exact",
    "C27_always_returns_refuted"
   ],
   "note": "Numerator 0, reachable by loading, never terminates; an end near u32::MAX panics (C27_always_returns_refuted)."
  },
  {
   "property": "C28",
   "status": "proved",
   "theorems": [
    "C28_undo",
    "C28_ill_formed_refuted",
    "C28_any",
    "C28_exact"
   ],
   "note": "For well-formed edits; ill-formed ones are accepted and not undone (C28_ill_formed_refuted)."
  },
  {
   "property": "C29",
   "status": "proved",
   "theorems": [
    "C29_redo",
    "C29_again"
   ],
   "note": ""
  },
  {
   "property": "C30",
   "status": "proved",
   "theorems": [
    "C30_snapshots"
   ],
   "note": ""
  },
  {
   "property": "C31",
   "status": "proved",
   "theorems": [
    "C31_recovery",
    "C31_edits",
    "C31_undone_refuted"
   ],
   "note": "With an edit undone that was given several elements for one tick, recovery gives another project (C31_undone_refuted)."
  },
  {
   "property": "C32",
   "status": "proved",
   "theorems": [
    "C32_invariant",
    "C32_initial"
   ],
   "note": ""
  },
  {
   "property": "C33",
   "status": "proved",
   "theorems": [
    "C33_export_import",
    "C33_import_export",
    "C33_loaded"
   ],
   "note": ""
  },
  {
   "property": "C34",
   "status": "proved",
   "theorems": [
    "C34_rigid",
    "C34_round",
    "C34_idempotent",
    "C34_empty",
    "C34_far_refuted"
   ],
   "note": "Ticks wrap if the selection does not fit (C34_far_refuted)."
  },
  {
   "property": "C35",
   "status": "proved",
   "theorems": [
    "C35_models",
    "C35_score",
    "C35_refuted_trimmer",
    "C35_refuted_tempo",
    "C35_refuted_rate",
    "C35_exact",
    "C35_score_exact"
   ],
   "note": "Each condition is needed: C35_refuted_rate, C35_refuted_tempo, C35_refuted_trimmer."
  },
  {
   "property": "C36",
   "status": "proved",
   "theorems": [
    "C36_empty",
    "C36_version",
    "C36_not_u64",
    "C36_cannot_parse",
    "C36_accepts",
    "C36_ends",
    "C36_panic",
    "C36_refuted_no_panic",
    "C36_score",
    "C36_unique"
   ],
   "note": "Reading can panic (C36_refuted_no_panic); proved: exactly which texts give which result otherwise."
  },
  {
   "property": "C37",
   "status": "proved",
   "theorems": [
    "C37_roundtrip",
    "C37_accepts",
    "C37_refuses",
    "C37_panics",
    "C37_total_refuted"
   ],
   "note": "Parsing can panic on numbers that are too large and on digits that are not ASCII (C37_total_refuted)."
  },
  {
   "property": "C38",
   "status": "proved",
   "theorems": [
    "C38_verdict",
    "C38_mutate",
    "C38_empty",
    "C38_i16",
    "C38_velocity",
    "C38_numerator",
    "C38_denominator",
    "C38_tempo",
    "C38_tempo_refuted",
    "C38_total",
    "C38_none",
    "C38_refused",
    "C38_refused_rhythm",
    "C38_redisplay",
    "C38_location"
   ],
   "note": "Validation of a tempo can panic and accepts 0 (C38_tempo_refuted)."
  },
  {
   "property": "C39",
   "status": "proved",
   "theorems": [
    "C39_keeps",
    "C39_places",
    "C39_even",
    "C39_returns",
    "C39_panics",
    "C39_exact",
    "C39_chord_refuted",
    "C39_large_refuted"
   ],
   "note": "False for chords (C39_chord_refuted) and for more than 255 units (C39_large_refuted)."
  },
  {
   "property": "C40",
   "status": "proved",
   "theorems": [
    "C40_same_performance",
    "C40_none_joins",
    "C40_fixed",
    "C40_idempotent",
    "C40_good"
   ],
   "note": ""
  },
  {
   "property": "C41",
   "status": "proved",
   "theorems": [
    "C41_table",
    "C41_table_panics",
    "C41_exact",
    "C41_found",
    "C41_not_found",
    "C41_either",
    "C41_overflow_refuted"
   ],
   "note": "The intermediate sum may overflow (C41_overflow_refuted)."
  },
  {
   "property": "C42",
   "status": "proved",
   "theorems": [
    "C42_plays",
    "C42_only",
    "C42_one_order"
   ],
   "note": ""
  },
  {
   "property": "C43",
   "status": "proved",
   "theorems": [
    "C43_exact",
    "C43_plays",
    "C43_only",
    "C43_second",
    "C43_implicit_refuted"
   ],
   "note": "Both directions. implicit_clear is needed (C43_implicit_refuted); C43_exact says what is played in every case."
  },
  {
   "property": "C44",
   "status": "proved",
   "theorems": [
    "C44_target",
    "C44_agrees",
    "C44_upbeat",
    "C44_documented_refuted"
   ],
   "note": "The documented rule is false of the code (C44_documented_refuted); proved: the target that is used, and exactly when it agrees with the documentation."
  },
  {
   "property": "C45",
   "status": "proved",
   "theorems": [
    "C45_first",
    "C45_last",
    "C45_accepted_exact",
    "C45_accepted",
    "C45_truthful",
    "C45_documented_refuted"
   ],
   "note": "Exact characterisation of acceptance, every error is right, and which of several errors is reported. Documented rules that are not enforced: C45_documented_refuted."
  },
  {
   "property": "C46",
   "status": "proved",
   "theorems": [
    "C46_exact",
    "C46_chunks_exact",
    "C46_without_jump",
    "C46_returns",
    "C46_panics_refuted"
   ],
   "note": "False in general (C46_panics_refuted); proved: exactly when it panics (C46_exact, C46_chunks_exact), and simple sufficient conditions."
  },
  {
   "property": "C47",
   "status": "proved",
   "theorems": [
    "C47_last_tick_refuted",
    "C47_formed",
    "C47_joined"
   ],
   "note": ""
  },
  {
   "property": "C48",
   "status": "proved",
   "theorems": [
    "C48_first_equal",
    "C48_canonical",
    "C48_stable"
   ],
   "note": ""
  },
  {
   "property": "C49",
   "status": "proved",
   "theorems": [
    "C49_clip",
    "C49_clip_f32",
    "C49_clip_nan_refuted",
    "C49_play_iter",
    "C49_play_iter_accepts",
    "C49_play_iter_value",
    "C49_velocity",
    "C49_channel"
   ],
   "note": "NaN is not clipped (C49_clip_nan_refuted)."
  },
  {
   "property": "C50",
   "status": "proved",
   "theorems": [
    "C50_edit",
    "C50_recorded",
    "C50_settings",
    "C50_any"
   ],
   "note": ""
  },
  {
   "property": "C51",
   "status": "proved",
   "theorems": [
    "C51_exact",
    "C51_exact_refuted",
    "C51_between",
    "C51_cut",
    "C51_monotone",
    "C51_accepts",
    "C51_words",
    "C51_refuses",
    "C51_shown"
   ],
   "note": "The ten exceptions are those of C10 (C51_exact_refuted)."
  },
  {
   "property": "C52",
   "status": "proved",
   "theorems": [
    "C52_savable",
    "C52_score_savable",
    "C52_refuted_checked",
    "C52_layout",
    "C52_score_as_models",
    "C52_models_as_score"
   ],
   "note": "Ranges are those of the integer types for dots, channel, key and rhythm numerator (C52_refuted_checked)."
  },
  {
   "property": "C53",
   "status": "proved",
   "theorems": [
    "C53_project",
    "C53_load",
    "C53_exact",
    "C53_layout",
    "C53_json"
   ],
   "note": ""
  },
  {
   "property": "C54",
   "status": "proved",
   "theorems": [
    "C54_reopen",
    "C54_edits",
    "C54_stays_savable",
    "C54_refuted_trimmer",
    "C54_refuted_tempo"
   ],
   "note": "The condition on what is put in is needed: C54_refuted_trimmer, C54_refuted_tempo."
  },
  {
   "property": "C55",
   "status": "proved",
   "theorems": [
    "C55_add_dots",
    "C55_dots_back",
    "C55_add_dots_overflow",
    "C55_numerator",
    "C55_duration",
    "C55_tie",
    "C55_tie_round",
    "C55_accidentals",
    "C55_step",
    "C55_step_errors",
    "C55_drag",
    "C55_drag_refuted"
   ],
   "note": "Even a drag by nothing can panic (C55_drag_refuted)."
  },
  {
   "property": "C56",
   "status": "proved",
   "theorems": [
    "C56_grid",
    "C56_grid_text",
    "C56_numerator"
   ],
   "note": ""
  },
  {
   "property": "C57",
   "status": "proved",
   "theorems": [
    "C57_exact",
    "C57_plain",
    "C57_jump"
   ],
   "note": "C57_exact covers every rendered tune; a mark at tick 0 makes the call panic (C57_exact_case)."
  },
  {
   "property": "C58",
   "status": "proved",
   "theorems": [
    "C58_decimal",
    "C58_clipboard",
    "C58_project"
   ],
   "note": ""
  },
  {
   "property": "C59",
   "status": "proved",
   "theorems": [
    "C59_reopen",
    "C59_edit",
    "C59_undo_redo",
    "C59_observer",
    "C59_look",
    "C59_load",
    "C59_history"
   ],
   "note": ""
  },
  {
   "property": "C60",
   "status": "proved",
   "theorems": [
    "C60_session",
    "C60_edit",
    "C60_quiet",
    "C60_undo_redo",
    "C60_recorded",
    "C60_redo",
    "C60_redo_refuted"
   ],
   "note": "False for bars appended by an edit that is redone (C60_redo_refuted)."
  },
  {
   "property": "C61",
   "status": "proved",
   "theorems": [
    "C61_note",
    "C61_pitch",
    "C61_trimmer",
    "C61_hash",
    "C61_rate",
    "C61_rate_refuted"
   ],
   "note": "False for rates given as floating point numbers (C61_rate_refuted)."
  },
  {
   "property": "C62",
   "status": "proved",
   "theorems": [
    "C62_rhythm",
    "C62_tempo",
    "C62_small",
    "C62_octave",
    "C62_keys",
    "C62_repeat_set",
    "C62_repeat_set_order_refuted",
    "C62_note_default",
    "C62_note_build",
    "C62_defaults",
    "C62_from_vec"
   ],
   "note": "The order of the arguments of repeat_set! matters (C62_repeat_set_order_refuted)."
  },
  {
   "property": "C63",
   "status": "proved",
   "theorems": [
    "C63_history",
    "C63_performed",
    "C63_renders",
    "C63_unheard",
    "C63_keys",
    "C63_rhythm",
    "C63_unheard_refuted",
    "C63_session",
    "C63_session_played"
   ],
   "note": "The exception for a single bar at tick 0 is needed (C63_unheard_refuted)."
  },
  {
   "property": "C64",
   "status": "proved",
   "theorems": [
    "C64_any_marks",
    "C64_sections",
    "C64_five",
    "C64_reach"
   ],
   "note": "The range of the last bar is needed because positions are 32 bit (C41_overflow_refuted)."
  },
  {
   "property": "C65",
   "status": "proved",
   "theorems": [
    "C65_copy_paste",
    "C65_cut_paste",
    "C65_same_place"
   ],
   "note": ""
  },
  {
   "property": "C66",
   "status": "proved",
   "theorems": [
    "C66_marks",
    "C66_letters",
    "C66_numbers",
    "C66_what",
    "C66_render",
    "C66_same_message",
    "C66_pitch",
    "C66_octave_refuted"
   ],
   "note": "The message about octaves names the position instead (C66_octave_refuted); the other parts hold."
  },
  {
   "property": "C67",
   "status": "proved",
   "theorems": [
    "C67_session",
    "C67_reopened",
    "C67_queries",
    "C67_loaded",
    "C67_files_refuted",
    "C67_even_tuplet"
   ],
   "note": "What makes a loaded file improper is exhibited in C67_files_refuted."
  },
  {
   "property": "C68",
   "status": "proved",
   "theorems": [
    "C68_octave_value",
    "C68_octave_step",
    "C68_letter_step",
    "C68_pitch_new",
    "C68_moves",
    "C68_length",
    "C68_note_values",
    "C68_tempo",
    "C68_channel",
    "C68_snap",
    "C68_location"
   ],
   "note": ""
  },
  {
   "property": "C69",
   "status": "proved",
   "theorems": [
    "C69_reading",
    "C69_only",
    "C69_played",
    "C69_untorn",
    "C69_returns",
    "C69_played_refuted",
    "C69_start",
    "C69_variation",
    "C69_lowest",
    "C69_session"
   ],
   "note": "A variation mark with D.C. or D.S. on one bar is the exception (C69_played_refuted)."
  },
  {
   "property": "C70",
   "status": "proved",
   "theorems": [
    "C70_selection",
    "C70_score",
    "C70_project",
    "C70_unique",
    "C70_panics",
    "C70_project_panics",
    "C70_refuses"
   ],
   "note": ""
  },
  {
   "property": "C71",
   "status": "proved",
   "theorems": [
    "C71_signatures",
    "C71_location",
    "C71_shown",
    "C71_history"
   ],
   "note": ""
  },
  {
   "property": "C72",
   "status": "proved",
   "theorems": [
    "C72_local",
    "C72_in_force",
    "C72_taken_out",
    "C72_settings"
   ],
   "note": ""
  },
  {
   "property": "C73",
   "status": "proved",
   "theorems": [
    "C73_together",
    "C73_one_by_one",
    "C73_selection",
    "C73_order",
    "C73_bars_refuted",
    "C73_removal",
    "C73_change",
    "C73_tuplet",
    "C73_and_back"
   ],
   "note": "With bars the order matters (C73_bars_refuted)."
  },
  {
   "property": "C74",
   "status": "proved",
   "theorems": [
    "C74_lines",
    "C74_project",
    "C74_marks_refuted",
    "C74_upbeat_refuted"
   ],
   "note": "An unmarked line inside a variation, and a line inside the first bar of a score with a D.C., can be heard (C74_marks_refuted, C74_upbeat_refuted)."
  },
  {
   "property": "C75",
   "status": "proved",
   "theorems": [
    "C75_stretch",
    "C75_distances",
    "C75_upbeat_refuted"
   ],
   "note": "With a D.C. and no Segno the length of the first bar matters (C75_upbeat_refuted)."
  },
  {
   "property": "C76",
   "status": "proved",
   "theorems": [
    "C76_inside",
    "C76_shown",
    "C76_note",
    "C76_paste",
    "C76_any_offset_refuted",
    "C76_any_offset_note_refuted"
   ],
   "note": "An offset beyond its bar leads into a later bar (C76_any_offset_refuted, C76_any_offset_note_refuted)."
  },
  {
   "property": "C77",
   "status": "proved",
   "theorems": [
    "C77_same",
    "C77_no_trace",
    "C77_back_and_forth",
    "C77_full_refuted"
   ],
   "note": "With a full undo history the oldest step is lost (C77_full_refuted)."
  },
  {
   "property": "C78",
   "status": "proved",
   "theorems": [
    "C78_heard",
    "C78_projects",
    "C78_add",
    "C78_implicit_refuted"
   ],
   "note": "No jump before the end of a repeat whose start is not written (C78_implicit_refuted shows that this is needed)."
  },
  {
   "property": "C79",
   "status": "proved",
   "theorems": [
    "C79_shown",
    "C79_renumbered",
    "C79_edits",
    "C79_typed",
    "C79_replaced",
    "C79_counted_on_refuted"
   ],
   "note": "Not so behind the last bar if the line sets a rhythm or is the last (C79_counted_on_refuted)."
  },
  {
   "property": "C80",
   "status": "proved",
   "theorems": [
    "C80_as_json",
    "C80_cmd_as_json",
    "C80_reopen_as_json",
    "C80_project",
    "C80_cmd",
    "C80_log",
    "C80_load",
    "C80_load_cmd",
    "C80_exact",
    "C80_cut",
    "C80_panic",
    "C80_size",
    "C80_reopen",
    "C80_refuted"
   ],
   "note": "Not so for a trimmer whose sum leaves i16 and for a tempo of 0 (C80_refuted)."
  },
  {
   "property": "C81",
   "status": "proved",
   "theorems": [
    "C81_times",
    "C81_unheard",
    "C81_end",
    "C81_no_variations",
    "C81_implicit_refuted"
   ],
   "note": "Needs that no jump mark is in a first repeat whose start is not written (C81_implicit_refuted)."
  },
  {
   "property": "C82",
   "status": "proved",
   "theorems": [
    "C82_repeat",
    "C82_jump",
    "C82_signs",
    "C82_top",
    "C82_signs_jump",
    "C82_project",
    "C82_inside_refuted"
   ],
   "note": "The passage is outside a repeat if no repeat is open before it and, when no sign is before it, the next sign behind it starts a repeat."
  },
  {
   "property": "C83",
   "status": "proved",
   "theorems": [
    "C83_endings",
    "C83_jump",
    "C83_signs",
    "C83_top",
    "C83_signs_jump",
    "C83_segno_refuted"
   ],
   "note": "The bars of both endings carry no other signs and no jump, the first none to which a jump goes."
  },
  {
   "property": "C84",
   "status": "proved",
   "theorems": [
    "C84_silent",
    "C84_alike",
    "C84_orphan",
    "C84_ds",
    "C84_dc",
    "C84_top",
    "C84_fine",
    "C84_codas",
    "C84_coda_refuted",
    "C84_top_refuted"
   ],
   "note": "The exact description of what Fine and the Codas take away is for bars whose marks do not contradict each other."
  },
  {
   "property": "C85",
   "status": "proved",
   "theorems": [
    "C85_joined",
    "C85_ds",
    "C85_paste",
    "C85_itself_refuted",
    "C85_dc_refuted",
    "C85_segno_refuted"
   ],
   "note": "The scores are without bars whose marks contradict each other; with a D.S. also without a repeat sign at the very top."
  },
  {
   "property": "C86",
   "status": "proved",
   "theorems": [
    "C86_entries",
    "C86_table",
    "C86_moment",
    "C86_round",
    "C86_only",
    "C86_fewest",
    "C86_joined",
    "C86_sounding",
    "C86_score",
    "C86_alike",
    "C86_top_refuted"
   ],
   "note": "Start positions of joined and unjoined chunks are compared where the sum in to_accum_tick stays within 32 bits (C41)."
  },
  {
   "property": "C87",
   "status": "proved",
   "theorems": [
    "C87_further",
    "C87_jump",
    "C87_signs",
    "C87_top",
    "C87_signs_jump",
    "C87_segno_refuted"
   ],
   "note": "Bars with contradictory marks are excluded (C69 tells how those are read)."
  },
  {
   "property": "C88",
   "status": "proved",
   "theorems": [
    "C88_drag",
    "C88_back",
    "C88_there_and_back",
    "C88_parts",
    "C88_either_first",
    "C88_safe",
    "C88_over_refuted"
   ],
   "note": "That the changes return is assumed, except in C88_safe."
  },
  {
   "property": "C89",
   "status": "proved",
   "theorems": [
    "C89_written",
    "C89_any",
    "C89_heard",
    "C89_repeat",
    "C89_repeat_jump",
    "C89_endings",
    "C89_endings_jump",
    "C89_further",
    "C89_further_jump"
   ],
   "note": "With a jump, and in C89_any for returning, the project is taken to be covered by bars, as it is after every edit that adds content (C26)."
  },
  {
   "property": "C90",
   "status": "proved",
   "theorems": [
    "C90_again",
    "C90_in_turn",
    "C90_equal",
    "C90_project",
    "C90_short_refuted",
    "C90_chord_refuted"
   ],
   "note": "Lengths are those of the written notes; trimmers (C08, C12) come on top of them."
  },
  {
   "property": "C91",
   "status": "proved",
   "theorems": [
    "C91_fine",
    "C91_codas",
    "C91_segno",
    "C91_jump",
    "C91_written",
    "C91_project_fine",
    "C91_project_codas",
    "C91_project_jump",
    "C91_fine_refuted"
   ],
   "note": "The part about D.C. and D.S. leaves out scores whose first repeat has no written start and contains the jump (see C43)."
  },
  {
   "property": "C92",
   "status": "proved",
   "theorems": [
    "C92_any_order",
    "C92_at_once",
    "C92_safe",
    "C92_same_place_refuted"
   ],
   "note": "Where the bars are appended depends on the rhythm at that time, so blank bars may differ between orders."
  },
  {
   "property": "C93",
   "status": "proved",
   "theorems": [
    "C93_in_force",
    "C93_heard",
    "C93_location",
    "C93_edits",
    "C93_there_and_back",
    "C93_ending_refuted",
    "C93_upbeat_refuted"
   ],
   "note": "The conditions are those of C74; the two refuted theorems show that they are needed."
  },
  {
   "property": "C94",
   "status": "proved",
   "theorems": [
    "C94_by_hand",
    "C94_heard",
    "C94_added",
    "C94_deleted",
    "C94_over_refuted",
    "C94_safe"
   ],
   "note": ""
  },
  {
   "property": "C95",
   "status": "proved",
   "theorems": [
    "C95_written",
    "C95_one_by_one",
    "C95_any_to_any",
    "C95_bars_first",
    "C95_bars_first_heard",
    "C95_heard",
    "C95_notes_first_refuted"
   ],
   "note": ""
  },
  {
   "property": "C96",
   "status": "proved",
   "theorems": [
    "C96_start",
    "C96_later",
    "C96_repeat",
    "C96_endings",
    "C96_further",
    "C96_jump",
    "C96_fine",
    "C96_codas"
   ],
   "note": ""
  },
  {
   "property": "C97",
   "status": "proved",
   "theorems": [
    "C97_dressed",
    "C97_numbers",
    "C97_order",
    "C97_chords",
    "C97_chord_refuted",
    "C97_project"
   ],
   "note": ""
  },
  {
   "property": "C98",
   "status": "proved",
   "theorems": [
    "C98_cut",
    "C98_copy",
    "C98_at_tick",
    "C98_again",
    "C98_overlap_refuted"
   ],
   "note": ""
  },
  {
   "property": "C99",
   "status": "proved",
   "theorems": [
    "C99_again",
    "C99_no_notes",
    "C99_delete",
    "C99_settings",
    "C99_change_refuted",
    "C99_delete_refuted"
   ],
   "note": ""
  },
  {
   "property": "C100",
   "status": "proved",
   "theorems": [
    "C100_in_force",
    "C100_location",
    "C100_notes",
    "C100_location_refuted",
    "C100_heard"
   ],
   "note": ""
  },
  {
   "property": "C101",
   "status": "proved",
   "theorems": [
    "C101_taken_back",
    "C101_opposite",
    "C101_ties",
    "C101_notes_only",
    "C101_accidentals",
    "C101_accidentals_refuted",
    "C101_trim_refuted"
   ],
   "note": ""
  }
 ]
}