# Formal model of klavier-core in Rocq (Coq 8.16.1)

## 1. Layout

All Coq files are in `rocq/theories` (logical name `Verif`).

* `Base.v` — the outcome monad (`Ret`, `Panic`, `Hang`) and the machine integer helpers.
* `M_*.v` — the model.  Small total functions, one per Rust function.  Each
  definition cites the file and lines in `/repo` that it models, and says
  where it simplifies.  No proofs.
* `S_*.v` — the specifications, written without the model's helpers wherever
  that is possible (documented playing order, key signatures, snapshots
  history, nearest multiple, …).
* `P_*.v` — the proofs (lemmas).
* `T_*.v` — the property theorems.  Each one is closed by `exact`/`apply` of a
  lemma, is followed by `Print Assumptions` and has a concrete non-trivial
  instance (`Example …`) beside it.
* `X_*.v` — the repository's own unit tests replayed on the model, see section 3.

## 2. Modelling decisions

* Machine integers are `Z`.  The range of each Rust type is a predicate
  (`u32 z`, `i16 z`, …).  Arithmetic that the Rust code does in a fixed-width
  type is checked: if the exact result leaves the type the model yields
  `Panic`, which is what a build with overflow checks (the default `dev`
  profile) does.  Where the model yields `Ret`, a release build does the same.
  `as` conversions wrap (`mod 2^n`), exactly as in Rust.
* `panic!`, `unwrap` on `None`/`Err`, out-of-bounds indexing and failed
  `debug_assert!` are `Panic`.  A loop that cannot end is `Hang`.
* `f32` is Flocq's `binary_float 24 128` with round-to-nearest-even.
* `Result`/`Option` stay data.  `&mut self` methods return the new value.
* Strings are lists of Unicode code points (`list Z`).
* The model is of the code as it is.  Where the code does not have a property
  that a user would expect, the theorem is the negation with a witness
  (`…_refuted`), next to the strongest positive statement that does hold.

## 3. Trusted base

* The Coq 8.16.1 kernel (including its `vm_compute` machine).
* Axioms: only those of the standard library that section 5 lists for each
  theorem.  They come with the real numbers of Flocq's proofs about `f32`.
* That the model matches the Rust text.  Not verified by the tool, only by
  reading; each definition cites its source lines.  The one outside check that
  is possible without running the code is done: what the crate's own unit tests
  expect is computed on the model in `X_Repeat.v` (all of `repeat.rs` and
  `global_repeat.rs`), `X_Values.v` (the single values) and `X_Project.v`
  (projects, clipboard, undo buffer), and the model agrees with all of them.
  Left out are ten tests in `bar.rs` of functions of klavier_helper's `Store`
  that this crate does not use.  These are tests of the model, not proofs.
* That the specifications in `S_*.v` say what the English statements in
  `properties.jsonl` say.
* Dependencies of the crate are not in the sandbox.  What the model assumes
  about them:
  * `klavier_helper::store::Store` — a strictly sorted vector of (key, value);
    `add` inserts or replaces and returns the replaced value, `remove` removes
    by key, `bulk_add` adds in turn and returns the replaced entries, `change`
    removes all the old keys and then adds the new entries in turn and returns
    what these replaced, `find`/`index` are binary search (`Ok(i)` at the key,
    else `Err(insertion point)`), `peek_last` the entry with the largest key.
    `finder().just_before` and ranges are the obvious ones on the sorted vector.
  * `klavier_helper::bag_store::BagStore` — a sorted vector that keeps several
    values per key; `remove(k, v)` removes one value equal to `v`.
  * Events of the stores (`M_Event.v`) — each mutating call on a store appends
    one event that holds the arguments of the call and its metadata;
    `clear_events` empties the list.
  * `serdo::SqliteUndoStore` — `mutate` runs the closure and records the
    returned command if it is `Ok`; `add_cmd` runs `redo` of the command and
    records it; both drop the redoable commands; `undo`/`redo` run the
    command's `undo`/`redo`; the number of undoable commands is limited;
    reopening reads a stored snapshot and replays the recorded commands with
    `redo`.  Which snapshots are stored is left open: C54 is about every
    position.  `irreversible_mutate` and the SQLite file are not modelled.
  * `intervallum::IntervalSet` — a normalised set of integers in
    `0 ..= u32::MAX-1`; building it from an interval with lower > upper is a
    contract violation (`Panic`).
  * `enumset::EnumSet` — a set of flags, in serde the number with these bits.
    `gcd` — greatest common divisor.  `sort_by` — a stable sort.
    `HashMap`/`HashSet` — finite maps/sets for keys with lawful `Eq`/`Hash`.
    `derive_builder` — each setter stores its argument, `build` takes the
    declared default for the others.
  * `serde` derive — structs are objects with the fields in order of
    declaration, newtypes are their content, unit variants are strings, other
    variants one-field objects; reading accepts fields in any order, ignores
    unknown ones, refuses missing and repeated ones; `Option` fields may be
    missing; structs may also be read from arrays.
  * `serde_json` — the JSON of RFC 8259 (`M_Json.v`): reading is modelled in two
    stages, text to JSON value to Rust value, where the crate does it in one.
    The two agree on success; which error is reported first is not modelled.
    No type of the crate is read from a number that is not an integer, so the
    value of an `f64` is not computed; which of them are beyond the range of
    `f64`, an error, is a parameter (`ov`) of the reader and the theorems hold
    for all.  The limit on nesting is modelled.
  * `bincode` (version 1, `serialize`/`deserialize`) — integers of fixed width
    with the least significant byte first, `u64` lengths, `u32` variant
    numbers, one byte for `bool` and for the tag of an `Option` (other values
    are errors), no names, arrays without length, further bytes ignored
    (`M_Bin.v`).  Each `...SerializedForm` type has the fields of the type it
    is read for in the same order, so what is written is what is read.  The
    theorems of C54 and C59 that are stated with JSON values hold for bytes by
    C80_reopen_as_json.
  * `str::parse::<f32>` — the nearest `f32` of the decimal, `inf` and `nan`.
    `f32` to text — the shortest decimal that reads as the same `f32`; for
    percentages this is computed (`show_percent`, checked by C51_shown).
  * The `\d` of the regular expressions also accepts non-ASCII digits: the set
    of digits is a parameter where it matters.

### What is modelled

| source | model | not modelled |
|---|---|---|
| `bar.rs` | `M_Bar`, `M_New` | — |
| `can_apply.rs`, `have_start_tick.rs`, `lib.rs` | traits without code | — |
| `channel.rs`, `velocity.rs`, `play_iter.rs`, `clipper.rs`, `ctrl_chg.rs`, `grid.rs`, `key.rs`, `rhythm.rs`, `tempo.rs`, `sharp_flat.rs` | `M_Scalar`, `M_New`, texts in `M_Text` | accessors of single fields are record projections |
| `duration.rs` | `M_Duration` | — |
| `percent.rs`, `trimmer.rs` | `M_Percent`, `M_New`, texts in `M_Text` | — |
| `octave.rs`, `solfa.rs`, `pitch.rs` | `M_Pitch`, `M_Scalar` | — |
| `note.rs` | `M_Note`, `M_Equal`, `M_New` | — |
| `tuple.rs` | `M_Tuple` | — |
| `models.rs`, `exported_project.rs` | `M_Models`, `M_Text`, `M_Json` | the detail texts of errors |
| `project.rs` | `M_Project`, `M_Event`, `M_Disk`, `M_Json`, `M_Bin` | the SQLite file |
| `location.rs`, `text_input.rs` | `M_Text`, `M_Project` | — |
| `undo.rs`, `fly_weight.rs` | `M_Undo` | — |
| `repeat.rs`, `global_repeat.rs`, `play_start_tick.rs` | `M_Repeat` | — |
| `Display` and derived `Debug` texts of `octave.rs`, `pitch.rs`, `solfa.rs`, `sharp_flat.rs`, `rhythm.rs`, `repeat.rs`, `location.rs`, `project.rs` | `M_Show` | `{:?}` of whole records such as notes |

Functions that are only a record field, a constant of a record type or a
delegation to the method of the same name are not repeated in the model; the
projection or the definition they delegate to stands for them.

Not modelled: `Rc` identity (except in the flyweight), memory limits,
allocation (`with_capacity` is the empty value), the detail texts of parse errors.

## 4. Plan per property

| id | modelled | proof |
|----|----------|-------|
| C01 | `M_Pitch`: pitch record with cached value and staff position, all operations, deserialisation, the builder | invariant by induction over operation lists; builder exception as `_refuted` |
| C02 | `up`, `down` with octave/solfa arithmetic that may panic | case analysis over the letter/octave/accidental types |
| C03 | `with_score_offset_delta`, `from_score_offset` | arithmetic; refuted witness A♭♭8 |
| C04 | toggles | case analysis |
| C05 | the SOLFAS table verbatim | against the circle-of-fifths order, case analysis |
| C06 | `Octave::value_of` with index panic | arithmetic + witness 9 |
| C07 | `Duration::tick_length` | arithmetic with division, monotonicity lemmas |
| C08 | `Note::tick_len` on top of C07, C09 | composition |
| C09 | f32 → percent (Flocq) | `Bmult_correct` + monotone rounding |
| C10 | percent → f32 → percent | computation over the complete finite domain lifted with `forallb_forall` |
| C11 | `apply` | arithmetic |
| C12 | `Trimmer::added` | induction over slots |
| C13 | `from_array` with i16 overflow | iff characterisation + witness |
| C14 | `RateTrimmer::new`/`from_array` | algebra + f32 witness by computation |
| C15 | `start_tick`, `velocity` | arithmetic |
| C16 | `with_tick_added`, `drag` on all four kinds | arithmetic |
| C17 | tempo operations, serde | invariant over operation lists + witnesses |
| C18 | `Grid::snap` with truncating division | arithmetic |
| C19 | `Rhythm` | arithmetic |
| C20 | `RepeatSet` | invariant over operation lists; witness for order dependence |
| C21 | `UndoStore` | refinement to two stacks |
| C22–C23 | stores, lookups | induction over sorted lists against "greatest tick ≤ t" |
| C24–C25 | locations with 64-bit arithmetic | induction over sorted lists; witness |
| C26–C27 | `note_max_end_tick`, `replenish_bars` (loop with fuel, `Hang` if it runs out) | loop invariant, uses C08 |
| C28–C29 | all edits, `ProjectCmd::undo/redo` | multiset/finite map reasoning |
| C30 | command history with limit | refinement to a snapshot history, induction over histories |
| C31 | replay of commands | induction |
| C32 | the stores | invariant over histories |
| C33 | export/import | sorted-list lemmas |
| C34 | `move_to_tick` | list lemmas |
| C35–C36 | JSON text writer/reader restricted to the data model | round trip by structural induction |
| C37–C38 | string parsing | induction over digits |
| C39 | `tuplize` | permutation and arithmetic |
| C40 | `Chunk::optimize` | induction |
| C41 | `by_accum_tick`, `to_accum_tick` | induction against the flattened tick sequence |
| C42 | `render_region` state machine and regions | refinement to a grammar of sections, both directions |
| C43 | global repeat, interval sets | second pass = filter of the tick line |
| C44 | `GlobalRepeatBuilder` | witness |
| C45–C46 | `render_region`, `to_chunks` | case analysis; exact conditions for success and for every panic (S_Panic.v); witnesses |
| C47 | `to_chunks` | induction |
| C48 | pool of (value, identity) | invariant over call lists |
| C49 | `Clipper`, `PlayIter`, `Velocity`, `Channel` | arithmetic |
| C50 | every edit of `ProjectImpl` | relation `exchanged` on the contents of the stores; lemma for the common shape of all edits |
| C51 | `str::parse::<f32>` as nearest f32 of the decimal; `PercentU16` from f32 | Flocq's division and rounding lemmas, monotonicity, the ten exceptions by computation over all percentages |
| C52 | `Models::from_clipboard_text` with the JSON text reader | every value that is read is in range, field by field; white space and order of fields by induction over the printer |
| C53 | `ExportedProject` as JSON, `write_project`, `read_project` | round trip for savable values, invariant that all that is read is savable |
| C54 | commands, their metadata and the project on disk | simulation of a session by snapshots, induction over histories |
| C55 | the `with_*` edits of notes | `changes_only`: all the parts that an edit is not about are equal |
| C56 | `FromStr` of `Grid` and `Numerator` | induction over digits |
| C57 | `to_iter1_interval_set` | interval sets against the filtered tick line of C43 |
| C58 | JSON printer, version prefix | the printer as a grammar of its own |
| C59 | events of the stores (`M_Event`) | replaying the events is a homomorphism onto the repositories |
| C60 | metadata of events | case analysis over edits |
| C61 | derived and hand-written `Eq`, `Ord`, `Hash` | equivalence/order laws, witness |
| C62 | constructors, defaults, macros, builders (`M_New`) | case analysis, induction over argument lists |
| C63 | edits, histories and `render_region` together | invariant of the bars over histories; blank bars are neutral for the state machine |
| C64 | `render_region`, `to_chunks`, `by_accum_tick`, `to_accum_tick` together | count of each tick per section from the layout of C42/C43; chunk bounds are bar ticks, so positions fit 32 bits |
| C65 | `to_clipboard_text`, `from_clipboard_text`, `move_to_tick`, `bulk_remove`, `bulk_add` together | composition of C34, C35, C50 and C28 |
| C66 | `Display` of marks, letters, numbers and errors | comparison of prefixes; a number ends where the digits end |
| C67 | sessions of calls (`M_Event`), queries, loading | invariant: the project and everything recorded for undo and redo is proper (`S_Safe`); every edit of a proper project returns and keeps this; tuplets by the placement of C39 |
| C68 | the functions on single values of `M_Pitch`, `M_Note`, `M_Duration`, `M_Percent`, `M_Scalar` and `location_to_tick` | each panic as an equivalence with an arithmetic condition, by case analysis on the checks |
| C69 | `render_region`, `to_chunks` on bars with any marks | each step of the state machine is the step on a bar without contradictory marks (`P_Reading`), induction over the bars; one exceptional kind of bar, traced to the panic |
| C70 | reading of selections, scores and projects from JSON | for each reader the accepted documents are specified as a relation (`S_Accept`); fields of a record by induction over names and members, the types one after the other (`P_Accept`) |
| C71 | edits, replenishing and locations together | appended bars are spaced as `location_to_tick` extrapolates; start of bar number b computed on both sides; histories through snapshots |
| C72 | edits and the values in force together | membership in the stores after an edit (C50) and uniqueness of the latest element |
| C73 | sequences of edits | adding is a fold, so concatenation is exact; the number of appended bars is the least that covers the largest end, so replenishing in between changes nothing |
| C74 | `render_region` on a score with one more line | the state of the renderer after a bar tells whether the bar is in a variation, so a line that cuts it is a step that changes nothing; the builder of jumps sees it only as a possible first bar |
| C75 | pairs of scores and a relation between their ticks | every function of the renderer maps related arguments to related results, since it only compares ticks; interval sets are related by the tick after the last one |
| C76 | texts, locations, edits and replenishing together | unique location inside a bar from the order of the bars; appended bars are spaced as `location_to_tick` extrapolates (C71) and reach the end of what was put in (C26) |
| C77 | sessions of edits, undos, redos and questions, with the answers | bisimulation: histories whose projects have the same content and whose undo lists are equal; every edit maps such to such, also when it panics or does not end |
| C78 | bars with a common beginning, `render_region`, `to_chunks`; projects with a bar added | the machine is in the same state after the common bars; its finished regions lie before the line and the open one is cut at it by induction over the rest |
| C79 | locations of two projects of which one has a bar line more | a closed form of the shown location (count and maximum over the bar lines), then arithmetic; typed locations by cases of the index |
| C80 | bytes of bincode 1 for every persisted type (`M_Bin`), positional | per type, reading the bytes equals reading the JSON value; a relation that follows a reader over arbitrary bytes (what it used, where it panics, that more bytes change nothing) for cuts, range and panics |
| C81 | counting in the documented order: the first pass up to the mark on the chain of sections, plus the sorted last pass (`S_Unheard`) | by induction over the sections, from C43 |
| C82 | the score as sections: one plain section becomes plain, repeated, plain (`S_Twice`); that such a section is there follows from the signs around the passage | by induction over the sections, from C42, C43 and C45's converse |
| C83 | the score as sections: a repeated and a plain section become one with two variations (`S_Ending`); that they are there follows from the signs | by induction over the sections, from C42, C43 and C45's converse |
| C84 | scores bar by bar with some signs taken away or exchanged (`S_Silent`), rendered by the model of render_region | by C42's state machine, which does not look at these signs, and C43's description of the last pass |
| C85 | a score with the moved bars of another behind it (`S_Join`), rendered by the model of render_region, and bulk_add of a moved selection | by joining the layouts of C42: the last section of the first and the first section of the second, both plain, become one |
| C86 | the entry in force at a moment and the tick heard at it (`S_Moment`), with the model of by_accum_tick and optimize | the loop of by_accum_tick keeps a list of entries that follow each other without gaps; the decomposition of a performance into unbroken runs is unique |
| C87 | the change of the bars (`S_Further.further`, `signed`) and of the performance (`again_before`) next to the layouts of S_Repeat | the endings of an accepted score are found in its layout by their marks; the layout with one more ending renders, by C42 and C43, to what the statement says |
| C88 | the composition of changes (`S_Move.straight`, `back`, `at_once`, `continues`) and agreement up to blank bars (`apart_from_blanks`, `with_blanks`) | every change replaces as in C50; an induction over the steps shows which elements are at which tick, and that what the steps fill in are blank bars behind everything else |
| C89 | bars replaced at their ticks (`S_Write.in_place`, `rewritten`, `differences`), with the performance as in C82, C83 and C87 | the store after the exchange is the old one with the new bars at their places; blank bars behind do not change what is rendered; the performances follow from C82, C83 and C87 |
| C90 | starts and ends of the written notes (`S_Triplet.in_turn`), the group ending at twice the common value | without chords every element is one note, starts and lengths are the floors of 30 times the 64ths over the tuplet number; the second time units, sums and order are the same |
| C91 | the two passes before and after (`S_Return.passes`), bars that differ in one sign only (`S_Return.differ`) | scores of the same shape have the same sections; the first pass depends only on these and the place of the jump, the second is a filter on the ticks; a jump outside repeats leaves the sections as they are |
| C92 | what each edit takes out and puts in, added up over a list (`S_Order.all_take`), and pairs of edits that do not meet (`S_Order.apart`); equality but for blank bars as in C88 | each further edit adds to what has been exchanged so far (C50), which does not depend on the order |
| C93 | bars that only one of two projects has (`S_Blank.only_in`), bars in front that are not in an ending (`S_Blank.passed_over`) | a blank bar sets nothing; drawing lines of this kind does not change the rendering (C74), so both projects render like the bars they have in common |
| C94 | edits of different elements (`S_Order.apart`), what an edit takes out and puts in (`S_Project.moves`), places not taken (`S_Move.all_free`) | the state after the edits is the first state with everything taken out and everything put in (C92); taking out what was put in and putting in what was taken out gives the same with that edit left out |
| C95 | everything a project holds and the edits that write it (`S_Enter.contents`, `S_Enter.entries`) | edits that take nothing out are apart from one another, so they can be made in any order (C92); with the bars of the project in place the content never reaches beyond the last bar, so nothing is appended (C26) |
| C96 | asking the table of start positions of a project (`S_Start.start_at`) and a passage inserted into the starts (`S_Start.gains`) | a start is a time the tick is heard (C64), so what C78, C82, C83, C87, C89 and C91 say about the performance carries over, with counting in lists that share a beginning or an end |
| C97 | notes moved by a distance and given other fields (`S_Carry.dressed`), notes with other tuplet numbers (`S_Carry.renumbered`) | the functions of the tuplet model carry a relation between two lists of notes from their input to their output; in a project making a tuplet is a change of notes, to which C88's account of changes in succession applies |
| C98 | the change of one selection to another of the same size (`S_Lift.pairs`, `S_Lift.matched`) | both ways take out and put in the same elements; C88's account of elements moved in steps, carried over to deleting and adding |
| C99 | a project that differs in notes and blank bars only (`S_Anew.but_notes`), how often a note is there (`S_Anew.copies`) | writing the same elements over a store a second time writes what is there; the bars are those of the first time and blank ones behind them |
| C100 | the contents of the project (`S_Enter.contents`) and the same moved (`S_Tuple.moved`), one edit that changes each to its moved self (`S_Lift.pairs`) | every element is taken out, so each store is the old one shifted; the latest element at or before a tick shifts with it; the bars up to a place are the old ones shifted, so their number is the same |
| C101 | the buttons, what they make of a note and their opposites (`S_Press.makes`, `S_Press.opposite`), the change of a list of notes (`S_Press.notes_to`) | C02, C16 and C55 take each note back; C88's account of elements moved about and put back |

Tests of the theorems against wrong programs are in `seeded/LOG.jsonl`.

## 5. Status, theorems and axioms

Generated from the sources and from the output of `Print Assumptions`.  "closed"
means closed under the global context; "R" means exactly these four axioms
of the standard library, which come in through the real numbers that Flocq's
operations on `f32` are proved with:

* `ClassicalDedekindReals.sig_forall_dec`
* `ClassicalDedekindReals.sig_not_dec`
* `Classical_Prop.classic`
* `FunctionalExtensionality.functional_extensionality_dep`

(Flocq's own modules and the library modules they load declare further parameters
of the standard library, such as those of `Rdefinitions`; none of them is an
assumption of a theorem.)  `_refuted` theorems state that the property is false
of the code as it is, with a witness.

| id | status | closed | R |
|----|--------|--------|---|
| C01 | proved | C01_pitch_consistent, C01_value_of_iff, C01_builder_refuted | — |
| C02 | proved | C02_up, C02_down, C02_errors, C02_up_down, C02_down_up | — |
| C03 | proved | C03_transpose, C03_errors, C03_compose, C03_from_score_offset, C03_zero_shift_refuted | — |
| C04 | proved | C04_toggle_sharp, C04_toggle_flat, C04_toggle_natural | — |
| C05 | proved | C05_apply_key, C05_apply_key_idempotent | — |
| C06 | proved | C06_octave_in_range, C06_octave_out_of_range, C06_octave_9_refuted | — |
| C07 | proved | C07_shorter, C07_tick_length, C07_lasts_unique, C07_bound, C07_monotone, C07_plain, C07_loaded_dots_refuted | — |
| C08 | proved | — | C08_longest, C08_longest_value, C08_note_length |
| C09 | proved | — | C09_rate_clamped, C09_rate_means_unique, C09_range, C09_monotone |
| C10 | proved | — | C10_roundtrip_refuted, C10_roundtrip_exact |
| C11 | proved | C11_apply_floor, C11_apply_exact, C11_hundred_percent, C11_zero_percent, C11_monotone, C11_wrap_refuted | — |
| C12 | proved | C12_added, C12_added_overflow, C12_trimmer_invariant | — |
| C13 | proved | C13_save_load, C13_save_load_refuted, C13_equality | — |
| C14 | proved | — | C14_save_load_refuted, C14_save_load_percent_rates, C14_save_load_array, C14_reload_stable |
| C15 | proved | C15_start_tick, C15_velocity | — |
| C16 | proved | C16_note_shift, C16_note_trim_shift, C16_note_shift_back, C16_bar_shift, C16_tempo_shift, C16_ctrl_shift, C16_tempo_drag, C16_shift_back, C16_drag_wraps, C16_shift_wraps_refuted, C16_shift_above, C16_drag_wraps_refuted | — |
| C17 | proved | C17_tempo_in_range, C17_no_panic, C17_step, C17_up_down, C17_down_up, C17_load, C17_drag_value, C17_drag_refuted | — |
| C18 | proved | C18_snap_nearest, C18_snap_defined, C18_snap_idempotent, C18_snap_monotone, C18_snap_odd, C18_loaded_grid_zero_refuted | — |
| C19 | proved | C19_rhythm | — |
| C20 | proved | C20_no_contradiction, C20_try_add, C20_remove, C20_remove_regions, C20_region_index, C20_len, C20_equal, C20_variations, C20_order_refuted | — |
| C21 | proved | C21_undo_buffer, C21_capacity_zero_refuted | — |
| C22 | proved | C22_tempo, C22_pedals | — |
| C23 | proved | C23_rhythm, C23_key | — |
| C24 | proved | C24_roundtrip, C24_monotone, C24_meaning, C24_bar_no | — |
| C25 | proved | C25_extrapolation, C25_total_refuted | — |
| C26 | proved | — | C26_covered, C26_no_excess |
| C27 | proved | — | C27_spacing, C27_terminates, C27_returns, C27_exact, C27_always_returns_refuted |
| C28 | proved | — | C28_undo, C28_ill_formed_refuted, C28_any, C28_exact |
| C29 | proved | — | C29_redo, C29_again |
| C30 | proved | — | C30_snapshots |
| C31 | proved | — | C31_recovery, C31_edits, C31_undone_refuted |
| C32 | proved | C32_initial | C32_invariant |
| C33 | proved | C33_export_import, C33_import_export, C33_loaded | — |
| C34 | proved | C34_rigid, C34_round, C34_idempotent, C34_empty, C34_far_refuted | — |
| C35 | proved | — | C35_models, C35_score, C35_refuted_trimmer, C35_refuted_tempo, C35_refuted_rate, C35_exact, C35_score_exact |
| C36 | proved | C36_unique | C36_empty, C36_version, C36_not_u64, C36_cannot_parse, C36_accepts, C36_ends, C36_panic, C36_refuted_no_panic, C36_score |
| C37 | proved | C37_roundtrip, C37_accepts, C37_refuses, C37_panics, C37_total_refuted | — |
| C38 | proved | C38_verdict, C38_mutate, C38_i16, C38_velocity, C38_numerator, C38_denominator, C38_tempo, C38_tempo_refuted, C38_refused, C38_refused_rhythm, C38_redisplay, C38_location | C38_empty, C38_total, C38_none |
| C39 | proved | C39_keeps, C39_places, C39_even, C39_returns, C39_panics, C39_exact, C39_chord_refuted, C39_large_refuted | — |
| C40 | proved | C40_same_performance, C40_none_joins, C40_fixed, C40_idempotent, C40_good | — |
| C41 | proved | C41_table, C41_table_panics, C41_exact, C41_found, C41_not_found, C41_either, C41_overflow_refuted | — |
| C42 | proved | C42_plays, C42_only, C42_one_order | — |
| C43 | proved | C43_exact, C43_plays, C43_only, C43_second, C43_implicit_refuted | — |
| C44 | proved | C44_target, C44_agrees, C44_upbeat, C44_documented_refuted | — |
| C45 | proved | C45_first, C45_last, C45_accepted_exact, C45_accepted, C45_truthful, C45_documented_refuted | — |
| C46 | proved | C46_exact, C46_chunks_exact, C46_without_jump, C46_returns, C46_panics_refuted | — |
| C47 | proved | C47_last_tick_refuted, C47_formed, C47_joined | — |
| C48 | proved | C48_first_equal, C48_canonical, C48_stable | — |
| C49 | proved | C49_clip, C49_clip_nan_refuted, C49_play_iter, C49_play_iter_accepts, C49_play_iter_value, C49_velocity, C49_channel | C49_clip_f32 |
| C50 | proved | — | C50_edit, C50_recorded, C50_settings, C50_any |
| C51 | proved | — | C51_exact, C51_exact_refuted, C51_between, C51_cut, C51_monotone, C51_accepts, C51_words, C51_refuses, C51_shown |
| C52 | proved | — | C52_savable, C52_score_savable, C52_refuted_checked, C52_layout, C52_score_as_models, C52_models_as_score |
| C53 | proved | C53_json | C53_project, C53_load, C53_exact, C53_layout |
| C54 | proved | — | C54_reopen, C54_edits, C54_stays_savable, C54_refuted_trimmer, C54_refuted_tempo |
| C55 | proved | C55_add_dots, C55_dots_back, C55_add_dots_overflow, C55_numerator, C55_duration, C55_tie, C55_tie_round, C55_accidentals, C55_step, C55_step_errors, C55_drag | C55_drag_refuted |
| C56 | proved | C56_grid, C56_grid_text, C56_numerator | — |
| C57 | proved | C57_exact, C57_plain, C57_jump | — |
| C58 | proved | C58_decimal | C58_clipboard, C58_project |
| C59 | proved | C59_undo_redo, C59_load | C59_reopen, C59_edit, C59_observer, C59_look, C59_history |
| C60 | proved | C60_undo_redo, C60_recorded | C60_session, C60_edit, C60_quiet, C60_redo, C60_redo_refuted |
| C61 | proved | C61_note, C61_pitch, C61_trimmer, C61_hash | C61_rate, C61_rate_refuted |
| C62 | proved | C62_rhythm, C62_tempo, C62_small, C62_octave, C62_keys, C62_repeat_set, C62_repeat_set_order_refuted, C62_note_build, C62_defaults | C62_note_default, C62_from_vec |
| C63 | proved | C63_keys, C63_rhythm | C63_history, C63_performed, C63_renders, C63_unheard, C63_unheard_refuted, C63_session, C63_session_played |
| C64 | proved | C64_any_marks, C64_sections, C64_five, C64_reach | — |
| C65 | proved | — | C65_copy_paste, C65_cut_paste, C65_same_place |
| C66 | proved | C66_marks, C66_letters, C66_numbers, C66_what, C66_render, C66_same_message, C66_pitch, C66_octave_refuted | — |
| C67 | proved | — | C67_session, C67_reopened, C67_queries, C67_loaded, C67_files_refuted, C67_even_tuplet |
| C68 | proved | C68_octave_value, C68_octave_step, C68_letter_step, C68_pitch_new, C68_moves, C68_length, C68_tempo, C68_channel, C68_snap, C68_location | C68_note_values |
| C69 | proved | C69_reading, C69_only, C69_played, C69_untorn, C69_returns, C69_start, C69_variation, C69_lowest | C69_played_refuted, C69_session |
| C70 | proved | — | C70_selection, C70_score, C70_project, C70_unique, C70_panics, C70_project_panics, C70_refuses |
| C71 | proved | — | C71_signatures, C71_location, C71_shown, C71_history |
| C72 | proved | — | C72_local, C72_in_force, C72_taken_out, C72_settings |
| C73 | proved | — | C73_together, C73_one_by_one, C73_selection, C73_order, C73_bars_refuted, C73_removal, C73_change, C73_tuplet, C73_and_back |
| C74 | proved | C74_lines, C74_marks_refuted, C74_upbeat_refuted | C74_project |
| C75 | proved | C75_stretch, C75_distances, C75_upbeat_refuted | — |
| C76 | proved | C76_inside, C76_shown, C76_any_offset_refuted | C76_note, C76_paste, C76_any_offset_note_refuted |
| C77 | proved | — | C77_same, C77_no_trace, C77_back_and_forth, C77_full_refuted |
| C78 | proved | C78_heard, C78_projects, C78_implicit_refuted | C78_add |
| C79 | proved | C79_shown, C79_renumbered, C79_typed, C79_counted_on_refuted | C79_edits, C79_replaced |
| C80 | proved | C80_size | C80_as_json, C80_cmd_as_json, C80_reopen_as_json, C80_project, C80_cmd, C80_log, C80_load, C80_load_cmd, C80_exact, C80_cut, C80_panic, C80_reopen, C80_refuted |
| C81 | proved | C81_times, C81_unheard, C81_end, C81_no_variations, C81_implicit_refuted | — |
| C82 | proved | C82_repeat, C82_jump, C82_signs, C82_top, C82_signs_jump, C82_inside_refuted | C82_project |
| C83 | proved | C83_endings, C83_jump, C83_signs, C83_top, C83_signs_jump, C83_segno_refuted | — |
| C84 | proved | C84_silent, C84_alike, C84_orphan, C84_ds, C84_dc, C84_top, C84_fine, C84_codas, C84_coda_refuted, C84_top_refuted | — |
| C85 | proved | C85_joined, C85_ds, C85_itself_refuted, C85_dc_refuted, C85_segno_refuted | C85_paste |
| C86 | proved | C86_entries, C86_table, C86_moment, C86_round, C86_only, C86_fewest, C86_joined, C86_sounding, C86_score, C86_alike, C86_top_refuted | — |
| C87 | proved | C87_further, C87_jump, C87_signs, C87_top, C87_signs_jump, C87_segno_refuted | — |
| C88 | proved | — | C88_drag, C88_back, C88_there_and_back, C88_parts, C88_either_first, C88_safe, C88_over_refuted |
| C89 | proved | — | C89_written, C89_any, C89_heard, C89_repeat, C89_repeat_jump, C89_endings, C89_endings_jump, C89_further, C89_further_jump |
| C90 | proved | C90_again, C90_in_turn, C90_equal, C90_short_refuted, C90_chord_refuted | C90_project |
| C91 | proved | C91_fine, C91_codas, C91_segno, C91_jump, C91_written, C91_fine_refuted | C91_project_fine, C91_project_codas, C91_project_jump |
| C92 | proved | — | C92_any_order, C92_at_once, C92_safe, C92_same_place_refuted |
| C93 | proved | C93_in_force, C93_heard, C93_location, C93_ending_refuted, C93_upbeat_refuted | C93_edits, C93_there_and_back |
| C94 | proved | — | C94_by_hand, C94_heard, C94_added, C94_deleted, C94_over_refuted, C94_safe |
| C95 | proved | — | C95_written, C95_one_by_one, C95_any_to_any, C95_bars_first, C95_bars_first_heard, C95_heard, C95_notes_first_refuted |
| C96 | proved | C96_start, C96_later | C96_repeat, C96_endings, C96_further, C96_jump, C96_fine, C96_codas |
| C97 | proved | C97_dressed, C97_numbers, C97_order, C97_chords, C97_chord_refuted | C97_project |
| C98 | proved | C98_again | C98_cut, C98_copy, C98_at_tick, C98_overlap_refuted |
| C99 | proved | — | C99_again, C99_no_notes, C99_delete, C99_settings, C99_change_refuted, C99_delete_refuted |
| C100 | proved | — | C100_in_force, C100_location, C100_notes, C100_location_refuted, C100_heard |
| C101 | proved | — | C101_taken_back, C101_opposite, C101_ties, C101_notes_only, C101_accidentals, C101_accidentals_refuted, C101_trim_refuted |
