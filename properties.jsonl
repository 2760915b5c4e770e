{"id": "C01", "title": "Every pitch carries a consistent MIDI number", "statement": "Any Pitch obtained from Pitch::value_of / new / from_score_offset / deserialisation and then pushed through any sequence of up, down, toggle_sharp/flat/natural, apply_key and with_score_offset_delta has value() between 0 and 127, equal to 12*(octave+2)+scale step+accidental, and score_offset() = 7*(octave+2)+letter; value_of succeeds exactly when that number is in 0..=127. (Values built field by field through PitchBuilder are the one exception.)", "quantifier": "all letters, octaves, accidentals and all finite sequences of pitch operations", "why_tests_cant": "the operations compose without bound; a test only looks at a few pitches and single steps", "anchors": ["src/pitch.rs: Pitch::value_of, up, down, toggle_*, apply_key, with_score_offset_delta, from_score_offset", "src/octave.rs", "src/solfa.rs"]}
{"id": "C02", "title": "Moving a pitch up and down one staff step is reversible", "statement": "Whenever up() succeeds on a valid pitch, down() on the result succeeds and gives the original pitch back (and conversely); the staff position moves by exactly one, the accidental is kept, and neither call ever panics. A refusal names the pitch one staff position away with its MIDI number and the side of 0..127 it lies on; going down from the lowest staff position is refused about the pitch itself, with the number -1.", "quantifier": "all valid pitches", "why_tests_cant": "boundary pitches with every accidental have to be covered, and the claim is about pairs of calls", "anchors": ["src/pitch.rs: Pitch::up, Pitch::down", "src/octave.rs: AddAssign/SubAssign", "src/solfa.rs: AddAssign/SubAssign"]}
{"id": "C03", "title": "Transposing by staff steps is exact and additive", "statement": "with_score_offset_delta(d) on a valid pitch either returns the pitch with the same accidental whose staff position is exactly d higher, or an error; it panics exactly if the sum of staff position and delta overflows an i32, moves compose (a then b equals a+b whenever both succeed), and from_score_offset clamps to the staff. It errs only if the target leaves 0..=74 or its MIDI number leaves 0..=127. The exception found: A double-flat in octave 8 is a valid pitch on position 75 for which even delta 0 fails. The error says which of the two it was, with the staff position or the pitch and its MIDI number.", "quantifier": "all valid pitches and all i32 deltas", "why_tests_cant": "unbounded set of deltas and compositions", "anchors": ["src/pitch.rs: with_score_offset_delta, from_score_offset, score_offset_to_solfa_octave"]}
{"id": "C04", "title": "Accidental toggles cycle", "statement": "toggle_sharp steps none -> sharp -> double sharp -> none, toggle_flat likewise with flats, toggle_natural switches natural on and off; any other accidental is replaced by the toggled one; letter and octave never change; an error is returned exactly if the resulting MIDI number leaves 0..=127. The error names the pitch that would have resulted, its MIDI number, and the side of 0..127 it lies on.", "quantifier": "all valid pitches", "why_tests_cant": "all pitches near the ends of the MIDI range, all accidentals and repeated toggles", "anchors": ["src/pitch.rs: toggle_sharp, toggle_flat, toggle_natural"]}
{"id": "C05", "title": "Key signatures are applied as in music theory", "statement": "apply_key(k) sharpens (k>0) exactly the first |k| letters of F C G D A E B, flattens (k<0) exactly the first |k| letters of B E A D G C F, leaves notes that already carry an accidental (including natural) alone, leaves the pitch unchanged for key numbers outside -7..=7 and applying it twice equals applying it once.", "quantifier": "all valid pitches and all i8 key numbers", "why_tests_cant": "a hand-written 15 row table against every letter, octave and accidental", "anchors": ["src/key.rs: Key::SOLFAS", "src/pitch.rs: apply_key"]}
{"id": "C06", "title": "Octave numbers are validated", "statement": "Octave::value_of(v) returns the octave v for -2<=v<=8 and an error for every other i32, without panicking. (Found false: v=9 indexes past the table and panics, and so do the two largest i32, whose sum with 2 overflows; all other values behave.)", "quantifier": "all i32 values", "why_tests_cant": "the tests try -3 and 10 and miss 9", "anchors": ["src/octave.rs: Octave::value_of, Octave::from_score_offset"]}
{"id": "C07", "title": "Note lengths follow the notation", "statement": "Duration::tick_length equals floor(2*L/den) where L = 2*len - floor(len/2^dots) and len is 960 halved once per numerator step, for every numerator, denominator 2..=255 and dots 0..=7; it never overflows, is at most 1913, grows with dots, shrinks with the denominator, and an undotted den-2 value is exactly its plain length.", "quantifier": "all 8 numerators, all denominators 2..=255, all dots 0..=7", "why_tests_cant": "14k combinations plus monotonicity over pairs; integer truncation at several places", "anchors": ["src/duration.rs: Duration::tick_length, Denominator::from_value, Dots::from_value"]}
{"id": "C08", "title": "No note is longer than LONGEST_TICK_LEN", "statement": "For every valid duration and every duration trimmer whatever its four rates (NaN and infinities included), Note::tick_len() <= 3826 = LONGEST_TICK_LEN.", "quantifier": "all durations, all quadruples of f32 rates and of raw u16 percent values", "why_tests_cant": "floating-point inputs cannot be enumerated; note_max_end_tick silently relies on this", "anchors": ["src/note.rs: tick_len, LONGEST_TICK_LEN", "src/trimmer.rs: RateTrimmer", "src/percent.rs"]}
{"id": "C09", "title": "Rates are clamped to 0..200%", "statement": "PercentU16::from(x) is between 0 and 2000 for every f32 x: NaN and negatives give 0, anything above 2.0 gives 2000, otherwise the value is x*1000 rounded to f32 and truncated; it is monotone in x.", "quantifier": "all 2^32 f32 bit patterns", "why_tests_cant": "rounding of the f32 product next to the clamp limits", "anchors": ["src/percent.rs: From<f32>"]}
{"id": "C10", "title": "Percent values survive conversion to f32 and back", "statement": "PercentU16::from(p.to_f32()) == p for all p in 0..=2000. (Found false: for exactly ten values such as 251 the result is one less.) What holds: the result is p or p-1.", "quantifier": "all percent values 0..=2000", "why_tests_cant": "rounding errors appear on 10 of 2001 values only", "anchors": ["src/percent.rs: to_f32, From<f32>", "src/trimmer.rs: RateTrimmer::from_array"]}
{"id": "C11", "title": "Applying a percentage is exact integer arithmetic", "statement": "p.apply(v) = floor(v*p/1000) for p<=2000 and v<2^31; 100% is the identity and 0% gives 0 for every u32, it is monotone in both arguments and never panics. Beyond that range the result wraps.", "quantifier": "all u32 values and all percent values", "why_tests_cant": "overflow behaviour and monotonicity over the whole range", "anchors": ["src/percent.rs: CanApply::apply"]}
{"id": "C12", "title": "Adding to a trimmer saturates without losing ticks", "statement": "Trimmer::added(t) makes sum() exactly clamp(sum+t, 4*i16::MIN, 4*i16::MAX); each of the four values stays an i16 and only a prefix of the values is touched; it never panics when |t| <= i32::MAX-i16 range.", "quantifier": "all quadruples of i16 and all i32 amounts (within the no-overflow range)", "why_tests_cant": "carry propagation through four mixed-sign slots", "anchors": ["src/trimmer.rs: Trimmer::added, Trimmer::new"]}
{"id": "C13", "title": "Trimmers survive being saved and loaded", "statement": "Deserialising the serialised form of a Trimmer gives an equal Trimmer. (Found false: the i16 sum in from_array overflows for e.g. (20000,20000,0,0), so loading panics or yields another sum.) It holds exactly when the running i16 sums fit.", "quantifier": "all quadruples of i16", "why_tests_cant": "needs large values in several slots; tests use single digits", "anchors": ["src/trimmer.rs: Trimmer::from_array, From<TrimmerSerializedForm>"]}
{"id": "C14", "title": "Rate trimmers survive being saved and loaded", "statement": "Deserialising a RateTrimmer made with new(r0..r3) gives an equal trimmer with the same effect. (Found false: new computes its product from the raw rates, loading recomputes it from the quantised ones.) It holds for every trimmer made with from_array/from_vec or already loaded once.", "quantifier": "all f32 rate quadruples", "why_tests_cant": "depends on f32 rounding of arbitrary inputs", "anchors": ["src/trimmer.rs: RateTrimmer::new, from_array, From<RateTrimmerSerializedForm>"]}
{"id": "C15", "title": "Effective start tick and velocity of a note are clamped", "statement": "Note::start_tick() = max(0, base+trim) whenever that fits u32, and Note::velocity() = clamp(base+trim, 0, 127) always; neither panics.", "quantifier": "all notes with any trimmers", "why_tests_cant": "the trimmers range over 2^64 combinations", "anchors": ["src/note.rs: start_tick, velocity"]}
{"id": "C16", "title": "Shifting an element in time is exact or refused", "statement": "with_tick_added(d) on a note, bar, tempo or control change returns Err exactly if the tick would be negative, otherwise an element equal to the original except for its tick being exactly d later (if that fits in u32); shifting by d then -d restores it. drag(d) agrees with it whenever the target is in range and silently wraps otherwise. Past the last u32 tick with_tick_added does not refuse either: the result is exactly 2^32 ticks earlier.", "quantifier": "all elements and all i32 deltas", "why_tests_cant": "all ticks and deltas incl. both ends of u32", "anchors": ["src/note.rs: with_tick_added, drag", "src/bar.rs: with_tick_added, drag", "src/tempo.rs", "src/ctrl_chg.rs"]}
{"id": "C17", "title": "Tempo values stay in range", "statement": "Starting from a tempo in 1..=999, any sequence of up/down/drag and save/load keeps it in 1..=999, and up then down is the identity when both succeed. (Found false for drag: dragging below zero wraps to 999 and dragging to exactly zero gives 0.) A refused step reports 1000 at the top and 1 at the bottom. A dragged value is taken modulo 2^16 and then limited to 999, which says exactly when it leaves the range.", "quantifier": "all tempo values, all i32 deltas, all sequences of operations", "why_tests_cant": "wrap-around at the u16 conversion", "anchors": ["src/tempo.rs: TempoValue::up, down, safe_new, Tempo::drag, From<SerializedTempoValue>"]}
{"id": "C18", "title": "Grid snapping picks the nearest grid line", "statement": "For a grid g>0, snap(t) is a multiple of g, no multiple of g is nearer to t (ties away from zero), snap is idempotent, monotone and odd.", "quantifier": "all grids 1..=u32::MAX and all i64 ticks for which no overflow happens", "why_tests_cant": "nearest-multiple over all integers, negative truncation", "anchors": ["src/grid.rs: Grid::snap, Grid::from_u32"]}
{"id": "C19", "title": "Bar length follows from the time signature", "statement": "Rhythm::value_of(n,d) succeeds exactly for 1<=n<=99 and d in {2,4,8,16,32,64}, and then tick_len()*d = n*960 exactly and is at least 15. A refused pair is blamed on n whenever n is wrong, and otherwise on d.", "quantifier": "all u8 pairs", "why_tests_cant": "65536 pairs; exactness of an integer division", "anchors": ["src/rhythm.rs: Rhythm::value_of, tick_len"]}
{"id": "C20", "title": "Repeat marks on a bar never contradict each other", "statement": "After any sequence of try_add and remove starting from the empty set: at most one variation mark is present; Start never coexists with D.C., D.S. or a variation; End never with a variation; D.C./D.S. never with a variation. try_add(r) succeeds iff no disliked mark is present and then adds exactly r. (Found false: acceptance depends on the insertion order, e.g. D.C. then D.S. is accepted although D.S. then D.C. is refused.)", "quantifier": "all finite sequences of try_add/remove", "why_tests_cant": "all histories and orders of 11 marks", "anchors": ["src/bar.rs: RepeatSet::try_add, remove, region_index, remove_resions"]}
{"id": "C21", "title": "The in-memory undo buffer is a bounded undo stack", "statement": "After any sequence of add, undo, redo and freeze, the UndoStore behaves as two stacks: add drops the redo stack, pushes and keeps the newest max(capacity,1) entries; undo/redo return and move the top; can_undo/can_redo/len agree; add is ignored while frozen.", "quantifier": "all capacities and all finite operation histories", "why_tests_cant": "arbitrary interleavings of add/undo/redo with eviction", "anchors": ["src/undo.rs: UndoStore"]}
{"id": "C22", "title": "Tempo and pedal lookup returns the value in force", "statement": "tempo_at(t), dumper_at(t), soft_at(t) return the value of the entry with the greatest tick <= t, or the default (120, 0) if there is none.", "quantifier": "all project states and ticks", "why_tests_cant": "binary search over all sorted stores and positions", "anchors": ["src/project.rs: tempo_at, ctrl_chg_at"]}
{"id": "C23", "title": "Rhythm and key lookup return the signature in force", "statement": "rhythm_at(t) / key_at(t) return the rhythm/key of the latest bar at or before t that sets one, else the project's own.", "quantifier": "all project states and ticks", "why_tests_cant": "backwards search over arbitrary bars", "anchors": ["src/project.rs: rhythm_at, key_at"]}
{"id": "C24", "title": "Ticks and locations convert back and forth", "statement": "location_to_tick(tick_to_location(t)) = Ok(t) for every tick; tick_to_location is monotone (lexicographically) and injective; within bar b the offset counts from that bar's start. The number of a bar is its position among the stored bars, found by its tick, and there is none exactly if no bar is stored at that tick.", "quantifier": "all sorted bar lists and all u32 ticks", "why_tests_cant": "every bar layout", "anchors": ["src/project.rs: location_to_tick, tick_to_location", "src/project.rs: ProjectImpl::bar_no"]}
{"id": "C25", "title": "Locations beyond the score are extrapolated or refused", "statement": "location_to_tick(bar b, offset o) equals bar start + o for existing bars, extrapolates by the bar length in force for later bars, and returns Err(Overflow) exactly if the mathematical result exceeds u32::MAX. (Found false: if the result exceeds usize::MAX and 1 <= b <= u32::MAX the sum overflows and panics; this is the only exception, see C68.)", "quantifier": "all projects, all usize bar numbers and offsets", "why_tests_cant": "64-bit arithmetic corner cases", "anchors": ["src/project.rs: location_to_tick"]}
{"id": "C26", "title": "Adding content always leaves enough bars", "statement": "After add_note/add_tempo/add_dumper/add_soft/bulk_add/change/tuplize, there is a bar at or after the end of every note and the tick of every tempo/pedal event (or the project ends at tick 0); no more bars than needed are added: no new bar starts a full bar after the end.", "quantifier": "all project states and all added elements", "why_tests_cant": "note_max_end_tick scans only the tail of the notes and is right only if no earlier note is longer than the bound", "anchors": ["src/project.rs: replenish_bars, note_max_end_tick"]}
{"id": "C27", "title": "Replenished bars are evenly spaced and never overwrite", "statement": "The bars added automatically all come after the last existing bar, are spaced by exactly the bar length in force there, carry no marks, and all earlier bars stay untouched; the loop terminates for every valid rhythm unless the u32 tick range is exhausted. Exactly: an edit runs for ever if and only if the bar length in force at the end is 0 and some content ends after the last bar (but none beyond the tick range), and panics if and only if some content ends beyond the tick range, or after the last bar with no bar line left for it in the range. (A rhythm with numerator 0, reachable by deserialisation, never terminates.)", "quantifier": "all project states", "why_tests_cant": "termination and arbitrarily many added bars", "anchors": ["src/project.rs: replenish_bars, add_bar_internal"]}
{"id": "C28", "title": "Undo restores the project", "statement": "After set_rhythm/key/grid, add_note/bar/tempo/dumper/soft, tuplize, bulk_remove, bulk_add or change with well-formed arguments (removed/changed elements are present, no two added marks share a tick), undo returns the project to the state it had before: same settings, same bars/tempos/pedals, same multiset of notes. For any arguments at all: after undo each note is there as often as before or as often as it was said to be taken out, whichever is more; at a tick where several bars (tempos, pedal events) were put the last but one stays, elsewhere those said to be taken out are there. So undo restores the project if and only if what is taken out was there, and what was last but one put at a tick was there.", "quantifier": "all project states and all commands", "why_tests_cant": "overwritten entries, replenished bars and multi-element changes in any combination", "anchors": ["src/project.rs: ProjectCmd::undo, Project impl for SqliteUndoStore"]}
{"id": "C29", "title": "Redo repeats the edit", "statement": "Redoing an undone command gives the same project as the original edit, although the original edit was executed by different code (a mutate closure). Where the command was recorded, doing it again gives exactly the project the edit gave, also for edits that take out what is not there or put several elements on one tick.", "quantifier": "all project states and commands", "why_tests_cant": "two implementations of each edit must agree everywhere", "anchors": ["src/project.rs: ProjectCmd::redo, Project impl"]}
{"id": "C30", "title": "Any undo/redo/edit history equals a snapshot history", "statement": "For every sequence of edits with well-formed arguments (as in C28), undos and redos the project equals what an editor that stores full snapshots would show, with at most the configured number of undo steps. (Ill-formed edits: see C28, C29, C31, C50.)", "quantifier": "all finite histories, all undo limits", "why_tests_cant": "unbounded histories", "anchors": ["src/project.rs: Project impl for SqliteUndoStore", "src/project.rs: ProjectCmd"]}
{"id": "C31", "title": "Reopening after a crash gives the last committed project", "statement": "Replaying the recorded commands from the last snapshot, at any crash point, gives the project as it was after the last recorded command. After any operations, if only edits follow, this holds whatever the edits are given; with an ill-formed edit undone it does not (found false).", "quantifier": "all histories and all crash points between commands", "why_tests_cant": "every prefix of every history", "anchors": ["src/project.rs: ProjectCmd::redo, ProjectImpl serde"]}
{"id": "C32", "title": "Store contents stay sorted and keyed by their own tick", "statement": "After any history every bar/tempo/pedal repo is strictly sorted by tick with each entry stored under its own start tick (at most one per tick), and notes are sorted by effective start tick.", "quantifier": "all finite histories", "why_tests_cant": "invariant over histories", "anchors": ["src/project.rs: Project impl, From<ExportedProject>"]}
{"id": "C33", "title": "Exporting and importing a project is lossless", "statement": "ProjectImpl -> ExportedProject -> ProjectImpl gives the same settings and contents, and ExportedProject -> ProjectImpl -> ExportedProject only sorts the elements when ticks are distinct. If a file gives several elements for one tick, the last of them is loaded, and all notes are.", "quantifier": "all project states", "why_tests_cant": "all contents", "anchors": ["src/project.rs: From<ExportedProject> for ProjectImpl, Into<ExportedProject>"]}
{"id": "C34", "title": "Pasting moves a selection rigidly", "statement": "move_to_tick(t) on a non-empty selection makes the smallest tick exactly t, keeps all distances between elements and all other attributes, provided the largest tick still fits in u32 (otherwise the ticks beyond start again at 0, and nothing else changes); it is idempotent, and the identity on an empty selection.", "quantifier": "all selections and all target ticks", "why_tests_cant": "mixed kinds of elements, all ticks", "anchors": ["src/models.rs: Models::move_to_tick"]}
{"id": "C35", "title": "Copy and paste through clipboard text is lossless", "statement": "from_clipboard_text(to_clipboard_text(m)) = Ok(m) for every selection whose elements are valid (tempo 1..=999, trimmer sums that fit, rate trimmers made from percent values), and for no other.", "quantifier": "all selections", "why_tests_cant": "arbitrary nested data through two formats", "anchors": ["src/models.rs: to_clipboard_text, from_clipboard_text", "serde impls of note, bar, tempo, ctrl_chg"]}
{"id": "C36", "title": "Clipboard text of another version or format is refused", "statement": "from_clipboard_text returns EmptyString for blank text, VersionErr(v) for a leading integer v other than 1, VersionNotU64 for another leading JSON value and CannotParse otherwise; it succeeds only if the text starts with the number 1.", "quantifier": "all strings", "why_tests_cant": "arbitrary strings", "anchors": ["src/models.rs: from_clipboard_text", "src/exported_project.rs: from_clipboard_text"]}
{"id": "C37", "title": "Location text round trip", "statement": "Location::parse(loc.to_string()) = Some(loc) for all locations; parse accepts only digits, a colon, digits. (Found false that it never panics: overflowing or non-ASCII digits panic.)", "quantifier": "all usize pairs; all strings", "why_tests_cant": "arbitrary strings and sizes", "anchors": ["src/location.rs: parse_location, Display"]}
{"id": "C38", "title": "A text field's verdict always matches its text", "statement": "After any sequence of edits TextInput::validate() is the result of parsing the current input(); empty input is Ok(None); an accepted number is within its type's range and re-displaying it parses to the same value. (Found false that validation never panics: tempo text 1000 panics.) Only the empty text means no value. For every refused text the reported error is exactly determined: empty digits, a foreign character, or overflow above or below, decided at the first character that settles it; for rhythm fields the offending number is reported.", "quantifier": "all strings and all finite edit histories", "why_tests_cant": "arbitrary texts and edit sequences", "anchors": ["src/text_input.rs: TextInput, FromStr impls"]}
{"id": "C39", "title": "Tuplizing keeps the notes", "statement": "tuplize returns as many notes as given, in order of start tick, each equal to an input note except for base start tick and the tuplet denominator; the first stays where it was; n equally long notes at different ticks with 2<=n<=255 are spread evenly over twice one note length. (Found false: notes of a chord are spread apart; more than 255 units panics or yields a wrong denominator. It panics exactly if the tuplet number is at least 2 and 0 or 1 modulo 256, or the total length in ticks or 256th notes, the length of the group times what precedes the last note, or the place of the last note exceeds 32 bits; none of the latter happens for up to 2048 notes that leave room at the end of the time line.)", "quantifier": "all non-empty note lists", "why_tests_cant": "any number of notes, chords and dotted values", "anchors": ["src/tuple.rs: tuplize, sort_by_start_tick, total_tick_unit, numerator_unit"]}
{"id": "C40", "title": "Joining chunks does not change the performance", "statement": "Chunk::optimize returns chunks that play exactly the same tick sequence, no two neighbours of which could still be joined; optimising again changes nothing.", "quantifier": "all lists of well-formed chunks", "why_tests_cant": "arbitrary lists", "anchors": ["src/repeat.rs: Chunk::optimize"]}
{"id": "C41", "title": "Start positions map to the right place of the performance", "statement": "For by_accum_tick(chunks), PlayStartTick{tick,iter}.to_accum_tick returns the position in the performed tick sequence where `tick` is played for the iter-th time, and CannotFind{max_iter} with the number of times it is played (at most) otherwise (Found false where position plus the start of the section that plays the tick exceeds u32: there, and only there, it panics; by_accum_tick panics exactly if what the closed chunks play cannot be counted in u32.)", "quantifier": "all chunk lists, ticks and iterations", "why_tests_cant": "arbitrary repeats structure", "anchors": ["src/repeat.rs: Chunk::by_accum_tick, contains", "src/play_start_tick.rs: to_accum_tick"]}
{"id": "C42", "title": "Repeats and variations play in the documented order", "statement": "For every score without D.C./D.S. laid out as in docs/repeat/structure.md, render_region succeeds and the chunks play plain sections once, repeated sections twice, and for variations common+v1, common+v2, ...; conversely whenever it succeeds the bars have such a layout.", "quantifier": "all bar lists", "why_tests_cant": "arbitrary sequences of sections and interior bars", "anchors": ["src/repeat.rs: render_region, CompoundRegion::to_chunks", "docs/repeat/order.md", "docs/repeat/structure.md"]}
{"id": "C43", "title": "D.C. and D.S. play in the documented order", "statement": "With a D.S./D.C. the performance is the first pass up to the mark, followed by, in order, exactly the ticks from the Segno (or the implicit one) to Fine (or the end), skipping what lies between two Codas and all but the last variation, each once. (Found false if the mark is inside a first repeat whose start is not written: the whole first pass is lost then.)", "quantifier": "all well-formed scores with D.C./D.S., Segno, Fine, Coda", "why_tests_cant": "combinations of region kinds and jump marks", "anchors": ["src/repeat.rs: render_chunks, to_iter1_chunks", "src/global_repeat.rs: build, to_interval_set"]}
{"id": "C44", "title": "D.C. in a tune with an upbeat", "statement": "When the first bar is shorter than a full bar, D.C. goes back to bar 2 if the bar before D.C. is a full bar and to the top otherwise. (Found false: the length of the D.C. bar is never looked at.)", "quantifier": "all tunes with an upbeat", "why_tests_cant": "documented rule against all bar layouts", "anchors": ["src/global_repeat.rs: on_bar, build", "docs/repeat/order.md"]}
{"id": "C45", "title": "Malformed repeat structures are rejected", "statement": "render_region returns the corresponding error for unbalanced or nested repeats, orphan repeat ends, unclosed variations, wrong variation numbers, duplicated D.C./D.S./Segno/Fine, more than two codas, D.S. without Segno, codas after Fine. If several errors apply, the one found at the earliest bar is reported, whatever bars follow it; an error of the end of the tune only if every bar can be read, first a repeat or variation still open, and what is wrong with the jump only if none is open. (Found false for some documented rules: Fine, Segno or Coda without D.C./D.S., a Segno after Fine, and a single variation are accepted.)", "quantifier": "all bar lists", "why_tests_cant": "arbitrary malformed inputs", "anchors": ["src/repeat.rs: render_region", "src/global_repeat.rs"]}
{"id": "C46", "title": "Rendering never panics", "statement": "render_region and to_chunks return normally for every list of bars. (Found false.) render_region panics exactly if a first, second or third variation mark comes directly after the fourth variation, or if the repeats are right and D.C. without Segno meets a first bar longer than half the tick range, or the first coda is not after the target of the jump, or the second coda is at Fine. to_chunks panics exactly if there is a jump and a repeat or variation mark at tick 0, or a jump mark before the first variation of a repeat whose start is not written. Nothing else panics, and nothing hangs.", "quantifier": "all sorted bar lists", "why_tests_cant": "arbitrary bar lists", "anchors": ["src/repeat.rs: render_region, to_iter1_interval_set, render_chunks"]}
{"id": "C47", "title": "Rendered chunks are well-formed", "statement": "For every successful rendering each chunk has start <= end, and only the last chunk extends to the end of time (u32::MAX). (Found false for a bar at tick u32::MAX itself: a repeat that ends there gives several such chunks, and then no start position of the tune is found.)", "quantifier": "all successfully rendered scores", "why_tests_cant": "arbitrary scores", "anchors": ["src/repeat.rs: CompoundRegion::to_chunks"]}
{"id": "C48", "title": "Interning returns one canonical object", "statement": "FlyWeight::intern returns an object equal to its argument, the very same object for all equal arguments however many calls lie between, and never changes an earlier answer.", "quantifier": "all call sequences", "why_tests_cant": "arbitrary call histories", "anchors": ["src/fly_weight.rs: FlyWeight::intern"]}
{"id": "C49", "title": "Range helpers keep values in range", "statement": "Clipper::clip returns a value in [min,max] for min<=max, equal to its argument if that is in range (for f32: unless NaN); PlayIter is always in 1..=5 after any sequence of set_iter; Velocity is always <=127; Channel <16.", "quantifier": "all values and histories", "why_tests_cant": "all inputs", "anchors": ["src/clipper.rs: Clipper::clip", "src/play_iter.rs: PlayIter", "src/velocity.rs", "src/channel.rs"]}
{"id": "C50", "title": "An edit does exactly what it says", "statement": "Every edit of a project that returns takes out exactly the elements it names, puts in exactly the elements it is given (an element of a one-per-tick kind replaces what was at its tick), may append blank bars after all others, and leaves every other element and setting as it was; it is recorded for undo except tuplizing fewer than two notes, which does nothing. This is also settled for edits given anything: what is to be taken out and is not there is ignored, note by note counted with multiplicity, and of several elements put at one tick the last one stays.", "quantifier": "all projects and all well-formed edits of every kind", "why_tests_cant": "unbounded projects, selections and coincidences of ticks", "anchors": ["src/project.rs: ProjectImpl, Project::add_note, Project::add_bar, Project::add_tempo, Project::add_dumper, Project::add_soft, Project::tuplize, Project::bulk_remove, Project::bulk_add, Project::change, replenish_bars, note_repo (the Store and BagStore of klavier_helper)"]}
{"id": "C51", "title": "Typed rates are read as the percentage they say", "statement": "A rate typed as decimal text (sign, point and exponent allowed) is read as its number of thousandths when it is one, except 0.251, 0.253, 0.502, 0.506, 0.511, 1.004, 1.009, 1.012, 1.017 and 1.022, which are read one thousandth lower; other numbers are read within one thousandth; the order of numbers is kept; numbers below 0 give 0 and above 2 give 2; exactly numbers and the words inf, infinity and nan (in any case, with or without a sign) are accepted, infinity as 2, minus infinity and nan as 0; the empty text is no rate; the displayed text of a percentage stands for exactly that percentage.", "quantifier": "all strings and all percentages", "why_tests_cant": "infinitely many spellings; decimal text goes through two roundings to f32", "anchors": ["src/text_input.rs: FromStr for Validated<Option<PercentU16>>", "src/percent.rs: PercentU16"]}
{"id": "C52", "title": "What is pasted is in range and its layout does not matter", "statement": "Whatever from_clipboard_text accepts has every number in the range of its type (velocity at most 127, tempo 1..=999, denominator at least 2, pitch within MIDI, trimmer sums that fit), so copying it again loses nothing. Order of members, further members, blanks and escapes in the text do not change what is read. Text with a key and a rhythm can be pasted as a plain selection and the other way round. Channel, key, dots and rhythm numerator are not checked further than their integer type: channel 200, key 100, eight dots and 0/4 are accepted.", "quantifier": "all strings", "why_tests_cant": "arbitrary strings and layouts", "anchors": ["src/models.rs: from_clipboard_text", "src/exported_project.rs: from_clipboard_text, to_models", "Deserialize of Note, Bar, Tempo, CtrlChg, Pitch, Duration, Trimmer, RateTrimmer"]}
{"id": "C53", "title": "Saving a project as JSON and loading it gives the same project", "statement": "A project (rhythm, key, grid and all elements) that is serialized to JSON text and deserialized again is the same project, and whatever is loaded from JSON is a sorted, correctly keyed project that can be saved again without loss; the layout of the JSON text does not matter. Exactly the sorted, correctly keyed projects with everything in range survive.", "quantifier": "all projects, all JSON texts", "why_tests_cant": "unbounded projects and texts", "anchors": ["src/project.rs: ProjectImpl Serialize/Deserialize, ExportedProject conversion", "src/grid.rs", "src/rhythm.rs", "src/key.rs"]}
{"id": "C54", "title": "A session can be recovered from disk", "statement": "Whatever was edited, undone and redone in a session, the project as it was k commands ago, serialized, and the k commands since then, serialized, are read back without a panic, and redoing the commands gives the project the session ended with; the commands read back are the commands written, with what each was told about the selection. This holds as long as what the edits put in is in the range that survives saving; notes trimmed past an i16 sum panic when the session is reopened, and a tempo dragged to 0 comes back as 1. If only edits follow the snapshot, this holds exactly and whatever they are given, also if what they take out is not there.", "quantifier": "all projects, all histories of edits, undo and redo, all snapshot positions", "why_tests_cant": "unbounded projects and histories", "anchors": ["src/project.rs: ProjectCmd Serialize/Deserialize, ProjectImpl Serialize/Deserialize, Project::open", "src/trimmer.rs: Deserialize", "src/tempo.rs: Deserialize"]}
{"id": "C55", "title": "Editing a note changes only what the edit is about", "statement": "Adding dots, changing the note value, the tie button, accidentals, steps on the staff and dragging change just that part of the note and keep everything else. Dots stay within 0..=7 and a refused count is reported; taking away the dots that were added gives the note back. The tie button goes through none, tie, tied, both and back. Dragging moves by exactly the given ticks (found false beyond the ends of the time line: the tick is then taken modulo 2^32) and staff steps, and panics exactly where there is no such staff position or pitch, which includes a drag by nothing of an A double flat in octave 8. A refused step or accidental reports the pitch it would have led to.", "quantifier": "all notes, all i32 amounts", "why_tests_cant": "all notes and amounts", "anchors": ["src/note.rs: add_dots, with_duration, with_duration_numerator, toggle_tie, toggle_sharp, toggle_flat, toggle_natural, up_score_offset, down_score_offset, drag", "src/duration.rs: Dots::from_value"]}
{"id": "C56", "title": "Grids and time signature numbers are read from text as what they say", "statement": "Grid::value_of accepts exactly the texts of integers 1..=u32::MAX (optional plus, leading zeros) and gives that grid, reports the text otherwise (\"0\" for any spelling of zero), and reads back what Grid::to_string shows; Numerator::from_str accepts exactly the texts of 1..=99, reports other u8 values as values and everything else as text.", "quantifier": "all strings", "why_tests_cant": "all strings", "anchors": ["src/grid.rs: value_of, from_u32, to_string", "src/rhythm.rs: Numerator::from_str, from_value"]}
{"id": "C57", "title": "The ticks reported for the last pass are those of the last pass", "statement": "The interval set a rendered region reports for its last time through (to_iter1_interval_set) is, for a tune with D.C. or D.S., exactly the ticks that are played after the jump (from the target to Fine, without what is between the codas and without the variations other than the last), and for a tune without a jump every tick except those of the variations other than the last. It can be asked for whenever the tune can be rendered, except if a repeat or variation mark is on a bar at tick 0; then asking for it panics (found false that it always returns).", "quantifier": "all bar sequences that lay out as plain, repeated and varied sections, all positions of jump, Segno, Fine and codas, all ticks", "why_tests_cant": "unbounded numbers of bars and sections; set equality over all ticks", "anchors": ["src/repeat.rs: Region::to_iter1_interval_set, CompoundRegion", "src/global_repeat.rs: iter1_interval_set"]}
{"id": "C58", "title": "Copied and saved texts have a fixed layout", "statement": "The text that Models::to_clipboard_text gives is the version number 1 followed by one JSON object with exactly the documented members in a fixed order (notes, bars, tempos, dumpers, softs; in each element its fields by name; enum variants by name; numbers in plain decimal; repeat marks as the sum of fixed weights 1 for Start up to 1024 for Var4), without blanks; and the serialized project is an object of rhythm, key, grid and models in the same layout. So texts exchanged between versions and programs keep their meaning.", "quantifier": "all selections and projects that can be saved", "why_tests_cant": "unbounded lists of elements of all values", "anchors": ["src/models.rs: to_clipboard_text, Models", "src/note.rs, src/bar.rs, src/tempo.rs, src/ctrl_chg.rs, src/pitch.rs, src/duration.rs, src/trimmer.rs, src/rhythm.rs: Serialize", "src/project.rs: ProjectImpl Serialize"]}
{"id": "C59", "title": "An observer that follows the events is never out of step with the project", "statement": "The note, bar, tempo and pedal events a project reports for an edit, an undo, a redo or for loading describe exactly what was done to its repositories: replaying the reported events on a copy of what the repositories were gives what they are. So an observer that replays them whenever it likes and then clears them always ends up with the same repositories, whatever sequence of edits, undos and redos lies between its looks; it may start from nothing when a project is loaded or a session is reopened from a snapshot and a log of commands. Edits that change nothing report nothing.", "quantifier": "all projects, all edits with all arguments, all interleavings of edits, undos, redos and looks of any length", "why_tests_cant": "unbounded sequences of operations and unbounded numbers of elements; bars that are appended automatically have to be reported too", "anchors": ["src/project.rs: note_repo/bar_repo/tempo_repo/dumper_repo/soft_repo events, clear_events, add_note \u2026 change, Cmd for ProjectCmd (undo, redo), from ExportedProject", "src/project.rs: ModelChangeMetadata"]}
{"id": "C60", "title": "Events say which elements are to be selected", "statement": "Every element the caller asks to have put in is reported with the selection metadata the caller gave (add_*: select, tuplize: selected, bulk_add and change: the given metadata), bars that are appended automatically are reported as neither to be selected nor unselected, and nothing else is reported as put in; undo reports what comes back and redo what is put in again with the metadata of the edit, however many edits, undos and redos came in between. Found false: redo does not repeat the marks of the edit: automatically appended bars are reported as to be selected when an edit that selects is redone.", "quantifier": "all projects and edits", "why_tests_cant": "unbounded numbers of elements, all edits", "anchors": ["src/project.rs: ModelChangeMetadata, add_note \u2026 change, replenish_bars, Cmd for ProjectCmd (undo, redo)"]}
{"id": "C61", "title": "Notes compare equal exactly when they are the same", "statement": "Two notes are equal with == exactly when all of their fields are; pitches are compared as written (C sharp is not D flat); trimmers made by the constructors are equal exactly when their four values are, equal trimmers have equal hashes, and the hash is that of the sum of the values; rate trimmers given as percentages or loaded are equal exactly when their four values are. Found false: rate trimmers given as floating point rates can be unequal although all four values shown are equal.", "quantifier": "all notes, pitches, trimmers and rate trimmers", "why_tests_cant": "all pairs of values", "anchors": ["src/note.rs: Note PartialEq", "src/trimmer.rs: Trimmer PartialEq and Hash, RateTrimmer PartialEq", "src/percent.rs: PercentU16 PartialEq", "src/pitch.rs: Pitch PartialEq"]}
{"id": "C62", "title": "Constructors accept exactly the values in range and keep them; defaults and builders are sound", "statement": "Rhythm::new(n, d) succeeds exactly for n in 1..=99 and d in {2,4,8,16,32,64} and has these values, otherwise it panics; Tempo::new accepts 0..=999 and panics above, TempoValue::safe_new clamps; Denominator, Dots, Grid, note value and variation number constructors accept exactly their ranges and are inverse to the value accessors; adding octaves adds their numbers and panics outside -2..=8; Key::ALL is the fifteen key signatures, each once; repeat_set!(..) has exactly the listed marks and panics exactly if one of them is refused because of a mark to its right (so the order of the arguments matters); Note::default() is a valid, storable A4 quarter at tick 0 with neutral corrections; the other defaults are tempo 120 at tick 0, velocity 64, channel 0, first pass, 4/4 and grid 60; NoteBuilder keeps every field that was set and takes the default for the others; trimmers made of a vector are those made of its first four values.", "quantifier": "all arguments of all constructors, all lists of marks, all combinations of builder setters, all vectors", "why_tests_cant": "the set of accepted values is the claim: a test shows single members of it; the macro and the builder range over all lists and all combinations of setters", "anchors": ["src/rhythm.rs: Rhythm::new", "src/tempo.rs: Tempo::new, TempoValue::safe_new", "src/octave.rs: Add", "src/key.rs: Key::ALL", "src/bar.rs: repeat_set!, Into<VarIndex>", "src/note.rs: Note::default, NoteBuilder", "src/trimmer.rs: from_vec, to_vec", "src/duration.rs", "src/grid.rs"]}
{"id": "C63", "title": "What a project plays follows from its bars, however it was edited", "statement": "After any sequence of edits, undos and redos, made with bars whose marks do not contradict each other, the bars of the project are at increasing ticks and their marks do not contradict each other, so rendering the project, if it succeeds, gives well-formed chunks that are played in the documented order (except that a jump mark inside a first repeat whose start is not written loses the first pass). Exactly which projects can be rendered, and for which ones rendering panics, follows from the bars alone. All this holds whatever the edits of the session are given, also if what they take out is not there, as long as the bars they mention do not contradict themselves; and the table of start positions of what is rendered then answers every tick and iteration with exactly the position in the performance, or with how often the tick is played. An edit of notes, tempos and pedals, of the key or of the grid never changes the rendering of a project that renders, although it may append bars (unless D.C. is on a bar at tick 0 that is the only one; there appended bars make it effective). Keys of bars, and rhythms of bars that are not at tick 0, have no influence on the order of playing, and the rhythm of the project has one only if there is a D.C.", "quantifier": "all projects, all histories of edits, undo and redo, all marks on all bars", "why_tests_cant": "unbounded histories and scores; the claim is about the interplay of the editor, the automatic bars and the renderer", "anchors": ["src/project.rs: bar_repo, add_note \u2026 change, replenish_bars, undo, redo", "src/repeat.rs: render_region, RenderRegionError, CompoundRegion::to_chunks", "src/global_repeat.rs: GlobalRepeatBuilder::on_bar, build"]}
{"id": "C64", "title": "No tick is played more than five times, so every repetition can be started from", "statement": "Whatever marks a tune has, if it can be rendered then no tick is played more than five times, and not more than four times without D.C. and D.S.; without a jump every tick is played at least once: once in a plain part, twice in a repeat, in front of endings once for each ending and in an ending once. An iteration (1 to 5) therefore reaches every time a tick is played: starting at the n-th time gives exactly that position in the performance, and an iteration is refused only if the tick is not played that often, with an error that says how often it is. This holds for tunes whose last bar is at tick M with 5 M + tick within 32 bits.", "quantifier": "all bars with all marks, all rhythms, all ticks and iterations", "why_tests_cant": "the bound is over all arrangements of repeats, endings and jumps, and the position over all ticks", "anchors": ["src/play_iter.rs: MAX_ITER, PlayIter::new", "src/play_start_tick.rs: PlayStartTick::to_accum_tick", "src/repeat.rs: Chunk::by_accum_tick, render_region, CompoundRegion::to_chunks"]}
{"id": "C65", "title": "Copying, cutting and pasting through the text of the clipboard", "statement": "Elements copied as text and pasted at a tick are put into the project with the same contents, all moved by the same distance so that the first of them is at that tick; the rest of the project is unchanged except that blank bars may be appended and that an element at the tick of a pasted bar, tempo or pedal event is overwritten; undo takes them out and brings back what was overwritten. Cutting elements and pasting them elsewhere gives the project with exactly these elements moved. Cutting elements and pasting them at their old place gives the same project.", "quantifier": "all projects, all selections within the ranges that the text keeps, all target ticks for which the moved elements stay within 32 bits", "why_tests_cant": "the claim composes text output, text input, move, removal and addition for all projects and selections", "anchors": ["src/models.rs: Models::to_clipboard_text, from_clipboard_text, move_to_tick", "src/project.rs: bulk_add, bulk_remove, undo, replenish_bars"]}
{"id": "C66", "title": "Different values and errors are shown differently", "statement": "Repeat marks, note letters, velocities, numerators and denominators have different texts if they are different: a letter is shown as itself and a number in decimal digits. The message of a tune that cannot be rendered identifies the error, the ticks and the endings it is about: different errors have different texts. The same holds for the errors about pitches. Found false that the message about an octave that does not exist names the octave that was asked for: it names the position of the octave instead.", "quantifier": "all marks, letters and numbers, all errors with all ticks", "why_tests_cant": "injectivity over all ticks and all pairs of errors", "anchors": ["src/bar.rs: Display for Repeat", "src/solfa.rs: Display for Solfa", "src/repeat.rs: RenderRegionError", "src/pitch.rs: PitchError", "src/octave.rs: OctaveError", "src/rhythm.rs: Numerator, Denominator::to_string", "src/velocity.rs: Display for Velocity"]}
{"id": "C67", "title": "A session with proper elements never crashes or hangs", "statement": "Start from a project whose time signatures have at least one beat, whose notes have at most seven dots, whose grid is at least 1 and whose last element leaves room for one more bar. Call anything in any order: add, remove, change, bulk-add, make tuplets, set the rhythm, the key or the grid, undo, redo, clear the events. If every element passed in is proper in the same sense, every call returns and the project stays proper, even if what is removed is not there or ticks are taken twice. Tempo, pedals, rhythm, key, location, grid snapping, note lengths and velocities can then be asked for and are answered. Equal notes that do not start together, up to 255 of them, can be made a tuplet. A file that loads is proper if it meets these conditions; files that do not meet them load as well, and editing them hangs or panics. Such a session can be ended at any time: any earlier state and any number of the latest commands, written to disk, are read back without a panic as a proper project that can be stored again.", "quantifier": "all proper projects, all undo limits, all sequences of calls of any length", "why_tests_cant": "no bound on the number of calls and on what they are given; absence of panics and of endless loops", "anchors": ["src/project.rs: ProjectImpl, ProjectCmd, UndoStore, replenish_bars", "src/project.rs: tuplize, tempo_at, dumper_at, soft_at, rhythm_at, key_at, tick_to_location", "src/tuple.rs: tuplize", "src/grid.rs: Grid::snap", "src/note.rs: tick_len, velocity"]}
{"id": "C68", "title": "Exactly which calls on single values panic", "statement": "For every argument of the machine type the conditions are exact, in both directions. Octave::value_of panics only for 9 and for the two largest i32; stepping an octave panics exactly if it leaves -2..=8. Adding to a letter panics exactly beyond B, and stops at C; subtracting panics exactly below C or beyond i32, and stops at B. Pitch::new panics exactly if the MIDI number leaves 0..=127. Transposing panics exactly on i32 overflow, dragging a note also where transposing errs. A note's length panics exactly if it has 32 or more dots or the divisor 0, which only a file can contain. Adding dots or trimming panics exactly on i32 overflow; velocity never. TempoValue::new panics exactly above 999, up exactly for 65535, down exactly above 1000, dragging exactly on i32 overflow. Channel::new panics exactly above 15. Snapping panics exactly for grid 0 or if half a grid away from 0 is beyond i64. location_to_tick panics exactly if the bar number is between 1 and u32::MAX and the resulting tick exceeds usize::MAX.", "quantifier": "all values of the argument types (i32, u8, u16, u32, i64, usize), all valid notes and projects", "why_tests_cant": "exact conditions over whole machine types, at the edges of every check and every addition", "anchors": ["src/octave.rs: value_of, AddAssign, SubAssign", "src/solfa.rs: AddAssign, SubAssign", "src/pitch.rs: Pitch::new, up, down, with_score_offset_delta", "src/note.rs: drag, add_dots, with_tick_added, tick_len, velocity", "src/duration.rs: tick_length", "src/trimmer.rs: added", "src/tempo.rs: TempoValue::new, up, down, Tempo::drag", "src/channel.rs: Channel::new", "src/grid.rs: Grid::snap", "src/project.rs: location_to_tick"]}
{"id": "C69", "title": "Bars with contradictory marks are read as bars without them", "statement": "Marks cannot be edited into a contradiction through the mark set's own methods, but a file, a pasted text or a caller may supply any set of marks. Whatever marks the bars have, render_region does exactly what it does for the same bars with some of the Start and variation marks left out, each of which contradicts a mark that stays; nothing else is left out, and bars without contradictory marks are read as they are. Which marks of a bar count is settled by the bars before it: inside a variation its variation mark makes its Start mark void, elsewhere its Start mark makes its variation marks void, its End mark always does, and of several variation marks the lowest counts. So whatever is rendered and listed is played in the documented order of the bars as read, in well-formed chunks, no tick more than five times, and nothing ever hangs; this also holds after any session that starts with any loaded project. Found false for one kind of bar: a variation mark together with D.C. or D.S. (which the clipboard and files accept) can be rendered without an error, and then listing its chunks panics; such a bar is either read as above, reported as an error, or leads to that panic.", "quantifier": "all bar lists at increasing ticks with all sets of marks, all rhythms, all sessions", "why_tests_cant": "every combination of the eleven marks on every bar of a score of any length", "anchors": ["src/repeat.rs: render_region, to_chunks", "src/bar.rs: RepeatSet, region_index", "src/global_repeat.rs: on_bar", "src/models.rs: from_clipboard_text"]}
{"id": "C70", "title": "Exactly which documents can be pasted or loaded, and what they give", "statement": "A text is accepted as a selection (or as a score) exactly if it begins with the number 1 and goes on with one JSON document that spells one out: each record is an object in which every field occurs exactly once (further members are ignored, their order does not matter, an optional key or rhythm may be null or missing) or an array of just the fields in order; each word is a string or an object of that word and null; each number is a whole number in the range of its type. Ticks, keys, beats, dots and channels are taken as they are, tuplet numbers below 2 become 2, velocities above 127 become 127, tempos are put between 1 and 999, of a bar's marks the eleven lowest bits count. A saved project is read the same way. A document gives at most one result. One that is right except for a pitch beyond MIDI or a trimmer whose running sums leave i16 always panics; every other document without such a pitch or trimmer is refused as unparsable.", "quantifier": "all texts, all JSON documents of any size and nesting", "why_tests_cant": "the accepted documents are infinitely many, in any member order, with any further members and in two notations; so are the refused ones", "anchors": ["src/models.rs: Models::from_clipboard_text", "src/exported_project.rs: ExportedProject::from_clipboard_text", "src/note.rs: Note", "src/pitch.rs: Deserialize for Pitch", "src/duration.rs: Duration, Denominator", "src/trimmer.rs: Trimmer, RateTrimmer", "src/velocity.rs: Velocity", "src/tempo.rs: TempoValue", "src/bar.rs: Bar", "src/project.rs: ProjectImpl"]}
{"id": "C71", "title": "Adding content moves no bar number, location or time signature", "statement": "Adding, changing or removing notes, tempos and pedal events may append bars, but afterwards the time signature in force at every tick, the key in force at every tick (unless the key of the project is set) and the tick that every typed location stands for are the same as before, also for locations in bars that did not exist yet; a location that was refused or panicked still is or does. The location shown for a tick before the edit still stands for that tick afterwards, and is still the one shown unless a bar has been appended at or before it. The same holds between the beginning and the end of any history of such edits with any undoing and redoing.", "quantifier": "all projects, all edits that name no bars and do not set the rhythm, all ticks, all locations, all histories of such edits", "why_tests_cant": "appended bars must agree with the extrapolation of locations for every rhythm, every number of bars and every location", "anchors": ["src/project.rs: ProjectImpl::location_to_tick, tick_to_location, rhythm_at, key_at, replenish_bars", "src/location.rs: Location"]}
{"id": "C72", "title": "An edit is heard from the ticks it names to the next change, and nowhere else", "statement": "After any edit the tempo, the damper and soft pedal, the time signature and the key in force at a tick are what they were, if every tick that the edit names is later, or a change that the edit does not name lies between it and that tick. What an edit puts in is in force from its tick up to the next change. Where an edit takes something out and puts nothing in its place, what was in force before goes on up to the next change, and at tick 0 the default comes into force. Setting the rhythm or the key of the project is heard exactly before the first bar that sets one.", "quantifier": "all projects, all edits whatever they are given, all ticks", "why_tests_cant": "every position of the edit relative to every other element and to the tick asked for", "anchors": ["src/project.rs: ProjectImpl::tempo_at, dumper_at, soft_at, rhythm_at, key_at, add_tempo, add_dumper, add_soft, add_bar, bulk_add, bulk_remove, change, set_rhythm, set_key"]}
{"id": "C73", "title": "Elements may be added at once or one by one, in any order", "statement": "Adding a selection and then another one without bars gives exactly the project that adding both at once gives, appended bars included, and one returns exactly if the other does; so pasting a selection without bars is adding its elements one by one. Notes, tempos and pedal events may be added in any order, if no two of a kind (other than notes) are at the same tick. Taking out two selections is taking out both at once; a change is taking out the old and adding the new elements; making a tuplet is taking out the notes and adding those of the tuplet. Adding elements at free ticks and taking them out again leaves at most blank bars behind the last bar. Found false with bars: a bar put in after a note does not move the bars that were appended for the note, while in the other order the bars are appended behind it.", "quantifier": "all projects, all selections, all sequences of additions and their permutations", "why_tests_cant": "all orders of any number of edits, with bars appended at each step", "anchors": ["src/project.rs: ProjectImpl::bulk_add, bulk_remove, change, tuplize, add_note, add_tempo, add_dumper, add_soft, replenish_bars"]}
{"id": "C74", "title": "Bar lines that only cut a bar in two cannot be heard", "statement": "Drawing bar lines without marks anywhere outside variations, and lines that carry the number of the variation they are in inside variations, changes nothing about what is played: the rendered regions, the warnings and the error are the same, however many lines are drawn, for well-formed and malformed scores alike; with a D.C. in the score, if they are not in the first bar. So adding such a line to a project, or taking one out, leaves the order of playing as it was. Found false without the conditions: a line without a mark inside a variation ends it and silently disables the variation after it, and a line inside the first bar of a score with a D.C. can move the point to which the D.C. goes back.", "quantifier": "all scores, any number of lines at any positions, all projects", "why_tests_cant": "every score, well-formed or not, times every set of positions for the lines", "anchors": ["src/repeat.rs: render_region", "src/global_repeat.rs: GlobalRepeatBuilder::on_bar, build", "src/project.rs: ProjectImpl::add_bar, bulk_remove"]}
{"id": "C75", "title": "Only the order of the bar lines matters for what is played, not their distances", "statement": "If the bar lines of a score are moved without passing each other, what is played moves with them: the same regions, chunks and ticks played last between the moved lines, the same warnings at the moved lines, or the same error there, or a panic exactly as before. So two scores with the same marks from bar to bar are accepted or refused alike and are played alike from line to line, however long the bars are. Found false for a D.C. without a Segno if the first bars differ in length: it goes back to the beginning or to the second bar depending on that length.", "quantifier": "all scores, well-formed or not, all order-preserving moves of their lines", "why_tests_cant": "a relation between all pairs of scores with the same marks; all distances up to the end of the time line", "anchors": ["src/repeat.rs: render_region, CompoundRegion::to_chunks, SimpleRegion::render_chunks, to_iter1_interval_set", "src/global_repeat.rs: GlobalRepeatBuilder::on_bar, build, to_interval_set"]}
{"id": "C76", "title": "What is put at a typed location is at that location", "statement": "Of all locations that lead to a tick, the one shown for it is the only one whose offset does not reach beyond the bar it names; and the text shown for any tick, typed in again, leads back to this tick. A note put at a location that was typed, in the score or any number of bars beyond its end, is at that location also after the bars up to it have been added, if the offset lies inside a bar of the length then in force; and so is the first element of a selection that was copied and is pasted there. Found false for other offsets: 1:1000 is accepted where bar 1 has 960 ticks and is shown as 2:40, and a note put at 4:800 beyond the end of a score with bars of 720 ticks is shown in bar 5.", "quantifier": "all projects with valid rhythms, all texts read as locations, all notes and all selections without bars that fit on the time line", "why_tests_cant": "composition of reading, extrapolation, pasting and appending of bars, for every project, every text and every selection", "anchors": ["src/location.rs: parse_location, Display for Location", "src/project.rs: location_to_tick, tick_to_location, replenish_bars, add_note, bulk_add", "src/models.rs: Models::move_to_tick, to_clipboard_text, from_clipboard_text"]}
{"id": "C77", "title": "An edit that is undone leaves no trace", "statement": "An edit that is made and undone leaves no trace except that it can be redone: until something is redone, and for ever after the next edit, whatever the user does and asks - edits, undos, content, rhythm, key, tempo and pedals at any tick, locations, the order of playing, whether there is something to undo - gives the same answers and ends alike (finished, crashed or stuck) as if it had never been made. Undoing and redoing at once, or redoing and undoing, leaves no trace at all; and projects with the same content, however they came about, cannot be told apart by any work on them. Found false if the undo history is full: the edit has pushed out the oldest step, which stays lost when the edit is undone.", "quantifier": "all projects, histories, edits that could be made by hand, and all sequences of edits, undos, redos and questions after them", "why_tests_cant": "indistinguishability by all continuations; tests compare a few values after one undo", "anchors": ["src/project.rs: ProjectCmd::undo, redo, ProjectImpl edits, rhythm_at, key_at, tempo_at, dumper_at, soft_at, location_to_tick, tick_to_location, replenish_bars", "src/repeat.rs: render_region, CompoundRegion::to_chunks"]}
{"id": "C78", "title": "Later bars do not change what is heard before them", "statement": "What is heard until a bar line is first reached depends only on the bars up to that line: two scores that agree up to it, with no D.C. or D.S. up to there, are played tick for tick alike (with all repeats and variations) until it is reached, and both do reach it, whatever follows. In particular adding a bar line with any marks, rhythm and key further on in a project does not change how the project begins. Found false where a later D.C. or D.S. stands before the end of a repeat whose start is not written: the beginning is then not heard at all.", "quantifier": "all scores of any length with a common beginning, all continuations that are rendered, all lines of the common beginning", "why_tests_cant": "two arbitrary continuations of an arbitrary score; tests fix both", "anchors": ["src/repeat.rs: render_region, SequenceRegion::render_chunks, RepeatRegion::render_chunks, VariationRegion::render_chunks, CompoundRegion::to_chunks", "src/global_repeat.rs: GlobalRepeatBuilder::on_bar, build", "src/project.rs: ProjectImpl::add_bar"]}
{"id": "C79", "title": "Putting a bar line in renumbers exactly the bars behind it", "statement": "The bar number shown for a tick is the number of bar lines at or before it, the offset the distance from the last of them. So a bar line put in where there was none, or taken out, changes no location before it; from it on every bar number is one higher (lower), and the offset is the old one or the distance from the new line, whichever is smaller. A typed location before the line stands for the same tick, and each later one is found under the next bar number; a bar put in the place of another one renumbers nothing. Found false for typed locations behind the last bar if the line sets a rhythm or is itself the last.", "quantifier": "all projects, all bars, all ticks and all locations", "why_tests_cant": "relates two projects at all ticks; tests look at a few ticks of one project", "anchors": ["src/project.rs: ProjectImpl::tick_to_location, location_to_tick, add_bar, bulk_remove", "src/location.rs: Location"]}
{"id": "C80", "title": "The bytes of a project and of its commands are read back as the same", "statement": "A project and every recorded command can be turned into bytes (bincode), in which nothing is named and everything is told by its place. They are read back as the same, whatever bytes follow, and exactly if everything in them is in range, just as from JSON; whatever is in the project, both forms fare alike. So reopening from bytes gives the project the session ended with. Commands written one behind the other can be told apart. Bytes cut short anywhere are refused, not read as something else; what is read from any bytes is a proper project; reading always ends, and panics only where the bytes hold a pitch outside 0 to 127 or a trimmer whose sum leaves i16. How many bytes a project takes depends only on the number of its elements and on which bars set a rhythm or a key. Found false for a note trimmed until its sum leaves i16 (written, then panics on reading) and for a tempo of 0 (read as 1).", "quantifier": "all projects, all commands, all byte sequences, all cuts", "why_tests_cant": "the test serialises one project with one note; positions, cuts and arbitrary bytes are infinitely many", "anchors": ["src/project.rs: ProjectImpl, ExportedProject, ProjectCmd, ModelChangeMetadata (derived Serialize/Deserialize), test can_serialize_project", "src/note.rs, bar.rs, tempo.rs, ctrl_chg.rs, pitch.rs, duration.rs, trimmer.rs, percent.rs, velocity.rs, channel.rs, key.rs, rhythm.rs, grid.rs, models.rs: derived Serialize/Deserialize and the ...SerializedForm types"]}
{"id": "C81", "title": "Exactly what a tune with D.C. or D.S. plays how often, what it never plays and where it ends", "statement": "With a D.C. or D.S. everything before the mark is heard, as often as it would be without the mark, and once more if it is in the last pass. What lies behind the mark is heard at most once. The ticks that are never heard are exactly those behind the mark that the last pass leaves out: before the place the jump goes to, from Fine on, between the two codas, or in a variation other than the last. The tune ends at Fine; if Fine is not behind the place the jump goes to it ends at the mark; without Fine it goes on to the end of time. Found false (as for C43) where the mark stands in a first repeat whose start is not written: then what precedes can be lost.", "quantifier": "all scores that are rendered, all positions of the jump, its target, Fine and codas, all ticks", "why_tests_cant": "tests list the chunks of a few tunes; which ticks are missing depends on how all marks lie to each other", "anchors": ["src/repeat.rs: render_region, CompoundRegion::to_chunks, GlobalRepeat, Region::render_chunks", "docs/repeat/order.md"]}
{"id": "C82", "title": "Repeat signs around a passage make exactly this passage be heard once more", "statement": "Let a score be accepted, and let a passage of it have no repeat signs and no variations and not lie inside a repeat. With a Start sign on its first bar line and an End sign on its last the score is accepted too, and what is heard is what was heard before with the passage once more directly after it is first heard: nothing else is added, lost or moved. From the beginning the End sign alone does this. With a D.C. or D.S. the passage is heard once more only in the first pass, and if it starts at the jump or behind it nothing changes. Found false for a passage inside a repeat, whether the start of this repeat is written or not: there the signs are refused.", "quantifier": "all accepted scores, all passages without signs in them, with and without a jump", "why_tests_cant": "tests render single scores; that two renderings differ by exactly one passage is about all pairs of scores", "anchors": ["src/repeat.rs: render_region, RenderRegionState, CompoundRegion::to_chunks, Region", "docs/repeat/structure.md, order.md"]}
{"id": "C83", "title": "A first ending is left out the second time, and nothing else changes", "statement": "Let an accepted score have a repeat. If its last bars are marked as the first ending and the bars behind it as the second (instead of the sign at the end of the repeat), the score is accepted too, and what is heard is what was heard before without the first ending the second time: nothing else is added, lost or moved. This holds for a repeat with a written start and for one from the beginning. With a D.C. or D.S. it holds in the first pass if the repeat ends before the jump, the first pass does not change if the repeat starts at the jump or behind it, and in the last pass exactly the first ending is left out. Found false for a Segno in what becomes the first ending: the score is then refused, even without any jump.", "quantifier": "all accepted scores, all repeats in them, all lengths of both endings, with and without a jump", "why_tests_cant": "tests render single scores; that two renderings differ by exactly one ending is about all pairs of scores", "anchors": ["src/repeat.rs: render_region, RenderRegionState, VariationRegion, CompoundRegion::to_chunks", "docs/repeat/structure.md, order.md"]}
{"id": "C84", "title": "What Segno, Fine, Coda and the kind of a jump contribute to what is heard", "statement": "Segno, Fine and Coda are heard only through a jump: taking any of them away from an accepted score without D.C. and D.S. changes nothing, so two accepted scores that differ only in these signs are rendered the same. With a jump, taking Fine away only appends to what is heard: exactly what the last pass plays from Fine on, while everything before stays; taking two Codas away only inserts, in the last pass, exactly what is between them. The warning about a single Coda is right: without this sign the same chunks come out, without the warning. The warning about a Segno with D.C. is right: with D.S. in its place the same chunks come out, without a warning, and D.C. in place of D.S. gives the same chunks and this warning. D.S. to a Segno at the top can be written as D.C. without Segno if the first bar is a full one (found false otherwise, and found false for replacing D.C. by D.S. when there is a single Coda, which is then refused).", "quantifier": "all accepted scores, all subsets of the signs taken away, all positions", "why_tests_cant": "tests render single scores; that a sign contributes exactly one thing is about all pairs of scores with and without it", "anchors": ["src/global_repeat.rs: GlobalRepeatBuilder, build", "src/repeat.rs: render_region, CompoundRegion::to_chunks"]}
{"id": "C85", "title": "A passage put behind a score is heard behind it", "statement": "Putting the bars of one accepted score behind those of another, with all ticks moved by the same distance d, gives an accepted score that is heard as the first one up to d and then the second one exactly as it is heard alone, with its repeats and endings, d ticks later. The same holds when the second score has a D.S. whose signs are all in it. The same holds for a selection that is copied, and pasted through the clipboard text behind the last bar line of a project, whatever notes, tempos and pedals come with it and whatever bars are added behind it. Found false if the first repeat of the second score has no written start: it then reaches back into the first score or is refused. Found false for a D.C., which goes back to the top of the first score, and for signs that both scores carry, of which only one is allowed.", "quantifier": "all pairs of accepted scores, all distances, all projects and selections", "why_tests_cant": "tests render single scores; that rendering goes together with joining is about all pairs of scores and all distances", "anchors": ["src/repeat.rs: render_region, CompoundRegion::to_chunks", "src/models.rs: move_to_tick", "src/project.rs: bulk_add"]}
{"id": "C86", "title": "The table of chunks tells at every moment what is played, and joined chunks are the only shortest ones", "statement": "by_accum_tick makes one entry for each chunk that plays something (and one for the last chunk), at the moment the chunk begins to be played. Looking up a moment p in it, by the last entry that does not begin after p, gives exactly the tick that is the p-th of the performance; a position returned by to_accum_tick therefore shows the tick that was asked for. Making the table of the joined chunks (Chunk::optimize) gives the same start positions. Lists of chunks that all play something are joined to the same chunks exactly if they play the same, and no list that plays the same is shorter. The chunks of a rendered score all play something exactly if no bar at tick 0 has a repeat sign or is in an ending. Found false without that: an ending at tick 0 leaves an empty chunk, and the chunks around it are not joined though they are played without a break.", "quantifier": "all lists of chunks of which only the last is open, all moments, all accepted scores", "why_tests_cant": "tests look up a few positions in a few tables; that the table agrees with the performance at every moment and that joining is canonical is about all lists of chunks", "anchors": ["src/repeat.rs: Chunk::by_accum_tick, Chunk::optimize, render_region", "src/play_start_tick.rs: PlayStartTick::to_accum_tick"]}
{"id": "C87", "title": "One more ending behind the endings of a repeat plays the passage before the endings once more", "statement": "Take an accepted score with a repeat that has endings, and give the bars directly behind its last ending, up to a later bar line without a variation mark, the next variation mark. The new score is accepted with the same warnings. Without D.C. and D.S. the passage from the start of the repeat to its first ending is heard once more in front of the new ending, and everything else is heard as before. With a D.C. or D.S. this holds for the first pass if the jump comes after the new ending, the first pass stays the same if the jump comes before the repeat, and the last pass now leaves out what was the last ending. Found false if the ending that was the last contains the Segno: then the new score is refused.", "quantifier": "all rhythms, all accepted scores of any length, all repeats in them with one to three endings, all lengths of the new ending", "why_tests_cant": "tests render a few scores with two endings; how a further ending changes the performance of an arbitrary score, and nothing else in it, is about all scores", "anchors": ["src/repeat.rs: render_region, Region::to_chunks", "src/bar.rs: RepeatSet, VarIndex"]}
{"id": "C88", "title": "Elements moved in steps, there and back, or in parts end up where one move brings them", "statement": "Move a selection of notes, bars, tempos and pedal events by any number of changes, each going on where the last one stopped. If at every step but the last the elements come to places that are free, the project in the end is the one that a single change from the first places to the last ones gives: all settings, notes, tempos and pedal events agree, and the bars agree but for blank bars that were filled in on the way. If the elements come back to where they were, everything the project held is there again and nothing else but blank bars at other ticks. Elements moved in two parts, in either order, end up as when all are moved at once. With proper elements (C67) all these changes return. Found false if a step comes to an occupied place: what was there is lost, although a single change would not have touched it.", "quantifier": "all projects, all selections of any size, any number of steps, all places", "why_tests_cant": "tests make single changes on small projects; that any path of moves is as good as one move is about all sequences of changes", "anchors": ["src/project.rs: Project::change, replenish_bars"]}
{"id": "C89", "title": "Signs written into the bars of a project are heard as what they say", "statement": "Replace bars of a project by bars at the same ticks, by drawing them again or by one change of any number of bars. Exactly these bars change, each at its place, and nothing else does; blank bars are appended only where something was not covered by bars before, and if all was covered the change always returns. So every score with its bar lines at the same ticks can be written by one change, and what is heard then is what its bars say. In particular: repeat signs put around a passage make it be heard once more, a first and a second ending make the first be left out the second time, and one more ending makes the passage before the endings be heard once more, each also in a tune with D.C. or D.S.", "quantifier": "all projects, all sets of bars of any size changed at once, all scores", "why_tests_cant": "tests edit single bars and render fixed lists of bars; that an edit of any bars of any project is heard as exactly the musical meaning of the signs joins both for all projects", "anchors": ["src/project.rs: Project::change, Project::add_bar, replenish_bars", "src/repeat.rs: render_region", "src/bar.rs: Bar, RepeatSet"]}
{"id": "C90", "title": "The notes of a tuplet follow one another, and making the tuplet again changes nothing", "statement": "Make a tuplet of notes that all start at different ticks. No note then lasts into the next one or beyond the end of the group, none ends more than one tick before the next begins, and the group lasts twice the value that its notes have in common. This holds for notes of any values whose last dot is a 64th or longer, up to the tuplet number 255, and for up to 255 equal notes of any value. Making the tuplet again of its notes changes nothing, in a project too, unless two of its notes came to start together. Found false for shorter values of different lengths: of a 64th and a 128th the first lasts into the second; and found false where notes start together: making the tuplet again moves them.", "quantifier": "all lists of notes of any length, order and values; all projects", "why_tests_cant": "tests look at single triplets of equal notes; the rounding of every start and every length has to agree for all values, dots and numbers of notes", "anchors": ["src/tuple.rs: tuplize, total_tick_unit, numerator_unit", "src/duration.rs: Duration::tick_length", "src/project.rs: Project::tuplize"]}
{"id": "C91", "title": "Writing D.C., D.S., Segno, Fine or Codas changes what is heard by exactly what the sign says", "statement": "Take an accepted score that can be played. Written without a jump so far, a D.C. or D.S. on one bar leaves everything up to the first time this bar is reached as it was heard before, and then the last pass follows; it is accepted on every bar that is not inside a repeat (it may begin or end one), if it has a place to go back to and the Codas lie behind that place. In a score with a jump, writing Fine takes away from the last pass exactly what lies from Fine on, writing two Codas exactly what lies between them, and writing a Segno into a tune with D.C. moves the start of the last pass there; nothing that was heard before the jump changes, nor do the warnings with Fine and Codas. The same holds for a project whose bars are changed in this way. Found false: a Fine on the bar of the second Coda makes the rendering panic.", "quantifier": "all rhythms, all accepted scores of any length with any repeats and endings, all places of the signs; all projects", "why_tests_cant": "tests render a few fixed scores; that a sign changes nothing but its own part of the last pass has to hold for every score it is written into", "anchors": ["src/repeat.rs: render_region, GlobalRepeatBuilder, GlobalRepeat, CompoundRegion::to_chunks", "src/project.rs: Project::change"]}
{"id": "C92", "title": "Edits of different elements give the same project in whatever order they are made", "statement": "Take any number of edits on a project: settings, added notes, bars, tempos and pedal events, tuplets, deletions, pasted selections and changes. If everything they take out is there, no two of them put an element at the same place, none takes an element from a place where another takes or puts one (notes may share a place), and no two change the same setting, then every order of making them leads to the same settings, notes, tempos, pedal events and bars; only blank bars appended behind may differ. Without settings the result is the one of deleting all that they take out and then pasting all that they put in. With proper elements all of these orders return. Found false: without the condition on the places the later of two edits decides.", "quantifier": "all projects, all lists of edits of any length and kind, all permutations of them", "why_tests_cant": "tests make a few edits in one order; the number of edits and of orders is unbounded", "anchors": ["src/project.rs: Project::change, Project::bulk_add, Project::bulk_remove, Project::add_note, Project::add_bar, Project::add_tempo, Project::add_dumper, Project::add_soft, Project::tuplize, Project::set_rhythm, Project::set_key, Project::set_grid, replenish_bars"]}
{"id": "C93", "title": "Blank bars appended behind are not heard and change nothing that is in force", "statement": "Two projects that have the same settings, notes, tempos, pedal events and bars, except that each may have blank bars where the other has none, have the same time signature, key, tempo and pedals in force at every tick. They are played in the same way, with the same warnings or the same error, if no blank bar that only one of them has follows a bar that is in an ending of a repeat, and, with a D.C. in the score, none lies inside the first bar. A place before the first such bar is shown by the same bar number and offset. So the order in which different elements are edited (C92), or moving elements away and back (C88), is neither heard nor seen but for these bars. Found false: a blank bar among the bars of an ending, or inside the first bar of a score with D.C., changes what is played.", "quantifier": "all projects, any number of blank bars anywhere, all ticks", "why_tests_cant": "blank bars are appended by almost every edit, any number of them and at places that depend on the rhythm; tests look at a few fixed bars", "anchors": ["src/project.rs: replenish_bars, Project::rhythm_at, Project::key_at, Project::tempo_at, Project::tick_to_location", "src/repeat.rs: render_region"]}
{"id": "C94", "title": "An edit can be taken back by hand, whatever else was edited before and after it", "statement": "After any number of edits of different elements, deleting what one of them has put in and pasting what it had taken out leads to the project that the other edits alone lead to, but for blank bars, if that edit wrote over no other tempo, pedal event or bar. So an element added and deleted later leaves nothing behind, and elements cut and pasted back later are as if they had stayed. Found false: a tempo written over another one at the same tick cannot be taken back by deleting it.", "quantifier": "all projects, all sequences of edits of different elements, any edit of elements among them", "why_tests_cant": "any number of edits lies before and after the one taken back, and each may append bars", "anchors": ["src/project.rs: Project::add_note, Project::bulk_add, Project::bulk_remove, Project::change, replenish_bars", "src/models.rs: Models"]}
{"id": "C95", "title": "Every score can be written, in any order, starting from any project", "statement": "Write the settings and all elements of a project, one by one and in any order, or in selections of any size, into a project without elements. The result has the same settings, notes, tempos, pedal events and bars, and no other bars than blank ones at ticks where there was none; the same is in force at every tick, and it is played in the same way under the conditions of C93. If the bars come first and cover everything, no bar is added and it is played and numbered exactly as the project is. Any project with proper elements (C67) can be made into any other one by deleting everything and writing the other one, and none of these edits fails. Found false that the order never matters: with a note written before the bars there can be more bars than the project has.", "quantifier": "all projects, all orders of their elements, all projects to start from", "why_tests_cant": "any number of elements in any order; each edit may append bars depending on what is there already", "anchors": ["src/project.rs: Project::add_note, Project::add_bar, Project::add_tempo, Project::add_dumper, Project::add_soft, Project::set_rhythm, Project::set_key, Project::set_grid, Project::bulk_add, Project::bulk_remove, replenish_bars", "src/repeat.rs: render_region"]}
{"id": "C96", "title": "Where playing can be started follows the edits", "statement": "Playing can be started at the n-th time a tick is heard, at a position of the performance. Whatever is changed behind a bar line before which nothing jumps, every start before the line is first reached keeps its tick, its number and its position. Repeat signs around a passage leave the starts before the end of its first time as they are, let all later ones come later by the length of the passage, give ticks of the passage one more time, and make every tick of the passage a second start directly behind the first time; nothing else becomes a start. Two endings for a repeat take away the starts of the first ending at its second time and let what follows come earlier by as much; one more ending inserts starts for the passage before the endings in front of it. D.C. or D.S. leaves all starts before it is first reached. Fine moves no start and takes away exactly those of the second pass from Fine on; two Codas take away those between them in the second pass and let the later ones come earlier by what is left out. (For tunes of ordinary length as in C64.)", "quantifier": "all projects, all positions, ticks and numbers, all places of the signs", "why_tests_cant": "every start of every score before and after the edit", "anchors": ["src/play_start_tick.rs: PlayStartTick::to_accum_tick", "src/repeat.rs: Chunk::by_accum_tick, render_region, CompoundRegion::to_chunks", "src/project.rs: Project::change"]}
{"id": "C97", "title": "What a tuplet becomes depends only on where its notes start and what they are worth", "statement": "Making a tuplet of notes that are moved together and given other pitches, ties, velocities, channels and trimmers gives the same as making the tuplet first and then moving the notes and giving them these; so in a project the two edits can be made in either order, and the projects differ at most in blank bars. The tuplet numbers the notes had before do not matter, nor does the order in which notes at different ticks are given (where the notes make no tuplet they come back as they were given). Where notes that start together are worth the same, every order of the notes gives a tuplet at the same places with the same values. Found false for other chords: of notes that start together the order in which they are given decides which of them is put first, and with values of different length the outcome has other start ticks.", "quantifier": "all projects, all lists of notes of any length, all distances moved, all ways of giving other pitches, ties, velocities, channels and trimmers", "why_tests_cant": "every selection of notes, every move and every change of the notes' other fields, in both orders", "anchors": ["src/tuple.rs: tuplize", "src/project.rs: Project::tuplize, Project::change", "src/note.rs: Note"]}
{"id": "C98", "title": "Cutting a selection and pasting it elsewhere is dragging it there", "statement": "Deleting a selection and adding as many elements of each kind in its stead gives the same project as changing the elements of the selection to these in one step, but for blank bars; in particular a selection that is cut and pasted at a tick ends up where dragging it there brings it. The same project comes out if the selection is pasted first and the original deleted afterwards, provided no bar, tempo or pedal event of the two shares a tick. What was pasted at one tick and is pasted from there at another is what would have been pasted there at once. Found false without the proviso: tempos at 0 and 960 pasted at 960 and then deleted where they were leave only the one at 1920, while dragging keeps both.", "quantifier": "all projects, all selections and what is put in their place, all ticks", "why_tests_cant": "every project and every selection, with every coincidence of old and new places", "anchors": ["src/project.rs: Project::bulk_remove, Project::bulk_add, Project::change", "src/models.rs: Models::move_to_tick"]}
{"id": "C99", "title": "An edit made a second time changes nothing but the notes it names", "statement": "Making the same edit twice in a row (any edit, whatever it is given) leaves the settings, tempos, pedal events and, but for blank bars, the bars as they are after the first time; of every note there are then as many as after the first time, less those the edit takes out, plus those it puts in. So an edit that is not about notes changes nothing the second time, nor does setting the time signature, key or grid again, nor deleting a selection that holds all notes equal to its own; a selection pasted twice at one place adds its notes twice and everything else once. Found false for notes in general: a note changed twice is there twice afterwards, and one of two equal notes deleted twice takes the other with it.", "quantifier": "all projects, all edits with all arguments", "why_tests_cant": "every edit of every project, with any elements, also ones that are not there or share a tick", "anchors": ["src/project.rs: Project::bulk_remove, Project::bulk_add, Project::change, Project::add_note, Project::add_bar, Project::add_tempo, Project::add_dumper, Project::add_soft, Project::tuplize, Project::set_rhythm, Project::set_key, Project::set_grid"]}
{"id": "C100", "title": "A whole score that is dragged reads and is played the same so many ticks later", "statement": "When everything in a project (all notes, bars, tempos and pedal events) is changed in one edit to the same thing so many ticks later or earlier, the notes are the same notes moved by that, and whatever time signature, key, tempo and pedal position was in force at a tick is in force as many ticks later or earlier. A place is shown in the bar of the same number, at the same distance from its start, unless a new blank bar is at or before it; in what is before the first bar the distance changes by what was dragged. If the edit adds no bar, the score is accepted or refused as before, and what is played goes from the same bar lines to the same bar lines (no bar line being at the very beginning, and no D.C. without a segno, which looks at the length of the upbeat). Found false for places without that exception: a score that has no bars yet gets its first ones by the edit, and what was in bar 0 is then in a later bar.", "quantifier": "all projects, all distances for which every tick still fits, all ticks", "why_tests_cant": "any score, dragged by any distance, looked at at any tick", "anchors": ["src/project.rs: Project::change, Project::rhythm_at, Project::key_at, Project::tempo_at, Project::dumper_at, Project::soft_at, Project::tick_to_location, Project::replenish_bars", "src/repeat.rs: render_region"]}
{"id": "C101", "title": "A button pressed for the selected notes is taken back by its opposite", "statement": "When all selected notes of a project are moved a step up the staff, a step down, given more or fewer dots, or moved in time, the opposite can be done to all of them afterwards and gives the very notes that were selected, and the project is as it was but for blank bars. So it is after four presses of the tie button, and after three of sharp or flat or two of natural if the notes have an accidental that the button goes through. Pressing such a button changes the notes it is pressed for and, but for blank bars, nothing else. Found false for sharp and flat as opposites (a flat after a sharp gives a flat note) and for trimming the start (the note starts where it did, but its trimmer may be made up otherwise).", "quantifier": "all projects, all selections of their notes, all numbers of dots and ticks that fit", "why_tests_cant": "every selection in every project with any pitches, lengths and ticks", "anchors": ["src/note.rs: Note::up_score_offset, Note::down_score_offset, Note::add_dots, Note::with_tick_added, Note::toggle_tie, Note::toggle_sharp, Note::toggle_flat, Note::toggle_natural", "src/project.rs: Project::change"]}
