{
 "claims": [
  {
   "property": "C01",
   "status": "proved",
   "theorems": [
    "C01_roman_roundtrip",
    "C01_int2roman_error",
    "C01_int2roman_injective",
    "C01_roman2int_error",
    "C01_standard",
    "C01_any_case"
   ],
   "note": ""
  },
  {
   "property": "C02",
   "status": "proved",
   "theorems": [
    "C02_letters_roundtrip",
    "C02_letters_onto",
    "C02_letter2int_error",
    "C02_letters_order"
   ],
   "note": ""
  },
  {
   "property": "C03",
   "status": "proved",
   "theorems": [
    "C03_number_names_faithful",
    "C03_number_names_injective"
   ],
   "note": ""
  },
  {
   "property": "C04",
   "status": "partial",
   "theorems": [
    "C04_duration_value",
    "C04_duration_error",
    "C04_log_dotcount_roundtrip_partial",
    "C04_log_dotcount_roundtrip_refuted"
   ],
   "note": "Round trip for up to 52 dots; false for 53 dots because frexp works on 53-bit floats (refuted with a witness)."
  },
  {
   "property": "C05",
   "status": "partial",
   "theorems": [
    "C05_truncation_partial",
    "C05_truncation_any_partial",
    "C05_truncation_refuted"
   ],
   "note": "Exact for values a float holds; for all positive values within relative 2^-53; exact claim refuted for 1-2^-60."
  },
  {
   "property": "C06",
   "status": "partial",
   "theorems": [
    "C06_notation_roundtrip_partial",
    "C06_to_string_error"
   ],
   "note": "Round trip for up to 52 dots."
  },
  {
   "property": "C07",
   "status": "partial",
   "theorems": [
    "C07_is_writable_exact_partial",
    "C07_is_writable_negative",
    "C07_is_writable_zero_refuted",
    "C07_is_writable_exact_refuted"
   ],
   "note": "Exact for values a float holds; refuted for other values; 0 counts as writable."
  },
  {
   "property": "C08",
   "status": "partial",
   "theorems": [
    "C08_shift_value_partial",
    "C08_shift_scales_partial",
    "C08_transform_monoid",
    "C08_transform_false",
    "C08_transform_compose_partial",
    "C08_transform_length_partial",
    "C08_transform_compose_clipping_refuted"
   ],
   "note": "For up to 52 dots, and (C109) in the range of floats."
  },
  {
   "property": "C09",
   "status": "partial",
   "theorems": [
    "C09_invalid_rejected_partial",
    "C09_core_exists",
    "C09_number_value",
    "C09_invalid_rejected_refuted"
   ],
   "note": "Integers that are no powers of two are accepted (refuted); all other invalid texts are rejected."
  },
  {
   "property": "C10",
   "status": "proved",
   "theorems": [
    "C10_midi_roundtrip"
   ],
   "note": "for MAJOR_SCALE, the scale from_midi uses"
  },
  {
   "property": "C100",
   "status": "partial",
   "theorems": [
    "C100_reads",
    "C100_tokens",
    "C100_complete_partial",
    "C100_total",
    "C100_name",
    "C100_comment",
    "C100_bracket_finding",
    "C100_end_finding",
    "C100_dropped_finding"
   ],
   "note": "Proved of the transform, for every tree. Refuted corners: the bracket of an option that is not closed is in no element; an environment that ends with the beginning of another one takes that as its end; a context after \\begin{name} that is not that of an environment is left out. The lexicons of parce (which tree comes of which text) are not modelled."
  },
  {
   "property": "C101",
   "status": "partial",
   "theorems": [
    "C101_selection_partial",
    "C101_single_finding",
    "C101_from_cursor",
    "C101_whole",
    "C101_after_finding",
    "C101_ahead_finding",
    "C101_space_finding",
    "C101_open_finding"
   ],
   "note": "edit_cursor with from_nodes and Range.nodes(). Proved when the last node that ends in the selection also begins in it; the nodes below the last node are not in the range (so the full claim, that all nodes within the selection are edited, is false: findings). A cursor with an end of None (selection to the end of the text) makes every edit raise a TypeError (finding). What the edit writes is C-properties of the element edits."
  },
  {
   "property": "C102",
   "status": "partial",
   "theorems": [
    "C102_get",
    "C102_set_duration",
    "C102_delete_duration",
    "C102_set_scaling_partial",
    "C102_no_duration",
    "C102_set_both_partial",
    "C102_scalings_finding",
    "C102_from_string",
    "C102_from_string_error",
    "C102_text_partial"
   ],
   "note": "Setting the scaling is only right for Durations with at most two DurationScaling children (one if it is set to 1 or removed); with more, some survive because the code removes children while it iterates over them (finding). Values are exact fractions: limit_denominator of floats is not modelled. The text round trip is for at most 52 dots, as C06."
  },
  {
   "property": "C103",
   "status": "partial",
   "theorems": [
    "C103_argument",
    "C103_set_argument",
    "C103_version_command",
    "C103_set_version_command",
    "C103_get_version",
    "C103_set_version",
    "C103_include_language_partial",
    "C103_include_none",
    "C103_set_include_language",
    "C103_include_finding"
   ],
   "note": "Everything but the language of an \\include without an argument, which raises an AttributeError instead of giving None (C103_include_finding)."
  },
  {
   "property": "C104",
   "status": "partial",
   "theorems": [
    "C104_key_partial",
    "C104_accidentals",
    "C104_octave",
    "C104_none",
    "C104_variable_finding",
    "C104_pairs_finding",
    "C104_empty"
   ],
   "note": "A mode that is a variable is never found: the value and its scope are swapped when unpacked (C104_variable_finding). A list of pairs is read as its last pair (C104_pairs_finding)."
  },
  {
   "property": "C105",
   "status": "partial",
   "theorems": [
    "C105_pitches",
    "C105_pitch_text",
    "C105_duration_partial",
    "C105_duration_finding",
    "C105_number_partial",
    "C105_number_finding",
    "C105_origin_finding"
   ],
   "note": "Proved for pitches. What follows the duration in an unpitched note is lost when it is converted (C105_duration_finding, C105_number_finding)."
  },
  {
   "property": "C106",
   "status": "partial",
   "theorems": [
    "C106_history_partial",
    "C106_raise_finding",
    "C106_nested_finding",
    "C106_stale_finding"
   ],
   "note": "After an exception, after a nested edit and for edits without a document the state is stale."
  },
  {
   "property": "C107",
   "status": "partial",
   "theorems": [
    "C107_filled_partial",
    "C107_written_partial",
    "C107_writes",
    "C107_before",
    "C107_unknown_finding"
   ],
   "note": "A tree that itself is an unknown part is not replaced."
  },
  {
   "property": "C108",
   "status": "partial",
   "theorems": [
    "C108_written",
    "C108_read",
    "C108_set_direction_partial",
    "C108_set_grob_partial",
    "C108_set_style_partial",
    "C108_set_toggle_partial",
    "C108_grobs",
    "C108_grobs_sorted",
    "C108_unchecked_finding"
   ],
   "note": "Unsupported values are accepted by the attributes; only writing raises a KeyError."
  },
  {
   "property": "C109",
   "status": "partial",
   "theorems": [
    "C109_nearest",
    "C109_agrees",
    "C109_roundtrip_partial",
    "C109_underflow_finding",
    "C109_overflow_finding"
   ],
   "note": "Only in the range of floats; below it wrong values are returned, above it OverflowError."
  },
  {
   "property": "C11",
   "status": "proved",
   "theorems": [
    "C11_total_order"
   ],
   "note": ""
  },
  {
   "property": "C110",
   "status": "partial",
   "theorems": [
    "C110_chosen",
    "C110_others",
    "C110_again",
    "C110_heard_partial",
    "C110_fixed_finding",
    "C110_chordmode_finding",
    "C110_language_finding",
    "C110_inside_finding",
    "C110_itself_finding",
    "C110_chords_finding",
    "C110_start_language_finding"
   ],
   "note": "Where \\relative is added, that nothing else changes and idempotence are proved for all trees and ranges (also \\chordmode gets a \\relative). The pitches are proved the same without chords, octave checks, \\relative and \\chordmode in the converted lists, lists in \\fixed and language changes; for those the code is wrong (findings)."
  },
  {
   "property": "C111",
   "status": "partial",
   "theorems": [
    "C111_markup_partial",
    "C111_markuplist_partial",
    "C111_one_reading",
    "C111_too_few",
    "C111_no_arguments",
    "C111_functions_kept",
    "C111_functions_made",
    "C111_with_link_finding",
    "C111_name_error_finding",
    "C111_duration_finding",
    "C111_other_value",
    "C111_score"
   ],
   "note": "with_link makes another command, the fret diagram functions and woodwind_diagram raise NameError; the music given to score() and score_lines() is proved written in order, not read"
  },
  {
   "property": "C112",
   "status": "partial",
   "theorems": [
    "C112_arguments_partial",
    "C112_any_stream",
    "C112_isinstance",
    "C112_not_music_finding",
    "C112_missed_finding",
    "C112_comment_finding",
    "C112_relative_finding"
   ],
   "note": "excluded: music commands that quickly does not know as music, arguments missing in the signatures, and comments directly after a command that could have had more arguments"
  },
  {
   "property": "C113",
   "status": "partial",
   "theorems": [
    "C113_arguments_partial",
    "C113_any_stream",
    "C113_bare_finding"
   ],
   "note": "Excluded: what C112 excludes, and a duration without a note as the music of \\tuplet, \\scaleDurations or \\shiftDurations, which the code converts too (C113_bare_finding)."
  },
  {
   "property": "C114",
   "status": "partial",
   "theorems": [
    "C114_text_kept",
    "C114_class_partial",
    "C114_generic",
    "C114_missing_finding",
    "C114_keyword_finding",
    "C114_meaning",
    "C114_only",
    "C114_strict"
   ],
   "note": "The text is always kept. Excluded from the class claim: \\applyContext, \\applyMusic, \\applyOutput and \\partCombine, which are read as generic functions; unknown keywords are dropped. Rests and chord signs with another text raise KeyError (C114_strict)."
  },
  {
   "property": "C115",
   "status": "partial",
   "theorems": [
    "C115_scaled_partial",
    "C115_inside_partial",
    "C115_position_partial",
    "C115_read",
    "C115_shift_partial",
    "C115_unread",
    "C115_pair_finding",
    "C115_zero_finding"
   ],
   "note": "Negative factors, music directly in \\simultaneous and rounding of floats are left out; numbers that are not written as a literal do not scale, zeros in fractions raise."
  },
  {
   "property": "C116",
   "status": "partial",
   "theorems": [
    "C116_score",
    "C116_getter",
    "C116_explicit_partial",
    "C116_implicit_partial",
    "C116_scale_partial",
    "C116_default_finding",
    "C116_chord_finding"
   ],
   "note": "No durations inside chords before the edit; nodes inside chords are left out (false there). Scaling needs a written duration at the start (false otherwise) and no references."
  },
  {
   "property": "C117",
   "status": "proved",
   "theorems": [
    "C117_where",
    "C117_step",
    "C117_enter",
    "C117_leave",
    "C117_goto",
    "C117_index",
    "C117_walk",
    "C117_upto",
    "C117_children",
    "C117_operators",
    "C117_ancestors",
    "C117_ancestors_finding",
    "C117_copy"
   ],
   "note": "For all histories of navigation that do not edit the tree. ancestors() yields the node itself first when it was just entered, see C117_ancestors_finding."
  },
  {
   "property": "C118",
   "status": "proved",
   "theorems": [
    "C118_node",
    "C118_ancestor",
    "C118_view",
    "C118_loop"
   ],
   "note": "The range after any history, with the levels under the changed one seeing the same tree and trails."
  },
  {
   "property": "C119",
   "status": "proved",
   "theorems": [
    "C119_list",
    "C119_block",
    "C119_marks",
    "C119_list_total",
    "C119_dropped_finding"
   ],
   "note": "How a floating point number is read and written is a parameter: the text of a float is kept if reading and writing keep it. Numbers with superfluous zeros are excluded (they are written without). Finding: in a block keywords such as \\include give no element."
  },
  {
   "property": "C12",
   "status": "proved",
   "theorems": [
    "C12_absolute_relative_inverse",
    "C12_nearest_octave"
   ],
   "note": ""
  },
  {
   "property": "C120",
   "status": "proved",
   "theorems": [
    "C120_ls",
    "C120_pwd",
    "C120_pwd_finding"
   ],
   "note": "The lines are modelled as data (index, node, marks); the formatting is not. Finding: at the ancestor of the range, pwd prints everything above it too."
  },
  {
   "property": "C121",
   "status": "partial",
   "theorems": [
    "C121_same",
    "C121_equals",
    "C121_nowhere",
    "C121_tokens",
    "C121_first",
    "C121_text_partial",
    "C121_positions",
    "C121_empty_finding",
    "C121_witness"
   ],
   "note": "The calls of the transforms are quantified over as a tree of requests; which requests the methods make is C87-C100. An element made from no token cannot be written when read with the origin (finding); the conversion of a Duration to an Int depends on the origin (C105_origin_finding)."
  },
  {
   "property": "C122",
   "status": "proved",
   "theorems": [
    "C122_text",
    "C122_unmodified",
    "C122_atomic",
    "C122_raise",
    "C122_count_finding"
   ],
   "note": "The behaviour of parce's 'with document' (recorded assignments, carried out together at the end, forgotten on an exception) is part of the model. Changes that change nothing are counted (finding)."
  },
  {
   "property": "C123",
   "status": "proved",
   "theorems": [
    "C123_explicit_again",
    "C123_implicit_again",
    "C123_remove_again",
    "C123_remove_scaling_again",
    "C123_remove_fraction_scaling_again",
    "C123_implicit_explicit",
    "C123_transform_back",
    "C123_dots_finding"
   ],
   "note": "For documents as read from text (one duration per note, one scaling per duration); transforms without dots, of durations with at most 52 dots that can be written."
  },
  {
   "property": "C124",
   "status": "proved",
   "theorems": [
    "C124_relative_history",
    "C124_relative_back",
    "C124_relative_back_exact",
    "C124_absolute_history",
    "C124_document_history"
   ],
   "note": "Transposers of a history share one scale; every note of relative music is within the edited range; each transposition succeeds (has names for its pitches). C124_document_history lifts it to whole documents under the conditions of C125 (edited in full, references of \\fixed kept)."
  },
  {
   "property": "C125",
   "status": "partial",
   "theorems": [
    "C125_document_partial",
    "C125_sound_partial",
    "C125_only_pitches",
    "C125_transpose_in_relative_refuted",
    "C125_comment_refuted"
   ],
   "note": "Whole trees. Excluded, and refuted with witnesses: \\transpose inside \\relative (its pitches are treated as relative), comments before the pitches of \\transpose, \\fixed references that move to another octave (C27)."
  },
  {
   "property": "C126",
   "status": "proved",
   "theorems": [
    "C126_only_key_error",
    "C126_succeeds",
    "C126_semitones"
   ],
   "note": "Success for documents in which \\fixed and \\transpose have their pitches and \\transpose is not in \\relative (as in C125)."
  },
  {
   "property": "C127",
   "status": "partial",
   "theorems": [
    "C127_selection_partial",
    "C127_nothing",
    "C127_cut_refuted"
   ],
   "note": "For selections that do not cut through a \\relative or \\fixed expression or the pitches of \\transpose; for others it is false (C127_cut_refuted, C68_relative_pitches_refuted). Documents as in C125."
  },
  {
   "property": "C128",
   "status": "proved",
   "theorems": [
    "C128_transpose_first",
    "C128_convert_first",
    "C128_commute",
    "C128_to_relative",
    "C128_succeeds"
   ],
   "note": "For \\relative music without octave checks and without \\relative inside (there converting is wrong by itself, C29); converting to relative: without chords (C30). C128_succeeds: both ways succeed in languages with names for the transposed pitches."
  },
  {
   "property": "C129",
   "status": "proved",
   "theorems": [
    "C129_edits",
    "C129_text",
    "C129_witness"
   ],
   "note": "For documents whose neighbouring texts that want whitespace have it in the source (as C52; see its finding), and concat_space depending on the types of the nodes only, as those in the repository do. New nodes (with their children): texts without wanted whitespace, as first child or after a child that ends in a text of its own (no block as parent); at most one after each."
  },
  {
   "property": "C13",
   "status": "proved",
   "theorems": [
    "C13_octave_string_roundtrip",
    "C13_octave_string_concat"
   ],
   "note": ""
  },
  {
   "property": "C130",
   "status": "proved",
   "theorems": [
    "C130_text",
    "C130_chosen"
   ],
   "note": "The assignments to head, octave and octave check are modelled on the elements (Doctext_Model.v); the music they must give is the result of the walk of C125. The classes of elements that are not pitches matter only as far as the walk tells them apart."
  },
  {
   "property": "C131",
   "status": "proved",
   "theorems": [
    "C131_removed",
    "C131_line_finding"
   ],
   "note": "For removed nodes that have text. Finding: as the wanted whitespace replaces what was there, a line break after a removed duration is lost."
  },
  {
   "property": "C132",
   "status": "proved",
   "theorems": [
    "C132_text",
    "C132_witness"
   ],
   "note": "For documents as in C131 (source whitespace where it is wanted); the Duration children of a node are next to each other. The whitespace that is deleted can be a line break, see the finding of C131."
  },
  {
   "property": "C133",
   "status": "proved",
   "theorems": [
    "C133_text",
    "C133_witness",
    "C133_moved_witness"
   ],
   "note": "Trees read from a document, as in C51; the nodes that stay keep their order."
  },
  {
   "property": "C134",
   "status": "proved",
   "theorems": [
    "C134_text",
    "C134_witness"
   ],
   "note": "Documents as in C133, a Duration has at most one scaling as they are read, the Durations of a node are next to each other, and the new durations can be written. Rhythm functions of C59-C64 composed with the text edit of C133."
  },
  {
   "property": "C135",
   "status": "proved",
   "theorems": [
    "C135_text",
    "C135_witness"
   ],
   "note": "Documents as in C133; the children of the ancestor of the range may be anywhere in the tree. What the pitches are is C30 and C110; comments as in C110."
  },
  {
   "property": "C136",
   "status": "proved",
   "theorems": [
    "C136_text",
    "C136_witness"
   ],
   "note": "Documents as in C133; the expressions may be anywhere in the tree. What the pitches are is C29; the shape of the music and what is left out is as in C29."
  },
  {
   "property": "C137",
   "status": "partial",
   "theorems": [
    "C137_language_partial",
    "C137_first_pitch",
    "C137_settings",
    "C137_unknown_finding",
    "C137_selection_finding",
    "C137_reuse_finding",
    "C137_witness"
   ],
   "note": "Proved for parts below the root. False for selections that span toplevel expressions (C137_selection_finding); a processor that is used again keeps the language (C137_reuse_finding)."
  },
  {
   "property": "C138",
   "status": "partial",
   "theorems": [
    "C138_aligned_partial",
    "C138_nested_finding",
    "C138_witness",
    "C138_applies"
   ],
   "note": "The column is proved for every tree, with any nested nodes in the line. Left out: lines in which an indenting node that began earlier ends (C58_alignment_finding), and nodes below the children that have the same index in their own parent, where the alignment is wrong (C138_nested_finding)."
  },
  {
   "property": "C139",
   "status": "proved",
   "theorems": [
    "C139_lines",
    "C139_blank_finding",
    "C139_witness"
   ],
   "note": "For spacing attributes that consist of spaces or of newlines, as all in the code do. Finding: a blank line is filled with the spaces of the indent."
  },
  {
   "property": "C14",
   "status": "proved",
   "theorems": [
    "C14_naming",
    "C14_text"
   ],
   "note": "tables are arbitrary"
  },
  {
   "property": "C140",
   "status": "partial",
   "theorems": [
    "C140_text_kept",
    "C140_independent_partial",
    "C140_leftover_finding"
   ],
   "note": "Text unchanged after an edit that raises, is readonly or makes no changes; sequences of edits that end well give the same text and results as with the document loaded again before each. Finding: changes made to the tree by an edit that raises or is readonly are written to the text by the next edit. Simplified: after a change the whole tree is made anew (parce reuses unaffected nodes)."
  },
  {
   "property": "C141",
   "status": "proved",
   "theorems": [
    "C141_elsewhere",
    "C141_placed",
    "C141_removed",
    "C141_values",
    "C141_tree",
    "C141_witness",
    "C141_range_slice",
    "C141_range_item",
    "C141_range_witness"
   ],
   "note": "How the list of children itself changes is C36_effect. The trees of the models of Range are those of the nodes (rep); the levels and trails of the range are C47."
  },
  {
   "property": "C142",
   "status": "proved",
   "theorems": [
    "C142_written",
    "C142_witness"
   ],
   "note": "For children whose whitespace properties contain only whitespace."
  },
  {
   "property": "C143",
   "status": "proved",
   "theorems": [
    "C143_part",
    "C143_siblings",
    "C143_witness"
   ],
   "note": "The whitespace around the text is C49."
  },
  {
   "property": "C144",
   "status": "proved",
   "theorems": [
    "C144_texts",
    "C144_written",
    "C144_witness"
   ],
   "note": "That the copies write the same heads and tails is C42 and C94."
  },
  {
   "property": "C145",
   "status": "proved",
   "theorems": [
    "C145_take_back",
    "C145_insert_back",
    "C145_replace_back",
    "C145_reverse_back",
    "C145_witness"
   ],
   "note": "The edits are also shown to be permitted (C36), so the tree keeps its integrity in between."
  },
  {
   "property": "C146",
   "status": "proved",
   "theorems": [
    "C146_undo",
    "C146_trees",
    "C146_witness"
   ],
   "note": "For all edits of C36 in any order; a node that is no longer in the tree keeps the parent it was given last."
  },
  {
   "property": "C147",
   "status": "proved",
   "theorems": [
    "C147_edit",
    "C147_undo",
    "C147_witness"
   ],
   "note": "The texts in order (C48 and C49 say how they are joined by whitespace). For one edit of any kind and, taken back, for histories of any length."
  },
  {
   "property": "C15",
   "status": "proved",
   "theorems": [
    "C15_write_read",
    "C15_failed_write_unchanged",
    "C15_write_succeeds",
    "C15_process",
    "C15_pitchable",
    "C15_translate",
    "C15_format",
    "C15_language"
   ],
   "note": ""
  },
  {
   "property": "C16",
   "status": "partial",
   "theorems": [
    "C16_preferences_obeyed_partial",
    "C16_preferences_norsk_refuted",
    "C16_norsk_reversed",
    "C16_defaults"
   ],
   "note": "all languages with alternatives but norsk, where the code inverts prefer_classic"
  },
  {
   "property": "C17",
   "status": "partial",
   "theorems": [
    "C17_distill_order",
    "C17_distill_evidence_partial",
    "C17_english_evidence_refuted"
   ],
   "note": "order independence proved; evidence proved except for switching prefer_long off, where the code tests the note instead of the alteration"
  },
  {
   "property": "C18",
   "status": "proved",
   "theorems": [
    "C18_follow_language",
    "C18_unknown_language",
    "C18_find_language"
   ],
   "note": "with known languages; an unknown language raises KeyError"
  },
  {
   "property": "C19",
   "status": "proved",
   "theorems": [
    "C19_determine_language",
    "C19_order"
   ],
   "note": "synonyms (languages sharing one table) are reported once"
  },
  {
   "property": "C20",
   "status": "proved",
   "theorems": [
    "C20_constant_interval",
    "C20_interval"
   ],
   "note": "for every scale"
  },
  {
   "property": "C21",
   "status": "proved",
   "theorems": [
    "C21_normal_form",
    "C21_major_scale"
   ],
   "note": "for every seven-step scale with steps of at most two whole tones, in particular MAJOR_SCALE"
  },
  {
   "property": "C22",
   "status": "proved",
   "theorems": [
    "C22_from_to"
   ],
   "note": ""
  },
  {
   "property": "C23",
   "status": "proved",
   "theorems": [
    "C23_back_and_forth"
   ],
   "note": ""
  },
  {
   "property": "C24",
   "status": "partial",
   "theorems": [
    "C24_sum_partial",
    "C24_sum_with_scale",
    "C24_difference_partial",
    "C24_apply_refuted",
    "C24_difference_refuted",
    "C24_steps"
   ],
   "note": "sums and differences have no scale attribute, so applying them raises AttributeError; the difference has the wrong interval when steps borrow an octave"
  },
  {
   "property": "C25",
   "status": "proved",
   "theorems": [
    "C25_relative_music"
   ],
   "note": "for languages whose names share one octave"
  },
  {
   "property": "C26",
   "status": "partial",
   "theorems": [
    "C26_octave_checks_partial",
    "C26_octave_checks_refuted"
   ],
   "note": "false with a start pitch and a transposer with octaves"
  },
  {
   "property": "C27",
   "status": "partial",
   "theorems": [
    "C27_fixed_music_partial",
    "C27_fixed_music_unchanged_reference",
    "C27_fixed_music_refuted"
   ],
   "note": "false when the reference pitch crosses into another octave"
  },
  {
   "property": "C28",
   "status": "proved",
   "theorems": [
    "C28_octave_kept",
    "C28_transpose_interval"
   ],
   "note": ""
  },
  {
   "property": "C29",
   "status": "partial",
   "theorems": [
    "C29_rel2abs_partial",
    "C29_document_partial",
    "C29_octave_check_refuted",
    "C29_nested_refuted",
    "C29_selection_refuted",
    "C29_language_refuted",
    "C29_nested_first",
    "C29_again_partial"
   ],
   "note": "Proved for any nesting of lists, notes, chords and trailing octave checks. False of the code and refuted: a node after \\octaveCheck, nested \\relative after a note, unselected \\relative, language changes between expressions."
  },
  {
   "property": "C30",
   "status": "partial",
   "theorems": [
    "C30_abs2rel_partial",
    "C30_undo_partial",
    "C30_first_note",
    "C30_chord_refuted"
   ],
   "note": "Proved for music without chords (any nesting); chords are not converted by the code, refuted with a witness."
  },
  {
   "property": "C31",
   "status": "proved",
   "theorems": [
    "C31_alterations",
    "C31_default"
   ],
   "note": "Any scale, any offset."
  },
  {
   "property": "C32",
   "status": "proved",
   "theorems": [
    "C32_accidentals",
    "C32_named_modes",
    "C32_major"
   ],
   "note": "Any scale and mode; the named modes have the semitones of the theory books."
  },
  {
   "property": "C33",
   "status": "proved",
   "theorems": [
    "C33_tonic",
    "C33_count"
   ],
   "note": "Any integer, any mode."
  },
  {
   "property": "C34",
   "status": "proved",
   "theorems": [
    "C34_key_pitch",
    "C34_standard_keys",
    "C34_extreme_key_refuted",
    "C34_flats_refuted"
   ],
   "note": "Proved for all standard keys (all tonics with up to a double accidental except b-double-sharp, all nine modes, all MIDI keys) and for arbitrary modes and flats as long as the result is altered by at most 5 semitones. The refutations show b-double-sharp and extreme flats outside these limits are misspelled."
  },
  {
   "property": "C35",
   "status": "partial",
   "theorems": [
    "C35_add_partial",
    "C35_assoc",
    "C35_neutral_partial",
    "C35_access",
    "C35_equal",
    "C35_self_refuted"
   ],
   "note": "All property sets without a property called 'self'; with one, adding raises TypeError (C35_self_refuted)."
  },
  {
   "property": "C36",
   "status": "proved",
   "theorems": [
    "C36_history",
    "C36_preserved",
    "C36_effect",
    "C36_take",
    "C36_wrap",
    "C36_replace_self_finding"
   ],
   "note": "Heap model of Node objects; every permitted history of edits keeps integrity, and every edit acts on the children as Python's list does. Finding: C36_replace_self_finding."
  },
  {
   "property": "C37",
   "status": "proved",
   "theorems": [
    "C37_trail",
    "C37_order",
    "C37_stale_finding"
   ],
   "note": "C37_stale_finding: a removed node keeps its parent and trail() then raises ValueError; so the root must have no parent."
  },
  {
   "property": "C38",
   "status": "proved",
   "theorems": [
    "C38_descendants",
    "C38_reverse",
    "C38_all",
    "C38_filter"
   ],
   "note": "The generator protocol with its stack is modelled; the consumer is any function telling for which nodes False is sent."
  },
  {
   "property": "C39",
   "status": "proved",
   "theorems": [
    "C39_forward",
    "C39_backward",
    "C39_partition",
    "C39_siblings",
    "C39_first_last"
   ],
   "note": ""
  },
  {
   "property": "C40",
   "status": "proved",
   "theorems": [
    "C40_common",
    "C40_disjoint"
   ],
   "note": ""
  },
  {
   "property": "C41",
   "status": "proved",
   "theorems": [
    "C41_depth",
    "C41_height"
   ],
   "note": ""
  },
  {
   "property": "C42",
   "status": "partial",
   "theorems": [
    "C42_equals",
    "C42_equivalence",
    "C42_copy",
    "C42_copy_equals",
    "C42_element_equals",
    "C42_element_copy",
    "C42_text_partial",
    "C42_spacing_finding"
   ],
   "note": "The copy writes the same text if no spacing property of an element was changed (C42_text_partial); own values are lost in the copy because the code reads an attribute that does not exist (C42_spacing_finding); everything else is proved."
  },
  {
   "property": "C43",
   "status": "partial",
   "theorems": [
    "C43_nodes_partial",
    "C43_nodes_from_start",
    "C43_unbounded",
    "C43_descendants",
    "C43_empty_finding",
    "C43_bool"
   ],
   "note": "For a start node not after the end node (any pruning). With the end before the start nodes() still yields the start node and its descendants."
  },
  {
   "property": "C44",
   "status": "proved",
   "theorems": [
    "C44_extract",
    "C44_extract_all",
    "C44_full"
   ],
   "note": "At any current node that intersects the range; copy() of a node is its identity here (see C42)."
  },
  {
   "property": "C45",
   "status": "partial",
   "theorems": [
    "C45_contains_partial",
    "C45_full",
    "C45_outside",
    "C45_intersects",
    "C45_goto",
    "C45_contains_finding",
    "C45_intersects_finding"
   ],
   "note": "node in range holds iff the node itself is between the boundaries; 'and all its descendants' is proved for nodes not at or above the end node and refuted otherwise. range & node is proved for every end trail except the empty one, where it is refuted."
  },
  {
   "property": "C46",
   "status": "proved",
   "theorems": [
    "C46_from_nodes",
    "C46_one_node",
    "C46_error"
   ],
   "note": ""
  },
  {
   "property": "C47",
   "status": "partial",
   "theorems": [
    "C47_slice_partial",
    "C47_item",
    "C47_current_finding",
    "C47_end_finding",
    "C47_start_finding",
    "C47_replaced_finding",
    "C47_emptied",
    "C47_range_partial",
    "C47_range_view",
    "C47_range_item",
    "C47_negative_finding"
   ],
   "note": "Proved for slices that do not contain the boundary children or the current child, and for item replacement; also of the whole range with all its levels, however it was used before (C47_range_partial, C47_range_view). Refuted for the others: the next node is skipped, the end boundary moves one too far; with a negative index a boundary inside the replaced node is not moved."
  },
  {
   "property": "C48",
   "status": "proved",
   "theorems": [
    "C48_write",
    "C48_order",
    "C48_fails",
    "C48_newline_finding",
    "C48_before_finding"
   ],
   "note": "what write() yields; Newline/BlankLine elements and space_before without a head are findings"
  },
  {
   "property": "C49",
   "status": "proved",
   "theorems": [
    "C49_collapse",
    "C49_strongest",
    "C49_combine"
   ],
   "note": ""
  },
  {
   "property": "C50",
   "status": "proved",
   "theorems": [
    "C50_history"
   ],
   "note": ""
  },
  {
   "property": "C51",
   "status": "proved",
   "theorems": [
    "C51_points",
    "C51_edits",
    "C51_newline_finding",
    "C51_start_finding"
   ],
   "note": "applying the edits to the source yields the texts in order separated by whitespace, with the source untouched outside; assumes parce applies edits relative to the original text"
  },
  {
   "property": "C52",
   "status": "proved",
   "theorems": [
    "C52_unmodified",
    "C52_touching_finding"
   ],
   "note": "for trees whose neighbouring texts that want whitespace have it in the source; otherwise see the finding"
  },
  {
   "property": "C53",
   "status": "proved",
   "theorems": [
    "C53_add",
    "C53_inserted",
    "C53_two_orders_finding"
   ],
   "note": "for element types with one child order, which are all those in the repository"
  },
  {
   "property": "C54",
   "status": "proved",
   "theorems": [
    "C54_build_tree",
    "C54_unique",
    "C54_overridden",
    "C54_unchanged"
   ],
   "note": "signatures() may be an empty generator; add_argument may be overridden as long as the node keeps its type"
  },
  {
   "property": "C55",
   "status": "proved",
   "theorems": [
    "C55_read_write",
    "C55_write_read",
    "C55_check",
    "C55_writable",
    "C55_toggle"
   ],
   "note": ""
  },
  {
   "property": "C56",
   "status": "proved",
   "theorems": [
    "C56_positions",
    "C56_find_child",
    "C56_no_child",
    "C56_find_descendants",
    "C56_right",
    "C56_left",
    "C56_headless_finding"
   ],
   "note": "for trees whose heads and tails occur in the text in document order"
  },
  {
   "property": "C57",
   "status": "proved",
   "theorems": [
    "C57_write_indented",
    "C57_same_texts",
    "C57_like_write",
    "C57_reuse"
   ],
   "note": "every indenting node must have a non-empty tail, which is so for all classes in the repository"
  },
  {
   "property": "C58",
   "status": "proved",
   "theorems": [
    "C58_indent",
    "C58_balanced",
    "C58_alignment_finding",
    "C58_tailless_finding",
    "C58_comment",
    "C58_margin",
    "C58_margin_witness"
   ],
   "note": "the indent of lines is proved for trees without alignment; with alignment only the content of the lines (C57) and the balance of levels; see the alignment finding"
  },
  {
   "property": "C59",
   "status": "partial",
   "theorems": [
    "C59_urls",
    "C59_no_repeat",
    "C59_include",
    "C59_chain_partial",
    "C59_finite_partial",
    "C59_file_url_finding",
    "C59_defaults"
   ],
   "note": "Finiteness assumes that documents carry the url they were asked for by (true for absolute paths); otherwise a self-including file recurses for ever, C59_file_url_finding. urljoin and urlparse are arbitrary functions."
  },
  {
   "property": "C60",
   "status": "proved",
   "theorems": [
    "C60_explicit",
    "C60_explicit_document",
    "C60_chord_finding"
   ],
   "note": "For a contiguous selection that does not begin inside a chord. Finding: notes inside chords get durations too."
  },
  {
   "property": "C61",
   "status": "proved",
   "theorems": [
    "C61_implicit",
    "C61_implicit_per_line"
   ],
   "note": "For contiguous selections and at most one duration per durable."
  },
  {
   "property": "C62",
   "status": "partial",
   "theorems": [
    "C62_remove",
    "C62_text_partial",
    "C62_comment_finding",
    "C62_command_finding",
    "C62_classes",
    "C62_value"
   ],
   "note": "Removes exactly what is not needed; the written text stays safe when every durable is followed by a sibling that writes something or by the tail of its parent. In general it is false: two findings."
  },
  {
   "property": "C63",
   "status": "partial",
   "theorems": [
    "C63_copy",
    "C63_copy_explicit_partial",
    "C63_paste_partial",
    "C63_paste_any_partial",
    "C63_paste_copy_partial",
    "C63_skip_finding",
    "C63_chord_finding",
    "C63_paste_copy_finding"
   ],
   "note": "Copying explicitly is only right without a skip in the selection (finding); pasting is for at most one duration with one scaling per durable."
  },
  {
   "property": "C64",
   "status": "partial",
   "theorems": [
    "C64_transform_partial",
    "C64_two_scalings_finding"
   ],
   "note": "At most one scaling per duration, as read from text; with two one can remain (finding)."
  },
  {
   "property": "C65",
   "status": "proved",
   "theorems": [
    "C65_sequential",
    "C65_simultaneous",
    "C65_durable",
    "C65_durable_path",
    "C65_after_grace",
    "C65_reference",
    "C65_nonneg",
    "C65_total",
    "C65_unresolved_finding",
    "C65_drum_chord_finding",
    "C65_after_grace_finding"
   ],
   "note": "Lengths are exact rationals; findings for unresolved references, drum chords and afterGrace with a reference"
  },
  {
   "property": "C66",
   "status": "proved",
   "theorems": [
    "C66_next",
    "C66_sequential",
    "C66_first",
    "C66_simultaneous",
    "C66_include",
    "C66_topmost",
    "C66_start",
    "C66_total"
   ],
   "note": ""
  },
  {
   "property": "C67",
   "status": "partial",
   "theorems": [
    "C67_duration_partial",
    "C67_other_music",
    "C67_none",
    "C67_cursor",
    "C67_transform_finding",
    "C67_cursor_end_finding",
    "C67_cursor_position"
   ],
   "note": "The full statement is false where the node in which the two paths diverge has a transform (C67_transform_finding); proved otherwise"
  },
  {
   "property": "C68",
   "status": "partial",
   "theorems": [
    "C68_absolute_selected",
    "C68_relative_frame",
    "C68_relative_selection_partial",
    "C68_relative_pitches_refuted"
   ],
   "note": "Nothing outside the selection is edited; absolute music: exactly the selected notes are transposed; relative music: a contiguous selection is read transposed and all before it unchanged. That the notes after the selection keep their pitch in relative music is false of the code and refuted with a witness."
  },
  {
   "property": "C69",
   "status": "proved",
   "theorems": [
    "C69_head_mapping"
   ],
   "note": ""
  },
  {
   "property": "C70",
   "status": "partial",
   "theorems": [
    "C70_remove_scaling_partial",
    "C70_remove_fraction_scaling_partial",
    "C70_two_scalings_finding"
   ],
   "note": "At most one scaling per duration, as read from text. Finding: with two scalings one remains."
  },
  {
   "property": "C71",
   "status": "proved",
   "theorems": [
    "C71_music_child",
    "C71_none"
   ],
   "note": ""
  },
  {
   "property": "C72",
   "status": "partial",
   "theorems": [
    "C72_getter_partial",
    "C72_chord_finding"
   ],
   "note": "Proved for documents in which no durable without duration contains a durable with one; false otherwise (finding)"
  },
  {
   "property": "C73",
   "status": "proved",
   "theorems": [
    "C73_preceding",
    "C73_total",
    "C73_local"
   ],
   "note": "Loading of included documents is a parameter; see C59 for the include chains"
  },
  {
   "property": "C74",
   "status": "proved",
   "theorems": [
    "C74_found",
    "C74_none",
    "C74_local"
   ],
   "note": ""
  },
  {
   "property": "C75",
   "status": "proved",
   "theorems": [
    "C75_name",
    "C75_reference",
    "C75_singleton_finding"
   ],
   "note": "tuples of length one are excluded; see the finding"
  },
  {
   "property": "C76",
   "status": "proved",
   "theorems": [
    "C76_value",
    "C76_unit_finding"
   ],
   "note": "floats are modelled as fractions"
  },
  {
   "property": "C77",
   "status": "partial",
   "theorems": [
    "C77_set_get",
    "C77_set_other",
    "C77_set_variables",
    "C77_unset_partial",
    "C77_unset_other",
    "C77_twice_finding",
    "C77_comment_finding"
   ],
   "note": "for complete assignments; unset for names assigned once, see the findings"
  },
  {
   "property": "C78",
   "status": "partial",
   "theorems": [
    "C78_complete_partial",
    "C78_sound",
    "C78_name_finding"
   ],
   "note": "names directly after names are not recognised; see the finding"
  },
  {
   "property": "C79",
   "status": "proved",
   "theorems": [
    "C79_string",
    "C79_text",
    "C79_backslash_finding"
   ],
   "note": ""
  },
  {
   "property": "C80",
   "status": "proved",
   "theorems": [
    "C80_int",
    "C80_fraction",
    "C80_scaling",
    "C80_scalings",
    "C80_scheme_int",
    "C80_scheme_fraction",
    "C80_scheme_bool"
   ],
   "note": "floats and complex numbers are not modelled"
  },
  {
   "property": "C81",
   "status": "partial",
   "theorems": [
    "C81_single",
    "C81_multi_partial",
    "C81_multi_end",
    "C81_command",
    "C81_char",
    "C81_environment",
    "C81_scheme_comment_finding",
    "C81_check"
   ],
   "note": "Block comments in Scheme are not written back as read; see the finding"
  },
  {
   "property": "C82",
   "status": "proved",
   "theorems": [
    "C82_text",
    "C82_unique",
    "C82_safe",
    "C82_entity",
    "C82_cdata_finding",
    "C82_cdata"
   ],
   "note": ""
  },
  {
   "property": "C83",
   "status": "proved",
   "theorems": [
    "C83_newlines",
    "C83_never_weaker",
    "C83_line_breaks"
   ],
   "note": "for non-empty separators"
  },
  {
   "property": "C84",
   "status": "proved",
   "theorems": [
    "C84_comments"
   ],
   "note": ""
  },
  {
   "property": "C85",
   "status": "proved",
   "theorems": [
    "C85_nearest",
    "C85_limit",
    "C85_symmetric",
    "C85_nested_finding"
   ],
   "note": "the model's heap of nodes; classes and heads are parameters. Finding: a start outside \\new finds a stop inside it, but not the other way round"
  },
  {
   "property": "C86",
   "status": "partial",
   "theorems": [
    "C86_octave",
    "C86_del_octave",
    "C86_octave_zero_finding",
    "C86_accidental_partial",
    "C86_octcheck_partial",
    "C86_delete",
    "C86_two_finding",
    "C86_independent_partial",
    "C86_written_partial"
   ],
   "note": "accidental and octave check: for at most one such child. Findings: octave = 0 does not remove an existing Octave child; None removes only the first of two accidentals"
  },
  {
   "property": "C87",
   "status": "partial",
   "theorems": [
    "C87_reads_partial",
    "C87_order_partial",
    "C87_complete_partial",
    "C87_nothing_invented",
    "C87_comment_finding",
    "C87_unbound_finding",
    "C87_modifier_finding",
    "C87_moved_finding",
    "C87_isolated_finding"
   ],
   "note": "MusicBuilder is modelled method by method; the dispatch on token actions (parce) is given. The positive theorems are about streams of the grammar in Music_Spec.v; what happens outside it (lost comments, a crash, moved tags) is stated as findings."
  },
  {
   "property": "C88",
   "status": "proved",
   "theorems": [
    "C88_lyrics",
    "C88_deterministic",
    "C88_order",
    "C88_comment_finding"
   ],
   "note": "A comment between a syllable and its duration splits them: a finding."
  },
  {
   "property": "C89",
   "status": "proved",
   "theorems": [
    "C89_figures",
    "C89_finding"
   ],
   "note": "An accidental before the first figure is lost and one after a comment goes into the comment: a finding."
  },
  {
   "property": "C90",
   "status": "partial",
   "theorems": [
    "C90_reads",
    "C90_unique",
    "C90_complete",
    "C90_markup_partial",
    "C90_nothing",
    "C90_common",
    "C90_comment_finding",
    "C90_lost_finding"
   ],
   "note": "For every table of argument counts. Finding: a comment before the argument of \\markup is taken as the argument, and the rest of the markup context is lost."
  },
  {
   "property": "C91",
   "status": "partial",
   "theorems": [
    "C91_closed_partial",
    "C91_brackets",
    "C91_open",
    "C91_score_finding",
    "C91_tokens"
   ],
   "note": "For every reader of the contents. False of \\score: the closing brace is taken off twice, so that the score element does not know its end (C91_score_finding)."
  },
  {
   "property": "C92",
   "status": "proved",
   "theorems": [
    "C92_modifiers",
    "C92_order",
    "C92_list",
    "C92_duration"
   ],
   "note": ""
  },
  {
   "property": "C93",
   "status": "partial",
   "theorems": [
    "C93_html_partial",
    "C93_latex_partial",
    "C93_html_finding",
    "C93_latex_finding"
   ],
   "note": "All forms that are closed; unfinished HTML raises UnboundLocalError and LaTeX text that ends after the options IndexError (findings)."
  },
  {
   "property": "C94",
   "status": "proved",
   "theorems": [
    "C94_same",
    "C94_edits",
    "C94_origin_from",
    "C94_origin_from_block",
    "C94_assign",
    "C94_origin_from_none",
    "C94_origin_from_plain",
    "C94_written"
   ],
   "note": "For elements whose spacing properties were not changed: copies lose them (C42_spacing_finding). Heads are compared with an equality that is identity."
  },
  {
   "property": "C95",
   "status": "proved",
   "theorems": [
    "C95_dump",
    "C95_one_way",
    "C95_injective",
    "C95_one_way_witness"
   ],
   "note": "repr() of the head values, module and class names are parameters. That the dump tells trees apart needs names that belong to one class and a repr() whose end can be seen; shown for Python's repr() of strings."
  },
  {
   "property": "C96",
   "status": "partial",
   "theorems": [
    "C96_reads",
    "C96_scheme",
    "C96_tokens_partial",
    "C96_known",
    "C96_lost_finding",
    "C96_comment_finding",
    "C96_scheme_empty"
   ],
   "note": "Reading is characterised in both directions; a quote at the end of a list is lost and a quote before a comment quotes the comment (findings), so the tokens are all kept only if every quote is followed by something."
  },
  {
   "property": "C97",
   "status": "proved",
   "theorems": [
    "C97_simple",
    "C97_value",
    "C97_quote",
    "C97_pair",
    "C97_error",
    "C97_total",
    "C97_tuple_finding"
   ],
   "note": "Numbers and strings by their text; a tuple of one item is outside the claim (finding)."
  },
  {
   "property": "C98",
   "status": "partial",
   "theorems": [
    "C98_write",
    "C98_plaintext",
    "C98_resolver_partial",
    "C98_resolver_node",
    "C98_resolver_finding"
   ],
   "note": "Writing and plain text in full; with an own entity_resolver the entities in nested elements are not resolved by it (finding: it is not passed on)."
  },
  {
   "property": "C99",
   "status": "partial",
   "theorems": [
    "C99_reads",
    "C99_instruction",
    "C99_comment",
    "C99_tokens",
    "C99_complete_partial",
    "C99_dropped_finding",
    "C99_string_finding"
   ],
   "note": "Comments, CDATA sections and processing instructions are read but not put in the document (finding); a string that is only an opening quote gets that token twice (finding). Which token trees parce gives is described by the grammar in Html_Spec, written after its use in the code."
  }
 ]
}
