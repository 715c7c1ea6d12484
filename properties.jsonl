{"id": "C01", "title": "Roman numerals round-trip", "statement": "For every integer n >= 1, roman2int(int2roman(n)) == n, also when the numeral is written in lower case; int2roman raises ValueError exactly for n < 1; distinct integers get distinct numerals.", "quantifier": "every integer n (unbounded)", "why_tests_cant": "The domain is infinite; the tests try a handful of numerals.", "anchors": ["quickly/numbering.py: int2roman", "quickly/numbering.py: roman2int"]}
{"id": "C02", "title": "Letter numbering is a bijection", "statement": "For every alphabet of distinct characters, int2letter and letter2int are mutually inverse between the non-negative integers and the strings over the alphabet; letter2int raises ValueError exactly when some character is not in the alphabet; a larger number never gets a shorter string.", "quantifier": "every alphabet without duplicates, every integer n >= 0, every string", "why_tests_cant": "Both the alphabet and the number are unbounded.", "anchors": ["quickly/numbering.py: int2letter", "quickly/numbering.py: letter2int"]}
{"id": "C03", "title": "English number names are faithful", "statement": "For every 0 <= n <= 999999999 the word sequence written by int2text, read with the usual meaning of English number words, denotes n; two different numbers never get the same text, so the names are usable as distinct identifiers.", "quantifier": "every integer 0 .. 999999999", "why_tests_cant": "A billion inputs; the tests try a few.", "anchors": ["quickly/numbering.py: int2text"]}
{"id": "C04", "title": "Duration log/dots round-trip", "statement": "duration(log, dots) is exactly 2^-log * (2 - 2^-dots), and log_dotcount(duration(log, dots)) == (log, dots), for every log and every dots >= 0 for which duration() is defined (dots + log + 3 >= 0); outside that domain duration() raises ValueError.", "quantifier": "all integers log, all dots >= 0", "why_tests_cant": "Infinite domain of exponents and dot counts.", "anchors": ["quickly/duration.py: duration", "quickly/duration.py: log_dotcount"]}
{"id": "C05", "title": "Duration truncation is the greatest expressible value", "statement": "For every positive value v, duration(*log_dotcount(v)) is expressible, is <= v, and every expressible (dotted) duration <= v is <= it.", "quantifier": "all positive rational values v", "why_tests_cant": "Quantifies over all rationals and all expressible durations.", "anchors": ["quickly/duration.py: log_dotcount", "quickly/duration.py: to_string"]}
{"id": "C06", "title": "Duration notation round-trip", "statement": "For every expressible duration shorter than 16 whole notes, from_string(to_string(v)) == v, with or without the backslash of the named durations; to_string raises IndexError exactly when v >= 16.", "quantifier": "all logs >= -3 and all dot counts; all v for the error clause", "why_tests_cant": "Unbounded numerals and dots.", "anchors": ["quickly/duration.py: to_string", "quickly/duration.py: from_string"]}
{"id": "C07", "title": "is_writable is exact", "statement": "is_writable(v) is True iff 1/1024 <= v < 16 and v equals some dotted duration exactly; then to_string loses nothing.", "quantifier": "all positive rational v", "why_tests_cant": "Infinite domain with an existential on the right hand side.", "anchors": ["quickly/duration.py: is_writable"]}
{"id": "C08", "title": "Shifting durations and duration transforms compose", "statement": "shift_duration by (log, 0) multiplies an expressible value by exactly 2^-log; dots never become negative; Transform addition is associative with Transform() as neutral element, and applying t1 + t2 equals applying t1 and then t2 as long as no step drops below zero dots (in general it is not equal).", "quantifier": "all expressible durations, all shifts, all scalings", "why_tests_cant": "Laws over infinite domains, including a side condition at the clipping boundary.", "anchors": ["quickly/duration.py: shift_duration", "quickly/duration.py: Transform"]}
{"id": "C09", "title": "Invalid duration strings are rejected", "statement": "from_string raises ValueError for every text that is not a power of two or a named duration (followed by dots).", "quantifier": "all strings", "why_tests_cant": "Claims about all invalid inputs; the tests contain none.", "anchors": ["quickly/duration.py: from_string"]}
{"id": "C10", "title": "MIDI keys round-trip", "statement": "For every integer MIDI key and every set of keys to spell with flats, Pitch.from_midi(key) is a pitch with a note 0..6 and alteration -1/2, 0 or +1/2 (0 for white keys, -1/2 exactly for black keys listed as flats), and its to_midi() is the key again.", "quantifier": "every integer key (also negative), every collection of flats", "why_tests_cant": "Unbounded keys and arbitrary flat sets.", "anchors": ["quickly/pitch.py: Pitch.from_midi", "quickly/pitch.py: Pitch.to_midi"]}
{"id": "C11", "title": "Pitch comparison is a total order", "statement": "The six comparison operators of Pitch agree with one total order: exactly one of <, ==, > holds, <= and >= are their unions, != is the negation of ==, and < is transitive.", "quantifier": "all triples of pitches", "why_tests_cant": "Universally quantified relational law.", "anchors": ["quickly/pitch.py: Pitch.__lt__", "quickly/pitch.py: Pitch.__eq__"]}
{"id": "C12", "title": "Absolute and relative octaves are inverse", "statement": "make_relative and make_absolute with the same previous pitch and default octave undo each other, change only the octave, and a note without octave marks denotes the unique octave in which it is at most three staff steps away from the previous pitch.", "quantifier": "all pitches, previous pitches and default octaves", "why_tests_cant": "Infinite domain; uniqueness claim.", "anchors": ["quickly/pitch.py: Pitch.make_absolute", "quickly/pitch.py: Pitch.make_relative"]}
{"id": "C13", "title": "Octave mark strings round-trip", "statement": "octave_from_string(octave_to_string(n)) == n for every n; the string has |n| characters of one kind; reading a concatenation adds the octaves.", "quantifier": "all integers n, all strings", "why_tests_cant": "Infinite domain.", "anchors": ["quickly/pitch.py: octave_to_string", "quickly/pitch.py: octave_from_string"]}
{"id": "C14", "title": "Pitch naming is sound, complete and economical", "statement": "For every pitch name table, PitchProcessor naming a pitch succeeds iff the language has some name for its note and alteration (KeyError otherwise); the chosen name is in the table and name plus octave marks denote exactly that pitch; no other name of the same note and alteration would need fewer octave marks.", "quantifier": "all pitch name tables, all preferences, all pitches", "why_tests_cant": "Tables are arbitrary and name selection has per-language preferences.", "anchors": ["quickly/pitch.py: PitchProcessor.name_octave", "quickly/pitch.py: PitchProcessor.to_string"]}
{"id": "C15", "title": "Writing a pitch to a node and reading it back", "statement": "After write_node(node, pitch), read_node(node) equals pitch; the name in the node is kept when it already denotes the same note and alteration; a failing write leaves the node unchanged; process() with write=False leaves the node unchanged.", "quantifier": "all tables, nodes and pitches", "why_tests_cant": "Universally quantified round trip with frame condition.", "anchors": ["quickly/pitch.py: PitchProcessor.read_node", "quickly/pitch.py: PitchProcessor.write_node", "quickly/pitch.py: PitchProcessor.process"]}
{"id": "C16", "title": "Spelling preferences are obeyed", "statement": "Whenever a name matching the preferences (long/short, double s/x, accented, classic) is among the alternatives, the processor selects a matching name, in every language with alternatives.", "quantifier": "all alternative lists and preference settings", "why_tests_cant": "Combinatorial; the default settings dominate the tests.", "anchors": ["quickly/pitch.py: PitchProcessor._suitable", "quickly/pitch.py: PitchProcessor._norsk"]}
{"id": "C17", "title": "Distilled preferences do not depend on the order of the names", "statement": "distill_preferences gives the same preferences for every reordering (and repetition) of the pitch names it is fed in one language; a preference is only changed on evidence in the names.", "quantifier": "all multisets of names", "why_tests_cant": "All permutations of all name lists.", "anchors": ["quickly/pitch.py: PitchProcessor.distill_preferences"]}
{"id": "C18", "title": "Pitch language tracking", "statement": "While walking nodes with follow_language, each yielded node is seen under the language set by the last preceding language command or language include, else the initial language; nothing else is dropped and order is kept; find_language picks the nearest preceding one.", "quantifier": "all node sequences and initial languages", "why_tests_cant": "Sequences of unbounded length.", "anchors": ["quickly/pitch.py: PitchProcessor.follow_language", "quickly/pitch.py: PitchProcessor.find_language"]}
{"id": "C19", "title": "Language detection is exact", "statement": "determine_language(names) yields exactly the languages whose table contains every given name except r, R, s and q, each once.", "quantifier": "all name collections and all table sets", "why_tests_cant": "Arbitrary input sets.", "anchors": ["quickly/pitch.py: determine_language"]}
{"id": "C20", "title": "Transposition adds a constant interval", "statement": "Transposing any pitch changes its sounding height (6 * octave + scale step + alteration) by exactly the interval of the Transposer, whatever respelling happens.", "quantifier": "all pitches with rational alterations, all transposers", "why_tests_cant": "Infinite domain and an unbounded respelling loop.", "anchors": ["quickly/transpose.py: Transposer.transpose"]}
{"id": "C21", "title": "Transposed pitches are in normal form", "statement": "transpose always terminates, and the result has note 0..6 and alteration between -1 and 1; if the plain step shift already gives such an alteration the note letter moves exactly the number of steps of the transposer.", "quantifier": "all pitches, all transposers", "why_tests_cant": "Termination and range over unbounded inputs.", "anchors": ["quickly/transpose.py: Transposer.transpose"]}
{"id": "C22", "title": "Transposer maps its from-pitch to its to-pitch", "statement": "Transposer(a, b).transpose(a) gives exactly b whenever b's alteration is within -1..1, and b's height otherwise.", "quantifier": "all pairs of pitches", "why_tests_cant": "Infinite domain.", "anchors": ["quickly/transpose.py: Transposer.__init__", "quickly/transpose.py: Transposer.transpose"]}
{"id": "C23", "title": "Transposing back and forth", "statement": "Transposer(b, a) after Transposer(a, b) restores the height of every pitch, and restores the very same pitch when no respelling was needed.", "quantifier": "all a, b and pitches", "why_tests_cant": "Infinite domain.", "anchors": ["quickly/transpose.py: Transposer.transpose"]}
{"id": "C24", "title": "Sum and difference of transposers", "statement": "A sum of transposers can be applied and transposes by the sum of the intervals; a difference can be applied and reverts the second transposition.", "quantifier": "all pairs of transposers and pitches", "why_tests_cant": "Algebraic law; the tests never apply a sum or difference.", "anchors": ["quickly/transpose.py: Transposer.__add__", "quickly/transpose.py: Transposer.__sub__"]}
{"id": "C25", "title": "Transposing relative music transposes what it means", "statement": "For every sequence of notes and chords in a \\relative expression (with start pitch, without, old or new first pitch rule), reading the transposed text as relative music gives exactly the transposed pitches of the original reading.", "quantifier": "all note/chord sequences, start pitches, transposers and languages whose names share one octave", "why_tests_cant": "Unbounded sequences with state carried along.", "anchors": ["quickly/transpose.py: Transpose.edit_range (transpose_relative)"]}
{"id": "C26", "title": "Octave checks stay valid under relative transposition", "statement": "If every octave check in a \\relative expression agrees with the music, every octave check in the transposed expression agrees with the transposed music.", "quantifier": "all note sequences with checks, start pitches and transposers", "why_tests_cant": "Unbounded sequences; combination of start pitch, check and octave transposition is untested.", "anchors": ["quickly/transpose.py: Transpose.edit_range (transpose_relative)"]}
{"id": "C27", "title": "Transposing \\fixed music transposes what it means", "statement": "Reading transposed \\fixed music (reference octave plus note octave) gives the transposed pitches of the original reading.", "quantifier": "all reference pitches, note sequences and transposers", "why_tests_cant": "Unbounded inputs and octave carry.", "anchors": ["quickly/transpose.py: Transpose.edit_range (transpose_fixed)"]}
{"id": "C28", "title": "Octave-less and intervallic contexts", "statement": "Transposing \\key and chord inversion pitches never changes their octave marks' meaning (the octave), and transposing \\transpose a b keeps the interval between a and b.", "quantifier": "all pitches and transposers", "why_tests_cant": "Infinite domain.", "anchors": ["quickly/transpose.py: Transpose.edit_range (transpose_no_octave, notes)"]}
{"id": "C29", "title": "Relative to absolute conversion preserves the pitches", "statement": "After rel2abs every note and chord note, read as absolute, denotes the pitch it denoted under LilyPond's relative rules before (first note of a chord is the reference for what follows), for each start pitch rule.", "quantifier": "all sequences of notes and chords", "why_tests_cant": "Unbounded sequences with carried state.", "anchors": ["quickly/relative.py: Rel2abs.edit_range"]}
{"id": "C30", "title": "Absolute to relative conversion preserves the pitches", "statement": "After abs2rel the music read under LilyPond's relative rules denotes the same pitches as before (notes and chords), and rel2abs undoes abs2rel.", "quantifier": "all sequences of notes and chords", "why_tests_cant": "Unbounded sequences with carried state; chords untested.", "anchors": ["quickly/relative.py: Abs2rel._make_relative_internal"]}
{"id": "C31", "title": "Mode alterations", "statement": "alterations(offset) lists, for the mode starting at that scale degree, the difference of every degree with the major scale: it is zero for offset 0, periodic in the scale length, and alterations of the degrees plus the major scale give the rotated scale.", "quantifier": "all offsets, all seven-note scales", "why_tests_cant": "All integer offsets and arbitrary scales.", "anchors": ["quickly/key.py: alterations"]}
{"id": "C32", "title": "Key signature accidentals", "statement": "accidentals(note, alter, mode) applied to the plain letters gives exactly the pitches of the scale starting on that tonic; one entry per letter.", "quantifier": "all tonics, alterations and modes", "why_tests_cant": "Infinite domain.", "anchors": ["quickly/key.py: accidentals"]}
{"id": "C33", "title": "Tonic of a key signature", "statement": "tonic(sf) is the tonic of the major key whose signature has sf sharps (negative: flats): its accidentals are those of the circle of fifths and add up to sf, for any number. For any other mode, the tonic the right number of fifths further (3 for minor) has that same signature.", "quantifier": "all integers, all modes, all letters", "why_tests_cant": "Unbounded circle of fifths.", "anchors": ["quickly/key.py: tonic"]}
{"id": "C34", "title": "Spelling MIDI keys in a key signature", "statement": "KeySignature.pitch(key) sounds as the given MIDI key; keys of the scale get the scale's own spelling.", "quantifier": "all MIDI keys, all standard key signatures", "why_tests_cant": "All integers times all keys.", "anchors": ["quickly/key.py: KeySignature.pitch", "quickly/key.py: chromatic_scale"]}
{"id": "C35", "title": "Properties form a right-biased union monoid", "statement": "Adding Properties is associative with the empty Properties neutral; the right operand wins on every name it has (also when the value is None) and all other names are kept; reading a missing name gives None, deleting is idempotent and touches no other name.", "quantifier": "all property sets and names", "why_tests_cant": "Algebraic laws.", "anchors": ["quickly/datatypes.py: Properties"]}
{"id": "C36", "title": "Tree integrity under editing", "statement": "Starting from freshly constructed nodes, after any history of append, extend, insert, item and slice assignment, deletion, take, replace_with and parent clearing that only adds detached nodes not containing the target, every child's parent is the node that lists it, every node is listed at most once, and there are no cycles.", "quantifier": "all operation histories", "why_tests_cant": "Unbounded histories.", "anchors": ["quickly/node.py: Node.append", "quickly/node.py: Node.extend", "quickly/node.py: Node.insert", "quickly/node.py: Node.__setitem__", "quickly/node.py: Node.replace_with", "quickly/node.py: Node.take"]}
{"id": "C37", "title": "Trails identify nodes and order them", "statement": "Following node.trail() from the root leads back to the node; comparing trails as lists gives document order: a.trail() < b.trail() iff a is visited before b by descendants() of the root.", "quantifier": "all trees, all pairs of nodes", "why_tests_cant": "Arbitrary trees.", "anchors": ["quickly/node.py: Node.trail", "quickly/node.py: Node.descendants"]}
{"id": "C38", "title": "descendants() visits everything once", "statement": "descendants() yields every node below exactly once in pre-order, descendants(reverse=True) yields them in the mirror order (parent before children, later siblings first), and sending False after a node skips exactly the nodes below it.", "quantifier": "all trees, all patterns of pruning answers", "why_tests_cant": "Arbitrary trees and answer sequences.", "anchors": ["quickly/node.py: Node.descendants", "quickly/node.py: Common.filter_descendants"]}
{"id": "C39", "title": "forward() and backward() partition the tree", "statement": "For every node, the nodes of the tree are exactly: its ancestors, itself, its descendants, forward() and backward(), without overlap; forward() yields in document order everything after the node and its descendants; upto restricts to that subtree.", "quantifier": "all trees, all nodes, all ancestors as upto", "why_tests_cant": "Arbitrary trees.", "anchors": ["quickly/node.py: Node.forward", "quickly/node.py: Node.backward", "quickly/node.py: Node.ancestors"]}
{"id": "C40", "title": "Common ancestor", "statement": "common_ancestor is the deepest node that is (an ancestor of or equal to) both; common_ancestor_with_trail returns trails leading from it to both nodes that differ at the first index; nodes of different trees have none; the result is symmetric.", "quantifier": "all pairs of nodes", "why_tests_cant": "Arbitrary trees.", "anchors": ["quickly/node.py: Node.common_ancestor", "quickly/node.py: Node.common_ancestor_with_trail"]}
{"id": "C41", "title": "Depth and height", "statement": "depth() is the length of the trail and height() is the maximum distance to a descendant.", "quantifier": "all trees", "why_tests_cant": "Iterative algorithm with explicit stack on arbitrary trees.", "anchors": ["quickly/node.py: Node.depth", "quickly/node.py: Node.height"]}
{"id": "C42", "title": "equals() and copy()", "statement": "equals is an equivalence relation which holds iff shape, classes and bodies are the same; node.copy().equals(node); the copy shares no node with the original and writes the same text.", "quantifier": "all trees", "why_tests_cant": "Arbitrary trees.", "anchors": ["quickly/node.py: Node.equals", "quickly/node.py: Node.copy", "quickly/dom/element.py: Element.copy"]}
{"id": "C43", "title": "Range.nodes() yields exactly the range", "statement": "A Range from a start to an end trail yields with nodes() exactly the nodes of the tree (below the ancestor) whose trail is >= start and <= end, in document order; with no boundaries it equals descendants().", "quantifier": "all trees, all valid start and end trails", "why_tests_cant": "Arbitrary trees and trail pairs.", "anchors": ["quickly/node.py: Range.nodes", "quickly/node.py: Range.forward", "quickly/node.py: Range._Level"]}
{"id": "C44", "title": "Range.extract_tree() copies exactly the range", "statement": "extract_tree gives a tree that consists of the nodes intersecting the range (those in the range and their ancestors), in the same arrangement; for a full range it equals copy().", "quantifier": "all trees and ranges", "why_tests_cant": "Arbitrary trees and trail pairs.", "anchors": ["quickly/node.py: Range.extract_tree", "quickly/node.py: Range.from_here"]}
{"id": "C45", "title": "Range membership", "statement": "node in range is True iff the node and all its descendants are in the range; range & node is True iff the node or a descendant is in the range.", "quantifier": "all trees, ranges and nodes", "why_tests_cant": "Arbitrary trees and trail pairs.", "anchors": ["quickly/node.py: Range.__contains__", "quickly/node.py: Range.intersects", "quickly/node.py: Range.in_range"]}
{"id": "C46", "title": "Range.from_nodes", "statement": "from_nodes(a, b) gives a range whose start_node() is a and end_node() is b, whose ancestor is the common ancestor (or the root when from_root), and raises ValueError for nodes of different trees.", "quantifier": "all pairs of nodes", "why_tests_cant": "Arbitrary trees.", "anchors": ["quickly/node.py: Range.from_nodes", "quickly/node.py: Range.start_node", "quickly/node.py: Range.end_node"]}
{"id": "C47", "title": "Editing through a range keeps its boundaries", "statement": "Replacing, inserting or deleting children through the range's item methods keeps the boundaries on the same surviving nodes, and iteration continues with the node after the edit without skipping or repeating untouched nodes.", "quantifier": "all levels, boundaries, indices and slices", "why_tests_cant": "Many boundary cases over arbitrary sizes.", "anchors": ["quickly/node.py: Range.__setitem__", "quickly/node.py: Range.__delitem__"]}
{"id": "C48", "title": "write() outputs every text once in order", "statement": "The text written for a tree is the concatenation in document order of the heads and tails of its nodes, separated only by whitespace strings requested by spacing attributes; nothing is lost, duplicated or reordered.", "quantifier": "all trees, all heads, tails and spacing attributes", "why_tests_cant": "Arbitrary trees and texts.", "anchors": ["quickly/dom/element.py: Element.points", "quickly/dom/element.py: Element.write", "quickly/dom/util.py: combine_text"]}
{"id": "C49", "title": "Whitespace between texts is the strongest request", "statement": "Between two consecutive non-empty texts exactly one of the whitespace strings requested there is written, one with the most newlines and among those the most spaces; so a requested newline or space is never dropped and never doubled.", "quantifier": "all fragment sequences", "why_tests_cant": "Arbitrary sequences.", "anchors": ["quickly/dom/util.py: collapse_whitespace", "quickly/dom/util.py: combine_text"]}
{"id": "C50", "title": "Spacing attributes behave as plain attributes", "statement": "Setting a space_* attribute makes reading it return the value and changes no other; deleting restores the class default; the storage dictionary exists only while some value differs from its default.", "quantifier": "all histories of set and delete on the five attributes", "why_tests_cant": "Unbounded histories.", "anchors": ["quickly/dom/element.py: _SpaceProperty"]}
{"id": "C51", "title": "Writing back edits", "statement": "The edits produced for a tree are ordered and do not overlap; applying them to the source text gives a text in which the tokens of every unmodified node are kept, modified and new nodes appear with their text in document order, and the tokens of removed nodes are gone, with only whitespace in between.", "quantifier": "all point sequences in source order and all token streams", "why_tests_cant": "Arbitrary documents and modifications.", "anchors": ["quickly/dom/element.py: Element.edits", "quickly/dom/element.py: Element.edit"]}
{"id": "C52", "title": "Unmodified documents are not touched", "statement": "If nothing is modified, added or removed and no two touching texts require whitespace between them, edits() yields nothing.", "quantifier": "all unmodified documents whose text has whitespace where the elements want it", "why_tests_cant": "Arbitrary documents.", "anchors": ["quickly/dom/element.py: Element.edits"]}
{"id": "C53", "title": "add() respects the child order", "statement": "If the children are in the order given by child_order, they still are after add(node) (nothing is lost or reordered, the node is inserted once).", "quantifier": "all child lists, nodes and orders", "why_tests_cant": "Arbitrary child lists.", "anchors": ["quickly/dom/element.py: Element.add"]}
{"id": "C54", "title": "build_tree() loses nothing", "statement": "build_tree consumes the stream and yields trees whose pre-order listing is the pre-order listing of the input; every argument added to a node fits one of its signatures; complete streams without signatures are passed unchanged.", "quantifier": "all node streams and signatures", "why_tests_cant": "Arbitrary streams and signatures.", "anchors": ["quickly/dom/element.py: build_tree"]}
{"id": "C55", "title": "Mapped heads round-trip", "statement": "For a MappingElement whose mapping is one-to-one, reading a text and writing it again gives the same text, and check_head accepts exactly the mapped values.", "quantifier": "all one-to-one mappings and texts", "why_tests_cant": "Arbitrary mappings.", "anchors": ["quickly/dom/element.py: MappingElement", "quickly/dom/element.py: ToggleElement"]}
{"id": "C56", "title": "Finding nodes by text position", "statement": "In a tree whose nodes have ordered, nested positions: find_child returns a child touching the position, the right one of two, and None only if no child touches it; find_descendant_right returns the first node in document order starting at or after the position; find_descendant_left the last ending at or before it.", "quantifier": "all positioned trees and positions", "why_tests_cant": "Arbitrary trees.", "anchors": ["quickly/dom/element.py: Element.find_child", "quickly/dom/element.py: Element.find_descendant_right", "quickly/dom/element.py: Element.find_descendant_left"]}
{"id": "C57", "title": "Indented output has the same content", "statement": "write_indented outputs the same non-blank texts in the same order as write(), one line per requested newline; an Indenter can be reused: the output depends only on the node.", "quantifier": "all trees in which every indenting node has a tail (as all classes in the repository), and all indent settings", "why_tests_cant": "Arbitrary trees; stateful printer.", "anchors": ["quickly/dom/indent.py: Indenter.write", "quickly/dom/indent.py: Indenter.output_node"]}
{"id": "C58", "title": "Indentation depth is balanced", "statement": "After writing a node the pending indent levels are exactly those before it; without alignment every line is indented by start_indent plus indent_width times the number of indenting ancestors open at its first text (one less for a closing tail). A comment that starts a line with at least three comment characters starts at the margin at any depth.", "quantifier": "all trees in which every indenting node has a tail; the indent of the lines for those without alignment (see C138 for alignment)", "why_tests_cant": "Arbitrary nesting and line breaks.", "anchors": ["quickly/dom/indent.py: Indenter.create_new_block", "quickly/dom/indent.py: Indenter.output_tail", "quickly/dom/base.py: SinglelineComment.indent_override"]}
{"id": "C59", "title": "Includes cannot recurse", "statement": "Scope.urls never offers the URL of the scope's own document or of an including document and no URL twice, so every chain of included scopes has pairwise different URLs and is finite for a finite file set; the order is own directory, root document's directory, include path.", "quantifier": "all scope chains, include paths and URLs", "why_tests_cant": "Unbounded chains, arbitrary cyclic include graphs.", "anchors": ["quickly/dom/scope.py: Scope.urls", "quickly/dom/scope.py: Scope.include_scope"]}
{"id": "C60", "title": "Making durations explicit preserves the rhythm", "statement": "After explicit(), every durable has a duration and the effective duration of every durable is unchanged.", "quantifier": "all sequences of durables with or without durations, and all contiguous selections of them that do not begin inside a chord", "why_tests_cant": "Unbounded sequences with carried state.", "anchors": ["quickly/rhythm.py: RhythmExplicit.process", "quickly/dom/lily.py: previous_duration"]}
{"id": "C61", "title": "Making durations implicit preserves the rhythm", "statement": "After implicit(), the effective duration of every durable is unchanged, no removable duration equals the preceding effective one, and doing it again changes nothing.", "quantifier": "all sequences of durables with at most one duration each, and all contiguous selections of them (a cursor cannot select otherwise)", "why_tests_cant": "Unbounded sequences with carried state.", "anchors": ["quickly/rhythm.py: RhythmImplicit.process", "quickly/rhythm.py: RhythmImplicitPerLine.process"]}
{"id": "C62", "title": "Removing durations is safe", "statement": "remove() never removes a duration that is required or that would make a following duration-only item be read as the duration of the preceding note.", "quantifier": "all sequences of durables with at most one duration each", "why_tests_cant": "Unbounded sequences.", "anchors": ["quickly/rhythm.py: EditRhythm.may_remove", "quickly/rhythm.py: Remove.process"]}
{"id": "C63", "title": "Copying and pasting rhythm", "statement": "Pasting the durations copied from some music onto the same music changes nothing; copying explicitly gives the effective durations; pasting n durations cyclically gives the i-th durable the (i mod n)-th duration.", "quantifier": "all sequences and duration lists", "why_tests_cant": "Unbounded sequences.", "anchors": ["quickly/rhythm.py: CopyRhythm.edit_range", "quickly/rhythm.py: PasteRhythm.edit_range"]}
{"id": "C64", "title": "Transforming durations transforms the length", "statement": "rhythm.transform changes exactly the written durations, each by the transform; nodes without a duration stay so.", "quantifier": "all sequences and transforms", "why_tests_cant": "Unbounded sequences.", "anchors": ["quickly/rhythm.py: RhythmTransform.edit_range"]}
{"id": "C65", "title": "Musical length is compositional", "statement": "The length of sequential music is the sum of the lengths of its children and that of simultaneous music the maximum; a transform on an ancestor applies to every durable below; lengths are never negative.", "quantifier": "all music trees", "why_tests_cant": "Arbitrary nesting.", "anchors": ["quickly/time.py: Time.length", "quickly/dom/lily.py: Music.time_length"]}
{"id": "C66", "title": "Musical positions are additive", "statement": "In sequential music position(child i+1) = position(child i) + length(child i), position with include adds the node's length, and positions in simultaneous music start together.", "quantifier": "all music trees and nodes", "why_tests_cant": "Arbitrary nesting.", "anchors": ["quickly/time.py: Time.position", "quickly/time.py: TimeContext._follow_trail"]}
{"id": "C67", "title": "duration(a, b) is a difference of positions", "statement": "Time.duration(a, b) equals position(b, include=True) - position(a), and is None iff they have different topmost music.", "quantifier": "all music trees and pairs of nodes", "why_tests_cant": "Arbitrary nesting.", "anchors": ["quickly/time.py: Time.duration"]}
{"id": "C68", "title": "Transposing a selection edits only the selection", "statement": "Transposing a range changes no note outside the range; in absolute music exactly the selected notes are transposed; in relative music the pitches of the notes outside the range stay the same.", "quantifier": "all note/chord sequences, selections, transposers", "why_tests_cant": "All subsets of all note sequences; the tests transpose whole expressions.", "anchors": ["quickly/transpose.py: Transpose.edit_range"]}
{"id": "C69", "title": "A head mapping finds the right element type", "statement": "head_mapping(*types) maps a text to an element type exactly if that type has the text as its fixed head or as a key of its mapping, and no later given type has it too.", "quantifier": "all lists of element types with any fixed heads or mappings, all texts", "why_tests_cant": "the lists of types and mappings are arbitrary; overlap between any two of them matters", "anchors": ["quickly/dom/element.py:head_mapping"]}
{"id": "C70", "title": "Removing scalings keeps the durations", "statement": "After remove_scaling() every selected durable has the same duration, without scaling; remove_fraction_scaling() does the same for scalings that are not whole numbers, and leaves the others alone. Nothing else changes.", "quantifier": "all documents, selections and scalings", "why_tests_cant": "Tests only cover a few rhythms; this ranges over all trees, selections and rational scalings.", "anchors": ["quickly/rhythm.py:RemoveScaling", "quickly/rhythm.py:RemoveFractionScaling", "quickly/dom/lily.py:HandleDuration.scaling"]}
{"id": "C71", "title": "The music at a position in the text", "statement": "cursor_position() and cursor_duration() work from the node found at a text position: the node meant is the innermost chord around it, or else the node itself or its nearest ancestor that is music or a child of music; there is none iff neither the node nor any ancestor is music.", "quantifier": "all document trees and nodes", "why_tests_cant": "Arbitrary nesting of music, chords and other elements.", "anchors": ["quickly/time.py: Time._music_child", "quickly/time.py: Time.cursor_position", "quickly/time.py: Time.cursor_duration"]}
{"id": "C72", "title": "The caching duration getter is transparent", "statement": "For any sequence of calls, a getter made by duration_getter() returns for each durable its own duration, or else the duration that previous_duration() finds for it, independent of what was asked before.", "quantifier": "all documents and all sequences of calls", "why_tests_cant": "The cache depends on the whole history of calls.", "anchors": ["quickly/dom/lily.py: duration_getter", "quickly/dom/lily.py: previous_duration"]}
{"id": "C73", "title": "Looking back follows the reading order", "statement": "Lookup.preceding_nodes() yields, last first, exactly the nodes that LilyPond reads before the node in the blocks around it and at top level, with every include that can be loaded replaced by the toplevel nodes of the included document, and continued in the including documents before their include command; each with the scope it is in.", "quantifier": "all documents, nestings of includes and nodes", "why_tests_cant": "Arbitrary include graphs and nesting.", "anchors": ["quickly/dom/lily.py: Lookup.preceding_nodes", "quickly/dom/lily.py: Lookup.ancestors"]}
{"id": "C74", "title": "A variable has the value that was assigned last", "statement": "Lookup.find_assignment(name) (and so Reference.get_value) returns the value and scope of the last assignment to that name that is read before the node, and None iff there is none.", "quantifier": "all documents, include graphs, nodes and names", "why_tests_cant": "Arbitrary numbers of assignments across files.", "anchors": ["quickly/dom/lily.py: Lookup.find_assignment", "quickly/dom/lily.py: Reference.get_value_with_scope"]}
{"id": "C75", "title": "Names of variables survive", "statement": "For every name that is a string or a tuple of strings and integers (not of length one), get_name() after set_name() returns that name, for identifiers in assignments and (for non-empty names) for references to them.", "quantifier": "all names and all previous contents of the node", "why_tests_cant": "Names of any length mixing strings, symbols and integers.", "anchors": ["quickly/dom/lily.py: Identifier.get_name", "quickly/dom/lily.py: Identifier.set_name", "quickly/dom/lily.py: IdentifierRef.set_name", "quickly/dom/lily.py: List.set_list"]}
{"id": "C76", "title": "Python values survive conversion to elements", "statement": "create_value_from_element(create_element_from_value(v)) == v for every bool, int, float, string, and every int or float with a unit.", "quantifier": "all values", "why_tests_cant": "Infinitely many values.", "anchors": ["quickly/dom/lily.py: create_element_from_value", "quickly/dom/lily.py: create_value_from_element"]}
{"id": "C77", "title": "Variables in blocks behave as a dictionary", "statement": "set_variable(name, value) makes get_variable(name) return value and leaves every other variable as it was; the list of variables gets the name at its end if it was not there, and is unchanged otherwise; unset_variable(name) removes the variable and leaves the others as they were.", "quantifier": "all blocks of complete assignments, names and values", "why_tests_cant": "Any number of assignments, comments and other nodes in any order.", "anchors": ["quickly/dom/lily.py: HandleAssignments"]}
{"id": "C78", "title": "Assignments are recognised", "statement": "When nodes are read, every name followed by an equal sign and a value (with comments anywhere between) becomes one Assignment, and no other node is lost, added, changed or moved.", "quantifier": "all sequences of nodes", "why_tests_cant": "Sequences of any length, with comments and incomplete assignments anywhere.", "anchors": ["quickly/lang/lilypond.py: LilyPondTransform.handle_assignments"]}
{"id": "C79", "title": "Strings survive writing", "statement": "A string element with any text is written as one string literal that ends at its last quote, and whose tokens read back as the same text; a string literal in which backslashes only escape quotes and backslashes is written back as it was.", "quantifier": "all texts, all tokenisations of the literal", "why_tests_cant": "Arbitrary runs of quotes and backslashes.", "anchors": ["quickly/dom/base.py: String.read_head", "quickly/dom/base.py: String.write_head"]}
{"id": "C80", "title": "Numbers survive writing", "statement": "Integers, fractions, duration scalings and Scheme integers and fractions (binary, octal, decimal, hexadecimal) are written so that the language reads the same number; several scalings are multiplied.", "quantifier": "all integers, fractions and radixes", "why_tests_cant": "Infinitely many numbers.", "anchors": ["quickly/dom/lily.py: Int", "quickly/dom/lily.py: Fraction", "quickly/dom/lily.py: DurationScaling", "quickly/dom/scm.py: Number"]}
{"id": "C81", "title": "Comments and commands survive writing", "statement": "Comments, backslash commands, Scheme characters and LaTeX environment names are written back as they were read and read back as they were written; a multiline comment that was not closed is closed; a comment without the end sign in its text ends where it should.", "quantifier": "all texts and token sequences", "why_tests_cant": "Arbitrary texts.", "anchors": ["quickly/dom/lily.py: MultilineComment", "quickly/dom/lily.py: SinglelineComment", "quickly/dom/base.py: BackslashCommand", "quickly/dom/scm.py: Char", "quickly/dom/tex.py: EnvironmentName"]}
{"id": "C82", "title": "HTML text is escaped", "statement": "A text element with any text is written as characters and references that mean exactly that text, and never contains a character that starts a tag or ends a quoted string.", "quantifier": "all texts", "why_tests_cant": "Arbitrary texts with markup characters.", "anchors": ["quickly/dom/htm.py: Text.write_head", "quickly/dom/htm.py: EntityRef"]}
{"id": "C83", "title": "Line breaks of the original text are kept", "statement": "add_newlines() changes only the whitespace before heads and tails: there it requests as many newlines as there are separators in the text since the preceding node, up to the limit, and it never makes a request weaker.", "quantifier": "all texts, non-empty separators, limits and trees with origins", "why_tests_cant": "Arbitrary texts and trees.", "anchors": ["quickly/dom/util.py: add_newlines"]}
{"id": "C84", "title": "Popping trailing comments", "statement": "pop_comments() removes exactly the comments at the end of a node (also those at the end of its last child, and so on), returns them in the order of the text, and leaves everything else.", "quantifier": "all trees", "why_tests_cant": "Arbitrary nesting of comments.", "anchors": ["quickly/dom/util.py: pop_comments"]}
{"id": "C85", "title": "The other end of a spanner", "statement": "find_parallel() of a slur, beam, hairpin or other spanner returns the nearest spanner of the same kind with the other head and an equal spanner id, after a start or before a stop, within the innermost Assignment, New, Score or Document, and None exactly if there is none; with a limit only that many nodes are looked at; the ends find each other if they are in the same such node and there is no similar spanner between them", "quantifier": "all documents, all spanners, all ids, all limits", "why_tests_cant": "the number of nodes, spanners, ids and nesting levels between both ends is unbounded", "anchors": ["quickly/dom/lily.py:Spanner.find_parallel", "quickly/node.py:Node.forward", "quickly/node.py:Node.backward", "quickly/node.py:Node.equals"]}
{"id": "C86", "title": "The octave, accidental and octave check attributes", "statement": "Setting the octave, accidental or octave check of a note, pitch or pitched rest makes it the value that is read back, changes no other attribute and no other child, keeps the children in the order of the syntax, and deleting it removes it; the text that is written is the name, the octave, the accidental and the octave check, followed by the other children", "quantifier": "all lists of children, all values, all histories of setting and deleting", "why_tests_cant": "the children and the values are unbounded", "anchors": ["quickly/dom/lily.py:Pitchable", "quickly/dom/lily.py:Octave", "quickly/dom/lily.py:Accidental", "quickly/dom/lily.py:OctCheck", "quickly/dom/element.py:Element.add"]}
{"id": "C87", "title": "Reading music", "statement": "Reading the items of LilyPond music gives for every note, rest, chord, lyric word, skip or isolated duration one node with its pitch details, duration, modifiers and articulations attached, for every command or other expression one node, with comments kept; every token of the text is in the result once, and in the order of the text. No token is ever duplicated or invented, also for malformed input.", "quantifier": "all streams of music pieces, of any length, with any number of articulations, tweaks, tags and comments; nothing-invented for all streams of items", "why_tests_cant": "The reader is a state machine whose pending state is flushed by many kinds of items; a test checks a few combinations, the claim is about all interleavings.", "anchors": ["quickly/lang/lilypond.py: MusicBuilder.__iter__", "quickly/lang/lilypond.py: MusicBuilder.pending_music", "quickly/lang/lilypond.py: MusicBuilder.add_articulation", "quickly/lang/lilypond.py: MusicBuilder.comment"]}
{"id": "C88", "title": "Lyric syllables and durations", "statement": "In a list of lyrics a string, symbol, Scheme or markup expression becomes one lyric item with the duration that directly follows it; other durations become items of their own; all other nodes, and the order of all tokens, stay.", "quantifier": "all lists of lyric nodes", "why_tests_cant": "All orders of syllables, durations and other nodes are possible.", "anchors": ["quickly/lang/lilypond.py: LilyPondTransform.postprocess_lyriclist"]}
{"id": "C89", "title": "Figured bass", "statement": "The items of a figure become the steps, markups and elements in order, each with exactly the accidentals and alterations that follow it.", "quantifier": "all lists of figures with any number of accidentals and alterations", "why_tests_cant": "The lists have no bound.", "anchors": ["quickly/lang/lilypond.py: LilyPondTransform.create_figure"]}
{"id": "C90", "title": "Markup commands get their own arguments", "statement": "Reading markup groups the words, strings and commands the way LilyPond does: every markup command gets as many arguments as it is declared to have, an argument can itself be a command with its arguments, comments do not count, and nothing is left out, added or reordered, also when the text ends too early. \\markup takes one argument and the reading goes on after it.", "quantifier": "all sequences of tokens and elements in markup, all tables of argument counts, all nestings", "why_tests_cant": "Commands nest to any depth and can be cut off at every place; tests can only show a few nestings.", "anchors": ["quickly/lang/lilypond.py:LilyPondTransform.read_markup_arguments", "quickly/lang/lilypond.py:LilyPondTransform.create_markup", "quickly/lang/lilypond.py:LilyPondTransform.common", "quickly/lang/lilypond.py:LilyPondTransform.markuplist"]}
{"id": "C91", "title": "Blocks know where they begin and end", "statement": "Reading a block (book, header, layout, context, music list, chord, markup list ...) gives an element of the right type that remembers exactly the opening tokens, the closing token if there is one, and has all of the contents; an unfinished block has the same contents and no closing token.", "quantifier": "all contents of all kinds of blocks, finished and unfinished", "why_tests_cant": "The contents can be anything.", "anchors": ["quickly/lang/lilypond.py:LilyPondTransform.create_block", "quickly/lang/lilypond.py:LilyPondTransform.score", "quickly/lang/lilypond.py:LilyPondTransform.book", "quickly/lang/lilypond.py:LilyPondTransform.musiclist", "quickly/lang/lilypond.py:LilyPondTransform.chord"]}
{"id": "C92", "title": "Chord modifiers, lists and durations are read completely", "statement": "Every qualifier, step with its alteration, dot and comment in a chord modifier becomes one element in the same order; a dotted list of words becomes one List element with all parts, or just the element if there is one; a duration has all its dots and its scaling.", "quantifier": "all sequences of tokens in these contexts", "why_tests_cant": "The sequences are of any length.", "anchors": ["quickly/lang/lilypond.py:LilyPondTransform.chord_modifier", "quickly/lang/lilypond.py:LilyPondTransform.list", "quickly/lang/lilypond.py:LilyPondTransform.identifier_ref", "quickly/lang/lilypond.py:LilyPondTransform.duration"]}
{"id": "C93", "title": "LilyPond inside HTML and LaTeX is read in all its forms", "statement": "LilyPond text in a HTML lilypond tag or LaTeX lilypond command or environment becomes a document element with all of the contents, and the closing tag, brace or end command is recognised and kept.", "quantifier": "all contents, all the forms of closing, unfinished text", "why_tests_cant": "The text between the tags can be anything and can end anywhere.", "anchors": ["quickly/lang/lilypond.py:LilyPondTransform.html_lilypond_tag", "quickly/lang/lilypond.py:LilyPondTransform.latex_lilypond_environment"]}
{"id": "C94", "title": "Copies with origin and the modified flag", "statement": "element.copy_with_origin() is an equal tree that, unless spacing properties were changed, writes the same text and gives the same edits to the source as the original; copy_origin_from() of an element with an origin marks a text element as modified exactly as asked; after any sequence of assignments to head, the head is the last value and the element is marked as modified if and only if one of the values was a change.", "quantifier": "all element trees, all sequences of assignments", "why_tests_cant": "Arbitrary trees, origins and histories.", "anchors": ["quickly/dom/element.py: Element.copy_with_origin", "quickly/dom/element.py: Element.copy_origin_from", "quickly/dom/element.py: Element.head"]}
{"id": "C95", "title": "py_dump() is Python code for the tree", "statement": "What py_dump() prints for a tree is a Python expression with a constructor call for every element, that constructs the same tree (followed by a comma and a newline if the node has a next sibling). The expression can be read in one way only: trees with another class or head value anywhere have another dump.", "quantifier": "all element trees, all indent widths", "why_tests_cant": "Arbitrary nesting.", "anchors": ["quickly/dom/element.py: Element.py_dump"]}
{"id": "C96", "title": "Reading Scheme code", "statement": "The element read from a Scheme document or list contains, in order, one element for each datum: names, booleans, characters, numbers of the radix written, strings, comments, nested lists and vectors; a quote, quasiquote or unquote is the parent of the datum that follows it, over any number of nested quotes; an unclosed list is read like a closed one; if every quote is followed by something, the tokens of the source are all in the tree, in order. Anything that only has known tokens can be read.", "quantifier": "all token trees of Scheme code, of any depth", "why_tests_cant": "Arbitrary nesting of lists and quotes, incomplete input.", "anchors": ["quickly/lang/scheme.py: SchemeTransform.common", "quickly/lang/scheme.py: SchemeTransform.root", "quickly/lang/scheme.py: SchemeTransform.list", "quickly/lang/scheme.py: SchemeTransform.vector", "quickly/lang/scheme.py: SchemeTransform.number", "quickly/lang/scheme.py: SchemeTransform.scheme"]}
{"id": "C97", "title": "Python values become Scheme", "statement": "scm.create_element_from_value() of a Python value made of booleans, numbers, strings, elements, lists and tuples (of two items or more) writes the notation of that value in Scheme: lists in parentheses, tuples as pairs with a dot before the last item, and q(), qq() and uq() put the mark before it; for a value that contains anything else KeyError is raised.", "quantifier": "all Python values, of any nesting", "why_tests_cant": "Arbitrary nesting of values.", "anchors": ["quickly/dom/scm.py: create_element_from_value", "quickly/dom/scm.py: q", "quickly/dom/scm.py: qq", "quickly/dom/scm.py: uq", "quickly/dom/scm.py: p"]}
{"id": "C98", "title": "HTML elements from Python, and their text", "statement": "What an element made with the constructor object m (m.div(...), any nesting of elements, strings and entity references, any attributes) writes is markup that means exactly the contents given: the start tag with its name and its attributes in order, quoted and escaped, the contents, and the end tag, or a single self-closing tag if there are no contents. Its to_plaintext() is the text of the contents in order, without markup, entities replaced by their text.", "quantifier": "all names, attributes and contents, nested to any depth", "why_tests_cant": "Arbitrary nesting and texts with markup characters.", "anchors": ["quickly/dom/htm.py: m", "quickly/dom/htm.py: Element.to_plaintext", "quickly/dom/htm.py: Tag", "quickly/dom/htm.py: Attribute"]}
{"id": "C99", "title": "Reading HTML", "statement": "The document read from HTML has, in order, a node for each text, entity and tag; an element contains its opening tag, its contents and its closing tag, nested as in the source; a tag has its name, its attributes with their values, and its ending; LilyPond code is in the tag or element it belongs to; processing instructions and strings have their parts in order, also if they are not finished; no token occurs twice or out of order, and none is missing if there are no untransformed parts, comments, CDATA sections or processing instructions.", "quantifier": "all token trees that the grammar of HTML in parce can give, of any depth", "why_tests_cant": "Arbitrary nesting of elements, unfinished input.", "anchors": ["quickly/lang/html.py: HtmlTransform.tag", "quickly/lang/html.py: HtmlTransform.lilypond_book_options", "quickly/lang/html.py: HtmlTransform.attrs", "quickly/lang/html.py: HtmlTransform.dqstring", "quickly/lang/html.py: HtmlTransform.processing_instruction", "quickly/lang/html.py: HtmlTransform.root"]}
{"id": "C100", "title": "Reading LaTeX gives the elements the source means, and loses or repeats no token", "statement": "For every tree of LaTeX tokens in the grammar (text, commands with options and braces, environments with options, a name and contents, embedded LilyPond, math, comments, closed or not), the document that is read has exactly the elements the grammar gives it; each token of the source is in at most one element, in the same order, and in exactly one if nothing has to be left out. Reading never fails, whatever the contexts contain, as long as they begin with their opening token.", "quantifier": "all token trees, of any depth and size, for both meanings of the comparison of actions", "why_tests_cant": "The nesting of braces, options, environments and embedded music is unbounded, and so are the runs of text and options; a test has a few documents.", "anchors": ["quickly/lang/latex.py:LatexTransform", "quickly/dom/tex.py:EnvironmentName", "quickly/dom/tex.py:Comment"]}
{"id": "C101", "title": "Editing what the cursor has selected edits the selected nodes", "statement": "Of a document whose nodes have places in the text: an edit with a cursor that has a selection gets a range that yields only nodes that begin in the selection, and all nodes that are wholly in it, except the ancestor of the range itself and what is below the last node (given that the last node that ends in the selection begins in it); the ancestor is the document or the youngest node that has both ends. Without a selection it is the whole document, or exactly the nodes that begin at or after the cursor.", "quantifier": "all documents, of any depth and size, all selections and cursor positions, both settings of range_from_root and range_from_cursor", "why_tests_cant": "Selections, nesting and missing positions combine in unboundedly many ways; a test selects one run of notes in one line.", "anchors": ["quickly/dom/edit.py: Edit.edit_cursor", "quickly/dom/range.py: Range.from_nodes", "quickly/dom/element.py: Element.find_descendant_right, Element.find_descendant_left"]}
{"id": "C102", "title": "The duration attributes, and the text of durations", "statement": "Setting the duration of a note gives it that duration and keeps its scaling, setting the scaling gives it that scaling and keeps its duration, setting both gives it both, and deleting the duration leaves neither; setting a scaling other than 1 without a duration is a ValueError. A Duration made from a text has the value of the text and the product of its scalings, and what a Duration writes is read as the same duration and scaling.", "quantifier": "all notes (any number of Duration and DurationScaling children), all values, all texts with any number of scalings", "why_tests_cant": "Values, dots and scalings are unbounded, and repeated children come from edits; tests set a few values on fresh notes.", "anchors": ["quickly/dom/lily.py: HandleDuration, Duration.from_string, Duration.from_duration, Duration.duration, DurationScaling"]}
{"id": "C103", "title": "The version, language and included files are read and set in their commands", "statement": "The version of a document is the numbers in the argument of its first \\version command, wherever that is in the document, and empty without one; setting it makes it the version, written in decimals with dots, and changes only the argument of that command or adds a command at the start. The language and the file name of a command are its first String argument, and are set there; the language of an included file is given if and only if the file is a known language with \".ly\" added.", "quantifier": "all documents, version numbers, languages and file names", "why_tests_cant": "arguments, children and depth of the command are unbounded", "anchors": ["quickly/dom/lily.py:Document.version", "quickly/dom/lily.py:Version.version", "quickly/dom/lily.py:Language.language", "quickly/dom/lily.py:Include.filename", "quickly/dom/lily.py:Include.language", "quickly/dom/util.py:lilypond_version"]}
{"id": "C104", "title": "The key of a \\key command is that of its pitch and mode", "statement": "For a \\key command with a pitch and a mode, the key signature is the one with the note and alteration of the pitch in the language of the processor and with that mode: a named mode, a list of alterations in Scheme, or a variable with one of these as its value. The octave of the pitch does not matter. Without a pitch or a mode there is no key signature.", "quantifier": "all commands, languages, scopes and variables", "why_tests_cant": "pitches, lists, variables and chains of variables are unbounded", "anchors": ["quickly/dom/lily.py:Key.key_signature", "quickly/key.py:KeySignature"]}
{"id": "C105", "title": "Converting arguments of commands keeps what is written", "statement": "When arguments are added to a command that wants pitches, the notes among them become pitches as long as there are not enough, with the same name, children and origin; all other arguments are added unchanged. A command that wants a duration or a number gets the duration or number of an unpitched note. The text written is the same as without the conversion.", "quantifier": "all commands and all sequences of arguments", "why_tests_cant": "sequences of arguments and their contents are unbounded", "anchors": ["quickly/dom/lily.py:Relative.add_argument", "quickly/dom/lily.py:Transpose.add_argument", "quickly/dom/lily.py:Note.to_pitch", "quickly/dom/lily.py:_ConvertUnpitchedToDuration.add_argument", "quickly/dom/lily.py:_ConvertUnpitchedToInt.add_argument", "quickly/dom/lily.py:convert_duration_to_int"]}
{"id": "C106", "title": "An edit object knows its document and its number of changes", "statement": "While an edit runs, document() of the edit object is the document being edited and nothing else; when no edit runs it is None; changes() is the number of changes made by the last edit.", "quantifier": "every sequence of edits of documents, cursors and nodes with the same object, whether they succeed, raise an exception or start further edits", "why_tests_cant": "The state depends on the history of calls of the object; tests run one edit on a fresh object.", "anchors": ["quickly/dom/edit.py:Edit.edit_cursor", "quickly/dom/edit.py:Edit.edit_node", "quickly/dom/edit.py:Edit.edit_range", "quickly/dom/edit.py:Edit.document", "quickly/dom/edit.py:Edit.changes"]}
{"id": "C107", "title": "Unknown parts are replaced by their text", "statement": "After replace_unknown, a tree contains the exact source text in the place of every part that was unknown, at any depth, everything else is unchanged, and writing the tree succeeds with that text; before, writing raises an error.", "quantifier": "every tree with unknown parts in any place and every source text that contains their ranges", "why_tests_cant": "Unknown parts can be in any depth and number, in between any other nodes.", "anchors": ["quickly/dom/util.py:replace_unknown", "quickly/dom/element.py:Element.write"]}
{"id": "C108", "title": "Directions, styles and properties of grobs", "statement": "Every command that sets a direction, a style or an on/off property reads as the named object with its value; changing the object or the value gives the command that LilyPond has for it, and values without a command are refused; the list of directions of an object contains exactly those for which there is a command.", "quantifier": "every object or property name and every value, supported or not", "why_tests_cant": "Tests check single commands; the claim is about the whole tables, their inverses and every other value.", "anchors": ["quickly/dom/lily.py:GrobDirection", "quickly/dom/lily.py:GrobStyle", "quickly/dom/lily.py:Toggle"]}
{"id": "C109", "title": "Durations of any size", "statement": "log_dotcount, to_string and is_writable are right for values of any size, however long or short: a duration made from a log and dots gives these back, and nothing is written that is not the value.", "quantifier": "all positive rational values, all logs and numbers of dots", "why_tests_cant": "Python's floats have a limited precision and range; the borders are far from all tested values.", "anchors": ["quickly/duration.py:log_dotcount", "quickly/duration.py:to_string", "quickly/duration.py:is_writable"]}
{"id": "C110", "title": "Abs2rel edits exactly the music that is not relative yet", "statement": "Abs2rel on a document or a range adds \\relative to exactly the topmost { } or << >> that have notes of their own, are completely in the range and not inside \\relative; within these only octaves change and nothing else changes anywhere; the pitches that are heard remain the same; doing it again changes nothing.", "quantifier": "every document tree of any depth, every range, with and without start pitch, every pitch language", "why_tests_cant": "Tests convert a handful of expressions; the claim is about every nesting of music, \\relative and selections.", "anchors": ["quickly/relative.py:Abs2rel.edit_range", "quickly/relative.py:Abs2rel._make_relative_internal"]}
{"id": "C111", "title": "Markup made with functions is read as it was meant", "statement": "Markup that is made with markup() or markuplist() and calls of the functions in quickly.dom.markup, nested in any way, is written as a text that LilyPond reads as exactly that markup: every command with the arguments it was given in order, every string and every Scheme value as it was given, and several texts as one bracketed group. There is a function for every markup command with at most four arguments; what was defined by hand is kept.", "quantifier": "every nesting of calls, every string (also with quotes, backslashes, spaces and braces) and every value of any depth, every table of commands", "why_tests_cant": "Tests write a few commands; quoting, spacing and the number of arguments of the text that results matter for each of the strings and for every nesting.", "anchors": ["quickly/dom/markup.py:markup", "quickly/dom/markup.py:_auto_arg", "quickly/dom/markup.py:_create_list", "quickly/dom/markup.py:_main"]}
{"id": "C112", "title": "Commands get their own arguments", "statement": "When LilyPond music is read, every command that is followed by the arguments it takes in LilyPond gets exactly these as its children, in order, however deeply commands are nested and wherever comments stand between the arguments; whatever follows goes to the enclosing command or stays a sibling. For any other stream of elements reading does not fail and no element is lost or moved.", "quantifier": "all streams of elements in which commands have complete arguments, of any length and nesting; for the second part all streams", "why_tests_cant": "Commands, arguments, optional arguments and nesting combine without bound.", "anchors": ["quickly/dom/element.py: build_tree", "quickly/dom/lily.py: signatures, MUSIC, VALUE, SYMBOL, TEXT, NUMBER, INT", "quickly/lang/lilypond.py: create_music"]}
{"id": "C113", "title": "Arguments become what the command means", "statement": "When LilyPond music is read, the arguments of every command become what they mean to the command: the reference pitches of \\relative, \\fixed, \\transpose, \\transposition, \\octaveCheck and \\key become pitches although they are read as notes; the durations of \\partial, \\tempo and \\tuplet become durations and the numbers of \\ottava, \\scaleDurations, \\shiftDurations, \\set and \\override become numbers although they are read as durations without a note. Music arguments and comments are left as they are, however deeply the commands are nested.", "quantifier": "all streams of elements in which commands have complete arguments, of any length and nesting", "why_tests_cant": "Commands, arguments and nesting combine without bound.", "anchors": ["quickly/dom/element.py: build_tree, add_argument", "quickly/dom/lily.py: add_argument, _ConvertUnpitchedToDuration, _ConvertUnpitchedToInt", "quickly/lang/lilypond.py: create_music"]}
{"id": "C114", "title": "Tokens become the elements of their commands and keep their text", "statement": "Every token of LilyPond music that is read becomes an element that is written as the same text, and a command becomes an element of the class made for it: every command text of a class gives that class, all other commands give a generic music function, all other articulations a generic articulation. The most specific action of the token decides. The heads of symbols and commands with several forms (directions, accidentals, breaks, voices, units, spanners and so on) are the documented values, and no other text or value is accepted for them.", "quantifier": "all texts and all actions of tokens, also those not in any table", "why_tests_cant": "There are infinitely many texts and actions; tests try some commands.", "anchors": ["quickly/lang/lilypond.py: MusicBuilder, _builtin_mapping, _keyword_mapping, _articulations_mapping, _rest_mapping, _chord_modifier_mapping", "quickly/dom/element.py: head_mapping, MappingElement", "quickly/dom/lily.py: head, mapping"]}
{"id": "C115", "title": "Commands that scale music scale its lengths and positions", "statement": "Time.length() of \\times a/b, \\tuplet a/b, \\scaleDurations f and \\grace (and its variants) with music is a/b, b/a, f and 0 times the length that the music has alone at the same place; the same holds for every node in the music, and for positions counted from the start of the command. \\shiftDurations adds to the logs and dots of the durations in the music.", "quantifier": "all documents, all music (with nested commands, references and \\shiftDurations), all factors, comments and durations between the arguments", "why_tests_cant": "There are infinitely many documents and factors; tests compute a few lengths.", "anchors": ["quickly/dom/lily.py: Times.transform, Tuplet.transform, ScaleDurations.transform, ShiftDurations.transform, Grace.transform, get_num_value, get_int_value, filter_map", "quickly/time.py: TimeContext.enter, Time.length, Time.position", "quickly/duration.py: Transform"]}
{"id": "C116", "title": "Editing durations keeps or scales lengths and positions", "statement": "After explicit() and implicit() (also per line) on a selection every node that is not inside a note or chord has the same Time.length() and the same Time.position() as before, and after transform() with a scale on the whole document these are multiplied by that scale.", "quantifier": "all documents with their music, all contiguous selections, all nodes, all scales", "why_tests_cant": "Composes three modules: what an edit writes, which earlier duration is looked up for every note, and how lengths add up in nested music.", "anchors": ["quickly/rhythm.py: explicit", "quickly/rhythm.py: implicit", "quickly/rhythm.py: transform", "quickly/time.py: Time.length", "quickly/time.py: Time.position", "quickly/dom/lily.py: duration_getter"]}
{"id": "C117", "title": "Walking through a range from any node", "statement": "However a Range has been used (iterating, enter(), leave(), goto(), reset(), setting index), it stands at one node of the range: trail() leads to it, it is the current node and index is its index in the parent. A step goes to the nearest next (or previous) node of the range on the level, index can be set to exactly the indices between start() and end() and raises ValueError otherwise, leave() undoes enter(). From there forward() and backward() yield exactly the nodes of the range after (before) it that are not below or above it, in document order (or reverse), not going outside the upto node; children() yields the children in the range and ancestors() the ancestors, nearest first.", "quantifier": "all trees, all start and end boundaries in it, all histories of navigation, all current nodes, directions, pruned nodes and upto ancestors", "why_tests_cant": "The state is a stack of levels that depends on the whole history of calls; tests walk a few ranges", "anchors": ["quickly/node.py:Range", "quickly/node.py:Range.forward", "quickly/node.py:Range.backward", "quickly/node.py:Range.index", "quickly/node.py:Range.ancestors"]}
{"id": "C118", "title": "Replacing the current node of a range", "statement": "Setting the current node of a range, however the range was used before (also edited this way), puts the new node in the tree in the place of the old one and changes nothing else; a boundary that was in or at the old node is the new node then; the range stands at the new node and walks on from it like any used range; it comprises the same nodes elsewhere, the new node, and everything below it unless the range ended in or at the old node. The ancestor of the range can not be replaced (ValueError). A loop over a level can replace every node it gets: each node of the level that is in the range is replaced once, and no other node changes.", "quantifier": "all trees, boundaries, histories of a range (navigation and replacements) and new nodes", "why_tests_cant": "the state is a stack of levels that share lists of indices with the range; whether an edit leaves all of them consistent depends on the whole history", "anchors": ["quickly/node.py:Range.node", "quickly/node.py:Range.__setitem__"]}
{"id": "C119", "title": "Words in lists, blocks and after pitches keep their text", "statement": "Reading the tokens of a list of symbols, of a block or of the marks after a pitch gives, for each token, one element of the class of its action: numbers have the value that is written, octaves count their marks; writing the elements gives the text of the tokens back. In a list nothing is dropped; in a block any token outside a fixed table is.", "quantifier": "every sequence of tokens, every number and every octave", "why_tests_cant": "the texts and sequences are unbounded; tests cover a few words", "anchors": ["quickly/lang/lilypond.py _id _action _pitch _keyword", "quickly/lang/lilypond.py common identifier list"]}
{"id": "C120", "title": "The listings of a range show what is in it", "statement": "ls() on a range prints the node whose children are iterated over, then exactly its children that are in the range, in order and with their indices; a child is marked as partly in the range exactly when something below it is outside, the current node has an arrow, and lines tell whether something is before and after the range and how many children follow. pwd prints the nodes from the ancestor of the range to the current node.", "quantifier": "every tree, all boundaries, every history of moves and edits of the range", "why_tests_cant": "the trees, boundaries and histories are unbounded", "anchors": ["quickly/node.py Range.ls", "quickly/node.py Range.pwd", "quickly/node.py _pwd"]}
{"id": "C121", "title": "Reading with or without positions gives the same elements", "statement": "The same text read with with_origin=True and with_origin=False (read.lily, read.scm, read.htm, read.tex and the _document functions) raises the same exception or gives trees that are equal: the same classes, heads, spacing and unmodified flags in the same places, that write the same text. Read with the origin, every element has precisely the tokens that it was made from, so the positions of its head and tail are those of its first and last tokens; read without, no element has a position. (Excluded: elements made from no token at all, and numbers that become an Int.)", "quantifier": "every sequence of factory calls, constructor calls, class changes and copies that a transform may make, over all classes, tokens and head readers", "why_tests_cant": "A test reads a few snippets in one of the two ways; the claim relates the two ways for all texts", "anchors": ["quickly/dom/base.py:Transform.factory", "quickly/dom/base.py:AdHocTransform.factory", "quickly/dom/element.py:HeadElement.with_origin", "quickly/dom/element.py:HeadElement.from_origin", "quickly/dom/element.py:BlockElement.with_origin", "quickly/dom/element.py:TextElement.from_origin", "quickly/dom/read.py:lily", "quickly/dom/read.py:lily_document"]}
{"id": "C122", "title": "Writing back changes the whole document or nothing", "statement": "edit() of a tree changes the text of its document to the text with the changes, keeps what is after the range, returns the number of changes, and leaves the document as it was when nothing was modified or when some text cannot be written and an exception is raised.", "quantifier": "every tree, document text, tokens, context and range given to edit()", "why_tests_cant": "Positions of later changes depend on the lengths of all earlier ones, and a failure can come at any node after any number of changes; tests try a few small edits.", "anchors": ["quickly/dom/element.py:Element.edit", "quickly/dom/element.py:Element.edits"]}
{"id": "C123", "title": "Rhythm edits done again, and one after another", "statement": "Doing explicit(), implicit() (also per line), remove(), remove_scaling() or remove_fraction_scaling() a second time changes nothing; implicit() followed by explicit() gives the same document as explicit() alone; transform() followed by transform() with the opposite log and the inverse scale restores every duration.", "quantifier": "every document as it is read from text (at most one duration for a note and one scaling for a duration) and every contiguous selection; every log and every scale that is not zero, without dots, for durations that can be written", "why_tests_cant": "The edits carry state from note to note, so what the second edit sees depends on everything the first one did; tests apply one edit to a few fixed lines.", "anchors": ["quickly/rhythm.py:explicit", "quickly/rhythm.py:implicit", "quickly/rhythm.py:remove", "quickly/rhythm.py:remove_scaling", "quickly/rhythm.py:remove_fraction_scaling", "quickly/rhythm.py:transform"]}
{"id": "C124", "title": "Transpositions done one after the other add up", "statement": "After any sequence of transpositions of the same relative or absolute music, every pitch of the result is the pitch the music had, moved by the sum of the intervals. Transposing from a to b and back from b to a restores the sound of every pitch, and its spelling when the first transposition did not have to respell it.", "quantifier": "all relative expressions (with or without start pitch, chords, octave checks) and absolute note lists, and all sequences of transposers of any length", "why_tests_cant": "The claim is about histories of edits of any length, where each step rereads the text the previous step wrote; a unit test transposes once.", "anchors": ["quickly/transpose.py:Transposer.transpose", "quickly/transpose.py:Transpose", "quickly/transpose.py:transpose"]}
{"id": "C125", "title": "Transposing a document transposes every pitch in its own context", "statement": "Transposing a document with any nesting of absolute, \\relative, \\fixed, \\transpose, \\key, chord, octave check and \\language expressions moves everything that sounds by the interval of the transposer, in every place once; it changes nothing but the pitches in the range: no command, comment, instrument pitch or structure.", "quantifier": "all documents (trees of any depth and width), pitch languages, transposers", "why_tests_cant": "The walk interleaves generators with edits and mutable state over trees of unbounded nesting; unit tests transpose a few flat lines.", "anchors": ["quickly/transpose.py:Transpose.edit_range", "quickly/pitch.py:PitchProcessor.follow_language", "quickly/dom/util.py:skip_comments"]}
{"id": "C126", "title": "Transposing a readable document succeeds", "statement": "Transposing a document whose pitch names and languages are known, in languages that have a name for every transposed pitch, succeeds for every range; when a transposition fails, the exception is a KeyError and nothing else. Languages with names for naturals, sharps, flats and their doubles suffice for every transposer by semitones.", "quantifier": "all documents (for success: those in which \\fixed and \\transpose have their pitches and \\transpose is not in \\relative), ranges, languages and transposers with a regular scale", "why_tests_cant": "Success depends on every name of every language and on the respelling of every pitch, over documents of any size.", "anchors": ["quickly/transpose.py:Transpose.edit_range", "quickly/transpose.py:Transposer.transpose", "quickly/pitch.py:PitchProcessor.write_node"]}
{"id": "C127", "title": "Transposing a selection of a document leaves the rest of the sound alone", "statement": "When a part of a document is selected and transposed, every pitch in the selection sounds transposed and every other pitch sounds as before, also where \\transpose, \\key, \\relative, \\fixed and language commands are nested. A document without any pitch in the selection does not change.", "quantifier": "all documents (trees of any depth), all selections of their pitches, all transposers", "why_tests_cant": "A selection can begin and end anywhere in a tree of any shape; what a later pitch means can depend on earlier ones.", "anchors": ["quickly/transpose.py:Transpose", "quickly/transpose.py:transpose", "quickly/dom/edit.py:Edit"]}
{"id": "C128", "title": "Converting to absolute pitches and transposing commute", "statement": "For relative music, transposing it and then converting it to absolute pitches gives the same pitches as converting it first and transposing the result; both give every pitch of the music moved by the interval, and both succeed when the language has names for the transposed pitches.", "quantifier": "all relative expressions of any nesting of lists, notes and chords (no octave checks, no \\relative inside), with or without a start pitch, all transposers and languages", "why_tests_cant": "It relates two edits that each reinterpret every octave mark of the music; a test can only compare them on a few examples.", "anchors": ["quickly/relative.py:Rel2abs", "quickly/transpose.py:Transpose"]}
{"id": "C129", "title": "Editing some nodes changes the text of these nodes only", "statement": "When in a document that was read the heads or tails of some nodes are changed, or new nodes are added as first child of a node or after another child, with nothing wanted in between, edit() replaces exactly the texts of those heads and tails, inserts the new texts right after the head of their parent or the last text of the child before them, keeps every other character of the document (whitespace and comments included), and returns the number of these changes.", "quantifier": "all trees read from a text that has whitespace where the elements want it (see C52), all sets of changed heads, tails and new children, all texts and tokens", "why_tests_cant": "Whether an edit touches text elsewhere depends on all nodes, tokens and whitespace of the document; tests only look at a few edits.", "anchors": ["quickly/dom/element.py:Element.edit", "quickly/dom/element.py:Element.edits", "quickly/dom/element.py:Element.points"]}
{"id": "C130", "title": "Transposing a document changes the text of the chosen pitches only", "statement": "When a document that was read is transposed and written back with edit(), the new text is the old text in which, of the pitches that are in the chosen range, the names that differ are replaced, the octave marks and octave checks that differ are replaced, and missing octave marks are inserted right after the name. Every other character is kept, and the document then has the transposed music.", "quantifier": "all documents as in C133, all transposers, languages and ranges, all texts and tokens", "why_tests_cant": "Which characters change depends on all pitches, marks, tokens and whitespace of the document; tests only look at some short pieces.", "anchors": ["quickly/transpose.py:Transpose.edit_range", "quickly/pitch.py:PitchProcessor.write_node", "quickly/dom/lily.py:Pitchable.octave", "quickly/dom/lily.py:Pitchable.oct_check", "quickly/dom/element.py:HeadElement.head", "quickly/dom/element.py:Element.edit"]}
{"id": "C131", "title": "Removing nodes deletes their text and at most the whitespace next to it", "statement": "When nodes are removed from a document that was read, edit() deletes their text and keeps all other text. Where whitespace is wanted between the neighbours that remain, exactly that whitespace comes between them; where none is wanted, everything after the removed text is kept. Where nothing was removed no character changes.", "quantifier": "all documents read from a text that has whitespace where the elements want it (see C52), all sets of removed nodes that have a text, all texts and tokens", "why_tests_cant": "Which characters go depends on all nodes, tokens and whitespace around the removed ones; tests only remove single nodes from short texts.", "anchors": ["quickly/dom/element.py:Element.edits", "quickly/dom/element.py:Element.edit", "quickly/dom/element.py:Element.points"]}
{"id": "C132", "title": "Removing durations changes the text of the durations only", "statement": "After rhythm.remove(), remove_scaling(), remove_fraction_scaling() or implicit() on a range of a document, followed by edit(), only durations and scalings of nodes in the range are gone; in the text these are deleted, together with at most whitespace next to them, every other text of a node (comments included) stays, and the document means the rhythm that was computed.", "quantifier": "all documents read from a text that has whitespace where the elements want it (see C52) in which the durations of a note are next to each other, all ranges and texts", "why_tests_cant": "Which durations are removed depends on all nodes before it, and where text is deleted on all tokens around it; tests only look at a few documents.", "anchors": ["quickly/rhythm.py:Remove", "quickly/rhythm.py:RemoveScaling", "quickly/rhythm.py:RemoveFractionScaling", "quickly/rhythm.py:RhythmImplicit", "quickly/dom/lily.py:HandleDuration", "quickly/dom/element.py:Element.edit"]}
{"id": "C133", "title": "Any edit of a tree changes the text of the edited nodes only", "statement": "When a tree that was read from a document is changed in any way that keeps the order of the nodes that stay (heads and tails changed, nodes removed alone or with their children, new nodes added at any place and also around others, spacing changed), edit() replaces exactly the texts of changed heads and tails in their place, inserts new texts right after the text before them with the whitespace that is wanted between, deletes removed texts together with at most the whitespace next to them, and changes nothing between two neighbouring texts that stay next to each other, except adding whitespace that is now wanted between texts that touch; it returns the number of changes.", "quantifier": "all trees read from a text that has whitespace where the elements want it (see C52), all combinations of changes, additions and removals, all texts, tokens and ranges", "why_tests_cant": "Edits at different places meet in the loop over tokens and points; which whitespace survives depends on all nodes around it; tests only look at a few edits.", "anchors": ["quickly/dom/element.py:Element.edit", "quickly/dom/element.py:Element.edits", "quickly/dom/element.py:Element.points"]}
{"id": "C134", "title": "Editing durations changes the text of the durations only", "statement": "After one of the rhythm functions (remove, implicit, also per line, explicit, transform, paste) ran on a document and edit() was called, the nodes have the durations that the function computed. Nothing else in the tree changed, and no node outside the range changed. The text of the document is the old text in which Durations and scalings that changed are replaced in place, new ones are written after the preceding node and removed ones deleted, and nothing else is touched.", "quantifier": "for every tree as in C133 in which a duration has at most one scaling and the durations of a note are next to each other, every range, each of the rhythm functions with every transformation or list of durations that can be written, every document text, context and position", "why_tests_cant": "Which durations are added, changed or removed depends on all nodes before them, and the text to replace on the positions of all tokens, so examples reach only few combinations", "anchors": ["quickly/rhythm.py:RhythmExplicit", "quickly/rhythm.py:RhythmImplicitPerLine", "quickly/rhythm.py:RhythmTransform", "quickly/rhythm.py:PasteRhythm", "quickly/dom/lily.py:HandleDuration", "quickly/dom/element.py:Element.edit"]}
{"id": "C135", "title": "Adding \\relative changes the text of the music in it only", "statement": "After Abs2rel ran on a document or a part of it and edit() was called, the tree has the \\relative commands and pitches that were computed. Only names and octaves inside the new \\relative commands changed, and nothing else in the tree. The text of the document is the old one in which the new \\relative with its start pitch is inserted, changed names and octave marks are replaced in place and new octave marks inserted after the name, and nothing else is touched.", "quantifier": "for every tree as in C133, every range, every pitch language table, with or without start pitch, every document text, context and position", "why_tests_cant": "The octave of every note depends on all notes before it and the place of each change on all tokens before it, so examples cover only few of the combinations", "anchors": ["quickly/relative.py:Abs2rel", "quickly/pitch.py:PitchProcessor.write_node", "quickly/dom/lily.py:Pitchable", "quickly/dom/element.py:Element.edit"]}
{"id": "C136", "title": "Removing \\relative changes the text of its music only", "statement": "After Rel2abs ran on a document and edit() was called, the tree has the music and pitches that were computed. Every converted \\relative command was replaced by its music, octave checks in it were removed, names and octaves of its pitches changed, and nothing else in the tree changed. The text of the document is the old one in which \\relative with its start pitch and the octave checks are deleted, changed names and octave marks are replaced in place and new octave marks inserted, and nothing else is touched.", "quantifier": "for every tree as in C133, every selection, every pitch language table, with the first pitch absolute or not, every document text, context and position", "why_tests_cant": "The octave of every note depends on all notes before it and the place of each change on all tokens before it, so examples cover only few of the combinations", "anchors": ["quickly/relative.py:Rel2abs", "quickly/pitch.py:PitchProcessor.write_node", "quickly/dom/lily.py:Pitchable", "quickly/dom/element.py:Element.edit"]}
{"id": "C137", "title": "Edits of pitches use the language and version of the document", "statement": "When a part of a document is transposed or made absolute or relative, note names are read in the language that the last \\language or \\include of a language before that part sets, or else that of the given or default processor, and the other preferences of the processor stay. The first pitch in a \\relative without start pitch is absolute as asked for, or else exactly if the numbers in the first \\version of the document are at least 2.18.", "quantifier": "for every document tree, every node in it, every table of languages, every given processor and setting", "why_tests_cant": "The last command before a node depends on the whole tree before it; tests try a few documents with one command", "anchors": ["quickly/transpose.py:Transpose.edit_range", "quickly/relative.py:Rel2abs.edit_range", "quickly/relative.py:Abs2rel._get_settings", "quickly/pitch.py:PitchProcessor.find_language", "quickly/dom/util.py:lilypond_version", "quickly/node.py:Node.backward"]}
{"id": "C138", "title": "Indented output aligns the lines of a block with what is on its first line", "statement": "When a node that indents its contents begins in a line and some of its children are in that line, a later child that begins a new line starts in the column of the child that the node asks to align with (the first of its align indices that is in the line). If that column is more than max_align_indent characters from the start of the text in the line, the new line is indented by indent_width instead.", "quantifier": "for every document tree, indent width, start indent, maximum, align indices, and every amount of text before the node in the line", "why_tests_cant": "The column depends on everything that is written in the line before the child, including nested blocks, and on which level each position is stored for; tests can only try a few layouts.", "anchors": ["quickly/dom/indent.py:Indenter.create_new_block", "quickly/dom/indent.py:Indenter.output_head", "quickly/dom/indent.py:_IndentLevel"]}
{"id": "C139", "title": "Indented output begins and ends with text, and no line has spaces after its text", "statement": "Indented output consists of lines that each end with a newline. A line is blank or ends with a text of the document, so there are no spaces after a text. The first line begins, after its indent, with the first text, and the last line ends with the last text; there are no blank lines at the begin or the end, and a document without any text gives the empty string.", "quantifier": "for every document tree whose spacing consists of spaces or of newlines, every indent width, start indent, maximum and alignment", "why_tests_cant": "Where a line ends depends on all whitespace requests between two texts, of nodes at any depth; tests only try some documents.", "anchors": ["quickly/dom/indent.py:Indenter.write", "quickly/dom/indent.py:Indenter.output_space", "quickly/dom/indent.py:Indenter.output_head"]}
{"id": "C140", "title": "Edits of one document do not influence each other", "statement": "When several edits are applied one after another to a document that stays open, an edit that raises, is readonly or makes no changes leaves the text as it is, and each edit does what it would have done if the document had been opened anew before it.", "quantifier": "every document text, every lexer and transformer, every sequence of edits of any length, whatever the edits do to the tree and whether or not they raise or are readonly", "why_tests_cant": "tests open a new document for each edit and do not go on after one that raises; only a statement about all histories shows what is left over in the tree that the document keeps", "anchors": ["quickly/dom/edit.py: Edit.edit_cursor", "quickly/dom/element.py: Element.edit"]}
{"id": "C141", "title": "An edit moves whole subtrees and leaves the rest of the tree alone", "statement": "When the list of children of a node is edited in any way, all nodes that are not below it are found at the same places as before; every node it then has as a child comes with everything below it, in the same arrangement; nodes that were taken out stay whole trees; no node changes its class or contents. Assigning through a range does the same to the nodes as to the tree the range walks over, and raises the same exceptions.", "quantifier": "all trees with integrity (C36), all permitted edits, all paths in the trees", "why_tests_cant": "Trees of any depth and size, and every kind of edit with every index; a test sees a few nodes of a few trees.", "anchors": ["quickly/node.py:Node.append", "quickly/node.py:Node.insert", "quickly/node.py:Node.__setitem__", "quickly/node.py:Node.replace_with", "quickly/node.py:Node.take", "quickly/node.py:Range.__setitem__"]}
{"id": "C142", "title": "A LaTeX environment made by name is written between its begin and end lines", "statement": "Environment.with_name(name, *children) makes an element that is written as a line \\begin{name}, the texts of the children in order with only whitespace between them, and a line \\end{name} with the same name; both lines contain nothing else, also when there are no children or they write nothing.", "quantifier": "all names, all children of any depth that can be written, all spacing of the environment and the children", "why_tests_cant": "The children are arbitrary trees with their own spacing; a test has a few.", "anchors": ["quickly/dom/tex.py:Environment.with_name", "quickly/dom/tex.py:EnvironmentName.write_head", "quickly/dom/element.py:Element.points", "quickly/dom/element.py:Element.write"]}
{"id": "C143", "title": "The text of a node is a part of the text of the whole", "statement": "When a tree can be written, every node in it can be written by itself, and the text it writes is found, unchanged, in the text of the tree; the texts of two children of a node come one after the other and do not overlap.", "quantifier": "all trees whose elements have no empty origins, all nodes in them, all spacing, all ways to choose the space between children", "why_tests_cant": "The depth of the trees and the spacing that the nodes around ask for are unbounded; a test compares a few trees.", "anchors": ["quickly/dom/element.py:Element.write", "quickly/dom/element.py:Element.points", "quickly/dom/util.py:combine_text", "quickly/dom/util.py:collapse_whitespace"]}
{"id": "C144", "title": "The text of an extracted range", "statement": "The tree that extract_tree() makes of a range is written as the texts of exactly the nodes in the range (with those of the nodes above its start), in document order, each once and with only whitespace between them.", "quantifier": "all trees, all pairs of valid boundaries, all elements and spacings, if the copies write the same heads and tails as the nodes", "why_tests_cant": "Every pair of boundaries in trees of any shape; a test extracts a few ranges.", "anchors": ["quickly/node.py:Range.extract_tree", "quickly/node.py:Range.enter", "quickly/node.py:Range.leave", "quickly/dom/element.py:Element.write"]}
{"id": "C145", "title": "Edits of nodes can be taken back", "statement": "Taking nodes out with take() and assigning them to the empty slice in the same place, inserting a node and popping it, replacing a node and replacing the new one by the old one, and reversing twice each leave every node with the same children in the same order, the same class and contents and the same parent; only a node that was added and removed again keeps the parent it had in between.", "quantifier": "all trees with integrity (C36), all nodes, indices and slices", "why_tests_cant": "Every index and slice, negative or out of range, in trees of any size; a test tries a few.", "anchors": ["quickly/node.py:Node.take", "quickly/node.py:Node.insert", "quickly/node.py:Node.__setitem__", "quickly/node.py:Node.replace_with"]}
{"id": "C146", "title": "A whole history of edits can be taken back", "statement": "After any sequence of edits of nodes (making, appending, inserting, replacing, taking, removing, reversing), assigning to every edited node the children it had before that edit (node[:] = children), the last edit first, is allowed at every step. It gives all nodes the children and parents they had, so the same trees, and every node has its class and contents", "quantifier": "all trees of nodes, all sequences of edits in which only nodes are added that are not in another node", "why_tests_cant": "The sequences of edits are unbounded, and whether the assignments are allowed depends on all later edits", "anchors": ["quickly/node.py:Node.__setitem__", "quickly/node.py:Node.replace_with", "quickly/node.py:Node.take", "quickly/node.py:Node.extend"]}
{"id": "C147", "title": "An edit of the children of a node in the text that is written", "statement": "When the children of a node in a document are edited (added, inserted, removed, replaced, reversed, taken), all texts that do not belong to the node or to what is in it are written as before and in the same order. Between them come the head of the node, the texts of the children it has now, each as it was before, and the tail of the node. After taking back any history of edits the texts are those of before", "quantifier": "all trees of nodes with any texts, all edits, all nodes in the document", "why_tests_cant": "The trees and the edits are unbounded, and any node can be the one that is edited", "anchors": ["quickly/node.py:Node.__setitem__", "quickly/node.py:Node.take", "quickly/node.py:Node.replace_with", "quickly/dom/element.py:Element.points", "quickly/dom/element.py:Element.write"]}
