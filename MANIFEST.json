{
 "claims": [
  {
   "property": "C01",
   "status": "proved",
   "theorems": [
    "hits_ordered"
   ],
   "note": "All programs, all histories of search, resolve and close-out calls, all buffers and offsets."
  },
  {
   "property": "C02",
   "status": "partial",
   "theorems": [
    "compiled_hits_well_formed",
    "hits_well_formed",
    "searched_no_false_hits",
    "searched_no_false_hits_parsed"
   ],
   "note": "From parsed patterns on: for every list of patterns and encodings added with lg_add_pattern and the program lg_create_program makes of them with any DeterminizeDepth, if the program fits in 32-bit addresses and in its automaton no state leads to the only successor of the root and nowhere else (Thm_Pipe.v, `created` and `zero_ok`; at depth 0 the latter is proved if two patterns were added or no pattern matches a text of one byte). Also proved for every automaton meeting `good` and `fits32` (CodegenSpec.v). Missing: the automata without `zero_ok`, where hits can go wrong (determinized_hits_refuted)."
  },
  {
   "property": "C03",
   "status": "partial",
   "theorems": [
    "compiled_chunking_invariant",
    "chunking_invariant",
    "searched_chunking_invariant"
   ],
   "note": "From parsed patterns on: for every list of patterns and encodings added with lg_add_pattern and the program lg_create_program makes of them with any DeterminizeDepth, if the program fits in 32-bit addresses and in its automaton no state leads to the only successor of the root and nowhere else (Thm_Pipe.v, `created` and `zero_ok`; at depth 0 the latter is proved if two patterns were added or no pattern matches a text of one byte). Also proved for every automaton meeting `good` and `fits32` (CodegenSpec.v). Missing: the automata without `zero_ok`, where hits can go wrong (determinized_hits_refuted)."
  },
  {
   "property": "C04",
   "status": "partial",
   "theorems": [
    "compiled_returned_offset",
    "returned_offset_bounds",
    "searched_returned_offset"
   ],
   "note": "From parsed patterns on: for every list of patterns and encodings added with lg_add_pattern and the program lg_create_program makes of them with any DeterminizeDepth, if the program fits in 32-bit addresses and in its automaton no state leads to the only successor of the root and nowhere else (Thm_Pipe.v, `created` and `zero_ok`; at depth 0 the latter is proved if two patterns were added or no pattern matches a text of one byte). Also proved for every automaton meeting `good` and `fits32` (CodegenSpec.v). Missing: the automata without `zero_ok`, where hits can go wrong (determinized_hits_refuted)."
  },
  {
   "property": "C05",
   "status": "proved",
   "theorems": [
    "reset_like_new"
   ],
   "note": "All programs, all histories before and after; the sparse sets are modelled as sets, which C23 justifies."
  },
  {
   "property": "C06",
   "status": "proved",
   "theorems": [
    "starts_with_at_start",
    "starts_with_preferred",
    "compiled_starts_with_partial"
   ],
   "note": "First theorem: all programs. Second: at most one hit per keyword and the context afterwards is as new, for `runnable` programs, which compiled ones are (compiled_runnable)."
  },
  {
   "property": "C07",
   "status": "partial",
   "theorems": [
    "starts_with_complete_refuted",
    "starts_with_complete_partial",
    "compiled_starts_with_partial"
   ],
   "note": "The property is false: the guard in Vm::startsWith drops buffers of length at most filter offset + 1. Proved for the other lengths."
  },
  {
   "property": "C08",
   "status": "proved",
   "theorems": [
    "resolve_starts_nothing",
    "resolve_exact",
    "compiled_resolve_exact"
   ],
   "note": "First theorem: all programs. The others: exactly the matches already begun are reported, for `runnable` and for compiled programs."
  },
  {
   "property": "C09",
   "status": "partial",
   "theorems": [
    "compiled_filter_irrelevant",
    "filter_irrelevant",
    "searched_filter_irrelevant"
   ],
   "note": "From parsed patterns on: for every list of patterns and encodings added with lg_add_pattern and the program lg_create_program makes of them with any DeterminizeDepth, if the program fits in 32-bit addresses and in its automaton no state leads to the only successor of the root and nowhere else (Thm_Pipe.v, `created` and `zero_ok`; at depth 0 the latter is proved if two patterns were added or no pattern matches a text of one byte). Also proved for every automaton meeting `good` and `fits32` (CodegenSpec.v). Missing: the automata without `zero_ok`, where hits can go wrong (determinized_hits_refuted). That the filter of bestPair rejects no matching position is proved for every automaton (bestPair_sound)."
  },
  {
   "property": "C10",
   "status": "partial",
   "theorems": [
    "compiled_no_false_hits",
    "hits_leftmost",
    "searched_no_false_hits",
    "searched_no_false_hits_parsed"
   ],
   "note": "From parsed patterns on: for every list of patterns and encodings added with lg_add_pattern and the program lg_create_program makes of them with any DeterminizeDepth, if the program fits in 32-bit addresses and in its automaton no state leads to the only successor of the root and nowhere else (Thm_Pipe.v, `created` and `zero_ok`; at depth 0 the latter is proved if two patterns were added or no pattern matches a text of one byte). Also proved for every automaton meeting `good` and `fits32` (CodegenSpec.v). Missing: the automata without `zero_ok`, where hits can go wrong (determinized_hits_refuted). searched_no_false_hits_parsed states it for the trees before the rewrites of C35: every hit is a text of the pattern as parsed."
  },
  {
   "property": "C11",
   "status": "partial",
   "theorems": [
    "compiled_no_missed_match",
    "match_covered",
    "landing_zero_refuted",
    "searched_no_missed_match",
    "determinized_hits_refuted"
   ],
   "note": "From parsed patterns on: for every list of patterns and encodings added with lg_add_pattern and the program lg_create_program makes of them with any DeterminizeDepth, if the program fits in 32-bit addresses and in its automaton no state leads to the only successor of the root and nowhere else (Thm_Pipe.v, `created` and `zero_ok`; at depth 0 the latter is proved if two patterns were added or no pattern matches a text of one byte). Also proved for every automaton meeting `good` and `fits32` (CodegenSpec.v). Missing: the automata without `zero_ok`, where hits can go wrong (determinized_hits_refuted). With unlimited determinization the property is false: determinized_hits_refuted finds `(ac|ad|ae|af)*a[bg]`, the letters standing for bytes 1 to 7, in acab at offset 2 instead of 0, because a jump table entry equal to address 0 is taken for no transition."
  },
  {
   "property": "C12",
   "status": "partial",
   "theorems": [
    "keyword_independence_partial",
    "keyword_first_hit_partial",
    "later_keywords_partial",
    "keyword_interference_refuted"
   ],
   "note": "False in general: keyword_interference_refuted gives a pattern whose hit is longer alone than together with another keyword. Proved: the hits agree if no two edges of the pattern's own automaton lead from one state to states that look alike (keyword_independence_partial); for every pattern, the first hits start at one place (keyword_first_hit_partial) and adding keywords later changes nothing for those already added (later_keywords_partial). Any DeterminizeDepth, also different ones for the two programs."
  },
  {
   "property": "C13",
   "status": "proved",
   "theorems": [
    "serialize_round_trip",
    "serialize_large_refuted"
   ],
   "note": "All handles whose serialised form is smaller than 2^31 bytes. serialize_large_refuted: beyond that the size of the pattern list is summed up as an int and writing throws."
  },
  {
   "property": "C14",
   "status": "partial",
   "theorems": [
    "read_program_stays_inside_refuted",
    "read_program_truncated"
   ],
   "note": "The property is false: sixteen zero bytes, or a pattern list without a terminating zero, make lg_read_program read past the buffer. Proved: every proper prefix of a written program is rejected without reading past its end."
  },
  {
   "property": "C15",
   "status": "proved",
   "theorems": [
    "pattern_indices_stable",
    "pattern_with_nul_refuted"
   ],
   "note": "Every history of calls on any number of handles; patterns without NUL and fewer than 2^31 additions. pattern_with_nul_refuted shows that a pattern with a NUL is recorded only up to it. Whether a pattern compiles is a parameter; that a failed compilation leaves the automaton alone is C32."
  },
  {
   "property": "C16",
   "status": "proved",
   "theorems": [
    "utf8_encodes_exactly",
    "utf8_decodes_exactly",
    "utf8_prefix_free"
   ],
   "note": "All code points and all byte sequences, against RFC 3629 restated as an inductive relation."
  },
  {
   "property": "C17",
   "status": "proved",
   "theorems": [
    "utf16_encodes_exactly",
    "utf16_decodes_exactly"
   ],
   "note": "Both byte orders, against RFC 2781 restated as an inductive relation."
  },
  {
   "property": "C18",
   "status": "proved",
   "theorems": [
    "utf32_encodes_exactly",
    "utf32_decodes_exactly"
   ],
   "note": "Both byte orders."
  },
  {
   "property": "C19",
   "status": "proved",
   "theorems": [
    "chain_round_trip",
    "rot_round_trip_refuted"
   ],
   "note": "All chains of rotations by at most 26 places, a character set, and OCE and XOR transformations; all texts and surrounding bytes. rot_round_trip_refuted: a rotation by more than 26 is not undone (RotDecoder wraps modulo 2^32); such a chain cannot be named through parseChain."
  },
  {
   "property": "C20",
   "status": "proved",
   "theorems": [
    "class_matches_exactly",
    "class_requests_exact"
   ],
   "note": "All encoders built from the base character sets and the transformations, all classes built with the set operations, any sort that permutes. Second theorem: through CachingEncoder for every sequence of requests, with the preset entries of the UTF encoders. ICU encoders are not modelled."
  },
  {
   "property": "C21",
   "status": "proved",
   "theorems": [
    "rangeset_membership",
    "rangeset_inside_universe",
    "rangeset_equality",
    "rangeset_queries",
    "rangeset_small_bitset_refuted",
    "rangeset_empty_range_refuted"
   ],
   "note": "All expressions over insertions, erasures, unions, intersections, differences, symmetric differences and complements; two constructors that misbehave outside their preconditions are shown by refuted theorems."
  },
  {
   "property": "C22",
   "status": "proved",
   "theorems": [
    "byteset_membership",
    "byteset_iteration",
    "byteset_order"
   ],
   "note": "All expressions over single and range updates, complement, union, intersection and difference; iteration; memcmp order."
  },
  {
   "property": "C23",
   "status": "proved",
   "theorems": [
    "sparse_set_is_set",
    "sparse_set_garbage_independent",
    "sparse_set_fill_needed_refuted"
   ],
   "note": "sparseset.h over arbitrary initial Sparse/Dense memory. The refuted theorem is about the comment in the code that zero-filling is unnecessary: without the fill, garbage can make find succeed on an empty set because the 32-bit sum wraps."
  },
  {
   "property": "C24",
   "status": "proved",
   "theorems": [
    "decoding_accounts_for_bytes"
   ],
   "note": "All chains over ASCII and the UTF encodings, all buffers and sub-ranges of them."
  },
  {
   "property": "C25",
   "status": "partial",
   "theorems": [
    "bad_count_without_context_refuted",
    "bad_count_with_context_partial"
   ],
   "note": "The property is false when the hit begins the buffer or no leading context is asked for: the count is then one too small, modulo 2^32. It holds in all other cases (leading context below 2^30 values)."
  },
  {
   "property": "C26",
   "status": "proved",
   "theorems": [
    "window_around_hit",
    "hit_context_text"
   ],
   "note": "All chains over ASCII and the UTF encodings, all buffers, hits and context sizes. Note that bad bytes put before the decoded leading context are reported raw, without undoing byte transformations."
  },
  {
   "property": "C27",
   "status": "proved",
   "theorems": [
    "leading_context_lines",
    "trailing_context_lines",
    "context_lines_largest_refuted"
   ],
   "note": "All buffers, hits and line counts below 2^31-1; context_lines_largest_refuted shows the int overflow at 2^31-1 in hitwriter.cpp."
  },
  {
   "property": "C28",
   "status": "partial",
   "theorems": [
    "context_of_earlier_hit_refuted",
    "context_of_hit_in_block"
   ],
   "note": "Refuted: for a hit that began before the block held (always so for hits reported at close-out, when the held block is empty) the read is before the block. It holds for hits inside the block, and then the text decoded is exactly the block's."
  },
  {
   "property": "C29",
   "status": "partial",
   "theorems": [
    "compiled_search_safe",
    "search_safe",
    "searched_safe"
   ],
   "note": "From parsed patterns on: for every list of patterns and encodings added with lg_add_pattern and the program lg_create_program makes of them with any DeterminizeDepth, if the program fits in 32-bit addresses and in its automaton no state leads to the only successor of the root and nowhere else (Thm_Pipe.v, `created` and `zero_ok`; at depth 0 the latter is proved if two patterns were added or no pattern matches a text of one byte). Also proved for every automaton meeting `good` and `fits32` (CodegenSpec.v). Missing: the automata without `zero_ok`, where hits can go wrong (determinized_hits_refuted)."
  },
  {
   "property": "C30",
   "status": "partial",
   "theorems": [
    "compiled_preference",
    "landing_zero_refuted"
   ],
   "note": "The preferred match at each offset is the automaton's, for every automaton meeting `good`. False when gd_zero fails: a jump table entry equal to address 0 is taken for no transition."
  },
  {
   "property": "C31",
   "status": "proved",
   "theorems": [
    "automaton_language"
   ],
   "note": "For every tree the parser hands to the builder (after the rewrites, which are C35), every encoder chain over ASCII and UTF-8/16/32 with OCE, XOR and ROT, and every way std::sort may order equal elements."
  },
  {
   "property": "C32",
   "status": "partial",
   "theorems": [
    "build_outcome",
    "build_fails_exactly",
    "lookaround_refused",
    "keywords_added",
    "refused_exactly",
    "unencodable_leaf_refuted"
   ],
   "note": "refused_exactly: a parsed pattern, with the rewrites of C35 in between, is refused exactly if it has a look-around, matches the empty string or one of the leaves left by the rewrites has no encoding. keywords_added: in any sequence of additions, the others are as if a refused one had not been made. As stated the property is false: the rewrites can drop a leaf without encoding, and the pattern is then accepted (unencodable_leaf_refuted, `x\u00e9??` in ASCII)."
  },
  {
   "property": "C33",
   "status": "partial",
   "theorems": [
    "merging_keeps_keywords",
    "keywords_added",
    "pattern_language_refuted"
   ],
   "note": "merging_keeps_keywords proves the property for mergeIntoFSM: old keywords keep their texts, the new one has exactly those of the automaton merged in. Over the whole of lg_add_pattern (keywords_added) the new keyword accepts a part of the pattern's texts which holds a prefix of each: pruneBranches drops texts that can never be preferred, e.g. xy of `x|xy` (pattern_language_refuted)."
  },
  {
   "property": "C34",
   "status": "partial",
   "theorems": [
    "pruning_keeps_preference",
    "guards_keep_keywords",
    "determinization_keeps_keywords",
    "finalizing_keeps_keywords",
    "depth_irrelevant_partial",
    "determinized_hits_refuted"
   ],
   "note": "Pruning, determinizing to any depth and the marking of guard states each keep, for every keyword and text, the preferred match; the last two also keep exactly the texts. Hits are the same for any two depths if in both automata no state leads to the only successor of the root and nowhere else (depth_irrelevant_partial). Without that they are not: the code generator gives such a state's successor address 0, which jump tables take for no transition (determinized_hits_refuted)."
  },
  {
   "property": "C35",
   "status": "partial",
   "theorems": [
    "ways_lang",
    "right_associative_exact",
    "useless_repetitions_exact",
    "combine_language",
    "combine_choice",
    "combine_choice_refuted",
    "combine_wrap_refuted",
    "trailing_empty_choice_partial",
    "trailing_empty_refuted",
    "trailing_greedy_choice_partial",
    "trailing_greedy_refuted",
    "empty_subtrees_exact_partial",
    "empty_subtrees_refuted",
    "no_zero_repetition_left",
    "lookaround_refused",
    "reduce_choice_partial",
    "reduce_adds_nothing",
    "reduce_keeps_empty",
    "searched_hits_chosen_parsed_partial"
   ],
   "note": "The property as stated is false: four rewrites lose matches or change the one chosen, each with a witness (*_refuted). reduce_choice_partial proves that the whole sequence keeps the chosen match for every pattern without a non-greedy repetition inside a repetition, without an only-empty branch before the last of an alternation, and combining only plain repetitions. Without those conditions: the rewrites never add a text (reduce_adds_nothing) and keep whether the empty string matches (reduce_keeps_empty)."
  },
  {
   "property": "C36",
   "status": "proved",
   "theorems": [
    "instruction_faithful",
    "instruction_rejected"
   ],
   "note": "All constructors and operands of their C++ types."
  },
  {
   "property": "C37",
   "status": "proved",
   "theorems": [
    "smallest_transition_equivalent",
    "smallest_instruction_equivalent",
    "transition_order",
    "factory_shares_equals"
   ],
   "note": "All byte sets; also that TransitionFactory shares exactly equal transitions."
  },
  {
   "property": "C38",
   "status": "partial",
   "theorems": [
    "graph_lists_are_lists",
    "graph_lists_mirror",
    "remove_vertex_refuted",
    "remove_vertex_small_partial"
   ],
   "note": "Proved for every history of vertex and edge insertions and edge removals. removeVertex (used only by the unit tests) reads a dangling iterator for a vertex with two in-edges, see remove_vertex_refuted; the partial theorem covers vertices with at most one edge each way."
  },
  {
   "property": "C39",
   "status": "proved",
   "theorems": [
    "hex_byte_value",
    "hex_code_point_value",
    "oct_byte_value"
   ],
   "note": "parseHexByte, parseHexCodePoint and parseOctByte on all character sequences. Named code points ask ICU, which is not modelled."
  },
  {
   "property": "C40",
   "status": "partial",
   "theorems": [
    "list_success_refuted",
    "list_without_slot_refuted",
    "list_bad_option",
    "list_errors_exact",
    "list_pieces"
   ],
   "note": "Refuted: with an error slot the value returned is always -1 (list_success_refuted), without one any list with a pattern dereferences null (list_without_slot_refuted), and an option column which is no boolean loses the other errors and the remaining lines (list_bad_option). What holds: otherwise the error list names exactly the failing lines (list_errors_exact)."
  },
  {
   "property": "C41",
   "status": "proved",
   "theorems": [
    "block_is_stable",
    "file_searched_exactly",
    "file_search_ends",
    "mapped_file_searched_exactly"
   ],
   "note": "All interleavings of the main thread and the reader at the granularity of single bytes, for FileReader; and for the memory mapped reader. Read errors are left out."
  },
  {
   "property": "C42",
   "status": "partial",
   "theorems": [
    "compiled_hits_leftmost",
    "hits_leftmost",
    "landing_zero_refuted",
    "automaton_choice_partial",
    "pattern_choice_partial",
    "automaton_choice_refuted",
    "automaton_loop_choice_refuted",
    "searched_hits_leftmost",
    "searched_hits_chosen_partial",
    "merging_choice_refuted",
    "merging_keeps_preference_partial",
    "determinized_hits_refuted",
    "searched_hits_chosen_parsed_partial"
   ],
   "note": "searched_hits_leftmost: from patterns on, hits are found from left to right at the least offset where the pattern matches (any DeterminizeDepth, conditions of `created`). searched_hits_chosen_partial: each hit is the match a backtracking matcher chooses, if the pattern repeats nothing that can match the empty string, does not end in a choice of stopping, its leaves are prefix-free and no two edges of its automaton lead from one state to states that look alike. Each of the conditions is needed (automaton_loop_choice_refuted, automaton_choice_refuted, merging_choice_refuted)."
  },
  {
   "property": "C43",
   "status": "partial",
   "theorems": [
    "compile_succeeds",
    "duplicate_edges_refuted",
    "program_created",
    "shallow_determinization_refuted"
   ],
   "note": "program_created: from patterns on, the graph passes end for every DeterminizeDepth; creation succeeds if a pattern was added, the program fits in 32-bit addresses, `zero_ok` holds and the depth is 0 or at least 2^24 or no edge is repeated. At depth 1 createJumpTable writes past the program for `([ab]|[ac]|[ad]|[ae])h` (letters standing for bytes 1, 2, ...) (shallow_determinization_refuted)."
  },
  {
   "property": "C44",
   "status": "partial",
   "theorems": [
    "escaped_text_one_line",
    "escaping_ambiguous_refuted"
   ],
   "note": "The structure claim and the inverse hold for texts without a backslash; escaping_ambiguous_refuted shows backslashes are not escaped, so the printed text is ambiguous in general."
  },
  {
   "property": "C45",
   "status": "partial",
   "theorems": [
    "second_program_refuted",
    "finalizing_keeps_keywords"
   ],
   "note": "False: finalizeGraph changes the automaton in place, and a second lg_create_program on the same handle loses the keyword of `ab` and does not end for `ab+c` (second_program_refuted)."
  },
  {
   "property": "C46",
   "status": "partial",
   "theorems": [
    "parse_grammar",
    "parse_safe",
    "parse_truncated_refuted",
    "parse_number_refuted",
    "name_suffix_refuted"
   ],
   "note": "parse_safe: parsing ends, and is undefined only for texts that end within a UTF-8 sequence or have a row of ten digits; parse_grammar: what it returns is derived by the rules. Both exceptions are real: parse_truncated_refuted (the text is read past its end), parse_number_refuted (signed overflow in `a{2147483648}`). name_suffix_refuted: a character that is not a byte at the end of a name is dropped. ICU is a parameter; bison's tables are replaced by recursive descent that shifts where bison does."
  },
  {
   "property": "C47",
   "status": "partial",
   "theorems": [
    "parse_nodes",
    "parse_nodes_reserved",
    "parse_nodes_bound",
    "nodes_bound_refuted",
    "reserve_wraps_refuted"
   ],
   "note": "parse_nodes_reserved holds unless the 32-bit computation of the reserve wraps (patterns of about 2^30 bytes). nodesUpperBound itself is no upper bound: `\\b` adds 12 nodes and it says 10 (nodes_bound_refuted); the reserve is twice that. parse_nodes_bound: it is one for texts without \\b and \\B. For 2^30 letters the reserve wraps to zero (reserve_wraps_refuted)."
  },
  {
   "property": "C48",
   "status": "proved",
   "theorems": [
    "parse_wellformed",
    "parse_parsed"
   ],
   "note": "parse_parsed: the conditions of `parsed` in Thm_Api.v follow from the text, if the numbers in it have at most d digits and its length times 10^d is below 2^32."
  },
  {
   "property": "C49",
   "status": "proved",
   "theorems": [
    "fixed_exactly",
    "fixed_language",
    "fixed_utf8_language",
    "fixed_accepted",
    "fixed_hits",
    "fixed_hits_utf8"
   ],
   "note": "fixed_hits: from the typed text to the hits, with any other keywords, any encoder of the model and any chunking of the stream (conditions of `created`, Thm_Pipe.v). fixed_accepted: the string is refused exactly if one of its characters has no encoding."
  },
  {
   "property": "C50",
   "status": "proved",
   "theorems": [
    "escaped_as_fixed"
   ],
   "note": "Every text without a zero character, all options."
  },
  {
   "property": "C51",
   "status": "partial",
   "theorems": [
    "insensitive_language",
    "insensitive_hits",
    "ascii_case_irrelevant",
    "ascii_case_symmetric_refuted"
   ],
   "note": "ICU is assumed to close sets under some relation R and to count them (icu_folds). insensitive_language and insensitive_hits: exactly the spellings under R (Unicode) or A-Z/a-z and, for characters from 128 on, R (ASCII). ascii_case_irrelevant: with ASCII case the case of A-Z in the typed text does not matter. Symmetry fails with ASCII case: the Kelvin sign matches k, k does not match the Kelvin sign (ascii_case_symmetric_refuted)."
  },
  {
   "property": "C52",
   "status": "partial",
   "theorems": [
    "class_meaning",
    "class_union_bytes_refuted",
    "class_double_negation_refuted"
   ],
   "note": "class_meaning: all classes without bytes (\\z), with ICU as in C51. With bytes the last sentence fails: `[b[^a\\zFF]]` matches the byte FF though neither `b` nor `[^a\\zFF]` does (class_union_bytes_refuted), and `[^[^a\\zFF]]` does not match it though `[a\\zFF]` does (class_double_negation_refuted)."
  },
  {
   "property": "C53",
   "status": "partial",
   "theorems": [
    "pattern_meaning",
    "pattern_hits",
    "reduce_keeps_language_partial",
    "pattern_found_partial"
   ],
   "note": "`says` (Thm_Meaning.v) gives the meaning from the tokens on, without trees. pattern_hits: every hit is a text of the pattern. pattern_found_partial: from left to right none is missed, for texts without a '?' from the third byte on in which a branch that matches only the empty text is the last of its alternation; otherwise see trailing_empty_refuted and empty_subtrees_refuted (C35). For classes with bytes `says` only repeats the sets the parser computes."
  },
  {
   "property": "C54",
   "status": "proved",
   "theorems": [
    "text_tokens",
    "pattern_text",
    "uncut_refused"
   ],
   "note": "`piece` and `cut_into` (Thm_Text.v) give the text of every token; text_tokens holds in both directions. What names and properties stand for is asked of ICU, an argument of the model."
  },
  {
   "property": "C55",
   "status": "proved",
   "theorems": [
    "grammar_unambiguous",
    "class_unambiguous",
    "parse_exactly",
    "parse_refuses"
   ],
   "note": "The parser tables bison generates are not modelled: the parser is the recursive descent parser of ParseModel, and the grammar is a relation with the flags that resolve its conflicts."
  },
  {
   "property": "C56",
   "status": "proved",
   "theorems": [
    "class_read_once",
    "class_as_read",
    "pattern_read_once",
    "text_as_read",
    "hits_as_read"
   ],
   "note": "`written` (Thm_Class.v), `says` (Thm_Meaning.v) and `cut_into` (Thm_Text.v) say how text is read, independently of the parser. Classes with bytes are read through the grammar, see C52."
  },
  {
   "property": "C57",
   "status": "proved",
   "theorems": [
    "unparse_read_back",
    "unparse_class",
    "unparse_sign_refuted",
    "unparse_wide_refuted",
    "unparse_byte_refuted",
    "unparse_hyphens_refuted",
    "unparse_bracket_refuted",
    "unparse_refused_class_refuted",
    "unparse_wide_class_refuted"
   ],
   "note": "Proved for the trees `plain` and the classes `plain_class` describe (UnparseTree.v, UnparseClass.v). `plain_class` uses `negated`, which is defined with the model's own choice of when to negate, so that choice itself is not checked. Classes whose caret or brackets have to be moved or escaped are not covered. The _refuted theorems show that reading back fails for some other trees: unescaped signs, code points beyond 255, bytes, repeated hyphens, brackets in a class."
  }
 ]
}