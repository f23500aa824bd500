{"id": "C01", "title": "Hits of one keyword are reported in increasing, non-overlapping order", "statement": "In every history of lg_search, lg_search_resolve and lg_closeout_search calls made on a context since its creation or last reset, each hit reported for a keyword starts at or after the end of the hit previously reported for that same keyword.", "quantifier": "every program (compiled or not), every sequence of calls, every buffer content and start offset", "why_tests_cant": "the order emerges from thread lists and per-keyword match ends over unboundedly many calls; a test sees one history", "anchors": ["src/lib/vm.cpp: Vm::_executeEpsilon, Vm::closeOut, Vm::search, Vm::searchResolve", "include/lightgrep/api.h: lg_search, lg_closeout_search"]}
{"id": "C02", "title": "Every reported hit is a non-empty range of bytes that were really searched", "statement": "For a compiled program, each reported hit has Start < End, Start is not before the start offset of the first buffer since reset, End is not after the end of the last buffer given, and KeywordIndex is the index of a keyword of the program.", "quantifier": "every set of keywords, every stream of contiguous buffers", "why_tests_cant": "needs an invariant over all thread states of all programs", "anchors": ["src/lib/vm.cpp: Vm::_executeEpsilon, Vm::_executeNewThreads, Vm::closeOut", "include/thread.h: Thread"]}
{"id": "C03", "title": "How a stream is cut into buffers does not change the hits", "statement": "Searching a byte stream as one buffer, or as any sequence of consecutive buffers with consecutive start offsets, and then closing out, reports for each keyword the same hits in the same order.", "quantifier": "every set of keywords, every stream, every partition of the stream into buffers (including empty and one-byte buffers)", "why_tests_cant": "exponentially many partitions; the prefilter is only applied away from buffer ends, so different code runs for different partitions", "anchors": ["src/lib/vm.cpp: Vm::search, Vm::_executeFrame", "include/lightgrep/api.h: lg_search"]}
{"id": "C04", "title": "The value returned by lg_search bounds every later hit from below", "statement": "After lg_search returns offset r, every hit later reported by further lg_search / lg_search_resolve / lg_closeout_search calls on the same context, which was not already determined at that moment, starts at or after r; no match starting before r can be found by further searching.", "quantifier": "every program, every buffer, every continuation of the stream", "why_tests_cant": "quantifies over all future inputs", "anchors": ["src/lib/vm.cpp: Vm::_startOfLeftmostLiveThread, Vm::search, Vm::searchResolve", "include/lightgrep/api.h: lg_search"]}
{"id": "C05", "title": "lg_reset_context restores the initial state", "statement": "After lg_reset_context, all later calls report exactly the hits and return exactly the values that they would on a newly created context for the same program.", "quantifier": "every program, every history of calls before the reset, every history after it", "why_tests_cant": "tests exercise a few histories; leftovers in sparse sets or match ends only show under particular ones", "anchors": ["src/lib/vm.cpp: Vm::reset, Vm::Vm", "include/sparseset.h: SparseSet::clear"]}
{"id": "C06", "title": "lg_starts_with reports only hits that begin at the first byte", "statement": "On a fresh or reset context, every hit reported by lg_starts_with starts at startOffset, each keyword is reported at most once, and the context is afterwards as if fresh.", "quantifier": "every program, every buffer, every start offset", "why_tests_cant": "must hold for all inputs", "anchors": ["src/lib/vm.cpp: Vm::startsWith"]}
{"id": "C07", "title": "lg_starts_with finds every keyword that matches at the first byte", "statement": "If some prefix of the buffer matches a keyword, lg_starts_with reports a hit for that keyword.", "quantifier": "every set of keywords, every buffer", "why_tests_cant": "depends on how the buffer length relates to the prefilter offset chosen by the compiler", "anchors": ["src/lib/vm.cpp: Vm::startsWith (line 536)", "src/lib/program.cpp", "src/lib/utility.cpp: bestPair"]}
{"id": "C08", "title": "lg_search_resolve starts no new match", "statement": "Every hit reported by lg_search_resolve (and by closing out after it) starts before the start offset passed to it; it only resolves matches already in progress.", "quantifier": "every program, every history before the call, every buffer", "why_tests_cant": "must hold for all histories", "anchors": ["src/lib/vm.cpp: Vm::searchResolve"]}
{"id": "C09", "title": "The prefilter never loses a match", "statement": "Whether or not the two-byte prefilter is consulted, the hits reported are the same: a position rejected by the filter is never the start of a match of any keyword.", "quantifier": "every compiled program, every buffer, every position", "why_tests_cant": "the filter is a heuristic choice over all automata; a test can only sample", "anchors": ["src/lib/utility.cpp: bestPair", "src/lib/compiler.cpp: Compiler::createProgram", "src/lib/vm.cpp: Vm::_executeFrame"]}
{"id": "C10", "title": "No false hits", "statement": "Every reported hit for a keyword is a range of the stream whose bytes match that keyword's pattern in that keyword's encoding.", "quantifier": "every set of keywords and encodings, every stream, every partition into buffers", "why_tests_cant": "end-to-end over parser, automaton construction, merging, determinization, code generation and execution", "anchors": ["src/lib/nfabuilder.cpp", "src/lib/nfaoptimizer.cpp", "src/lib/codegen.cpp", "src/lib/vm.cpp"]}
{"id": "C11", "title": "No missed matches", "statement": "For every range of the stream whose bytes match a keyword, some hit reported for that keyword contains the first byte of the range.", "quantifier": "every set of keywords, every stream, every range", "why_tests_cant": "completeness over all inputs; interplay of locks, labels, leads and live sets in the search engine", "anchors": ["src/lib/vm.cpp: Vm::_executeEpsilon, Vm::_liveCheck", "src/lib/codegen.cpp"]}
{"id": "C12", "title": "Keywords do not interfere with each other", "statement": "The hits reported for a keyword are the same whether it is searched for alone or together with any other keywords.", "quantifier": "every set of keywords, every stream", "why_tests_cant": "sets of keywords are unbounded; sharing of states and of check-halt locks between keywords is what could break it", "anchors": ["src/lib/nfaoptimizer.cpp: mergeIntoFSM, labelGuardStates", "src/lib/vm.cpp"]}
{"id": "C13", "title": "Serializing a program and reading it back gives the same program", "statement": "For every program handle that takes up less than 2^31 bytes, lg_write_program writes exactly lg_program_size bytes, and lg_read_program of those bytes (and of any buffer beginning with them) gives a handle with the same pattern information and the same instructions, filter, filter offset, label and check counts, hence the same hits.", "quantifier": "every program and pattern list whose strings contain no NUL", "why_tests_cant": "all sizes and byte values", "anchors": ["src/lib/lightgrep_c_api.cpp: write_program, read_program", "src/lib/program.cpp: Program::marshall, Program::unmarshall", "src/lib/pattern_map.cpp: PatternMap::marshall, PatternMap::unmarshall"]}
{"id": "C14", "title": "lg_read_program never reads outside the buffer it is given", "statement": "Given any buffer and its size, lg_read_program either returns null or a program, touching only bytes of the buffer.", "quantifier": "every buffer content and size", "why_tests_cant": "adversarial byte strings; tests use well-formed ones", "anchors": ["src/lib/lightgrep_c_api.cpp: read_program", "src/lib/pattern_map.cpp: PatternMap::unmarshall", "src/lib/program.cpp: Program::unmarshall"]}
{"id": "C15", "title": "Pattern indices are unique, dense and stable", "statement": "Each successful lg_add_pattern returns the number of patterns added before it, lg_fsm_pattern_info / lg_prog_pattern_info at that index return the pattern, encoding chain and user index given (for patterns without a NUL), a failed addition adds nothing, and patterns added after lg_create_program do not change the program's list.", "quantifier": "every sequence of additions (successful or failed) and program creations", "why_tests_cant": "histories are unbounded", "anchors": ["src/lib/lightgrep_c_api.cpp: addPattern, create_program", "src/lib/pattern_map.cpp: PatternMap::addPattern"]}
{"id": "C16", "title": "UTF-8 encoding and decoding are inverse on exactly the valid code points", "statement": "A code point is encoded iff it is a Unicode scalar value; decoding the encoding returns it with its length; whenever decoding a byte buffer succeeds with length n the code point's encoding is exactly those n bytes.", "quantifier": "every 32-bit integer and every byte buffer (including truncated ones)", "why_tests_cant": "2^32 code points and unbounded buffers", "anchors": ["src/lib/utf8.cpp: UTF8::write", "include/decoders/utf8.h: utf8_to_cp, cp_to_utf8", "include/unicode.h: utf8_to_unicode"]}
{"id": "C17", "title": "UTF-16 encoding and decoding are inverse on exactly the valid code points", "statement": "As for UTF-8, in both byte orders.", "quantifier": "every 32-bit integer, every byte buffer, both byte orders", "why_tests_cant": "as for UTF-8", "anchors": ["include/encoders/utf16.h: UTF16Base::write", "include/decoders/utf16.h: utf16_to_cp, cp_to_utf16"]}
{"id": "C18", "title": "UTF-32 encoding and decoding are inverse on exactly the valid code points", "statement": "As for UTF-8, in both byte orders.", "quantifier": "every 32-bit integer, every byte buffer, both byte orders", "why_tests_cant": "as for UTF-8", "anchors": ["include/encoders/utf32.h: UTF32Base::write", "include/decoders/utf32.h: utf32_to_cp, cp_to_utf32"]}
{"id": "C19", "title": "Byte and character transformations are undone by their decoders", "statement": "For every encoding chain made of ASCII, UTF-8, UTF-16 or UTF-32 with OCE, XOR and ROT transformations (rotations by at most 26 places), decoding the encoding of a text, anywhere in a buffer, gives that text with the positions of its characters.", "quantifier": "every byte, key, rotation amount, code point and chain", "why_tests_cant": "combinations of chain and code point", "anchors": ["src/lib/oceencoder.cpp", "include/encoders/rotencoder.h", "include/encoders/xorencoder.h", "include/decoders/ocedecoder.h, rotdecoder.h, xordecoder.h"]}
{"id": "C20", "title": "A character class matches exactly the encodings of its code points", "statement": "The byte-set sequences produced for a set of code points in an encoding (ASCII, UTF-8, UTF-16, UTF-32, with OCE, XOR and ROT transformations; with or without the encoder's cache) match a byte string iff it is the encoding of some code point of the set.", "quantifier": "every set of code points, every encoding (ASCII, UTF-8, UTF-16, UTF-32, and transformed ones), every byte string", "why_tests_cant": "2^1114112 sets", "anchors": ["src/lib/encoderbase.cpp: EncoderBase::write, collectRanges", "src/lib/utfbase.cpp: UTFBase::writeRange, skipRange", "src/lib/utf8.cpp: UTF8::writeRangeBlock, collectRanges"]}
{"id": "C21", "title": "Code point sets behave as mathematical sets with a canonical form", "statement": "After any sequence of insertions, erasures (of points or ranges), unions, intersections, differences and complements, membership is what set algebra says, and two sets are equal iff they have the same members.", "quantifier": "every sequence of operations, every universe size", "why_tests_cant": "unbounded operation sequences", "anchors": ["include/rangeset.h: RangeSet"]}
{"id": "C22", "title": "Byte sets behave as mathematical sets of 0..255", "statement": "Setting or clearing a range affects exactly that range, iteration visits exactly the members in increasing order, and comparison is a total order consistent with equality.", "quantifier": "every byte set and every range", "why_tests_cant": "2^256 sets", "anchors": ["include/byteset.h: ByteSet::set, ByteSet::for_each_set_bit, ByteSet::compare"]}
{"id": "C23", "title": "Sparse sets behave as sets, whatever garbage their memory held", "statement": "After clear and any sequence of insertions, find answers exactly whether the value was inserted since, regardless of the initial contents of the backing arrays.", "quantifier": "every size, every initial memory content, every sequence of insert and clear", "why_tests_cant": "uninitialised memory cannot be enumerated by tests", "anchors": ["include/sparseset.h: SparseSet"]}
{"id": "C24", "title": "Decoding a buffer accounts for every byte exactly once", "statement": "The decoded values returned for a buffer carry strictly increasing offsets starting at the first byte; consecutive offsets delimit either a valid encoded character that decodes to the value, or a single invalid byte b reported as -b-1.", "quantifier": "every buffer, every encoding chain", "why_tests_cant": "unbounded buffers", "anchors": ["include/decoders/utfdecoderbase.h: UTFDecoderBase::next", "include/decoders/asciidecoder.h", "src/lib/lightgrep_c_util.cpp: decode"]}
{"id": "C25", "title": "lg_read_window counts the undecodable values it returns", "statement": "lg_read_window returns the number of returned values that are not code points.", "quantifier": "every buffer, hit, context size and encoding", "why_tests_cant": "depends on hit position and context size; tests use chosen ones", "anchors": ["src/lib/lightgrep_c_util.cpp: decode (max_inv_bad)", "include/lightgrep/util.h: lg_read_window"]}
{"id": "C26", "title": "lg_read_window and lg_hit_context return a window around the hit", "statement": "The returned values consist of at most preContext values before the hit, then the values of the hit, then at most postContext values after it, then the end marker; offsets lie inside the buffer and do not decrease; and the hit text lies between the returned indices.", "quantifier": "every buffer, hit inside the buffer, context sizes and encoding", "why_tests_cant": "unbounded inputs", "anchors": ["src/lib/lightgrep_c_util.cpp: decode, readWindow, hitContext"]}
{"id": "C27", "title": "Context lines printed around a hit", "statement": "With b lines of context before and a lines after (each below 2^31-1), the printed context starts right after the (b+1)-th line feed before the hit (or at the buffer start) and ends just before the (a+1)-th line end at or after the hit end (or at the buffer end), a trailing CR being dropped with its LF. At 2^31-1 lines the count overflows int and the property fails.", "quantifier": "every buffer, hit and line counts", "why_tests_cant": "unbounded inputs", "anchors": ["src/cmd/hitwriter.cpp: find_leading_context, find_trailing_context"]}
{"id": "C28", "title": "The command-line tool only reads the block it holds when printing a hit", "statement": "When hit context or histograms are enabled, producing the text of any hit reads only the bytes of the current block.", "quantifier": "every file, block size, keyword set", "why_tests_cant": "needs a hit which straddles a block boundary", "anchors": ["src/cmd/hitwriter.cpp: HitOutputData::decodeContext", "src/cmd/searchcontroller.cpp: SearchController::searchFile"]}
{"id": "C29", "title": "Searching a compiled program never leaves the program", "statement": "For every compiled program, each search call terminates, and never reads an instruction outside the program nor a per-keyword or per-check slot outside its table.", "quantifier": "every set of keywords, every input", "why_tests_cant": "memory safety over all programs", "anchors": ["src/lib/vm.cpp", "src/lib/codegen.cpp"]}
{"id": "C30", "title": "Compilation preserves the automaton", "statement": "The ordered alternatives that the compiled program explores from any state are exactly the ordered transitions of the automaton it was compiled from.", "quantifier": "every automaton with reachable states", "why_tests_cant": "all graphs, all layouts, all jump tables", "anchors": ["src/lib/codegen.cpp: CodeGenVisitor, CodeGenHelper", "src/lib/compiler.cpp: Compiler::encodeState"]}
{"id": "C31", "title": "The automaton built for a pattern accepts exactly the pattern's language", "statement": "For every parsed pattern accepted by lg_add_pattern, the byte strings accepted by its automaton are exactly those matched by the pattern.", "quantifier": "every parse tree, every encoding", "why_tests_cant": "structural induction over all patterns", "anchors": ["src/lib/nfabuilder.cpp: NFABuilder", "include/fragment.h: Fragment"]}
{"id": "C32", "title": "Patterns that can match the empty string are rejected", "statement": "lg_add_pattern fails for a pattern iff the pattern can match the empty string (or contains an unencodable or unsupported element); a failed addition leaves the automaton unchanged.", "quantifier": "every pattern", "why_tests_cant": "structural induction over all patterns", "anchors": ["src/lib/nfabuilder.cpp: NFABuilder::finish, build", "src/lib/fsmthingy.cpp: FSMThingy::addPattern"]}
{"id": "C33", "title": "Merging keywords into one automaton preserves each keyword", "statement": "After adding a pattern to a set, the strings accepted for each keyword index are unchanged for the old ones, and exactly the new pattern's for the new one.", "quantifier": "every automaton and every new pattern", "why_tests_cant": "all pairs of graphs", "anchors": ["src/lib/nfaoptimizer.cpp: NFAOptimizer::mergeIntoFSM, canMerge, processChild"]}
{"id": "C34", "title": "Pruning and determinization preserve the keywords' languages", "statement": "Removing branches after a match and determinizing to any depth leave, for each keyword, the reported hits unchanged.", "quantifier": "every automaton, every depth", "why_tests_cant": "all graphs and depths", "anchors": ["src/lib/nfaoptimizer.cpp: NFAOptimizer::pruneBranches, subsetDFA"]}
{"id": "C35", "title": "Rewriting a pattern before compilation does not change what it matches", "statement": "The reductions applied to a parsed pattern keep the set of strings it matches, and the hit chosen among alternatives.", "quantifier": "every parse tree", "why_tests_cant": "structural induction over all patterns", "anchors": ["src/lib/rewriter.cpp", "src/lib/parser.cpp: parseAndReduce"]}
{"id": "C36", "title": "Instruction packing is faithful", "statement": "Every instruction built by its constructor from operands in range is read back by the virtual machine as the same operation with the same operands and takes as many words as its wordSize tells; operands that do not fit (labels and check indices of more than 24 bits, ranges out of order) are rejected with an exception.", "quantifier": "every operand value", "why_tests_cant": "2^24 operands times 14 operations", "anchors": ["src/lib/instructions.cpp: Instruction::makeRaw24 and makers", "include/instructions.h: Instruction"]}
{"id": "C37", "title": "The smallest transition chosen for a byte set is equivalent to it", "statement": "The transition object chosen for a byte set (byte, not-byte, either, range, any, bit vector...) accepts exactly the bytes of the set, and so does its instruction.", "quantifier": "all 2^256 byte sets", "why_tests_cant": "2^256 sets", "anchors": ["include/transitionfactory.h: TransitionFactory::getSmallest", "src/lib/states.cpp"]}
{"id": "C38", "title": "Graph adjacency lists behave as lists", "statement": "After any sequence of vertex and edge insertions and removals, the out- and in-neighbour lists of every vertex are as if stored as plain lists and mirror one another.", "quantifier": "every sequence of operations", "why_tests_cant": "unbounded operation sequences", "anchors": ["include/graph.h: Graph", "include/vectorfamily.h: VectorFamily"]}
{"id": "C39", "title": "Numeric escapes are parsed to the value written", "statement": "Hexadecimal and octal byte and code point escapes yield exactly the number written, or an error if malformed or out of range.", "quantifier": "every string of digits", "why_tests_cant": "unbounded strings", "anchors": ["src/lib/parseutil.cpp: parseHexChar, parseOctChar", "include/parseutil.h: parseHexCodePoint, parseHexByte, parseOctByte"]}
{"id": "C40", "title": "lg_add_pattern_list reports success iff all lines were added", "statement": "lg_add_pattern_list returns a non-negative value iff every pattern-encoding pair of the list was added without an error, and the error list names exactly the failing lines.", "quantifier": "every pattern list", "why_tests_cant": "unbounded lists", "anchors": ["src/lib/lightgrep_c_api.cpp: addPatternList, lg_add_pattern_list"]}
{"id": "C41", "title": "Searching a file in blocks with a background reader equals searching its bytes", "statement": "For every file, block size above zero and timing of the background reads, the tool searches exactly the file's bytes in order with consecutive offsets, never reads a block which is being written, and comes to an end.", "quantifier": "every file length, block size and interleaving of reader and searcher", "why_tests_cant": "schedules cannot be enumerated", "anchors": ["src/cmd/searchcontroller.cpp: SearchController::searchFile", "src/cmd/reader.cpp: FileReader::read"]}
{"id": "C42", "title": "Leftmost match with the pattern's priority is the one reported", "statement": "For each keyword the hits are found from left to right: the next hit starts at the least offset, not before the end of the previous one, at which the keyword matches, and among the matches starting there it is the one preferred by the pattern's greedy and non-greedy choices.", "quantifier": "every set of keywords, every stream", "why_tests_cant": "requires full functional correctness of the engine", "anchors": ["src/lib/vm.cpp", "src/lib/nfabuilder.cpp"]}
{"id": "C43", "title": "Creating a program always succeeds within its memory", "statement": "lg_create_program for any set of successfully added patterns (within the size limits of 24-bit labels and checks and 32-bit addresses) terminates, does not throw, and writes only inside the program it allocated.", "quantifier": "all sets of patterns, encodings and determinization depths", "why_tests_cant": "The sizes are computed in one pass and the code is written in another; a disagreement between the passes shows only for particular shapes of automata, and then as memory corruption.", "anchors": ["src/lib/compiler.cpp:createProgram", "src/lib/compiler.cpp:createJumpTable", "src/lib/codegen.cpp:calcJumpTableSize", "src/lib/utility.cpp:bestPair"]}
{"id": "C44", "title": "Escaped text of a hit stays on its line and can be read back", "statement": "The escaped form of a hit's text or context contains no control character which separates lines or fields, and distinct texts have distinct escaped forms.", "quantifier": "every byte string", "why_tests_cant": "unbounded inputs; the failing case needs a text with a literal backslash", "anchors": ["src/cmd/hitwriter.cpp: escapeControlChars, HitOutputData::writeContext"]}
{"id": "C45", "title": "A keyword set can be compiled more than once", "statement": "Calling lg_create_program a second time on the same keyword handle, or after adding further patterns, terminates and gives a program that finds the same keywords.", "quantifier": "every set of patterns", "why_tests_cant": "the failing state arises only from a previous call on the same handle", "anchors": ["src/lib/lightgrep_c_api.cpp:362-374", "src/lib/fsmthingy.cpp:51-65", "src/lib/nfaoptimizer.cpp:268-335"]}
{"id": "C46", "title": "Parsing a pattern ends, stays in bounds and follows the grammar", "statement": "lg_parse_pattern's parser ends for every text, reads only the text it is given, computes without overflow, and every tree it makes is derived by the grammar's rules from the tokens of the text.", "quantifier": "every byte string, fixed strings and patterns, all options", "why_tests_cant": "the text is arbitrary and unbounded; reading past the end needs a text cut short within a UTF-8 sequence", "anchors": ["src/lib/re_grammar.ypp", "include/unicode.h:36-140", "src/lib/parser.cpp"]}
{"id": "C47", "title": "Parsing stays within the nodes reserved for it", "statement": "The number of nodes added while parsing a pattern is at most what ParseTree reserves, so that pointers to nodes already added stay valid.", "quantifier": "every byte string, all options", "why_tests_cant": "the count depends on every rule used; the worst case is a text made of particular escapes", "anchors": ["src/lib/parsetree.cpp:21-71", "src/lib/re_grammar.ypp"]}
{"id": "C48", "title": "Parsed trees are well-formed", "statement": "In every tree the parser makes, repetitions have their minimum at most their maximum and a maximum above zero where the shortcut of containsPossibleCountedRepetition relies on it, character classes are canonical sets of code points, and literals are code points.", "quantifier": "every byte string accepted by the parser", "why_tests_cant": "all later stages rely on it for every accepted text", "anchors": ["src/lib/re_grammar.ypp", "src/lib/parser.cpp:27-60", "include/parsenode.h"]}
{"id": "C49", "title": "A fixed string matches exactly the text that was typed", "statement": "A pattern parsed as a fixed string is accepted if its text is non-empty UTF-8 without a zero character, and its hits are the occurrences of the characters of that text in the chosen encoding, from left to right without overlap; in UTF-8 the occurrences of the typed bytes.", "quantifier": "every fixed string, encoding, set of other keywords and stream", "why_tests_cant": "special characters, rewrites keyed on the text and the other keywords could each change what is found", "anchors": ["src/lib/re_grammar.ypp", "src/lib/parser.cpp", "src/lib/rewriter.cpp", "src/lib/lightgrep_c_api.cpp:149-188"]}
{"id": "C50", "title": "Escaping makes a pattern a fixed string", "statement": "A text in which every special character is preceded by a backslash is parsed to the same tree as the text without the backslashes parsed as a fixed string.", "quantifier": "every text, all options", "why_tests_cant": "every character and every neighbourhood of characters would have to be tried", "anchors": ["src/lib/re_grammar.ypp: yylex, consumeEscape"]}
{"id": "C51", "title": "Ignoring case", "statement": "A fixed string parsed without regard to case matches the spellings that differ from it in the case of characters, and no others; texts that differ only in case have the same matches.", "quantifier": "every fixed string, every encoding", "why_tests_cant": "the set of spellings grows exponentially with the text", "anchors": ["src/lib/parseutil.cpp:104-162", "src/lib/re_grammar.ypp:430-446"]}
{"id": "C52", "title": "Character classes", "statement": "A bracketed class stands for the set its text describes: characters, ranges, named sets, nested classes, union, &&, -- and ~~ from the left, negation after closing under case; it is never empty, and it matches exactly the encodings of its characters. A union matches what one of its parts matches, and a double negation what the class matches.", "quantifier": "every class, every option, every encoding", "why_tests_cant": "classes nest without bound and each has more than a million possible members", "anchors": ["src/lib/re_grammar.ypp:520-590", "src/lib/re_grammar.ypp:814-988", "src/lib/parseutil.cpp:104-262"]}
{"id": "C53", "title": "What a pattern says", "statement": "The hits of a pattern are the texts its source says: characters with the case options of their place, '.', bytes, classes, groups, sequence, alternatives and counted repetitions; and wherever such a text begins outside earlier hits, one is found.", "quantifier": "every pattern without look-around, every stream, every chunking", "why_tests_cant": "it relates every pattern text to every stream, through the lexer, parser, rewriter, automaton and program", "anchors": ["src/lib/re_grammar.ypp:139-518", "src/lib/parser.cpp:28-60", "src/lib/rewriter.cpp:1-600", "src/lib/nfabuilder.cpp:150-420"]}
{"id": "C54", "title": "How pattern text is cut into tokens", "statement": "A pattern's characters are cut into tokens in exactly one way: \\n, \\t and the like, \\d and the like, \\xHH, \\x{H...}, \\N{U+H...}, \\N{name}, \\zHH, octal and property escapes stand for what their text says, the longest octal escape is taken, '--', '&&' and '~~' are one token, and a text that cannot be cut is refused.", "quantifier": "every sequence of code points, every ICU", "why_tests_cant": "there are infinitely many texts and every escape depends on what follows it", "anchors": ["src/lib/re_grammar.ypp:1097-1412", "include/parseutil.h:37-223", "src/lib/parseutil.cpp:29-62"]}
{"id": "C55", "title": "The parser accepts exactly the grammar, and the grammar is unambiguous", "statement": "With bison's choices for the conflicts (a hyphen after a character of a class belongs to a range, a '{' after an atom starts a repetition) the grammar derives at most one tree, set of options and number of nodes from the tokens of a pattern, and at most one set from those of a class.  The parser returns a tree exactly if the grammar derives it, and refuses a text exactly if the grammar derives nothing.", "quantifier": "every text, every token sequence, every set of options, every ICU", "why_tests_cant": "a rule that is lost or ambiguous shows only on texts that use it in the right surroundings, and those are infinitely many", "anchors": ["src/lib/re_grammar.ypp:101-102", "src/lib/re_grammar.ypp:130-135", "src/lib/re_grammar.ypp:141-988", "src/lib/re_grammar.ypp:1501-1527"]}
{"id": "C56", "title": "A pattern's text has one meaning", "statement": "The tokens of a class without bytes are read as one expression, and those of a pattern without look-around as one language and one set of options, whichever rules are used.  So whatever is read from an accepted text is exactly what its tree matches, and every hit of the pattern is a text of that language.", "quantifier": "every text, every token sequence, every set of options, every encoding, every ICU, every stream", "why_tests_cant": "that no second reading exists cannot be seen from any number of readings", "anchors": ["src/lib/re_grammar.ypp:101-135", "src/lib/re_grammar.ypp:141-988", "src/lib/parser.cpp:27-61"]}
{"id": "C57", "title": "A tree of plain characters and classes is read back from its text", "statement": "A parse tree of characters below 256 that need no escape, dots, plain classes, concatenations, alternatives and repetitions is written by unparse as a text which the parser reads as the same tree up to association to the left, so with the same language and the same preferences.  A class is plain if its code points from 256 on are all in it when it is written negated and none otherwise, and if either none of 91-94 or all of 90-95 are among the bytes listed.  Other trees need not be read back: counterexamples are proved.", "quantifier": "every such tree, every ICU, with and without Unicode mode", "why_tests_cant": "the tests unparse a list of patterns; there are infinitely many trees and 2^256 classes of bytes", "anchors": ["src/lib/unparser.cpp:18-361", "src/lib/parsenode.cpp:20-50", "src/lib/re_grammar.ypp:101-988"]}
