# Formal model of lightgrep in Rocq/Coq

`properties.jsonl` lists the properties (C01, C02, ...).  `MANIFEST.json` maps each one
to the theorems that prove it.  `rocq/theories` holds the model, the specifications and
the proofs.  `seeded/LOG.jsonl` records deliberate bugs put into a scratch copy of the
model and which theorems caught them.

## Conventions

* Each C++ function is modelled by one total Gallina function, with a comment naming the
  file and lines.  Loops become structural recursion on the list they walk; loops without
  such a measure (the epsilon loop of the search engine, the regular-expression visits of a
  graph) take fuel and return an explicit `Fuel` outcome when it runs out.  A theorem about
  compiled programs then shows that enough fuel exists, i.e. that the loop terminates.
* Undefined behaviour (reading outside the program, outside a per-label table, outside a
  buffer, through a null pointer) is a separate outcome `UB`, never a default value.
* Unsigned arithmetic that can wrap is written with an explicit `mod 2^32` / `mod 2^64`.
* Specifications are separate small definitions (sets as predicates, languages as
  inductive predicates, streams as lists) that do not use the model's helpers.
* `*Model.v` files have definitions only.  `*Proofs.v` files have lemmas.  Each theorem
  file `Thm_*.v` states the final theorems, gives examples meeting their hypotheses and
  ends with `Print Assumptions`.
* Where the code violates a property, there is a theorem whose name ends in `_refuted`
  with a concrete witness, together with the strongest true variant.

## What is modelled, property by property

| Id | Model | Proof |
|---|---|---|
| C01 | `VmModel`: `Vm` with byte and epsilon instructions, frames, `search`, `searchResolve`, `closeOut` on raw 32-bit program words | invariant over operation histories: every emission raises the keyword's match end to the end of the hit |
| C02 | as C01 | invariant on threads: `Start <= offset`, `End` is an offset already seen; needs that FINISH is preceded by MATCH and LABEL, proved for compiled programs |
| C03 | as C01 + compiled programs | via C11/C42: the reported hits are a function of the stream, not of the partition |
| C04 | as C01 | the active list is sorted by start; the first live thread has the least start |
| C05 | as C01, `SparseSet` separately with arbitrary garbage | state equality after reset, for all histories |
| C06, C07 | `startsWith` | invariant on starts; C07 is refuted by a concrete program, proved when the buffer is longer than the filter offset + 1 |
| C08 | `searchResolve` | no thread is created, all starts precede the offset |
| C09 | `bestPair` on the automaton graph | any path from the start state that fails the pair cannot reach a match state |
| C10, C11, C12, C42 | ideal semantics of a program (ordered list of threads, no locks); automaton; regular language | simulation between the engine's thread list and the ideal ordered list, per label |
| C13, C14 | byte-level marshalling | round trip by induction; reads outside the buffer are an outcome of the parser; C14 refuted |
| C15 | abstract FSM/program handles over the pattern map | induction on histories |
| C16-C18 | encoders/decoders on Z | arithmetic, for all inputs |
| C19 | OCE tables, XOR, ROT | finite case analysis over all 256 bytes is a complete proof here (the domain is 256 bytes); ROT by arithmetic for all rotations |
| C20 | `collectRanges`, collapse in `EncoderBase::write`, `UTFBase::writeRange` | language of the output list = encodings of the set |
| C21-C23 | `RangeSet`, `ByteSet`, `SparseSet` | refinement to predicates |
| C24-C26 | decoders as stream transformers, `decode`, `readWindow`, `hitContext` | induction on the buffer; C25 refuted when there is no leading context |
| C27, C28 | `hitwriter.cpp` | list reasoning; C28 refuted |
| C29, C30 | `codegen.cpp`, `compiler.cpp` | layout invariants: each state's code is at its address |
| C31, C32 | `BuildModel`: `nfabuilder.cpp`, `fragment.h`; the explicit stacks of `traverse` become recursion on the tree | each fragment stands for an ordered list of ways through it (`BuildSpec`); every constructor is shown to combine these lists as the pattern operators do, up to later duplicates; leaves through the encoders of C20 |
| C33, C34, C45 | `OptModel`: `pruneBranches`, `mergeIntoFSM`, `subsetDFA`, `labelGuardStates`, `FSMThingy::addPattern` and `finalizeGraph`; the hash maps of processed pairs and of known subsets become association lists in order of insertion (their iteration order is never used), explicit stacks become lists, loops get fuel whose sufficiency is proved | `OptSpec`: invariants of an automaton under construction (`fsm_inv`); pruning, merging, determinizing (any depth) and guard labels keep acceptance per label and, under stated conditions, the preferred match; C45 and parts of C12, C34, C42, C43 refuted by witness |
| C10, C11, C12, C42, C43 from patterns on | `Thm_Pipe`: `add_all` (a sequence of lg_add_pattern), `finalizeGraph`, `createProgram`, `session` | composition of C31, C33, C34 with the theorems on compiled programs, for any DeterminizeDepth |
| C02, C10, C32, C35, C42 from parsed patterns on | `Thm_Api`: `add_parsed` (`reduce`, then `addPattern`) | `ReduceEmpty` and `ReduceSub`: the rewrites keep whether the empty string matches and never add a text; composed with `Thm_Pipe` |
| C35 | `PatModel`: parse trees (parsenode.h), every rewrite of `rewriter.cpp` that is called, `reduce` of parser.cpp. Pointers and in-place updates become functions on trees; the unused functions of rewriter.cpp (`prefers_zero_length_match`, printing) are left out | `PatSpec` gives trees a language and an order of backtracking; each rewrite is shown to keep both, or refuted by a witness; the whole sequence keeps the chosen match under stated side conditions |
| C36, C37 | `instructions.cpp`, `states.cpp`, `transitionfactory.h` | bit arithmetic, case analysis |
| C38 | `VectorFamily` (zero/one/many representation of a list) and `Graph` with both of its families, including `removeEdge` and `removeVertex` | refinement to a plain list of lists, over all histories; `removeVertex` refuted for a vertex with two in-edges |
| C39 | `parseutil` | induction on digits |
| C40 | `addPatternList` | refuted (returns -1 whenever an error slot is given) |
| C41 | reader/searcher as a two-process system with all interleavings | invariant |
| C46-C48 | `ParseModel`: `utf8_to_unicode`, `transform_utf8_to_unicode` (unicode.h), the lexer and every rule of `re_grammar.ypp`, `nodesUpperBound` and the reserve of parsetree.cpp | `ParseGrammar`: invariants by mutual induction on derivations; `ParseRun`: the parser ends with fuel linear in the text, and what it returns is derived; `ParseText`: which bytes a token comes from |
| C49-C51 | as C46, composed with `Thm_Api` and `Thm_Pipe`; ICU's case closure is a relation `R` (`icu_folds`) | fixed strings are flat trees, which the rewrites only rebalance; sets are compared by counting; hits follow from `searched_hits_leftmost` |
| C52, C53 | as C49-C51 | classes are read as expressions (`cexpr`, `mean`) and patterns as languages (`says`), both from tokens and without the model's sets and trees; the grammar relation is followed rule by rule; hits follow from `reduce_adds_nothing` and, where the rewrites keep the language, `searched_hits_leftmost` |
| C54 | as C53 | the tokens are described by their text (`piece`, in ASCII), with what may follow; both directions by cases on the first characters, using the numeral theorems of C39 |
| C55 | as C46; the rules carry flags for the conflicts bison resolves by shifting (a hyphen after a character of a class, a '{' after an atom) | `ParseFull`: by mutual induction on derivations, the parser started on derived tokens and anything that may follow stops right after them with the derived tree; unambiguity follows since the parser is a function |
| C56 | as C53 | `ParseRead`: a function that reads an expression or a language off the tokens, shown to find every reading the rules allow; as it is a function there is only one |
| C57 | `UnparseModel` (`unparser.cpp`, `parsenode.cpp:20-50`): how a tree is written as text | `UnparseTree`: by induction on the tree, its text is cut into tokens that the grammar derives the tree from, associated to the left; `UnparseClass`: an invariant of the loop over the 256 bytes gives the text of a class as ranges, which the class parser is followed on. Characters that need an escape and do not get one, bytes, code points beyond Latin-1 and brackets in classes are refuted by examples. Which classes are covered depends on `negated`, that is on the model's own choice of when to negate; classes whose caret has to be moved are not covered |

## Not modelled

* The memory allocator, exceptions other than as an outcome, threads other than C41.
* ICU: `ICUEncoder`, `ICUDecoder`, `icuutil.cpp` and the Unicode property tables (external
  library, not in the repository).
* The bison-generated parser tables, the parser's stack and its limit of 10000 entries.  The
  grammar is modelled as a relation and as a parser by recursive descent (`ParseModel`) that makes
  the choices bison makes for it; the two are proved to agree (C55).  In the parser model ICU is a parameter (names, properties, case
  closure) and `HAVE_ICU` is assumed; texts of error messages are left out.
* Writing trees that contain look-around (`unparse` throws) is modelled as `Throw`; printing trees
  for debugging (`operator<<` on `ParseTree`) is not modelled.
* Trace output (`LBT_TRACE_ENABLED`), command-line option parsing, JNI and Python bindings.

## Trusted base

* Coq 8.16.1's kernel (including `vm_compute` where used).
* The axioms printed by `Print Assumptions` for each theorem.  Every theorem named in
  `MANIFEST.json` prints "Closed under the global context", so there are none.  (Seven
  constants of the standard library's module type instance `Coq.ssr.ssrunder.Under_rel` are
  loaded with the library and show up in a whole-library check; no theorem uses them.)
* That the Gallina definitions describe the cited C++ code; every definition carries the
  file and lines it was read from so this can be checked by reading.
